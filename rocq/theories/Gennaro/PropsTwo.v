(** C75: two-party key generation, pkg/dkg/gennaro2p. *)
From mathcomp Require Import all_ssreflect all_algebra zify.
From Coq Require Import Field.
From Verif Require Import Lib.Res Lib.Inst Lib.FieldTac Lib.LmodTac Sharing.Model Sharing.Spec Gennaro.Model Gennaro.Spec Gennaro.Proofs Gennaro.TwoModel.
Set Implicit Arguments.
Unset Strict Implicit.
Unset Printing Implicit Defensive.
Import GRing.Theory.
Local Open Scope ring_scope.

(** the counterparty of 1 is 2 and conversely *)
Definition peer (i : nat) : nat := if i == 1%N then 2%N else 1%N.


(** ** the honest messages *)
Section H.
Variables (F : fieldType) (G : lmodType F) (g : G).
Add Field F_field : (f_fth F).
Lemma lagrange2 (f : {poly F}) : (size f <= 2)%N -> 2%:R * f.[1%:R] - f.[2%:R] = f.[0].
Proof. by move=> h; rewrite !(horner_coef_wide _ h) !big_ord_recl !big_ord0 /= !expr0 !expr1; f_fold F; ring. Qed.
Lemma other_gen (h h' : G) (s s1 b0 b1 x : F) :
  (s1 * x + s) *: g + (b1 * x + b0) *: h - ((s *: g + b0 *: h') + (1 * x) *: (s1 *: g + b1 *: h')) = (b1 * x + b0) *: (h - h').
Proof. by lm_reduce F G; ring. Qed.
Lemma new2E (id cid : nat) blind oc (r : F) p : new2 g id cid blind oc r = Ok p ->
  let h := match blind with Some h => h | None => r *: g end in
  [/\ (id = 1%N /\ cid = 2%N) \/ (id = 2%N /\ cid = 1%N), h != 0, (match blind with Some _ => oc | None => true end) = true &
      p = Part2 id cid (Part 1 id 2 2 h [:: (cid, PData None None)] None None None) h].
Proof.
rewrite /new2 /new_participant /=; set h := match blind with Some _ => _ | None => _ end.
set o := match blind with Some _ => _ | None => _ end.
case: ifP => //= hv; case: (altP (h =P 0)) => //= h0; case: o => //= -[<-]; split=> //.
move: hv; rewrite /valid_ids /= !inE /= andbT; lia.
Qed.
Lemma new2_ok (id cid : nat) blind oc (r : F) : (id = 1%N /\ cid = 2%N) \/ (id = 2%N /\ cid = 1%N) ->
  let h := match blind with Some h => h | None => r *: g end in
  h != 0 -> (match blind with Some _ => oc | None => true end) = true ->
  new2 g id cid blind oc r = Ok (Part2 id cid (Part 1 id 2 2 h [:: (cid, PData None None)] None None None) h).
Proof.
move=> hid /=; rewrite /new2 /new_participant; set h := match blind with Some _ => _ | None => _ end => h0 ->.
by case: hid => -[-> ->]; rewrite /= (negbTE h0).
Qed.
Definition at_ (c0 c1 x : F) : F := c1 * x + c0.
Definition ped (h : G) (s : F) (rnd : nat -> F) : ped_result G :=
  PedResult [:: Share 1 (at_ (rnd 0%N) (rnd 2%N) 1%:R); Share 2 (at_ (rnd 0%N) (rnd 2%N) 2%:R)]
            [:: Share 1 (at_ s (rnd 1%N) 1%:R); Share 2 (at_ s (rnd 1%N) 2%:R)]
            [:: s *: g + rnd 0%N *: h; rnd 1%N *: g + rnd 2%N *: h] [:: s *: g; rnd 1%N *: g].
Lemma round1_2E (id cid : nat) h s fr rnd p1 m : (id = 1%N /\ cid = 2%N) \/ (id = 2%N /\ cid = 1%N) ->
  round1_2 g (Part2 id cid (Part 1 id 2 2 h [:: (cid, PData None None)] None None None) h) s fr rnd = (p1, Ok m) ->
  exists sec, [/\ sec != 0, rnd 0%N != 0,
    p1 = Part2 id cid (Part 2 id 2 2 h [:: (cid, PData None None)] None None (Some (ped h sec rnd))) h &
    m = Msg1 [:: sec *: g + rnd 0%N *: h; rnd 1%N *: g + rnd 2%N *: h]
          (Some (Share cid (at_ sec (rnd 1%N) cid%:R))) (Some (Share cid (at_ (rnd 0%N) (rnd 2%N) cid%:R))) h].
Proof.
move=> hid; rewrite /round1_2 /round1 /=.
set sec := match s with Some _ => _ | None => _ end; case: sec => [sec||] //=.
rewrite /ped_split /get_shares; case: (altP (sec =P 0)) => //= s0; case: (altP (rnd 0%N =P 0)) => //= r0.
by case: hid => -[-> ->] /= -[<- <-]; exists sec; split.
Qed.
End H.

(** NewParticipant succeeds exactly for the identifiers 1 and 2 with a generator that is a curve point other than the
    identity; without a generator it draws one whose discrete logarithm it knows *)
Theorem C75_2p_new (F : fieldType) (G : lmodType F) (g : G) (id cid : nat) (blind : option G) (oc : bool) (r : F) :
  (exists p, new2 g id cid blind oc r = Ok p) <->
  ((id = 1%N /\ cid = 2%N) \/ (id = 2%N /\ cid = 1%N)) /\
  match blind with Some h => h != 0 /\ oc = true | None => r *: g != 0 end.
Proof.
split=> [[p hp]|[hid hb]].
  by have [hid h0 ho _] := new2E hp; split=> //; case: blind hp h0 ho => [h|] hp h0 ho; [split|].
eexists; apply: (new2_ok hid); first by case: blind hb => [h []|].
by case: blind hb => [h []|].
Qed.
Print Assumptions C75_2p_new.

(** An honest run: both finish with the same key, the sum of the two secrets times the base point, and their shares
    x1, x2 interpolate to that sum. *)
Theorem C75_2p_agreement (F : fieldType) (G : lmodType F) (g h : G) (sec fresh : nat -> F)
  (secret : nat -> option (option F)) (rnd : nat -> nat -> F) (r : F) :
  h != 0 -> g != 0 ->
  (forall i, secret i = Some (Some (sec i)) \/ (secret i = None /\ fresh i = sec i)) ->
  sec 1%N != 0 -> sec 2%N != 0 -> rnd 1%N 0%N != 0 -> rnd 2%N 0%N != 0 -> sec 1%N + sec 2%N != 0 ->
  exists (p0 p1 p2 p3 : nat -> part2 G) (m1 : nat -> msg1 G) (m2 : nat -> seq G) (x : nat -> F) (W : nat -> seq (nat * G)),
  (forall i, i = 1%N \/ i = 2%N ->
    [/\ new2 g i (peer i) (Some h) true r = Ok (p0 i),
        round1_2 g (p0 i) (secret i) (fresh i) (rnd i) = (p1 i, Ok (m1 i)),
        round2_2 g (p1 i) (Some (m1 (peer i))) = (p2 i, Ok (m2 i)) &
        finalize g (p2 i) (Some (m2 (peer i))) = (p3 i, Ok (Result2 ((sec 1%N + sec 2%N) *: g) (Share i (x i)) (W i)))]) /\
  2%:R * x 1%N - x 2%N = sec 1%N + sec 2%N.
Proof.
move=> h0 g0 hsec s1 s2 r1 r2 hs.
have two i : (1 <= i <= 2)%N -> i = 1%N \/ i = 2%N by lia.
pose o := fun i => [:: peer i].
have cv i : (1 <= i <= 2)%N -> covers 2 i (o i).
  by move/two=> hi; split=> // j; rewrite inE /o /peer; case: hi => ->; rewrite /=; lia.
have [||||p0 [p1 [p2 [p3 [bc1 [sd1 [bc2 [f [W [K1 K2 K3 _ _]]]]]]]]]] :=
  @honest_run F G g h 2 2 sec fresh secret rnd o o o o isT isT h0 g0 hsec.
- by move=> i /two [] ->.
- by move=> i /two [] ->.
- by rewrite big_ltn // big_nat1.
- move=> i hi; split; try exact: cv; split; first exact: cv.
  by rewrite inE /peer; case: (two _ hi) => ->.
have f0 : f.[0] = sec 1%N + sec 2%N by rewrite K3 big_ltn // big_nat1.
have inr i : i = 1%N \/ i = 2%N -> (1 <= i <= 2)%N by lia.
have pk i : i = 1%N \/ i = 2%N -> exists pk, assoc i (sd1 (peer i)) = Some pk.
  move=> /inr hi; have [_ _ + _ _] := K1 i hi; rewrite /o /=.
  case: (assoc i (sd1 (peer i))) => [pk|] //=; first by exists pk.
  by rewrite /round2; case: ifP.
have ppeer i : i = 1%N \/ i = 2%N -> peer (peer i) = i by case=> ->.
have ipeer i : i = 1%N \/ i = 2%N -> peer i = 1%N \/ peer i = 2%N by case=> ->; [right|left].
pose pkt i := odflt (Packet None None) (assoc (peer i) (sd1 i)).
have pktE i : i = 1%N \/ i = 2%N -> assoc (peer i) (sd1 i) = Some (pkt i).
  move=> hi; rewrite /pkt; have [q] := pk _ (ipeer _ hi); rewrite ppeer // => -> //.
exists (fun i => Part2 i (peer i) (p0 i) h), (fun i => Part2 i (peer i) (p1 i) h),
  (fun i => Part2 i (peer i) (p2 i) h), (fun i => Part2 i (peer i) (p3 i) h),
  (fun i => Msg1 (bc1 i) (pk_secret (pkt i)) (pk_blind (pkt i)) h), bc2, (fun i => f.[i%:R]),
  (fun i => [:: (i, W i); (peer i, W (peer i))]).
split=> [i hi|].
  have [e1 e2 e3 e4 e5] := K1 i (inr _ hi); split.
  - by move: e1; rewrite /new2 /o => ->.
  - by rewrite /round1_2 /= e2 /= pktE.
  - move: e3; rewrite /round2_2 /o /=; have := pktE _ (ipeer _ hi); rewrite ppeer // => -> /= e3.
    by rewrite -[Packet _ _]/(Packet _ _); case: (pkt (peer i)) e3 => a b /= ->.
  - by move: e4; rewrite /finalize /o /= => ->; rewrite /= e5 /= f0.
by rewrite -f0 lagrange2.
Qed.
Print Assumptions C75_2p_agreement.

(** Round2 of a participant with generator h on the message of an honest counterparty that used h': the generator in the
    message is not looked at; the message is accepted exactly when the generators agree or the blinding share is 0 *)
Theorem C75_2p_generators (F : fieldType) (G : lmodType F) (g h h' hm : G) (i : nat) (r : F) s s' fr fr' rnd rnd' p0 q0 p1 q1 m m' :
  g != 0 -> i = 1%N \/ i = 2%N ->
  new2 g i (peer i) (Some h) true r = Ok p0 -> new2 g (peer i) i (Some h') true r = Ok q0 ->
  round1_2 g p0 s fr rnd = (p1, Ok m) -> round1_2 g q0 s' fr' rnd' = (q1, Ok m') ->
  exists b, m_bshare m' = Some b /\
  ((exists p2 out, round2_2 g p1 (Some (Msg1 (m_verifiers m') (m_secret m') (m_bshare m') hm)) = (p2, Ok out)) <->
   h = h' \/ sh_val b = 0).
Proof.
move=> g0 hi hp hq h1 h2.
have [hid hh _ ep] := new2E hp; have [hid' hh' _ eq] := new2E hq; rewrite /= in hh hh' ep eq; subst p0 q0.
have [sec [s0 r0 ep1 em]] := round1_2E hid h1; have [sec' [s0' r0' eq1 em']] := round1_2E hid' h2; subst p1 q1 m m'.
eexists; split; first by reflexivity.
rewrite /round2_2 /= /round2 /=.
have -> : (ohead (drop i.-1 (pr_sshares (ped g h sec rnd)))) = Some (Share i (at_ sec (rnd 1%N) i%:R)) by case: hi => ->.
have np : (peer i == i) = false by case: hi => ->.
rewrite /= np eqxx /ped_verify /=.
set b := at_ (rnd' 0%N) _ _.
have -> : (at_ sec' (rnd' 1%N) i%:R *: g + b *: h == commit_eval i%:R 1 (sec' *: g + rnd' 0%N *: h') [:: rnd' 1%N *: g + rnd' 2%N *: h'])
  = (b *: (h - h') == 0).
  by rewrite -subr_eq0 /b /at_ /= other_gen.
rewrite scaler_eq0 subr_eq0; split.
  by case: (altP (b =P 0)) => [-> _|_] /=; [right|case: (altP (h =P h')) => [-> _|_ [p2 [out]]] //; left].
by case=> [->|->]; rewrite eqxx ?orbT /=; do 2!eexists; reflexivity.
Qed.
Print Assumptions C75_2p_generators.

(** The counterparty that sends its second message last chooses the public key.  Whatever it sent in the first round
    (share [x, v] accepted by Round2), for every point T other than the identity the two verifiers below, computed from
    T, its own share and the honest first verifier, make the honest participant finish with the key T. *)
Theorem C75_2p_key_unbiased_refuted (F : fieldType) (G : lmodType F) (g h : G) (i : nat) (r : F) s fr rnd p0 p1 m p2 m' sh out (T : G) :
  i = 1%N \/ i = 2%N ->
  new2 g i (peer i) (Some h) true r = Ok p0 -> round1_2 g p0 s fr rnd = (p1, Ok m) ->
  round2_2 g p1 (Some m') = (p2, Ok out) -> m_secret m' = Some sh -> (sh_id sh)%:R != 0 :> F ->
  T != 0 ->
  let B0 := T - nth 0 out 0 in
  let B1 := (sh_id sh)%:R^-1 *: (sh_val sh *: g - B0) in
  exists p3 x W, finalize g p2 (Some [:: B0; B1]) = (p3, Ok (Result2 T (Share i x) W)).
Proof.
move=> hi hp h1 h2 hs x0 T0 B0 B1.
have [hid hh _ ep] := new2E hp; rewrite /= in hh ep; subst p0.
have [sec [s0 r0 ep1 em]] := round1_2E hid h1; subst p1 m.
move: h2; rewrite /round2_2 /= /round2 /=.
have -> : (ohead (drop i.-1 (pr_sshares (ped g h sec rnd)))) = Some (Share i (at_ sec (rnd 1%N) i%:R)) by case: hi => ->.
have np : (peer i == i) = false by case: hi => ->.
rewrite /= np eqxx /=; case: (ped_verify _ _ _ _ _ _) => [[]||] //=; rewrite hs /= => -[<- eo].
rewrite /finalize /= /round3 /= np /= eqxx /= /fel_verify /= -/B0.
have -> : (sh_val sh *: g == commit_eval (sh_id sh)%:R 1 B0 [:: B1]).
  rewrite /= /B1 mul1r scalerA mulrV ?unitfE // scale1r; apply/eqP.
  by rewrite addrCA subrr addr0.
have eB : sec *: g + B0 = T by rewrite /B0 -eo /= addrCA subrr addr0.
rewrite /= eB (negbTE T0) /=; by do 3!eexists; rewrite /round4 /=; reflexivity.
Qed.
Print Assumptions C75_2p_key_unbiased_refuted.

(** the hypotheses are met: an honest run over the field with 257 elements, and its continuation by an arbitrary key *)
Example C75_hyps : exists p0 p1 p2 m1 m1' p0' p1' out sh,
  [/\ new2 g257 1 2 (Some g257) true 0 = Ok p0, new2 g257 2 1 (Some g257) true 0 = Ok p0',
      round1_2 g257 p0 (Some (Some 3%:R)) 0 (fun k => (k.+1)%:R) = (p1, Ok m1),
      round1_2 g257 p0' None 5%:R (fun k => (k.+4)%:R) = (p1', Ok m1') &
      round2_2 g257 p1 (Some m1') = (p2, Ok out)] /\
  m_secret m1' = Some sh /\ (sh_id sh)%:R != 0 :> F257.
Proof.
pose sec := fun i : nat => if i == 1%N then 3%:R else 5%:R : F257.
pose secret := fun i : nat => if i == 1%N then Some (Some 3%:R) else None : option (option F257).
pose rnd := fun i k : nat => if i == 1%N then (k.+1)%:R else (k.+4)%:R : F257.
have g0 : g257 != 0 by vm_compute.
have hs i : secret i = Some (Some (sec i)) \/ secret i = None /\ (5%:R : F257) = sec i
  by rewrite /secret /sec; case: (i == 1%N); [left|right].
have n1 : (sec 1%N != 0) && (sec 2%N != 0) && (rnd 1%N 0%N != 0) && (rnd 2%N 0%N != 0) && (sec 1%N + sec 2%N != 0) by vm_compute.
move/andP: n1 => [/andP [/andP [/andP [n1 n2] n3] n4] n5].
have [p0 [p1 [p2 [p3 [m1 [m2 [x [W [h _]]]]]]]]] :=
  @C75_2p_agreement F257 _ g257 g257 sec (fun=> 5%:R) secret rnd 0 g0 g0 hs n1 n2 n3 n4 n5.
have [a1 a2 a3 _] := h 1%N (or_introl erefl); have [b1 b2 _ _] := h 2%N (or_intror erefl).
have [_ _ _ eq] := new2E b1; move: (b2); rewrite eq => b2'.
have [sec' [_ _ _ em]] := @round1_2E _ _ _ 2 1 _ _ _ _ _ _ (or_intror (conj erefl erefl)) b2'.
exists (p0 1%N), (p1 1%N), (p2 1%N), (m1 1%N), (m1 2%N), (p0 2%N), (p1 2%N), (m2 1%N); eexists; split; first by split.
by rewrite em; split; [reflexivity|vm_compute].
Qed.
