(** Property theorems for pkg/dkg/frost. *)
From Coq Require Import ZArith.
From mathcomp Require Import all_ssreflect all_algebra zify.
From Verif Require Import Lib.Res Lib.Inst Sharing.Model Sharing.Spec Gennaro.Model Gennaro.Spec
  Frost.DkgModel Frost.DkgProofs.
Set Implicit Arguments.
Unset Strict Implicit.
Unset Printing Implicit Defensive.
Import GRing.Theory.
Local Open Scope ring_scope.
Local Delimit Scope Z_scope with ZZ.

(** C10: n honest participants, any polynomials with non-zero coefficients, any nonces, hash, context
    and map iteration orders: both rounds succeed for all; the key is G * f(0), participant i ends with
    SkShare f(i) and VkShare f(i)*G for one polynomial f with at most t coefficients and
    f(0) = sum of the secrets.  The three side conditions exclude exactly the honest values the code
    rejects: zero coefficients, a zero challenge and a zero share (each of probability 1/q). *)
Theorem C10_frost_dkg_agreement :
  forall (F : fieldType) (G : lmodType F) (g : G) (B : Type) (enc : F -> B) (dec : B -> option F)
    (Hash : seq nat -> F) (penc : G -> seq nat),
  codec_ok enc dec -> base_ok g ->
  forall (n t : nat) (ctx : seq nat) (sec : nat -> F) (secret : nat -> option (option F))
    (rnd : nat -> nat -> F) (oth o2 o2' : nat -> seq nat),
  let cs := fun i => sec i :: mkseq (fun k => rnd i (2 + k)%N) t.-1 in
  (2 <= t)%N -> (t <= n)%N -> (n <= 255)%N ->
  (forall i, secret i = Some (Some (sec i)) \/ (secret i = None /\ rnd i 0%N = sec i)) ->
  (forall i, (1 <= i <= n)%N -> forall a, a \in cs i -> a != 0) ->
  (forall i, (1 <= i <= n)%N ->
     Hash (pok_msg penc i (ctx_byte ctx) (sec i *: g) (rnd i 1%N *: g)) != 0) ->
  (forall i j, (1 <= i <= n)%N -> (1 <= j <= n)%N -> i != j -> (Poly (cs j)).[i%:R] != 0) ->
  (forall i, (1 <= i <= n)%N -> [/\ covers n i (oth i) /\ i \notin oth i, covers n i (o2 i) &
     covers n i (o2' i) /\ i \notin o2' i]) ->
  exists (p0 p1 p2 : nat -> dkg G B) (bc : nat -> bcast1 G) (sd : nat -> seq (nat * share B))
    (f : {poly F}),
  [/\ forall i, (1 <= i <= n)%N ->
      [/\ new_dkg G B i t ctx (Some tt) (oth i) = Ok (p0 i),
          round1 g enc Hash penc (p0 i) (secret i) (rnd i) = (p1 i, Ok (bc i, sd i)),
          round2 g dec Hash penc (p1 i) [seq (j, bc j) | j <- o2 i]
            (pmap (fun j => omap (pair j) (assoc i (sd j))) (o2' i)) =
            (p2 i, Ok (f.[0] *: g, f.[i%:R] *: g)) &
          [/\ dk_sk (p2 i) = Some f.[i%:R], dk_vk (p2 i) = Some (f.[0] *: g) &
              dk_vkshare (p2 i) = Some (f.[i%:R] *: g)]],
      (size f <= t)%N & f.[0] = \sum_(1 <= i < n.+1) sec i].
Proof.
move=> F G g B enc dec Hash penc codec gok n t ctx sec secret rnd oth o2 o2' cs t2 tn n255 hsec hcs hch hsh ho.
have c1 i : (1 <= i <= n)%N -> covers n i (oth i) /\ i \notin oth i by move/ho => [].
have c2 i : (1 <= i <= n)%N -> covers n i (o2 i) by move/ho => [].
have c3 i : (1 <= i <= n)%N -> covers n i (o2' i) /\ i \notin o2' i by move/ho => [].
exists (p0 G B n t ctx oth), (p1 g enc n t ctx sec rnd oth), (p2 g enc n t ctx sec rnd oth),
  (bc g Hash penc t ctx sec rnd), (sd enc t sec rnd oth), (joint n t sec rnd); split.
- move=> i hi; split=> //.
  + by apply: new_dkgE.
  + by apply: round1E.
  + by apply: round2E.
- by apply: joint_size.
- by apply: joint0.
Qed.
Print Assumptions C10_frost_dkg_agreement.

Definition ex_hash (m : seq nat) : F257 := (foldr addn 0%N m)%:R.
Definition ex_penc (p : G257) : seq nat := [:: nat_of_ord (p : 'F_257)].

Example C10_hyps : let sec := fun _ : nat => 3%:R : F257 in
  let rnd := fun _ _ : nat => 5%:R : F257 in
  let cs := fun i : nat => sec i :: mkseq (fun k => rnd i (2 + k)%N) 1 in
  [/\ codec_ok enc257 dec257, base_ok g257,
     (forall i, (1 <= i <= 3)%N -> forall a, a \in cs i -> a != 0),
     (forall i, (1 <= i <= 3)%N ->
       ex_hash (pok_msg ex_penc i (ctx_byte [:: 49%N]) (sec i *: g257) (rnd i 1%N *: g257)) != 0) &
     (forall i j, (1 <= i <= 3)%N -> (1 <= j <= 3)%N -> i != j -> (Poly (cs j)).[i%:R] != 0)].
Proof.
split=> //; first exact: base257.
- by move=> i hi a; rewrite !inE => /orP [/eqP ->|/eqP ->].
- by move=> [|[|[|[|i]]]] //; vm_compute.
- by move=> i j hi hj _; rewrite !horner_cons horner0; move: i hi => [|[|[|[|i]]]].
Qed.

(** Agreement needs everybody to receive every broadcast: Round2 only requires t-1 of them.  With the
    honest broadcasts of any list [js] of participants (at least t-1 and at most n entries), Round2
    succeeds and outputs the key of the participants in [js] and i only. *)
Theorem C10_frost_dkg_partial_view :
  forall (F : fieldType) (G : lmodType F) (g : G) (B : Type) (enc : F -> B) (dec : B -> option F)
    (Hash : seq nat -> F) (penc : G -> seq nat),
  codec_ok enc dec -> base_ok g ->
  forall (n t : nat) (ctx : seq nat) (sec : nat -> F) (secret : nat -> option (option F))
    (rnd : nat -> nat -> F) (oth o2' : nat -> seq nat),
  let cs := fun i => sec i :: mkseq (fun k => rnd i (2 + k)%N) t.-1 in
  (2 <= t)%N -> (t <= n)%N -> (n <= 255)%N ->
  (forall i, secret i = Some (Some (sec i)) \/ (secret i = None /\ rnd i 0%N = sec i)) ->
  (forall i, (1 <= i <= n)%N -> forall a, a \in cs i -> a != 0) ->
  (forall i, (1 <= i <= n)%N ->
     Hash (pok_msg penc i (ctx_byte ctx) (sec i *: g) (rnd i 1%N *: g)) != 0) ->
  (forall i j, (1 <= i <= n)%N -> (1 <= j <= n)%N -> i != j -> (Poly (cs j)).[i%:R] != 0) ->
  (forall i, (1 <= i <= n)%N -> [/\ covers n i (oth i) /\ i \notin oth i &
     covers n i (o2' i) /\ i \notin o2' i]) ->
  exists (p0 p1 : nat -> dkg G B) (bc : nat -> bcast1 G) (sd : nat -> seq (nat * share B)),
  forall i, (1 <= i <= n)%N ->
      [/\ new_dkg G B i t ctx (Some tt) (oth i) = Ok (p0 i),
          round1 g enc Hash penc (p0 i) (secret i) (rnd i) = (p1 i, Ok (bc i, sd i)) &
          forall js, (forall j, j \in js -> (j == i) || (1 <= j <= n)%N) -> (t.-1 <= size js <= n)%N ->
          exists p2 vks,
          round2 g dec Hash penc (p1 i) [seq (j, bc j) | j <- js]
            (pmap (fun j => omap (pair j) (assoc i (sd j))) (o2' i)) =
            (p2, Ok ((sec i + \sum_(j <- js | j != i) sec j) *: g, vks))].
Proof.
move=> F G g B enc dec Hash penc codec gok n t ctx sec secret rnd oth o2' cs t2 tn n255 hsec hcs hch hsh ho.
have c1 i : (1 <= i <= n)%N -> covers n i (oth i) /\ i \notin oth i by move/ho => [].
have c3 i : (1 <= i <= n)%N -> covers n i (o2' i) /\ i \notin o2' i by move/ho => [].
exists (p0 G B n t ctx oth), (p1 g enc n t ctx sec rnd oth),
  (bc g Hash penc t ctx sec rnd), (sd enc t sec rnd oth) => i hi; split=> //.
- by apply: new_dkgE.
- by apply: round1E.
move=> js hjs hsz; eexists; eexists; by apply: round2G.
Qed.
Print Assumptions C10_frost_dkg_partial_view.

(** C11 (FROST): if Round2 succeeds then every share it adds matches its sender's commitments at the
    identifier written in the share. *)
Theorem C11_frost_round2_checks :
  forall (F : fieldType) (G : lmodType F) (g : G) (B : Type) (dec : B -> option F)
    (Hash : seq nat -> F) (penc : G -> seq nat) (dp dp' : dkg G B) bcast p2p vk vks,
  round2 g dec Hash penc dp bcast p2p = (dp', Ok (vk, vks)) ->
  exists own sk0 sk vk0,
  [/\ ohead (drop (dk_id dp).-1 (dk_shares dp)) = Some own /\ dec (sh_val own) = Some sk0,
      ohead (dk_verifiers dp) = Some vk0,
      dk_sk dp' = Some sk /\ vks = sk *: g,
      sk = sk0 + \sum_(e <- bcast | e.1 != dk_id dp)
                  (if assoc e.1 p2p is Some s then odflt 0 (dec (sh_val s)) else 0) &
      vk = vk0 + \sum_(e <- bcast | e.1 != dk_id dp) nth 0 (b_verifiers e.2) 0] /\
  (forall e, List.In e bcast -> e.1 != dk_id dp ->
    exists s v, [/\ assoc e.1 p2p = Some s, sh_id s <> 0%N, dec (sh_val s) = Some v &
      v *: g = committed_at (b_verifiers e.2) (sh_id s)%:R]).
Proof.
move=> F G g B dec Hash penc dp dp' bcast p2p vk vks H.
have [own [sk0 [sk [vk0 [K1 K2]]]]] := round2_ok H.
by exists own, sk0, sk, vk0; split=> // e he ne; case: (K2 e he ne).
Qed.
Print Assumptions C11_frost_round2_checks.

Theorem C11_frost_wrong_point_accepted_refuted :
  forall (F : fieldType) (G : lmodType F) (g : G) (B : Type) (enc : F -> B) (dec : B -> option F),
  codec_ok enc dec -> forall (Hash : seq nat -> F) (penc : G -> seq nat)
    (ctx : seq nat) (a0 a1 k1 b0 b1 k2 : F),
  base_ok g -> a0 != 0 -> b0 != 0 -> b1 != 0 -> b0 + b1 * 2%:R != 0 ->
  let c2 := Hash (pok_msg penc 2 (ctx_byte ctx) (b0 *: g) (k2 *: g)) in
  c2 != 0 ->
  exists p0 p1 bc1 sd1 p2 sk,
    [/\ new_dkg G B 1 2 ctx (Some tt) [:: 2%N] = Ok p0,
        round1 g enc Hash penc p0 (Some (Some a0)) (fun k => nth 0 [:: 0; k1; a1] k) = (p1, Ok (bc1, sd1)),
        round2 g dec Hash penc p1 [:: (2%N, Bcast1 [:: b0 *: g; b1 *: g] (b0 * c2 + k2) c2)]
          [:: (2%N, Share 2 (enc (b0 + b1 * 2%:R)))] = (p2, Ok ((a0 + b0) *: g, sk *: g)),
        dk_sk p2 = Some sk &
        sk <> (a0 + a1 * 1%:R) + (b0 + b1 * 1%:R)].
Proof. exact wrong_id_accepted. Qed.
Print Assumptions C11_frost_wrong_point_accepted_refuted.

(** C12: an accepted broadcast carries a valid proof of knowledge for its own id and context byte... *)
Theorem C12_frost_pok_checked :
  forall (F : fieldType) (G : lmodType F) (g : G) (B : Type) (dec : B -> option F)
    (Hash : seq nat -> F) (penc : G -> seq nat) (dp dp' : dkg G B) bcast p2p vk vks,
  round2 g dec Hash penc dp bcast p2p = (dp', Ok (vk, vks)) ->
  forall id b, List.In (id, b) bcast -> id != dk_id dp ->
  exists A0 rest, b_verifiers b = A0 :: rest /\
    b_ci b = Hash ((id %% 256)%N :: dk_ctx dp :: penc A0 ++ penc (b_wi b *: g - b_ci b *: A0)).
Proof.
move=> F G g B dec Hash penc dp dp' bcast p2p vk vks H id b he ne.
have [own [sk0 [sk [vk0 [_ K2]]]]] := round2_ok H.
by have [] := K2 _ he ne.
Qed.
Print Assumptions C12_frost_pok_checked.

(** ... and two accepted proofs for one commitment and one nonce point with different challenges give
    the discrete logarithm of the commitment. *)
Theorem C12_frost_pok_special_sound :
  forall (F : fieldType) (G : lmodType F) (g : G) (B : Type) (dec : B -> option F)
    (Hash Hash' : seq nat -> F) (penc : G -> seq nat) (d1 d1' d2 d2' : dkg G B) bc1 bc2 pp1 pp2 o1 o2,
  round2 g dec Hash penc d1 bc1 pp1 = (d1', Ok o1) ->
  round2 g dec Hash' penc d2 bc2 pp2 = (d2', Ok o2) ->
  forall id b1 b2 A0 r1 r2, List.In (id, b1) bc1 -> List.In (id, b2) bc2 ->
  id != dk_id d1 -> id != dk_id d2 ->
  b_verifiers b1 = A0 :: r1 -> b_verifiers b2 = A0 :: r2 ->
  b_wi b1 *: g - b_ci b1 *: A0 = b_wi b2 *: g - b_ci b2 *: A0 ->
  b_ci b1 <> b_ci b2 ->
  A0 = ((b_wi b1 - b_wi b2) / (b_ci b1 - b_ci b2)) *: g.
Proof.
move=> F G g B dec Hash Hash' penc d1 d1' d2 d2' bc1 bc2 pp1 pp2 o1 o2 _ _ id b1 b2 A0 r1 r2 _ _ _ _ _ _.
exact: pok_extract.
Qed.
Print Assumptions C12_frost_pok_special_sound.

(** Contexts collide: a participant built with context ctx1 is, field for field, one built with ctx2
    whenever the two strings have the same low byte after Atoi; in particular all strings that do not
    start with a digit or a sign are the same context, and "1" is the same as "257". *)
Theorem C12_frost_context_collision_refuted :
  forall (F : fieldType) (G : lmodType F) (B : Type) (id t : nat) (others : seq nat)
    (c1 c2 : nat) (s1 s2 : seq nat),
  ((c1 < 48)%N || (57 < c1)%N) && (c1 != 43%N) && (c1 != 45%N) ->
  ((c2 < 48)%N || (57 < c2)%N) && (c2 != 43%N) && (c2 != 45%N) ->
  new_dkg G B id t (c1 :: s1) (Some tt) others = new_dkg G B id t (c2 :: s2) (Some tt) others /\
  new_dkg G B id t [:: 49%N] (Some tt) others = new_dkg G B id t [:: 50%N; 53%N; 55%N] (Some tt) others.
Proof.
move=> F G B id t others c1 c2 s1 s2 h1 h2; rewrite /new_dkg (ctx_nonnumeric s1 h1) (ctx_nonnumeric s2 h2); split=> //.
Qed.
Print Assumptions C12_frost_context_collision_refuted.

(** Exactly: a decimal context is reduced modulo 256. *)
Definition decimal (ds : seq nat) : seq nat := [seq (48 + d)%N | d <- ds].
Definition decimal_value (ds : seq nat) : nat := foldl (fun v d => v * 10 + d)%N 0%N ds.
Theorem C12_frost_context_exact :
  forall (F : fieldType) (G : lmodType F) (B : Type) (id t : nat) (others ds : seq nat) (p : dkg G B),
  ds <> [::] -> all (fun d => d < 10)%N ds -> (N.of_nat (decimal_value ds) < 2 ^ 63)%num ->
  new_dkg G B id t (decimal ds) (Some tt) others = Ok p -> dk_ctx p = (decimal_value ds %% 256)%N.
Proof.
move=> F G B id t others ds p h0 hd hv; suff h : ctx_byte (decimal ds) = (decimal_value ds %% 256)%N.
  by rewrite /new_dkg h; case: ifP => // _; case: (new_shamir _ _ _) => // f [<-].
have hp : forall ds v, all (fun d => d < 10)%N ds -> (N.of_nat (foldl (fun v d => v * 10 + d)%N v ds) < 2 ^ 63)%num ->
   parse_uint (decimal ds) (Z.of_nat v) = Some (Z.of_nat (foldl (fun v d => v * 10 + d)%N v ds)).
  have mono : forall ds v, (v <= foldl (fun v d => v * 10 + d)%N v ds)%N.
    by elim=> //= d r IH v; apply: leq_trans (IH _); lia.
  elim=> // d r IH v /andP[hd1 hr] hlt; cbn [decimal map parse_uint foldl]; rewrite -/(decimal r); cbn [foldl] in hlt.
  have -> : (48 + d < 48)%N || (57 < 48 + d)%N = false by lia.
  have -> : (Z.of_nat v * 10 + Z.of_nat (48 + d - 48))%ZZ = Z.of_nat (v * 10 + d)%N by lia.
  have := mono r (v * 10 + d)%N => hm.
  have -> : (2 ^ 64 <=? Z.of_nat (v * 10 + d)%N)%ZZ = false by apply/Z.leb_gt; lia.
  exact: IH.
have := hp ds 0%N hd hv; rewrite -/(decimal_value ds) => e.
rewrite /ctx_byte /atoi.
have -> : match decimal ds with | 45%N :: r => (true, r) | 43%N :: r => (false, r) | _ => (false, decimal ds) end = (false, decimal ds).
  by case: (ds) hd => // d r /= /andP[hd1 _]; do 10 case: d hd1 => [//|d] hd1.
case E: (decimal ds) => [|x y]; first by case: (ds) h0 E.
rewrite -E e.
have -> : (2 ^ 63 <=? Z.of_nat (decimal_value ds))%ZZ = false by apply/Z.leb_gt; lia.
move: (decimal_value ds) => v; have h1 := divn_eq v 256; have h2 := ltn_pmod v (isT : 0 < 256)%N.
rewrite -(Z.mod_unique (Z.of_nat v) 256 (Z.of_nat (v %/ 256)) (Z.of_nat (v %% 256))) ?Nat2Z.id //; lia.
Qed.
Print Assumptions C12_frost_context_exact.
Example C12_context_hyps : decimal [:: 2; 5; 7]%N = [:: 50; 53; 55]%N /\ (decimal_value [:: 2; 5; 7] %% 256 = 1)%N.
Proof. by []. Qed.

(** Identifiers collide modulo 256 in the hashed message. *)
Theorem C12_frost_id_truncated :
  forall (F : fieldType) (G : lmodType F) (penc : G -> seq nat) id ctx A0 R,
  pok_msg penc id ctx A0 R = pok_msg penc (id + 256) ctx A0 R.
Proof. by move=> *; rewrite /pok_msg modnDr. Qed.
Print Assumptions C12_frost_id_truncated.

Example C12_hyps : (((97 < 48)%N || (57 < 97)%N) && (97 != 43)%N && (97 != 45)%N) /\
  exists (d : dkg G257 F257) b p,
  is_ok (round2 g257 dec257 ex_hash ex_penc d [:: (2%N, b)] p).2 /\ 2%N != dk_id d.
Proof.
split=> //.
exists (Dkg 2 [:: 2%N] 1 None None None (Shamir 2 2) [:: (3%:R : G257); 5%:R]
  [:: Share 1 (8%:R : F257)] 0), (Bcast1 [:: (4%:R : G257); 6%:R] (44%:R) 10%:R), [:: (2%N, Share 1 (10%:R : F257))].
by split; vm_compute.
Qed.
