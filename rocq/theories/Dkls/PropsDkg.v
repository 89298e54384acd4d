(** C33, C34, C68: DKLs key generation, dealer, refresh and the protocol iterator. *)
From Coq Require Import PeanoNat.
From mathcomp Require Import all_ssreflect all_algebra zify.
From Verif Require Import Lib.Res Lib.Bytes Lib.Inst Core.HashModel Core.HashProofs Schnorr.Model Schnorr.Props OT.GfModel
  OT.SimplestModel OT.PropsSimplest OT.KosModel OT.PropsKos Dkls.MulModel Dkls.DkgModel.
Set Implicit Arguments. Unset Strict Implicit. Unset Printing Implicit Defensive.
Import GRing.Theory.
Local Open Scope ring_scope.

(** the codec facts needed: points and canonical scalars decode to themselves, digests are 32 bytes *)
Definition dkg_codec (F : fieldType) (G : lmodType F) (penc : G -> bytes) (pdec : bytes -> option G)
  (enc : F -> bytes) (dec : bytes -> option F) (hash : bytes -> bytes) : Prop :=
  [/\ forall P, pdec (penc P) = Some P, forall x c, dec x = Some c -> enc c = x & forall x, size (hash x) = 32%N].

Lemma bindE A B (x : outcome A) (f : A -> outcome B) b : bind x f = Ok b -> exists a, x = Ok a /\ f a = Ok b.
Proof. exact: bind_ok. Qed.

Section S.
Variables (F : fieldType) (G : lmodType F) (g : G) (penc : G -> bytes) (pdec : bytes -> option G)
  (enc : F -> bytes) (dec : bytes -> option F) (hash : bytes -> bytes) (ext1 ext2 : bytes -> bytes)
  (xof : log -> bytes).
Hypothesis C : dkg_codec penc pdec enc dec hash.
Let pcan P : pdec (penc P) = Some P. Proof. by case: C. Qed.
Let can x c : dec x = Some c -> enc c = x. Proof. by case: C => _ h _; exact: h. Qed.
Let hsz x : size (hash x) = 32%N. Proof. by case: C. Qed.

Lemma packed_ok n sid w pf x (r0 r2 r4 : SimplestModel.receiver G) ms ch resp : SimplestModel.new_receiver G n sid w = Ok r0 ->
  SimplestModel.round2 g penc enc hash ext1 ext2 r0 (Some pf) x = Ok (r2, ms) -> round4 hash r2 ch = Ok (r4, resp) -> r_packed r4 = w.
Proof.
rewrite /SimplestModel.new_receiver; case: ifP => // _ [<-]; rewrite /SimplestModel.round2; cbn [deref bind r_sid r_packed r_batch r_bits r_chal r_keys r_B].
case: verify => [u| |] //; cbn [bind] => -[<- _]; rewrite /round4; cbn [r_sid r_packed r_batch r_bits r_chal r_keys r_B].
by case: ifP => // _ [<- _].
Qed.

Lemma ot_steps sid w osk ok x :
  dec (hash (transcript penc (ext1 sid) g (osk *: g) (ok *: g))) = None \/
  exists s0 r0 s1 pf r2 ms s3 ch r4 resp ops,
  [/\ [/\ SimplestModel.new_sender G Kappa sid = Ok s0, SimplestModel.new_receiver G Kappa sid w = Ok r0 &
          SimplestModel.round1 g penc dec hash ext1 s0 osk ok = Ok (s1, pf)],
      [/\ SimplestModel.round2 g penc enc hash ext1 ext2 r0 (Some pf) x = Ok (r2, ms), SimplestModel.round3 penc pdec hash ext2 s1 ms = Ok (s3, ch) &
          round4 hash r2 ch = Ok (r4, resp)],
      round5 hash s3 resp = Ok ops, round6 hash r4 ops = Ok tt &
      is_bytes w -> size w = 32%N -> seed_ot (seed_sender s3) (seed_receiver r4)].
Proof.
case E: (dec _) => [c|]; [right | by left].
have h8 : (8 %| Kappa)%N by [].
have [s [r [hr [z1 z2 z3 key]]]] := @honest_runE F G g penc pdec enc dec hash ext1 ext2 pcan can hsz Kappa sid w osk ok x c h8 E.
rewrite /honest_run in hr.
have [s0 [e1 h1]] := bindE hr; have [r0 [e2 h2]] := bindE h1; have [[s1 pf] [e3 h3]] := bindE h2.
have [[r2 ms] [e4 h4]] := bindE h3; have [[s3 ch] [e5 h5]] := bindE h4; have [[r4 resp] [e6 h6]] := bindE h5.
have [ops [e7 h7]] := bindE h6; have [[] [e8 [e9 e10]]] := bindE h7.
cbn [fst snd] in e4, e5, e6, e7, e8, e9, e10.
exists s0, r0, s1, pf, r2, ms, s3, ch, r4, resp, ops; split=> //.
have pk : r_packed r4 = w by exact: (packed_ok e2 e4 e6).
rewrite -e9 in z1 key; rewrite -e10 in z2 z3 key.
move=> bw sw; split.
- exact: z1.
- exact: z3.
- exact: z2.
- by cbn [ks_packed seed_receiver]; rewrite pk.
- move=> i hi; have [k1 k2 _ _] := key i hi; split; last exact: k2.
  by cbn [ks_packed seed_receiver]; rewrite pk; exact: k1.
Qed.
End S.

(** Honest key generation: both parties end with the same public key skA skB G, keep their own shares, and
    hold the two halves of one seed OT; or a hash output failed to decode as a scalar and a round returned an
    error.  There is no third possibility, for any randomness. *)
Theorem C68_dkg_correct : forall (F : fieldType) (G : lmodType F) (g : G) penc pdec enc dec hash ext1 ext2 xof,
  dkg_codec penc pdec enc dec hash ->
  forall seedA seedB w (skA skB kA kB osk ok : F) x, is_bytes w -> size w = 32%N ->
  (exists a b r s, dkg_run g penc pdec enc dec hash ext1 ext2 xof seedA seedB w skA skB kA kB osk ok x = Ok (a, b) /\
    [/\ da_sk a = skA /\ db_sk b = skB, da_pk a = (skA * skB) *: g, db_pk b = (skA * skB) *: g &
        [/\ da_recv a = Some r, db_send b = Some s & seed_ot (seed_sender s) (seed_receiver r)]]) \/
  (dkg_run g penc pdec enc dec hash ext1 ext2 xof seedA seedB w skA skB kA kB osk ok x = Err /\ exists y, dec (hash y) = None).
Proof.
move=> F G g penc pdec enc dec hash ext1 ext2 xof C seedA seedB w skA skB kA kB osk ok x bw sw.
have [_ can _] := C.
have pr base sid sk k : (exists y, dec (hash y) = None) /\ prove penc dec hash base sid sk k = Err \/
  exists pf, [/\ prove penc dec hash base sid sk k = Ok pf, verify penc enc hash base sid pf = Ok tt & pf_stmt pf = sk *: base].
  have [H _] := @C18_schnorr_complete F G penc enc dec hash base sid sk k can.
  case E: (dec (hash (transcript penc sid base (sk *: base) (k *: base)))) => [c|].
    right; have ep : prove penc dec hash base sid sk k = Ok (Proof c (c * sk + k) (sk *: base)) by rewrite /prove E.
    by have [h1 h2] := H _ ep; eexists; split; [exact: ep | exact: h1 |].
  by left; split; [eexists; exact: E | rewrite /prove E].
rewrite /dkg_run /dround1 /new_dbob; cbn [bind db_log db_send db_sk db_pk db_com db_salt].
rewrite /dround2 /new_dalice; cbn [draw bind da_log da_recv da_sk da_pk da_pf].
set l0 := rcons (rcons [:: Start DDkg] (App LSidBob seedB)) (App LSidAlice seedA).
set l1 := rcons l0 (Ext LSaltOt 32); set l2 := rcons l1 (Ext LSaltAlice 32); set l3 := rcons l2 (Ext LSaltBob 32).
have [h8|[s0 [r0 [s1 [opf [r2 [ms [s3 [ch [r4 [resp [ops [[n1 n2 o1] [o2 o3 o4] o5 o6 sd]]]]]]]]]]]]] :=
  @ot_steps F G g penc pdec enc dec hash ext1 ext2 C (xof l1) w osk ok x; last first.
  rewrite n2; cbn [bind]; rewrite /prove_commit.
  have [[y ->]|[pfA [-> vA sA]]] := pr g (xof l2) skA kA; cbn [bind]; first by right.
  rewrite /dround3; cbn [draw bind fst snd db_log db_pk]; rewrite -/l0 -/l1 -/l2 -/l3 n1; cbn [bind].
  have [[y ->]|[pfB [-> vB sB]]] := pr g (xof l3) skB kB; cbn [bind]; first by right.
  rewrite /dround4; cbn [draw bind da_log da_pf da_sk da_recv deref]; rewrite -/l3 vB; cbn [bind].
  rewrite /dround5; cbn [db_salt db_com db_send db_sk db_log deref bind]; rewrite /decommit_verify eqxx vA; cbn [bind]; rewrite o1; cbn [bind].
  rewrite /dround6; cbn [deref bind da_recv]; rewrite o2; cbn [bind].
  rewrite /dround7; cbn [deref bind db_send]; rewrite o3; cbn [bind].
  rewrite /dround8 /put_recv; cbn [deref bind da_recv da_sk da_pk da_pf da_log]; rewrite o4; cbn [bind].
  rewrite /dround9 /put_send; cbn [deref bind db_send db_sk db_pk db_com db_salt db_log]; rewrite o5; cbn [bind].
  rewrite /dround10; cbn [deref bind da_recv]; rewrite o6; cbn [bind].
  left; eexists; eexists; exists r4, s3; split; first by [].
  split; cbn [da_sk db_sk da_pk db_pk da_recv db_send]; [by [] | by rewrite sB scalerA | by rewrite sA scalerA mulrC | ].
  by split=> //; exact: sd bw sw.
have n1 : SimplestModel.new_sender G Kappa (xof l1) = Ok (SimplestModel.Sender Kappa (xof l1) 0 0 [::]) by [].
have [r0 n2] : exists r0, SimplestModel.new_receiver G Kappa (xof l1) w = Ok r0 by eexists.
right; split; last by eexists; exact: h8.
rewrite n2; cbn [bind]; rewrite /prove_commit.
have [[y ->]|[pfA [-> vA sA]]] := pr g (xof l2) skA kA; cbn [bind]; first by [].
rewrite /dround3; cbn [draw bind fst snd db_log db_pk]; rewrite -/l0 -/l1 -/l2 -/l3 n1; cbn [bind].
have [[y ->]|[pfB [-> vB sB]]] := pr g (xof l3) skB kB; cbn [bind]; first by [].
rewrite /dround4; cbn [draw bind da_log da_pf da_sk da_recv deref]; rewrite -/l3 vB; cbn [bind].
rewrite /dround5; cbn [db_salt db_com db_send db_sk db_log deref bind]; rewrite /decommit_verify eqxx vA; cbn [bind].
by rewrite /SimplestModel.round1; cbn [s_sid]; rewrite /prove h8.
Qed.
Print Assumptions C68_dkg_correct.

(** Bob's fifth round binds Alice to one statement: two reveals accepted in the same state (commitment and
    salt) are equal, or a collision of the hash is exhibited; the public key Bob computes is then the same.
    This holds although the commitment covers only the challenge and the response of the proof. *)
Theorem C68_dkg_commitment_binding : forall (F : fieldType) (G : lmodType F) (g : G) penc enc dec hash ext1,
  injective penc -> (forall P Q, size (penc P) = size (penc Q)) -> injective enc -> (forall x y : F, size (enc x) = size (enc y)) ->
  forall (b : dbob G) pf pf' (osk k osk' k' : F) b1 m1 b2 m2,
  dround5 g penc enc dec hash ext1 b pf osk k = Ok (b1, m1) ->
  dround5 g penc enc dec hash ext1 b pf' osk' k' = Ok (b2, m2) ->
  (pf = pf' /\ db_pk b1 = db_pk b2) \/ exists x y, x <> y /\ hash x = hash y.
Proof.
move=> F G g penc enc dec hash ext1 pi ps ei es b pf pf' osk k osk' k' b1 m1 b2 m2.
rewrite /dround5 => h h'.
have [[] [d1 {}h]] := bindE h; have [[] [d2 {}h']] := bindE h'.
have [s [es1 {}h]] := bindE h; have [s' [es2 {}h']] := bindE h'.
have [[t1 o1] [q1 {}h]] := bindE h; have [[t2 o2] [q2 {}h']] := bindE h'.
have pk1 : db_pk b1 = db_sk b *: pf_stmt pf by case: h => <-.
have pk2 : db_pk b2 = db_sk b *: pf_stmt pf' by case: h' => <-.
move: d1 d2; rewrite /decommit_verify; case: eqP => // c1 v1; case: eqP => // c2 v2.
case: (eqVneq (enc (pf_c pf) ++ enc (pf_s pf)) (enc (pf_c pf') ++ enc (pf_s pf'))) => [e|ne]; last first.
  by right; exists (enc (pf_c pf) ++ enc (pf_s pf)), (enc (pf_c pf') ++ enc (pf_s pf')); split; [exact/eqP | rewrite c1 c2].
have [ec es'] : enc (pf_c pf) = enc (pf_c pf') /\ enc (pf_s pf) = enc (pf_s pf').
  by move/eqP: e; rewrite eqseq_cat ?(es (pf_c pf) (pf_c pf')) // => /andP[/eqP-> /eqP->].
move: v1 v2; rewrite /verify; case: eqP => // v1 _; case: eqP => // v2 _.
move: v1 v2; rewrite ec /transcript; set x := db_salt b ++ _; set y := db_salt b ++ _ => v1 v2.
case: (eqVneq x y) => [exy|ne]; last by right; exists x, y; split; [exact/eqP | rewrite -v1 -v2].
left; suff e1 : pf = pf' by rewrite pk1 pk2 e1.
have [est _] : penc (pf_stmt pf) = penc (pf_stmt pf') /\ True.
  move/eqP: exy; rewrite /x /y !eqseq_cat // => /andP[_ /andP[_ /andP[/eqP]]] //.
by move: ec es' est => /ei + /ei + /pi; case: (pf) => c1' s1' t1'; case: (pf') => c2' s2' t2' /= -> -> ->.
Qed.
Print Assumptions C68_dkg_commitment_binding.

(** The trusted dealer hands out the same kind of material: shares whose product is the key of the public
    key, and the halves of one seed OT; it never fails once the randomness is there. *)
Theorem C68_dealer_correct : forall (F : fieldType) (G : lmodType F) (g : G) (skA skB : F) w keys,
  is_bytes w -> size w = 32%N ->
  exists pk sA ot sB otr, deal g skA skB w keys = Ok (pk, (sA, ot), (sB, otr)) /\
    pk = (sA * sB) *: g /\ seed_ot otr ot.
Proof.
move=> F G g skA skB w keys bw sw; rewrite /deal.
have [r [er [rb rp]]] : exists r, SimplestModel.new_receiver G Kappa (nseq 32 0%N) w = Ok r /\
   r_bits r = [seq extract_bit w i | i <- iota 0 Kappa] /\ r_packed r = w by eexists.
rewrite er; cbn [bind]; do 5 eexists; split; first by []; split; first by [].
have sz : size (iota 0 Kappa) = 256%N by exact: size_iota.
split; cbn [kr_seeds ks_bits ks_keys ks_packed KosModel.new_receiver]; rewrite ?size_map ?rb ?size_map ?rp //.
move=> i hi; rewrite !(nth_map 0%N) ?sz // !nth_iota // !add0n.
Qed.
Print Assumptions C68_dealer_correct.

(** Honest refresh: the product of the shares (hence the key of the unchanged public key) is preserved, each
    share is re-randomised by a factor k <> 0 extracted from the transcript, and a new seed OT is in place.
    Otherwise a round returned an error because a derived value was zero or failed to decode. *)
Theorem C33_refresh_correct : forall (F : fieldType) (G : lmodType F) (g : G) penc pdec enc dec hash ext1 ext2 xof,
  dkg_codec penc pdec enc dec hash ->
  forall (skA skB : F) pkA pkB seedA seedB w osk ok x, is_bytes w -> size w = 32%N ->
  let k := dec (xof (rcons (rcons (rcons [:: Start DRefresh] (App LSeedAlice (enc seedA))) (App LSeedBob (enc seedB))) (Ext LMultiplier 32))) in
  (exists a b r s kk, refresh_run g penc pdec enc dec hash ext1 ext2 xof skA skB pkA pkB seedA seedB w osk ok x = Ok (a, b) /\
    [/\ k = Some kk /\ kk != 0, da_sk a * db_sk b = skA * skB, da_sk a = skA / kk /\ db_sk b = skB * kk, da_pk a = pkA /\ db_pk b = pkB &
        [/\ da_recv a = Some r, db_send b = Some s & seed_ot (seed_sender s) (seed_receiver r)]]) \/
  (refresh_run g penc pdec enc dec hash ext1 ext2 xof skA skB pkA pkB seedA seedB w osk ok x = Err /\
    (k = None \/ k = Some 0 \/ exists y, dec (hash y) = None)).
Proof.
move=> F G g penc pdec enc dec hash ext1 ext2 xof C skA skB pkA pkB seedA seedB w osk ok x bw sw k.
rewrite /refresh_run /rround1 /new_ralice; cbn [da_recv da_sk da_pk da_pf da_log].
rewrite /rround2 /new_rbob; cbn [draw db_send db_sk db_pk db_com db_salt db_log]; rewrite -/k.
set l0 := rcons (rcons [:: Start DRefresh] (App LSeedAlice (enc seedA))) (App LSeedBob (enc seedB)).
set l1 := rcons l0 (Ext LMultiplier 32); set l2 := rcons l1 (Ext LSaltOt 32).
case Ek: k => [kk|]; last by right; split; [|left].
have [h8|[s0 [r0 [s1 [opf [r2 [ms [s3 [ch [r4 [resp [ops [[n1 n2 o1] [o2 o3 o4] o5 o6 sd]]]]]]]]]]]]] :=
  @ot_steps F G g penc pdec enc dec hash ext1 ext2 C (xof l2) w osk ok x.
  right; split; last by right; right; eexists; exact: h8.
  have -> : SimplestModel.new_sender G Kappa (xof l2) = Ok (SimplestModel.Sender Kappa (xof l2) 0 0 [::]) by [].
  by rewrite /SimplestModel.round1; cbn [s_sid]; rewrite /prove h8.
rewrite n1 o1 /rlift; cbn [bind fst snd].
rewrite /rround3; cbn [draw da_log da_recv da_sk da_pk da_pf fst snd]; rewrite -/l0 -/l1 -/l2 -/k Ek.
case: (eqVneq kk 0) => [k0|kn]; first by right; split; [|right; left; rewrite k0].
rewrite n2 o2; cbn [bind fst snd].
rewrite /dround7; cbn [deref bind db_send]; rewrite o3; cbn [bind].
rewrite /dround8 /put_recv; cbn [deref bind da_recv da_sk da_pk da_pf da_log]; rewrite o4; cbn [bind].
rewrite /dround9 /put_send; cbn [deref bind db_send db_sk db_pk db_com db_salt db_log]; rewrite o5; cbn [bind].
rewrite /dround10; cbn [deref bind da_recv]; rewrite o6; cbn [bind].
left; eexists; eexists; exists r4, s3, kk; split; first by [].
split; cbn [da_sk db_sk da_pk db_pk da_recv db_send]; [by [] | | by [] | by [] |].
  by rewrite mulrACA [kk^-1 * _]mulrC divff // mulr1.
by split=> //; exact: sd bw sw.
Qed.
Print Assumptions C33_refresh_correct.

(** Findings.  The rounds are not atomic.  (1) If the derived multiplier is zero, Bob's second round succeeds
    and his share is now zero, while Alice's third round fails.  (2) If the OT proof Alice receives does not
    verify, her third round returns an error but her share has been divided by the multiplier already and the
    transcript has advanced: a retry divides it again, so that after a successful retry with the genuine
    message the product of the shares is off by the second multiplier. *)
Theorem C33_refresh_not_atomic_refuted : forall (F : fieldType) (G : lmodType F) (g : G) penc enc dec hash ext1 ext2 xof,
  (forall (skB : F) pkB (aseed bseed osk k : F),
     dec (xof (rcons (rcons (rcons [:: Start DRefresh] (App LSeedAlice (enc aseed))) (App LSeedBob (enc bseed))) (Ext LMultiplier 32))) = Some 0 ->
     forall b' out, rround2 g penc enc dec hash ext1 xof (new_rbob skB pkB) aseed bseed osk k = (b', out) ->
     db_sk b' = 0 /\ (dec (hash (transcript penc (ext1 (xof (db_log b'))) g (osk *: g) (k *: g))) <> None -> exists m, out = Ok m)) /\
  (forall (a : dalice G) bad good w w' x x' a1 a2 ms,
     rround3 g penc enc dec hash ext1 ext2 xof a bad (Some w) x = (a1, Err) ->
     rround3 g penc enc dec hash ext1 ext2 xof a1 good (Some w') x' = (a2, Ok ms) ->
     (dec (xof (rcons (rcons (da_log a) (App LSeedBob (enc bad.2))) (Ext LMultiplier 32))) = None \/
      dec (xof (rcons (rcons (da_log a) (App LSeedBob (enc bad.2))) (Ext LMultiplier 32))) = Some 0) \/
     exists k k', [/\ dec (xof (rcons (rcons (da_log a) (App LSeedBob (enc bad.2))) (Ext LMultiplier 32))) = Some k,
       dec (xof (rcons (rcons (da_log a1) (App LSeedBob (enc good.2))) (Ext LMultiplier 32))) = Some k' &
       da_sk a2 = da_sk a / k / k']).
Proof.
move=> F G g penc enc dec hash ext1 ext2 xof; split.
  move=> skB pkB aseed bseed osk k e b' out; rewrite /rround2 /new_rbob; cbn [draw db_send db_sk db_pk db_com db_salt db_log]; rewrite e.
  rewrite /SimplestModel.new_sender.
  have -> : (Kappa %% 8 != 0)%N = false by [].
  rewrite /SimplestModel.round1 /prove; cbn [s_sid].
  case E: (dec (hash _)) => [c|]; cbn [bind] => -[<- <-]; cbn [db_sk db_log]; rewrite mulr0; (split; first by []) => h; first by eexists.
  by case: (h E).
move=> a bad good w w' x x' a1 a2 ms; rewrite {1}/rround3; cbn [draw].
case: (dec _) => [k|]; last by left; left.
case: eqP => [->|/eqP kn]; first by left; right.
have nr sid w0 : exists r0, SimplestModel.new_receiver G Kappa sid w0 = Ok r0 by eexists.
set sid := xof _; have [r0 ->] := nr sid w.
move=> H1; have sk1 : da_sk a1 = da_sk a / k.
  by move: H1; case: SimplestModel.round2 => [[r' m]| |] -[<-].
rewrite /rround3; cbn [draw]; case E: (dec _) => [k'|] //; case: eqP => // kn'.
set sid' := xof _; have [r1 ->] := nr sid' w'.
case: SimplestModel.round2 => [[r' m]| |] // [<- _] .
by right; exists k, k'; split=> //; cbn [da_sk]; rewrite sk1.
Qed.
Print Assumptions C33_refresh_not_atomic_refuted.

(** The protocol iterator, after any history of Next calls on a fresh object: the number of completed steps is
    the number of calls that succeeded; the next call runs exactly the step of that index on the current party
    state, and advances iff it succeeds; once every step succeeded, Next reports that the protocol finished
    and changes nothing; Result is nil before and the encoded output after. *)
(** the i-th element of a list *)
Fixpoint onth (A : Type) (l : seq A) (i : nat) : option A :=
  match l, i with x :: _, 0%N => Some x | _ :: l', i'.+1 => onth l' i' | [::], _ => None end.
Definition succeeded (M : Type) (o : next_out M) : bool := if o is Ran (Ok _) then true else false.
Theorem C34_iterator : forall (S M : Type) (steps : seq (step_fn S M)) (s0 : S) (history : seq M) (m : M),
  let: (p, os) := nexts (Stepper steps 0 s0) history in
  [/\ size os = size history, st_steps p = steps, st_step p = count (@succeeded M) os /\ (st_step p <= size steps)%N,
      (st_step p = size steps -> next p m = (p, Finished M) /\
         forall encode v, result encode p v = (do x <- encode (st_party p) v; Ok (Some x))) &
      (st_step p < size steps)%N ->
         (forall encode v, result encode p v = Ok None) /\
         exists run s' o, [/\ onth steps (st_step p) = Some run, run (st_party p) m = (s', o), (next p m).2 = Ran o,
           st_party (next p m).1 = s' & st_step (next p m).1 = (st_step p + is_ok o)%N]].
Proof.
move=> S M steps s0 history m.
have gen : forall ms p, st_steps p = steps -> (st_step p <= size steps)%N ->
  let: (p', os) := nexts p ms in [/\ size os = size ms, st_steps p' = steps, st_step p' = (st_step p + count (@succeeded M) os)%N & (st_step p' <= size steps)%N].
  elim=> [|x ms IH] p e le /=; first by rewrite addn0.
  case En: (next p x) => [p1 o].
  have [e1 e2 e3] : [/\ st_steps p1 = steps, st_step p1 = (st_step p + succeeded o)%N & (st_step p1 <= size steps)%N].
    move: En; rewrite /next /complete e; case: leqP => [h [<- <-]|h]; first by rewrite /= addn0 e le.
    case: (nth _ _ _ _ _) => s' [o'| |] [<- <-] //=; rewrite ?addn0 ?addn1 //; split=> //; exact: ltnW.
  by have := IH p1 e1 e3; case: (nexts p1 ms) => p2 os /= [-> -> e4 le2]; rewrite le2 e4 e2 addnA.
have := gen history (Stepper steps 0 s0) erefl (leq0n _); case: (nexts _ _) => p os [sz e1 e2 le].
split=> //.
- move=> e; have c : complete p by rewrite /complete e1 e.
  by split=> [|encode v]; rewrite /next /result c.
- move=> lt; have c : complete p = false by rewrite /complete e1 leqNgt lt.
  split=> [encode v|]; first by rewrite /result c.
  exists (nth (fun s _ => (s, Panic)) steps (st_step p)).
  case E: (nth (fun s _ => (s, Panic)) steps (st_step p) (st_party p) m) => [s' o]; exists s', o; rewrite /next c e1 E; split=> //.
  + elim: steps (st_step p) lt {E e1 gen c e2 le} => [|a l IH] [|i] //= h; exact: IH.
  + by case: (o).
  + by case: (o).
  + by case: (o) => [x| |] //=; rewrite ?addn1 ?addn0.
Qed.
Print Assumptions C34_iterator.

(** Finding: the refresh messages accept every version from 200 on, but the result of a completed refresh is
    encoded with the DKG encoder, which accepts only 200. *)
Theorem C34_refresh_version_refuted : forall (S M : Type) (p : stepper S M) (enc : S -> M) v,
  complete p -> (200 < v)%N -> refresh_version_ok v /\
  result (fun s v => if dkg_version_ok v then Ok (enc s) else Err) p v = Err.
Proof.
move=> S M p enc v c lt; split; first exact: ltnW.
by rewrite /result c /dkg_version_ok /= gtn_eqF.
Qed.
Print Assumptions C34_refresh_version_refuted.

(** non-vacuity: a codec and constant hashes over F257 with which key generation and refresh succeed *)
Definition enc1 (x : F257) : bytes := nseq 31 0%N ++ [:: x : nat].
Definition dec1 (b : bytes) : option F257 := let x := ((last 0%N b)%:R : F257) in if enc1 x == b then Some x else None.
Lemma dec1K x : dec1 (enc1 x) = Some x.
Proof. by rewrite /dec1 /enc1 last_cat; cbn [last]; rewrite natr_Zp eqxx. Qed.
Lemma codec1 (h : bytes) : size h = 32%N -> dkg_codec (G := G257) (fun P => enc1 P) (fun b => dec1 b) enc1 dec1 (fun _ => h).
Proof.
move=> sh; split=> [P|x c|_]; [exact: dec1K | | exact: sh].
by rewrite /dec1; case: eqP => // e [<-].
Qed.
Lemma z32 : size (enc1 0) = 32%N /\ dec1 (enc1 0) = Some 0. Proof. by split; [| exact: dec1K]. Qed.
Example C68_hyps (skA skB : F257) : exists ext1 ext2 xof seedA seedB w kA kB osk ok x a b,
  [/\ dkg_codec (G := G257) (fun P => enc1 P) (fun b => dec1 b) enc1 dec1 (fun _ => enc1 0), is_bytes w, size w = 32%N &
      dkg_run (G := G257) g257 (fun P => enc1 P) (fun b => dec1 b) enc1 dec1 (fun _ => enc1 0) ext1 ext2 xof seedA seedB w skA skB kA kB osk ok x = Ok (a, b)].
Proof.
have [z1 z2] := z32; have C := codec1 z1.
exists id, id, (fun _ => [::]), [::], [::], (nseq 32 5%N), 1, 1, 1, 1, (fun _ => 1).
have [[a [b [r [s [e _]]]]]|[_ [y h]]] := @C68_dkg_correct F257 G257 g257 _ _ _ _ _ id id (fun _ => [::]) C [::] [::] (nseq 32 5%N) skA skB 1 1 1 1 (fun _ => 1) isT erefl.
  by exists a, b; split=> //; exact: e.
by rewrite z2 in h.
Qed.
Example C33_hyps (skA skB : F257) (pk : G257) : exists ext1 ext2 xof seedA seedB w osk ok x a b,
  [/\ dkg_codec (G := G257) (fun P => enc1 P) (fun b => dec1 b) enc1 dec1 (fun _ => enc1 0), is_bytes w, size w = 32%N &
      refresh_run (G := G257) g257 (fun P => enc1 P) (fun b => dec1 b) enc1 dec1 (fun _ => enc1 0) ext1 ext2 xof skA skB pk pk seedA seedB w osk ok x = Ok (a, b)].
Proof.
have [z1 z2] := z32; have C := codec1 z1.
exists id, id, (fun _ => enc1 1), 1, 1, (nseq 32 5%N), 1, 1, (fun _ => 1).
have [[a [b [r [s [kk [e _]]]]]]|[_ [h|[h|[y h]]]]] := @C33_refresh_correct F257 G257 g257 _ _ _ _ _ id id (fun _ => enc1 1) C skA skB pk pk 1 1 (nseq 32 5%N) 1 1 (fun _ => 1) isT erefl.
- by exists a, b; split=> //; exact: e.
- by rewrite dec1K in h.
- by move: h; rewrite dec1K => -[].
- by rewrite z2 in h.
Qed.
