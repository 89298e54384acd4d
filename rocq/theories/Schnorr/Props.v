(** Property theorems for pkg/zkp/schnorr. *)
From Coq Require Import NArith.
From mathcomp Require Import all_ssreflect all_algebra zify.
From Verif Require Import Lib.Res Lib.Bytes Lib.Inst Schnorr.Model.
Set Implicit Arguments.
Unset Strict Implicit.
Unset Printing Implicit Defensive.
Import GRing.Theory.
Local Open Scope ring_scope.

(** C18: completeness: a proof produced by Prove verifies, and so does the committed variant, when
    decoding is canonical. *)
Theorem C18_schnorr_complete :
  forall (F : fieldType) (G : lmodType F) (penc : G -> bytes) (enc : F -> bytes)
    (dec : bytes -> option F) (hash : bytes -> bytes) (base : G) (sid : bytes) (x k : F),
  (forall b c, dec b = Some c -> enc c = b) ->
  (forall pf, prove penc dec hash base sid x k = Ok pf ->
     verify penc enc hash base sid pf = Ok tt /\ pf_stmt pf = x *: base) /\
  (forall pf comm, prove_commit penc enc dec hash base sid x k = Ok (pf, comm) ->
     decommit_verify penc enc hash base sid pf comm = Ok tt).
Proof.
move=> F G penc enc dec hash base sid x k can.
have H pf : prove penc dec hash base sid x k = Ok pf ->
     verify penc enc hash base sid pf = Ok tt /\ pf_stmt pf = x *: base.
  rewrite /prove; case E: dec => [c|] // [<-]; split=> //; rewrite /verify /=.
  have -> : (c * x + k) *: base + (- c) *: (x *: base) = k *: base.
    by rewrite scalerA mulNr -scalerDl [c * x + k]addrC addrK.
  by rewrite (can _ _ E) eqxx.
split=> // pf comm; rewrite /prove_commit; case E: prove => [pf'| |] //= [<- <-].
by rewrite /decommit_verify eqxx; case: (H _ E).
Qed.
Print Assumptions C18_schnorr_complete.

(** Verify accepts exactly the proofs whose challenge is the hash of the reconstructed transcript. *)
Theorem C18_schnorr_verify_exact :
  forall (F : fieldType) (G : lmodType F) (penc : G -> bytes) (enc : F -> bytes)
    (hash : bytes -> bytes) (base : G) (sid : bytes) (c s : F) (X : G),
  verify penc enc hash base sid (Proof c s X) = Ok tt <->
  exists K, s *: base = K + c *: X /\ enc c = hash (sid ++ penc base ++ penc X ++ penc K).
Proof.
move=> F G penc enc hash base sid c s X; rewrite /verify /=; split.
  case: eqP => // e _; exists (s *: base + (- c) *: X); split=> //.
  by rewrite scaleNr subrK.
case=> K [e h]; rewrite e scaleNr addrK.
by rewrite /transcript -h eqxx.
Qed.
Print Assumptions C18_schnorr_verify_exact.

(** Special soundness: from two responses to different challenges for the same commitment point K the
    discrete logarithm of the statement is computed. *)
Theorem C18_schnorr_special_sound :
  forall (F : fieldType) (G : lmodType F) (base X K : G) (c1 c2 s1 s2 : F),
  c1 != c2 -> s1 *: base = K + c1 *: X -> s2 *: base = K + c2 *: X ->
  X = ((s1 - s2) / (c1 - c2)) *: base.
Proof.
move=> F G base X K c1 c2 s1 s2 nc e1 e2.
have nz : c1 - c2 != 0 by rewrite subr_eq0.
by rewrite mulrC -scalerA scalerBl e1 e2 [K + c1 *: X]addrC addrKA -scalerBl scalerA mulVf // scale1r.
Qed.
Print Assumptions C18_schnorr_special_sound.

(** The transcript determines the session id, base point and statement: a proof accepted under two
    sessions gives a SHA3 collision or the sessions agree. *)
Theorem C18_schnorr_session_binding :
  forall (F : fieldType) (G : lmodType F) (penc : G -> bytes) (enc : F -> bytes)
    (hash : bytes -> bytes) (base base' : G) (sid sid' : bytes) (pf : proof G) n,
  (forall P, size (penc P) = n) -> injective penc ->
  verify penc enc hash base sid pf = Ok tt -> verify penc enc hash base' sid' pf = Ok tt ->
  (sid = sid' /\ base = base') \/
  exists a b, a <> b /\ hash a = hash b.
Proof.
move=> F G penc enc hash base base' sid sid' pf n ps pinj; rewrite /verify.
case: eqP => // e1 _; case: eqP => // e2 _.
set t1 := transcript _ _ _ _ _ in e1; set t2 := transcript _ _ _ _ _ in e2.
case: (t1 =P t2) => [e|ne]; last by right; exists t1, t2; split; rewrite -?e1.
left; have ss : size sid = size sid'.
  have := congr1 size e; rewrite /t1 /t2 /transcript !size_cat !ps; lia.
move/eqP: e; rewrite /t1 /t2 /transcript eqseq_cat // => /andP [/eqP -> ].
by rewrite eqseq_cat ?ps // => /andP [/eqP /pinj ->].
Qed.
Print Assumptions C18_schnorr_session_binding.

(** A concrete instance: over F_257 with a hash into two bytes, some proof is produced and verified. *)
Definition sc_penc (x : G257) : bytes := le_bytes 2 (nat_of_ord (x : 'F_257)).
Definition sc_enc (x : F257) : bytes := le_bytes 2 (nat_of_ord (x : 'F_257)).
Definition sc_dec (b : bytes) : option F257 :=
  if (size b == 2)%N && is_bytes b && (le_val b < 257)%N then Some ((le_val b)%:R : F257) else None.
Definition sc_hash (b : bytes) : bytes := le_bytes 2 (foldr addn 0%N b).
Example C18_hyps :
  (forall b c, sc_dec b = Some c -> sc_enc c = b) /\
  is_ok (prove sc_penc sc_dec sc_hash g257 [:: 5; 6]%N (7%:R : F257) (9%:R : F257)) = true.
Proof.
split; last by vm_compute.
move=> b c; rewrite /sc_dec; case: ifP => // /andP [/andP [/eqP sb hb] lb] [<-].
have e : nat_of_ord ((le_val b)%:R : 'F_257) = le_val b.
  by rewrite val_Fp_nat ?modn_small // ; vm_compute.
by rewrite /sc_enc e -sb le_valK.
Qed.

(** C19: with big-endian scalars below the order q, Prove fails exactly when the hash is at least q. *)
Theorem C19_schnorr_hash_range :
  forall (F : fieldType) (G : lmodType F) (penc : G -> bytes) (hash : bytes -> bytes)
    (ofnat : nat -> F) (q : nat) (base : G) (sid : bytes) (x k : F),
  (forall b, size (hash b) = 32%N) ->
  let dec b := omap ofnat (dec_be q b) in
  let h := hash (sid ++ penc base ++ penc (x *: base) ++ penc (k *: base)) in
  (prove penc dec hash base sid x k = Err <-> (q <= be_val h)%N) /\
  (is_ok (prove penc dec hash base sid x k) <-> (be_val h < q)%N).
Proof.
move=> F G penc hash ofnat q base sid x k hs dec h; rewrite /prove /dec /dec_be /transcript hs eqxx /=.
by case: ltnP => //=; split; split.
Qed.
Print Assumptions C19_schnorr_hash_range.

(** For an order of at most 2^255 - in particular the order of BLS12-381 - more than half of the
    2^256 possible hash values are refused. *)
Theorem C19_schnorr_refused_count :
  forall q : nat, (q < 2 ^ 255)%N ->
  (#|[set h : 'I_(256 ^ 32) | (h < q)%N]| = q)%N /\
  (256 ^ 32 < 2 * #|[set h : 'I_(256 ^ 32) | (q <= h)%N]|)%N.
Proof.
move=> q hq.
have e : (256 ^ 32 = 2 * 2 ^ 255)%N.
  have e8 : (256 = 2 ^ 8)%N by [].
  by rewrite e8 -expnM -expnS.
move: (256 ^ 32)%N (2 ^ 255)%N e hq => M N e hq.
have ac : #|[set h : 'I_M | (h < q)%N]| = q.
  transitivity (\sum_(0 <= i < q) 1)%N; last by rewrite sum_nat_const_nat subn0 muln1.
  rewrite (big_nat_widen 0 q M) ?big_mkord; last by lia.
  by rewrite cardsE -sum1_card.
split=> //.
have -> : [set h : 'I_M | (q <= h)%N] = ~: [set h : 'I_M | (h < q)%N].
  by apply/setP => h; rewrite !inE -leqNgt.
by rewrite cardsCs setCK ac card_ord; lia.
Qed.
Print Assumptions C19_schnorr_refused_count.

(** native/bls12381/fq.go: the order of BLS12-381 *)
Definition bls_r : N := 0x73eda753299d7d483339d80809a1d80553bda402fffe5bfeffffffff00000001%num.
Example C19_hyps : (N.to_nat bls_r < 2 ^ 255)%N.
Proof. rewrite /bls_r; lia. Qed.
