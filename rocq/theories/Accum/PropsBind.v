(** C54: the challenge of the accumulator membership proof covers the accumulator and every commitment. *)
From mathcomp Require Import all_ssreflect all_algebra.
From Verif Require Import Lib.Res Lib.Bytes Lib.Pairing Accum.Model.
Set Implicit Arguments.
Unset Strict Implicit.
Unset Printing Implicit Defensive.
Import GRing.Theory.
Local Open Scope ring_scope.

Lemma cat_split (A : Type) (a a' b b' : seq A) : size a = size a' -> a ++ b = a' ++ b' -> a = a' /\ b = b'.
Proof.
elim: a a' => [|x a IH] [|x' a'] //= [hs] [-> h].
by have [-> ->] := IH _ hs h.
Qed.

Section Bind.
Variables (F : fieldType) (G1 G2 GT : lmodType F) (penc : G1 -> bytes) (gtenc : GT -> bytes) (hashF : bytes -> F).
Variables (n m : nat).
Hypothesis penc_size : forall p, size (penc p) = n.
Hypothesis penc_inj : injective penc.
Hypothesis gtenc_size : forall t, size (gtenc t) = m.
Hypothesis gtenc_inj : injective gtenc.

(** Equal challenges come from equal accumulators and commitments, or from a collision of the hash *)
Theorem C54_challenge_binding (f f' : final G1 GT) :
  get_challenge penc gtenc hashF f = get_challenge penc gtenc hashF f' ->
  f = f' \/ exists b b', b <> b' /\ hashF b = hashF b'.
Proof.
rewrite /get_challenge => h.
case: (challenge_bytes penc gtenc f =P challenge_bytes penc gtenc f') => [e|ne]; last first.
  by right; exists (challenge_bytes penc gtenc f), (challenge_bytes penc gtenc f').
left; move: e; rewrite /challenge_bytes; case: f h => a1 a2 a3 a4 t a5 a6 a7 a8 _.
case: f' => b1 b2 b3 b4 t' b5 b6 b7 b8 /=.
have st p p' (r r' : bytes) : penc p ++ r = penc p' ++ r' -> p = p' /\ r = r'.
  by move=> e; have [|/penc_inj -> ->] := cat_split _ e; rewrite ?penc_size.
do 4 (move=> /st [-> ]).
move=> e; have [|/gtenc_inj -> {e}] := cat_split _ e; first by rewrite !gtenc_size.
by do 3 (move=> /st [-> ]); move=> /penc_inj ->.
Qed.

(** so a proof accepted for two accumulators under one challenge is a collision *)
Theorem C54_proof_binds_accumulator (g2 : G2) (e : G1 -> G2 -> GT) (mp : proof G1) pp pk acc acc' c :
  proof_verify g2 e penc gtenc hashF mp acc pp pk c -> proof_verify g2 e penc gtenc hashF mp acc' pp pk c ->
  acc = acc' \/ exists b b', b <> b' /\ hashF b = hashF b'.
Proof.
rewrite /proof_verify => /eqP h1 /eqP h2.
by have [[] *|] := C54_challenge_binding (etrans h1 (esym h2)); [left|right].
Qed.
End Bind.

Print Assumptions C54_challenge_binding.
Print Assumptions C54_proof_binds_accumulator.

(** fixed-length injective encodings exist *)
Example C54_bind_hyps :
  let penc (x : 'F_2) : bytes := [:: val x] in (forall p, size (penc p) = 1%N) /\ injective penc.
Proof. by split=> // x y [] /val_inj. Qed.
