(** Vocabulary of the sharing properties, independent of the model's helpers. *)
From mathcomp Require Import all_ssreflect all_algebra.
Set Implicit Arguments.
Unset Strict Implicit.
Unset Printing Implicit Defensive.
Import GRing.Theory.
Local Open Scope ring_scope.

(** The scalar field is large enough for the identifiers 1..255 to be distinct and non-zero
    (true of every curve order). *)
Definition big_field (F : fieldType) : Prop :=
  forall n : nat, (0 < n <= 255)%N -> (n%:R : F) != 0.

(** Scalar.SetBytes inverts Scalar.Bytes. *)
Definition codec_ok (F : fieldType) (B : Type) (enc : F -> B) (dec : B -> option F) : Prop :=
  forall x, dec (enc x) = Some x.

(** The base point has the order of the scalar field. *)
Definition base_ok (F : fieldType) (G : lmodType F) (g : G) : Prop :=
  forall a : F, a *: g = 0 -> a = 0.

Lemma big_field_inj F : big_field F ->
  forall i j : nat, (i <= 255)%N -> (j <= 255)%N -> (i%:R : F) = j%:R -> i = j.
Proof.
move=> hF i j; wlog le : i j / (i <= j)%N => [hw hi hj e|hi hj e].
  by case: (leqP i j) => [le|/ltnW le]; [apply: hw | apply/esym/hw].
apply/eqP; rewrite eqn_leq le /= leqNgt; apply/negP => lt.
have := hF (j - i)%N; rewrite subn_gt0 lt /= (leq_trans (leq_subr _ _) hj) => /(_ isT).
by rewrite natrB // e subrr eqxx.
Qed.

Lemma F_p_big p : prime p -> (255 < p)%N -> big_field [fieldType of 'F_p].
Proof.
move=> pp lt n /andP[n0 n255]; rewrite -(@dvdn_charf _ p) ?char_Fp //.
by rewrite gtnNdvd // (leq_ltn_trans n255).
Qed.
