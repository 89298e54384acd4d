(** A pairing of two groups into a third (all written additively): what the theorems about the
    pairing-based schemes assume of Pairing and MultiPairing.  The Miller loop and the final
    exponentiation (pkg/core/curves/native/bls12381/pairings.go) are not modelled. *)
From mathcomp Require Import all_ssreflect all_algebra.
From Verif Require Import Lib.Inst.
Set Implicit Arguments.
Unset Strict Implicit.
Unset Printing Implicit Defensive.
Import GRing.Theory.
Local Open Scope ring_scope.

Section Pairing.
Variables (F : fieldType) (G1 G2 GT : lmodType F) (e : G1 -> G2 -> GT).

(** bilinear, and the generator [g2] separates the points of G1 (both groups have the same prime
    order, so one non-degenerate pair suffices on the curve) *)
Record pairing_ok (g2 : G2) : Prop := PairingOk {
  pr_addl : forall a b c, e (a + b) c = e a c + e b c;
  pr_addr : forall a b c, e a (b + c) = e a b + e a c;
  pr_scalel : forall k a b, e (k *: a) b = k *: e a b;
  pr_scaler : forall k a b, e a (k *: b) = k *: e a b;
  pr_inj : forall a, e a g2 = 0 -> a = 0;
  pr_gen : g2 != 0 }.

(** MultiPairing(p1, q1, p2, q2, ...): the product of the pairings; IsOne is equality with 0 *)
Definition multi_pairing (l : seq (G1 * G2)) : GT := foldr (fun x s => e x.1 x.2 + s) 0 l.

Variables (g2 : G2) (ok : pairing_ok g2).
Lemma pr_0l b : e 0 b = 0. Proof. by rewrite -(scale0r 0) (pr_scalel ok) scale0r. Qed.
Lemma pr_0r a : e a 0 = 0. Proof. by rewrite -(scale0r 0) (pr_scaler ok) scale0r. Qed.
Lemma pr_Nl a b : e (- a) b = - e a b. Proof. by rewrite -scaleN1r (pr_scalel ok) scaleN1r. Qed.
Lemma pr_Nr a b : e a (- b) = - e a b. Proof. by rewrite -scaleN1r (pr_scaler ok) scaleN1r. Qed.
Lemma pr_eq a b : (e a g2 == e b g2) = (a == b).
Proof.
apply/eqP/eqP => [h|-> //]; apply/eqP; rewrite -subr_eq0; apply/eqP/(pr_inj ok).
by rewrite (pr_addl ok) pr_Nl h subrr.
Qed.
(** a pairing equation against multiples of the generator is an equation in G1 *)
Lemma pr_shift a b x y : (e a (x *: g2) == e b (y *: g2)) = (x *: a == y *: b).
Proof. by rewrite !(pr_scaler ok) -!(pr_scalel ok) pr_eq. Qed.
End Pairing.
Arguments multi_pairing : simpl never.

(** the instance over 'F_257: multiplication *)
Definition e257 (a b : G257) : G257 := (a : F257) * (b : F257).
Lemma pairing257 : pairing_ok e257 g257.
Proof.
split.
- by move=> a b c; rewrite /e257 mulrDl.
- by move=> a b c; rewrite /e257 mulrDr.
- by move=> k a b; rewrite /e257 /GRing.scale /= mulrA.
- by move=> k a b; rewrite /e257 /GRing.scale /= mulrCA.
- by move=> a; rewrite /e257 /g257 mulr1.
- exact: oner_neq0.
Qed.
