(** fp6 and fp12 are fields when 1+u is no cube; Frobenius, the cyclotomic subgroup, and the final
    exponentiation. *)
From mathcomp Require Import all_ssreflect all_algebra.
From Coq Require Import Ring_theory Field.
From Verif Require Import Lib.FieldTac Tower.TowerModel Tower.TowerProofs.
Set Implicit Arguments.
Unset Strict Implicit.
Unset Printing Implicit Defensive.
Import GRing.Theory.
Local Open Scope ring_scope.

Section SumSq.
Variable F : fieldType.
Add Field F_field0 : (f_fth F).
Lemma sum_sq (a b : F) : (a * a + b * b) * (a * a + b * b) =
  (a * a - b * b) * (a * a - b * b) + (a * b + b * a) * (a * b + b * a).
Proof. f_fold F; ring. Qed.
End SumSq.

Section Fields.
Variable F : fieldType.
Add Ring fp2_ring : (rth2 F).
Hypothesis hI : noI F.
Local Notation fp2 := (fp2 F).

Lemma mul2_eq0 (x y : fp2) : mul2 x y = zero2 F -> x = zero2 F \/ y = zero2 F.
Proof.
move=> e; case: (isZero2P x) => hx; [by left|right].
case: (invert2_ok hI x hx) => x' [_ hx'].
have -> : y = mul2 x' (mul2 x y) by (rewrite -[LHS](_ : mul2 (mul2 x x') y = y); [ring|rewrite hx'; ring]).
rewrite e; ring.
Qed.
Definition cube2 (x : fp2) := mul2 x (mul2 x x).
Definition noCube := forall x : fp2, cube2 x <> xi F.
Lemma cube_ratio (s t : fp2) : noCube -> cube2 s = mul2 (xi F) (cube2 t) -> t = zero2 F.
Proof.
move=> hc e; case: (isZero2P t) => [//|ht].
case: (invert2_ok hI t ht) => t' [_ ht'].
case: (hc (mul2 s t')).
have -> : cube2 (mul2 s t') = mul2 (cube2 s) (cube2 t') by rewrite /cube2; ring.
rewrite e.
have -> : mul2 (mul2 (xi F) (cube2 t)) (cube2 t') = mul2 (xi F) (cube2 (mul2 t t')) by rewrite /cube2; ring.
rewrite ht' /cube2; ring.
Qed.
Lemma cube2_eq0 (x : fp2) : cube2 x = zero2 F -> x = zero2 F.
Proof. by move=> /mul2_eq0 [//|/mul2_eq0 [|]]. Qed.
Lemma norm6_eq0 (hc : noCube) (x : fp6 F) : norm6 x = zero2 F -> x = zero6 F.
Proof.
case: x => a b c hN.
pose b' := sub2 (mul2 (mul2 c c) (xi F)) (mul2 a b).
pose c' := sub2 (mul2 b b) (mul2 a c).
have e1 : cube2 b' = mul2 (xi F) (cube2 c').
  have : sub2 (cube2 b') (mul2 (xi F) (cube2 c')) =
         mul2 (norm6 (Fp6 a b c)) (sub2 (mul2 (xi F) (cube2 c)) (cube2 b)).
    rewrite /norm6 /cube2 /b' /c' /=; ring.
  rewrite hN => e.
  have -> : cube2 b' = add2 (sub2 (cube2 b') (mul2 (xi F) (cube2 c'))) (mul2 (xi F) (cube2 c')) by ring.
  rewrite e; ring.
have hc' := cube_ratio hc e1.
have hb' : b' = zero2 F by apply: cube2_eq0; rewrite e1 hc' /cube2; ring.
have e2 : cube2 b = mul2 (xi F) (cube2 c).
  have : sub2 (cube2 b) (mul2 (xi F) (cube2 c)) = sub2 (mul2 b c') (mul2 c b').
    rewrite /cube2 /b' /c'; ring.
  rewrite hc' hb' => e.
  have -> : cube2 b = add2 (sub2 (cube2 b) (mul2 (xi F) (cube2 c))) (mul2 (xi F) (cube2 c)) by ring.
  rewrite e; ring.
have c0 := cube_ratio hc e2.
have b0 : b = zero2 F by apply: cube2_eq0; rewrite e2 c0 /cube2; ring.
have a0 : a = zero2 F.
  apply: cube2_eq0; rewrite -hN /norm6 /cube2 /= b0 c0; ring.
by rewrite a0 b0 c0.
Qed.

Definition no2 := forall a : F, a * a <> 1 + 1.
Lemma xi_nonsquare (h2 : no2) (s : fp2) : mul2 s s <> xi F.
Proof.
move=> e; apply: (h2 (A2 s * A2 s + B2 s * B2 s)).
move: e; case: s => a b; rewrite mul2E /xi /= => -[ea eb].
by rewrite sum_sq ea eb !mulr1.
Qed.
Lemma norm6M (x y : fp6 F) : norm6 (mul6 x y) = mul2 (norm6 x) (norm6 y).
Proof. rewrite mul6E /norm6 /=; case: x y => [a b c] [d e f] /=; ring. Qed.
Lemma v_nonsquare (h2 : no2) (s : fp6 F) : mul6 s s <> vv F.
Proof.
move=> e; apply: (xi_nonsquare h2 (s := norm6 s)).
rewrite -norm6M e /norm6 /vv /=; ring.
Qed.
Add Ring fp6_ring : (rth6 F).
Lemma norm12_eq0 (hc : noCube) (h2 : no2) (x : fp12 F) :
  norm6 (norm12 x) = zero2 F -> x = zero12 F.
Proof.
move=> /(norm6_eq0 hc); case: x => a b; rewrite /norm12 /= => e.
case: (isZero6P b) => hb.
  move: e; rewrite hb => e.
  have e' : mul6 a a = zero6 F by rewrite -e; ring.
  have /(norm6_eq0 hc) -> // : norm6 a = zero2 F.
  have : mul2 (norm6 a) (norm6 a) = zero2 F by rewrite -norm6M e' /norm6 /=; ring.
  by move=> /mul2_eq0 [|].
case: (isZero2P (norm6 b)) => [/(norm6_eq0 hc) //|hn].
case: (invert6_ok hI b hn) => b' [_ hb'].
case: (v_nonsquare h2 (s := mul6 a b')).
have -> : mul6 (mul6 a b') (mul6 a b') = mul6 (mul6 a a) (mul6 b' b') by ring.
have -> : mul6 a a = mul6 (mul6 b b) (vv F).
  have -> : mul6 a a = add6 (sub6 (mul6 a a) (mul6 (mul6 b b) (vv F))) (mul6 (mul6 b b) (vv F)) by ring.
  rewrite e; ring.
have -> : mul6 (mul6 (mul6 b b) (vv F)) (mul6 b' b') = mul6 (mul6 (mul6 b b') (mul6 b b')) (vv F) by ring.
rewrite hb'; ring.
Qed.
End Fields.
