(** C77: the target group of the BLS12-381 pairing. *)
From Coq Require Import ZArith.
From mathcomp Require Import all_ssreflect all_algebra all_field.
From Coq Require Import Ring Field.
From Verif Require Import Lib.FieldTac Tower.TowerModel Tower.TowerProofs Tower.GtProofs Tower.FrobProofs
  Tower.FinalProofs Tower.Literals.
Set Implicit Arguments.
Unset Strict Implicit.
Unset Printing Implicit Defensive.
Import GRing.Theory.
Local Open Scope ring_scope.

(** What is needed of the base field (true of the BLS12-381 field): -1 and 2 are no squares, 1+u is no cube. *)
Definition goodField (F : fieldType) : Prop :=
  [/\ forall a : F, a * a <> -1, forall x : fp2 F, mul2 x (mul2 x x) <> Fp2 1 1 & forall a : F, a * a <> 1 + 1].
(** The constants satisfy the relations a Frobenius map needs: c1 = g^2, c2 = g^4, g^6 (1+u) = 1-u and
    the norm of g is a primitive sixth root of unity.  The literals of the source do (C77_literals). *)
Definition frobConsts (F : fieldType) (c1 c2 g : fp2 F) : Prop :=
  [/\ mul2 g g = c1, mul2 c1 c1 = c2, mul2 (mul2 c1 c2) (Fp2 1 1) = Fp2 1 (-1) &
      let z := mul2 g (conj2 g) in mul2 z z = sub2 z (one2 F)].
(** x^n by repeated multiplication, and x^z for the negative curve parameter z = -n on elements whose
    inverse is the conjugate *)
Definition pw (F : fieldType) (x : fp12 F) (n : nat) : fp12 F := iter n (mul12 x) (one12 F).
Definition pwz (F : fieldType) (n : nat) (x : fp12 F) : fp12 F := conj12 (pw x n).

Section Out.
Variable F : fieldType.
Hypothesis hF : goodField F.
Variables c1 c2 g : fp2 F.
Hypothesis hc : frobConsts c1 c2 g.
Variable xbits : seq bool.
Local Notation frob := (frob12 c1 c2 g).
Local Notation n := (bitsVal xbits).
Local Notation FE := (finalExponentiation frob xbits).
Add Ring fp2_ring : (rth2 F).
Add Ring fp6_ring : (rth6 F).
Add Ring fp12_ring : (rth12 F).

Lemma hc' : frob_consts c1 c2 g.
Proof. exact: hc. Qed.
Lemma inv_ok (a : fp12 F) : a <> zero12 F -> exists ai, invert12 (zero12 F) a = (ai, true) /\ mul12 a ai = one12 F.
Proof.
case: hF => hI hC h2 ha; apply: invert12_ok => // h; exact: ha (norm12_eq0 hI hC h2 h).
Qed.
Lemma inv_no : (invert12 (zero12 F) (zero12 F)).2 = false.
Proof.
case: hF => hI hC h2; rewrite invert12_zero //.
have -> : norm12 (zero12 F) = zero6 F by rewrite /norm12; cbn [A12 B12 zero12]; ring.
by rewrite /norm6; cbn [A6 B6 C6 zero6]; ring.
Qed.
Lemma fe_ok gt a : a <> zero12 F -> exists ai, mul12 a ai = one12 F /\ FE gt a = spec_hard frob n (spec_easy frob a ai).
Proof.
move=> /inv_ok [ai [h1 h2]]; exists ai; split=> //.
by case: hF => hI _ _; exact: (finalE hc').
Qed.
Lemma fe_zero gt : FE gt (zero12 F) = gt.
Proof. exact: final_not inv_no. Qed.
Lemma easyM a b ai bi : mul12 a ai = one12 F -> mul12 b bi = one12 F ->
  spec_easy frob (mul12 a b) (mul12 ai bi) = mul12 (spec_easy frob a ai) (spec_easy frob b bi).
Proof.
move=> _ _; rewrite /spec_easy conj12M.
have -> : mul12 (mul12 (conj12 a) (conj12 b)) (mul12 ai bi) = mul12 (mul12 (conj12 a) ai) (mul12 (conj12 b) bi) by ring.
rewrite !(frob12M hc'); ring.
Qed.
Lemma inv_uniq a b c : mul12 a b = one12 F -> mul12 a c = one12 F -> b = c.
Proof.
move=> h1 h2; have -> : b = mul12 (mul12 a c) b by rewrite h2; ring.
by have -> : mul12 (mul12 a c) b = mul12 (mul12 a b) c by [ring]; rewrite h1; ring.
Qed.
Lemma one_ne : one12 F <> zero12 F.
Proof. by move=> /(congr1 (fun x => A2 (A6 (A12 x)))) /= /eqP; rewrite oner_eq0. Qed.
Lemma mul_ne a b : a <> zero12 F -> b <> zero12 F -> mul12 a b <> zero12 F.
Proof.
move=> /inv_ok [ai [_ ha]] /inv_ok [bi [_ hb]] h; apply: one_ne.
have -> : one12 F = mul12 (mul12 a b) (mul12 ai bi).
  have -> : mul12 (mul12 a b) (mul12 ai bi) = mul12 (mul12 a ai) (mul12 b bi) by ring.
  by rewrite ha hb; ring.
by rewrite h; ring.
Qed.
Lemma feM gt a b : a <> zero12 F -> b <> zero12 F -> FE gt (mul12 a b) = mul12 (FE gt a) (FE gt b).
Proof.
move=> ha hb; case: (fe_ok gt ha) => ai [h1 ->]; case: (fe_ok gt hb) => bi [h2 ->].
case: (fe_ok gt (mul_ne ha hb)) => ci [h3 ->].
have -> : ci = mul12 ai bi.
  apply: (inv_uniq h3); have -> : mul12 (mul12 a b) (mul12 ai bi) = mul12 (mul12 a ai) (mul12 b bi) by ring.
  by rewrite h1 h2; ring.
by rewrite (easyM h1 h2) (hardM hc').
Qed.
Lemma fe_cyc gt a : a <> zero12 F -> cyc c1 c2 g (FE gt a) /\ unit12 (FE gt a).
Proof.
move=> ha; case: (fe_ok gt ha) => ai [h1 ->]; case: (easy_ok hc' h1) => h2 h3.
exact: (hard_cyc hc').
Qed.
Lemma fe_conj gt a : a <> zero12 F -> FE gt (conj12 a) = conj12 (FE gt a).
Proof.
move=> ha.
have hca : conj12 a <> zero12 F.
  move=> h; apply: ha; rewrite -(conj12K a) h; apply/equal12P.
  by rewrite /equal12 /equal6 /equal2 /= !oppr0 !eqxx.
case: (fe_ok gt ha) => ai [h1 ->]; case: (fe_ok gt hca) => ci [h3 ->].
have -> : ci = conj12 ai by apply: (inv_uniq h3); rewrite -conj12M h1 conj121.
have e1 x y : spec_easy frob (conj12 x) (conj12 y) = conj12 (spec_easy frob x y).
  by rewrite /spec_easy -conj12M !(frob_conj hc') -conj12M.
have e3 x : powX n (conj12 x) = conj12 (powX n x) by rewrite /powX -conj_pow.
have f1 := frob_conj hc'.
rewrite e1; move: (spec_easy _ _ _) => t; rewrite /spec_hard.
have k1 y : mul12 (powX n (conj12 y)) (conj12 (conj12 y)) = conj12 (mul12 (powX n y) (conj12 y)) by rewrite e3 -conj12M.
have k2 y : mul12 (powX n (conj12 y)) (frob (conj12 y)) = conj12 (mul12 (powX n y) (frob y)) by rewrite e3 f1 -conj12M.
have k3 y : mul12 (mul12 (powX n (powX n (conj12 y))) (frob (frob (conj12 y)))) (conj12 (conj12 y)) =
  conj12 (mul12 (mul12 (powX n (powX n y)) (frob (frob y))) (conj12 y)) by rewrite !e3 !f1 -!conj12M.
by rewrite k1 k1 k2 k3 -!conj12M.
Qed.
End Out.

(** The literals of the source qualify in characteristic p. *)
Theorem C77_literals (F : fieldType) (p : nat) : Z.of_nat p = modulusZ -> p%:R = 0 :> F ->
  frobConsts (c1F F) (c2F F) (gF F).
Proof. by move=> hZ hm; apply: consts_ok; rewrite -hZ phi_nat. Qed.
Print Assumptions C77_literals.

(** FinalExponentiation of any nonzero value is t^((z-1)^2 (z+p) (z^2+p^2-1) + 3), where z is the curve
    parameter, ^p is FrobeniusMap and t = (conj(a)/a)^(p^2+1); of zero it is the receiver's old value. *)
Theorem C77_final_exponentiation (F : fieldType) (c1 c2 g : fp2 F) (xbits : seq bool) (gt a : fp12 F) :
  goodField F -> frobConsts c1 c2 g ->
  let frob := frob12 c1 c2 g in let FE := finalExponentiation frob xbits in
  let Z := pwz (bitsVal xbits) in
  (a = zero12 F -> FE gt a = gt) /\
  (a <> zero12 F -> exists ai, mul12 a ai = one12 F /\
    let b := mul12 (conj12 a) ai in let t := mul12 (frob (frob b)) b in
    let s := mul12 (Z (mul12 (Z t) (conj12 t))) (conj12 (mul12 (Z t) (conj12 t))) in
    let r := mul12 (Z s) (frob s) in
    let q := mul12 (mul12 (Z (Z r)) (frob (frob r))) (conj12 r) in
    mul12 t (conj12 t) = one12 F /\ FE gt a = mul12 q (mul12 t (mul12 t t))).
Proof.
move=> hF hc frob FE Z; split=> [->|ha]; first exact: fe_zero.
case: (fe_ok hF hc xbits gt ha) => ai [h1 h2]; exists ai; split=> //.
by split; [case: (easy_ok (hc' hc) h1) | exact: h2].
Qed.
Print Assumptions C77_final_exponentiation.

(** FinalExponentiation is multiplicative, and on its values the target group's operations are right:
    IsOne, Neg, Sub, Double, Square and the scalar wrapper's Add, Sub, Div, Neg, Square, Cube. *)
Theorem C77_outputs (F : fieldType) (c1 c2 g : fp2 F) (xbits : seq bool) (gt a b : fp12 F) :
  goodField F -> frobConsts c1 c2 g -> a <> zero12 F -> b <> zero12 F ->
  let FE := finalExponentiation (frob12 c1 c2 g) xbits in
  let x := FE gt a in let y := FE gt b in
  [/\ FE gt (mul12 a b) = mul12 x y,
      (isOne12 x = true <-> x = one12 F),
      mul12 x (gtNeg x) = one12 F /\ mul12 (gtSub x y) y = x,
      gtDouble x = mul12 x x /\ gtSquare x = mul12 x x &
      [/\ sAdd x y = mul12 x y /\ sMul x y = mul12 x y, mul12 (sDiv x y) y = x, mul12 (sSub x y) y = x,
          sSquare x = mul12 x x & sCube x = mul12 x (mul12 x x)]].
Proof.
move=> hF hc ha hb FE x y.
have [cx ux] := fe_cyc hF hc xbits gt ha; have [cy uy] := fe_cyc hF hc xbits gt hb.
have sq : gtSquare x = mul12 x x by exact: (cyclotomicSquareE (hc' hc) cx).
have R := rth12 F.
have sub : mul12 (gtSub x y) y = x.
  rewrite /gtSub -(Rmul_assoc R) (Rmul_comm R (conj12 y)) uy (Rmul_comm R); exact: (Rmul_1_l R).
split=> //.
- exact: feM.
- case: hF => hI _ _; rewrite (isOne_unitary hI ux).
  by split=> [/equal12P|h]; last apply/equal12P.
- by split=> //; exact: square12E.
- split=> //.
  by rewrite /sCube sq /gtAdd (Rmul_assoc R).
Qed.
Print Assumptions C77_outputs.

(** Finding: outside the values of the pairing (SetBytes, Random and Hash return such elements) Square, Cube,
    Neg, Sub and Div are not the operations they name: already for the element 2. *)
Theorem C77_other_elements_refuted (F : fieldType) : (2%:R : F) <> 0 -> (3%:R : F) <> 0 ->
  exists x : fp12 F, [/\ x <> zero12 F,
    gtSquare x <> mul12 x x, sCube x <> mul12 x (mul12 x x), mul12 x (gtNeg x) <> one12 F &
    mul12 (sDiv (one12 F) x) x <> one12 F].
Proof.
move=> h2 h3.
pose x : fp12 F := Fp12 (Fp6 (Fp2 2%:R 0) (zero2 F) (zero2 F)) (zero6 F).
exists x.
have e00 (z : fp12 F) (y : fp12 F) : z = y -> A2 (A6 (A12 z)) = A2 (A6 (A12 y)) by move=> ->.
have m (s t : F) : mul12 (Fp12 (Fp6 (Fp2 s 0) (zero2 F) (zero2 F)) (zero6 F)) (Fp12 (Fp6 (Fp2 t 0) (zero2 F) (zero2 F)) (zero6 F))
   = Fp12 (Fp6 (Fp2 (s * t) 0) (zero2 F) (zero2 F)) (zero6 F).
  rewrite mul12E; cbn [A12 B12]; rewrite !mul6E; cbn [A6 B6 C6]; rewrite /vv /zero6 !mul2E /xi /add6 /add2; cbn [A6 B6 C6 A2 B2].
  by rewrite /zero2 !(mul0r, mulr0, addr0, add0r, subr0, oppr0, mulr1).
have hcj (s : F) : conj12 (Fp12 (Fp6 (Fp2 s 0) (zero2 F) (zero2 F)) (zero6 F)) = Fp12 (Fp6 (Fp2 s 0) (zero2 F) (zero2 F)) (zero6 F).
  by rewrite /conj12 /neg6 /neg2 /zero6 /zero2 /= !oppr0.
have hsq : gtSquare x = Fp12 (Fp6 (Fp2 8%:R 0) (zero2 F) (zero2 F)) (zero6 F).
  have e8 : (8%:R : F) = 2%:R * 2%:R - 2%:R + (2%:R * 2%:R - 2%:R) + 2%:R * 2%:R.
    by apply/eqP; rewrite -natrM -(natrB _ (isT : 2 <= 4)%N) -!natrD.
  rewrite e8 /gtSquare /x /cyclotomicSquare /fp4Square /double2 /square2 /mulNR2 /add2 /sub2 /zero6 /zero2 /=.
  by rewrite !(mul0r, mulr0, addr0, add0r, subr0, oppr0, subrr).
have n4 : (4%:R : F) <> 0 by rewrite (natrM _ 2 2) => /eqP; rewrite mulf_eq0 orbb => /eqP.
have n8 : (8%:R : F) <> 0 by rewrite (natrM _ 2 4) => /eqP; rewrite mulf_eq0 => /orP [] /eqP.
split.
- by move=> /e00.
- by rewrite hsq /x m => /e00 /=; rewrite -natrM => /eqP; rewrite -subr_eq0 -natrB // => /eqP.
- rewrite /sCube /gtAdd.
  by rewrite hsq /x !m => /e00 /=; rewrite -!natrM => /eqP; rewrite -subr_eq0 -natrB // => /eqP.
- by rewrite /gtNeg /x hcj m => /e00 /=; rewrite -natrM => /eqP; rewrite -subr_eq0 -(natrB _ (isT : 1 <= 4)%N) => /eqP.
- rewrite /sDiv /gtSub /x hcj /one12 /one6 -/(zero2 F) !m => /e00 /=.
  by rewrite mul1r -natrM => /eqP; rewrite -subr_eq0 -(natrB _ (isT : 1 <= 4)%N) => /eqP.
Qed.
Print Assumptions C77_other_elements_refuted.

(** Finding: Gt.Mul, the exponentiation of the target group, returns zero whatever the element and scalar:
    its accumulator starts from the zero value instead of one. *)
Theorem C77_mul_refuted (F : fieldType) (a : fp12 F) (ws : seq nat) : gtMul a ws = zero12 F.
Proof.
have R := rth12 F.
have h0 (t : fp12 F) : mul12 (zero12 F) t = zero12 F.
  have e : add12 (mul12 (zero12 F) t) (mul12 (zero12 F) t) = mul12 (zero12 F) t by rewrite -(Rdistr_l R) (Radd_0_l R).
  by rewrite -[LHS](Radd_0_l R) -{1}(Ropp_def R (mul12 (zero12 F) t)) (Radd_comm R) (Radd_assoc R) e (Ropp_def R).
rewrite /gtMul; move: (gtTable a 7) => tb.
by elim: ws => [//|w ws IH] /=; rewrite {2}/gtMulStep !square12E !h0.
Qed.
Print Assumptions C77_mul_refuted.

(** The scalar wrapper's Invert is right on every element. *)
Theorem C77_invert (F : fieldType) (x : fp12 F) : goodField F ->
  (x = zero12 F -> sInvert x = None) /\ (x <> zero12 F -> exists y, sInvert x = Some y /\ mul12 x y = one12 F).
Proof.
move=> hF; split=> [->|hx].
  by rewrite /sInvert /gtInvert; have := inv_no hF; case: (invert12 _ _) => v ok /= ->.
by case: (inv_ok hF hx) => y [h1 h2]; exists y; rewrite /sInvert /gtInvert h1.
Qed.
Print Assumptions C77_invert.
