(** The complete addition formulas compute the chord-and-tangent law. *)
From mathcomp Require Import all_ssreflect all_algebra.
From Coq Require Import Field.
From Verif Require Import Lib.FieldTac Curves.AddSpec Curves.AddModel.
Set Implicit Arguments.
Unset Strict Implicit.
Unset Printing Implicit Defensive.
Import GRing.Theory.
Local Open Scope ring_scope.

Section Law.
Variable F : fieldType.
Add Field F_field : (f_fth F).

Section Curve.
Variables (a b : F).
Hypothesis two : (2%:R : F) != 0.
Hypothesis no2 : no_two_torsion a b.

Lemma y_neq0 x y : on_curve a b (Some (x, y)) -> y != 0.
Proof. by move=> /= h; apply/eqP => y0; apply: (no2 (x := x)); rewrite -h y0 expr0n. Qed.

Lemma aneg_on_curve P : on_curve a b P -> on_curve a b (aneg P).
Proof. by case: P => [[x y]|] //=; rewrite sqrrN. Qed.

(** coordinates of the generic complete formulas (Renes, Costello, Batina, Algorithm 1) for affine operands *)
Definition rX x1 y1 x2 y2 : F :=
  (x1 * y2 + x2 * y1) * (y1 * y2 - a * (x1 + x2) - 3%:R * b)
  - (y1 + y2) * (a * (x1 * x2) + 3%:R * b * (x1 + x2) - a * a).
Definition rY x1 y1 x2 y2 : F :=
  (y1 * y2 + a * (x1 + x2) + 3%:R * b) * (y1 * y2 - a * (x1 + x2) - 3%:R * b)
  + (3%:R * (x1 * x2) + a) * (a * (x1 * x2) + 3%:R * b * (x1 + x2) - a * a).
Definition rZ x1 y1 x2 y2 : F :=
  (y1 + y2) * (y1 * y2 + a * (x1 + x2) + 3%:R * b) + (x1 * y2 + x2 * y1) * (3%:R * (x1 * x2) + a).


(** chords and tangents have the same parameters: slope [l], difference [d] of the abscissas *)
Lemma chord_param x1 y1 x2 y2 (l := (y2 - y1) / (x2 - x1)) (d := x2 - x1) :
  on_curve a b (Some (x1, y1)) -> on_curve a b (Some (x2, y2)) -> x1 != x2 ->
  [/\ x2 = x1 + d, y2 = y1 + l * d,
      a = 2%:R * l * y1 + l ^+ 2 * d - 3%:R * x1 ^+ 2 - 3%:R * x1 * d - d ^+ 2
    & b = y1 ^+ 2 - x1 ^+ 3 - a * x1].
Proof.
move=> /= h1 h2 hx.
have hd : d != 0 by rewrite subr_eq0 eq_sym.
have e2 : y2 = y1 + l * d by rewrite /l divfK // addrC subrK.
have hb : b = y1 ^+ 2 - x1 ^+ 3 - a * x1 by rewrite h1; f_fold F; ring.
have ex : x2 = x1 + d by rewrite /d addrC subrK.
split=> //.
apply: (mulIf hd).
have : y2 ^+ 2 - x2 ^+ 3 - b - y1 ^+ 2 + x1 ^+ 3 + b = a * d.
  by rewrite h2 h1 /d; f_fold F; ring.
rewrite ex e2 => <-; rewrite hb; f_fold F; ring.
Qed.

Lemma tangent_param x y (l := (3%:R * x ^+ 2 + a) / (2%:R * y)) :
  on_curve a b (Some (x, y)) ->
  [/\ y = y + l * 0, a = 2%:R * l * y + l ^+ 2 * 0 - 3%:R * x ^+ 2 - 3%:R * x * 0 - 0 ^+ 2
    & b = y ^+ 2 - x ^+ 3 - a * x].
Proof.
move=> h; have hy := y_neq0 h; move: h => /= h.
split; [by rewrite mulr0 addr0| |by rewrite h; f_fold F; ring].
have -> : 2%:R * l * y = 3%:R * x ^+ 2 + a.
  by rewrite mulrAC /l mulrC divfK // mulf_neq0.
f_fold F; ring.
Qed.
End Curve.

Section Poly.
Variables (l d x1 y1 : F).
Let x2 := x1 + d.
Let y2 := y1 + l * d.
Let a := 2%:R * l * y1 + l ^+ 2 * d - 3%:R * x1 ^+ 2 - 3%:R * x1 * d - d ^+ 2.
Let b := y1 ^+ 2 - x1 ^+ 3 - a * x1.
Let x3 := l ^+ 2 - x1 - x2.
Let y3 := l * (x1 - x3) - y1.

Lemma poly_on : y3 ^+ 2 = x3 ^+ 3 + a * x3 + b.
Proof. rewrite /y3 /x3 /b /a /x2; f_fold F; ring. Qed.

Lemma poly_X : rX a b x1 y1 x2 y2 = x3 * rZ a b x1 y1 x2 y2.
Proof. rewrite /rX /rZ /x3 /b /a /x2 /y2; f_fold F; ring. Qed.

Lemma poly_Y : rY a b x1 y1 x2 y2 = y3 * rZ a b x1 y1 x2 y2.
Proof. rewrite /rY /rZ /y3 /x3 /b /a /x2 /y2; f_fold F; ring. Qed.

(** the third coordinate is the ordinate of the difference, up to the cube of [d] *)
Lemma poly_Z (m := - y2 - y1) :
  rZ a b x1 y1 x2 y2 = m * (x1 * d ^+ 2 - (m ^+ 2 - (x1 + x2) * d ^+ 2)) - y1 * d ^+ 3.
Proof. rewrite /rZ /m /b /a /x2 /y2; f_fold F; ring. Qed.
End Poly.

(** the affine point a projective triple stands for *)
Definition rep (p : pt F) : apoint F :=
  if pZ p == 0 then None else Some (pX p / pZ p, pY p / pZ p).

Section Curve2.
Variables (a b : F).
Hypothesis two : (2%:R : F) != 0.
Hypothesis no2 : no_two_torsion a b.

Definition slope x1 y1 x2 y2 : F :=
  if x1 != x2 then (y2 - y1) / (x2 - x1) else (3%:R * x1 ^+ 2 + a) / (2%:R * y1).

Lemma same_x x y1 y2 : on_curve a b (Some (x, y1)) -> on_curve a b (Some (x, y2)) -> y1 != - y2 -> y1 = y2.
Proof.
move=> /= h1 h2 hn.
have : (y1 - y2) * (y1 + y2) = 0 by rewrite -subr_sqr h1 h2 subrr.
move/eqP; rewrite mulf_eq0 subr_eq0 addr_eq0 => /orP[/eqP //|h].
by rewrite h in hn.
Qed.

Lemma params x1 y1 x2 y2 (l := slope x1 y1 x2 y2) (d := x2 - x1) :
  on_curve a b (Some (x1, y1)) -> on_curve a b (Some (x2, y2)) -> ~~ ((x1 == x2) && (y1 == - y2)) ->
  [/\ x2 = x1 + d, y2 = y1 + l * d,
      a = 2%:R * l * y1 + l ^+ 2 * d - 3%:R * x1 ^+ 2 - 3%:R * x1 * d - d ^+ 2
    & b = y1 ^+ 2 - x1 ^+ 3 - a * x1].
Proof.
move=> h1 h2; rewrite /l /slope; case: (x1 =P x2) => [ex|/eqP hx] /=; last by move=> _; apply: chord_param.
rewrite -ex in h2; move=> hn; have ey := same_x h1 h2 hn.
have d0 : d = 0 by rewrite /d ex subrr.
rewrite d0 -ex -ey addr0; have [h3 h4 h5] := tangent_param two no2 h1.
by split.
Qed.

Lemma aadd_slope x1 y1 x2 y2 :
  aadd a (Some (x1, y1)) (Some (x2, y2)) =
  if (x1 == x2) && (y1 == - y2) then None else chord (slope x1 y1 x2 y2) x1 y1 x2.
Proof. by rewrite /aadd /slope; case: (x1 =P x2) => //= _; case: (y1 =P - y2). Qed.

Lemma aadd_on_curve P Q : on_curve a b P -> on_curve a b Q -> on_curve a b (aadd a P Q).
Proof.
case: P Q => [[x1 y1]|] [[x2 y2]|] // h1 h2.
rewrite aadd_slope; case: ifP => // /negbT hn.
have [e2 f2 ha hb] := params h1 h2 hn.
move: e2 f2 ha hb; set l := slope _ _ _ _; set d := x2 - x1 => e2 f2 ha hb.
rewrite /chord /on_curve; have := poly_on l d x1 y1.
by rewrite -ha -hb -e2.
Qed.

Lemma rcb_generic x1 y1 x2 y2 :
  on_curve a b (Some (x1, y1)) -> on_curve a b (Some (x2, y2)) -> ~~ ((x1 == x2) && (y1 == - y2)) ->
  rZ a b x1 y1 x2 y2 != 0 /\
  aadd a (Some (x1, y1)) (Some (x2, y2)) =
    Some (rX a b x1 y1 x2 y2 / rZ a b x1 y1 x2 y2, rY a b x1 y1 x2 y2 / rZ a b x1 y1 x2 y2).
Proof.
move=> h1 h2 hn; have [e2 f2 ha hb] := params h1 h2 hn.
have hz : rZ a b x1 y1 x2 y2 != 0.
  have hZ := poly_Z (slope x1 y1 x2 y2) (x2 - x1) x1 y1; rewrite -ha -hb -e2 -f2 in hZ.
  case: (x1 =P x2) => [ex|/eqP hx]; last first.
    have hd : x2 - x1 != 0 by rewrite subr_eq0 eq_sym.
    have h3 := aadd_on_curve h1 (aneg_on_curve h2).
    rewrite /aneg aadd_slope (negbTE hx) /= in h3.
    have := y_neq0 no2 h3; rewrite /slope hx.
    apply: contraNneq => z0; apply/eqP; apply: (mulIf (expf_neq0 3 hd)); rewrite mul0r -[RHS]z0 hZ.
    by f_fold F; field; f_side.
  have ey : y1 = y2 by rewrite -ex in h2; apply: same_x h1 h2 _; move: hn; rewrite ex eqxx.
  rewrite hZ -ex -ey subrr.
  have -> : (- y1 - y1) * (x1 * 0 ^+ 2 - ((- y1 - y1) ^+ 2 - (x1 + x1) * 0 ^+ 2)) - y1 * 0 ^+ 3 = (2%:R * y1) ^+ 3.
    by f_fold F; ring.
  by rewrite expf_neq0 // mulf_neq0 // (y_neq0 no2 h1).
split=> //; rewrite aadd_slope (negbTE hn) /chord.
have hX := poly_X (slope x1 y1 x2 y2) (x2 - x1) x1 y1; rewrite -ha -hb -e2 -f2 in hX.
have hY := poly_Y (slope x1 y1 x2 y2) (x2 - x1) x1 y1; rewrite -ha -hb -e2 -f2 in hY.
by rewrite hX hY !mulfK.
Qed.

Lemma rcb_inverse x y :
  on_curve a b (Some (x, y)) ->
  [/\ rX a b x y x (- y) = 0, rZ a b x y x (- y) = 0 & rY a b x y x (- y) != 0].
Proof.
move=> h; have hy := y_neq0 no2 h.
split; [by rewrite /rX; f_fold F; ring|by rewrite /rZ; f_fold F; ring|].
have hn : ~~ ((x == x) && (y == - y)).
  rewrite eqxx /= -subr_eq0 opprK -mulr2n -mulr_natl mulf_neq0 //.
have [hz e] := rcb_generic h h hn.
have h3 := aadd_on_curve h h; rewrite e in h3; have h4 := y_neq0 no2 h3.
have -> : rY a b x y x (- y) = rY a b x y x y; last by apply: contraNneq h4 => ->; rewrite mul0r.
have hb : b = y ^+ 2 - x ^+ 3 - a * x by move: h => /= ->; f_fold F; ring.
by rewrite /rY; f_fold F; ring.
Qed.
End Curve2.
End Law.
