(** Point arithmetic of pkg/core/curves: native/point.go, native/k256/point.go, native/p256/point.go,
    native/bls12381/g1.go and g2.go, pallas_curve.go.
    Field elements are an arbitrary field [F]; the native field arithmetic is modelled in Limbs/.  A conditional
    select (Selectznz, CMove) is an [if] on the condition.  [f.Sub(a, b)], [f.Neg] are the ring operations. *)
From mathcomp Require Import all_ssreflect all_algebra.
Set Implicit Arguments.
Unset Strict Implicit.
Unset Printing Implicit Defensive.
Import GRing.Theory.
Local Open Scope ring_scope.

Section Points.
Variable F : fieldType.

(** native/point.go:43-49 (coordinates of EllipticPoint); bls12381/g1.go (G1), g2.go:497-499 (G2); Ep of
    pallas_curve.go *)
Record pt := Pt { pX : F; pY : F; pZ : F }.

(** native/point.go:245-250 EllipticPoint.Identity; pallas_curve.go:724-729 Ep.Identity *)
Definition native_identity : pt := Pt 0 0 0.
(** bls12381/g1.go:581-586 G1.Identity; g2.go:549-554 G2.Identity *)
Definition bls_identity : pt := Pt 0 1 0.

(** native/point.go:261-263, g1.go:597-599, g2.go:565-567, pallas_curve.go:738-740 *)
Definition is_identity (p : pt) : bool := pZ p == 0.

(** k256/point.go:279-321 Double *)
Definition k256_double (b : F) (p : pt) : pt :=
  let yy := pY p * pY p in
  let zz := pZ p * pZ p in
  let xy2 := pX p * pY p in
  let xy2 := xy2 + xy2 in
  let bzz := zz * b in
  let bzz3 := bzz + bzz in
  let bzz3 := bzz3 + bzz in
  let bzz9 := bzz3 + bzz3 in
  let bzz9 := bzz9 + bzz3 in
  let yyMBzz9 := - bzz9 in
  let yyMBzz9 := yyMBzz9 + yy in
  let yyPBzz3 := yy + bzz3 in
  let yyzz := yy * zz in
  let yyzz8 := yyzz + yyzz in
  let yyzz8 := yyzz8 + yyzz8 in
  let yyzz8 := yyzz8 + yyzz8 in
  let t := yyzz8 + yyzz8 in
  let t := t + yyzz8 in
  let t := t * b in
  let x := xy2 * yyMBzz9 in
  let y := yyMBzz9 * yyPBzz3 in
  let y := y + t in
  let z := yy * pY p in
  let z := z * pZ p in
  let z := z + z in
  let z := z + z in
  let z := z + z in
  Pt x y z.

(** k256/point.go:323-397 the formula of Add *)
Definition k256_formula (b : F) (p q : pt) : pt :=
  let xx := pX p * pX q in
  let yy := pY p * pY q in
  let zz := pZ p * pZ q in
  let nXxYy := - (xx + yy) in
  let nYyZz := - (yy + zz) in
  let nXxZz := - (xx + zz) in
  let xyPairs := (pX p + pY p) * (pX q + pY q) + nXxYy in
  let yzPairs := (pY p + pZ p) * (pY q + pZ q) + nYyZz in
  let xzPairs := (pX p + pZ p) * (pX q + pZ q) + nXxZz in
  let bzz := zz * b in
  let bzz3 := bzz + bzz in
  let bzz3 := bzz3 + bzz in
  let yyMBzz3 := - bzz3 in
  let yyMBzz3 := yyMBzz3 + yy in
  let yyPBzz3 := yy + bzz3 in
  let byz := yzPairs * b in
  let byz3 := byz + byz in
  let byz3 := byz3 + byz in
  let xx3 := xx + xx in
  let xx3 := xx3 + xx in
  let bxx9 := xx3 + xx3 in
  let bxx9 := bxx9 + xx3 in
  let bxx9 := bxx9 * b in
  let tv1 := xyPairs * yyMBzz3 in
  let tv2 := byz3 * xzPairs in
  let tv2 := - tv2 in
  let x := tv1 + tv2 in
  let tv1 := yyPBzz3 * yyMBzz3 in
  let tv2 := bxx9 * xzPairs in
  let y := tv1 + tv2 in
  let tv1 := yzPairs * yyPBzz3 in
  let tv2 := xx3 * xyPairs in
  let z := tv1 + tv2 in
  Pt x y z.

(** k256/point.go:391-403 and p256/point.go:261-273: when the first operand is the identity the second is selected, then
    when the second is the identity the first *)
Definition select_identity (p q r : pt) : pt :=
  let r1 := if is_identity p then q else r in
  if is_identity q then p else r1.

(** k256/point.go:323-408 Add *)
Definition k256_add (b : F) (p q : pt) : pt := select_identity p q (k256_formula b p q).

(** p256/point.go:134-194 Double *)
Definition p256_double (b : F) (p : pt) : pt :=
  let xx := pX p * pX p in
  let yy := pY p * pY p in
  let zz := pZ p * pZ p in
  let xy2 := pX p * pY p in
  let xy2 := xy2 + xy2 in
  let yz2 := pY p * pZ p in
  let yz2 := yz2 + yz2 in
  let xz2 := pX p * pZ p in
  let xz2 := xz2 + xz2 in
  let bzz := b * zz in
  let bzz := bzz - xz2 in
  let bzz3 := bzz + bzz in
  let bzz3 := bzz3 + bzz in
  let yyMBzz3 := yy - bzz3 in
  let yyPBzz3 := yy + bzz3 in
  let yFrag := yyPBzz3 * yyMBzz3 in
  let xFrag := yyMBzz3 * xy2 in
  let zz3 := zz + zz in
  let zz3 := zz3 + zz in
  let bxz2 := b * xz2 in
  let bxz2 := bxz2 - zz3 in
  let bxz2 := bxz2 - xx in
  let bxz6 := bxz2 + bxz2 in
  let bxz6 := bxz6 + bxz2 in
  let xx3Mzz3 := xx + xx in
  let xx3Mzz3 := xx3Mzz3 + xx in
  let xx3Mzz3 := xx3Mzz3 - zz3 in
  let x := bxz6 * yz2 in
  let x := xFrag - x in
  let y := xx3Mzz3 * bxz6 in
  let y := yFrag + y in
  let z := yz2 * yy in
  let z := z + z in
  let z := z + z in
  Pt x y z.

(** p256/point.go:196-260 the formula of Add *)
Definition p256_formula (b : F) (p q : pt) : pt :=
  let xx := pX p * pX q in
  let yy := pY p * pY q in
  let zz := pZ p * pZ q in
  let xyPairs := (pX p + pY p) * (pX q + pY q) - xx - yy in
  let yzPairs := (pY p + pZ p) * (pY q + pZ q) - yy - zz in
  let xzPairs := (pX p + pZ p) * (pX q + pZ q) - xx - zz in
  let bzz := b * zz in
  let bzz := xzPairs - bzz in
  let bzz3 := bzz + bzz in
  let bzz3 := bzz3 + bzz in
  let yyMBzz3 := yy - bzz3 in
  let yyPBzz3 := yy + bzz3 in
  let zz3 := zz + zz in
  let zz3 := zz3 + zz in
  let bxz := b * xzPairs in
  let bxz := bxz - zz3 in
  let bxz := bxz - xx in
  let bxz3 := bxz + bxz in
  let bxz3 := bxz3 + bxz in
  let xx3Mzz3 := xx + xx in
  let xx3Mzz3 := xx3Mzz3 + xx in
  let xx3Mzz3 := xx3Mzz3 - zz3 in
  let tv1 := yzPairs * bxz3 in
  let x := yyPBzz3 * xyPairs in
  let x := x - tv1 in
  let tv1 := xx3Mzz3 * bxz3 in
  let y := yyPBzz3 * yyMBzz3 in
  let y := y + tv1 in
  let tv1 := xyPairs * xx3Mzz3 in
  let z := yyMBzz3 * yzPairs in
  let z := z + tv1 in
  Pt x y z.

(** p256/point.go:196-278 Add *)
Definition p256_add (b : F) (p q : pt) : pt := select_identity p q (p256_formula b p q).

(** native/point.go:273-277 EllipticPoint.Neg; pallas_curve.go:771-776 Ep.Neg *)
Definition native_neg (p : pt) : pt := Pt (pX p) (- pY p) (pZ p).

(** native/point.go:280-284 EllipticPoint.Add: the receiver is first overwritten with the first operand.  [alias] says
    that the receiver is the same object as the second operand. *)
Definition method_add (add : pt -> pt -> pt) (alias : bool) (lhs rhs : pt) : pt :=
  let rhs := if alias then lhs else rhs in add lhs rhs.
(** native/point.go:287-291 EllipticPoint.Sub *)
Definition method_sub (add : pt -> pt -> pt) (alias : bool) (lhs rhs : pt) : pt :=
  let rhs := if alias then lhs else rhs in add lhs (native_neg rhs).

(** k256/point.go:419-439, p256/point.go:289-309 ToAffine; g1.go:921-932, g2.go:917-928 ToAffine.  The inverse of zero is
    reported and all three coordinates become zero. *)
Definition to_affine (p : pt) : pt :=
  if pZ p == 0 then Pt 0 0 0 else let z := (pZ p)^-1 in Pt (pX p * z) (pY p * z) 1.

(** k256/point.go:441-446 (a = 0), p256/point.go:311-317 RhsEq *)
Definition rhs_eq (a b x : F) : F := x * x * x + b + a * x.

(** k256/point.go:410-417, p256/point.go:280-287 IsOnCurve *)
Definition native_on_curve (a b : F) (p : pt) : bool :=
  let p := to_affine p in pY p * pY p == rhs_eq a b (pX p).

(** native/point.go:316-335 Equal; g1.go:949-965, g2.go:945-961 Equal.  On the integers 0 and 1 the expression
    [(e1 & e2) | (^e1 & ^e2) & x & y] is this one. *)
Definition pt_equal (p q : pt) : bool :=
  let e1 := pZ p == 0 in
  let e2 := pZ q == 0 in
  (e1 && e2) || [&& ~~ e1, ~~ e2, pX p * pZ q == pX q * pZ p & pY p * pZ q == pY q * pZ p].

(** bls12381/fp.go MulBy3b: twelve times the argument *)
Definition fp_mul3b (x : F) : F :=
  let a := x + x in let t := a + a in let a := t + t in a + t.
(** bls12381/fp2.go MulBy3b: a product with the constant curveG23B *)
Definition fp2_mul3b (c x : F) : F := x * c.

(** bls12381/g1.go:626-668 G1.Add, g2.go:594-636 G2.Add *)
Definition bls_add (mul3b : F -> F) (p q : pt) : pt :=
  let t0 := pX p * pX q in
  let t1 := pY p * pY q in
  let t2 := pZ p * pZ q in
  let t3 := pX p + pY p in
  let t4 := pX q + pY q in
  let t3 := t3 * t4 in
  let t4 := t0 + t1 in
  let t3 := t3 - t4 in
  let t4 := pY p + pZ p in
  let x3 := pY q + pZ q in
  let t4 := t4 * x3 in
  let x3 := t1 + t2 in
  let t4 := t4 - x3 in
  let x3 := pX p + pZ p in
  let y3 := pX q + pZ q in
  let x3 := x3 * y3 in
  let y3 := t0 + t2 in
  let y3 := x3 - y3 in
  let x3 := t0 + t0 in
  let t0 := t0 + x3 in
  let t2 := mul3b t2 in
  let z3 := t1 + t2 in
  let t1 := t1 - t2 in
  let y3 := mul3b y3 in
  let x3 := t4 * y3 in
  let t2 := t3 * t1 in
  let x3 := t2 - x3 in
  let y3 := y3 * t0 in
  let t1 := t1 * z3 in
  let y3 := t1 + y3 in
  let t0 := t0 * t3 in
  let z3 := z3 * t4 in
  let z3 := z3 + t0 in
  Pt x3 y3 z3.

(** bls12381/g1.go:678-706 G1.Double, g2.go:646-674 G2.Double *)
Definition bls_double (mul3b : F -> F) (p : pt) : pt :=
  let t0 := pY p * pY p in
  let z3 := t0 + t0 in
  let z3 := z3 + z3 in
  let z3 := z3 + z3 in
  let t1 := pY p * pZ p in
  let t2 := pZ p * pZ p in
  let t2 := mul3b t2 in
  let x3 := t2 * z3 in
  let y3 := t0 + t2 in
  let z3 := t1 * z3 in
  let t1 := t2 + t2 in
  let t2 := t2 + t1 in
  let t0 := t0 - t2 in
  let y3 := t0 * y3 in
  let y3 := y3 + x3 in
  let t1 := pX p * pY p in
  let x3 := t0 * t1 in
  let x3 := x3 + x3 in
  if is_identity p then Pt 0 1 0 else Pt x3 y3 z3.

(** bls12381/g1.go:761-765 G1.Neg, g2.go:742-746 G2.Neg: y is negated unless the point is the identity *)
Definition bls_neg (p : pt) : pt := Pt (pX p) (if is_identity p then pY p else - pY p) (pZ p).

(** bls12381/g1.go:602-616 G1.IsOnCurve, g2.go:570-584 G2.IsOnCurve *)
Definition bls_on_curve (b : F) (p : pt) : bool :=
  let lhs := pY p * pY p in
  let lhs := lhs * pZ p in
  let rhs := pX p * pX p in
  let rhs := rhs * pX p in
  let t := pZ p * pZ p in
  let t := t * pZ p in
  let t := t * b in
  let rhs := rhs + t in
  lhs == rhs.

(** pallas_curve.go:742-769 Ep.Double ([three], [eight] are the package constants) *)
Definition pallas_double (p : pt) : pt :=
  if is_identity p then p else
  let a := pX p * pX p in
  let b := pY p * pY p in
  let c := b * b in
  let rx := pX p + b in
  let ry := rx * rx in
  let rz := ry - a in
  let rx := rz - c in
  let d := rx + rx in
  let e := 3%:R * a in
  let f := e * e in
  let ry := d + d in
  let rx := f - ry in
  let ry := d - rx in
  let f := 8%:R * c in
  let rz := e * ry in
  let ry := rz - f in
  let f := pY p * pZ p in
  let rz := f + f in
  Pt rx ry rz.

(** pallas_curve.go:778-826 Ep.Add *)
Definition pallas_add (p q : pt) : pt :=
  if is_identity p then q else
  if is_identity q then p else
  let z1z1 := pZ p * pZ p in
  let z2z2 := pZ q * pZ q in
  let u1 := pX p * z2z2 in
  let u2 := pX q * z1z1 in
  let s1 := pY p * z2z2 in
  let s1 := s1 * pZ q in
  let s2 := pY q * z1z1 in
  let s2 := s2 * pZ p in
  if u1 == u2 then
    if s1 == s2 then pallas_double p else native_identity
  else
    let h := u2 - u1 in
    let i := h + h in
    let i := i * i in
    let j := i * h in
    let r := s2 - s1 in
    let r := r + r in
    let v := u1 * i in
    let x3 := r * r in
    let x3 := x3 - j in
    let x3 := x3 - (v + v) in
    let s1 := s1 * j in
    let s1 := s1 + s1 in
    let y3 := r * (v - x3) in
    let y3 := y3 - s1 in
    let z3 := pZ p + pZ q in
    let z3 := z3 * z3 in
    let z3 := z3 - z1z1 in
    let z3 := z3 - z2z2 in
    let z3 := z3 * h in
    Pt x3 y3 z3.

(** pallas_curve.go:873-889 Ep.toAffine *)
Definition pallas_affine (p : pt) : pt :=
  if is_identity p then Pt 0 0 1 else
  let zInv3 := (pZ p)^-1 in
  let zInv2 := zInv3 * zInv3 in
  let zInv3 := zInv3 * zInv2 in
  Pt (pX p * zInv2) (pY p * zInv3) 1.

(** pallas_curve.go:853-863 Ep.Equal *)
Definition pallas_equal (p q : pt) : bool :=
  (pX (pallas_affine p) == pX (pallas_affine q)) && (pY (pallas_affine p) == pY (pallas_affine q)).

(** pallas_curve.go:999-1014 Ep.IsOnCurve *)
Definition pallas_on_curve (p : pt) : bool :=
  let z2 := pZ p * pZ p in
  let z4 := z2 * z2 in
  let z6 := z2 * z4 in
  let x2 := pX p * pX p in
  let x3 := x2 * pX p in
  let lhs := pY p * pY p in
  let rhs := 5%:R in
  let rhs := rhs * z6 in
  let rhs := rhs + x3 in
  (pZ p == 0) || (lhs == rhs).
End Points.
Arguments native_identity {F}.
Arguments bls_identity {F}.
