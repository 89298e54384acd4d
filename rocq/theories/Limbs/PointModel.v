(** Encoding and decoding of K256, P256 and Pallas points over the limb code.  Methods that return (Point, error) are
    options, None standing for the error. *)
From Coq Require Import ZArith NArith List Bool.
From Verif Require Import Limbs.Model Limbs.FieldModel Limbs.FieldInst Limbs.K256fpCode Limbs.P256fpCode Limbs.PastafpCode.
Import ListNotations.
Local Open Scope Z_scope.

Definition zero4 : limbs := L4 0 0 0 0.
(** native.EllipticPoint, pallas Ep: X, Y, Z *)
Record point := Pt { px : limbs; py : limbs; pz : limbs }.
(** EllipticPoint.Identity, Ep.Identity; native/point.go:245-250, pallas_curve.go:724-729 *)
Definition identity : point := Pt zero4 zero4 zero4.

(** ** K256 and P256 *)
(** the base field and its inversion and square root, the coefficients A (None: no such term) and B *)
Record wcurve := Curve { c_f : field; c_inv : limbs -> limbs -> limbs * Z; c_sqrt : limbs -> limbs -> limbs * Z;
                         c_a : option limbs; c_b : limbs }.
(** native/k256/point.go:30-49: B = SetUint64(7) *)
Definition k256_curve : wcurve := Curve k256fp k256fp_invert k256fp_sqrt None (set_uint64 k256fp 7).
(** native/p256/point.go:28-47: A and B stored in Montgomery form *)
Definition p256_curve : wcurve := Curve p256fp p256fp_inverse p256fp_sqrt
  (Some (L4 0xfffffffffffffffc 0x00000003ffffffff 0x0000000000000000 0xfffffffc00000004))
  (L4 0xd89cdf6229c4bddf 0xacf005cd78843090 0xe5a220abf7212ed6 0xdc30061d04874834).

Section Weierstrass.
Variable c : wcurve.
Let f := c_f c.
(** RhsEq; native/k256/point.go:441-446, native/p256/point.go:311-317 *)
Definition rhs_eq (x : limbs) : limbs :=
  let out := square f x in
  let out := mul f out x in
  let out := add f out (c_b c) in
  match c_a c with None => out | Some a => add f out (mul f a x) end.
(** ToAffine; native/k256/point.go:419-439, native/p256/point.go:289-309 *)
Definition to_affine (p : point) : point :=
  let '(z, was) := c_inv c zero4 (pz p) in
  let x := mul f (px p) z in
  let y := mul f (py p) z in
  Pt (select was zero4 x) (select was zero4 y) (select was zero4 (f_r f)).
(** IsOnCurve; native/k256/point.go:410-417, native/p256/point.go:280-287 *)
Definition is_on_curve (p : point) : bool :=
  let a := to_affine p in equal_helper (square f (py a)) (rhs_eq (px a)) =? 1.
(** ToAffineCompressed; k256_curve.go:493-504, p256_curve.go:491-502.  Bytes are reversed to most significant first. *)
Definition to_compressed (p : point) : list Z :=
  let t := to_affine p in
  Z.lor 2 (Z.land (hd 0 (bytes f (py t))) 1) :: rev (bytes f (px t)).
(** ToAffineUncompressed; k256_curve.go:506-515, p256_curve.go:504-513 *)
Definition to_uncompressed (p : point) : list Z :=
  let t := to_affine p in 4 :: rev (bytes f (px t)) ++ rev (bytes f (py t)).
(** FromAffineCompressed; k256_curve.go:517-551, p256_curve.go:515-549 *)
Definition from_compressed (bs : list Z) : option point :=
  if negb (Nat.eqb (length bs) 33) then None
  else let sign := hd 0 bs in
  if negb (sign =? 2) && negb (sign =? 3) then None
  else let sign := Z.land sign 1 in
  match set_bytes f (rev (skipn 1 bs)) with
  | None => None
  | Some x =>
      let '(y, was) := c_sqrt c zero4 (rhs_eq x) in
      if was =? 1 then
        let y := if Z.land (hd 0 (bytes f y)) 1 =? sign then y else opp f y in
        Some (Pt x y (f_r f))
      else Some identity
  end.
(** FromAffineUncompressed; k256_curve.go:553-577, p256_curve.go:551-575 *)
Definition from_uncompressed (bs : list Z) : option point :=
  if negb (Nat.eqb (length bs) 65) then None
  else if negb (hd 0 bs =? 4) then None
  else match set_bytes f (rev (firstn 32 (skipn 1 bs))) with
       | None => None
       | Some x => match set_bytes f (rev (skipn 33 bs)) with
                   | None => None
                   | Some y => Some (Pt x y (f_r f))
                   end
       end.
(** EllipticPoint.SetBigInt, PointK256.Set; native/point.go:358-381, k256_curve.go:485-491, p256_curve.go:483-489 *)
Definition set_affine (x y : Z) : option point :=
  let xx := set_bigint f zero4 x in
  let yy := set_bigint f zero4 y in
  let id := Z.land (is_zero xx) (is_zero yy) in
  let pp := Pt (select id xx zero4) (select id yy zero4) (select id (f_r f) zero4) in
  if negb (is_on_curve pp) && (id =? 0) then None else Some pp.
End Weierstrass.

(** ** Pallas *)
(** rhsPallas; pallas_curve.go:965-969, b = SetUint64(5) from line 25 *)
Definition rhs_pallas (x : limbs) : limbs := add pastafp (mul pastafp x (square pastafp x)) (set_uint64 pastafp 5).
(** Ep.IsOnCurve; pallas_curve.go:999-1014 *)
Definition ep_on_curve (p : point) : bool :=
  let z2 := square pastafp (pz p) in
  let z4 := square pastafp z2 in
  let z6 := mul pastafp z2 z4 in
  let x2 := square pastafp (px p) in
  let x3 := mul pastafp x2 (px p) in
  let lhs := square pastafp (py p) in
  let rhs := add pastafp (mul pastafp (set_uint64 pastafp 5) z6) x3 in
  (is_zero (pz p) =? 1) || (equal_helper lhs rhs =? 1).
(** Ep.toAffine; pallas_curve.go:873-889 *)
Definition ep_to_affine (p : point) : point :=
  if is_zero (pz p) =? 1 then Pt zero4 zero4 (f_r pastafp)
  else let zi := fst (pastafp_invert (pz p)) in
       let zi2 := square pastafp zi in
       let zi3 := mul pastafp zi zi2 in
       Pt (mul pastafp (px p) zi2) (mul pastafp (py p) zi3) (f_r pastafp).
(** x[31] = h(x[31]) *)
Definition update_last (h : Z -> Z) (bs : list Z) : list Z := firstn 31 bs ++ map h (skipn 31 bs).
(** Ep.ToAffineCompressed; pallas_curve.go:891-902.  The copy of 32 zero bytes never happens: toAffine leaves z = 1. *)
Definition ep_to_compressed (p : point) : list Z :=
  let p1 := ep_to_affine p in
  let x := update_last (fun b => Z.lor b (Z.shiftl (Z.land (hd 0 (bytes pastafp (py p1))) 1) 7)) (bytes pastafp (px p1)) in
  if is_zero (pz p1) =? 1 then repeat 0 32 else x.
(** Ep.ToAffineUncompressed; pallas_curve.go:904-910 *)
Definition ep_to_uncompressed (p : point) : list Z :=
  let p1 := ep_to_affine p in bytes pastafp (px p1) ++ bytes pastafp (py p1).
(** Ep.FromAffineCompressed; pallas_curve.go:912-940 *)
Definition ep_from_compressed (bs : list Z) : option point :=
  if negb (Nat.eqb (length bs) 32) then None
  else let sign := Z.land (Z.shiftr (nth 31 bs 0) 7) 1 in
  let input := update_last (fun b => Z.land b 127) bs in
  match pasta_set_bytes pastafp input with
  | None => None
  | Some x =>
      let '(y, was) := pastafp_sqrt (rhs_pallas x) in
      if negb was then None
      else let y := if Z.land (hd 0 (bytes pastafp y)) 1 =? sign then y else opp pastafp y in
           let p := Pt x y (f_r pastafp) in
           if ep_on_curve p then Some p else None
  end.
(** Ep.FromAffineUncompressed; pallas_curve.go:942-962 *)
Definition ep_from_uncompressed (bs : list Z) : option point :=
  if negb (Nat.eqb (length bs) 64) then None
  else match pasta_set_bytes pastafp (firstn 32 bs) with
       | None => None
       | Some x => match pasta_set_bytes pastafp (skipn 32 bs) with
                   | None => None
                   | Some y => let p := Pt x y (f_r pastafp) in if ep_on_curve p then Some p else None
                   end
       end.
