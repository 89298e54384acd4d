(** Model of hash-to-curve's map stage: /repo/pkg/core/curves/native/osswu.go (Osswu3mod4, used by the Hash of
    K256 and P256), the same map in /repo/pkg/core/curves/native/bls12381/g1.go 1033-1091, and
    /repo/pkg/core/curves/native/isogeny.go.

    Field elements are elements of an abstract field [F] (the limb code is the subject of C74); [sgn] is
    the parity of the canonical little-endian bytes; [expo] is the exponent held by C1. *)
From mathcomp Require Import all_ssreflect all_algebra.
Set Implicit Arguments.
Unset Strict Implicit.
Unset Printing Implicit Defensive.
Import GRing.Theory.
Local Open Scope ring_scope.

Section Sswu.
Variable F : fieldType.

(** SswuParams; osswu.go:5-7 *)
Record sswu := Sswu { s_C1 : nat; s_C2 : F; s_A : F; s_B : F; s_Z : F }.

(** Selectznz: the second value when the flag is set *)
Definition select (a b : F) (c : bool) : F := if c then b else a.
(** Invert: the inverse and true; zero is reported and leaves the zero-initialised output (C74) *)
Definition finv (a : F) : F * bool := if a == 0 then (0, false) else (a^-1, true).

(** Osswu3mod4; osswu.go:11-82 *)
Definition osswu3mod4 (sgn : F -> bool) (p : sswu) (u : F) : F * F :=
  let tv1 := u * u in
  let tv3 := s_Z p * tv1 in
  let tv2 := tv3 * tv3 in
  let xd := tv2 + tv3 in
  let x1n := 1 + xd in
  let x1n := x1n * s_B p in
  let aNeg := - s_A p in
  let xd := xd * aNeg in
  let zA := s_Z p * s_A p in
  let xd := select xd zA (xd == 0) in
  let tv2 := xd * xd in
  let gxd := tv2 * xd in
  let tv2 := tv2 * s_A p in
  let gx1 := x1n * x1n in
  let gx1 := gx1 + tv2 in
  let gx1 := gx1 * x1n in
  let tv2 := gxd * s_B p in
  let gx1 := gx1 + tv2 in
  let tv4 := gxd * gxd in
  let tv2 := gx1 * gxd in
  let tv4 := tv4 * tv2 in
  let y1 := tv4 ^+ s_C1 p in
  let y1 := y1 * tv2 in
  let x2n := tv3 * x1n in
  let y2 := y1 * s_C2 p in
  let y2 := y2 * tv1 in
  let y2 := y2 * u in
  let tv2 := y1 * y1 in
  let tv2 := tv2 * gxd in
  let e2 := tv2 == gx1 in
  let x := select x2n x1n e2 in
  let: (tv1, wasInverted) := finv xd in
  let tv1 := x * tv1 in
  let x := select x tv1 wasInverted in
  let y := select y2 y1 e2 in
  let y := if sgn u != sgn y then - y else y in
  (x, y).

(** G1.osswu3mod4; bls12381/g1.go:1033-1091: the point (x, y) with z = 1 *)
Definition g1_osswu3mod4 (sgn : F -> bool) (p : sswu) (u : F) : F * F :=
  let tv1 := u * u in
  let tv3 := s_Z p * tv1 in
  let tv2 := tv3 * tv3 in
  let xd := tv2 + tv3 in
  let x1n := xd + 1 in
  let x1n := x1n * s_B p in
  let xd := - s_A p * xd in
  let xd := select xd (s_Z p * s_A p) (xd == 0) in
  let tv2 := xd * xd in
  let gxd := tv2 * xd in
  let tv2 := tv2 * s_A p in
  let gx1 := x1n * x1n in
  let gx1 := gx1 + tv2 in
  let gx1 := gx1 * x1n in
  let tv2 := s_B p * gxd in
  let gx1 := gx1 + tv2 in
  let tv4 := gxd * gxd in
  let tv2 := gx1 * gxd in
  let tv4 := tv4 * tv2 in
  let y1 := tv4 ^+ s_C1 p in
  let y1 := y1 * tv2 in
  let x2n := tv3 * x1n in
  let y2 := y1 * s_C2 p in
  let y2 := y2 * tv1 in
  let y2 := y2 * u in
  let tv2 := y1 * y1 in
  let tv2 := tv2 * gxd in
  let e2 := tv2 == gx1 in
  let x2n := select x2n x1n e2 in
  let y2 := select y2 y1 e2 in
  let e3 := sgn u (+) sgn y2 in
  let y2 := if e3 then - y2 else y2 in
  ((finv xd).1 * x2n, y2).

(** IsogenyParams; isogeny.go:4-9 *)
Record iso := Iso { i_xnum : seq F; i_xden : seq F; i_ynum : seq F; i_yden : seq F }.
(** the powers xs of isogeny.go:27-34 *)
Fixpoint powers (x acc : F) (k : nat) : seq F := if k is k'.+1 then acc :: powers x (acc * x) k' else [::].
(** computeIsoK; isogeny.go:56-63: an index beyond xs would panic; xs is as long as the longest list *)
Definition isoK (xs ks : seq F) : F := foldl (fun out xk => out + xk.1 * xk.2) 0 (zip xs ks).
(** Map; isogeny.go:12-54 *)
Definition isoMap (p : iso) (xIn yIn : F) : F * F :=
  let degree := maxn (size (i_xnum p)) (maxn (size (i_xden p)) (maxn (size (i_ynum p)) (size (i_yden p)))) in
  let xs := powers xIn 1 degree in
  let xNum := isoK xs (i_xnum p) in
  let xDen := isoK xs (i_xden p) in
  let yNum := isoK xs (i_ynum p) in
  let yDen := isoK xs (i_yden p) in
  let: (xDen, wasInverted) := finv xDen in
  let x := select xIn (xNum * xDen) wasInverted in
  let: (yDen, wasInverted) := finv yDen in
  let y := select yIn (yNum * yDen) wasInverted in
  (x, y * yIn).
End Sswu.
