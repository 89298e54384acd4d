(** Model of the simplified SWU map of BLS12-381 G2: /repo/pkg/core/curves/native/bls12381/g2.go 1051-1090, over the
    operations of fp2 modelled in TowerModel.v. *)
From Coq Require Import NArith.
From mathcomp Require Import all_ssreflect all_algebra all_fingroup all_solvable all_field.
From Verif Require Import Tower.TowerModel Tower.Literals Curves.SswuConst.
Set Implicit Arguments.
Unset Strict Implicit.
Unset Printing Implicit Defensive.
Import GRing.Theory.
Delimit Scope N_scope with Ns.
Local Open Scope ring_scope.

Section G2.
Variable F : fieldType.
(** fp2.go 85-92 Sgn0; [s] is fp.Sgn0 *)
Definition sgn2 (s : F -> bool) (f : fp2 F) : bool :=
  let a := A2 f == 0 in
  (s (B2 f) && a) || (s (A2 f) && ~~ a).
(** fp2.go 219-283 with a receiver holding zero *)
Definition sqrtNew (a : fp2 F) : fp2 F * bool := sqrt2 (limbBits e1_limbs) (limbBits e2_limbs) (zero2 F) a.

(** the package variables used by the map: sswuMapA, sswuMapB, sswuMapZ, sswuMapZInv, swwuMapMbDivA *)
Record sswuG2 := SswuG2 { gA : fp2 F; gB : fp2 F; gZ : fp2 F; gZInv : fp2 F; gMbDivA : fp2 F }.

(** g2.go 1051-1090 *)
Definition sswu (s : F -> bool) (p : sswuG2) (u : fp2 F) : fp2 F * fp2 F :=
  let tv1 := square2 u in
  let tv1 := mul2 tv1 (gZ p) in
  let tv2 := square2 tv1 in
  let x1 := add2 tv1 tv2 in
  let x1 := (invert2 x1 x1).1 in
  let x1 := add2 x1 (one2 F) in
  let x1 := cmove x1 (gZInv p) (isZero2 x1) in
  let x1 := mul2 x1 (gMbDivA p) in
  let gx1 := square2 x1 in
  let gx1 := add2 gx1 (gA p) in
  let gx1 := mul2 gx1 x1 in
  let gx1 := add2 gx1 (gB p) in
  let x2 := mul2 tv1 x1 in
  let tv2 := mul2 tv2 tv1 in
  let gx2 := mul2 gx1 tv2 in
  let e2 := (sqrtNew gx1).2 in
  let x := cmove x2 x1 e2 in
  let y2 := cmove gx2 gx1 e2 in
  let y := (sqrtNew y2).1 in
  let y := cneg2 y y (sgn2 s u (+) sgn2 s y) in
  (x, y).

(** the literals, in Montgomery form; g2.go 87-170 *)
Definition m384 (l : seq N) : F := mont F (2 ^ 384)%Ns (limbs l).
Definition lA0 : seq N := [:: ]%Ns.
Definition lA1 : seq N := [:: 0xe53a000003135242; 0x01080c0fdef80285; 0xe7889edbe340f6bd; 0x0b51375126310601; 0x02d6985717c744ab; 0x1220b4e979ea5467]%Ns.
Definition lB0 : seq N := [:: 0x22ea00000cf89db2; 0x6ec832df71380aa4; 0x6e1b94403db5a66e; 0x75bf3c53a79473ba; 0x3dd3a569412c0a34; 0x125cdb5e74dc4fd1]%Ns.
Definition lB1 : seq N := [:: 0x22ea00000cf89db2; 0x6ec832df71380aa4; 0x6e1b94403db5a66e; 0x75bf3c53a79473ba; 0x3dd3a569412c0a34; 0x125cdb5e74dc4fd1]%Ns.
Definition lZ0 : seq N := [:: 0x87ebfffffff9555c; 0x656fffe5da8ffffa; 0x0fd0749345d33ad2; 0xd951e663066576f4; 0xde291a3d41e980d3; 0x0815664c7dfe040d]%Ns.
Definition lZ1 : seq N := [:: 0x43f5fffffffcaaae; 0x32b7fff2ed47fffd; 0x07e83a49a2e99d69; 0xeca8f3318332bb7a; 0xef148d1ea0f4c069; 0x040ab3263eff0206]%Ns.
Definition lZi0 : seq N := [:: 0xacd0000000011110; 0x9dd9999dc88ccccd; 0xb5ca2ac9b76352bf; 0xf1b574bcf4bc90ce; 0x42dab41f28a77081; 0x132fc6ac14cd1e12]%Ns.
Definition lZi1 : seq N := [:: 0xe396ffffffff2223; 0x4fbf332fcd0d9998; 0x0c4bbd3c1aff4cc4; 0x6b9c91267926ca58; 0x29ae4da6aef7f496; 0x10692e942f195791]%Ns.
Definition lM0 : seq N := [:: 0x903c555555474fb3; 0x5f98cc95ce451105; 0x9f8e582eefe0fade; 0xc68946b6aebbd062; 0x467a4ad10ee6de53; 0x0e7146f483e23a05]%Ns.
Definition lM1 : seq N := [:: 0x29c2aaaaaab85af8; 0xbf133368e30eeefa; 0xc7a27a7206cffb45; 0x9dee04ce44c9425c; 0x04a15ce53464ce83; 0x0b8fcaf5b59dac95]%Ns.
Definition g2_sswu : sswuG2 := SswuG2 (Fp2 (m384 lA0) (m384 lA1)) (Fp2 (m384 lB0) (m384 lB1)) (Fp2 (m384 lZ0) (m384 lZ1)) (Fp2 (m384 lZi0) (m384 lZi1)) (Fp2 (m384 lM0) (m384 lM1)).
End G2.
