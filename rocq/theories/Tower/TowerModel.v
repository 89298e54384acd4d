(** The BLS12-381 extension tower: fp2 = fp[u]/(u^2+1), fp6 = fp2[v]/(v^3-(1+u)),
    fp12 = fp6[w]/(w^2-v), and the target group Gt that wraps fp12.
    /repo/pkg/core/curves/native/bls12381/{fp2,fp6,fp12,gt}.go.

    Simplification: the base field fp is an abstract field [F] (the six Montgomery limbs of fp.go are
    not modelled); [fp.Invert] (fp.go 439-453) is the field inverse with flag "nonzero".
    A method writing through its receiver returns the new receiver value; where the old receiver
    value matters (CMove(f, ..)), it is an explicit argument [f].  All methods compute into local
    temporaries before writing the receiver, so aliased arguments give the same value. *)
From mathcomp Require Import all_ssreflect all_algebra.
Set Implicit Arguments.
Unset Strict Implicit.
Unset Printing Implicit Defensive.
Import GRing.Theory.
Local Open Scope ring_scope.

Section Tower.
Variable F : fieldType.

(** fp2.go 9-11 *)
Record fp2 := Fp2 { A2 : F; B2 : F }.
(** fp6.go 7-9 *)
Record fp6 := Fp6 { A6 : fp2; B6 : fp2; C6 : fp2 }.
(** fp12.go 6-8 *)
Record fp12 := Fp12 { A12 : fp6; B12 : fp6 }.

(** fp.go 439-453: the returned value is a^(p-2), or a itself when a = 0 *)
Definition fpInvert (a : F) : F * bool := (if a == 0 then a else a^-1, a != 0).
(** CMove selects arg1 when choice is 0 and arg2 when it is 1 (fp2.go 317-323 and its analogues) *)
Definition cmove (T : Type) (arg1 arg2 : T) (choice : bool) : T := if choice then arg2 else arg1.

(** fp2.go 20-31 *)
Definition zero2 := Fp2 0 0.
Definition one2 := Fp2 1 0.
(** fp2.go 56-69 *)
Definition isZero2 (f : fp2) : bool := (A2 f == 0) && (B2 f == 0).
Definition isOne2 (f : fp2) : bool := (A2 f == 1) && (B2 f == 0).
Definition equal2 (f r : fp2) : bool := (A2 f == A2 r) && (B2 f == B2 r).
(** fp2.go 95-106 *)
Definition conj2 (a : fp2) : fp2 := Fp2 (A2 a) (- B2 a).
Definition frob2 (a : fp2) : fp2 := conj2 a.
(** fp2.go 113-120 *)
Definition mulNR2 (a : fp2) : fp2 := Fp2 (A2 a - B2 a) (A2 a + B2 a).
(** fp2.go 123-144 *)
Definition square2 (x : fp2) : fp2 :=
  let a := A2 x + B2 x in let b := A2 x - B2 x in let c := A2 x + A2 x in
  Fp2 (a * b) (c * B2 x).
(** fp2.go 147-165 *)
Definition add2 (x y : fp2) : fp2 := Fp2 (A2 x + A2 y) (B2 x + B2 y).
Definition double2 (x : fp2) : fp2 := Fp2 (A2 x + A2 x) (B2 x + B2 x).
Definition sub2 (x y : fp2) : fp2 := Fp2 (A2 x - A2 y) (B2 x - B2 y).
(** fp2.go 168-198 *)
Definition mul2 (x y : fp2) : fp2 :=
  let v0 := A2 x * A2 y in
  let v1 := (- B2 x) * B2 y in
  let a := v0 + v1 in
  let b := A2 x + B2 x in
  let t := A2 y + B2 y in
  let b := b * t in
  let b := b - v0 in
  let b := b + v1 in
  Fp2 a b.
(** fp2.go 200-204 *)
Definition mul0_2 (x : fp2) (y : F) : fp2 := Fp2 (A2 x * y) (B2 x * y).
(** fp2.go 212-216 *)
Definition neg2 (a : fp2) : fp2 := Fp2 (- A2 a) (- B2 a).
(** fp2.go 288-315; [f] is the receiver's old value *)
Definition invert2 (f x : fp2) : fp2 * bool :=
  let a := A2 x * A2 x in
  let b := B2 x * B2 x in
  let a := a + b in
  let: (t, wasInverted) := fpInvert a in
  let a := A2 x * t in
  let b := - t in
  let b := b * B2 x in
  (Fp2 (cmove (A2 f) a wasInverted) (cmove (B2 f) b wasInverted), wasInverted).
(** fp2.go 326-330 *)
Definition cneg2 (f a : fp2) (choice : bool) : fp2 := cmove f (neg2 a) choice.
(** fp2.go 332-344: square and multiply over the bits of the exponent, most significant first *)
Definition pow2 (base : fp2) (bits : seq bool) : fp2 :=
  foldl (fun res b => let res := square2 res in cmove res (mul2 res base) b) one2 bits.
(** fp2.go 219-283; [e1] is the bit string of (p-3)/4 and [e2] that of (p-1)/2; -1 is the literal on
    lines 253-263 *)
Definition sqrt2 (e1 e2 : seq bool) (f a : fp2) : fp2 * bool :=
  let isz := isZero2 a in
  let a1 := pow2 a e1 in
  let alpha := mul2 (square2 a1) a in
  let x0 := mul2 a1 a in
  let res2 := Fp2 (- B2 x0) (A2 x0) in
  let ism1 := equal2 alpha (Fp2 (-1) 0) in
  let t := mul2 (pow2 (add2 one2 alpha) e2) x0 in
  let res := cmove res2 zero2 isz in
  let res := cmove t res ism1 in
  let e3 := equal2 (square2 res) a in
  (cmove f res e3, e3).

(** fp6.go 36-49 *)
Definition zero6 := Fp6 zero2 zero2 zero2.
Definition one6 := Fp6 one2 zero2 zero2.
(** fp6.go 72-90 *)
Definition add6 (x y : fp6) := Fp6 (add2 (A6 x) (A6 y)) (add2 (B6 x) (B6 y)) (add2 (C6 x) (C6 y)).
Definition double6 (x : fp6) := add6 x x.
Definition sub6 (x y : fp6) := Fp6 (sub2 (A6 x) (A6 y)) (sub2 (B6 x) (B6 y)) (sub2 (C6 x) (C6 y)).
(** fp6.go 93-127 *)
Definition mul6 (x y : fp6) : fp6 :=
  let aa := mul2 (A6 x) (A6 y) in
  let bb := mul2 (B6 x) (B6 y) in
  let cc := mul2 (C6 x) (C6 y) in
  let t1 := add2 (B6 y) (C6 y) in
  let s := add2 (B6 x) (C6 x) in
  let t1 := mul2 t1 s in
  let t1 := sub2 t1 bb in
  let t1 := sub2 t1 cc in
  let t1 := mulNR2 t1 in
  let t1 := add2 t1 aa in
  let t3 := add2 (A6 y) (C6 y) in
  let s := add2 (A6 x) (C6 x) in
  let t3 := mul2 t3 s in
  let t3 := sub2 t3 aa in
  let t3 := add2 t3 bb in
  let t3 := sub2 t3 cc in
  let t2 := add2 (A6 y) (B6 y) in
  let s := add2 (A6 x) (B6 x) in
  let t2 := mul2 t2 s in
  let t2 := sub2 t2 aa in
  let t2 := sub2 t2 bb in
  let cc := mulNR2 cc in
  let t2 := add2 t2 cc in
  Fp6 t1 t2 t3.
(** fp6.go 130-147 *)
Definition mulByB (x : fp6) (b : fp2) : fp6 :=
  let bB := mul2 (B6 x) b in
  let t1 := add2 (B6 x) (C6 x) in
  let t1 := mul2 t1 b in
  let t1 := sub2 t1 bB in
  let t1 := mulNR2 t1 in
  let t2 := add2 (A6 x) (B6 x) in
  let t2 := mul2 t2 b in
  let t2 := sub2 t2 bB in
  Fp6 t1 t2 bB.
(** fp6.go 150-178 *)
Definition mulByAB (x : fp6) (a b : fp2) : fp6 :=
  let aA := mul2 (A6 x) a in
  let bB := mul2 (B6 x) b in
  let t1 := add2 (B6 x) (C6 x) in
  let t1 := mul2 t1 b in
  let t1 := sub2 t1 bB in
  let t1 := mulNR2 t1 in
  let t1 := add2 t1 aA in
  let t2 := add2 a b in
  let t3 := add2 (A6 x) (B6 x) in
  let t2 := mul2 t2 t3 in
  let t2 := sub2 t2 aA in
  let t2 := sub2 t2 bB in
  let t3 := add2 (A6 x) (C6 x) in
  let t3 := mul2 t3 a in
  let t3 := sub2 t3 aA in
  let t3 := add2 t3 bB in
  Fp6 t1 t2 t3.
(** fp6.go 181-194 *)
Definition mulNR6 (x : fp6) : fp6 := Fp6 (mulNR2 (C6 x)) (A6 x) (B6 x).
(** fp6.go 197-235; [c1] and [c2] are the literals pm1Div3 and p2m2Div3 of lines 199-220 *)
Definition frob6 (c1 c2 : fp2) (x : fp6) : fp6 :=
  let a := frob2 (A6 x) in
  let b := frob2 (B6 x) in
  let c := frob2 (C6 x) in
  let b := mul2 b c1 in
  let c := mul2 c c2 in
  Fp6 a b c.
(** fp6.go 238-264 *)
Definition square6 (x : fp6) : fp6 :=
  let s0 := square2 (A6 x) in
  let ab := mul2 (A6 x) (B6 x) in
  let s1 := double2 ab in
  let s2 := sub2 (A6 x) (B6 x) in
  let s2 := add2 s2 (C6 x) in
  let s2 := square2 s2 in
  let bc := mul2 (B6 x) (C6 x) in
  let s3 := double2 bc in
  let s4 := square2 (C6 x) in
  let fA := add2 (mulNR2 s3) s0 in
  let fB := add2 (mulNR2 s4) s1 in
  let fC := add2 s1 s2 in
  let fC := add2 fC s3 in
  let fC := sub2 fC s0 in
  let fC := sub2 fC s4 in
  Fp6 fA fB fC.
(** fp6.go 267-308; [t]'s old value at the call of Invert (line 295) is the product of line 292 *)
Definition invert6 (f x : fp6) : fp6 * bool :=
  let a := mul2 (B6 x) (C6 x) in
  let a := mulNR2 a in
  let t := square2 (A6 x) in
  let a := sub2 t a in
  let b := square2 (C6 x) in
  let b := mulNR2 b in
  let t := mul2 (A6 x) (B6 x) in
  let b := sub2 b t in
  let c := square2 (B6 x) in
  let t := mul2 (A6 x) (C6 x) in
  let c := sub2 c t in
  let s := mul2 (B6 x) c in
  let t := mul2 (C6 x) b in
  let s := add2 s t in
  let s := mulNR2 s in
  let t := mul2 (A6 x) a in
  let s := add2 s t in
  let: (t, wasInverted) := invert2 t s in
  (Fp6 (cmove (A6 f) (mul2 a t) wasInverted)
       (cmove (B6 f) (mul2 b t) wasInverted)
       (cmove (C6 f) (mul2 c t) wasInverted), wasInverted).
(** fp6.go 311-316 *)
Definition neg6 (x : fp6) := Fp6 (neg2 (A6 x)) (neg2 (B6 x)) (neg2 (C6 x)).
(** fp6.go 319-332; IsOne reads B twice and never C *)
Definition isZero6 (f : fp6) : bool := isZero2 (A6 f) && isZero2 (B6 f) && isZero2 (C6 f).
Definition isOne6 (f : fp6) : bool := isOne2 (A6 f) && isZero2 (B6 f) && isZero2 (B6 f).
Definition equal6 (f r : fp6) : bool :=
  equal2 (A6 f) (A6 r) && equal2 (B6 f) (B6 r) && equal2 (C6 f) (C6 r).

(** fp12.go 39-50 *)
Definition zero12 := Fp12 zero6 zero6.
Definition one12 := Fp12 one6 zero6.
(** fp12.go 68-86 *)
Definition square12 (x : fp12) : fp12 :=
  let ab := mul6 (A12 x) (B12 x) in
  let apb := add6 (A12 x) (B12 x) in
  let aTick := mulNR6 (B12 x) in
  let aTick := add6 aTick (A12 x) in
  let aTick := mul6 aTick apb in
  let aTick := sub6 aTick ab in
  let t := mulNR6 ab in
  let aTick := sub6 aTick t in
  let bTick := double6 ab in
  Fp12 aTick bTick.
(** fp12.go 89-103; [t] is the zero value when Invert is called *)
Definition invert12 (f x : fp12) : fp12 * bool :=
  let a := square6 (A12 x) in
  let b := square6 (B12 x) in
  let b := mulNR6 b in
  let a := sub6 a b in
  let: (t, wasInverted) := invert6 zero6 a in
  let a := mul6 (A12 x) t in
  let t := neg6 t in
  let b := mul6 (B12 x) t in
  (Fp12 (cmove (A12 f) a wasInverted) (cmove (B12 f) b wasInverted), wasInverted).
(** fp12.go 106-117 *)
Definition add12 (x y : fp12) := Fp12 (add6 (A12 x) (A12 y)) (add6 (B12 x) (B12 y)).
Definition sub12 (x y : fp12) := Fp12 (sub6 (A12 x) (A12 y)) (sub6 (B12 x) (B12 y)).
(** fp12.go 120-136 *)
Definition mul12 (x y : fp12) : fp12 :=
  let aa := mul6 (A12 x) (A12 y) in
  let bb := mul6 (B12 x) (B12 y) in
  let a2b2 := add6 (A12 y) (B12 y) in
  let b := add6 (A12 x) (B12 x) in
  let b := mul6 b a2b2 in
  let b := sub6 b aa in
  let b := sub6 b bb in
  let a := mulNR6 bb in
  let a := add6 a aa in
  Fp12 a b.
(** fp12.go 139-143 *)
Definition neg12 (x : fp12) := Fp12 (neg6 (A12 x)) (neg6 (B12 x)).
(** fp12.go 146-166 *)
Definition mulByABD (x : fp12) (a b d : fp2) : fp12 :=
  let aa := mulByAB (A12 x) a b in
  let bb := mulByB (B12 x) d in
  let bd := add2 b d in
  let bTick := add6 (A12 x) (B12 x) in
  let bTick := mulByAB bTick a bd in
  let bTick := sub6 bTick aa in
  let bTick := sub6 bTick bb in
  let aTick := mulNR6 bb in
  let aTick := add6 aTick aa in
  Fp12 aTick bTick.
(** fp12.go 169-173 *)
Definition conj12 (x : fp12) := Fp12 (A12 x) (neg6 (B12 x)).
(** fp12.go 176-208; [g] is the literal up1epm1div6.A of lines 180-197 *)
Definition frob12 (c1 c2 g : fp2) (x : fp12) : fp12 :=
  let a := frob6 c1 c2 (A12 x) in
  let b := frob6 c1 c2 (B12 x) in
  let b := mul6 b (Fp6 g zero2 zero2) in
  Fp12 a b.
(** fp12.go 211-223 *)
Definition equal12 (f r : fp12) : bool := equal6 (A12 f) (A12 r) && equal6 (B12 f) (B12 r).
Definition isZero12 (f : fp12) : bool := isZero6 (A12 f) && isZero6 (B12 f).
Definition isOne12 (f : fp12) : bool := isOne6 (A12 f) && isZero6 (B12 f).

(** gt.go 352-363 *)
Definition fp4Square (x y : fp2) : fp2 * fp2 :=
  let t0 := square2 x in
  let t1 := square2 y in
  let t2 := mulNR2 t1 in
  let a := add2 t2 t0 in
  let t2 := add2 x y in
  let t2 := square2 t2 in
  let t2 := sub2 t2 t0 in
  (a, sub2 t2 t1).
(** gt.go 365-414 *)
Definition cyclotomicSquare (a : fp12) : fp12 :=
  let z0 := A6 (A12 a) in let z4 := B6 (A12 a) in let z3 := C6 (A12 a) in
  let z2 := A6 (B12 a) in let z1 := B6 (B12 a) in let z5 := C6 (B12 a) in
  let: (t0, t1) := fp4Square z0 z1 in
  let z0 := add2 (double2 (sub2 t0 z0)) t0 in
  let z1 := add2 (double2 (add2 t1 z1)) t1 in
  let: (t0, t1) := fp4Square z2 z3 in
  let: (t2, t3) := fp4Square z4 z5 in
  let z4 := add2 (double2 (sub2 t0 z4)) t0 in
  let z5 := add2 (double2 (add2 z5 t1)) t1 in
  let t0 := mulNR2 t3 in
  let z2 := add2 (double2 (add2 z2 t0)) t0 in
  let z3 := add2 (double2 (sub2 t2 z3)) t2 in
  Fp12 (Fp6 z0 z4 z3) (Fp6 z2 z1 z5).
(** gt.go 416-434: over the 64 bits of [paramX], most significant first *)
Definition cycloStep (a : fp12) (s : fp12 * bool) (b : bool) : fp12 * bool :=
  let: (t, foundOne) := s in
  let: (t, foundOne) := if foundOne then (cyclotomicSquare t, foundOne) else (t, b) in
  ((if b then mul12 t a else t), foundOne).
Definition cyclotomicExp (xbits : seq bool) (a : fp12) : fp12 :=
  conj12 (foldl (cycloStep a) (one12, false) xbits).1.

(** gt.go 26-72; [gt] is the receiver's old value; [frob] is fp12.FrobeniusMap with its literals *)
Definition finalExponentiation (frob : fp12 -> fp12) (xbits : seq bool) (gt a : fp12) : fp12 :=
  let exp := cyclotomicExp xbits in
  let t0 := frob a in
  let t0 := frob t0 in
  let t0 := frob t0 in
  let t0 := frob t0 in
  let t0 := frob t0 in
  let t0 := frob t0 in
  let: (t1, wasInverted) := invert12 zero12 a in
  let t2 := mul12 t0 t1 in
  let t1 := t2 in
  let t2 := frob t2 in
  let t2 := frob t2 in
  let t2 := mul12 t2 t1 in
  let t1 := cyclotomicSquare t2 in
  let t1 := conj12 t1 in
  let t3 := exp t2 in
  let t4 := cyclotomicSquare t3 in
  let t5 := mul12 t1 t3 in
  let t1 := exp t5 in
  let t0 := exp t1 in
  let t6 := exp t0 in
  let t6 := mul12 t6 t4 in
  let t4 := exp t6 in
  let t5 := conj12 t5 in
  let t4 := mul12 t4 t5 in
  let t4 := mul12 t4 t2 in
  let t5 := conj12 t2 in
  let t1 := mul12 t1 t2 in
  let t1 := frob t1 in
  let t1 := frob t1 in
  let t1 := frob t1 in
  let t6 := mul12 t6 t5 in
  let t6 := frob t6 in
  let t3 := mul12 t3 t0 in
  let t3 := frob t3 in
  let t3 := frob t3 in
  let t3 := mul12 t3 t1 in
  let t3 := mul12 t3 t6 in
  let t := mul12 t3 t4 in
  cmove gt t wasInverted.

(** gt.go 292-316: the group is written additively over fp12's multiplication *)
Definition gtAdd (x y : fp12) := mul12 x y.
Definition gtDouble (x : fp12) := square12 x.
Definition gtSub (x y : fp12) := mul12 x (conj12 y).
Definition gtNeg (x : fp12) := conj12 x.
(** gt.go 317-338: [ws] are the 64 windows of the scalar's bytes, most significant first; the
    accumulator [p] and [precomputed[0]] are Go zero values *)
Fixpoint gtTable (f : fp12) (n : nat) : seq fp12 :=
  if n is n'.+1 then
    let t := gtTable f n' in
    let sq := square12 (nth zero12 t n) in
    rcons (rcons t sq) (mul12 sq f)
  else [:: zero12; f].
Definition gtMulStep (table : seq fp12) (p : fp12) (w : nat) : fp12 :=
  let p := square12 (square12 (square12 (square12 p))) in
  mul12 p (nth zero12 table w).
Definition gtMul (a : fp12) (ws : seq nat) : fp12 := foldl (gtMulStep (gtTable a 7)) zero12 ws.
(** gt.go 340-349 *)
Definition gtSquare (a : fp12) := cyclotomicSquare a.
Definition gtInvert (f a : fp12) := invert12 f a.

(** bls12381_curve.go 985-1072: the Scalar methods of the target group *)
Definition sMul (x y : fp12) := gtAdd x y.
Definition sAdd (x y : fp12) := gtAdd x y.
Definition sSub (x y : fp12) := gtSub x y.
Definition sDiv (x y : fp12) := gtSub x y.
Definition sNeg (x : fp12) := gtNeg x.
Definition sSquare (x : fp12) := gtSquare x.
Definition sDouble (x : fp12) := gtDouble x.
Definition sCube (x : fp12) := gtAdd (gtSquare x) x.
Definition sInvert (x : fp12) : option fp12 :=
  let: (v, ok) := gtInvert zero12 x in if ok then Some v else None.
End Tower.
