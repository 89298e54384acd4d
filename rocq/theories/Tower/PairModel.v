(** The BLS12-381 pairing engine: /repo/pkg/core/curves/native/bls12381/pairings.go, with the point
    operations it calls (g1.go, g2.go), over the tower of TowerModel.v.  The base field is abstract. *)
From mathcomp Require Import all_ssreflect all_algebra.
From Verif Require Import Tower.TowerModel.
Set Implicit Arguments.
Unset Strict Implicit.
Unset Printing Implicit Defensive.
Import GRing.Theory.
Local Open Scope ring_scope.

Section Pair.
Variable F : fieldType.
(** g1.go 533-535, g2.go 497-499 *)
Record G1 := MkG1 { x1 : F; y1 : F; z1 : F }.
Record G2 := MkG2 { x2 : fp2 F; y2 : fp2 F; z2 : fp2 F }.
(** g1.go 597-599, g2.go 565-567 *)
Definition isId1 (p : G1) : bool := z1 p == 0.
Definition isId2 (p : G2) : bool := isZero2 (z2 p).
(** g1.go 921-932 *)
Definition toAffine1 (a : G1) : G1 :=
  let: (z, wasInverted) := fpInvert (z1 a) in
  MkG1 (cmove 0 (x1 a * z) wasInverted) (cmove 0 (y1 a * z) wasInverted) (cmove 0 1 wasInverted).
(** g2.go 917-928 *)
Definition toAffine2 (a : G2) : G2 :=
  let: (z, wasInverted) := invert2 (zero2 F) (z2 a) in
  MkG2 (cmove (zero2 F) (mul2 (x2 a) z) wasInverted) (cmove (zero2 F) (mul2 (y2 a) z) wasInverted)
       (cmove (zero2 F) (one2 F) wasInverted).
(** g1.go 761-765: y is negated unless the point is the identity; the receiver was first set to a *)
Definition neg1 (a : G1) : G1 := MkG1 (x1 a) (cmove (y1 a) (- y1 a) (~~ isId1 a)) (z1 a).
(** g2.go 742-746, through fp2.CNeg *)
Definition negG2 (a : G2) : G2 := MkG2 (x2 a) (cneg2 (y2 a) (y2 a) (~~ isId2 a)) (z2 a).
(** g2.go 964-969 *)
Definition cmoveG2 (a b : G2) (c : bool) : G2 :=
  MkG2 (cmove (x2 a) (x2 b) c) (cmove (y2 a) (y2 b) c) (cmove (z2 a) (z2 b) c).

(** pairings.go 9-12 *)
Definition pair := (G1 * G2)%type.
(** pairings.go 19-21 *)
Record coefficients := Coef { ca : fp2 F; cb : fp2 F; cc : fp2 F }.
Definition coef0 : coefficients := Coef (zero2 F) (zero2 F) (zero2 F).

(** pairings.go 30-39 *)
Definition addPair (e : seq pair) (g1 : G1) (g2 : G2) : seq pair :=
  let p := (toAffine1 g1, toAffine2 g2) in
  if isId1 p.1 || isId2 p.2 then e else rcons e p.
(** pairings.go 42-46 and 49-53 *)
Definition addPairInvG1 (e : seq pair) (g1 : G1) (g2 : G2) := addPair e (neg1 g1) g2.
Definition addPairInvG2 (e : seq pair) (g1 : G1) (g2 : G2) := addPair e g1 (negG2 g2).

(** pairings.go 155-162 *)
Definition ell (f : fp12 F) (c : coefficients) (p : G1) : fp12 F :=
  let x := Fp2 (A2 (ca c) * y1 p) (B2 (ca c) * y1 p) in
  let y := Fp2 (A2 (cb c) * x1 p) (B2 (cb c) * x1 p) in
  mulByABD f (cc c) y x.
(** pairings.go 164-205; the point [p] is updated in place *)
Definition doublingStep (p : G2) : G2 * coefficients :=
  let t0 := square2 (x2 p) in
  let t1 := square2 (y2 p) in
  let t2 := square2 t1 in
  let t3 := add2 t1 (x2 p) in
  let t3 := square2 t3 in
  let t3 := sub2 t3 t0 in
  let t3 := sub2 t3 t2 in
  let t3 := double2 t3 in
  let t4 := double2 t0 in
  let t4 := add2 t4 t0 in
  let t6 := add2 (x2 p) t4 in
  let t5 := square2 t4 in
  let zsqr := square2 (z2 p) in
  let px := sub2 t5 t3 in
  let px := sub2 px t3 in
  let pz := add2 (z2 p) (y2 p) in
  let pz := square2 pz in
  let pz := sub2 pz t1 in
  let pz := sub2 pz zsqr in
  let py := sub2 t3 px in
  let py := mul2 py t4 in
  let t2 := double2 t2 in
  let t2 := double2 t2 in
  let t2 := double2 t2 in
  let py := sub2 py t2 in
  let t3 := mul2 t4 zsqr in
  let t3 := double2 t3 in
  let t3 := neg2 t3 in
  let t6 := square2 t6 in
  let t6 := sub2 t6 t0 in
  let t6 := sub2 t6 t5 in
  let t1 := double2 t1 in
  let t1 := double2 t1 in
  let t6 := sub2 t6 t1 in
  let t0 := mul2 pz zsqr in
  let t0 := double2 t0 in
  (MkG2 px py pz, Coef t0 t3 t6).
(** pairings.go 207-254; the point [r] is updated in place *)
Definition additionStep (r q : G2) : G2 * coefficients :=
  let zsqr := square2 (z2 r) in
  let ysqr := square2 (y2 q) in
  let t0 := mul2 zsqr (x2 q) in
  let t1 := add2 (y2 q) (z2 r) in
  let t1 := square2 t1 in
  let t1 := sub2 t1 ysqr in
  let t1 := sub2 t1 zsqr in
  let t1 := mul2 t1 zsqr in
  let t2 := sub2 t0 (x2 r) in
  let t3 := square2 t2 in
  let t4 := double2 t3 in
  let t4 := double2 t4 in
  let t5 := mul2 t4 t2 in
  let t6 := sub2 t1 (y2 r) in
  let t6 := sub2 t6 (y2 r) in
  let t9 := mul2 t6 (x2 q) in
  let t7 := mul2 t4 (x2 r) in
  let rx := square2 t6 in
  let rx := sub2 rx t5 in
  let rx := sub2 rx t7 in
  let rx := sub2 rx t7 in
  let rz := add2 (z2 r) t2 in
  let rz := square2 rz in
  let rz := sub2 rz zsqr in
  let rz := sub2 rz t3 in
  let t10 := add2 (y2 q) rz in
  let t8 := sub2 t7 rx in
  let t8 := mul2 t8 t6 in
  let t0 := mul2 (y2 r) t5 in
  let t0 := double2 t0 in
  let ry := sub2 t8 t0 in
  let t10 := square2 t10 in
  let t10 := sub2 t10 ysqr in
  let zsqr := square2 rz in
  let t10 := sub2 t10 zsqr in
  let t9 := double2 t9 in
  let t9 := sub2 t9 t10 in
  let t10 := double2 rz in
  let t6 := neg2 t6 in
  let t1 := double2 t6 in
  (MkG2 rx ry rz, Coef t10 t1 t9).

(** pairings.go 130-147: the loop body over the bits of paramX >> 1, most significant first; the
    coefficients are stored one after the other *)
Definition coefStep (q : G2) (s : bool * G2 * seq coefficients) (b : bool) : bool * G2 * seq coefficients :=
  let: (found, c, cfs) := s in
  if found then
    let: (c, cf) := doublingStep c in
    let cfs := rcons cfs cf in
    if b then let: (c, cf) := additionStep c q in (true, c, rcons cfs cf) else (true, c, cfs)
  else (b, c, cfs).
(** pairings.go 118-153, one pair; [gen] is the fixed generator of line 122 *)
Definition computeCoeffs (gen : G2) (hbits : seq bool) (p : pair) : seq coefficients * bool :=
  let identity := isId2 p.2 in
  let q := cmoveG2 p.2 gen identity in
  let: (_, c, cfs) := foldl (coefStep q) (false, q, [::]) hbits in
  (rcons cfs (doublingStep c).2, identity).

(** pairings.go 89-94, 99-104, 109-114: multiply in the line of every pair *)
Definition lines (cIdx : nat) (f : fp12 F) (es : seq (pair * (seq coefficients * bool))) : fp12 F :=
  foldl (fun f e =>
    let identity := isId1 e.1.1 || e.2.2 in
    let newF := ell f (nth coef0 e.2.1 cIdx) e.1.1 in
    cmove newF f identity) f es.
(** pairings.go 82-107: the loop body; state (f, found, cIdx) *)
Definition millerStep (es : seq (pair * (seq coefficients * bool))) (s : fp12 F * bool * nat) (x : bool) :=
  let: (f, found, cIdx) := s in
  if found then
    let f := lines cIdx f es in
    let cIdx := cIdx.+1 in
    let: (f, cIdx) := if x then (lines cIdx f es, cIdx.+1) else (f, cIdx) in
    (square12 f, true, cIdx)
  else (f, x, cIdx).
(** pairings.go 78-116 *)
Definition millerLoop (hbits : seq bool) (f : fp12 F) (es : seq (pair * (seq coefficients * bool))) : fp12 F :=
  let: (f, _, cIdx) := foldl (millerStep es) (f, false, 0%N) hbits in
  conj12 (lines cIdx f es).
(** pairings.go 60-76; [frob] and [xbits] are the literals of the final exponentiation *)
Definition pairing (frob : fp12 F -> fp12 F) (gen : G2) (xbits hbits : seq bool) (e : seq pair) : fp12 F :=
  if e is [::] then one12 F else
  let es := [seq (p, computeCoeffs gen hbits p) | p <- e] in
  let f := millerLoop hbits (one12 F) es in
  finalExponentiation frob xbits f f.
Definition check (frob : fp12 F -> fp12 F) (gen : G2) (xbits hbits : seq bool) (e : seq pair) : bool :=
  isOne12 (pairing frob gen xbits hbits e).
End Pair.
