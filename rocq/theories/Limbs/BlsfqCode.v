(** The scalar field of BLS12-381: native/bls12381/bls12381.go and fq.go, statement by statement.  uint64 values are
    numbers below [W]; [Z.ldiff] is &^ and [W - 1 - x] is ^x. *)
From Coq Require Import ZArith NArith List Bool.
From Verif Require Import Limbs.Model Limbs.FieldModel.
Import ListNotations.
Local Open Scope Z_scope.

(** mac; bls12381.go:21-30 *)
Definition mac (a b c d : Z) : Z * Z :=
  let hi := (b * c) / W in let lo := (b * c) mod W in
  let carry2 := (a + d) mod W in let carry := (a + d) / W in
  let hi := (hi + 0 + carry) mod W in
  let carry' := (lo + carry2) / W in let lo := (lo + carry2) mod W in
  let hi := (hi + 0 + carry') mod W in
  (lo, hi).
(** adc; bls12381.go:32-42 *)
Definition adc (x y carry : Z) : Z * Z :=
  let sum := (x + y + carry) mod W in
  let c := Z.shiftr (Z.lor (Z.land x y) (Z.ldiff (Z.lor x y) sum)) 63 in
  let c := Z.lor c (Z.shiftr (Z.lor (Z.land x carry) (Z.ldiff (Z.lor x carry) sum)) 63) in
  let c := Z.lor c (Z.shiftr (Z.lor (Z.land y carry) (Z.ldiff (Z.lor y carry) sum)) 63) in
  (sum, c).
(** sbb; bls12381.go:44-48 *)
Definition sbb (x y borrow : Z) : Z * Z :=
  let diff := (x - (y + borrow) mod W) mod W in
  (diff, Z.shiftr (Z.lor (Z.land (W - 1 - x) y) (Z.land (W - 1 - Z.lxor x y) diff)) 63).

(** fqModulus, qInv; fq.go:19-25 *)
Definition blsfq_m : limbs := L4 0xffffffff00000001 0x53bda402fffe5bfe 0x3339d80809a1d805 0x73eda753299d7d48.
Definition qInv : Z := 0xfffffffeffffffff.
(** R, R2, R3; fq.go:36-46 *)
Definition blsfq_r : limbs := L4 0x00000001fffffffe 0x5884b7fa00034802 0x998c4fefecbc4ff5 0x1824b159acc5056f.
Definition blsfq_r2 : limbs := L4 0xc999e990f3f29c6d 0x2b6cedcb87925c23 0x05d314967254398f 0x0748d9d99f59ff11.
Definition blsfq_r3 : limbs := L4 0xc62c1807439b73af 0x1b3e0d188cf06990 0x73d13c71c7b5f418 0x6e2a5bb9c8db33e9.

(** Sub; fq.go:169-187.  The second argument is a field element or the modulus. *)
Definition blsfq_sub (a b : limbs) : limbs :=
  let '(d0, borrow) := sbb (l0 a) (l0 b) 0 in
  let '(d1, borrow) := sbb (l1 a) (l1 b) borrow in
  let '(d2, borrow) := sbb (l2 a) (l2 b) borrow in
  let '(d3, borrow) := sbb (l3 a) (l3 b) borrow in
  let mask := (- borrow) mod W in
  let '(d0, carry) := adc d0 (Z.land (l0 blsfq_m) mask) 0 in
  let '(d1, carry) := adc d1 (Z.land (l1 blsfq_m) mask) carry in
  let '(d2, carry) := adc d2 (Z.land (l2 blsfq_m) mask) carry in
  let '(d3, _) := adc d3 (Z.land (l3 blsfq_m) mask) carry in
  L4 d0 d1 d2 d3.
(** Add; fq.go:154-166 *)
Definition blsfq_add (a b : limbs) : limbs :=
  let '(t0, carry) := adc (l0 a) (l0 b) 0 in
  let '(t1, carry) := adc (l1 a) (l1 b) carry in
  let '(t2, carry) := adc (l2 a) (l2 b) carry in
  let '(t3, _) := adc (l3 a) (l3 b) carry in
  blsfq_sub (L4 t0 t1 t2 t3) blsfq_m.
(** Neg; fq.go:70-88 *)
Definition blsfq_neg (a : limbs) : limbs :=
  let '(t0, borrow) := sbb (l0 blsfq_m) (l0 a) 0 in
  let '(t1, borrow) := sbb (l1 blsfq_m) (l1 a) borrow in
  let '(t2, borrow) := sbb (l2 blsfq_m) (l2 a) borrow in
  let '(t3, _) := sbb (l3 blsfq_m) (l3 a) borrow in
  let mask := Z.lor (Z.lor (Z.lor t0 t1) t2) t3 in
  let mask := (- Z.shiftr (Z.lor mask ((- mask) mod W)) 63) mod W in
  L4 (Z.land t0 mask) (Z.land t1 mask) (Z.land t2 mask) (Z.land t3 mask).

(** montReduce; fq.go:379-413.  r[0], ..., r[7] are the arguments. *)
Definition mont_reduce (r0 r1 r2 r3 r4 r5 r6 r7 : Z) : limbs :=
  let m0 := l0 blsfq_m in let m1 := l1 blsfq_m in let m2 := l2 blsfq_m in let m3 := l3 blsfq_m in
  let k := (r0 * qInv) mod W in
  let '(_, carry) := mac r0 k m0 0 in
  let '(r1, carry) := mac r1 k m1 carry in
  let '(r2, carry) := mac r2 k m2 carry in
  let '(r3, carry) := mac r3 k m3 carry in
  let '(r4, carry2) := adc r4 0 carry in
  let k := (r1 * qInv) mod W in
  let '(_, carry) := mac r1 k m0 0 in
  let '(r2, carry) := mac r2 k m1 carry in
  let '(r3, carry) := mac r3 k m2 carry in
  let '(r4, carry) := mac r4 k m3 carry in
  let '(r5, carry2) := adc r5 carry2 carry in
  let k := (r2 * qInv) mod W in
  let '(_, carry) := mac r2 k m0 0 in
  let '(r3, carry) := mac r3 k m1 carry in
  let '(r4, carry) := mac r4 k m2 carry in
  let '(r5, carry) := mac r5 k m3 carry in
  let '(r6, carry2) := adc r6 carry2 carry in
  let k := (r3 * qInv) mod W in
  let '(_, carry) := mac r3 k m0 0 in
  let '(rr0, carry) := mac r4 k m1 carry in
  let '(rr1, carry) := mac r5 k m2 carry in
  let '(rr2, carry) := mac r6 k m3 carry in
  let '(rr3, _) := adc r7 carry2 carry in
  blsfq_sub (L4 rr0 rr1 rr2 rr3) blsfq_m.

(** Mul; fq.go:125-151 *)
Definition blsfq_mul (a b : limbs) : limbs :=
  let '(r0, carry) := mac 0 (l0 a) (l0 b) 0 in
  let '(r1, carry) := mac 0 (l0 a) (l1 b) carry in
  let '(r2, carry) := mac 0 (l0 a) (l2 b) carry in
  let '(r3, r4) := mac 0 (l0 a) (l3 b) carry in
  let '(r1, carry) := mac r1 (l1 a) (l0 b) 0 in
  let '(r2, carry) := mac r2 (l1 a) (l1 b) carry in
  let '(r3, carry) := mac r3 (l1 a) (l2 b) carry in
  let '(r4, r5) := mac r4 (l1 a) (l3 b) carry in
  let '(r2, carry) := mac r2 (l2 a) (l0 b) 0 in
  let '(r3, carry) := mac r3 (l2 a) (l1 b) carry in
  let '(r4, carry) := mac r4 (l2 a) (l2 b) carry in
  let '(r5, r6) := mac r5 (l2 a) (l3 b) carry in
  let '(r3, carry) := mac r3 (l3 a) (l0 b) 0 in
  let '(r4, carry) := mac r4 (l3 a) (l1 b) carry in
  let '(r5, carry) := mac r5 (l3 a) (l2 b) carry in
  let '(r6, r7) := mac r6 (l3 a) (l3 b) carry in
  mont_reduce r0 r1 r2 r3 r4 r5 r6 r7.
(** Square; fq.go:91-122 *)
Definition blsfq_square (a : limbs) : limbs :=
  let '(r1, carry) := mac 0 (l0 a) (l1 a) 0 in
  let '(r2, carry) := mac 0 (l0 a) (l2 a) carry in
  let '(r3, r4) := mac 0 (l0 a) (l3 a) carry in
  let '(r3, carry) := mac r3 (l1 a) (l2 a) 0 in
  let '(r4, r5) := mac r4 (l1 a) (l3 a) carry in
  let '(r5, r6) := mac r5 (l2 a) (l3 a) 0 in
  let shl x := (x * 2) mod W in
  let r7 := Z.shiftr r6 63 in
  let r6 := Z.lor (shl r6) (Z.shiftr r5 63) in
  let r5 := Z.lor (shl r5) (Z.shiftr r4 63) in
  let r4 := Z.lor (shl r4) (Z.shiftr r3 63) in
  let r3 := Z.lor (shl r3) (Z.shiftr r2 63) in
  let r2 := Z.lor (shl r2) (Z.shiftr r1 63) in
  let r1 := shl r1 in
  let '(r0, carry) := mac 0 (l0 a) (l0 a) 0 in
  let '(r1, carry) := adc 0 r1 carry in
  let '(r2, carry) := mac r2 (l1 a) (l1 a) carry in
  let '(r3, carry) := adc 0 r3 carry in
  let '(r4, carry) := mac r4 (l2 a) (l2 a) carry in
  let '(r5, carry) := adc 0 r5 carry in
  let '(r6, carry) := mac r6 (l3 a) (l3 a) carry in
  let '(r7, _) := adc 0 r7 carry in
  mont_reduce r0 r1 r2 r3 r4 r5 r6 r7.

(** ToMontgomery, FromMontgomery; fq.go:57-67 *)
Definition blsfq_to (a : limbs) : limbs := blsfq_mul a blsfq_r2.
Definition blsfq_from (a : limbs) : limbs := mont_reduce (l0 a) (l1 a) (l2 a) (l3 a) 0 0 0 0.

(** Bls12381FqNew; fq.go:28-34.  FromBytes and ToBytes (fq.go:354-367) read and write the little-endian number of the
    32 bytes, as [from_bytes] and [to_bytes] do. *)
Definition blsfq : field :=
  Field blsfq_mul blsfq_square blsfq_add blsfq_sub blsfq_neg blsfq_from blsfq_to blsfq_m blsfq_r blsfq_r2 blsfq_r3.

(** Selectznz; fq.go:371-377; the methods of [field] use [select], which returns the same (BlsfqProofs.select_same) *)
Definition blsfq_select (choice : Z) (a b : limbs) : limbs :=
  let m := (- choice) mod W in
  let s x y := Z.lxor x (Z.land (Z.lxor x y) m) in
  L4 (s (l0 a) (l0 b)) (s (l1 a) (l1 b)) (s (l2 a) (l2 b)) (s (l3 a) (l3 b)).

(** fqGenerator and the exponents of Sqrt; fq.go:22, 195-206; fqS = 32, fq.go:16 *)
Definition blsfq_generator : limbs := L4 0x0000000efffffff1 0x17e363d300189c0f 0xff9c57876f8457b0 0x351332208fc5a8c4.
Definition blsfq_c2 : limbs := L4 0xfffe5bfeffffffff 0x09a1d80553bda402 0x299d7d483339d808 0x0000000073eda753.
Definition blsfq_c3 : limbs := L4 0x7fff2dff7fffffff 0x04d0ec02a9ded201 0x94cebea4199cec04 0x0000000039f6d3a9.
(** Sqrt; fq.go:190-250 *)
Definition blsfq_sqrt (out arg : limbs) : limbs * Z :=
  sqrt_ts blsfq 32 blsfq_c3 (pow blsfq blsfq_generator blsfq_c2) out arg.
(** Invert; fq.go:253-351.  tN is variable N + 1 *)
Definition blsfq_chain : chain := Chain [
  CPow2k 1 0 1; CMul 2 1 0; CPow2k 17 1 1; CPow2k 7 17 1;
  CMul 6 7 1; CMul 1 7 17; CMul 13 6 17; CPow2k 3 7 1;
  CMul 8 6 7; CMul 16 1 6; CPow2k 18 13 1; CMul 2 2 18;
  CMul 4 8 3; CMul 9 2 18; CMul 5 9 3; CMul 10 9 8;
  CMul 8 5 6; CMul 12 5 18; CMul 6 10 18; CMul 15 8 16;
  CMul 14 12 13; CMul 13 12 18; CMul 16 16 13; CMul 17 17 16;
  CMul 4 4 17; CMul 18 18 4; CMul 1 1 18; CMul 7 7 1;
  CMul 3 3 7; CPow2k 1 1 8; CMul 1 1 18; CPow2k 1 1 9;
  CMul 1 1 17; CPow2k 1 1 9; CMul 1 1 16; CPow2k 1 1 9;
  CMul 1 1 16; CPow2k 1 1 7; CMul 1 1 15; CPow2k 1 1 7;
  CMul 1 1 14; CPow2k 1 1 10; CMul 1 1 13; CPow2k 1 1 9;
  CMul 1 1 12; CPow2k 1 1 8; CMul 1 1 9; CPow2k 1 1 8;
  CMul 1 1 0; CPow2k 1 1 14; CMul 1 1 10; CPow2k 1 1 10;
  CMul 1 1 9; CPow2k 1 1 15; CMul 1 1 8; CPow2k 1 1 10;
  CMul 1 1 7; CPow2k 1 1 8; CMul 1 1 6; CPow2k 1 1 16;
  CMul 1 1 4; CPow2k 1 1 8; CMul 1 1 3; CPow2k 1 1 7;
  CMul 1 1 5; CPow2k 1 1 9; CMul 1 1 3; CPow2k 1 1 8;
  CMul 1 1 4; CPow2k 1 1 8; CMul 1 1 3; CPow2k 1 1 8;
  CMul 1 1 3; CPow2k 1 1 8; CMul 1 1 3; CPow2k 1 1 8;
  CMul 1 1 4; CPow2k 1 1 8; CMul 1 1 3; CPow2k 1 1 8;
  CMul 1 1 3; CPow2k 1 1 5; CMul 1 1 2; CPow2k 1 1 5;
  CMul 1 1 2] 1.
Definition blsfq_invert (out arg : limbs) : limbs * Z := invert blsfq blsfq_chain out arg.
