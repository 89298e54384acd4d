(** The methods of native.Field (native/field.go) over the limb code, and those of pasta fp.Fp and fq.Fq, which repeat
    them with their own comparison.  Methods that write their receiver return its new value; the receiver's old value is
    an argument where the code can leave it unchanged. *)
From Coq Require Import ZArith NArith List Bool.
From Verif Require Import Limbs.Model.
Import ListNotations.
Local Open Scope Z_scope.

(** ** comparison *)
(** One limb of cmpHelper; native/field.go:88-105.  gt and lt are uint64; differences wrap. *)
Definition cmp_limb (st : Z * Z) (l r : Z) : Z * Z :=
  let '(gt, lt) := st in
  let rh := Z.shiftr r 32 in let rl := Z.land r 4294967295 in
  let lh := Z.shiftr l 32 in let ll := Z.land l 4294967295 in
  let gt := Z.lor gt (Z.ldiff (Z.land (Z.shiftr ((rh - lh) mod W) 32) 1) lt) in
  let lt := Z.lor lt (Z.ldiff (Z.land (Z.shiftr ((lh - rh) mod W) 32) 1) gt) in
  let gt := Z.lor gt (Z.ldiff (Z.land (Z.shiftr ((rl - ll) mod W) 32) 1) lt) in
  let lt := Z.lor lt (Z.ldiff (Z.land (Z.shiftr ((ll - rl) mod W) 32) 1) gt) in
  (gt, lt).
(** cmpHelper, Field.Cmp; native/field.go:77-108 *)
Definition cmp_helper (a b : limbs) : Z :=
  let st := cmp_limb (0, 0) (l3 a) (l3 b) in
  let st := cmp_limb st (l2 a) (l2 b) in
  let st := cmp_limb st (l1 a) (l1 b) in
  let st := cmp_limb st (l0 a) (l0 b) in
  fst st - snd st.

(** One limb of Fp.Cmp; native/pasta/fp/fp.go:52-53, native/pasta/fq/fq.go:52-53 *)
Definition pasta_cmp_limb (st : Z * Z) (l r : Z) : Z * Z :=
  let '(gt, lt) := st in
  let gt := Z.lor gt (Z.ldiff (Z.shiftr ((r - l) mod W) 63) lt) in
  let lt := Z.lor lt (Z.ldiff (Z.shiftr ((l - r) mod W) 63) gt) in
  (gt, lt).
(** Fp.Cmp, Fq.Cmp; native/pasta/fp/fp.go:48-56, native/pasta/fq/fq.go:48-56 *)
Definition pasta_cmp (a b : limbs) : Z :=
  let st := pasta_cmp_limb (0, 0) (l3 a) (l3 b) in
  let st := pasta_cmp_limb st (l2 a) (l2 b) in
  let st := pasta_cmp_limb st (l1 a) (l1 b) in
  let st := pasta_cmp_limb st (l0 a) (l0 b) in
  fst st - snd st.

(** int(((int64(t) | int64(-t)) >> 63) + 1); native/field.go:121 and 130: the sign bit of t | -t, as 0 or -1, plus one *)
Definition sign_mask (t : Z) : Z := if 9223372036854775808 <=? Z.lor t ((- t) mod W) then -1 else 0.
(** equalHelper, Field.Equal; native/field.go:111-122.  Fp.Equal, pasta/fp/fp.go:59-65, tests the same t for zero. *)
Definition equal_helper (a b : limbs) : Z :=
  sign_mask (Z.lor (Z.lor (Z.lor (Z.lxor (l0 a) (l0 b)) (Z.lxor (l1 a) (l1 b))) (Z.lxor (l2 a) (l2 b))) (Z.lxor (l3 a) (l3 b))) + 1.
(** Field.IsZero; native/field.go:125-131 *)
Definition is_zero (a : limbs) : Z := sign_mask (Z.lor (Z.lor (Z.lor (l0 a) (l1 a)) (l2 a)) (l3 a)) + 1.
(** Field.IsNonZero; native/field.go:134-140 *)
Definition is_nonzero (a : limbs) : Z := - sign_mask (Z.lor (Z.lor (Z.lor (l0 a) (l1 a)) (l2 a)) (l3 a)).
(** Field.IsOne; native/field.go:143-145 *)
Definition is_one (f : field) (a : limbs) : Z := equal_helper a (f_r f).

(** Selectznz, Field.CMove; k256/fp/secp256k1_fp.go:1362-1375, native/field.go:348-351 *)
Definition select (c : Z) (a b : limbs) : limbs :=
  L4 (cmovznz c (l0 a) (l0 b)) (cmovznz c (l1 a) (l1 b)) (cmovznz c (l2 a) (l2 b)) (cmovznz c (l3 a) (l3 b)).

(** ** bytes, least significant first *)
(** binary.LittleEndian.Uint64, and the sums of shifted bytes of FromBytes (k256/fp/secp256k1_fp.go:1495-1561): the eight
    shifted bytes are disjoint, so the 64-bit sum is the number they spell. *)
Fixpoint number (bs : list Z) : Z := match bs with [] => 0 | b :: bs' => b + 256 * number bs' end.
(** FromBytes; k256/fp/secp256k1_fp.go:1495-1561, the same text in the other five packages *)
Definition from_bytes (bs : list Z) : limbs :=
  L4 (number (firstn 8 bs)) (number (firstn 8 (skipn 8 bs))) (number (firstn 8 (skipn 16 bs)))
     (number (firstn 8 (skipn 24 bs))).
(** uint8(x) & 0xff, uint8(x >> 8) & 0xff, ... *)
Fixpoint bytes_of (n : nat) (x : Z) : list Z :=
  match n with O => [] | S n' => Z.land x 255 :: bytes_of n' (Z.shiftr x 8) end.
(** ToBytes; k256/fp/secp256k1_fp.go:1388-1483, the same text in the other five packages *)
Definition to_bytes (a : limbs) : list Z :=
  bytes_of 8 (l0 a) ++ bytes_of 8 (l1 a) ++ bytes_of 8 (l2 a) ++ bytes_of 8 (l3 a).

(** ** conversions *)
(** Field.SetUint64; native/field.go:159-163 *)
Definition set_uint64 (f : field) (x : Z) : limbs := to_montgomery f (L4 x 0 0 0).
(** Field.SetBytesWide; native/field.go:197-221, pasta/fp/fp.go:141-162: the argument is a [64]byte *)
Definition set_bytes_wide (f : field) (bs : list Z) : limbs :=
  let d0 := from_bytes (firstn 32 bs) in let d1 := from_bytes (skipn 32 bs) in
  add f (mul f d0 (f_r2 f)) (mul f d1 (f_r3 f)).
(** Field.SetBytes; native/field.go:225-233 with cmpHelper, pasta/fp/fp.go:166-179 with Fp.Cmp.  None: an error, the
    receiver is unchanged. *)
Definition set_bytes_with (cmp : limbs -> limbs -> Z) (f : field) (bs : list Z) : option limbs :=
  let d0 := from_bytes bs in
  if cmp d0 (f_m f) =? -1 then Some (to_montgomery f d0) else None.
Notation set_bytes := (set_bytes_with cmp_helper).
Notation pasta_set_bytes := (set_bytes_with pasta_cmp).
(** Field.SetBigInt; native/field.go:237-245, pasta/fp/fp.go:183-191: the error of SetBytes is dropped.
    big.Int.Mod is the Euclidean residue, FillBytes the 32 bytes of the residue, most significant first, then reversed. *)
Definition set_bigint_with (cmp : limbs -> limbs -> Z) (f : field) (recv : limbs) (z : Z) : limbs :=
  let m := l0 (f_m f) + W * (l1 (f_m f) + W * (l2 (f_m f) + W * l3 (f_m f))) in
  match set_bytes_with cmp f (bytes_of 32 (z mod m)) with Some x => x | None => recv end.
Notation set_bigint := (set_bigint_with cmp_helper).
Notation pasta_set_bigint := (set_bigint_with pasta_cmp).
(** Field.Bytes; native/field.go:266-272, pasta/fp/fp.go:201-207 *)
Definition bytes (f : field) (a : limbs) : list Z := to_bytes (from_montgomery f a).
(** Field.BigInt; native/field.go:275-278: the bytes reversed, read most significant first *)
Definition bigint (f : field) (a : limbs) : Z := number (bytes f a).
(** Field.Double; native/field.go:288-291 *)
Definition double (f : field) (a : limbs) : limbs := add f a a.

(** ** exponentiation *)
(** The inner loop of Pow for one limb, bits j-1, ..., 0; native/field.go:360-364, pasta/fp/fp.go:346-350 *)
Fixpoint pow_limb (f : field) (base : limbs) (e : Z) (j : nat) (res : limbs) : limbs :=
  match j with
  | O => res
  | S j' => let res := square f res in
            let tmp := mul f res base in
            pow_limb f base e j' (select (Z.land (Z.shiftr e (Z.of_nat j')) 1) res tmp)
  end.
(** Pow; native/field.go:355-370, pasta/fp/fp.go:341-353 *)
Definition pow (f : field) (base e : limbs) : limbs :=
  pow_limb f base (l0 e) 64 (pow_limb f base (l1 e) 64 (pow_limb f base (l2 e) 64 (pow_limb f base (l3 e) 64 (f_r f)))).
(** Field.Exp; native/field.go:340-345, pasta/fp/fp.go:332-339 *)
Definition exp (f : field) (base e : limbs) : limbs := pow f base (from_montgomery f e).
(** Pow2k; native/field.go:374-388 *)
Fixpoint pow2k (f : field) (a : limbs) (k : nat) : limbs :=
  match k with O => a | S k' => pow2k f (square f a) k' end.

(** ** inversion *)
(** The statements of the Invert methods: dst = src^(2^k), dst = a * b, dst = src.  Variable 0 is arg. *)
Inductive cop := CPow2k (d s : N) (k : nat) | CMul (d a b : N) | CCopy (d s : N).
Record chain := Chain { ops : list cop; result : N }.
(** every variable starts as [4]uint64{} *)
Definition vars := N -> limbs.
Definition set_var (v : vars) (d : N) (x : limbs) : vars := fun r => if N.eqb r d then x else v r.
Definition cstep (f : field) (v : vars) (o : cop) : vars :=
  match o with
  | CPow2k d s k => set_var v d (pow2k f (v s) k)
  | CMul d a b => set_var v d (mul f (v a) (v b))
  | CCopy d s => set_var v d (v s)
  end.
Definition run_chain (f : field) (c : chain) (arg : limbs) : limbs :=
  fold_left (cstep f) (ops c) (fun r => if N.eqb r 0 then arg else L4 0 0 0 0) (result c).
(** Invert of k256/fp, k256/fq and p256/fq; k256/fp/fp.go:104-157, k256/fq/fq.go:146-260, p256/fq/fq.go:147-266.
    [out] is the old content of the output. *)
Definition invert (f : field) (c : chain) (out arg : limbs) : limbs * Z :=
  let w := is_nonzero arg in (select w out (run_chain f c arg), w).

(** Invert of p256/fp; p256/fp/fp.go:103-153: the loops, i from 224 down to 0 *)
Fixpoint p256_loop1 (f : field) (arg t : limbs) (n : nat) : limbs :=
  match n with O => t | S n' => p256_loop1 f arg (mul f (square f t) arg) n' end.
Fixpoint p256_loop2 (f : field) (arg t r : limbs) (n : nat) : limbs :=
  match n with
  | O => r
  | S i =>
      let r := square f r in
      let r := if existsb (Nat.eqb i) [0; 2; 192; 224]%nat then mul f r arg
               else if existsb (Nat.eqb i) [3; 34; 65]%nat then mul f r t else r in
      p256_loop2 f arg t r i
  end.
Definition p256fp_invert (f : field) (out arg : limbs) : limbs * Z :=
  let t := p256_loop1 f arg arg 30 in
  let r := p256_loop2 f arg t t 225 in
  let w := is_nonzero arg in (select w out r, w).

(** Invert of pasta; pasta/fp/fp.go:290-298, pasta/fq/fq.go:284-292 *)
Definition pasta_invert (f : field) (e : limbs) (arg : limbs) : limbs * bool :=
  (pow f arg e, negb (is_zero arg =? 1)).

(** ** square roots *)
(** Sqrt of k256/fp and p256/fp, modulus 3 mod 4; k256/fp/fp.go:84-101, p256/fp/fp.go:84-100 *)
Definition sqrt34 (f : field) (e : limbs) (out arg : limbs) : limbs * Z :=
  let s := pow f arg e in
  let w := equal_helper (square f s) arg in
  (select w out s, w).

(** b squared i-2 times *)
Fixpoint squares (f : field) (b : limbs) (n : nat) : limbs := match n with O => b | S n' => squares f (square f b) n' end.
(** The Tonelli-Shanks loop, i from n+1 down to 2; k256/fq/fq.go:114-131, p256/fq/fq.go:115-132, pasta/fp/fp.go:273-281 *)
Fixpoint ts_loop (f : field) (n : nat) (z t c : limbs) : limbs :=
  match n with
  | O => z
  | S n' =>
      let b := squares f t n' in
      let flag := - is_one f b + 1 in
      let z := select flag z (mul f z c) in
      let c := square f c in
      let t := select flag t (mul f t c) in
      ts_loop f n' z t c
  end.
(** z and t before the loop, and the loop; c3 = (c2 - 1) / 2 and c5 are constants of the package *)
Definition ts_root (f : field) (s : nat) (c3 c5 : limbs) (arg : limbs) : limbs :=
  let z := pow f arg c3 in
  let t := mul f (square f z) arg in
  let z := mul f z arg in
  ts_loop f (s - 1) z t c5.
(** Sqrt of k256/fq and p256/fq; k256/fq/fq.go:84-143, p256/fq/fq.go:85-144 *)
Definition sqrt_ts (f : field) (s : nat) (c3 c5 : limbs) (out arg : limbs) : limbs * Z :=
  let z := ts_root f s c3 c5 arg in
  let w := equal_helper (square f z) arg in
  (select w out z, w).
(** Sqrt of pasta: the receiver is set to z either way; pasta/fp/fp.go:231-285, pasta/fq/fq.go:225-280 *)
Definition pasta_sqrt (f : field) (s : nat) (c3 c5 : limbs) (arg : limbs) : limbs * bool :=
  let z := ts_root f s c3 c5 arg in (z, equal_helper (square f z) arg =? 1).
