(** Point codecs of BLS12-381: /repo/pkg/core/curves/native/bls12381/{fp,fp2,g1,g2}.go and the wrappers of
    /repo/pkg/core/curves/bls12381_curve.go.

    Simplifications: the base field is ['F_p], so the six Montgomery limbs are not modelled; a point is
    its affine coordinate pair or [None] for the identity (ToAffine, g1.go 921-932, g2.go 917-928, yields
    (0,0) for the identity); the subgroup test InCorrectSubgroup (g1.go 619-623, g2.go 587-591) is a
    parameter [sub]. *)
From Coq Require Import ZArith.
From mathcomp Require Import all_ssreflect all_algebra.
From Verif Require Import Lib.Res Lib.Bytes Tower.TowerModel Tower.SqrtProofs Tower.Literals.
Set Implicit Arguments.
Unset Strict Implicit.
Unset Printing Implicit Defensive.
Import GRing.Theory.
Local Open Scope ring_scope.
Delimit Scope Z_scope with Zs.

(** fp.go 25-32 halfModulus *)
Definition half_limbs : seq Z :=
  [:: 0xdcff7fffffffd556; 0x0f55ffff58a9ffff; 0xb39869507b587b12; 0xb23ba5c279c2895f;
      0x258dd3db21a5d66b; 0x0d0088f51cbff34d]%Zs.
(** fp.go 423-430: the exponent of Sqrt *)
Definition sqrt_limbs : seq Z :=
  [:: 0xee7fbfffffffeaab; 0x07aaffffac54ffff; 0xd9cc34a83dac3d89; 0xd91dd2e13ce144af;
      0x92c6e9ed90d2eb35; 0x0680447a8e5ff9a6]%Zs.

(** bit [k] of a byte, and setting it: out[0] |= 1 << k *)
Definition bit (k h : nat) : bool := odd (h %/ 2 ^ k).
Definition or_bit (k : nat) (on : bool) (h : nat) : nat := if on && ~~ bit k h then (h + 2 ^ k)%N else h.
(** apply [f] to the first byte *)
Definition map_head (f : nat -> nat) (b : bytes) : bytes := if b is x :: r then f x :: r else [::].
(** x[FieldBytes-1] &= 0x1F on the reversed buffer, i.e. on the first input byte *)
Definition mask (b : bytes) : bytes := map_head (fun h => h %% 32)%N b.

Section Base.
Variables p half : nat.
Local Notation F := [fieldType of 'F_p].

(** fp.go 563-580 Bytes: 48 bytes, little endian *)
Definition fp_bytes (a : F) : bytes := le_bytes 48 (val a).
(** fp.go 457-481 SetBytes: little endian, flag 0 (here [None]) unless below the modulus *)
Definition fp_set_bytes (b : bytes) : option F :=
  if (le_val b < p)%N then Some (le_val b)%:R else None.
(** the big-endian forms used by the point codecs (internal.ReverseScalarBytes) *)
Definition enc1 (a : F) : bytes := rev (fp_bytes a).
Definition dec1 (b : bytes) : option F := fp_set_bytes (rev b).
(** g2.go 786-787, 851-854: the B coefficient comes first *)
Definition enc2 (x : fp2 F) : bytes := enc1 (B2 x) ++ enc1 (A2 x).
(** g2.go 815-824, 875-890 *)
Definition dec2 (b : bytes) : option (fp2 F) :=
  match dec1 (take 48 b), dec1 (drop 48 b) with
  | Some xB, Some xA => Some (Fp2 xA xB)
  | _, _ => None
  end.
(** fp.go 138-150 LexicographicallyLargest: no borrow when halfModulus is subtracted *)
Definition lex1 (a : F) : bool := (half <= val a)%N.
(** fp2.go 73-82 *)
Definition lex2 (x : fp2 F) : bool := lex1 (B2 x) || (B2 x == 0) && lex1 (A2 x).
(** fp.go 613-631 pow: square and multiply, most significant bit first *)
Definition pow1 (base : F) (bits : seq bool) : F :=
  foldl (fun res b => let res := res * res in if b then res * base else res) 1 bits.
(** fp.go 417-436 Sqrt with the receiver equal to the argument *)
Definition sqrt1 (a : F) : F * bool :=
  let z := pow1 a (limbBits sqrt_limbs) in
  let ok := z * z == a in
  (if ok then z else a, ok).
(** fp2.go 219-283 with the receiver equal to the argument *)
Definition sqrtE2 (a : fp2 F) : fp2 F * bool := sqrt2 (limbBits e1_limbs) (limbBits e2_limbs) a a.
End Base.

Section Codec.
Variables (E : comRingType) (L : nat) (enc : E -> bytes) (dec : bytes -> option E).
Variables (lex : E -> bool) (sqrt : E -> E * bool) (b : E) (sub : E -> E -> bool).
Local Notation point := (option (E * E)).

(** fp.go 601-605 and fp2.go 326-330 CNeg with the receiver equal to the argument *)
Definition cneg (y : E) (choice : bool) : E := if choice then - y else y.
(** g1.go 921-932, g2.go 917-928 *)
Definition affine (P : point) : E * E := if P is Some xy then xy else (0, 0).
Definition is_identity (P : point) : bool := ~~ isSome P.

(** G1.ToCompressed, g1.go 807-821; G2.ToCompressed, g2.go 780-796 *)
Definition to_compressed (P : point) : bytes :=
  let t := affine P in
  let inf := is_identity P in
  map_head (fun h => or_bit 5 (lex t.2 && ~~ inf) (or_bit 6 inf (or_bit 7 true h))) (enc t.1).

(** G1.FromCompressed, g1.go 824-866; G2.FromCompressed, g2.go 799-844 *)
Definition from_compressed (input : bytes) : outcome point :=
  let h := head 0%N input in
  if ~~ bit 7 h then Err
  else if bit 6 h then Ok None
  else match dec (mask input) with
       | None => Err
       | Some x =>
         let r := sqrt (x * x * x + b) in
         if ~~ r.2 then Err
         else let y := cneg r.1 (lex r.1 (+) bit 5 h) in
              if ~~ sub x y then Err else Ok (Some (x, y))
       end.

(** G1.ToUncompressed, g1.go 869-880; G2.ToUncompressed, g2.go 847-862 *)
Definition to_uncompressed (P : point) : bytes :=
  let t := affine P in
  map_head (or_bit 6 (is_identity P)) (enc t.1 ++ enc t.2).

(** G1.FromUncompressed, g1.go 883-918; G2.FromUncompressed, g2.go 865-914 *)
Definition from_uncompressed (input : bytes) : outcome point :=
  if bit 6 (head 0%N input) then Ok None
  else match dec (mask (take L input)), dec (drop L input) with
       | Some x, Some y =>
         if ~~ (y * y == x * x * x + b) then Err
         else if ~~ sub x y then Err else Ok (Some (x, y))
       | _, _ => Err
       end.

(** PointBls12381G1.FromAffineCompressed / Uncompressed, bls12381_curve.go 460-478; the G2 methods,
    708-726: the argument is copied into an array of the right length, whatever its own length *)
Definition from_affine_compressed (bs : bytes) : outcome point := from_compressed (copy_into L bs).
Definition from_affine_uncompressed (bs : bytes) : outcome point := from_uncompressed (copy_into (L + L) bs).

(** big.Int.FillBytes panics when the value does not fit *)
Definition fill_bytes (k n : nat) : outcome bytes :=
  let s := be_bytes n in
  if (size s <= k)%N then Ok (nseq (k - size s) 0%N ++ s) else Panic.

(** G2.BigInt, g2.go 757-763: the local variable [t], a zero G2 (hence with z = 0, an identity), is
    encoded; the receiver is not read *)
Definition g2_big_int (P : point) : nat * nat :=
  let out := to_uncompressed None in
  (be_val (take L out), be_val (drop L out)).
(** G2.SetBigInt, g2.go 767-777, for non-negative integers *)
Definition g2_set_big_int (x y : nat) : outcome point :=
  if (size (be_bytes x) == 0%N) && (size (be_bytes y) == 0%N) then Ok None
  else do tx <- fill_bytes L x;
       do ty <- fill_bytes L y;
       from_uncompressed (tx ++ ty).
End Codec.

Section G1Int.
Variables (p : nat) (b : 'F_p) (sub : 'F_p -> 'F_p -> bool).
(** G1.BigInt, g1.go 776-782 *)
Definition g1_big_int (P : option ('F_p * 'F_p)) : nat * nat :=
  let t := if P is Some xy then xy else (0, 0) in (val t.1 : nat, val t.2 : nat).
(** G1.SetBigInt, g1.go 785-804; fp.SetBigInt reduces modulo p (fp.go 523-530) *)
Definition g1_set_big_int (x y : nat) : outcome (option ('F_p * 'F_p)) :=
  let xx : 'F_p := x%:R in let yy : 'F_p := y%:R in
  if (xx == 0) && (yy == 0) then Ok None
  else if (yy * yy == xx * xx * xx + b) && sub xx yy || (xx == 0) && (yy == 0) then Ok (Some (xx, yy))
  else Err.
End G1Int.
