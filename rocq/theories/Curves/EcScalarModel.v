(** Model of /repo/pkg/core/curves/ec_scalar.go, the scalar arithmetic on big integers used with EcPoint.

    Arguments are not nil.  The arithmetic of the BLS12-381 scalar field is arithmetic modulo [n] (its limb
    code is the subject of C74), that of filippo.io/edwards25519, outside the repository, is taken to be
    arithmetic modulo [n] with inversion by the power n - 2.  [n] is the group order.  Hash and Random are
    not modelled. *)
From mathcomp Require Import all_ssreflect all_algebra.
From Verif Require Import Lib.Res Lib.Bytes Curves.EcPointModel SharingV1.EdModel.
Set Implicit Arguments.
Unset Strict Implicit.
Unset Printing Implicit Defensive.
Import GRing.Theory Num.Theory.
Local Open Scope ring_scope.

Section Ord.
Variable n : nat.
Local Notation N := (Posz n).

(** big.Int.Mod by a positive modulus *)
Definition big_mod (x : int) : int := (x %% N)%Z.
(** big.Int.ModInverse: nil when not coprime *)
Definition mod_inverse (y : int) : option int :=
  if coprimez y N then Some (big_mod (egcdz y N).1) else None.
(** big.Int.FillBytes into 32 bytes *)
Definition bytes32 (x : int) : outcome bytes := fill 32 (Some x).

(** K256Scalar and P256Scalar; ec_scalar.go:49-108 and 117-176 *)
Definition w_add (x y : int) : outcome int := Ok (big_mod (x + y)).
Definition w_sub (x y : int) : outcome int := Ok (big_mod (x - y)).
Definition w_neg (x : int) : outcome int := Ok (big_mod (N - x)).
Definition w_mul (x y : int) : outcome int := Ok (big_mod (x * y)).
(** Div; lines 73-76, 141-144: multiplying by a nil big.Int panics *)
Definition w_div (x y : int) : outcome int := do t <- deref (mod_inverse y); w_mul x t.
(** IsValid through core.In; lines 98-100, 166-168, core/mod.go:74-86 *)
Definition w_valid (x : int) : bool := ~~ (x < 0) && (x < N).
(** Bytes; lines 102-106, 170-174 *)
Definition w_bytes (x : int) : outcome bytes := bytes32 x.

(** Bls12381Scalar; ec_scalar.go:187-247.  SetBigInt reduces (native/field.go:237-245). *)
Definition b_add (x y : int) : outcome int := Ok (big_mod (big_mod x + big_mod y)).
Definition b_sub (x y : int) : outcome int := Ok (big_mod (big_mod x - big_mod y)).
Definition b_neg (x : int) : outcome int := Ok (big_mod (- big_mod x)).
Definition b_mul (x y : int) : outcome int := Ok (big_mod (big_mod x * big_mod y)).
(** Invert in the field: the inverse and true, or false for zero (C74) *)
Definition b_invert (b : int) : int * bool :=
  if mod_inverse b is Some t then (t, true) else (0, false).
(** Div; lines 212-220: the dividend itself is returned when there is no inverse *)
Definition b_div (x y : int) : outcome int :=
  let a := big_mod x in
  let: (c, wasInverted) := b_invert (big_mod y) in
  let c := big_mod (a * c) in
  Ok (if wasInverted then c else a).
(** IsValid; lines 241-244 *)
Definition b_valid (x : int) : bool := big_mod x == x.
Definition b_bytes (x : int) : outcome bytes := bytes32 x.

(** Ed25519Scalar; ec_scalar.go:258-372.  BigInt2Ed25519Scalar reads the bytes of the absolute value;
    an error panics. *)
Definition e_read (x : int) : outcome int :=
  match big2scalar n `|x| with Some v => Ok (Posz v) | None => Panic end.
Definition e_add (x y : int) : outcome int := do a <- e_read x; do b <- e_read y; Ok (big_mod (a + b)).
Definition e_sub (x y : int) : outcome int := do a <- e_read x; do b <- e_read y; Ok (big_mod (a - b)).
Definition e_neg (x : int) : outcome int := do a <- e_read x; Ok (big_mod (- a)).
Definition e_mul (x y : int) : outcome int := do a <- e_read x; do b <- e_read y; Ok (big_mod (a * b)).
(** Div; lines 313-325 *)
Definition e_div (x y : int) : outcome int :=
  do b <- e_read y; let b := big_mod (b ^+ (n - 2)) in do a <- e_read x; Ok (big_mod (a * b)).
(** Bytes; lines 334-340 *)
Definition e_bytes (x : int) : outcome bytes :=
  do a <- e_read x; Ok (rev (le_bytes 32 `|a|)).
(** IsValid; lines 370-372 *)
Definition e_valid (x : int) : bool := x < N.
End Ord.
