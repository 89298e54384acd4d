(** Model of the legacy BLS12-381 G1 curve of pkg/sharing/v1 (bls12381g1curve.go), of the EcPoint
    operations over it and of v1 Feldman.Verify instantiated with it.

    [p] is the group order (curve.Params().N); [G] is the subgroup of order [p] as a module over ['F_p].
    Coordinates are not modelled: SetBigInt accepts exactly the points of that subgroup
    (native/bls12381/g1.go:785-804) and every operation below returns such a point, so the IsValid
    tests of EcPoint succeed whenever the coordinates are not nil. *)
From mathcomp Require Import all_ssreflect all_algebra.
From Verif Require Import Lib.Res Lib.Bytes SharingV1.Model.
Set Implicit Arguments.
Unset Strict Implicit.
Unset Printing Implicit Defensive.
Import GRing.Theory.
Local Open Scope ring_scope.

Section Bls.
Variable p : nat.

(** Element.Value, the integer in [0,p) of a field element; curves/field.go:27-31 *)
Definition value (a : 'F_p) : nat := val a.
Arguments value : simpl never.

Variables (G : lmodType 'F_p) (g : G).

(** Bls12381FqNew().SetBytes of a 32-byte buffer filled by copy: little endian, an error when the value
    is not below the order; native/field.go:225-233, bls12381g1curve.go:74-79 and 85-90.
    [None] is the error. *)
Definition fq_set_bytes (k : bytes) : option 'F_p :=
  let v := le_val (copy_into 32 k) in
  if (v < p)%N then Some v%:R else None.

(** Bls12381G1Curve.ScalarMult; bls12381g1curve.go:69-81: [k] is copied as it is.
    [None] is the result nil, nil. *)
Definition g1_scalar_mult (P : G) (k : bytes) : option G :=
  omap (fun s => s *: P) (fq_set_bytes k).

(** Bls12381G1Curve.ScalarBaseMult; bls12381g1curve.go:83-92: [k] is reversed first
    (internal/point.go:21-29) *)
Definition g1_scalar_base_mult (k : bytes) : option G :=
  omap (fun s => s *: g) (fq_set_bytes (rev k)).

(** IsValid on the coordinates the curve returned: nil coordinates are dereferenced by
    big.Int.Set in fp.SetBigInt and panic; curves/ec_point.go:104-110, bls12381g1curve.go:46-49,
    native/bls12381/fp.go:523-530 *)
Definition valid_point (o : option G) : outcome G := deref o.

(** EcPoint.ScalarMult, for a non-negative big.Int; curves/ec_point.go:139-141, 176-188 *)
Definition ec_scalar_mult (P : G) (k : nat) : outcome G :=
  valid_point (g1_scalar_mult P (be_bytes (k %% p))).

(** NewScalarBaseMult; curves/ec_point.go:191-203 *)
Definition ec_scalar_base_mult (k : nat) : outcome G :=
  valid_point (g1_scalar_base_mult (be_bytes (k %% p))).

(** the loop of Feldman.Verify; sharing/v1/feldman.go:84-98 *)
Fixpoint bls_commit_eval (x i : 'F_p) (rhs : G) (cs : seq G) : outcome G :=
  match cs with
  | [::] => Ok rhs
  | c :: r =>
    let i' := i * x in
    do ci <- ec_scalar_mult c (value i');
    bls_commit_eval x i' (rhs + ci) r
  end.

(** Feldman.Verify over Bls12381G1(); sharing/v1/feldman.go:67-107 *)
Definition bls_feldman_verify (s : shamir1) (o : option (share1 p)) (verifiers : seq G) : outcome bool :=
  if (size verifiers < s1_threshold s)%N then Err
  else do sh <- deref o;
       do x <- new_element p (s1_id sh);
       match verifiers with
       | [::] => Panic
       | c0 :: cs =>
         do rhs <- bls_commit_eval x 1 c0 cs;
         do lhs <- ec_scalar_base_mult (value (s1_val sh));
         Ok (lhs == rhs)
       end.

End Bls.
