(** Model of /repo/pkg/core/curves/ec_point.go, the point type over crypto/elliptic curves used by GG20,
    the v1 sharing packages and DKLs v0.

    The curve itself (crypto/elliptic, btcec, or the curves of pkg/sharing/v1) is a record of functions,
    since its code is outside this file: nothing is assumed about them here, and each may panic.  Coordinates are big.Int
    pointers: [None] is nil.  Slices have capacity equal to their length. *)
From mathcomp Require Import all_ssreflect all_algebra.
From Verif Require Import Lib.Res Lib.Bytes.
Set Implicit Arguments.
Unset Strict Implicit.
Unset Printing Implicit Defensive.
Import GRing.Theory.
Local Open Scope ring_scope.

(** The elliptic.Curve interface as used by ec_point.go.  [c_name] stands for Params().Name: 0 to 4 are
    the five names of the tables at lines 21-43, anything else is unknown to them. *)
Record curve := Curve {
  c_name : nat;
  c_P : nat;
  c_N : nat;
  c_bits : nat;
  c_on : int -> int -> outcome bool;
  c_add : int -> int -> int -> int -> outcome (option int * option int);
  c_mul : int -> int -> bytes -> outcome (option int * option int);
  c_base : bytes -> outcome (option int * option int) }.

(** ec_point.go:45-49 *)
Record ecpoint := EcP { e_curve : curve; e_x : option int; e_y : option int }.

(** core.ConstantTimeEqByte; core/mod.go:38-63: same bytes of the absolute value and same sign *)
Definition ct_eq (a b : option int) : bool :=
  match a, b with
  | None, None => true
  | Some a, Some b => (be_bytes `|a| == be_bytes `|b|) && (sgz a == sgz b)
  | _, _ => false
  end.

(** big.Int.FillBytes: panics when the absolute value does not fit *)
Definition fill (k : nat) (a : option int) : outcome bytes :=
  do a <- deref a;
  let s := be_bytes `|a| in
  if (size s <= k)%N then Ok (nseq (k - size s) 0%N ++ s) else Panic.
(** big.Int.SetBytes *)
Definition set_bytes (b : bytes) : option int := Some (Posz (be_val b)).

(** IsOnCurve; ec_point.go:108-110.  The curves dereference both coordinates. *)
Definition is_on (a : ecpoint) : outcome bool :=
  do x <- deref (e_x a); do y <- deref (e_y a); c_on (e_curve a) x y.
(** IsIdentity; ec_point.go:113-117 *)
Definition is_identity (a : ecpoint) : bool := ct_eq (e_x a) (Some 0) && ct_eq (e_y a) (Some 0).
(** IsValid; ec_point.go:104-106 *)
Definition is_valid (a : ecpoint) : outcome bool :=
  do on <- is_on a; Ok (on || is_identity a).
(** the repeated pattern "if !p.IsValid() { return nil, err }; return p, nil" *)
Definition checked (a : ecpoint) : outcome ecpoint :=
  do ok <- is_valid a; if ok then Ok a else Err.

(** sameCurve; ec_point.go:234-256.  The parameters are compared as pointers; every named curve has one
    Params object, so this is equality of the names. *)
Definition same_curve (a b : ecpoint) : bool := c_name (e_curve a) == c_name (e_curve b).
(** Equals; ec_point.go:120-128; [None] is a nil argument *)
Definition equals (a : ecpoint) (b : option ecpoint) : bool :=
  match b with
  | None => false
  | Some b => if ~~ same_curve a b then false else ct_eq (e_x a) (e_x b) && ct_eq (e_y a) (e_y b)
  end.

(** Add; ec_point.go:144-159 *)
Definition ec_add (a b : option ecpoint) : outcome ecpoint :=
  match a, b with
  | Some a, Some b =>
    if ~~ same_curve a b then Err else
    do ax <- deref (e_x a); do ay <- deref (e_y a);
    do bx <- deref (e_x b); do by_ <- deref (e_y b);
    do r <- c_add (e_curve a) ax ay bx by_;
    checked (EcP (e_curve a) r.1 r.2)
  | _, _ => Err
  end.
(** Neg; ec_point.go:162-173 *)
Definition ec_neg (a : option ecpoint) : outcome ecpoint :=
  match a with
  | None => Err
  | Some a =>
    do y <- deref (e_y a);
    checked (EcP (e_curve a) (e_x a) (Some (Posz (c_P (e_curve a)) - y)))
  end.
(** reduceModN and Bytes; ec_point.go:139-141, 180-183: Mod is the Euclidean remainder *)
Definition scalar_bytes (c : curve) (k : int) : bytes := be_bytes `|(k %% Posz (c_N c))%Z|.
(** ScalarMult; ec_point.go:176-188 *)
Definition ec_mul (a : option ecpoint) (k : option int) : outcome ecpoint :=
  match a, k with
  | Some a, Some k =>
    do x <- deref (e_x a); do y <- deref (e_y a);
    do r <- c_mul (e_curve a) x y (scalar_bytes (e_curve a) k);
    checked (EcP (e_curve a) r.1 r.2)
  | _, _ => Err
  end.
(** NewScalarBaseMult; ec_point.go:191-203 *)
Definition ec_base (c : option curve) (k : option int) : outcome ecpoint :=
  match c, k with
  | Some c, Some k =>
    do r <- c_base c (scalar_bytes c k);
    checked (EcP c r.1 r.2)
  | _, _ => Err
  end.

(** internal.CalcFieldSize; internal/point.go:16-19 *)
Definition field_size (c : curve) : nat := ((c_bits c + 7) %/ 8)%N.
(** Bytes; ec_point.go:206-213 *)
Definition ec_bytes (a : ecpoint) : outcome bytes :=
  let fs := field_size (e_curve a) in
  do bx <- fill fs (e_x a); do by_ <- fill fs (e_y a); Ok (bx ++ by_).
(** PointFromBytesUncompressed; ec_point.go:217-231 *)
Definition ec_from_bytes (c : curve) (b : bytes) : outcome ecpoint :=
  let fs := field_size c in
  if size b != (fs * 2)%N then Err
  else checked (EcP c (set_bytes (take fs b)) (set_bytes (drop fs b))).

Section Tables.
(** the tables of lines 21-43: curve number i is entry i *)
Variable table : seq curve.
Definition lookup (i : nat) : option curve := nth None (map Some table) i.

(** b[i:j] *)
Definition slice (i j : nat) (b : bytes) : outcome bytes :=
  if (j <= size b)%N then Ok (take (j - i) (drop i b)) else Panic.

(** MarshalBinary; ec_point.go:83-92 *)
Definition marshal_binary (a : ecpoint) : outcome bytes :=
  match lookup (c_name (e_curve a)) with
  | None => Err
  | Some _ =>
    do bx <- fill 32 (e_x a); do by_ <- fill 32 (e_y a);
    Ok (c_name (e_curve a) :: bx ++ by_)
  end.
(** UnmarshalBinary; ec_point.go:94-102 *)
Definition unmarshal_binary (data : bytes) : outcome ecpoint :=
  match data with
  | [::] => Panic
  | code :: _ =>
    match lookup code with
    | None => Err
    | Some c =>
      do bx <- slice 1 33 data; do by_ <- slice 33 65 data;
      Ok (EcP c (set_bytes bx) (set_bytes by_))
    end
  end.

(** EcPointJson; ec_point.go:54-57: the decoded JSON object (encoding/json is not modelled); a missing or
    null number is a nil pointer *)
Record ecjson := EcJson { j_name : nat; j_x : option int; j_y : option int }.
(** MarshalJSON; ec_point.go:60-66 *)
Definition marshal_json (a : ecpoint) : ecjson := EcJson (c_name (e_curve a)) (e_x a) (e_y a).
(** UnmarshalJSON; ec_point.go:68-81 *)
Definition unmarshal_json (j : ecjson) : outcome ecpoint :=
  match lookup (j_name j) with
  | None => Err
  | Some c => Ok (EcP c (j_x j) (j_y j))
  end.
End Tables.
