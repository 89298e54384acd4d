(** Model of /repo/pkg/sharing/v1/ed25519curve.go, the Ed25519 group dressed as a crypto/elliptic curve, and of
    the two conversions of /repo/internal/point.go it uses.  EcPoint over it is [ed_curve] below, used with
    the operations of Curves/EcPointModel.v.

    The group filippo.io/edwards25519 is outside the repository: [ed] is its additive group, [enc] is
    Point.Bytes, [dec] is Point.SetBytes ([None] is its error), [B] the base point, [L] the order of [B] and
    [P] the field modulus.  Coordinates passed to the methods are not nil. *)
From mathcomp Require Import all_ssreflect all_algebra.
From Verif Require Import Lib.Res Lib.Bytes Curves.EcPointModel.
Set Implicit Arguments.
Unset Strict Implicit.
Unset Printing Implicit Defensive.
Import GRing.Theory.
Local Open Scope ring_scope.

Section Ed.
Variables (ed : zmodType) (enc : ed -> bytes) (dec : bytes -> option ed) (B : ed) (L P : nat).

(** BigInt2Ed25519Point; internal/point.go:31-36: more than 32 bytes make the slice expression panic *)
Definition big2point (y : int) : outcome ed :=
  let b := be_bytes `|y| in
  if (32 < size b)%N then Panic
  else match dec (nseq (32 - size b) 0%N ++ b) with Some p => Ok p | None => Err end.
(** BigInt2Ed25519Scalar; internal/point.go:38-44: [None] is the error of SetCanonicalBytes *)
Definition big2scalar (x : nat) : option nat :=
  let v := le_val (copy_into 32 (rev (be_bytes x))) in
  if (v < L)%N then Some v else None.
(** ed25519curve.go:92-100 and 106-114: the fallback is SetUniformBytes on 64 bytes *)
Definition ed_scalar (k : bytes) : nat :=
  match big2scalar (be_val k) with
  | Some s => s
  | None => (le_val (copy_into 64 (rev k)) %% L)%N
  end.
(** if err != nil { panic(err) } *)
Definition must (o : outcome ed) : outcome ed := match o with Err => Panic | _ => o end.
(** return new(big.Int), new(big.Int).SetBytes(p.Bytes()) *)
Definition ed_out (p : ed) : option int * option int := (Some 0, Some (Posz (be_val (enc p)))).

(** IsOnCurve; ed25519curve.go:47-52 *)
Definition ed_on (x y : int) : outcome bool :=
  match big2point y with Ok _ => Ok true | Err => Ok false | Panic => Panic end.
(** lines 57-64, 65-72 and 122-129: the coordinate 0 is read as the identity *)
Definition read0 (y : int) : outcome ed := if y == 0 then Ok 0 else must (big2point y).
(** Add; ed25519curve.go:54-75 *)
Definition ed_add (x1 y1 x2 y2 : int) : outcome (option int * option int) :=
  do p1 <- read0 y1; do p2 <- read0 y2; Ok (ed_out (p1 + p2)).
(** Double; ed25519curve.go:77-85 *)
Definition ed_double (x1 y1 : int) : outcome (option int * option int) :=
  do p <- must (big2point y1); Ok (ed_out (p + p)).
(** ScalarMult; ed25519curve.go:87-103 *)
Definition ed_mul (x y : int) (k : bytes) : outcome (option int * option int) :=
  do p <- must (big2point y); Ok (ed_out (p *+ ed_scalar k)).
(** ScalarBaseMult; ed25519curve.go:105-117 *)
Definition ed_base (k : bytes) : outcome (option int * option int) := Ok (ed_out (B *+ ed_scalar k)).
(** Neg; ed25519curve.go:119-132 *)
Definition ed_neg (x y : int) : outcome (option int * option int) :=
  do p <- read0 y; Ok (ed_out (- p)).

(** the curve value; ed25519curve.go:27-36.  Its name is not in the tables of ec_point.go. *)
Definition ed_curve : curve := Curve 5 P L 255 ed_on ed_add ed_mul ed_base.
End Ed.
