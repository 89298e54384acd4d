(** Model of pkg/zkp/schnorr/schnorr.go.

    Scalars are a field [F], points an [F]-module [G].  [penc] is ToAffineCompressed, [enc]/[dec] are
    Scalar.Bytes / Scalar.SetBytes, [hash] is SHA3-256.  The nonce drawn by Prove is an argument. *)
From mathcomp Require Import all_ssreflect all_algebra.
From Verif Require Import Lib.Res Lib.Bytes.
Set Implicit Arguments.
Unset Strict Implicit.
Unset Printing Implicit Defensive.
Import GRing.Theory.
Local Open Scope ring_scope.

Section Schnorr.
Variables (F : fieldType) (G : lmodType F) (penc : G -> bytes) (enc : F -> bytes)
  (dec : bytes -> option F) (hash : bytes -> bytes).

(** schnorr.go:32-36 *)
Record proof := Proof { pf_c : F; pf_s : F; pf_stmt : G }.

(** schnorr.go:60-72 and 90-102: the bytes hashed *)
Definition transcript (sid : bytes) (base stmt K : G) : bytes :=
  sid ++ penc base ++ penc stmt ++ penc K.

(** schnorr.go:53-79 Prove with nonce [k] *)
Definition prove (base : G) (sid : bytes) (x k : F) : outcome proof :=
  let stmt := x *: base in
  let random := k *: base in
  match dec (hash (transcript sid base stmt random)) with
  | None => Err
  | Some c => Ok (Proof c (c * x + k) stmt)
  end.

(** schnorr.go:83-107 Verify (Ok = nil error) *)
Definition verify (base : G) (sid : bytes) (pf : proof) : outcome unit :=
  let gs := pf_s pf *: base in
  let xc := (- pf_c pf) *: pf_stmt pf in
  let random := gs + xc in
  if enc (pf_c pf) == hash (transcript sid base (pf_stmt pf) random) then Ok tt else Err.

(** schnorr.go:111-124 ProveCommit *)
Definition prove_commit (base : G) (sid : bytes) (x k : F) : outcome (proof * bytes) :=
  do pf <- prove base sid x k;
  Ok (pf, hash (enc (pf_c pf) ++ enc (pf_s pf))).

(** schnorr.go:128-140 DecommitVerify *)
Definition decommit_verify (base : G) (sid : bytes) (pf : proof) (comm : bytes) : outcome unit :=
  if hash (enc (pf_c pf) ++ enc (pf_s pf)) == comm then verify base sid pf else Err.
End Schnorr.

(** Scalar.SetBytes of the curves with big-endian scalars (K256, P256, BLS12-381;
    k256_curve.go:295-308, p256_curve.go:293-306, bls12381_curve.go:243-256 with native/field.go:225-233
    and native/bls12381/fq.go SetBytes): 32 bytes, big-endian, below the order.  The scalar is
    represented by its integer. *)
Definition dec_be (q : nat) (b : bytes) : option nat :=
  if (size b == 32)%N && (be_val b < q)%N then Some (be_val b) else None.
