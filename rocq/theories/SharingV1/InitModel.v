(** Model of the package state behind Bls12381G1(), Bls12381G2() and Ed25519() of /repo/pkg/sharing/v1: the
    three package variables, their sync.Once guards, and the pointers returned.

    Simplified: a call is atomic.  sync.Once makes concurrent callers wait for the one running initialiser,
    so every schedule has the effect of a sequence of atomic calls.  Of the parameters only the group order
    and the name are kept; both BLS initialisers use the same ones. *)
From mathcomp Require Import all_ssreflect.
From Verif Require Import Lib.Res.
Set Implicit Arguments.
Unset Strict Implicit.
Unset Printing Implicit Defensive.

(** the variables: bls12381g1curve.go:18-19, bls12381g2curve.go:18-19, ed25519curve.go *)
Inductive var := Vg1 | Vg2 | Ved.
(** elliptic.CurveParams, N and Name *)
Record params := Params { p_N : nat; p_name : nat }.
(** the names "Bls12381G1" (both BLS initialisers) and "ed25519" *)
Definition nameG1 : nat := 1.
Definition nameEd : nat := 2.

Section Init.
Variables (r l : nat).
(** done flag of the Once and the CurveParams pointer ([None]: nil) *)
Record cell := Cell { c_done : bool; c_par : option params }.
Record state := State { s_g1 : cell; s_g2 : cell; s_ed : cell }.
Definition start : state := State (Cell false None) (Cell false None) (Cell false None).
(** Once.Do *)
Definition once (c : cell) (p : params) : cell := if c_done c then c else Cell true (Some p).

(** Bls12381G1; bls12381g1curve.go:25-40 *)
Definition call_g1 (s : state) : state * var :=
  (State (once (s_g1 s) (Params r nameG1)) (s_g2 s) (s_ed s), Vg1).
(** Bls12381G2; bls12381g2curve.go:25-39: initialises one variable and returns the address of the other *)
Definition call_g2 (s : state) : state * var :=
  (State (s_g1 s) (once (s_g2 s) (Params r nameG1)) (s_ed s), Vg1).
(** Ed25519; ed25519curve.go:27-41 *)
Definition call_ed (s : state) : state * var :=
  (State (s_g1 s) (s_g2 s) (once (s_ed s) (Params l nameEd)), Ved).

Inductive call := CG1 | CG2 | CEd.
Definition step (s : state) (c : call) : state * var :=
  match c with CG1 => call_g1 s | CG2 => call_g2 s | CEd => call_ed s end.
(** the state after a history of calls *)
Definition run (s : state) (h : seq call) : state := foldl (fun s c => (step s c).1) s h.

(** Params() through a returned pointer: the embedded pointer, at the time of the read *)
Definition params_of (s : state) (v : var) : option params :=
  c_par (match v with Vg1 => s_g1 s | Vg2 => s_g2 s | Ved => s_ed s end).
(** curve.Params().N, as the dealers, the EcPoint operations and the scalar fields read it: a nil pointer
    panics *)
Definition order_of (s : state) (v : var) : outcome nat :=
  match params_of s v with Some p => Ok (p_N p) | None => Panic end.
End Init.
