(** What the limbs of a field element stand for.  Independent of the code of the field packages. *)
From Coq Require Import ZArith.
From Verif Require Import Limbs.Model.
Local Open Scope Z_scope.

(** the integer a [4]uint64 holds, least significant limb first *)
Definition eval (a : limbs) : Z := l0 a + W * (l1 a + W * (l2 a + W * l3 a)).
(** every limb is a uint64 *)
Definition wf (a : limbs) : Prop := 0 <= l0 a < W /\ 0 <= l1 a < W /\ 0 <= l2 a < W /\ 0 <= l3 a < W.

(** [x] is the stored form of the residue [v] modulo [M]: the reduced limbs of v * 2^256 *)
Definition enc (M : Z) (x : limbs) (v : Z) : Prop := wf x /\ 0 <= v < M /\ eval x = (v * 2 ^ 256) mod M.
