(** Vocabulary of the DKG properties, independent of the model's helpers. *)
From mathcomp Require Import all_ssreflect all_algebra.
Set Implicit Arguments.
Unset Strict Implicit.
Unset Printing Implicit Defensive.
Import GRing.Theory.
Local Open Scope ring_scope.

(** The polynomial committed to by the points [cs], evaluated in the exponent at [x]. *)
Definition committed_at (F : fieldType) (G : lmodType F) (cs : seq G) (x : F) : G :=
  \sum_(k < size cs) x ^+ k *: nth 0 cs k.

(** [l] enumerates, in some order, the participants 1..n other than [i] (it may also contain [i]
    itself: receivers skip their own entry). *)
Definition covers (n i : nat) (l : seq nat) : Prop :=
  uniq l /\ forall j : nat, j != i -> (j \in l) = (1 <= j <= n)%N.
