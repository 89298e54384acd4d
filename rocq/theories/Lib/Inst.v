(** A concrete instance (scalars 'F_257, the group its additive group) used only to show that the
    hypotheses of the theorems are satisfiable. *)
From mathcomp Require Import all_ssreflect all_algebra.
Set Implicit Arguments.
Unset Strict Implicit.
Unset Printing Implicit Defensive.
Import GRing.Theory.
Local Open Scope ring_scope.

Definition F257 : fieldType := [fieldType of 'F_257].
Definition G257 : lmodType F257 := [lmodType F257 of F257^o].
Definition g257 : G257 := (1 : F257).
Definition enc257 (x : F257) : F257 := x.
Definition dec257 (x : F257) : option F257 := Some x.

Lemma prime257 : prime 257. Proof. by vm_compute. Qed.

Lemma base257 (a : F257) : a *: g257 = 0 -> a = 0.
Proof. by rewrite /g257 /GRing.scale /= mulr1. Qed.

Lemma natr257 (m n : nat) : ((m%:R : F257) == n%:R) = (m %% 257 == n %% 257)%N.
Proof. by rewrite -val_eqE /= !val_Fp_nat. Qed.

Lemma small257 (x : F257) : ((x : nat) < 256 ^ 32)%N.
Proof.
have h : ((x : nat) < 257)%N := ltn_ord x.
apply: (leq_trans h); apply: (@leq_trans (256 ^ 2)%N); first by vm_compute.
have -> : (256 ^ 32 = 256 ^ 2 * 256 ^ 30)%N by rewrite -expnD.
by apply: leq_pmulr; rewrite expn_gt0.
Qed.
