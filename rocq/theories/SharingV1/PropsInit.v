(** C85: the lazily initialised curves of the v1 sharing package. *)
From mathcomp Require Import all_ssreflect.
From Verif Require Import Lib.Res SharingV1.InitModel.
Set Implicit Arguments.
Unset Strict Implicit.
Unset Printing Implicit Defensive.

(** a history contains a call to Bls12381G1, to Ed25519 *)
Definition isG1 (c : call) : bool := if c is CG1 then true else false.
Definition isEd (c : call) : bool := if c is CEd then true else false.

Section P.
Variables (r l : nat).
Lemma run_cat s h h' : run r l s (h ++ h') = run r l (run r l s h) h'.
Proof. by rewrite /run foldl_cat. Qed.
Lemma run_g1 h : s_g1 (run r l start h) = if has isG1 h then Cell true (Some (Params r nameG1)) else Cell false None.
Proof.
elim/last_ind: h => [//|h c IH]; rewrite -cats1 run_cat has_cat /= orbF.
by case: c => /=; rewrite ?orbT ?orbF ?IH //; case: (has isG1 h).
Qed.
Lemma run_ed h : s_ed (run r l start h) = if has isEd h then Cell true (Some (Params l nameEd)) else Cell false None.
Proof.
elim/last_ind: h => [//|h c IH]; rewrite -cats1 run_cat has_cat /= orbF.
by case: c => /=; rewrite ?orbT ?orbF ?IH //; case: (has isEd h).
Qed.
End P.

(** After any history the values returned by Bls12381G1 and Ed25519 have their parameters, at once and after
    any further calls, and a second call returns the same pointer with the same parameters. *)
Theorem C85_initialised (r l : nat) (h h' : seq call) :
  (let: (s, v) := step r l (run r l start h) CG1 in
   params_of (run r l s h') v = Some (Params r nameG1) /\ order_of (run r l s h') v = Ok r /\
   (step r l (run r l s h') CG1).2 = v) /\
  (let: (s, v) := step r l (run r l start h) CEd in
   params_of (run r l s h') v = Some (Params l nameEd) /\ order_of (run r l s h') v = Ok l /\
   (step r l (run r l s h') CEd).2 = v).
Proof.
have e c : run r l (step r l (run r l start h) c).1 h' = run r l start ((h ++ [:: c]) ++ h').
  by rewrite !run_cat.
split; [have := e CG1|have := e CEd]; rewrite /= => ->.
  by rewrite /order_of /params_of run_g1 !has_cat /= orbT.
by rewrite /order_of /params_of run_ed !has_cat /= orbT.
Qed.
Print Assumptions C85_initialised.

(** Finding: Bls12381G2 returns the G1 curve. The pointer is the one Bls12381G1 returns, and its parameters
    are nil, so that reading the group order panics, exactly until someone calls Bls12381G1. *)
Theorem C85_g2_refuted (r l : nat) (h h' : seq call) :
  let: (s, v) := step r l (run r l start h) CG2 in
  v = (step r l (run r l start h) CG1).2 /\
  (order_of (run r l s h') v = if has isG1 (h ++ h') then Ok r else Panic) /\
  (params_of (run r l s h') v = None <-> ~ has isG1 (h ++ h')).
Proof.
have e : run r l (step r l (run r l start h) CG2).1 h' = run r l start ((h ++ [:: CG2]) ++ h').
  by rewrite !run_cat.
move: e; rewrite /= => ->.
rewrite /order_of /params_of run_g1 !has_cat /= orbF.
case: (has isG1 h || has isG1 h') => /=; do 2 (split=> //).
by split=> // h0; case: h0.
Qed.
Print Assumptions C85_g2_refuted.

(** Both cases of the finding occur: G2 first, and G2 after G1. *)
Example C85_hyps :
  order_of (run 5 7 start [:: CEd; CG2]) (step 5 7 (run 5 7 start [:: CEd]) CG2).2 = Panic /\
  order_of (run 5 7 start [:: CG1; CG2]) (step 5 7 (run 5 7 start [:: CG1]) CG2).2 = Ok 5.
Proof. by []. Qed.
