(** stdlib [field]/[ring] on a mathcomp [fieldType], and a reflective normaliser for linear
    equations in an [lmodType].  No plugin beyond the stdlib's own ring/field. *)
From mathcomp Require Import all_ssreflect all_algebra.
From Coq Require Import Ring_theory Field_theory Field.
Set Implicit Arguments.
Unset Strict Implicit.
Unset Printing Implicit Defensive.
Import GRing.Theory.
Local Open Scope ring_scope.

Section FieldOps.
Variable F : fieldType.
Definition fadd (x y : F) : F := x + y.
Definition fmul (x y : F) : F := x * y.
Definition fsub (x y : F) : F := x - y.
Definition fopp (x : F) : F := - x.
Definition finv (x : F) : F := x^-1.
Definition fdiv (x y : F) : F := x / y.
Definition f0 : F := 0.
Definition f1 : F := 1.

Lemma f_rth : ring_theory f0 f1 fadd fmul fsub fopp (@eq F).
Proof.
split; rewrite /f0 /f1 /fadd /fmul /fsub /fopp.
- exact: add0r.
- exact: addrC.
- exact: addrA.
- exact: mul1r.
- exact: mulrC.
- exact: mulrA.
- exact: mulrDl.
- by [].
- exact: subrr.
Qed.

Lemma f_fth : field_theory f0 f1 fadd fmul fsub fopp fdiv finv (@eq F).
Proof.
split.
- exact: f_rth.
- by rewrite /f0 /f1; apply/eqP; rewrite oner_eq0.
- by [].
- by move=> p /eqP hp; rewrite /fmul /finv /f1 mulVf.
Qed.
End FieldOps.

(** Rewrite a term of [F] into the vocabulary of [Add Field]; small literal powers and multiples
    are unrolled. *)
Ltac f_tm F t :=
  lazymatch t with
  | @GRing.add _ ?a (@GRing.opp _ ?b) =>
      let a' := f_tm F a in let b' := f_tm F b in constr:(@fsub F a' b')
  | @GRing.add _ ?a ?b => let a' := f_tm F a in let b' := f_tm F b in constr:(@fadd F a' b')
  | @GRing.opp _ ?a => let a' := f_tm F a in constr:(@fopp F a')
  | @GRing.mul _ ?a (@GRing.inv _ ?b) =>
      let a' := f_tm F a in let b' := f_tm F b in constr:(@fdiv F a' b')
  | @GRing.mul _ ?a ?b => let a' := f_tm F a in let b' := f_tm F b in constr:(@fmul F a' b')
  | @GRing.inv _ ?a => let a' := f_tm F a in constr:(@finv F a')
  | @GRing.scale _ _ ?a ?b => let a' := f_tm F a in let b' := f_tm F b in constr:(@fmul F a' b')
  | @GRing.exp _ ?a O => constr:(f1 F)
  | @GRing.exp _ ?a 1%N => f_tm F a
  | @GRing.exp _ ?a (S ?n) =>
      let a' := f_tm F a in let b' := f_tm F (@GRing.exp (GRing.Field.ringType F) a n) in
      constr:(@fmul F a' b')
  | @GRing.natmul _ ?a O => constr:(f0 F)
  | @GRing.natmul _ ?a 1%N => f_tm F a
  | @GRing.natmul _ ?a (S ?n) =>
      let a' := f_tm F a in let b' := f_tm F (@GRing.natmul (GRing.Field.zmodType F) a n) in
      constr:(@fadd F a' b')
  | @GRing.one _ => constr:(f1 F)
  | @GRing.zero _ => constr:(f0 F)
  | @fadd _ _ _ => t
  | _ => constr:(t : GRing.Field.sort F)
  end.

Ltac f_fold F :=
  lazymatch goal with
  | |- @eq _ ?a ?b =>
      let a' := f_tm F a in let b' := f_tm F b in
      change (@eq (GRing.Field.sort F) a' b')
  end.

(** side conditions of [field] *)
Ltac f_side :=
  repeat match goal with
  | |- _ /\ _ => split
  | |- @eq _ _ _ -> False => apply/eqP
  | |- not (@eq _ _ _) => apply/eqP
  end; try assumption.
