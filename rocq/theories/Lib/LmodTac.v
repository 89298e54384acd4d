(** Reflective proof of linear equations in an [lmodType F]: both sides are normalised to one
    coefficient per atom, leaving one field equation per atom. *)
From mathcomp Require Import all_ssreflect all_algebra.
From Coq Require Import PeanoNat.
From Verif Require Import Lib.FieldTac.
Set Implicit Arguments.
Unset Strict Implicit.
Unset Printing Implicit Defensive.
Import GRing.Theory.
Local Open Scope ring_scope.

Section Lm.
Variable (F : fieldType) (G : lmodType F).

Inductive mexp :=
| MVar of nat
| MZero
| MAdd of mexp & mexp
| MOpp of mexp
| MScale of F & mexp.

Fixpoint meval (env : seq G) (e : mexp) : G :=
  match e with
  | MVar n => nth 0 env n
  | MZero => 0
  | MAdd a b => meval env a + meval env b
  | MOpp a => - meval env a
  | MScale k a => k *: meval env a
  end.

Fixpoint mcoef (e : mexp) (i : nat) : F :=
  match e with
  | MVar n => if Nat.eqb n i then f1 F else f0 F
  | MZero => f0 F
  | MAdd a b => fadd (mcoef a i) (mcoef b i)
  | MOpp a => fopp (mcoef a i)
  | MScale k a => fmul k (mcoef a i)
  end.

Lemma meval_sum env e :
  meval env e = \sum_(i < size env) mcoef e i *: env`_i.
Proof.
elim: e => [n| |a IHa b IHb|a IHa|k a IHa] /=.
- have [lt|ge] := ltnP n (size env); last first.
    rewrite nth_default // big1 // => i _.
    case E: (Nat.eqb n i); last by rewrite /f0 scale0r.
    by move/Nat.eqb_eq: E => E; move: ge (ltn_ord i); rewrite E leqNgt => /negP.
  rewrite (bigD1 (Ordinal lt)) //= Nat.eqb_refl /f1 scale1r big1 ?addr0 // => i ni.
  case E: (Nat.eqb n i); last by rewrite /f0 scale0r.
  move/Nat.eqb_eq: E => E; case/negP: ni; apply/eqP/val_inj; by rewrite /= E.
- by rewrite big1 // => i _; rewrite /f0 scale0r.
- by rewrite IHa IHb -big_split; apply: eq_bigr => i _; rewrite /fadd scalerDl.
- by rewrite IHa -sumrN; apply: eq_bigr => i _; rewrite /fopp scaleNr.
- by rewrite IHa scaler_sumr; apply: eq_bigr => i _; rewrite /fmul scalerA.
Qed.

Fixpoint mgoals (n : nat) (e1 e2 : mexp) : Prop :=
  match n with
  | O => True
  | S m => mcoef e1 m = mcoef e2 m /\ mgoals m e1 e2
  end.

Lemma mgoals_ok env e1 e2 : mgoals (size env) e1 e2 -> meval env e1 = meval env e2.
Proof.
move=> h; rewrite !meval_sum; apply: eq_bigr => i _; congr (_ *: _).
elim: (size env) h i => [_ []//|n IH /= [h1 h2] i].
case: (ltngtP i n) => [lt| |->//]; first exact: (IH h2 (Ordinal lt)).
by rewrite ltnNge -ltnS ltn_ord.
Qed.
End Lm.

Ltac lm_atoms G t env :=
  lazymatch t with
  | @GRing.zero _ => env
  | @GRing.add _ ?a ?b => let env := lm_atoms G a env in lm_atoms G b env
  | @GRing.opp _ ?a => lm_atoms G a env
  | @GRing.scale _ _ _ ?a => lm_atoms G a env
  | _ =>
    let rec mem e :=
      lazymatch e with
      | @nil _ => constr:(false)
      | cons t _ => constr:(true)
      | cons _ ?r => mem r
      end in
    lazymatch mem env with
    | true => env
    | false => constr:(cons (t : GRing.Lmodule.sort G) env)
    end
  end.

Ltac lm_find t env :=
  lazymatch env with
  | cons t _ => constr:(O)
  | cons (t : _) _ => constr:(O)
  | cons _ ?r => let n := lm_find t r in constr:(S n)
  end.

Ltac lm_reify F G t env :=
  lazymatch t with
  | @GRing.zero _ => constr:(@MZero F)
  | @GRing.add _ ?a ?b =>
      let a' := lm_reify F G a env in let b' := lm_reify F G b env in constr:(@MAdd F a' b')
  | @GRing.opp _ ?a => let a' := lm_reify F G a env in constr:(@MOpp F a')
  | @GRing.scale _ _ ?k ?a =>
      let k' := f_tm F k in let a' := lm_reify F G a env in constr:(@MScale F k' a')
  | _ => let n := lm_find t env in constr:(@MVar F n)
  end.

(** Reduces a linear equation of [G] to one equation of [F] per atom, in the vocabulary of
    [Add Field]. *)
Ltac lm_reduce F G :=
  lazymatch goal with
  | |- @eq _ ?a ?b =>
    let env0 := constr:(@nil (GRing.Lmodule.sort G)) in
    let env1 := lm_atoms G a env0 in
    let env := lm_atoms G b env1 in
    let a' := lm_reify F G a env in
    let b' := lm_reify F G b env in
    change (@eq (GRing.Lmodule.sort G) (@meval F G env a') (@meval F G env b'));
    apply: mgoals_ok;
    cbn [size mgoals mcoef Nat.eqb]; repeat split
  end.
