(** The final exponentiation in closed form; it is multiplicative and lands in the cyclotomic
    subgroup. *)
From mathcomp Require Import all_ssreflect all_algebra.
From Coq Require Import Ring_theory Field.
From Verif Require Import Lib.FieldTac Tower.TowerModel Tower.TowerProofs Tower.GtProofs Tower.FrobProofs.
Set Implicit Arguments.
Unset Strict Implicit.
Unset Printing Implicit Defensive.
Import GRing.Theory.
Local Open Scope ring_scope.

(** Textbook final exponentiation, written with powers, the conjugate as the inverse of a unitary
    element, [phi] for x -> x^p and n = |x| for the (negative) curve parameter x = -n:
    t = (conj(a)/a)^(p^2+1), result t^((x-1)^2 (x+p) (x^2+p^2-1) + 3). *)
Section Spec.
Variable F : fieldType.
Variables (phi : fp12 F -> fp12 F) (n : nat).
Definition spec_easy (a ainv : fp12 F) : fp12 F :=
  let b := mul12 (conj12 a) ainv in mul12 (phi (phi b)) b.
Definition powX (y : fp12 F) : fp12 F := conj12 (pow12 y n).
Definition spec_hard (t : fp12 F) : fp12 F :=
  let pow_xm1 y := mul12 (powX y) (conj12 y) in
  let s := pow_xm1 (pow_xm1 t) in
  let r := mul12 (powX s) (phi s) in
  let q := mul12 (mul12 (powX (powX r)) (phi (phi r))) (conj12 r) in
  mul12 q (mul12 t (mul12 t t)).
End Spec.

Section Alg.
Variable F : fieldType.
Add Ring fp12_ring0 : (rth12 F).
Variables E P C : fp12 F -> fp12 F.
Hypothesis EM : forall x y, E (mul12 x y) = mul12 (E x) (E y).
Hypothesis PM : forall x y, P (mul12 x y) = mul12 (P x) (P y).
Hypothesis CM : forall x y, C (mul12 x y) = mul12 (C x) (C y).
Hypothesis EC : forall x, E (C x) = C (E x).
Hypothesis PC : forall x, P (C x) = C (P x).
Hypothesis CC : forall x, C (C x) = x.
Hypothesis EP : forall x, E (P x) = P (E x).
Let U x := mul12 x (C x) = one12 F.
Hypothesis uE : forall x, U x -> U (E x).
Hypothesis uF : forall x, U x -> U (P x).
Lemma hard_alg t : U t ->
  let t5 := mul12 (C (mul12 t t)) (E t) in
  let t6 := mul12 (E (E (E t5))) (mul12 (E t) (E t)) in
  let s0 := mul12 (E t) (C t) in
  let s := mul12 (E s0) (C s0) in
  let r := mul12 (E s) (P s) in
  mul12 (mul12 (mul12 (P (P (mul12 (E t) (E (E t5))))) (P (P (P (mul12 (E t5) t))))) (P (mul12 t6 (C t))))
    (mul12 (mul12 (E t6) (C t5)) t) =
  mul12 (mul12 (mul12 (E (E r)) (P (P r))) (C r)) (mul12 t (mul12 t t)).
Proof.
move=> ut; cbv zeta.
rewrite !(EM, PM, CM, EC, PC, CC, EP).
have u1 := uE ut; have u2 := uE u1; have u3 := uE u2; have u4 := uE u3; have u5 := uE u4.
have v0 := uF ut; have v1 := uF u1; have v2 := uF u2; have v3 := uF u3; have v4 := uF u4.
have w0 := uF v0; have w1 := uF v1; have w2 := uF v2; have w3 := uF v3.
have x0 := uF w0; have x1 := uF w1; have x2 := uF w2.
rewrite /U in ut u1 u2 u3 u4 u5 v0 v1 v2 v3 v4 w0 w1 w2 w3 x0 x1 x2.
ring [ut u1 u2 u3 u4 u5 v0 v1 v2 v3 v4 w0 w1 w2 w3 x0 x1 x2].
Qed.
End Alg.

Section Final.
Variable F : fieldType.
Hypothesis hI : noI F.
Variables (c1 c2 g : fp2 F).
Hypothesis hc : frob_consts c1 c2 g.
Variable xbits : seq bool.
Add Ring fp12_ring : (rth12 F).
Local Notation frob := (frob12 c1 c2 g).
Local Notation n := (bitsVal xbits).
Local Notation E := (@powX F n).
Local Notation cyc := (cyc c1 c2 g).

Lemma EM x y : E (mul12 x y) = mul12 (E x) (E y).
Proof. by rewrite /powX pow12M conj12M. Qed.
Lemma Econj x : E (conj12 x) = conj12 (E x).
Proof. by rewrite /powX !conj_pow. Qed.
Lemma Efrob x : E (frob x) = frob (E x).
Proof. by rewrite /powX -(frob_pow hc) (frob_conj hc). Qed.
Definition unit12 (x : fp12 F) := mul12 x (conj12 x) = one12 F.
Lemma E1 : E (one12 F) = one12 F.
Proof. by rewrite /powX pow121 conj121. Qed.
Lemma uE x : unit12 x -> unit12 (E x).
Proof. by rewrite /unit12 => h; rewrite -Econj -EM h E1. Qed.
Lemma uF x : unit12 x -> unit12 (frob x).
Proof. by rewrite /unit12 => h; rewrite -(frob_conj hc) -(frob12M hc) h (frob121 c1 c2 g). Qed.
Lemma uM x y : unit12 x -> unit12 y -> unit12 (mul12 x y).
Proof.
rewrite /unit12 conj12M => hx hy.
have -> : mul12 (mul12 x y) (mul12 (conj12 x) (conj12 y)) = mul12 (mul12 x (conj12 x)) (mul12 y (conj12 y)) by ring.
rewrite hx hy; ring.
Qed.
Lemma uC x : unit12 x -> unit12 (conj12 x).
Proof. by rewrite /unit12 conj12K => h; rewrite -h; ring. Qed.
Lemma cE x : cyc x -> cyc (E x).
Proof. by move=> h; apply: (cyc_conj hc); apply: (cyc_pow hc). Qed.

Lemma expE y : cyc y -> cyclotomicExp xbits y = E y.
Proof. exact: (cyclotomicExpE hc). Qed.

Ltac cyctac := repeat lazymatch goal with
  | |- FrobProofs.cyc _ _ _ (mul12 _ _) => apply: (cycM hc)
  | |- FrobProofs.cyc _ _ _ (conj12 _) => apply: (cyc_conj hc)
  | |- FrobProofs.cyc _ _ _ (powX _ _) => apply: cE
  | |- FrobProofs.cyc _ _ _ (frob12 _ _ _ _) => apply: (cyc_frob hc)
  | h : FrobProofs.cyc _ _ _ ?x |- FrobProofs.cyc _ _ _ ?x => exact h
  end.
Ltac unitac := repeat lazymatch goal with
  | |- unit12 (mul12 _ _) => apply: uM
  | |- unit12 (conj12 _) => apply: uC
  | |- unit12 (powX _ _) => apply: uE
  | |- unit12 (frob12 _ _ _ _) => apply: uF
  | h : unit12 ?x |- unit12 ?x => exact h
  end.

(** the hard part as the code computes it *)
Definition code_hard (t2 : fp12 F) : fp12 F :=
  let exp := cyclotomicExp xbits in
  let t1 := cyclotomicSquare t2 in
  let t1 := conj12 t1 in
  let t3 := exp t2 in
  let t4 := cyclotomicSquare t3 in
  let t5 := mul12 t1 t3 in
  let t1 := exp t5 in
  let t0 := exp t1 in
  let t6 := exp t0 in
  let t6 := mul12 t6 t4 in
  let t4 := exp t6 in
  let t5 := conj12 t5 in
  let t4 := mul12 t4 t5 in
  let t4 := mul12 t4 t2 in
  let t5 := conj12 t2 in
  let t1 := mul12 t1 t2 in
  let t1 := frob t1 in
  let t1 := frob t1 in
  let t1 := frob t1 in
  let t6 := mul12 t6 t5 in
  let t6 := frob t6 in
  let t3 := mul12 t3 t0 in
  let t3 := frob t3 in
  let t3 := frob t3 in
  let t3 := mul12 t3 t1 in
  let t3 := mul12 t3 t6 in
  mul12 t3 t4.

Lemma hardE t : cyc t -> unit12 t -> code_hard t = spec_hard frob n t.
Proof.
move=> ct ut; rewrite /code_hard.
rewrite !(expE ct).
rewrite !(cyclotomicSquareE hc ct) (cyclotomicSquareE hc (cE ct)).
set t5 := mul12 (conj12 _) (E t).
have c5 : cyc t5 by rewrite /t5; cyctac.
rewrite (expE c5) (expE (cE c5)) (expE (cE (cE c5))).
set t6 := mul12 (E (E (E t5))) _.
have c6 : cyc t6 by rewrite /t6; cyctac.
rewrite (expE c6) /t6 /t5 /spec_hard; cbv zeta beta.
exact: (hard_alg EM (frob12M hc) (@conj12M F) Econj (frob_conj hc) (@conj12K F) Efrob uE uF ut).
Qed.

Lemma hard_cyc t : cyc t -> unit12 t -> cyc (spec_hard frob n t) /\ unit12 (spec_hard frob n t).
Proof.
move=> ct ut; rewrite /spec_hard; split; first by cyctac.
by unitac.
Qed.
Lemma hardM x y : spec_hard frob n (mul12 x y) = mul12 (spec_hard frob n x) (spec_hard frob n y).
Proof. rewrite /spec_hard !(EM, frob12M hc, conj12M); ring. Qed.

Lemma easy_ok a ai : mul12 a ai = one12 F -> cyc (spec_easy frob a ai) /\ unit12 (spec_easy frob a ai).
Proof.
move=> h.
have ub : unit12 (mul12 (conj12 a) ai).
  rewrite /unit12 conj12M conj12K.
  have -> : mul12 (mul12 (conj12 a) ai) (mul12 a (conj12 ai)) =
     mul12 (mul12 a ai) (mul12 (conj12 a) (conj12 ai)) by ring.
  by rewrite -conj12M h conj121; ring.
split; first exact: (easy_cyc hc ub).
by apply: uM => //; apply: uF; apply: uF.
Qed.

Lemma finalE gt a ai : invert12 (zero12 F) a = (ai, true) -> mul12 a ai = one12 F ->
  finalExponentiation frob xbits gt a = spec_hard frob n (spec_easy frob a ai).
Proof.
move=> hi hm; case: (easy_ok hm) => ct ut.
rewrite -(hardE ct ut) /finalExponentiation (frob6E hc) hi /spec_easy /code_hard.
by [].
Qed.
Lemma final_not gt a : (invert12 (zero12 F) a).2 = false ->
  finalExponentiation frob xbits gt a = gt.
Proof. by rewrite /finalExponentiation; case: (invert12 _ a) => ai ok /= ->. Qed.
End Final.
