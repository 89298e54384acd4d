(** Lagrange interpolation over an arbitrary field. *)
From mathcomp Require Import all_ssreflect all_algebra.
Set Implicit Arguments.
Unset Strict Implicit.
Unset Printing Implicit Defensive.
Import GRing.Theory.
Local Open Scope ring_scope.

Section Lagrange.
Variable F : fieldType.
Variable n : nat.
Variable x : 'I_n -> F.
Hypothesis x_inj : injective x.

Definition lbasis (i : 'I_n) : {poly F} :=
  \prod_(j < n | j != i) ((x i - x j)^-1 *: ('X - (x j)%:P)).

Definition linterp (y : 'I_n -> F) : {poly F} := \sum_(i < n) y i *: lbasis i.

Lemma xneq i j : j != i -> x i - x j != 0.
Proof. by move=> h; rewrite subr_eq0; apply: contra h => /eqP/x_inj ->. Qed.

Lemma size_lbasis i : (size (lbasis i) <= n)%N.
Proof.
rewrite /lbasis scaler_prod; apply: leq_trans (size_scale_leq _ _) _.
rewrite -big_filter size_prod_XsubC -[X in (_ <= X)%N](card_ord n) (cardD1 i) inE add1n ltnS.
rewrite -sum1_card -sum1_size big_filter leq_eqVlt; apply/orP; left.
by apply/eqP/eq_bigl => j; rewrite !inE andbT.
Qed.

Lemma lbasis_eval i k : (lbasis i).[x k] = (i == k)%:R.
Proof.
rewrite /lbasis horner_prod; case: eqP => [<-|/eqP ne].
  rewrite big1 // => j nj; rewrite hornerZ !hornerE mulVf //; exact: xneq.
rewrite (bigD1 k) /=; last by rewrite eq_sym.
by rewrite hornerZ !hornerE subrr mulr0 mul0r.
Qed.

Lemma size_linterp y : (size (linterp y) <= n)%N.
Proof.
apply: leq_trans (size_sum _ _ _) _; apply/bigmax_leqP => i _.
apply: leq_trans (size_scale_leq _ _) _; exact: size_lbasis.
Qed.

Lemma linterp_eval y k : (linterp y).[x k] = y k.
Proof.
rewrite /linterp horner_sum (bigD1 k) //= hornerZ lbasis_eval eqxx mulr1.
by rewrite big1 ?addr0 // => i ni; rewrite hornerZ lbasis_eval (negbTE ni) mulr0.
Qed.

Lemma poly_ext (f h : {poly F}) :
  (size f <= n)%N -> (size h <= n)%N -> (forall i, f.[x i] = h.[x i]) -> f = h.
Proof.
move=> sf sh e; apply/eqP; rewrite -subr_eq0.
apply/eqP; apply: (@roots_geq_poly_eq0 _ _ [seq x i | i <- enum 'I_n]).
- by apply/allP => _ /mapP[i _ ->]; rewrite /root !hornerE e subrr.
- by rewrite map_inj_uniq ?enum_uniq.
- rewrite size_map size_enum_ord; apply: leq_trans (size_add _ _) _.
  by rewrite geq_max sf size_opp.
Qed.

Lemma lagrange_eval (f : {poly F}) z : (size f <= n)%N ->
  f.[z] = \sum_(i < n) f.[x i] * \prod_(j < n | j != i) ((z - x j) / (x i - x j)).
Proof.
move=> sf.
have -> : f = linterp (fun i => f.[x i]).
  by apply: poly_ext => // [|i]; [exact: size_linterp | rewrite linterp_eval].
rewrite {1}/linterp horner_sum; apply: eq_bigr => i _.
rewrite hornerZ linterp_eval; congr (_ * _).
by rewrite horner_prod; apply: eq_bigr => j _; rewrite hornerZ !hornerE mulrC.
Qed.

(** value at 0, in the form used by the code: prod x_j / prod (x_j - x_i) *)
Lemma lagrange_at0 (f : {poly F}) : (size f <= n)%N ->
  f.[0] = \sum_(i < n) f.[x i] *
     ((\prod_(j < n | j != i) x j) / (\prod_(j < n | j != i) (x j - x i))).
Proof.
move=> sf; rewrite (lagrange_eval _ sf); apply: eq_bigr => i _; congr (_ * _).
rewrite -prodf_div; apply: eq_bigr => j _.
by rewrite sub0r -[x i - x j]opprB invrN mulrN mulNr opprK.
Qed.

End Lagrange.

(** the same over a list of distinct ids *)
Lemma lagrange_seq (F : fieldType) (S : seq nat) (x : nat -> F) (f : {poly F}) :
  uniq S -> {in S &, injective x} -> (size f <= size S)%N ->
  f.[0] = \sum_(i <- S) f.[x i] * \prod_(j <- S | j != i) (x j / (x j - x i)).
Proof.
move=> uS xi sf; pose y (i : 'I_(size S)) := x (nth 0%N S i).
have yi : injective y.
  by move=> i j /xi; rewrite !mem_nth // => /(_ isT isT) /eqP; rewrite nth_uniq // => /eqP/val_inj.
rewrite (lagrange_at0 yi sf) (big_nth 0%N) big_mkord; apply: eq_bigr => i _; congr (_ * _).
rewrite -prodf_div (big_nth 0%N) big_mkord; apply: eq_bigl => j.
by rewrite nth_uniq.
Qed.
