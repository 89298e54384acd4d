From mathcomp Require Import all_ssreflect all_algebra zify.
From Verif Require Import Gennaro.Spec.
Set Implicit Arguments.
Unset Strict Implicit.
Unset Printing Implicit Defensive.
Import GRing.Theory.
Local Open Scope ring_scope.

Section C.
Variable n : nat.
Notation covers := (covers n).

Lemma covers_perm i l : (1 <= i <= n)%N -> covers i l ->
  perm_eq (i :: [seq j <- l | j != i]) (index_iota 1 n.+1).
Proof.
move=> hi [ul hl]; apply: uniq_perm.
- by rewrite /= mem_filter eqxx /= filter_uniq.
- exact: iota_uniq.
move=> j; rewrite inE mem_filter mem_index_iota; case: (j =P i) => [->|/eqP nj] /=; first by lia.
by rewrite hl //; lia.
Qed.

Lemma covers_sum (R : zmodType) (f : nat -> R) i l : (1 <= i <= n)%N -> covers i l ->
  f i + \sum_(j <- l | j != i) f j = \sum_(1 <= j < n.+1) f j.
Proof. by move=> hi hl; rewrite -(perm_big _ (covers_perm hi hl)) /= big_cons big_filter. Qed.

Lemma covers_size i l : (1 <= i <= n)%N -> covers i l -> i \notin l -> (size l).+1 = n.
Proof.
move=> hi hl ni; have := perm_size (covers_perm hi hl); rewrite /= size_iota subn1 /=.
by rewrite (_ : [seq j <- l | j != i] = l) //; apply/all_filterP/allP => j hj; apply: contra ni => /eqP <-.
Qed.

Lemma covers_size_le i l : (1 <= i <= n)%N -> covers i l -> (n.-1 <= size l <= n)%N.
Proof.
move=> hi hl; have := perm_size (covers_perm hi hl); rewrite /= size_iota subn1 /= => <- /=.
case: hl => ul hl; have := count_predC (fun j => j != i) l; rewrite size_filter.
have -> : count (predC (fun j => j != i)) l = count_mem i l by apply: eq_count => j /=; rewrite negbK.
by rewrite count_uniq_mem //; case: (i \in l) => /= <-; lia.
Qed.

Lemma covers_nil i l : (2 <= n)%N -> (1 <= i <= n)%N -> covers i l -> (size l == 0)%N = false.
Proof. by move=> n2 hi /(covers_size_le hi); lia. Qed.
End C.
