From Coq Require Import ZArith List Lia Znumtheory.
From mathcomp Require Import ssreflect ssrfun ssrbool eqtype ssrnat seq.
From Verif Require Import Lib.Res Lib.Bytes Core.ModModel.
Local Delimit Scope Z_scope with ZZ.
Local Open Scope Z_scope.

Lemma egcd_bezout f a b : let '(d, u, v) := egcd f a b in u * a + v * b = d.
Proof.
elim: f a b => [|f IH] a b; cbn [egcd]; first by ring.
case E: (b =? 0); first by ring.
have := IH b (a mod b); case: egcd => [[d u] v] h.
rewrite -h; have := Z_div_mod_eq_full a b; move=> e; rewrite {1}e; ring.
Qed.

Lemma egcd_gcd f a b : 0 <= a -> 0 <= b -> b < Z.of_nat f -> fst (fst (egcd f a b)) = Z.gcd a b.
Proof.
elim: f a b => [|f IH] a b ha hb hf; cbn [egcd]; first by lia.
case E: (b =? 0).
  apply Z.eqb_eq in E; subst b; rewrite Z.gcd_0_r /=; lia.
apply Z.eqb_neq in E.
have hm : 0 <= a mod b < b by apply: Z.mod_pos_bound; lia.
have := IH b (a mod b) hb (proj1 hm); case: egcd => [[d u] v] /= ->; last by lia.
by rewrite Z.gcd_comm Z.gcd_mod // Z.gcd_comm.
Qed.

Lemma mod_inverse_some g n z : 0 < n -> mod_inverse g n = Some z ->
  0 <= z < n /\ (g * z) mod n = 1 mod n /\ Z.gcd g n = 1.
Proof.
move=> n0; rewrite /mod_inverse.
have := egcd_bezout (S (Z.to_nat n)) (g mod n) n.
have := egcd_gcd (S (Z.to_nat n)) (g mod n) n.
case: egcd => [[d u] v] /= hg hb; case E: (d =? 1) => // -[<-]; apply Z.eqb_eq in E.
have hm : 0 <= g mod n < n by apply: Z.mod_pos_bound.
split; first by apply: Z.mod_pos_bound.
split; last by rewrite Z.gcd_comm -Z.gcd_mod; [rewrite -E hg; lia | lia].
rewrite Z.mul_mod_idemp_r; last by lia.
rewrite -Z.mul_mod_idemp_l; last by lia.
rewrite -E -hb Z.mul_comm Z.add_mod; last by lia.
rewrite Z.mod_mul; last by lia.
by rewrite Z.add_0_r Z.mod_mod //; lia.
Qed.

Lemma mod_inverse_none g n : 0 < n -> mod_inverse g n = None -> Z.gcd g n <> 1.
Proof.
move=> n0; rewrite /mod_inverse.
have := egcd_gcd (S (Z.to_nat n)) (g mod n) n.
case: egcd => [[d u] v] /= hg; case E: (d =? 1) => // _; apply Z.eqb_neq in E.
have hm : 0 <= g mod n < n by apply: Z.mod_pos_bound.
move=> h; apply: E; rewrite hg; try lia.
by rewrite Z.gcd_mod; [rewrite Z.gcd_comm | lia].
Qed.

Lemma mod_inverse_unique g n z w : 0 < n -> mod_inverse g n = Some z ->
  0 <= w < n -> (g * w) mod n = 1 mod n -> w = z.
Proof.
move=> n0 /(mod_inverse_some _ _ _ n0) [hz [ez _]] hw ew.
have e : (z * (g * w)) mod n = (w * (g * z)) mod n by f_equal; ring.
have l : (z * (g * w)) mod n = z.
  rewrite -Z.mul_mod_idemp_r; last by lia.
  rewrite ew Z.mul_mod_idemp_r; last by lia.
  by rewrite Z.mul_1_r Z.mod_small.
have r : (w * (g * z)) mod n = w.
  rewrite -Z.mul_mod_idemp_r; last by lia.
  rewrite ez Z.mul_mod_idemp_r; last by lia.
  by rewrite Z.mul_1_r Z.mod_small.
by rewrite -r -e l.
Qed.
