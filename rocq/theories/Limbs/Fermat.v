(** Fermat's little theorem for the integers of the standard library. *)
From Coq Require Import ZArith Znumtheory Lia.
From mathcomp Require Import all_ssreflect all_fingroup cyclic.
Local Open Scope Z_scope.

Lemma Zexpn (v k : nat) : Z.of_nat (v ^ k)%N = (Z.of_nat v) ^ (Z.of_nat k).
Proof.
elim: k => [|k IH]; first by [].
rewrite expnS Nat2Z.inj_succ Z.pow_succ_r; last exact: Nat2Z.is_nonneg.
by rewrite -IH -Nat2Z.inj_mul.
Qed.
Lemma Zmodn (a b : nat) : (0 < b)%N -> Z.of_nat (a %% b)%N = Z.of_nat a mod Z.of_nat b.
Proof.
move=> b0; apply: (Z.mod_unique _ _ (Z.of_nat (a %/ b)%N)).
- left; split; first exact: Nat2Z.is_nonneg.
  by apply: inj_lt; apply/ltP; rewrite ltn_mod.
- rewrite {1}(divn_eq a b) -Nat2Z.inj_mul -Nat2Z.inj_add; congr Z.of_nat.
  by rewrite mulnC.
Qed.

Lemma prime_nat (p : Z) : Znumtheory.prime p -> prime.prime (Z.to_nat p).
Proof.
move=> hp; have p1 := prime_ge_2 _ hp.
have e : Z.of_nat (Z.to_nat p) = p by apply: Z2Nat.id; lia.
apply/primeP; split.
- by apply/ltP; apply/Nat2Z.inj_lt; rewrite e; lia.
- move=> d /dvdnP [k hk].
  have hd : (Z.of_nat d | p) by exists (Z.of_nat k); rewrite -e hk Nat2Z.inj_mul.
  have hn := Nat2Z.is_nonneg d.
  have [h|[h|[h|h]]] := prime_divisors _ hp _ hd; try by exfalso; lia.
  + by apply/orP; left; apply/eqP; apply: Nat2Z.inj; rewrite h.
  + by apply/orP; right; apply/eqP; apply: Nat2Z.inj; rewrite h.
Qed.

Theorem fermatZ (p v : Z) : Znumtheory.prime p -> 0 < v < p -> v ^ (p - 1) mod p = 1.
Proof.
move=> hp hv; have p1 := prime_ge_2 _ hp; have hpn := prime_nat _ hp.
have e : Z.of_nat (Z.to_nat p) = p by apply: Z2Nat.id; lia.
have ev : Z.of_nat (Z.to_nat v) = v by apply: Z2Nat.id; lia.
set P := Z.to_nat p in hpn e; set V := Z.to_nat v in ev.
have c : coprime V P.
  rewrite coprime_sym prime_coprime //; apply/negP => /dvdnP [k hk].
  have : v = Z.of_nat k * p by rewrite -ev hk Nat2Z.inj_mul e.
  have := Nat2Z.is_nonneg k; case: (Z.eq_dec (Z.of_nat k) 0) => [->|n] ? h; first by lia.
  have h1 : 1 <= Z.of_nat k by lia.
  by have := Z.mul_le_mono_nonneg_r 1 (Z.of_nat k) p; lia.
have P0 : (0 < P)%N := prime_gt0 hpn.
have := Euler_exp_totient c; rewrite totient_prime // => /(congr1 Z.of_nat).
rewrite !Zmodn // Zexpn e ev.
have -> : Z.of_nat P.-1 = p - 1 by rewrite -e -[in RHS](prednK P0) Nat2Z.inj_succ; lia.
by move=> ->; rewrite Z.mod_small //; lia.
Qed.
