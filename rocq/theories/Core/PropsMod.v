(** Property theorems for pkg/core/mod.go. *)
From Coq Require Import ZArith List Lia.
From mathcomp Require Import ssreflect ssrfun ssrbool eqtype ssrnat seq.
From Verif Require Import Lib.Res Lib.Bytes Core.ModModel Core.ModProofs.
Local Delimit Scope Z_scope with ZZ.
Local Open Scope Z_scope.

(** [z] is the canonical residue of [x] modulo [m] *)
Definition residue_of (z x m : Z) : Prop := 0 <= z < Z.abs m /\ exists k, x = z + k * m.

Lemma big_mod_residue x m : m <> 0 -> exists z, big_mod x m = Ok z /\ residue_of z x m.
Proof.
move=> h; rewrite /big_mod; have -> : (m =? 0) = false by apply Z.eqb_neq.
exists (x mod Z.abs m); split=> //; split; first by apply: Z.mod_pos_bound; lia.
exists (x / Z.abs m * Z.sgn m).
have e := Z_div_mod_eq_full x (Z.abs m).
have a : Z.sgn m * m = Z.abs m by rewrite Z.mul_comm Z.sgn_abs.
rewrite -Z.mul_assoc a; lia.
Qed.

(** C24: Add, Mul and Neg return the canonical residue of the sum, product and opposite (the exact value
    without a modulus), for every modulus but 0. *)
Theorem C24_add_mul_neg : forall x y m : Z, m <> 0 ->
  (exists z, core_add (Some x) (Some y) (Some m) = Ok z /\ residue_of z (x + y) m) /\
  (exists z, core_mul (Some x) (Some y) (Some m) = Ok z /\ residue_of z (x * y) m) /\
  (exists z, core_neg (Some x) (Some m) = Ok z /\ residue_of z (- x) m) /\
  core_add (Some x) (Some y) None = Ok (x + y) /\ core_mul (Some x) (Some y) None = Ok (x * y).
Proof. move=> x y m h; repeat split=> //; exact: big_mod_residue. Qed.
Print Assumptions C24_add_mul_neg.

(** Exp with a positive modulus returns the residue of x^y for y >= 0 and of the |y|-th power of the
    inverse for y < 0. *)
Theorem C24_exp : forall x y m : Z, 0 < m ->
  (0 <= y -> exists z, core_exp (Some x) (Some y) (Some m) = Ok (Some z) /\ residue_of z (x ^ y) m) /\
  (y < 0 -> Z.gcd x m = 1 -> exists i z, (x * i) mod m = 1 mod m /\
     core_exp (Some x) (Some y) (Some m) = Ok (Some z) /\ residue_of z (i ^ (- y)) m).
Proof.
move=> x y m m0; have res w : residue_of (w mod m) w m.
  split; first by rewrite Z.abs_eq; [apply: Z.mod_pos_bound | lia].
  exists (w / m); have := Z_div_mod_eq_full w m; lia.
split=> hy; rewrite /core_exp /big_exp.
  have -> : (y <? 0) = false by apply Z.ltb_ge.
  by exists ((x ^ y) mod m).
have -> : (y <? 0) = true by apply Z.ltb_lt.
move=> g1; case E: mod_inverse => [i|].
  have [_ [h _]] := mod_inverse_some _ _ _ m0 E.
  by exists i, ((i ^ (- y)) mod m).
by case: (mod_inverse_none _ _ m0 E).
Qed.
Print Assumptions C24_exp.

(** Inv returns the inverse in [0,m) when gcd(x,m) = 1 and an error otherwise. *)
Theorem C24_inv : forall x m : Z, 0 < m ->
  (Z.gcd x m = 1 -> exists z, core_inv (Some x) (Some m) = Ok z /\ 0 <= z < m /\ (x * z) mod m = 1 mod m /\
     forall w, 0 <= w < m -> (x * w) mod m = 1 mod m -> w = z) /\
  (Z.gcd x m <> 1 -> core_inv (Some x) (Some m) = Err).
Proof.
move=> x m m0; rewrite /core_inv; case E: mod_inverse => [z|]; split=> // h.
- have [a [b c]] := mod_inverse_some _ _ _ m0 E; exists z; do 3!split=> //.
  by move=> w hw ew; apply: mod_inverse_unique E hw ew.
- by have [a [b c]] := mod_inverse_some _ _ _ m0 E.
- by case: (mod_inverse_none _ _ m0 E).
Qed.
Print Assumptions C24_inv.

(** Finding: a negative exponent with a non-invertible base gives a nil result and a nil error. *)
Theorem C24_exp_nil_without_error : forall x y m : Z, 0 < m -> y < 0 -> Z.gcd x m <> 1 ->
  core_exp (Some x) (Some y) (Some m) = Ok None.
Proof.
move=> x y m m0 hy g; rewrite /core_exp /big_exp; have -> : (y <? 0) = true by apply Z.ltb_lt.
by case E: mod_inverse => [z|] //; have [_ [_ h]] := mod_inverse_some _ _ _ m0 E.
Qed.
Print Assumptions C24_exp_nil_without_error.

(** nil arguments are errors; In is membership in [0,m); ConstantTimeEq is equality. *)
Theorem C24_in_and_equality :
  (forall x m, core_in (Some x) (Some m) = Ok tt <-> 0 <= x < m) /\
  (forall a b : option Z, ct_eq a b = true <-> a = b) /\
  (forall y m, core_add None y m = Err /\ core_add y None m = Err /\ core_mul None y m = Err /\
     core_mul y None m = Err /\ core_exp None y m = Err /\ core_exp y None m = Err /\
     core_neg None m = Err /\ core_neg m None = Err /\ core_inv None m = Err /\ core_inv m None = Err /\
     core_in None m = Err /\ core_in m None = Err).
Proof.
split; first by move=> x m; rewrite /core_in; case: Z.leb_spec; case: Z.ltb_spec => /=; split=> //; lia.
split; last by move=> [y|] [m|].
move=> [a|] [b|] //=; split=> //; last first.
  by move=> [->]; rewrite eqxx Z.eqb_refl.
case/andP => /eqP /(f_equal be_val); rewrite !be_bytesK => e /Z.eqb_eq s; f_equal.
have : Z.abs a = Z.abs b by rewrite -!Zabs2Nat.id_abs !Zabs2Nat.id_abs; lia.
move: s; case: (Z.sgn_spec a) => [[? ->]|[[? ->]|[? ->]]]; case: (Z.sgn_spec b) => [[? ->]|[[? ->]|[? ->]]]; lia.
Qed.
Print Assumptions C24_in_and_equality.

(** A value returned by Rand(m) lies in [2, m), and for m <= 2 the loop never ends. *)
Theorem C24_rand : forall (m : Z) (draws : nat -> Z), (forall k, 0 <= draws k < m) -> forall fuel k,
  (forall v, core_rand fuel draws k = Some v -> 2 <= v < m) /\
  (m <= 2 -> core_rand fuel draws k = None).
Proof.
move=> m draws hd; elim=> [|f IH] k //=.
have := hd k; case: Z.gtb_spec => h d; split; try by move=> *; lia.
- by move=> v [<-]; lia.
- by have [H _] := IH (S k).
- by have [_ H] := IH (S k).
Qed.
Print Assumptions C24_rand.

Example C24_hyps : core_inv (Some 3) (Some 10) = Ok 7 /\ core_inv (Some 4) (Some 10) = Err /\
  core_add (Some (-7)) (Some 3) (Some 10) = Ok 6 /\ core_exp (Some 3) (Some (-2)) (Some 10) = Ok (Some 9)
  /\ core_exp (Some 4) (Some (-2)) (Some 10) = Ok None.
Proof. by vm_compute. Qed.
