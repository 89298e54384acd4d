(** Proofs for Verenc/CsModel.v *)
From Coq Require Import ZArith Znumtheory Zdiv Lia Setoid Morphisms.
From mathcomp Require Import ssreflect ssrfun ssrbool eqtype ssrnat seq.
From Verif Require Import Lib.Res Lib.Bytes Core.ModModel Core.ModProofs Gg20.ZkProofs Verenc.CsModel.
Set Implicit Arguments. Unset Strict Implicit. Unset Printing Implicit Defensive.
Local Open Scope Z_scope.

Local Arguments Z.mul : simpl never.
Local Arguments Z.pow : simpl never.
Local Arguments Z.modulo : simpl never.
Arguments cs_mul : simpl never.
Arguments cs_exp : simpl never.
Arguments cs_inv : simpl never.
Arguments hexp : simpl never.
Arguments gexp : simpl never.

(** what a group made from an odd modulus n looks like *)
Record good (pg : group) (n : Z) : Prop := Good {
  gd_n1 : 1 < n; gd_odd : n mod 2 = 1; gd_n : p_n pg = n; gd_n2 : p_n2 pg = n * n;
  gd_d2 : p_n2d2 pg = n * n / 2; gd_nd4 : p_nd4 pg = n / 2; gd_h : p_h pg = n + 1; gd_t : p_tit pg = n + 1;
  gd_g : Z.gcd (p_g pg) (n * n) = 1 }.

Lemma inv2 n t : 1 < n -> mod_inverse 2 n = Some t -> 2 * t = n + 1.
Proof.
move=> hn E; have [hr [h _]] := @mod_inverse_some 2 n t ltac:(lia) E.
have := Z_div_mod_eq_full (2 * t) n; rewrite h Z.mod_small; last lia.
move: (2 * t / n) => k e; have : 0 <= k < 2 by nia.
move=> hk; have : k = 0 \/ k = 1 by lia.
by case=> hk'; move: e; rewrite hk'; lia.
Qed.

Lemma odd_gcd2 n : n mod 2 = 1 -> Z.gcd 2 n = 1.
Proof.
move=> h; rewrite -(Z.gcd_mod n 2) // h; exact: Z.gcd_1_l.
Qed.

Lemma new_groupE p q gt : 1 < p * q -> (p * q) mod 2 = 1 -> Z.gcd gt (p * q) = 1 ->
  exists pg, new_group p q gt = Ok pg /\ good pg (p * q).
Proof.
rewrite /new_group; lazy zeta; set n := p * q => hn ho hg; have h2 : 1 < n * n by nia.
case E: (mod_inverse 2 n) => [t|]; last first.
  by have := @mod_inverse_none 2 n ltac:(lia) E; rewrite odd_gcd2.
rewrite big_exp_nonneg; last lia.
cbn [deref bind]; eexists; split; first by [].
split => //=; first exact: inv2.
apply: (@gcd1_mod (gt ^ (2 * (n * n)))) => //; first by symmetry; apply: cg_mod.
by apply: gcd_pow; [apply: gcd_sq|lia].
Qed.

Section Good.
Variables (pg : group) (n : Z).
Hypothesis hp : good pg n.
Let N := n * n.
Lemma hn1 : 1 < n. Proof. exact: gd_n1 hp. Qed.
Lemma hN1 : 1 < N. Proof. have := hn1; rewrite /N; nia. Qed.

Lemma hexpE m : hexp pg m = Some ((1 + m * n) mod N).
Proof.
rewrite /hexp (gd_h hp) (gd_n2 hp).
have [xi [hx ->]] := big_exp_unit hN1 (gcd_np1 hn1).
by congr Some; apply: cgE; apply: np1_pow.
Qed.

Lemma expE x k : 0 <= k -> cs_exp pg x k = Some (x ^ k mod N).
Proof. by move=> h; rewrite /cs_exp (gd_n2 hp) big_exp_nonneg. Qed.
Lemma gexpE k : 0 <= k -> gexp pg k = Some (p_g pg ^ k mod N).
Proof. by move=> h; rewrite /gexp (gd_n2 hp) big_exp_nonneg. Qed.
Lemma mulE a b : cs_mul pg (Some a) (Some b) = Ok ((a * b) mod N).
Proof. by rewrite /cs_mul (gd_n2 hp). Qed.

(** the i-th component of an honest ciphertext *)
Definition ee (y r m : Z) : Z := (y ^ r * (1 + m * n)) mod N.

Lemma eeE y r m : ee y r m =[N] y ^ r * (1 + m * n). Proof. exact: cg_mod. Qed.

Lemma compute_eE ys ms r : 0 <= r -> (size ms <= size ys)%N ->
  compute_e pg ys ms r = Ok [seq ee ym.1 r ym.2 | ym <- zip ys ms].
Proof.
move=> hr; elim: ms ys => [|m ms IH] [|y ys] //= hs.
rewrite expE // hexpE mulE; cbn [bind]; rewrite IH //; cbn [bind].
by rewrite /ee -Zmult_mod.
Qed.

Lemma hpow m k : 0 <= k -> (1 + m * n) ^ k =[N] 1 + k * m * n.
Proof.
move=> hk; have [xi [hx _]] := big_exp_unit hN1 (gcd_np1 hn1).
have h a : P (n + 1) xi a =[N] 1 + a * n by apply: np1_pow.
rewrite <- (h m), <- (P_mul hx m hk), <- (h (k * m)); exact: cg_refl.
Qed.

Lemma ee_unit y r m : Z.gcd y N = 1 -> 0 <= r -> Z.gcd (ee y r m) N = 1.
Proof.
move=> hy hr; apply: (@gcd1_mod (y ^ r * (1 + m * n))) => //; [exact: hN1|by symmetry; apply: eeE|].
apply: gcd_mul; first exact: gcd_pow.
have [xi [hx _]] := big_exp_unit hN1 (gcd_np1 hn1).
have h := np1_pow m hx.
apply: (gcd1_mod hN1 h).
rewrite /P; case: Z.ltb_spec => hm; apply: gcd_pow; try lia; last by apply: gcd_np1; exact: hn1.
have [u v] : Z.gcd xi N = 1 /\ True; last by [].
split=> //; apply/Zgcd_1_rel_prime; apply: bezout_rel_prime.
apply: (Bezout_intro _ _ _ (n + 1) (- ((n + 1) * xi / N))).
have := Z_div_mod_eq_full ((n + 1) * xi) N; case: hx => ->; rewrite Z.mod_1_l; last exact: hN1.
by lia.
Qed.

Lemma unit_neq0 x : Z.gcd x N = 1 -> x mod N <> 0.
Proof.
move=> h e; have := Z.gcd_mod x N; rewrite e Z.gcd_0_l => /(_ _); have := hN1 => h1 /(_ ltac:(lia)).
by rewrite Z.gcd_comm h; lia.
Qed.

Lemma absE a : cs_abs pg a =[N] a \/ cs_abs pg a =[N] - a.
Proof.
rewrite /cs_abs (gd_n2 hp); case: ifP => _; [right|left]; last exact: cg_mod.
rewrite -/N (_ : N - a mod N = (-1) * (a mod N) + 1 * N); last ring.
rewrite -> (cg_add_mul N ((-1) * (a mod N)) 1), (cg_mod N a).
by apply: cg_eq; ring.
Qed.

Lemma abs_range a : 0 <= cs_abs pg a <= N / 2.
Proof.
rewrite /cs_abs (gd_n2 hp) (gd_d2 hp) -/N.
have := Z.mod_pos_bound a N ltac:(have := hN1; lia).
have oN : N mod 2 = 1 by rewrite /N Zmult_mod (gd_odd hp).
have := Z_div_mod_eq_full N 2; rewrite oN => e.
by case: Z.ltb_spec; lia.
Qed.

Lemma abs_small v : 0 <= v <= N / 2 -> cs_abs pg v = v.
Proof.
move=> h; have h1 := hN1; rewrite /cs_abs (gd_n2 hp) (gd_d2 hp) -/N.
have hv : v < N by have := Z_div_mod_eq_full N 2; have := Z.mod_pos_bound N 2; lia.
rewrite Z.mod_small; last lia.
by case: Z.ltb_spec; lia.
Qed.

Lemma abs_sq a : cs_abs pg a ^ 2 =[N] a ^ 2.
Proof.
case: (absE a) => h; rewrite -> h; first exact: cg_refl.
by apply: cg_eq; ring.
Qed.

Lemma abs_unit a : Z.gcd a N = 1 -> cs_abs pg a <> 0.
Proof.
move=> h e; have := absE a; rewrite e => -[] [].
  by rewrite Zmod_0_l => h0; apply: (unit_neq0 h).
rewrite Zmod_0_l => h0; apply: (@unit_neq0 (- a)); last by [].
by rewrite Z.gcd_opp_l.
Qed.

(** decryption of one component *)
Lemma dec_one u x e m : Z.gcd u N = 1 -> 0 <= x -> e =[N] u ^ x * (1 + m * n) ->
  exists a, cs_mul pg (Some e) (cs_inv pg (u ^ x mod N)) = Ok a /\
    exists mh, [/\ cs_exp pg a (p_tit pg) = Some mh, mh mod n = 1 & (mh mod N - 1) / n = m mod n].
Proof.
move=> hu hx he; have h1 := hn1; have hN := hN1.
have hg : Z.gcd (u ^ x mod N) N = 1.
  apply: (@gcd1_mod (u ^ x)) => //; [by symmetry; apply: cg_mod|exact: gcd_pow].
have [xi [hxi ex]] := gen_inv hN hg.
have Ei : cs_inv pg (u ^ x mod N) = Some xi.
  by move: hxi; rewrite /core_inv /cs_inv (gd_n2 hp); case: mod_inverse => // z [->].
rewrite Ei mulE; eexists; split; first by [].
rewrite (gd_t hp) expE; last lia.
eexists; split; first by [].
- have K : ((e * xi) mod N) ^ (n + 1) =[N] 1 + m * n.
    rewrite -> (cg_mod N (e * xi)), he.
    rewrite (_ : u ^ x * (1 + m * n) * xi = u ^ x * xi * (1 + m * n)); last ring.
    have -> : u ^ x * xi * (1 + m * n) =[N] 1 + m * n.
      rewrite <- (cg_mod N (u ^ x)); rewrite -> ex; rewrite Z.mul_1_l; exact: cg_refl.
    rewrite -> (hpow m (k := n + 1)); last lia.
    by rewrite (_ : 1 + (n + 1) * m * n = 1 + m * n + m * N); [apply: cg_add_mul|rewrite /N; ring].
  case: K => ->; rewrite /N Z.rem_mul_r; try lia.
  rewrite (Z.mul_comm n (_ mod n)) Z_mod_plus_full Zmod_mod Z_mod_plus_full Z.mod_1_l //.
- have K : ((e * xi) mod N) ^ (n + 1) =[N] 1 + m * n.
    rewrite -> (cg_mod N (e * xi)), he.
    rewrite (_ : u ^ x * (1 + m * n) * xi = u ^ x * xi * (1 + m * n)); last ring.
    have -> : u ^ x * xi * (1 + m * n) =[N] 1 + m * n.
      rewrite <- (cg_mod N (u ^ x)); rewrite -> ex; rewrite Z.mul_1_l; exact: cg_refl.
    rewrite -> (hpow m (k := n + 1)); last lia.
    by rewrite (_ : 1 + (n + 1) * m * n = 1 + m * n + m * N); [apply: cg_add_mul|rewrite /N; ring].
  case: K => ->; rewrite Zmod_mod /N Z.rem_mul_r; try lia.
  rewrite Z_mod_plus_full Z.mod_1_l // (_ : (1 + m * n) / n = m).
    by rewrite Z.add_comm Z.add_simpl_r Z.mul_comm Z.div_mul //; lia.
  by rewrite Z.div_add ?Z.div_1_l //; lia.
Qed.

Lemma dec_loopE u xs es ms : Z.gcd u N = 1 -> all (Z.leb 0) xs -> size es = size ms -> (size es <= size xs)%N ->
  (forall i, (i < size es)%N -> nth 0 es i =[N] u ^ nth 0 xs i * (1 + nth 0 ms i * n)) ->
  dec_loop pg u xs es = Ok [seq m mod n | m <- ms].
Proof.
move=> hu; elim: es xs ms => [|e es IH] [|x xs] [|m ms] //= /andP[/Z.leb_le hx hxs] [hs] hs' h.
rewrite expE //; cbn [deref bind].
have [a [-> [mh [emh h1 h2]]]] := @dec_one u x e m hu hx (h 0%N isT); cbn [deref bind].
rewrite emh; cbn [deref bind].
rewrite (gd_n hp) h1 Z.eqb_refl (gd_n2 hp) h2 (IH xs ms) //.
by move=> i hi; apply: (h i.+1).
Qed.

(** the reconstructed commitments *)
Lemma ver_loopE ys ms bs c r rb :
  all (fun y => Z.gcd y N =? 1) ys -> 0 <= c -> 0 <= r -> 0 <= rb ->
  size ms = size bs -> (size ms <= size ys)%N ->
  ver_loop pg ys [seq ee ym.1 r ym.2 | ym <- zip ys ms]
     [seq schnorr pg bm.1 c bm.2 | bm <- zip bs ms] (2 * c) (2 * (rb - c * r))
  = Ok [seq ee yb.1 (2 * rb) yb.2 | yb <- zip ys [seq 2 * b | b <- bs]].
Proof.
move=> hy hc hr hrb; elim: ms ys bs hy => [|m ms IH] [|y ys] [|b bs] //= /andP[/Z.eqb_eq hy hys] [hs] hs'.
rewrite (@expE (ee y r m)); last lia.
have [yi [hyi ey]] := big_exp_unit hN1 hy.
rewrite {1}/cs_exp (gd_n2 hp) ey mulE; cbn [bind]; rewrite hexpE mulE; cbn [bind].
rewrite IH //; cbn [bind]; congr (Ok (_ :: _)).
rewrite -[RHS]/((y ^ (2 * rb) * (1 + 2 * b * n)) mod N); apply: cgE.
rewrite -> (cg_mod N ((ee y r m ^ (2 * c)) mod N * (P y yi (2 * (rb - c * r)) mod N))).
rewrite -> (cg_mod N (ee y r m ^ (2 * c))), (cg_mod N (P y yi (2 * (rb - c * r)))),
  (cg_mod N (1 + 2 * schnorr pg b c m * n)), (eeE y r m).
rewrite Z.pow_mul_l -Z.pow_mul_r; try lia.
rewrite -> (hpow m (k := 2 * c)); last lia.
rewrite (_ : y ^ (r * (2 * c)) * (1 + 2 * c * m * n) * P y yi (2 * (rb - c * r)) * (1 + 2 * schnorr pg b c m * n)
  = y ^ (r * (2 * c)) * P y yi (2 * (rb - c * r)) * ((1 + 2 * c * m * n) * (1 + 2 * schnorr pg b c m * n))); last ring.
have -> : y ^ (r * (2 * c)) * P y yi (2 * (rb - c * r)) =[N] y ^ (2 * rb).
  rewrite -(@P_nonneg y yi (r * (2 * c))); last nia.
  rewrite <- (P_add hyi); rewrite (_ : r * (2 * c) + 2 * (rb - c * r) = 2 * rb); last ring.
  by rewrite P_nonneg; [exact: cg_refl|lia].
have -> : (1 + 2 * c * m * n) * (1 + 2 * schnorr pg b c m * n) =[N] 1 + 2 * b * n; last exact: cg_refl.
rewrite /schnorr (gd_n2 hp) -/N; have e := Z_div_mod_eq_full (c * m) N.
set q := (c * m) / N in e; set w := (c * m) mod N in e *.
rewrite (_ : (1 + 2 * c * m * n) * (1 + 2 * (b - w) * n)
   = 1 + 2 * b * n + (2 * q * n + 4 * (c * m) * (b - w)) * N); first exact: cg_add_mul.
rewrite (_ : 2 * c * m * n = 2 * (c * m) * n); last ring.
by rewrite e /N; ring.
Qed.
End Good.
