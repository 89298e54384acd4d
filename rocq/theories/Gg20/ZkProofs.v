(** Proofs for Gg20/ZkModel.v *)
From Coq Require Import ZArith Znumtheory Zdiv Lia Setoid Morphisms.
From mathcomp Require Import ssreflect ssrfun ssrbool eqtype ssrnat seq ssralg.
From Verif Require Import Lib.Res Core.ModModel Core.ModProofs Gg20.ZkModel.
Set Implicit Arguments. Unset Strict Implicit. Unset Printing Implicit Defensive.
Local Open Scope Z_scope.

(** congruence modulo n, as an inductive so that rewriting does not see through it *)
Inductive cg (n a b : Z) : Prop := Cg of a mod n = b mod n.
Notation "a =[ n ] b" := (cg n a b) (at level 70, n at level 200, b at next level, no associativity, format "a  =[ n ]  b").
Lemma cgE n a b : a =[n] b -> a mod n = b mod n. Proof. by case. Qed.
#[global] Instance cg_equiv n : Equivalence (cg n).
Proof.
split; first by split.
- by move=> a b [h]; split.
- by move=> a b c [h] [h']; split; rewrite h.
Qed.
#[global] Instance add_proper n : Proper (cg n ==> cg n ==> cg n) Z.add.
Proof. by move=> a b [h] c d [h']; split; rewrite Zplus_mod h h' -Zplus_mod. Qed.
#[global] Instance mul_proper n : Proper (cg n ==> cg n ==> cg n) Z.mul.
Proof. by move=> a b [h] c d [h']; split; rewrite Zmult_mod h h' -Zmult_mod. Qed.

Lemma cg_refl n a : a =[n] a. Proof. by split. Qed.
Hint Resolve cg_refl : core.
Lemma cg_pow n a b k : a =[n] b -> a ^ k =[n] b ^ k.
Proof.
move=> h; case: (Z.le_gt_cases 0 k) => hk; last by rewrite !Z.pow_neg_r.
move: k hk; apply: natlike_ind => [|k hk IH]; first by [].
by rewrite !Z.pow_succ_r //; rewrite -> IH, h.
Qed.
#[global] Instance pow_proper n : Proper (cg n ==> eq ==> cg n) Z.pow.
Proof. by move=> a b h k _ <-; apply: cg_pow. Qed.

Lemma cg_mod n a : a mod n =[n] a.
Proof. by split; rewrite Zmod_mod. Qed.
Lemma cg_eq n a b : a = b -> a =[n] b.
Proof. by move=> ->. Qed.
Lemma cg_add_mul n a b : a + b * n =[n] a.
Proof. by split; rewrite Z_mod_plus_full. Qed.

(** powers with an exponent of either sign, [xi] an inverse of [x] *)
Definition P (x xi y : Z) : Z := if y <? 0 then xi ^ (- y) else x ^ y.

Lemma P_nonneg x xi y : 0 <= y -> P x xi y = x ^ y.
Proof. by rewrite /P => h; case: Z.ltb_spec => //; lia. Qed.

Section Pow.
Variables (n x xi : Z).
Hypothesis hx : x * xi =[n] 1.

Lemma P_succ a : P x xi (a + 1) =[n] P x xi a * x.
Proof.
rewrite /P; case: (Z.ltb_spec a 0) => ha; last first.
  by case: (Z.ltb_spec (a + 1) 0) => h; [lia|rewrite Z.pow_add_r ?Z.pow_1_r; try lia].
have e : - a = Z.succ (- (a + 1)) by lia.
case: (Z.ltb_spec (a + 1) 0) => h.
  rewrite e Z.pow_succ_r; last lia.
  rewrite (_ : xi * xi ^ (- (a + 1)) * x = xi ^ (- (a + 1)) * (x * xi)); last ring.
  rewrite -> hx; rewrite Z.mul_1_r; exact: cg_refl.
have -> : a = -1 by lia.
change (1 =[n] xi ^ 1 * x); rewrite Z.pow_1_r Z.mul_comm; symmetry; exact: hx.
Qed.

Lemma P_pred a : P x xi (a - 1) =[n] P x xi a * xi.
Proof.
have h := P_succ (a - 1); rewrite (_ : a - 1 + 1 = a) in h; last lia.
rewrite -> h; rewrite (_ : P x xi (a - 1) * x * xi = P x xi (a - 1) * (x * xi)); last ring.
rewrite -> hx; rewrite Z.mul_1_r; exact: cg_refl.
Qed.

Lemma P_add a b : P x xi (a + b) =[n] P x xi a * P x xi b.
Proof.
move: b; apply: Z.peano_ind => [|b IH|b IH].
- by rewrite Z.add_0_r (_ : P x xi 0 = 1) // Z.mul_1_r.
- rewrite (_ : a + Z.succ b = a + b + 1); last lia.
  rewrite -> P_succ, IH; rewrite -Z.add_1_r; rewrite -> P_succ.
  by rewrite Z.mul_assoc.
- rewrite (_ : a + Z.pred b = a + b - 1); last lia.
  rewrite -> P_pred, IH; rewrite -Z.sub_1_r; rewrite -> P_pred.
  by rewrite Z.mul_assoc.
Qed.

Lemma P_mul e a : 0 <= e -> P x xi (e * a) =[n] P x xi a ^ e.
Proof.
move=> he; move: e he; apply: natlike_ind => [|e he IH]; first by [].
rewrite (_ : Z.succ e * a = a + e * a); last lia.
rewrite -> P_add, IH; rewrite Z.pow_succ_r //; exact: cg_refl.
Qed.
End Pow.

Lemma big_exp_unit n x : 1 < n -> Z.gcd x n = 1 ->
  exists xi, x * xi =[n] 1 /\ forall y, big_exp x y (Some n) = Some (P x xi y mod n).
Proof.
move=> hn hg; case E: (mod_inverse x n) => [xi|]; last by have := @mod_inverse_none x n ltac:(lia) E.
have [_ [h _]] := @mod_inverse_some x n xi ltac:(lia) E.
by exists xi; split; [split|move=> y; rewrite /big_exp /P E; case: ifP].
Qed.

Lemma big_exp_nonneg n x y : 0 <= y -> big_exp x y (Some n) = Some (x ^ y mod n).
Proof. by move=> h; rewrite /big_exp; case: Z.ltb_spec => //; lia. Qed.

Lemma core_mulE a b n : 0 < n -> core_mul (Some a) (Some b) (Some n) = Ok ((a * b) mod n).
Proof. by move=> h; rewrite /core_mul /big_mod; case: Z.eqb_spec => [?|_]; [lia|rewrite Z.abs_eq; last lia]. Qed.

Lemma gcd1_mod a b n : 1 < n -> a =[n] b -> Z.gcd a n = 1 -> Z.gcd b n = 1.
Proof.
move=> hn [h]; rewrite Z.gcd_comm -Z.gcd_mod; last lia.
by rewrite h Z.gcd_mod; [rewrite Z.gcd_comm|lia].
Qed.

Lemma ct_eqE a : ct_eq (Some a) (Some a) = true.
Proof. by rewrite /ct_eq eqxx Z.eqb_refl. Qed.

Lemma cg_inv_unique n x a b : x * a =[n] 1 -> x * b =[n] 1 -> a =[n] b.
Proof.
move=> ha hb; have h : a =[n] a * (x * b) by rewrite -> hb; rewrite Z.mul_1_r; exact: cg_refl.
rewrite -> h; rewrite (_ : a * (x * b) = (x * a) * b); last ring.
rewrite -> ha; rewrite Z.mul_1_l; exact: cg_refl.
Qed.

(** (N+1)^a = 1 + a N modulo N^2, for exponents of either sign *)
Lemma np1_pow N xi a : (N + 1) * xi =[N * N] 1 -> P (N + 1) xi a =[N * N] 1 + a * N.
Proof.
move=> hx; have hi : xi =[N * N] 1 - N.
  apply: (cg_inv_unique hx); rewrite (_ : (N + 1) * (1 - N) = 1 + -1 * (N * N)); last ring.
  exact: cg_add_mul.
move: a; apply: Z.peano_ind => [|a IH|a IH]; first by [].
  rewrite -Z.add_1_r; rewrite -> (P_succ hx), IH.
  rewrite (_ : (1 + a * N) * (N + 1) = 1 + (a + 1) * N + a * (N * N)); last ring.
  exact: cg_add_mul.
rewrite -Z.sub_1_r; rewrite -> (P_pred hx), IH, hi.
rewrite (_ : (1 + a * N) * (1 - N) = 1 + (a - 1) * N + (- a) * (N * N)); last ring.
exact: cg_add_mul.
Qed.

(** N-th powers modulo N^2 depend only on the base modulo N *)
Lemma powN_mod N a b : 0 <= N -> a =[N] b -> a ^ N =[N * N] b ^ N.
Proof.
move=> hN h; have [c ->] : exists c, a = b + c * N.
  case: (Z.eq_dec N 0) => [e|nz]; first by case: h; rewrite e !Zmod_0_r => ->; exists 0; lia.
  exists ((a / N) - (b / N)); have := Z_div_mod_eq_full a N; have := Z_div_mod_eq_full b N; case: h => <-; lia.
have H : forall k, 0 <= k -> (b + c * N) ^ k =[N * N] b ^ k + k * b ^ (k - 1) * c * N.
  apply: natlike_ind => [|k hk IH]; first by [].
  rewrite !Z.pow_succ_r //; rewrite -> IH.
  rewrite (_ : Z.succ k - 1 = k); last lia.
  case: (Z.eq_dec k 0) => [->|nk].
    by apply: cg_eq; rewrite !Z.pow_0_r; ring.
  have e : b ^ k = b * b ^ (k - 1) by rewrite -Z.pow_succ_r; [f_equal; lia|lia].
  rewrite (_ : (b + c * N) * (b ^ k + k * b ^ (k - 1) * c * N) =
     b * b ^ k + Z.succ k * b ^ k * c * N + (c * k * b ^ (k - 1) * c) * (N * N)).
    exact: cg_add_mul.
  rewrite e /Z.succ; ring.
rewrite -> (H N hN); rewrite (_ : N * b ^ (N - 1) * c * N = (b ^ (N - 1) * c) * (N * N)); last ring.
exact: cg_add_mul.
Qed.

Lemma gcd_np1 N : 1 < N -> Z.gcd (N + 1) (N * N) = 1.
Proof.
move=> h; apply/Zgcd_1_rel_prime; apply: rel_prime_mult; apply: rel_prime_sym;
apply/Zgcd_1_rel_prime; rewrite (_ : N + 1 = 1 + 1 * N) ?Z.gcd_add_mult_diag_r ?Z.gcd_1_r //; lia.
Qed.

Lemma gcd_mul a b n : Z.gcd a n = 1 -> Z.gcd b n = 1 -> Z.gcd (a * b) n = 1.
Proof.
move=> ha hb; rewrite Z.gcd_comm; apply/Zgcd_1_rel_prime; apply: rel_prime_mult; apply: rel_prime_sym;
by apply/Zgcd_1_rel_prime.
Qed.

Lemma gcd_pow x n k : Z.gcd x n = 1 -> 0 <= k -> Z.gcd (x ^ k) n = 1.
Proof.
move=> h; move: k; apply: natlike_ind => [|k hk IH]; first by rewrite Z.gcd_1_l.
by rewrite Z.pow_succ_r //; apply: gcd_mul.
Qed.

Lemma gcd_sq a n : Z.gcd a n = 1 -> Z.gcd a (n * n) = 1.
Proof. by move=> h; rewrite Z.gcd_comm; apply: gcd_mul; rewrite Z.gcd_comm. Qed.

Lemma incE a s N : 1 < N -> inc a s N = Ok (((1 + a * N) * s ^ N) mod (N * N)).
Proof.
move=> hN; have h2 : 1 < N * N by nia.
have [xi [hx ex]] := big_exp_unit h2 (gcd_np1 hN).
rewrite /inc /pedersen /core_exp ex big_exp_nonneg; last lia.
rewrite /bind core_mulE; last lia.
f_equal; apply: cgE; change (P (N + 1) xi a mod (N * N) * (s ^ N mod (N * N)) =[N * N] (1 + a * N) * s ^ N).
rewrite -> (cg_mod (N * N) (s ^ N)), (cg_mod (N * N) (P (N + 1) xi a)), (np1_pow a hx); exact: cg_refl.
Qed.

Lemma gen_inv n c : 1 < n -> Z.gcd c n = 1 ->
  exists ci, core_inv (Some c) (Some n) = Ok ci /\ c * ci =[n] 1.
Proof.
move=> hn hg; case E: (mod_inverse c n) => [xi|]; last by have := @mod_inverse_none c n ltac:(lia) E.
have [_ [h _]] := @mod_inverse_some c n xi ltac:(lia) E.
by exists xi; rewrite /core_inv E; split=> //; split.
Qed.

Lemma c_hatE N A R beta alpha e C : 1 < N -> Z.gcd R N = 1 -> 0 <= e ->
  C =[N * N] (1 + A * N) * R ^ N ->
  c_hat N (e * A + alpha) ((R ^ e mod N * (beta mod N)) mod N) e C = inc alpha beta N.
Proof.
move=> hN hR he hC; have h2 : 1 < N * N by nia.
have gC : Z.gcd C (N * N) = 1.
  apply: (@gcd1_mod ((1 + A * N) * R ^ N)) => //; first by symmetry.
  apply: gcd_mul; last by apply: gcd_sq; apply: gcd_pow => //; lia.
  by apply: gcd_sq; rewrite Z.gcd_comm Z.gcd_add_mult_diag_r Z.gcd_1_r.
have [ci [eci hci]] := gen_inv h2 gC.
rewrite /c_hat !incE // /bind eci /core_exp big_exp_nonneg // core_mulE; last lia.
f_equal; apply: cgE; set s := (_ mod N)%Z.
change (((1 + (e * A + alpha) * N) * s ^ N) mod (N * N) * (ci ^ e mod (N * N)) =[N * N] (1 + alpha * N) * beta ^ N).
have hs : s ^ N =[N * N] (R ^ N) ^ e * beta ^ N.
  have h1 : s =[N] R ^ e * beta.
    rewrite /s; rewrite -> (cg_mod N (R ^ e mod N * (beta mod N))), (cg_mod N (R ^ e)), (cg_mod N beta); exact: cg_refl.
  rewrite -> (powN_mod (ltac:(lia) : 0 <= N) h1).
  apply: cg_eq; rewrite Z.pow_mul_l -!Z.pow_mul_r; try lia. by rewrite (Z.mul_comm e N).
rewrite -> (cg_mod (N * N) ((1 + (e * A + alpha) * N) * s ^ N)), (cg_mod (N * N) (ci ^ e)), hs.
have [xi [hx _]] := big_exp_unit h2 (gcd_np1 hN).
have hA : 1 + (e * A + alpha) * N =[N * N] (1 + A * N) ^ e * (1 + alpha * N).
  rewrite <- (np1_pow (e * A + alpha) hx), (P_add hx), (P_mul hx) => //.
  rewrite -> (np1_pow A hx), (np1_pow alpha hx); exact: cg_refl.
rewrite -> hA.
rewrite (_ : (1 + A * N) ^ e * (1 + alpha * N) * ((R ^ N) ^ e * beta ^ N) * ci ^ e =
   ((1 + A * N) * R ^ N * ci) ^ e * ((1 + alpha * N) * beta ^ N)); last by rewrite !Z.pow_mul_l; ring.
have h1 : (1 + A * N) * R ^ N * ci =[N * N] 1 by rewrite <- hC.
rewrite -> h1; rewrite Z.pow_1_l // Z.mul_1_l; exact: cg_refl.
Qed.

Lemma pedersenE n x y : 1 < n -> Z.gcd x n = 1 -> Z.gcd y n = 1 ->
  exists xi yi, x * xi =[n] 1 /\ y * yi =[n] 1 /\ forall a b, pedersen x y a b n = Ok ((P x xi a * P y yi b) mod n).
Proof.
move=> hn hx hy; have [xi [ex bx]] := big_exp_unit hn hx; have [yi [ey by_]] := big_exp_unit hn hy.
exists xi, yi; split=> //; split=> // a b.
rewrite /pedersen /core_exp bx by_ /bind core_mulE; last lia.
f_equal; apply: cgE; rewrite -> !cg_mod; exact: cg_refl.
Qed.

Lemma h_hatE dp a rho alpha gamma e z : 1 < dN dp -> Z.gcd (dH1 dp) (dN dp) = 1 -> Z.gcd (dH2 dp) (dN dp) = 1 ->
  0 <= e -> pedersen (dH1 dp) (dH2 dp) a rho (dN dp) = Ok z ->
  h_hat dp (e * a + alpha) (e * rho + gamma) e z = pedersen (dH1 dp) (dH2 dp) alpha gamma (dN dp).
Proof.
case: dp => n x y; cbn [dN dH1 dH2] => hn hx hy he.
have [xi [yi [ex [ey E]]]] := pedersenE hn hx hy.
rewrite /h_hat; cbn [dN dH1 dH2]; rewrite !E => -[<-].
set z0 := P x xi a * P y yi rho.
have gz : Z.gcd (z0 mod n) n = 1.
  apply: (@gcd1_mod z0) => //; first by symmetry; exact: cg_mod.
  have gP : forall u ui k, Z.gcd u n = 1 -> u * ui =[n] 1 -> Z.gcd (P u ui k) n = 1.
    move=> u ui k hu hui; rewrite /P; case: Z.ltb_spec => hk; apply: gcd_pow => //; try lia.
    case: hui => hui; apply/Zgcd_1_rel_prime/bezout_rel_prime.
    apply: (@Bezout_intro _ _ _ u (- ((u * ui) / n))).
    have := Z_div_mod_eq_full (u * ui) n; rewrite hui Z.mod_small; last lia.
    by move=> ?; lia.
  by apply: gcd_mul; apply: gP.
have [zi [ezi hzi]] := gen_inv hn gz.
rewrite /bind ezi /core_exp big_exp_nonneg // core_mulE; last lia.
f_equal; apply: cgE; rewrite -> !cg_mod, (P_add ex), (P_add ey), (P_mul ex _ he), (P_mul ey _ he).
rewrite [X in cg _ X _](_ : _ = (z0 * zi) ^ e * (P x xi alpha * P y yi gamma)); last first.
  by rewrite /z0 !Z.pow_mul_l; ring.
have h1 : z0 * zi =[n] 1 by rewrite <- hzi; rewrite -> cg_mod.
by rewrite -> h1; rewrite Z.pow_1_l // Z.mul_1_l.
Qed.

Lemma v_hat2E N x y r beta alpha gamma e c1 c2 l : 1 < N -> Z.gcd r N = 1 -> Z.gcd c1 N = 1 -> 0 <= e ->
  big_exp c1 x (Some (N * N)) = Some l ->
  c2 =[N * N] l * ((1 + y * N) * r ^ N) ->
  exists a b, big_exp c1 alpha (Some (N * N)) = Some a /\ inc gamma beta N = Ok b /\
  v_hat2 N (e * x + alpha) ((r ^ e mod N * (beta mod N)) mod N) e (e * y + gamma) c1 c2 =
  core_mul (Some a) (Some b) (Some (N * N)).
Proof.
move=> hN hr hc he; have h2 : 1 < N * N by nia.
have gc := gcd_sq hc; have [xi [ex bx]] := big_exp_unit h2 gc.
rewrite bx => -[<-] hc2; rewrite bx incE //; eexists _, _; split; first by []; split; first by [].
have gP : forall k, Z.gcd (P c1 xi k) (N * N) = 1.
  move=> k; rewrite /P; case: Z.ltb_spec => hk; apply: gcd_pow => //; try lia.
  case: ex => hui; apply/Zgcd_1_rel_prime/bezout_rel_prime.
  apply: (@Bezout_intro _ _ _ c1 (- ((c1 * xi) / (N * N)))).
  have := Z_div_mod_eq_full (c1 * xi) (N * N); rewrite hui Z.mod_small; last lia.
  by move=> ?; lia.
have g2 : Z.gcd c2 (N * N) = 1.
  apply: (@gcd1_mod (P c1 xi x * ((1 + y * N) * r ^ N))) => //.
    by symmetry; rewrite -> hc2, cg_mod.
  apply: gcd_mul; first exact: gP.
  apply: gcd_mul; last by apply: gcd_sq; apply: gcd_pow => //; lia.
  by apply: gcd_sq; rewrite Z.gcd_comm Z.gcd_add_mult_diag_r Z.gcd_1_r.
have [ci [eci hci]] := gen_inv h2 g2.
rewrite /v_hat2 incE // /bind eci /pedersen /core_exp bx (big_exp_nonneg _ _ he) /bind.
rewrite !core_mulE; try lia.
f_equal; apply: cgE; set s := (_ mod N)%Z; rewrite -> !cg_mod.
have hs : s ^ N =[N * N] (r ^ N) ^ e * beta ^ N.
  have h1 : s =[N] r ^ e * beta.
    by rewrite /s; rewrite -> !cg_mod.
  rewrite -> (powN_mod (ltac:(lia) : 0 <= N) h1).
  apply: cg_eq; rewrite Z.pow_mul_l -!Z.pow_mul_r; try lia. by rewrite (Z.mul_comm e N).
have [ni [hn _]] := big_exp_unit h2 (gcd_np1 hN).
have hA : 1 + (e * y + gamma) * N =[N * N] (1 + y * N) ^ e * (1 + gamma * N).
  rewrite <- (np1_pow (e * y + gamma) hn), (P_add hn), (P_mul hn) => //.
  by rewrite -> (np1_pow y hn), (np1_pow gamma hn).
rewrite -> hs, hA, (P_add ex), (P_mul ex _ he).
rewrite [X in cg _ X _](_ : _ = (P c1 xi x * ((1 + y * N) * r ^ N) * ci) ^ e *
   (P c1 xi alpha * ((1 + gamma * N) * beta ^ N))); last by rewrite !Z.pow_mul_l; ring.
have h1 : P c1 xi x * ((1 + y * N) * r ^ N) * ci =[N * N] 1.
  by transitivity (c2 * ci) => //; rewrite -> hc2, cg_mod.
by rewrite -> h1; rewrite Z.pow_1_l // Z.mul_1_l.
Qed.

(* ------------------------------------------------------------ points *)
Section Points.
Variable G : zmodType.
Implicit Type P : G.

Lemma smul_nat k P : smul (Z.of_nat k) P = (P *+ k)%R.
Proof. by case: k => [|k] //=; rewrite SuccNat2Pos.id_succ. Qed.

Lemma smul_succ k P : smul (Z.succ k) P = (smul k P + P)%R.
Proof.
case: (Z.le_gt_cases 0 k) => h.
  by rewrite -(Z2Nat.id k) // -Nat2Z.inj_succ !smul_nat GRing.mulrSr.
have -> : k = - Z.of_nat (Z.to_nat (- k)) by rewrite Z2Nat.id; lia.
have : (Z.to_nat (- k) <> 0)%nat by lia.
case: (Z.to_nat (- k)) => [//|n] _.
have -> : Z.succ (- Z.of_nat n.+1) = - Z.of_nat n by lia.
have O : forall m, smul (- Z.of_nat m) P = (- (P *+ m))%R.
  by case=> [|m] /=; rewrite ?GRing.oppr0 ?SuccNat2Pos.id_succ.
by rewrite !O GRing.mulrSr GRing.opprD GRing.addrNK.
Qed.

Lemma smul_add a b P : smul (a + b) P = (smul a P + smul b P)%R.
Proof.
move: b; apply: Z.peano_ind => [|b IH|b IH].
- by rewrite Z.add_0_r /= GRing.addr0.
- by rewrite Z.add_succ_r !smul_succ IH GRing.addrA.
- have h c : smul (Z.pred c) P = (smul c P - P)%R.
    by rewrite -{2}(Z.succ_pred c) smul_succ GRing.addrK.
  by rewrite Z.add_pred_r !h IH GRing.addrA.
Qed.

Lemma smul_opp a P : smul (- a) P = (- smul a P)%R.
Proof. by apply/eqP; rewrite -GRing.addr_eq0 -smul_add Z.add_opp_diag_l. Qed.

Lemma smul_mul a b P : smul (a * b) P = smul a (smul b P).
Proof.
move: a; apply: Z.peano_ind => [|a IH|a IH] //.
- by rewrite Z.mul_succ_l smul_add IH smul_succ.
- rewrite Z.mul_pred_l -Z.add_opp_r smul_add IH smul_opp.
  by rewrite -{1}(Z.succ_pred a) smul_succ GRing.addrK.
Qed.

Lemma smul_mod q a P : q <> 0 -> smul q P = 0%R -> smul (a mod q) P = smul a P.
Proof.
move=> hq h; rewrite {2}(Z_div_mod_eq_full a q) Z.mul_comm smul_add smul_mul h.
suff -> : smul (a / q) (0%R : G) = 0%R by rewrite GRing.add0r.
move: (a / q); apply: Z.peano_ind => [|b IH|b IH] //; first by rewrite smul_succ IH GRing.add0r.
by move: IH; rewrite -{1}(Z.succ_pred b) smul_succ GRing.addr0.
Qed.

Lemma u_hatE q P e x alpha : q <> 0 -> smul q P = 0%R ->
  u_hat q P (smul x P) (e * x + alpha) e = smul alpha P.
Proof.
move=> hq h; rewrite /u_hat smul_mod // smul_add smul_opp -smul_mul.
by rewrite GRing.addrAC GRing.addrN GRing.add0r.
Qed.
End Points.
