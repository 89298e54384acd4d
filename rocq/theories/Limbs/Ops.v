(** A field whose programs pass the checker computes modular arithmetic in Montgomery form. *)
From Coq Require Import ZArith NArith List Bool Lia.
From Verif Require Import Limbs.Model Limbs.Spec Limbs.Checker Limbs.Elim Limbs.Sub.
Import ListNotations.
Local Open Scope Z_scope.

(** the weighted sums the programs reduce *)
Definition t_mul (r : N) : form :=
  flat_map (fun i => map (fun j => (M2 (R (1 + N.of_nat i)) (R (r + N.of_nat j)), i + j)%nat) [0; 1; 2; 3]%nat)
    [0; 1; 2; 3]%nat.
Definition t_lin (r : N) : form := map (fun i => (M1 (r + N.of_nat i)%N, i)) [0; 1; 2; 3]%nat.
Definition t_const (k : limbs) : form := times4 1 k 0 ++ times4 2 k 1 ++ times4 3 k 2 ++ times4 4 k 3.

Definition in_word (x : Z) : bool := (0 <=? x) && (x <? W).
Definition wfb (a : limbs) : bool := in_word (l0 a) && in_word (l1 a) && in_word (l2 a) && in_word (l3 a).

Definition consts_ok (m r r2 r3 : limbs) : bool :=
  let M := eval m in
  wfb m && wfb r && wfb r2 && wfb r3 && (1 <? M) && (Z.gcd M (2 ^ 256) =? 1)
  && (eval r =? 2 ^ 256 mod M) && (eval r2 =? 2 ^ 512 mod M) && (eval r3 =? 2 ^ 768 mod M).
Definition programs_ok (mul square add sub opp from to : code) (m r r2 r3 : limbs) : bool :=
  check mul m 4 (t_mul 5) && check square m 4 (t_mul 1) && check add m 0 (t_lin 1 ++ t_lin 5)
  && check from m 4 (t_lin 1) && check to m 4 (t_const r2)
  && sub_check sub m && opp_check opp m && consts_ok m r r2 r3.

(** what a field must do, in terms of the numbers its limbs spell: [reduced f k e t] says e is a reduced limb vector
    with 2^k times its number congruent to t *)
Definition reduced (m : limbs) (k : Z) (e : limbs) (t : Z) : Prop :=
  wf e /\ 0 <= eval e < eval m /\ exists q, 2 ^ k * eval e = t + q * eval m.
Record field_good (f : field) : Prop := Good {
  g_consts : consts_ok (f_m f) (f_r f) (f_r2 f) (f_r3 f) = true;
  g_mul : forall x y, wf x -> wf y -> eval y < eval (f_m f) -> reduced (f_m f) 256 (mul f x y) (eval x * eval y);
  g_square : forall x, wf x -> eval x < eval (f_m f) -> reduced (f_m f) 256 (square f x) (eval x * eval x);
  g_add : forall x y, wf x -> wf y -> eval x < eval (f_m f) -> eval y < eval (f_m f) ->
          reduced (f_m f) 0 (add f x y) (eval x + eval y);
  g_sub : forall x y, wf x -> wf y -> eval x < eval (f_m f) -> eval y < eval (f_m f) ->
          reduced (f_m f) 0 (sub f x y) (eval x - eval y);
  g_from : forall x, wf x -> eval x < eval (f_m f) -> reduced (f_m f) 256 (from_montgomery f x) (eval x);
  g_to : forall x, wf x -> reduced (f_m f) 256 (to_montgomery f x) (eval x * eval (f_r2 f)) }.
Definition opp_good (f : field) : Prop :=
  forall x, wf x -> eval x < eval (f_m f) -> reduced (f_m f) 0 (opp f x) (- eval x).

Lemma wfb_ok a : wfb a = true -> wf a.
Proof.
unfold wfb, in_word, wf; intros h.
repeat match goal with h : (_ && _) = true |- _ => apply andb_true_iff in h; destruct h end.
repeat match goal with h : (_ <=? _) = true |- _ => apply Z.leb_le in h | h : (_ <? _) = true |- _ => apply Z.ltb_lt in h end.
repeat split; assumption.
Qed.

Lemma W4 : pw 4 = 2 ^ 256. Proof. reflexivity. Qed.
Lemma eval_bound a : wf a -> 0 <= eval a < 2 ^ 256.
Proof.
intros (h0 & h1 & h2 & h3); unfold eval; change W with 18446744073709551616 in *;
  change (2 ^ 256) with (18446744073709551616 * (18446744073709551616 * (18446744073709551616 * 18446744073709551616))); lia.
Qed.

Lemma wf_eval_inj x y : wf x -> wf y -> eval x = eval y -> x = y.
Proof.
destruct x as [a0 a1 a2 a3], y as [b0 b1 b2 b3]; unfold wf, eval; cbn [l0 l1 l2 l3]; intros hx hy h.
assert (e : forall p q r s, 0 <= p < W -> 0 <= r < W -> p + W * q = r + W * s -> p = r /\ q = s)
 by (intros; change W with 18446744073709551616 in *; lia).
apply e in h as [-> h]; try tauto; apply e in h as [-> h]; try tauto; apply e in h as [-> h]; try tauto; now rewrite h.
Qed.

Lemma t_mul_ok E x y a b c d :
  E 1%N = l0 x -> E 2%N = l1 x -> E 3%N = l2 x -> E 4%N = l3 x ->
  E a = l0 y -> E b = l1 y -> E c = l2 y -> E d = l3 y ->
  b = (1 + a)%N -> c = (2 + a)%N -> d = (3 + a)%N ->
  fv E (t_mul a) = eval x * eval y.
Proof.
intros e1 e2 e3 e4 f1 f2 f3 f4 -> -> ->. unfold t_mul, eval.
cbn [flat_map map app N.of_nat Pos.of_succ_nat Pos.succ Nat.add N.add Pos.add fv mv lv pw].
replace (a + 0)%N with a by lia; replace (a + 1)%N with (1 + a)%N by lia; replace (a + 2)%N with (2 + a)%N by lia;
  replace (a + 3)%N with (3 + a)%N by lia.
change (1 + 0)%N with 1%N; change (1 + 1)%N with 2%N; change (1 + 2)%N with 3%N; change (1 + 3)%N with 4%N.
rewrite e1, e2, e3, e4, f1, f2, f3, f4. ring.
Qed.

Lemma t_lin_ok E a b : agree init (args a b) E ->
  fv E (t_lin 1) = eval a /\ fv E (t_lin 5) = eval b.
Proof.
intros hg.
change (fv E (t_lin 1)) with (1 * E 1%N + (W * 1 * E 2%N + (W * (W * 1) * E 3%N + (W * (W * (W * 1)) * E 4%N + 0)))).
change (fv E (t_lin 5)) with (1 * E 5%N + (W * 1 * E 6%N + (W * (W * 1) * E 7%N + (W * (W * (W * 1)) * E 8%N + 0)))).
rewrite !(args_init _ _ _ _ hg) by (simpl; tauto). cbn [args]. unfold eval; split; ring.
Qed.

Lemma t_const_ok E a b k : agree init (args a b) E -> fv E (t_const k) = eval a * eval k.
Proof.
intros hg; unfold t_const; rewrite !fv_app, !times4_ok, !(args_init _ _ _ _ hg) by (simpl; tauto).
cbn [args pw]; unfold eval at 5; ring.
Qed.

Lemma le_prod M x y : 0 < M -> 0 <= x < 2 ^ 256 -> 0 <= y < M -> 0 <= x * y < (2 ^ 256 + 1) * M.
Proof. intros h0 hx hy; split; [nia|]. apply Z.le_lt_trans with (x * M); [nia|]. nia. Qed.

Lemma consts_split m r r2 r3 : consts_ok m r r2 r3 = true -> wf m /\ wf r /\ wf r2 /\ wf r3 /\ 1 < eval m /\
  Z.gcd (eval m) (2 ^ 256) = 1 /\ eval r = 2 ^ 256 mod eval m /\ eval r2 = 2 ^ 512 mod eval m /\ eval r3 = 2 ^ 768 mod eval m.
Proof.
intros h; unfold consts_ok in h.
do 8 (apply andb_true_iff in h; let h' := fresh in destruct h as [h h']).
repeat match goal with h : wfb _ = true |- _ => apply wfb_ok in h | h : (_ =? _) = true |- _ => apply Z.eqb_eq in h
  | h : (_ <? _) = true |- _ => apply Z.ltb_lt in h end.
tauto.
Qed.

(** programs that pass the checker *)
Lemma compiled_good mul square add sub opp from to m r r2 r3 :
  programs_ok mul square add sub opp from to m r r2 r3 = true ->
  field_good (compiled mul square add sub opp from to m r r2 r3) /\ opp_good (compiled mul square add sub opp from to m r r2 r3).
Proof.
intros h; unfold programs_ok in h.
do 7 (apply andb_true_iff in h; let h' := fresh "c" in destruct h as [h h']).
destruct (consts_split _ _ _ _ c) as (hm & _ & h2w & _ & hM & _ & _ & e2 & _).
unfold opp_good; split; [split|]; cbn [f_m f_r f_r2 f_r3 f_mul f_square f_add f_sub f_opp f_from f_to compiled
            Model.mul Model.square Model.add Model.sub Model.opp from_montgomery to_montgomery].
- exact c.
- intros x y hx hy ly; destruct (check_ok _ _ _ _ x y h hm hx hy) as [hg hr].
  rewrite (t_mul_ok _ x y 5 6 7 8) in hr; auto; try (rewrite (args_init _ _ _ _ hg); [reflexivity|simpl; tauto]).
  apply hr; rewrite W4; apply le_prod; [lia|apply eval_bound, hx|split; [apply eval_bound, hy|exact ly]].
- intros x hx lx; destruct (check_ok _ _ _ _ x x c5 hm hx hx) as [hg hr].
  rewrite (t_mul_ok _ x x 1 2 3 4) in hr; auto; try (rewrite (args_init _ _ _ _ hg); [reflexivity|simpl; tauto]).
  apply hr; rewrite W4; apply le_prod; [lia|apply eval_bound, hx|split; [apply eval_bound, hx|exact lx]].
- intros x y hx hy lx ly; destruct (check_ok _ _ _ _ x y c4 hm hx hy) as [hg hr].
  rewrite fv_app in hr; destruct (t_lin_ok _ _ _ hg) as [ea eb]; rewrite ea, eb in hr.
  pose proof (eval_bound x hx); pose proof (eval_bound y hy).
  destruct hr as (h1 & h2 & q & h3); [cbn [pw]; lia|].
  split; [exact h1|split; [exact h2|exists q]]; cbn [pw] in h3; exact h3.
- intros x y hx hy lx ly; destruct (sub_ok _ _ x y c1 hm hx hy lx ly) as (h1 & h2 & h3).
  split; [exact h1|split; [exact h2|]]. destruct h3 as [-> | ->]; [exists 0|exists 1]; lia.
- intros x hx lx; destruct (check_ok _ _ _ _ x x c3 hm hx hx) as [hg hr].
  destruct (t_lin_ok _ _ _ hg) as [ea _]; rewrite ea in hr.
  apply hr; pose proof (eval_bound x hx); rewrite W4; nia.
- intros x hx; destruct (check_ok _ _ _ _ x x c2 hm hx hx) as [hg hr]; rewrite (t_const_ok _ _ _ _ hg) in hr.
  apply hr; rewrite W4; apply le_prod; [lia|apply eval_bound, hx|]. rewrite e2; apply Z.mod_pos_bound; lia.
- intros x hx lx; destruct (opp_ok _ _ x c0 hm hx lx) as (h1 & h2 & h3).
  split; [exact h1|split; [exact h2|]]. destruct h3 as [-> | ->]; [exists 0|exists 1]; lia.
Qed.

Section Ok.
Variable f : field.
Hypothesis hf : field_good f.
Let M := eval (f_m f).

Lemma consts : wf (f_m f) /\ wf (f_r f) /\ wf (f_r2 f) /\ wf (f_r3 f) /\ 1 < M /\ Z.gcd M (2 ^ 256) = 1 /\
  eval (f_r f) = 2 ^ 256 mod M /\ eval (f_r2 f) = 2 ^ 512 mod M /\ eval (f_r3 f) = 2 ^ 768 mod M.
Proof. exact (consts_split _ _ _ _ (g_consts f hf)). Qed.

Lemma cancel u v : (M | 2 ^ 256 * u - 2 ^ 256 * v) -> (M | u - v).
Proof.
intros h; replace (2 ^ 256 * u - 2 ^ 256 * v) with (2 ^ 256 * (u - v)) in h by lia.
apply (Z.gauss M (2 ^ 256)); [exact h|]. apply consts.
Qed.

Lemma modd x : (M | x - x mod M).
Proof. exists (x / M). destruct consts as (_ & _ & _ & _ & hM & _). rewrite (Z.div_mod x M) at 1 by lia. lia. Qed.

Lemma enc_div x v : enc M x v -> (M | eval x - v * 2 ^ 256).
Proof. intros (_ & _ & ->); destruct (modd (v * 2 ^ 256)) as [q hq]; exists (- q); lia. Qed.
Lemma enc_lt x v : enc M x v -> 0 <= eval x < M.
Proof. intros (_ & _ & ->); apply Z.mod_pos_bound; destruct consts as (_ & _ & _ & _ & hM & _); lia. Qed.
Lemma mod_uniq a b : (M | a - b) -> 0 <= a < M -> a = b mod M.
Proof. intros [q h] ha; apply (Z.mod_unique _ _ (- q)); [left; exact ha|lia]. Qed.
Lemma enc_intro x v : wf x -> 0 <= eval x < M -> (M | eval x - v * 2 ^ 256) -> enc M x (v mod M).
Proof.
intros hw hl hd; split; [exact hw|split].
- apply Z.mod_pos_bound; lia.
- apply mod_uniq; [|exact hl]. destruct hd as [q hq], (modd v) as [q' hq'].
  exists (q + q' * 2 ^ 256). rewrite Z.mul_add_distr_r, <- hq.
  replace (q' * 2 ^ 256 * M) with ((q' * M) * 2 ^ 256) by ring. rewrite <- hq'. ring.
Qed.

(** REDC *)
Lemma redc e t q : 2 ^ 256 * e = t + q * M -> forall v, (M | t - v * 2 ^ 256 * 2 ^ 256) -> (M | e - v * 2 ^ 256).
Proof.
intros h v [k hk]. apply cancel. exists (k + q). rewrite h, Z.mul_add_distr_r, <- hk. ring.
Qed.

Lemma mul_enc x y a b : enc M x a -> enc M y b -> enc M (mul f x y) ((a * b) mod M).
Proof.
intros hx hy; destruct (g_mul f hf x y (proj1 hx) (proj1 hy) (proj2 (enc_lt _ _ hy))) as (h1 & h2 & q & h3).
apply enc_intro; [exact h1|exact h2|]; eapply redc; [exact h3|].
destruct (enc_div _ _ hx) as [k1 e1], (enc_div _ _ hy) as [k2 e2].
exists (k1 * eval y + a * 2 ^ 256 * k2).
replace ((k1 * eval y + a * 2 ^ 256 * k2) * M) with ((k1 * M) * eval y + a * 2 ^ 256 * (k2 * M)) by ring.
rewrite <- e1, <- e2; ring.
Qed.

Lemma square_enc x a : enc M x a -> enc M (square f x) ((a * a) mod M).
Proof.
intros hx; destruct (g_square f hf x (proj1 hx) (proj2 (enc_lt _ _ hx))) as (h1 & h2 & q & h3).
apply enc_intro; [exact h1|exact h2|]; eapply redc; [exact h3|].
destruct (enc_div _ _ hx) as [k1 e1].
exists (k1 * eval x + a * 2 ^ 256 * k1).
replace ((k1 * eval x + a * 2 ^ 256 * k1) * M) with ((k1 * M) * eval x + a * 2 ^ 256 * (k1 * M)) by ring.
rewrite <- e1; ring.
Qed.

Lemma add_enc x y a b : enc M x a -> enc M y b -> enc M (add f x y) ((a + b) mod M).
Proof.
intros hx hy.
destruct (g_add f hf x y (proj1 hx) (proj1 hy) (proj2 (enc_lt _ _ hx)) (proj2 (enc_lt _ _ hy))) as (h1 & h2 & q & h3).
apply enc_intro; [exact h1|exact h2|]; change (eval (f_m f)) with M in h3.
destruct (enc_div _ _ hx) as [k1 e1], (enc_div _ _ hy) as [k2 e2].
exists (k1 + k2 + q). rewrite !Z.mul_add_distr_r, <- e1, <- e2; lia.
Qed.

Lemma sub_enc x y a b : enc M x a -> enc M y b -> enc M (sub f x y) ((a - b) mod M).
Proof.
intros hx hy.
destruct (g_sub f hf x y (proj1 hx) (proj1 hy) (proj2 (enc_lt _ _ hx)) (proj2 (enc_lt _ _ hy))) as (h1 & h2 & q & h3).
apply enc_intro; [exact h1|exact h2|]; change (eval (f_m f)) with M in h3.
destruct (enc_div _ _ hx) as [k1 e1], (enc_div _ _ hy) as [k2 e2].
exists (k1 - k2 + q). replace ((k1 - k2 + q) * M) with (k1 * M - k2 * M + q * M) by ring. rewrite <- e1, <- e2; lia.
Qed.

Lemma opp_enc x a : reduced (f_m f) 0 (opp f x) (- eval x) -> enc M x a -> enc M (opp f x) ((- a) mod M).
Proof.
intros (h1 & h2 & q & h3) hx.
apply enc_intro; [exact h1|exact h2|]; change (eval (f_m f)) with M in h3.
destruct (enc_div _ _ hx) as [k1 e1]. exists (q - k1). replace ((q - k1) * M) with (q * M - k1 * M) by ring. rewrite <- e1; lia.
Qed.

Lemma to_enc x : wf x -> enc M (to_montgomery f x) (eval x mod M).
Proof.
intros hx; destruct consts as (_ & _ & _ & _ & hM & _ & _ & e2 & _).
destruct (g_to f hf x hx) as (h1 & h2 & q & h3).
apply enc_intro; [exact h1|exact h2|]; eapply redc; [exact h3|].
rewrite e2; destruct (modd (2 ^ 512)) as [k hk]; exists (- (eval x * k)).
replace (- (eval x * k) * M) with (- (eval x * (k * M))) by ring; rewrite <- hk.
replace (2 ^ 512) with (2 ^ 256 * 2 ^ 256) by reflexivity; ring.
Qed.

Lemma from_enc x v : enc M x v -> wf (from_montgomery f x) /\ eval (from_montgomery f x) = v.
Proof.
intros hx; destruct (g_from f hf x (proj1 hx) (proj2 (enc_lt _ _ hx))) as (h1 & h2 & q & h3).
split; [exact h1|].
rewrite <- (Z.mod_small v M) by apply hx. apply mod_uniq; [|exact h2].
apply cancel; destruct (enc_div _ _ hx) as [k e].
exists (k + q). rewrite h3, Z.mul_add_distr_r, <- e; unfold M; ring.
Qed.

Lemma one_enc : enc M (f_r f) 1.
Proof.
destruct consts as (_ & hr & _ & _ & hM & _ & e & _).
split; [exact hr|]; split; [lia|]; rewrite Z.mul_1_l; exact e.
Qed.
Lemma zero_enc : enc M (L4 0 0 0 0) 0.
Proof. destruct consts as (_ & _ & _ & _ & hM & _). split; [|split; [lia|]]; [repeat split; simpl; wpos|].
rewrite Z.mul_0_l, Z.mod_0_l by lia; unfold eval; simpl; ring. Qed.

Lemma enc_fun x a b : enc M x a -> enc M x b -> a = b.
Proof.
intros ha hb. rewrite <- (proj2 (from_enc x a ha)); apply from_enc, hb.
Qed.
Lemma enc_inj x y a : enc M x a -> enc M y a -> x = y.
Proof. intros hx hy; apply wf_eval_inj; [apply hx|apply hy|]. destruct hx as (_ & _ & ->), hy as (_ & _ & ->); reflexivity. Qed.
Lemma enc_ex x : wf x -> eval x < M -> exists v, enc M x v.
Proof.
intros hw hl; destruct consts as (_ & _ & _ & _ & hM & hg & _).
destruct (Z.gcd_bezout M (2 ^ 256) 1 hg) as (u & w & hb).
exists ((eval x * w) mod M); apply enc_intro; [exact hw|pose proof (eval_bound x hw); lia|].
exists (eval x * u). replace (eval x * w * 2 ^ 256) with (eval x * (w * 2 ^ 256)) by ring.
replace (w * 2 ^ 256) with (1 - u * M) by lia. ring.
Qed.
End Ok.
