(** Inversion and square roots of a checked field: the exact results. *)
From Coq Require Import ZArith Znumtheory Zpow_facts NArith List Bool Lia.
From Verif Require Import Limbs.Model Limbs.Spec Limbs.Checker Limbs.Elim Limbs.Sub Limbs.Ops Limbs.FieldModel
  Limbs.FieldProofs Limbs.Fermat Limbs.ApiProofs.
Import ListNotations.
Local Open Scope Z_scope.

(** repeated squaring modulo M *)
Fixpoint sqr_iter (M x : Z) (n : nat) : Z := match n with O => x | S n' => sqr_iter M ((x * x) mod M) n' end.
Lemma sqr_iter_ok M n : 1 < M -> forall x, sqr_iter M (x mod M) n = x ^ (2 ^ Z.of_nat n) mod M.
Proof.
intros hM; induction n as [|n IH]; intros x; [simpl sqr_iter; change (2 ^ Z.of_nat 0) with 1; rewrite Z.pow_1_r; reflexivity|].
cbn [sqr_iter]. rewrite Nat2Z.inj_succ, Z.pow_succ_r, Z.pow_mul_r, Z.pow_2_r by (try apply Z.pow_nonneg; lia).
rewrite <- Zmult_mod; apply IH.
Qed.

Section Ok.
Variable f : field.
Hypothesis hf : field_good f.
Let M := eval (f_m f).
Let M1 : 1 < M. Proof. destruct (consts f hf) as (_ & _ & _ & _ & h & _); exact h. Qed.

Lemma finish_invert out x v y : wf out -> enc M x v -> enc M y (v ^ (M - 2) mod M) ->
  let r := (select (is_nonzero x) out y, is_nonzero x) in
  (v = 0 -> r = (out, 0)) /\ (v <> 0 -> exists w, r = (y, 1) /\ enc M y w /\ (prime M -> (v * w) mod M = 1)).
Proof.
intros ho hx hy; cbv zeta; rewrite is_nonzero_ok by apply hx.
assert (hz := enc_zero f hf x v hx). change (eval (f_m f)) with M in hz.
split.
- intros e; rewrite (proj2 hz e), select_ok; [reflexivity|simpl; lia|exact ho|apply hy].
- intros n; exists (v ^ (M - 2) mod M).
  destruct (Z.eqb_spec (eval x) 0) as [e|_]; [apply hz in e; contradiction|].
  rewrite select_ok; [|simpl; lia|exact ho|apply hy].
  split; [reflexivity|split; [exact hy|]].
  intros hp; apply (is_inverse f hf); [exact hp|]. destruct hx as (_ & hv & _); unfold M in *; lia.
Qed.

Lemma invert_ok c out x v : chain_exp c = Some (M - 2) -> wf out -> enc M x v ->
  (v = 0 -> invert f c out x = (out, 0)) /\
  (v <> 0 -> exists y w, invert f c out x = (y, 1) /\ enc M y w /\ (prime M -> (v * w) mod M = 1)).
Proof.
intros hc ho hx; pose proof (run_chain_enc f hf c _ x v hc hx) as hy.
destruct (finish_invert out x v _ ho hx hy) as [h1 h2]; split; [exact h1|].
intros n; destruct (h2 n) as [w hw]; exists (run_chain f c x), w; exact hw.
Qed.

Lemma p256_invert_ok out x v : loop2_exp (loop1_exp 1 30) (loop1_exp 1 30) 225 = M - 2 -> wf out -> enc M x v ->
  (v = 0 -> p256fp_invert f out x = (out, 0)) /\
  (v <> 0 -> exists y w, p256fp_invert f out x = (y, 1) /\ enc M y w /\ (prime M -> (v * w) mod M = 1)).
Proof.
intros hc ho hx.
destruct (loop1_enc f hf x v hx 30 x 1 ltac:(lia) (enc_v_pow1 f x v hx)) as [t0 ht].
destruct (loop2_enc f hf x v _ _ hx t0 ht 225 _ _ t0 ht) as [r0 hr].
rewrite hc in hr. unfold p256fp_invert; cbv zeta.
destruct (finish_invert out x v _ ho hx hr) as [h1 h2]; split; [exact h1|].
intros n; destruct (h2 n) as [w hw]; eexists; exists w; exact hw.
Qed.

Lemma pasta_invert_ok e x v : wf e -> eval e = M - 2 -> enc M x v ->
  exists y w, pasta_invert f e x = (y, negb (v =? 0)) /\ enc M y w /\ (v = 0 -> w = 0 \/ M = 2) /\
              (v <> 0 -> prime M -> (v * w) mod M = 1).
Proof.
intros he ee hx; pose proof (pow_enc f hf x v e hx he) as hy; rewrite ee in hy; change (eval (f_m f)) with M in hy.
exists (pow f x e), (v ^ (M - 2) mod M); split.
- unfold pasta_invert; rewrite is_zero_ok by apply hx.
  assert (hz := enc_zero f hf x v hx).
  destruct (Z.eqb_spec (eval x) 0), (Z.eqb_spec v 0); try reflexivity; tauto.
- split; [exact hy|split].
  + intros ->; destruct (Z.eq_dec M 2); [right; assumption|left].
    rewrite Z.pow_0_l by lia; apply Z.mod_0_l; lia.
  + intros n hp; apply (is_inverse f hf); [exact hp|]. destruct hx as (_ & hv & _); unfold M in *; lia.
Qed.

(** *** square roots *)
Definition is_square (v : Z) : Prop := exists u, (u * u) mod M = v.

Lemma euler v : prime M -> 0 < v < M -> is_square v -> v ^ ((M - 1) / 2) mod M = 1 \/ M = 2.
Proof.
intros hp hv [u hu]; destruct (Z.eq_dec M 2) as [|n2]; [right; assumption|left].
assert (hodd : (M - 1) = 2 * ((M - 1) / 2)).
{ pose proof (Z.div_mod (M - 1) 2 ltac:(lia)) as h; pose proof (Z.mod_pos_bound (M - 1) 2 ltac:(lia)).
  assert (hc : (M - 1) mod 2 = 0 \/ (M - 1) mod 2 = 1) by lia. destruct hc as [hc|hc]; [lia|exfalso].
  assert (hd : (2 | M)) by (exists ((M - 1) / 2 + 1); lia).
  destruct (prime_divisors _ hp _ hd) as [?|[?|[?|?]]]; lia. }
assert (h0 : 0 <= (M - 1) / 2) by (apply Z.div_pos; lia).
rewrite <- hu, (pow_mod_l f hf), <- Z.pow_2_r, <- Z.pow_mul_r, <- hodd by lia.
rewrite <- (pow_mod_l f hf); apply fermatZ; [exact hp|].
pose proof (Z.mod_pos_bound u M ltac:(lia)) as hb. change (eval (f_m f)) with M.
destruct (Z.eq_dec (u mod M) 0) as [e|]; [|lia].
rewrite Zmult_mod, e in hu; rewrite Z.mod_0_l in hu by lia; lia.
Qed.

Lemma finish_sqrt out x v z r : wf out -> enc M x v -> enc M z r ->
  (prime M -> is_square v -> (r * r) mod M = v) ->
  let w := equal_helper (square f z) x in
  (w = 1 /\ (r * r) mod M = v \/ w = 0 /\ (r * r) mod M <> v) /\
  select w out z = (if w =? 1 then z else out) /\
  (prime M -> (w = 1 <-> is_square v)).
Proof.
intros ho hx hz hc; cbv zeta.
rewrite (equal_enc f hf _ _ _ _ (square_enc f hf _ _ hz) hx). change (eval (f_m f)) with M.
destruct (Z.eqb_spec ((r * r) mod M) v) as [e|n]; split; [|split| |split].
- left; split; [reflexivity|exact e].
- rewrite select_ok; [reflexivity|lia|exact ho|apply hz].
- intros _; split; [intros _; exists r; exact e|reflexivity].
- right; split; [reflexivity|exact n].
- rewrite select_ok; [reflexivity|lia|exact ho|apply hz].
- intros hp; split; [discriminate|]. intros hs; exfalso; apply n, hc; assumption.
Qed.

(** exponents (M+1)/4 *)
Lemma sqrt34_root e x v : wf e -> 4 * eval e = M + 1 -> enc M x v -> prime M -> is_square v ->
  ((v ^ eval e mod M) * (v ^ eval e mod M)) mod M = v.
Proof.
intros he e4 hx hp hs; assert (hv : 0 <= v < M) by apply hx.
pose proof (eval_bound e he) as hb.
rewrite <- Zmult_mod, <- Z.pow_add_r by lia.
destruct (Z.eq_dec v 0) as [->|n]; [rewrite Z.pow_0_l by lia; apply Z.mod_0_l; lia|].
destruct (euler v hp ltac:(lia) hs) as [hE|h2]; [|lia].
replace (eval e + eval e) with (1 + (M - 1) / 2).
- rewrite Z.pow_add_r, Z.pow_1_r, Zmult_mod, hE, Z.mul_1_r, Zmod_mod by (try apply Z.div_pos; lia).
  apply Z.mod_small; lia.
- replace (M - 1) with ((2 * eval e - 1) * 2) by lia. rewrite Z.div_mul by lia. lia.
Qed.

Lemma sqrt34_ok e out x v : wf e -> 4 * eval e = M + 1 -> wf out -> enc M x v ->
  exists y w r, sqrt34 f e out x = (y, w) /\
  (w = 1 /\ enc M y r /\ (r * r) mod M = v \/ w = 0 /\ y = out) /\ (prime M -> (w = 1 <-> is_square v)).
Proof.
intros he e4 ho hx; pose proof (pow_enc f hf x v e hx he) as hz.
destruct (finish_sqrt out x v _ _ ho hx hz (fun hp hs => sqrt34_root e x v he e4 hx hp hs)) as (h1 & h2 & h3).
unfold sqrt34; rewrite h2. eexists; eexists; exists (v ^ eval e mod M); split; [reflexivity|split; [|exact h3]].
destruct h1 as [[-> h]|[-> h]]; [left; split; [reflexivity|split; [exact hz|exact h]]|right; split; reflexivity].
Qed.

Lemma ts_loop_zero n : forall z t c tv cv, enc M z 0 -> enc M t tv -> enc M c cv -> enc M (ts_loop f n z t c) 0.
Proof.
induction n as [|n IH]; intros z t c tv cv hz ht hc; [exact hz|]; cbn [ts_loop].
assert (ht' : enc M t (tv mod M)) by (rewrite Z.mod_small by apply ht; exact ht).
pose proof (squares_enc f hf n _ _ ht') as hb. rewrite (is_one_enc f hf _ _ hb).
pose proof (mul_enc f hf _ _ _ _ hz hc) as h1. pose proof (square_enc f hf _ _ hc) as h2.
pose proof (mul_enc f hf _ _ _ _ ht h2) as h3.
rewrite Z.mul_0_l, Z.mod_0_l in h1 by (unfold M in *; lia).
rewrite !select_ok by (first [apply hz|apply ht|apply h1|apply h3|destruct (_ =? 1); lia]).
destruct (_ =? 1); cbn [Z.opp Z.add Z.pos_sub Z.eqb Pos.add]; eapply IH; eassumption.
Qed.

Lemma ts_root_ok s c3 c5 cv x v : wf c3 -> enc M c5 cv -> (1 <= s)%nat -> (2 * eval c3 + 1) * 2 ^ Z.of_nat s = M - 1 ->
  sqr_iter M cv (s - 1) = M - 1 -> enc M x v ->
  exists r, enc M (ts_root f s c3 c5 x) r /\ (prime M -> is_square v -> (r * r) mod M = v).
Proof.
intros w3 h5 hs hd hc hx; unfold ts_root; cbv zeta.
assert (hv : 0 <= v < M) by apply hx.
pose proof (eval_bound c3 w3) as hb3.
pose proof (pow_enc f hf x v c3 hx w3) as hz. change (eval (f_m f)) with M in hz.
pose proof (mul_enc f hf _ _ _ _ (square_enc f hf _ _ hz) hx) as ht.
pose proof (mul_enc f hf _ _ _ _ hz hx) as hz'. change (eval (f_m f)) with M in ht, hz'.
destruct (Z.eq_dec v 0) as [->|nv].
{ rewrite Z.mul_0_r, Z.mod_0_l in hz' by lia. exists 0; split; [|intros; apply Z.mod_0_l; lia].
  eapply ts_loop_zero; eassumption. }
destruct (ts_loop_some f hf (s - 1) _ _ _ _ _ _ hz' ht h5) as [r hr]; exists r; split; [exact hr|].
intros hp hsq.
assert (hW0 : 2 ^ Z.of_nat s = 2 * 2 ^ Z.of_nat (s - 1)).
{ rewrite <- Z.pow_succ_r by lia; f_equal; lia. }
assert (hp0 : 0 < 2 ^ Z.of_nat (s - 1)) by (apply Z.pow_pos_nonneg; lia).
destruct (ts_loop_ok f hf v hp (s - 1) _ _ _ _ _ _ hz' ht h5) as [r' [hr' hrr]].
- change (eval (f_m f)) with M. rewrite <- Zmult_mod. set (a := v ^ eval c3 mod M).
  rewrite Z.mul_mod_idemp_r by lia. rewrite Z.mul_assoc, (Z.mul_comm v), <- !Z.mul_assoc, Z.mul_mod_idemp_l by lia. f_equal; ring.
- rewrite (pow_mod_l f hf) by lia. change (eval (f_m f)) with M.
  rewrite <- (pow_mod_l f hf) by lia. change (eval (f_m f)) with M.
  rewrite Z.mul_mod_idemp_l, <- Z.mul_mod_idemp_l, <- Zmult_mod by lia.
  rewrite Z.mul_mod_idemp_l by lia. rewrite (pow_mod_l f hf) by lia. change (eval (f_m f)) with M.
  replace (v ^ eval c3 * v ^ eval c3 * v) with (v ^ (2 * eval c3 + 1)).
  + rewrite <- Z.pow_mul_r by lia.
    replace ((2 * eval c3 + 1) * 2 ^ Z.of_nat (s - 1)) with ((M - 1) / 2).
    * destruct (euler v hp ltac:(lia) hsq) as [h|h2]; [exact h|].
      exfalso; rewrite h2 in hd; nia.
    * rewrite <- hd, hW0. replace ((2 * eval c3 + 1) * (2 * 2 ^ Z.of_nat (s - 1))) with ((2 * eval c3 + 1) * 2 ^ Z.of_nat (s - 1) * 2) by ring.
      rewrite Z.div_mul by lia. reflexivity.
  + rewrite Z.pow_add_r, Z.pow_1_r, <- Z.add_diag, Z.pow_add_r by lia. reflexivity.
- change (eval (f_m f)) with M. rewrite <- sqr_iter_ok by exact M1. rewrite Z.mod_small by apply h5. exact hc.
- change (eval (f_m f)) with M in hr', hrr.
  rewrite (enc_fun f hf _ _ _ hr hr'), hrr. apply Z.mod_small; exact hv.
Qed.

Lemma sqrt_ts_ok s c3 c5 cv out x v : wf c3 -> enc M c5 cv -> (1 <= s)%nat -> (2 * eval c3 + 1) * 2 ^ Z.of_nat s = M - 1 ->
  sqr_iter M cv (s - 1) = M - 1 -> wf out -> enc M x v ->
  exists y w r, sqrt_ts f s c3 c5 out x = (y, w) /\
  (w = 1 /\ enc M y r /\ (r * r) mod M = v \/ w = 0 /\ y = out) /\ (prime M -> (w = 1 <-> is_square v)).
Proof.
intros w3 h5 hs hd hc ho hx; destruct (ts_root_ok s c3 c5 cv x v w3 h5 hs hd hc hx) as [r [hz hr]].
destruct (finish_sqrt out x v _ _ ho hx hz hr) as (h1 & h2 & h3).
unfold sqrt_ts; rewrite h2. eexists; eexists; exists r; split; [reflexivity|split; [|exact h3]].
destruct h1 as [[-> h]|[-> h]]; [left; split; [reflexivity|split; [exact hz|exact h]]|right; split; reflexivity].
Qed.

Lemma pasta_sqrt_ok s c3 c5 cv x v : wf c3 -> enc M c5 cv -> (1 <= s)%nat -> (2 * eval c3 + 1) * 2 ^ Z.of_nat s = M - 1 ->
  sqr_iter M cv (s - 1) = M - 1 -> enc M x v ->
  exists y b r, pasta_sqrt f s c3 c5 x = (y, b) /\ enc M y r /\
  (b = true <-> (r * r) mod M = v) /\ (prime M -> (b = true <-> is_square v)).
Proof.
intros w3 h5 hs hd hc hx; destruct (ts_root_ok s c3 c5 cv x v w3 h5 hs hd hc hx) as [r [hz hr]].
destruct (finish_sqrt x x v _ _ (proj1 hx) hx hz hr) as (h1 & _ & h3).
unfold pasta_sqrt; cbv zeta; eexists; eexists; exists r; split; [reflexivity|split; [exact hz|split]].
- rewrite Z.eqb_eq; destruct h1 as [[-> h]|[-> h]]; split; auto; [discriminate|contradiction].
- intros hp; rewrite Z.eqb_eq; apply h3, hp.
Qed.
End Ok.
