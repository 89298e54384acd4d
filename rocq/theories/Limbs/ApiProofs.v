(** Conversions, exponentiation, inversion and square roots over a checked field. *)
From Coq Require Import ZArith Znumtheory Zpow_facts NArith List Bool Lia.
From Verif Require Import Limbs.Model Limbs.Spec Limbs.Checker Limbs.Elim Limbs.Sub Limbs.Ops Limbs.FieldModel
  Limbs.FieldProofs Limbs.Fermat.
Import ListNotations.
Local Open Scope Z_scope.

(** exponents of a chain *)
Definition exps := N -> option Z.
Definition set_exp (v : exps) (d : N) (x : option Z) : exps := fun r => if N.eqb r d then x else v r.
Definition estep (v : exps) (o : cop) : exps :=
  match o with
  | CPow2k d s k => set_exp v d (match v s with Some e => Some (e * 2 ^ Z.of_nat k) | None => None end)
  | CMul d a b => set_exp v d (match v a, v b with Some x, Some y => Some (x + y) | _, _ => None end)
  | CCopy d s => set_exp v d (v s)
  end.
Definition chain_exp (c : chain) : option Z :=
  fold_left estep (ops c) (fun r => if N.eqb r 0 then Some 1 else None) (result c).
Fixpoint loop1_exp (e : Z) (n : nat) : Z := match n with O => e | S n' => loop1_exp (2 * e + 1) n' end.
Fixpoint loop2_exp (t e : Z) (n : nat) : Z :=
  match n with
  | O => e
  | S i => loop2_exp t (if existsb (Nat.eqb i) [0; 2; 192; 224]%nat then 2 * e + 1
                        else if existsb (Nat.eqb i) [3; 34; 65]%nat then 2 * e + t else 2 * e) i
  end.

Section Ok.
Variable f : field.
Hypothesis hf : field_good f.
Let M := eval (f_m f).
Let M1 : 1 < M. Proof. destruct (consts f hf) as (_ & _ & _ & _ & h & _); exact h. Qed.
Let M256 : M < 2 ^ 256. Proof. apply eval_bound, (consts f hf). Qed.

Lemma mul_gen x y c v : wf x -> wf y -> eval y = c mod M -> (M | eval x * c - v * 2 ^ 256 * 2 ^ 256) ->
  enc M (mul f x y) (v mod M).
Proof.
intros hx hy hc hv.
destruct (g_mul f hf x y hx hy) as (h1 & h2 & q & h3); [rewrite hc; apply Z.mod_pos_bound; unfold M in *; lia|].
apply (enc_intro f hf); [exact h1|exact h2|]; eapply (redc f hf); [exact h3|].
destruct hv as [k hk']; destruct (modd f hf c) as [q' hq'].
exists (k - eval x * q'). rewrite hc, Z.mul_sub_distr_r.
change (eval (f_m f)) with M in hq' |- *.
replace (eval x * q' * M) with (eval x * (q' * M)) by ring. rewrite <- hq', <- hk'. ring.
Qed.

Lemma number_64 bs : length bs = 64%nat -> number bs = number (firstn 32 bs) + 2 ^ 256 * number (skipn 32 bs).
Proof. intros h; rewrite (number_split 32) by lia; reflexivity. Qed.

Lemma set_bytes_wide_enc bs : is_bytes bs -> length bs = 64%nat -> enc M (set_bytes_wide f bs) (number bs mod M).
Proof.
intros hb hl; unfold set_bytes_wide.
destruct (consts f hf) as (_ & _ & h2w & h3w & hM & _ & _ & e2 & e3).
pose proof (from_bytes_wf _ (is_bytes_firstn 32 _ hb)) as w0; pose proof (from_bytes_wf _ (is_bytes_skipn 32 _ hb)) as w1.
assert (E0 : enc M (mul f (from_bytes (firstn 32 bs)) (f_r2 f)) (number (firstn 32 bs) mod M)).
{ rewrite <- from_bytes_eval by (rewrite firstn_length; lia).
  apply (mul_gen _ _ (2 ^ 512)); auto. exists 0; change (2 ^ 512) with (2 ^ 256 * 2 ^ 256); ring. }
assert (E1 : enc M (mul f (from_bytes (skipn 32 bs)) (f_r3 f)) ((2 ^ 256 * number (skipn 32 bs)) mod M)).
{ rewrite <- from_bytes_eval by (rewrite skipn_length; lia).
  apply (mul_gen _ _ (2 ^ 768)); auto. exists 0; change (2 ^ 768) with (2 ^ 256 * 2 ^ 256 * 2 ^ 256); ring. }
rewrite (number_64 _ hl), Zplus_mod. apply (add_enc f hf); assumption.
Qed.

Lemma set_bytes_with_ok cmp bs : is_bytes bs -> length bs = 32%nat ->
  match set_bytes_with cmp f bs with
  | Some x => cmp (from_bytes bs) (f_m f) = -1 /\ enc M x (number bs mod M)
  | None => cmp (from_bytes bs) (f_m f) <> -1
  end.
Proof.
intros hb hl; unfold set_bytes_with; destruct (Z.eqb_spec (cmp (from_bytes bs) (f_m f)) (-1)); [|assumption].
split; [assumption|]. rewrite <- from_bytes_eval by exact hl. apply (to_enc f hf), from_bytes_wf, hb.
Qed.

Lemma set_bytes_ok bs : is_bytes bs -> length bs = 32%nat ->
  match set_bytes f bs with Some x => number bs < M /\ enc M x (number bs) | None => M <= number bs end.
Proof.
intros hb hl; pose proof (set_bytes_with_ok cmp_helper bs hb hl) as h.
pose proof (number_bound _ hb) as h0.
assert (hc : cmp_helper (from_bytes bs) (f_m f) = match number bs ?= M with Eq => 0 | Lt => -1 | Gt => 1 end).
{ rewrite cmp_helper_ok, from_bytes_eval; [reflexivity|exact hl|apply from_bytes_wf, hb|apply (consts f hf)]. }
rewrite hc in h; destruct (Z.compare_spec (number bs) M), (set_bytes_with cmp_helper f bs); try (lia || (destruct h; lia)).
rewrite Z.mod_small in h by lia; split; [assumption|apply h].
Qed.

Lemma bytes_ok x v : enc M x v -> is_bytes (bytes f x) /\ length (bytes f x) = 32%nat /\ number (bytes f x) = v.
Proof.
intros h; destruct (from_enc f hf x v h) as [h1 h2]; unfold bytes; split; [apply to_bytes_bytes, h1|].
split; [apply to_bytes_length|]. rewrite number_to_bytes; assumption.
Qed.

Lemma b32 z : 0 <= z mod M < 256 ^ Z.of_nat 32.
Proof. pose proof (Z.mod_pos_bound z M ltac:(lia)); change (256 ^ Z.of_nat 32) with (2 ^ 256); lia. Qed.
Lemma set_bigint_with_eq cmp recv z : set_bigint_with cmp f recv z =
  match set_bytes_with cmp f (bytes_of 32 (z mod M)) with Some x => x | None => recv end.
Proof. reflexivity. Qed.
Lemma set_small bs v recv : is_bytes bs -> length bs = 32%nat -> number bs = v -> v < M ->
  enc M (match set_bytes_with cmp_helper f bs with Some x => x | None => recv end) v.
Proof.
intros h1 h2 <- h3; pose proof (set_bytes_ok bs h1 h2) as hs.
destruct (set_bytes_with cmp_helper f bs); [apply hs|exfalso; clear - hs h3; lia].
Qed.
Lemma set_bigint_enc recv z : enc M (set_bigint f recv z) (z mod M).
Proof.
rewrite set_bigint_with_eq.
apply set_small; [apply bytes_of_bytes, b32|apply bytes_of_length|apply number_bytes_of, b32|].
apply Z.mod_pos_bound; exact (Z.lt_trans _ _ _ Z.lt_0_1 M1).
Qed.

(** *** powers *)
Lemma pow_mod_l a k : (a mod M) ^ k mod M = a ^ k mod M.
Proof. symmetry; apply Zpower_mod; lia. Qed.

Lemma bit_cases e j : Z.land (Z.shiftr e j) 1 = Z.b2z (Z.testbit e j).
Proof.
change 1 with (Z.ones 1); rewrite Z.land_ones by lia; change (2 ^ 1) with 2.
rewrite <- Z.bit0_mod, Z.shiftr_spec by lia; rewrite Z.add_0_l; reflexivity.
Qed.
Lemma mod_succ e j : e mod 2 ^ Z.of_nat (S j) = Z.b2z (Z.testbit e (Z.of_nat j)) * 2 ^ Z.of_nat j + e mod 2 ^ Z.of_nat j.
Proof.
rewrite Z.testbit_spec' by lia.
rewrite Nat2Z.inj_succ, Z.pow_succ_r by lia.
rewrite (Z.mul_comm 2), Z.rem_mul_r by lia. ring.
Qed.

Lemma pow_limb_enc base v : enc M base v -> forall j e res a, enc M res (a mod M) ->
  enc M (pow_limb f base e j res) ((a ^ (2 ^ Z.of_nat j) * v ^ (e mod 2 ^ Z.of_nat j)) mod M).
Proof.
intros hb; induction j as [|j IH]; intros e res a hr.
{ simpl pow_limb. change (2 ^ Z.of_nat 0) with 1. rewrite Z.mod_1_r, Z.pow_1_r, Z.pow_0_r, Z.mul_1_r. exact hr. }
cbn [pow_limb]. rewrite bit_cases.
pose proof (square_enc f hf _ _ hr) as h1. pose proof (mul_enc f hf _ _ _ _ h1 hb) as h2.
assert (hp : 0 < 2 ^ Z.of_nat j) by (apply Z.pow_pos_nonneg; lia).
assert (hq : 0 <= e mod 2 ^ Z.of_nat j) by (apply Z.mod_pos_bound; lia).
rewrite mod_succ, Nat2Z.inj_succ, Z.pow_succ_r, Z.pow_mul_r by lia.
rewrite select_ok; [|destruct (Z.testbit e (Z.of_nat j)); simpl; lia|apply h1|apply h2].
destruct (Z.testbit e (Z.of_nat j)); cbn [Z.b2z Z.eqb].
- rewrite Z.mul_1_l, Z.pow_add_r by lia.
  replace ((a ^ 2) ^ 2 ^ Z.of_nat j * (v ^ 2 ^ Z.of_nat j * v ^ (e mod 2 ^ Z.of_nat j)))
    with ((a ^ 2 * v) ^ 2 ^ Z.of_nat j * v ^ (e mod 2 ^ Z.of_nat j)) by (rewrite Z.pow_mul_l; ring).
  apply IH. change (eval (f_m f)) with M in h2. rewrite <- Zmult_mod, Z.mul_mod_idemp_l in h2 by lia.
  rewrite Z.pow_2_r; exact h2.
- rewrite Z.mul_0_l, Z.add_0_l. apply IH.
  change (eval (f_m f)) with M in h1. rewrite <- Zmult_mod in h1. rewrite Z.pow_2_r; exact h1.
Qed.

Lemma pow_enc base v e : enc M base v -> wf e -> enc M (pow f base e) (v ^ eval e mod M).
Proof.
intros hb (e0 & e1 & e2 & e3).
assert (step : forall x e k, 0 <= e < W -> 0 <= k -> enc M x (v ^ k mod M) ->
  enc M (pow_limb f base e 64 x) (v ^ (e + W * k) mod M)).
{ intros x e' k he hk hx. pose proof (pow_limb_enc base v hb 64 e' x _ hx) as h.
  change (2 ^ Z.of_nat 64) with W in h. rewrite (Z.mod_small e' W he) in h.
  rewrite <- Z.pow_mul_r, <- Z.pow_add_r in h by wpos.
  replace (e' + W * k) with (k * W + e') by ring. exact h. }
unfold pow, eval. pose proof W_pos.
apply step; [lia|nia|]; apply step; [lia|nia|]; apply step; [lia|lia|].
replace (v ^ l3 e) with (v ^ (l3 e + W * 0)) by (f_equal; ring). apply step; [lia|lia|].
rewrite Z.pow_0_r, Z.mod_1_l by lia. apply (one_enc f hf).
Qed.

Lemma exp_enc x a y b : enc M x a -> enc M y b -> enc M (exp f x y) (a ^ b mod M).
Proof.
intros hx hy; unfold exp; destruct (from_enc f hf _ _ hy) as [h1 h2].
rewrite <- h2; apply pow_enc; assumption.
Qed.

Lemma pow2k_enc k : forall x a, enc M x (a mod M) -> enc M (pow2k f x k) (a ^ (2 ^ Z.of_nat k) mod M).
Proof.
induction k as [|k IH]; intros x a hx; [simpl pow2k; change (2 ^ Z.of_nat 0) with 1; rewrite Z.pow_1_r; exact hx|].
cbn [pow2k]. rewrite Nat2Z.inj_succ, Z.pow_succ_r, Z.pow_mul_r by (try apply Z.pow_nonneg; lia).
apply IH. rewrite Z.pow_2_r, Zmult_mod. apply (square_enc f hf), hx.
Qed.

Lemma fold_chain arg v : enc M arg v -> forall l (vs : vars) (es : exps),
  (forall r e, es r = Some e -> 0 <= e /\ enc M (vs r) (v ^ e mod M)) ->
  forall r e, fold_left estep l es r = Some e -> 0 <= e /\ enc M (fold_left (cstep f) l vs r) (v ^ e mod M).
Proof.
intros ha l; induction l as [|o l IH]; intros vs es h; [exact h|]; cbn [fold_left]; apply IH; clear IH.
intros r e; destruct o as [d s k|d a b|d s]; cbn [estep cstep]; unfold set_exp, set_var; destruct (N.eqb r d); try apply h.
- destruct (es s) as [x|] eqn:ex; [|discriminate]; intros [= <-]; destruct (h _ _ ex) as [h0 h1].
  assert (0 < 2 ^ Z.of_nat k) by (apply Z.pow_pos_nonneg; lia).
  split; [nia|]. rewrite Z.pow_mul_r by lia. apply pow2k_enc, h1.
- destruct (es a) as [x|] eqn:ex; [|discriminate]; destruct (es b) as [y|] eqn:ey; [|discriminate]; intros [= <-].
  destruct (h _ _ ex) as [h0 h1], (h _ _ ey) as [h2 h3]. split; [lia|].
  rewrite Z.pow_add_r, Zmult_mod by lia. apply (mul_enc f hf); assumption.
Qed.
Lemma enc_v_pow1 x v : enc M x v -> enc M x (v ^ 1 mod M).
Proof. intros h; rewrite Z.pow_1_r, Z.mod_small by apply h; exact h. Qed.
Lemma run_chain_enc c e arg v : chain_exp c = Some e -> enc M arg v -> enc M (run_chain f c arg) (v ^ e mod M).
Proof.
intros hc ha; unfold run_chain; eapply (fold_chain arg v ha); [|exact hc].
intros r x; simpl; destruct (N.eqb r 0); [|discriminate]; intros [= <-]; split; [lia|]. apply enc_v_pow1, ha.
Qed.

Lemma loop1_enc arg v : enc M arg v -> forall n t e, 0 <= e -> enc M t (v ^ e mod M) ->
  0 <= loop1_exp e n /\ enc M (p256_loop1 f arg t n) (v ^ loop1_exp e n mod M).
Proof.
intros ha n; induction n as [|n IH]; intros t e he ht; [split; assumption|]; cbn [p256_loop1 loop1_exp].
apply IH; [lia|]. rewrite Z.pow_add_r, Z.pow_1_r, Z.mul_comm, Z.pow_mul_r by lia.
pose proof (mul_enc f hf _ _ _ _ (square_enc f hf _ _ ht) ha) as h; change (eval (f_m f)) with M in h.
rewrite <- Zmult_mod, Z.mul_mod_idemp_l in h by lia.
replace (v * (v ^ 2) ^ e) with (v ^ e * v ^ e * v); [exact h|]. rewrite <- Z.pow_mul_r, (Z.mul_comm 2), Z.pow_mul_r, Z.pow_2_r by lia. ring.
Qed.
Lemma loop2_enc arg v t et : enc M arg v -> 0 <= et -> enc M t (v ^ et mod M) -> forall n r e, 0 <= e -> enc M r (v ^ e mod M) ->
  0 <= loop2_exp et e n /\ enc M (p256_loop2 f arg t r n) (v ^ loop2_exp et e n mod M).
Proof.
intros ha het ht n; induction n as [|n IH]; intros r e he hr; [split; assumption|]; cbn [p256_loop2 loop2_exp].
pose proof (square_enc f hf _ _ hr) as h1; change (eval (f_m f)) with M in h1; rewrite <- Zmult_mod in h1.
assert (h2 : v ^ e * v ^ e = v ^ (2 * e)) by (rewrite <- Z.pow_add_r by lia; f_equal; lia).
rewrite h2 in h1.
destruct (existsb (Nat.eqb n) [0; 2; 192; 224]%nat); [|destruct (existsb (Nat.eqb n) [3; 34; 65]%nat)].
- apply IH; [lia|]. rewrite Z.pow_add_r, Zmult_mod by lia. apply (mul_enc f hf); [exact h1|apply enc_v_pow1, ha].
- apply IH; [lia|]. rewrite Z.pow_add_r, Zmult_mod by lia. apply (mul_enc f hf); [exact h1|exact ht].
- apply IH; [lia|]. exact h1.
Qed.

Lemma enc_zero x v : enc M x v -> (eval x = 0 <-> v = 0).
Proof.
intros h; split; intros e.
- apply (enc_fun f hf x); [exact h|]. assert (x = L4 0 0 0 0); [|subst x; apply (zero_enc f hf)].
  apply wf_eval_inj; [apply h|apply (zero_enc f hf)|]. rewrite e; reflexivity.
- subst v; destruct h as (_ & _ & ->); apply Z.mod_0_l; lia.
Qed.

(** the inverse from a chain with exponent M - 2 *)
Lemma is_inverse v : prime M -> 0 < v < M -> (v * (v ^ (M - 2) mod M)) mod M = 1.
Proof.
intros hp hv; rewrite Z.mul_mod_idemp_r by lia. rewrite <- Z.pow_succ_r by lia.
replace (Z.succ (M - 2)) with (M - 1) by lia. apply fermatZ; assumption.
Qed.

(** *** square roots *)
Lemma enc_eqb x y a b : enc M x a -> enc M y b -> (eval x =? eval y) = (a =? b).
Proof.
intros hx hy; apply eq_true_iff_eq; rewrite !Z.eqb_eq; split; intros h.
- apply (enc_fun f hf x); [exact hx|]. replace x with y; [exact hy|]. symmetry; apply wf_eval_inj; [apply hx|apply hy|exact h].
- subst b; rewrite (enc_inj f x y a hx hy); reflexivity.
Qed.
Lemma equal_enc x y a b : enc M x a -> enc M y b -> equal_helper x y = if a =? b then 1 else 0.
Proof. intros hx hy; rewrite equal_helper_ok, (enc_eqb x y a b hx hy); [reflexivity|apply hx|apply hy]. Qed.
Lemma is_one_enc x a : enc M x a -> is_one f x = if a =? 1 then 1 else 0.
Proof. intros hx; apply (equal_enc x (f_r f) a 1 hx), (one_enc f hf). Qed.

Lemma squares_enc n : forall x a, enc M x (a mod M) -> enc M (squares f x n) (a ^ (2 ^ Z.of_nat n) mod M).
Proof.
induction n as [|k IH]; intros x a hx; [simpl squares; change (2 ^ Z.of_nat 0) with 1; rewrite Z.pow_1_r; exact hx|].
cbn [squares]. rewrite Nat2Z.inj_succ, Z.pow_succ_r, Z.pow_mul_r by (try apply Z.pow_nonneg; lia).
apply IH. rewrite Z.pow_2_r, Zmult_mod. apply (square_enc f hf), hx.
Qed.

Lemma sqrt_one b : prime M -> (b * b) mod M = 1 -> b mod M = 1 \/ b mod M = M - 1.
Proof.
intros hp h. assert (hd : (M | (b - 1) * (b + 1))).
{ exists ((b * b) / M). pose proof (Z.div_mod (b * b) M ltac:(lia)). lia. }
pose proof (Z.mod_pos_bound b M ltac:(lia)).
apply prime_mult in hd; [|exact hp]; destruct hd as [[q hq]|[q hq]].
- left; symmetry; apply (Z.mod_unique _ _ q); lia.
- right; symmetry; apply (Z.mod_unique _ _ (q - 1)); lia.
Qed.

(** some residue is in the loop variables, whatever they are *)
Lemma ts_loop_some n : forall z t c zv tv cv, enc M z zv -> enc M t tv -> enc M c cv -> exists r, enc M (ts_loop f n z t c) r.
Proof.
induction n as [|n IH]; intros z t c zv tv cv hz ht hc; [exists zv; exact hz|]; cbn [ts_loop].
rewrite <- (Z.mod_small tv M) in ht by apply ht.
pose proof (squares_enc n _ _ ht) as hb. rewrite (is_one_enc _ _ hb).
pose proof (mul_enc f hf _ _ _ _ hz hc) as h1. pose proof (square_enc f hf _ _ hc) as h2.
pose proof (mul_enc f hf _ _ _ _ ht h2) as h3.
rewrite !select_ok by (first [apply hz|apply ht|apply h1|apply h3|destruct (_ =? 1); lia]).
destruct (_ =? 1); cbn [Z.opp Z.add Z.pos_sub Z.eqb Pos.add]; eapply IH; eassumption.
Qed.

(** Tonelli-Shanks: z^2 = v t, t^(2^n) = 1, c^(2^n) = -1 *)
Lemma ts_loop_ok v : prime M -> forall n z t c zv tv cv, enc M z zv -> enc M t tv -> enc M c cv ->
  (zv * zv) mod M = (v * tv) mod M -> tv ^ (2 ^ Z.of_nat n) mod M = 1 -> cv ^ (2 ^ Z.of_nat n) mod M = M - 1 ->
  exists r, enc M (ts_loop f n z t c) r /\ (r * r) mod M = v mod M.
Proof.
intros hp; induction n as [|n IH]; intros z t c zv tv cv hz ht hc e1 e2 e3.
{ exists zv; split; [exact hz|]. change (2 ^ Z.of_nat 0) with 1 in e2; rewrite Z.pow_1_r, Z.mod_small in e2 by apply ht.
  rewrite e1, e2, Z.mul_1_r; reflexivity. }
cbn [ts_loop].
assert (hp2 : 0 < 2 ^ Z.of_nat n) by (apply Z.pow_pos_nonneg; lia).
rewrite Nat2Z.inj_succ, Z.pow_succ_r in e2, e3 by lia.
assert (ht' : enc M t (tv mod M)) by (rewrite Z.mod_small by apply ht; exact ht).
pose proof (squares_enc n _ _ ht') as hb. rewrite (is_one_enc _ _ hb).
pose proof (mul_enc f hf _ _ _ _ hz hc) as h1. pose proof (square_enc f hf _ _ hc) as h2.
pose proof (mul_enc f hf _ _ _ _ ht h2) as h3. change (eval (f_m f)) with M in h1, h2, h3.
rewrite !select_ok by (first [apply hz|apply ht|apply h1|apply h3|destruct (_ =? 1); lia]).
assert (hb2 : tv ^ 2 ^ Z.of_nat n mod M = 1 \/ tv ^ 2 ^ Z.of_nat n mod M = M - 1).
{ apply sqrt_one; [exact hp|]. rewrite <- Z.pow_add_r by lia.
  replace (2 ^ Z.of_nat n + 2 ^ Z.of_nat n) with (2 * 2 ^ Z.of_nat n) by lia; exact e2. }
assert (hc2 : (cv * cv mod M) ^ 2 ^ Z.of_nat n mod M = M - 1).
{ rewrite pow_mod_l, <- Z.pow_2_r, <- Z.pow_mul_r by lia; exact e3. }
destruct (Z.eqb_spec (tv ^ 2 ^ Z.of_nat n mod M) 1) as [e|ne]; cbn [Z.opp Z.add Z.pos_sub Z.eqb Pos.add].
- eapply IH; [exact hz|exact ht|exact h2|exact e1|exact e|exact hc2].
- destruct hb2 as [|hb2]; [contradiction|].
  eapply IH; [exact h1|exact h3|exact h2| | |exact hc2].
  + rewrite <- Zmult_mod. rewrite !Z.mul_mod_idemp_r by lia.
    replace (zv * cv * (zv * cv)) with (zv * zv * (cv * cv)) by ring.
    rewrite Z.mul_mod, e1, <- Z.mul_mod by lia.
    replace (v * (tv * (cv * cv mod M))) with (v * tv * (cv * cv mod M)) by ring.
    rewrite Z.mul_mod_idemp_r by lia. f_equal; ring.
  + rewrite pow_mod_l, Z.pow_mul_l, Z.mul_mod, hb2, hc2 by lia.
    symmetry; apply (Z.mod_unique _ _ (M - 2)); [lia|ring].
Qed.
End Ok.
