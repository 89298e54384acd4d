(** The scalar field of BLS12-381 computes modular arithmetic. *)
From Coq Require Import ZArith Znumtheory NArith List Bool Lia.
From Verif Require Import Limbs.Model Limbs.Spec Limbs.Ops Limbs.FieldModel Limbs.FieldProofs Limbs.BlsfqCode.
Import ListNotations.
Local Open Scope Z_scope.

Definition word (x : Z) : Prop := 0 <= x < W.

Lemma W_split : W = 2 ^ 63 * 2. Proof. reflexivity. Qed.
Ltac word_lia := unfold word in *; change W with 18446744073709551616 in *; change (2 ^ 63) with 9223372036854775808 in *; lia.

Lemma mac_ok a b c d : word a -> word b -> word c -> word d ->
  let '(lo, hi) := mac a b c d in word lo /\ word hi /\ lo + W * hi = a + b * c + d.
Proof.
intros ha hb hc hd; unfold mac; cbv zeta. rewrite !Z.add_0_r.
assert (W0 : 0 < W) by reflexivity.
assert (hbc : 0 <= b * c <= (W - 1) * (W - 1)) by (unfold word in *; nia).
set (p := b * c) in *.
pose proof (Z.div_mod p W ltac:(lia)); pose proof (Z.mod_pos_bound p W W0).
pose proof (Z.div_mod (a + d) W ltac:(lia)); pose proof (Z.mod_pos_bound (a + d) W W0).
pose proof (Z.div_mod (p mod W + (a + d) mod W) W ltac:(lia)); pose proof (Z.mod_pos_bound (p mod W + (a + d) mod W) W W0).
set (lo := p mod W) in *; set (hi := p / W) in *; set (c2 := (a + d) mod W) in *; set (cy := (a + d) / W) in *.
set (lo' := (lo + c2) mod W) in *; set (cy' := (lo + c2) / W) in *.
assert (h1 : 0 <= hi + cy < W) by word_lia.
rewrite (Z.mod_small (hi + cy)) by exact h1.
assert (h2 : 0 <= hi + cy + cy' < W) by word_lia.
rewrite (Z.mod_small (hi + cy + cy')) by exact h2.
split; [|split]; [word_lia|word_lia|lia].
Qed.

(** the top bit of a word *)
Lemma top x : word x -> exists r, 0 <= r < 2 ^ 63 /\ ((Z.shiftr x 63 = 0 /\ x = r) \/ (Z.shiftr x 63 = 1 /\ x = 2 ^ 63 + r)).
Proof.
intros h; rewrite Z.shiftr_div_pow2 by lia.
pose proof (Z.div_mod x (2 ^ 63) ltac:(lia)); pose proof (Z.mod_pos_bound x (2 ^ 63) ltac:(lia)).
exists (x mod 2 ^ 63); split; [assumption|].
assert (hc : x / 2 ^ 63 = 0 \/ x / 2 ^ 63 = 1).
{ assert (0 <= x / 2 ^ 63 < 2); [|lia]. split; [apply Z.div_pos; [apply h|lia]|]. apply Z.div_lt_upper_bound; [lia|]. word_lia. }
destruct hc as [e|e]; [left|right]; rewrite e in *; split; lia.
Qed.

Ltac cmpz := repeat match goal with |- context [?x =? ?y] => destruct (Z.eqb_spec x y) end.

Lemma adc_ok x y c : word x -> word y -> word c -> x <= 1 \/ y <= 1 \/ c <= 1 ->
  let '(s, o) := adc x y c in word s /\ 0 <= o <= 1 /\ s + W * o = x + y + c.
Proof.
intros hx hy hc hs; unfold adc; cbv zeta.
assert (hw : word ((x + y + c) mod W)) by (apply Z.mod_pos_bound; reflexivity).
pose proof (Z.div_mod (x + y + c) W ltac:(discriminate)) as e.
set (s := (x + y + c) mod W) in *; set (q := (x + y + c) / W) in *.
split; [exact hw|].
repeat rewrite ?Z.shiftr_lor, ?Z.shiftr_land, ?Z.shiftr_ldiff.
destruct (top x hx) as [rx [? tx]], (top y hy) as [ry [? ty]], (top c hc) as [rc [? tc]], (top s hw) as [rs [? ts]].
destruct tx as [[-> ?]|[-> ?]], ty as [[-> ?]|[-> ?]], tc as [[-> ?]|[-> ?]], ts as [[-> ?]|[-> ?]];
  cbn [Z.land Z.lor Z.ldiff Pos.land Pos.lor Pos.ldiff Z.of_N]; word_lia.
Qed.

Lemma sbb_ok x y b : word x -> word y -> 0 <= b <= 1 ->
  let '(d, o) := sbb x y b in word d /\ 0 <= o <= 1 /\ d - W * o = x - y - b.
Proof.
intros hx hy hb; unfold sbb; cbv zeta.
rewrite Zminus_mod_idemp_r.
assert (hw : word ((x - (y + b)) mod W)) by (apply Z.mod_pos_bound; reflexivity).
pose proof (Z.div_mod (x - (y + b)) W ltac:(discriminate)) as e.
set (s := (x - (y + b)) mod W) in *; set (q := (x - (y + b)) / W) in *.
split; [exact hw|].
assert (n : forall z, word z -> Z.shiftr (W - 1 - z) 63 = 1 - Z.shiftr z 63).
{ intros z hz; destruct (top z hz) as [r [? [[-> ?]|[-> ?]]]]; rewrite Z.shiftr_div_pow2 by lia; symmetry;
    [apply (Z.div_unique _ _ _ (2 ^ 63 - 1 - r))|apply (Z.div_unique _ _ _ (2 ^ 63 - 1 - r))]; word_lia. }
assert (hxy : word (Z.lxor x y)).
{ split; [apply Z.lxor_nonneg; unfold word in *; lia|].
  destruct (Z.eq_dec (Z.lxor x y) 0) as [->|nz]; [reflexivity|].
  assert (0 <= Z.lxor x y) by (apply Z.lxor_nonneg; unfold word in *; lia).
  change W with (2 ^ 64). apply Z.log2_lt_pow2; [lia|].
  eapply Z.le_lt_trans; [apply Z.log2_lxor; unfold word in *; lia|].
  assert (l : forall z, word z -> Z.log2 z < 64).
  { intros z hz; destruct (Z.eq_dec z 0) as [->|]; [reflexivity|]. apply Z.log2_lt_pow2; unfold word in hz; [lia|]. exact (proj2 hz). }
  apply Z.max_lub_lt; apply l; assumption. }
repeat rewrite ?Z.shiftr_lor, ?Z.shiftr_land. rewrite !n, Z.shiftr_lxor by assumption.
destruct (top x hx) as [rx [? tx]], (top y hy) as [ry [? ty]], (top s hw) as [rs [? ts]].
destruct tx as [[-> ?]|[-> ?]], ty as [[-> ?]|[-> ?]], ts as [[-> ?]|[-> ?]];
  cbn [Z.lxor Pos.lxor Z.sub Z.add Z.opp Z.pos_sub Pos.add Pos.sub Z.land Z.lor Pos.land Pos.lor Z.of_N]; word_lia.
Qed.

(** ** straight-line steps *)
Ltac mac_step :=
  match goal with |- context [mac ?a ?b ?c ?d] =>
    let h := fresh "M" in assert (h := mac_ok a b c d); destruct (mac a b c d);
    destruct h as (? & ? & ?); [first [assumption|word_lia]..|] end.
Ltac adc_step :=
  match goal with |- context [adc ?a ?b ?c] =>
    let h := fresh "A" in assert (h := adc_ok a b c); destruct (adc a b c);
    destruct h as (? & ? & ?); [first [assumption|word_lia]..|] end.
Ltac sbb_step :=
  match goal with |- context [sbb ?a ?b ?c] =>
    let h := fresh "S" in assert (h := sbb_ok a b c); destruct (sbb a b c);
    destruct h as (? & ? & ?); [first [assumption|lia]..|] end.

Lemma word_eq z c e : z + W * c = e -> z = e - W * c. Proof. lia. Qed.
Ltac solve_words :=
  repeat match goal with h : ?z + W * _ = _ |- _ => is_var z; apply word_eq in h; subst z end; ring.

Local Notation M := (eval blsfq_m).
Definition q_bls_ : Z := 0x73eda753299d7d483339d80809a1d80553bda402fffe5bfeffffffff00000001.
Lemma blsfq_mE : M = q_bls_. Proof. reflexivity. Qed.

Lemma mask_cases b : 0 <= b <= 1 -> forall k, word k -> Z.land k ((- b) mod W) = b * k.
Proof.
intros hb k hk; assert (h : b = 0 \/ b = 1) by lia; destruct h as [-> | ->].
- apply Z.land_0_r.
- change ((- (1)) mod W) with (Z.ones 64). rewrite Z.land_ones by lia. rewrite Z.mod_small by exact hk. lia.
Qed.

Lemma words a : wf a -> word (l0 a) /\ word (l1 a) /\ word (l2 a) /\ word (l3 a).
Proof. intros h; exact h. Qed.
Lemma eval_4 a b c d : eval (L4 a b c d) = a + W * b + W * W * c + W * W * W * d.
Proof. unfold eval; cbn [l0 l1 l2 l3]; ring. Qed.
Lemma evalE a : eval a = l0 a + W * l1 a + W * W * l2 a + W * W * W * l3 a.
Proof. unfold eval; ring. Qed.

(** Sub: x - y, plus the modulus if negative *)
Lemma sub_spec x y : wf x -> wf y -> 0 <= eval x < 2 * M -> 0 <= eval y <= M -> eval x - eval y < M ->
  wf (blsfq_sub x y) /\
  eval (blsfq_sub x y) = (if eval x <? eval y then eval x - eval y + M else eval x - eval y).
Proof.
intros hx hy bx by_ bs; destruct (words _ hx) as (x0 & x1 & x2 & x3), (words _ hy) as (y0 & y1 & y2 & y3).
rewrite (evalE x), (evalE y) in *. unfold blsfq_sub.
sbb_step; sbb_step; sbb_step; sbb_step. cbv zeta.
assert (hm : word (l0 blsfq_m) /\ word (l1 blsfq_m) /\ word (l2 blsfq_m) /\ word (l3 blsfq_m)) by (repeat split; discriminate).
destruct hm as (m0 & m1 & m2 & m3).
rewrite !mask_cases by assumption.
match goal with |- context [?b * l3 blsfq_m] => assert (hb : b = 0 \/ b = 1) by lia; set (bo := b) in * end.
assert (n0 : word (bo * l0 blsfq_m)) by (destruct hb as [-> | ->]; [split; reflexivity || discriminate|rewrite Z.mul_1_l; assumption]).
assert (n1 : word (bo * l1 blsfq_m)) by (destruct hb as [-> | ->]; [split; reflexivity || discriminate|rewrite Z.mul_1_l; assumption]).
assert (n2 : word (bo * l2 blsfq_m)) by (destruct hb as [-> | ->]; [split; reflexivity || discriminate|rewrite Z.mul_1_l; assumption]).
assert (n3 : word (bo * l3 blsfq_m)) by (destruct hb as [-> | ->]; [split; reflexivity || discriminate|rewrite Z.mul_1_l; assumption]).
adc_step; adc_step; adc_step; adc_step.
split; [repeat split; cbn [l0 l1 l2 l3]; unfold word in *; lia|].
rewrite eval_4.
cbn [blsfq_m l0 l1 l2 l3] in *. rewrite blsfq_mE in *. unfold q_bls_ in *.
destruct (Z.ltb_spec (l0 x + W * l1 x + W * W * l2 x + W * W * W * l3 x) (l0 y + W * l1 y + W * W * l2 y + W * W * W * l3 y));
  destruct hb as [e | e]; rewrite e in *; word_lia.
Qed.

Lemma wf_m : wf blsfq_m. Proof. repeat split; discriminate. Qed.

Lemma add_spec x y : wf x -> wf y -> eval x < M -> eval y < M -> reduced blsfq_m 0 (blsfq_add x y) (eval x + eval y).
Proof.
intros hx hy lx ly; pose proof (eval_bound x hx); pose proof (eval_bound y hy).
destruct (words _ hx) as (x0 & x1 & x2 & x3), (words _ hy) as (y0 & y1 & y2 & y3).
unfold blsfq_add. adc_step; adc_step; adc_step; adc_step.
match goal with |- context [blsfq_sub ?t _] => set (u := t) end.
assert (hu : wf u) by (repeat split; cbn [u l0 l1 l2 l3]; unfold word in *; lia).
assert (eu : eval u = eval x + eval y).
{ unfold u; rewrite eval_4. rewrite (evalE x), (evalE y) in *. rewrite blsfq_mE in *. unfold q_bls_ in *. word_lia. }
destruct (sub_spec u blsfq_m hu wf_m) as [h1 h2]; try (rewrite eu; lia); [rewrite blsfq_mE; unfold q_bls_; lia|].
split; [exact h1|]. rewrite h2, eu.
destruct (Z.ltb_spec (eval x + eval y) M); split; try lia; [exists 0|exists (-1)]; lia.
Qed.

Lemma sub_reduced x y : wf x -> wf y -> eval x < M -> eval y < M -> reduced blsfq_m 0 (blsfq_sub x y) (eval x - eval y).
Proof.
intros hx hy lx ly; pose proof (eval_bound x hx); pose proof (eval_bound y hy).
destruct (sub_spec x y hx hy) as [h1 h2]; try lia.
split; [exact h1|]. rewrite h2.
destruct (Z.ltb_spec (eval x) (eval y)); split; try lia; [exists 1|exists 0]; lia.
Qed.

Lemma lor_word a b : word a -> word b -> word (Z.lor a b).
Proof.
intros ha hb; split; [apply Z.lor_nonneg; unfold word in *; lia|].
destruct (Z.eq_dec (Z.lor a b) 0) as [->|nz]; [reflexivity|].
assert (0 <= Z.lor a b) by (apply Z.lor_nonneg; unfold word in *; lia).
change W with (2 ^ 64). apply Z.log2_lt_pow2; [lia|]. rewrite Z.log2_lor by (unfold word in *; lia).
assert (l : forall z, word z -> Z.log2 z < 64).
{ intros z hz; destruct (Z.eq_dec z 0) as [->|]; [reflexivity|]. apply Z.log2_lt_pow2; unfold word in hz; [lia|]. exact (proj2 hz). }
apply Z.max_lub_lt; apply l; assumption.
Qed.
Lemma lor_zero a b : word a -> word b -> Z.lor a b = 0 -> a = 0 /\ b = 0.
Proof. intros _ _; apply Z.lor_eq_0_iff. Qed.

(** the mask of a nonzero word is all ones *)
Lemma nonzero_mask x : word x -> x <> 0 -> Z.shiftr (Z.lor x ((- x) mod W)) 63 = 1.
Proof.
intros hx nz. rewrite Z_mod_nz_opp_full by (rewrite Z.mod_small by exact hx; exact nz).
rewrite (Z.mod_small x) by exact hx.
assert (hn : word (W - x)) by (unfold word in *; lia).
rewrite Z.shiftr_lor. destruct (top x hx) as [r [? [[-> ?]|[-> ?]]]], (top _ hn) as [r' [? [[-> ?]|[-> ?]]]]; try reflexivity.
exfalso; word_lia.
Qed.

(** Neg: the modulus minus the argument; the mask never clears it *)
Lemma neg_spec x : wf x -> eval x < M -> wf (blsfq_neg x) /\ eval (blsfq_neg x) = M - eval x.
Proof.
intros hx lx; pose proof (eval_bound x hx).
destruct (words _ hx) as (x0 & x1 & x2 & x3).
assert (hm : word (l0 blsfq_m) /\ word (l1 blsfq_m) /\ word (l2 blsfq_m) /\ word (l3 blsfq_m)) by (repeat split; discriminate).
destruct hm as (m0 & m1 & m2 & m3).
unfold blsfq_neg. sbb_step; sbb_step; sbb_step; sbb_step. cbv zeta.
match goal with |- context [L4 (Z.land ?a _) (Z.land ?b _) (Z.land ?c _) (Z.land ?d _)] => set (t0 := a) in *; set (t1 := b) in *; set (t2 := c) in *; set (t3 := d) in * end.
assert (e : t0 + W * t1 + W * W * t2 + W * W * W * t3 = M - eval x).
{ rewrite (evalE x) in *. cbn [blsfq_m l0 l1 l2 l3] in *. rewrite blsfq_mE in *. unfold q_bls_ in *. word_lia. }
assert (w : word (Z.lor (Z.lor (Z.lor t0 t1) t2) t3)) by (repeat apply lor_word; assumption).
rewrite nonzero_mask; [|exact w|].
- rewrite !mask_cases, !Z.mul_1_l by (assumption || lia).
  split; [repeat split; cbn [l0 l1 l2 l3]; unfold word in *; lia|]. rewrite eval_4; exact e.
- intros h. apply Z.lor_eq_0_iff in h as [h ->]. apply Z.lor_eq_0_iff in h as [h ->]. apply Z.lor_eq_0_iff in h as [-> ->]. lia.
Qed.

(** Montgomery reduction *)
Lemma mac_clear r : word r -> exists hi, mac r ((r * qInv) mod W) (l0 blsfq_m) 0 = (0, hi) /\ word hi /\
  W * hi = r + ((r * qInv) mod W) * l0 blsfq_m.
Proof.
intros hr; pose proof (mac_ok r ((r * qInv) mod W) (l0 blsfq_m) 0) as h.
destruct (mac r _ _ 0) as [lo hi]. destruct h as (h1 & h2 & h3); [exact hr|apply Z.mod_pos_bound; reflexivity|split; [discriminate|reflexivity]|split; [discriminate|reflexivity]|].
exists hi. enough (lo = 0) as -> by (split; [reflexivity|split; [exact h2|lia]]).
rewrite <- (Z.mod_small lo W) by exact h1.
replace lo with (r + (r * qInv) mod W * l0 blsfq_m + (- hi) * W) by lia. rewrite Z.mod_add by discriminate.
rewrite <- Z.add_mod_idemp_r, Z.mul_mod_idemp_l, Z.add_mod_idemp_r by discriminate.
replace (r + r * qInv * l0 blsfq_m) with (r * (1 + qInv * l0 blsfq_m)) by ring.
change (1 + qInv * l0 blsfq_m) with (18446744065119617025 * W). rewrite Z.mul_assoc. apply Z.mod_mul; discriminate.
Qed.

Ltac clear_step k :=
  match goal with |- context [mac ?r ((?r * qInv) mod W) (l0 blsfq_m) 0] =>
    let h := fresh "K" in let e := fresh "E" in destruct (mac_clear r) as (? & e & ? & ?); [assumption|]; rewrite e; clear e;
    assert (h : word ((r * qInv) mod W)) by (apply Z.mod_pos_bound; reflexivity);
    set (k := (r * qInv) mod W) in * end.

Lemma twice a b : a * (2 * b) = a * b + a * b. Proof. ring. Qed.
Lemma reduce_spec r0 r1 r2 r3 r4 r5 r6 r7 :
  word r0 -> word r1 -> word r2 -> word r3 -> word r4 -> word r5 -> word r6 -> word r7 ->
  eval (L4 r0 r1 r2 r3) + 2 ^ 256 * eval (L4 r4 r5 r6 r7) < 2 ^ 256 * M ->
  reduced blsfq_m 256 (mont_reduce r0 r1 r2 r3 r4 r5 r6 r7) (eval (L4 r0 r1 r2 r3) + 2 ^ 256 * eval (L4 r4 r5 r6 r7)).
Proof.
intros h0 h1 h2 h3 h4 h5 h6 h7 hT. rewrite !eval_4 in *.
unfold mont_reduce; cbv zeta.
assert (hm : word (l0 blsfq_m) /\ word (l1 blsfq_m) /\ word (l2 blsfq_m) /\ word (l3 blsfq_m)) by (repeat split; discriminate).
destruct hm as (m0 & m1 & m2 & m3).
clear_step k0. mac_step; mac_step; mac_step; adc_step.
clear_step k1. mac_step; mac_step; mac_step; adc_step.
clear_step k2. mac_step; mac_step; mac_step; adc_step.
clear_step k3. mac_step; mac_step; mac_step; adc_step.
match goal with |- context [blsfq_sub ?t _] => set (u := t) end.
assert (hu : wf u) by (repeat split; cbn [u l0 l1 l2 l3]; unfold word in *; lia).
assert (eu : 2 ^ 256 * eval u = r0 + W * r1 + W * W * r2 + W * W * W * r3 + 2 ^ 256 * (r4 + W * r5 + W * W * r6 + W * W * W * r7)
   + (k0 + W * k1 + W * W * k2 + W * W * W * k3) * M).
{ unfold u; rewrite eval_4. cbn [blsfq_m l0 l1 l2 l3] in *. rewrite blsfq_mE in *. unfold q_bls_ in *.
  change (2 ^ 256) with (W * W * W * W) in *. word_lia. }
assert (hk : 0 <= k0 + W * k1 + W * W * k2 + W * W * W * k3 < 2 ^ 256) by (change (2 ^ 256) with (W * W * W * W); word_lia).
set (q := k0 + W * k1 + W * W * k2 + W * W * W * k3) in *.
set (T := r0 + W * r1 + W * W * r2 + W * W * W * r3 + 2 ^ 256 * (r4 + W * r5 + W * W * r6 + W * W * W * r7)) in *.
assert (M0 : 0 < M) by reflexivity.
assert (bu : 0 <= eval u < 2 * M) by
  (split; [apply (eval_bound u hu)|]; apply (Z.mul_lt_mono_pos_l (2 ^ 256)); [reflexivity|]; rewrite eu, twice;
   apply Z.add_lt_mono; [exact hT|apply Z.mul_lt_mono_pos_r; [exact M0|apply hk]]).
destruct (sub_spec u blsfq_m hu wf_m bu) as [s1 s2]; [lia|lia|].
split; [exact s1|]. rewrite s2.
destruct (Z.ltb_spec (eval u) M); (split; [lia|]); [exists q|exists (q - 2 ^ 256)]; lia.
Qed.

Lemma word0 : word 0. Proof. split; [discriminate|reflexivity]. Qed.

(** the eight words Mul hands to the reduction spell the product *)
Lemma mul_spec x y : wf x -> wf y -> eval y < M -> reduced blsfq_m 256 (blsfq_mul x y) (eval x * eval y).
Proof.
intros hx hy ly; pose proof (eval_bound x hx) as bx; pose proof (eval_bound y hy) as by_; pose proof word0.
destruct (words _ hx) as (x0 & x1 & x2 & x3), (words _ hy) as (y0 & y1 & y2 & y3).
assert (hb : eval x * eval y < 2 ^ 256 * M) by (assert (M0 : 0 < M) by reflexivity; nia).
unfold blsfq_mul. do 16 mac_step.
match goal with |- reduced _ _ (mont_reduce ?a ?b ?c ?d ?e ?f ?g ?h) _ =>
  assert (he : eval (L4 a b c d) + 2 ^ 256 * eval (L4 e f g h) = eval x * eval y) end.
{ clear hb bx by_ ly. rewrite !eval_4. rewrite (evalE x), (evalE y).
  generalize dependent (l0 x); intros; generalize dependent (l1 x); intros; generalize dependent (l2 x); intros; generalize dependent (l3 x); intros.
  generalize dependent (l0 y); intros; generalize dependent (l1 y); intros; generalize dependent (l2 y); intros; generalize dependent (l3 y); intros.
  change (2 ^ 256) with (W * W * W * W).
  repeat match goal with h : word _ |- _ => clear h end. solve_words. }
rewrite <- he in hb |- *. apply reduce_spec; assumption.
Qed.

Lemma lor_double e t : 0 <= e -> 0 <= t <= 1 -> Z.lor (2 * e) t = 2 * e + t.
Proof.
intros he ht; assert (h : t = 0 \/ t = 1) by lia; destruct h as [-> | ->]; [rewrite Z.lor_0_r; lia|].
destruct e as [|p|p]; [reflexivity|reflexivity|lia].
Qed.
Lemma top_bit x : word x -> 0 <= Z.shiftr x 63 <= 1.
Proof. intros h; destruct (top x h) as [r [? [[-> _]|[-> _]]]]; lia. Qed.
Lemma shl_ok x t : word x -> 0 <= t <= 1 ->
  word (Z.lor ((x * 2) mod W) t) /\ Z.lor ((x * 2) mod W) t + W * Z.shiftr x 63 = 2 * x + t.
Proof.
intros hx ht; destruct (top x hx) as [r [hr [[-> e]|[-> e]]]].
- rewrite Z.mod_small by word_lia. rewrite (Z.mul_comm x 2), lor_double by (unfold word in hx; lia). split; word_lia.
- replace ((x * 2) mod W) with (2 * r) by (apply (Z.mod_unique _ _ 1); [left|]; word_lia).
  rewrite lor_double by lia. split; word_lia.
Qed.

Lemma square_spec x : wf x -> eval x < M -> reduced blsfq_m 256 (blsfq_square x) (eval x * eval x).
Proof.
intros hx lx; pose proof (eval_bound x hx) as bx; pose proof word0.
destruct (words _ hx) as (x0 & x1 & x2 & x3).
assert (hb : eval x * eval x < 2 ^ 256 * M) by (assert (M0 : 0 < M) by reflexivity; nia).
unfold blsfq_square. do 6 mac_step. cbv zeta.
match goal with |- context [Z.lor ((?a6 * 2) mod W) (Z.shiftr ?a5 63)] =>
 match goal with |- context [Z.lor ((a5 * 2) mod W) (Z.shiftr ?a4 63)] =>
 match goal with |- context [Z.lor ((a4 * 2) mod W) (Z.shiftr ?a3 63)] =>
 match goal with |- context [Z.lor ((a3 * 2) mod W) (Z.shiftr ?a2 63)] =>
 match goal with |- context [Z.lor ((a2 * 2) mod W) (Z.shiftr ?a1 63)] =>
  destruct (shl_ok a6 (Z.shiftr a5 63)) as [s6 t6]; [assumption|apply top_bit; assumption|];
  destruct (shl_ok a5 (Z.shiftr a4 63)) as [s5 t5]; [assumption|apply top_bit; assumption|];
  destruct (shl_ok a4 (Z.shiftr a3 63)) as [s4 t4]; [assumption|apply top_bit; assumption|];
  destruct (shl_ok a3 (Z.shiftr a2 63)) as [s3 t3]; [assumption|apply top_bit; assumption|];
  destruct (shl_ok a2 (Z.shiftr a1 63)) as [s2 t2]; [assumption|apply top_bit; assumption|];
  destruct (shl_ok a1 0) as [s1 t1]; [assumption|lia|]; rewrite Z.lor_0_r in s1, t1;
  pose proof (top_bit a6 ltac:(assumption)) as b7;
  set (u6 := Z.lor ((a6 * 2) mod W) (Z.shiftr a5 63)) in *;
  set (u5 := Z.lor ((a5 * 2) mod W) (Z.shiftr a4 63)) in *;
  set (u4 := Z.lor ((a4 * 2) mod W) (Z.shiftr a3 63)) in *;
  set (u3 := Z.lor ((a3 * 2) mod W) (Z.shiftr a2 63)) in *;
  set (u2 := Z.lor ((a2 * 2) mod W) (Z.shiftr a1 63)) in *;
  set (u1 := (a1 * 2) mod W) in *; set (u7 := Z.shiftr a6 63) in *;
  set (v5 := Z.shiftr a5 63) in *; set (v4 := Z.shiftr a4 63) in *; set (v3 := Z.shiftr a3 63) in *;
  set (v2 := Z.shiftr a2 63) in *; set (v1 := Z.shiftr a1 63) in *
 end end end end end.
assert (s7 : word u7) by word_lia.
clearbody u1 u2 u3 u4 u5 u6 u7 v1 v2 v3 v4 v5.
mac_step; adc_step; mac_step; adc_step; mac_step; adc_step; mac_step; adc_step.
match goal with |- reduced _ _ (mont_reduce ?a ?b ?c ?d ?e ?f ?g ?h) _ =>
  match goal with hc : h + W * ?cy = _ |- _ =>
  assert (he : eval (L4 a b c d) + 2 ^ 256 * eval (L4 e f g h) + 2 ^ 512 * cy = eval x * eval x);
  [|assert (hz : cy = 0);
    [assert (h1 : 0 <= eval (L4 a b c d)) by (rewrite eval_4; word_lia);
     assert (h2 : 0 <= eval (L4 e f g h)) by (rewrite eval_4; word_lia);
     assert (h3 : 0 <= cy) by lia; revert h1 h2 h3 he hb;
     generalize (eval (L4 a b c d)) (eval (L4 e f g h)) cy (eval x * eval x)|
     rewrite hz, Z.mul_0_r, Z.add_0_r in he]] end end.
{ clear lx hb bx. rewrite !eval_4. rewrite (evalE x).
  repeat match goal with h : word _ |- _ => clear h end.
  repeat match goal with h : 0 <= _ <= 1 |- _ => clear h end.
  generalize dependent (l0 x); intros; generalize dependent (l1 x); intros; generalize dependent (l2 x); intros; generalize dependent (l3 x); intros.
  change (2 ^ 256) with (W * W * W * W) in *. change (2 ^ 512) with (W * W * W * W * (W * W * W * W)) in *. solve_words. }
{ clear; rewrite blsfq_mE; unfold q_bls_. change (2 ^ 256) with (W * W * W * W). change (2 ^ 512) with (W * W * W * W * (W * W * W * W)).
  intros A B c X; intros. word_lia. }
rewrite <- he in hb |- *. apply reduce_spec; assumption.
Qed.

Lemma from_spec x : wf x -> eval x < M -> reduced blsfq_m 256 (blsfq_from x) (eval x).
Proof.
intros hx lx; destruct (words _ hx) as (x0 & x1 & x2 & x3); pose proof word0; pose proof (eval_bound x hx).
assert (e : eval (L4 (l0 x) (l1 x) (l2 x) (l3 x)) + 2 ^ 256 * eval (L4 0 0 0 0) = eval x) by (rewrite !eval_4, (evalE x); ring).
unfold blsfq_from. rewrite <- e. apply reduce_spec; try assumption. rewrite e. assert (0 < M) by reflexivity. nia.
Qed.

Lemma to_spec x : wf x -> reduced blsfq_m 256 (blsfq_to x) (eval x * eval blsfq_r2).
Proof.
assert (h2 : wf blsfq_r2) by (repeat split; discriminate). assert (l2 : eval blsfq_r2 < M) by reflexivity.
intros hx; unfold blsfq_to; exact (mul_spec x blsfq_r2 hx h2 l2).
Qed.

Lemma blsfq_good : field_good blsfq.
Proof.
split.
- vm_compute; reflexivity.
- exact mul_spec.
- exact square_spec.
- exact add_spec.
- exact sub_reduced.
- exact from_spec.
- exact to_spec.
Qed.
Lemma blsfq_opp x : wf x -> 0 < eval x < M -> reduced (f_m blsfq) 0 (opp blsfq x) (- eval x).
Proof.
intros hx lx; destruct (neg_spec x hx) as [h1 h2]; [lia|]. split; [exact h1|]. change (f_m blsfq) with blsfq_m.
unfold opp; cbn [f_opp blsfq]; rewrite h2; split; [lia|exists 1; lia].
Qed.

(** Selectznz is [select] *)
Lemma select_same c a b : 0 <= c <= 1 -> wf a -> wf b -> blsfq_select c a b = select c a b.
Proof.
intros hc ha hb. rewrite select_ok by assumption.
assert (h : c = 0 \/ c = 1) by lia; destruct a as [a0 a1 a2 a3], b as [b0 b1 b2 b3]; unfold wf in *; cbn [l0 l1 l2 l3] in *.
destruct h as [-> | ->]; unfold blsfq_select; cbv zeta; cbn [l0 l1 l2 l3 Z.eqb Pos.eqb].
- change ((- 0) mod W) with 0. rewrite !Z.land_0_r, !Z.lxor_0_r. reflexivity.
- change ((- (1)) mod W) with (Z.ones 64).
  assert (e : forall x y, 0 <= x < W -> 0 <= y < W -> Z.lxor x (Z.land (Z.lxor x y) (Z.ones 64)) = y).
  { intros x y hx hy. rewrite Z.land_ones by lia. rewrite Z.mod_small.
    - rewrite <- Z.lxor_assoc, Z.lxor_nilpotent. apply Z.lxor_0_l.
    - assert (hn : 0 <= Z.lxor x y) by (apply Z.lxor_nonneg; lia). split; [exact hn|].
      destruct (Z.eq_dec (Z.lxor x y) 0) as [->|nz]; [reflexivity|]. apply Z.log2_lt_pow2; [lia|].
      eapply Z.le_lt_trans; [apply Z.log2_lxor; lia|].
      assert (l : forall z, 0 <= z < W -> Z.log2 z < 64).
      { intros z hz; destruct (Z.eq_dec z 0) as [->|]; [reflexivity|]. apply Z.log2_lt_pow2; [lia|]. exact (proj2 hz). }
      apply Z.max_lub_lt; apply l; assumption. }
  rewrite !e by tauto. reflexivity.
Qed.
