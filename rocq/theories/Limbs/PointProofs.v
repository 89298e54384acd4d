(** Point codecs over the limb code: what they decode. *)
From Coq Require Import ZArith Znumtheory NArith List Bool Lia.
From Verif Require Import Limbs.Model Limbs.Spec Limbs.Ops Limbs.FieldModel Limbs.FieldInst Limbs.FieldProofs Limbs.ApiProofs
  Limbs.RootProofs Limbs.PointModel Limbs.K256fpCode Limbs.P256fpCode Limbs.PastafpCode Limbs.PropsField Limbs.PropsCodec.
Import ListNotations.
Local Open Scope Z_scope.

(** ** specification *)
(** most significant byte first *)
Definition be_value (bs : list Z) : Z := fold_left (fun acc b => 256 * acc + b) bs 0.
Definition all_bytes (bs : list Z) : Prop := Forall (fun b => 0 <= b < 256) bs.
(** y^2 = x^3 + A x + B modulo M *)
Definition on_curve (M A B x y : Z) : Prop := (y * y) mod M = (x * x * x + A * x + B) mod M.
(** projective limbs standing for an affine point (Some) or for the point at infinity (None) *)
Definition stands (M : Z) (p : point) (o : option (Z * Z)) : Prop :=
  match o with
  | None => (exists a, enc M (px p) a) /\ (exists b, enc M (py p) b) /\ enc M (pz p) 0
  | Some (x, y) => 0 <= x < M /\ 0 <= y < M /\
      exists z, z <> 0 /\ enc M (pz p) z /\ enc M (px p) ((x * z) mod M) /\ enc M (py p) ((y * z) mod M)
  end.

(** ** bytes *)
Lemma be_app l : forall acc, fold_left (fun acc b => 256 * acc + b) l acc = be_value l + 256 ^ Z.of_nat (length l) * acc.
Proof.
unfold be_value; induction l as [|b l IH]; intros acc; [cbn [fold_left length]; rewrite Z.pow_0_r; ring|].
cbn [fold_left length]; rewrite IH, (IH (256 * 0 + b)), Nat2Z.inj_succ, Z.pow_succ_r by lia; ring.
Qed.
Lemma be_rev bs : be_value bs = le_value (rev bs).
Proof.
rewrite <- le_value_eq; induction bs as [|b bs IH]; [reflexivity|].
cbn [rev]; rewrite number_app, <- IH, rev_length; unfold be_value at 1; cbn [fold_left].
rewrite be_app; cbn [number]; ring.
Qed.
Lemma be_rev' bs : be_value (rev bs) = le_value bs.
Proof. rewrite be_rev, rev_involutive; reflexivity. Qed.
Lemma all_rev bs : all_bytes bs -> all_bytes (rev bs).
Proof. intros h; apply Forall_rev, h. Qed.
Lemma parity_number bs : number bs mod 2 = hd 0 bs mod 2.
Proof.
destruct bs as [|b bs]; [reflexivity|]; cbn [number hd].
replace (b + 256 * number bs) with (b + (128 * number bs) * 2) by ring. apply Z.mod_add; lia.
Qed.
Lemma land1 a : Z.land a 1 = a mod 2.
Proof. change 1 with (Z.ones 1); rewrite Z.land_ones by lia; reflexivity. Qed.
Lemma lor2 a : 0 <= a < 2 -> Z.lor 2 a = 2 + a.
Proof. intros h; assert (e : a = 0 \/ a = 1) by lia; destruct e as [-> | ->]; reflexivity. Qed.

Lemma mod_mul_cancel M x z w : 1 < M -> 0 <= x < M -> (z * w) mod M = 1 -> ((x * z) mod M * w) mod M = x.
Proof.
intros hM hx h; rewrite Z.mul_mod_idemp_l by lia; rewrite <- Z.mul_assoc, <- Z.mul_mod_idemp_r, h, Z.mul_1_r by lia.
apply Z.mod_small, hx.
Qed.

(** ** curves *)
Record good (c : wcurve) (M A B : Z) : Prop := Good {
  g_in : In (c_f c, M) primes256;
  g_neg : M <> q_bls;
  g_inv : In (c_f c, M, c_inv c) inverters;
  g_sqrt : In (c_f c, M, c_sqrt c) rooters;
  g_a : match c_a c with None => A = 0 | Some a => enc M a A end;
  g_b : enc M (c_b c) B;
  g_odd : M mod 2 = 1 }.

Section Curve.
Variables (c : wcurve) (M A B : Z).
Hypothesis hc : good c M A B.
Let f := c_f c.
Let hn : In (f, M) natives. Proof. apply primes256_native, (g_in _ _ _ _ hc). Qed.
Let M1 : 1 < M. Proof. destruct (natives_ok _ _ hn) as [hf <-]. destruct (consts f hf) as (_ & _ & _ & _ & h & _); exact h. Qed.
Let hmul x y a b : enc M x a -> enc M y b -> enc M (mul f x y) ((a * b) mod M).
Proof. intros hx hy; exact (proj1 (C74_ring f M x y a b hn hx hy)). Qed.
Let hsqr x a : enc M x a -> enc M (square f x) ((a * a) mod M).
Proof. intros hx; exact (proj1 (proj2 (C74_ring f M x x a a hn hx hx))). Qed.
Let hadd x y a b : enc M x a -> enc M y b -> enc M (add f x y) ((a + b) mod M).
Proof. intros hx hy; exact (proj1 (proj2 (proj2 (C74_ring f M x y a b hn hx hy)))). Qed.
Let hopp x a : enc M x a -> enc M (opp f x) ((- a) mod M).
Proof. intros hx; exact (proj1 (proj2 (proj2 (proj2 (proj2 (C74_ring f M x x a a hn hx hx))))) (or_introl (g_neg _ _ _ _ hc))). Qed.
Let hone : enc M (f_r f) 1. Proof. exact (proj1 (C74_conversions f M hn)). Qed.
Let hzero : enc M zero4 0. Proof. exact (proj1 (proj2 (C74_conversions f M hn))). Qed.
Let wf0 : wf zero4. Proof. apply hzero. Qed.

Lemma rhs_enc x v : enc M x v -> enc M (rhs_eq c x) ((v * v * v + A * v + B) mod M).
Proof.
intros hx; unfold rhs_eq; cbv zeta; fold f.
pose proof (hadd _ _ _ _ (hmul _ _ _ _ (hsqr _ _ hx) hx) (g_b _ _ _ _ hc)) as h3.
rewrite Z.mul_mod_idemp_l, Z.add_mod_idemp_l in h3 by lia.
pose proof (g_a _ _ _ _ hc) as ha; destruct (c_a c) as [a|].
- pose proof (hadd _ _ _ _ h3 (hmul _ _ _ _ ha hx)) as h4. rewrite Z.add_mod_idemp_l, Z.add_mod_idemp_r in h4 by lia.
  replace (v * v * v + A * v + B) with (v * v * v + B + A * v) by ring; exact h4.
- rewrite ha, Z.mul_0_l, Z.add_0_r; exact h3.
Qed.

Lemma affine_some p x y : prime M -> stands M p (Some (x, y)) ->
  exists X Y, to_affine c p = Pt X Y (f_r f) /\ enc M X x /\ enc M Y y.
Proof.
intros hp (hx & hy & z & hz & ez & ex & ey); unfold to_affine; fold f.
destruct (C74_invert f M (c_inv c) zero4 (pz p) z (g_inv _ _ _ _ hc) wf0 ez) as [_ h].
destruct (h hz) as (zi & w & -> & hw & hinv); specialize (hinv hp).
pose proof (hmul _ _ _ _ ex hw) as h1; pose proof (hmul _ _ _ _ ey hw) as h2.
rewrite mod_mul_cancel in h1, h2 by assumption.
exists (mul f (px p) zi), (mul f (py p) zi).
rewrite !select_ok by (first [lia|exact wf0|apply h1|apply h2|apply hone]).
split; [reflexivity|split; assumption].
Qed.
Lemma affine_none p : stands M p None -> to_affine c p = identity.
Proof.
intros ((a & ha) & (b & hb) & ez); unfold to_affine; fold f.
destruct (C74_invert f M (c_inv c) zero4 (pz p) 0 (g_inv _ _ _ _ hc) wf0 ez) as [h _]; rewrite (h eq_refl).
pose proof (hmul _ _ _ _ ha hzero) as h1; pose proof (hmul _ _ _ _ hb hzero) as h2.
rewrite !select_ok by (first [lia|exact wf0|apply h1|apply h2|apply hone]); reflexivity.
Qed.
Lemma stands_affine X Y x y : enc M X x -> enc M Y y -> stands M (Pt X Y (f_r f)) (Some (x, y)).
Proof.
intros hx hy; split; [apply hx|split; [apply hy|]]; exists 1; split; [lia|split; [exact hone|]]; cbn [px py].
rewrite !Z.mul_1_r, !Z.mod_small by (first [apply hx|apply hy]); split; assumption.
Qed.

Lemma on_curve_ok p x y : prime M -> stands M p (Some (x, y)) -> (is_on_curve c p = true <-> on_curve M A B x y).
Proof.
intros hp hs; destruct (affine_some p x y hp hs) as (X & Y & e & hx & hy); unfold is_on_curve; rewrite e; cbn [px py]; fold f.
pose proof (hsqr _ _ hy) as h1; pose proof (rhs_enc _ _ hx) as h2.
destruct (natives_ok _ _ hn) as [hf eM]; rewrite <- eM in h1, h2.
rewrite (equal_enc f hf _ _ _ _ h1 h2), eM; unfold on_curve.
destruct (Z.eqb_spec ((y * y) mod M) ((x * x * x + A * x + B) mod M)); split; intros h; try assumption; try reflexivity;
  [discriminate|contradiction].
Qed.

Lemma bytes_parity x v : enc M x v -> Z.land (hd 0 (bytes f x)) 1 = v mod 2.
Proof.
intros hx; destruct (C45_bytes f M x v hn hx) as (_ & h & _). rewrite land1, <- parity_number, le_value_eq, h; reflexivity.
Qed.

Lemma to_compressed_some p x y : prime M -> stands M p (Some (x, y)) ->
  exists tl, to_compressed c p = (2 + y mod 2) :: tl /\ length tl = 32%nat /\ all_bytes tl /\ be_value tl = x.
Proof.
intros hp hs; destruct (affine_some p x y hp hs) as (X & Y & e & hx & hy); unfold to_compressed; rewrite e; cbn [px py]; fold f.
exists (rev (bytes f X)); destruct (C45_bytes f M X x hn hx) as ([h1 h2] & h3 & _).
split; [|split; [rewrite rev_length; exact h1|split; [apply all_rev, h2|rewrite be_rev'; exact h3]]].
rewrite (bytes_parity Y y hy), lor2 by (apply Z.mod_pos_bound; lia); reflexivity.
Qed.
Lemma bytes_zero : bytes f zero4 = repeat 0 32.
Proof.
destruct (C45_bytes f M zero4 0 hn hzero) as ([h1 h2] & h3 & _).
rewrite <- (bytes_of_number (bytes f zero4) 32 h2 h1), le_value_eq, h3; reflexivity.
Qed.
Lemma to_compressed_none p : stands M p None -> to_compressed c p = 2 :: repeat 0 32.
Proof. intros hs; unfold to_compressed; rewrite (affine_none p hs); cbn [identity px py]; fold f; rewrite bytes_zero; reflexivity. Qed.
Lemma to_uncompressed_some p x y : prime M -> stands M p (Some (x, y)) ->
  exists bx yb, to_uncompressed c p = 4 :: bx ++ yb /\ length bx = 32%nat /\ length yb = 32%nat /\ all_bytes bx /\ all_bytes yb /\
  be_value bx = x /\ be_value yb = y.
Proof.
intros hp hs; destruct (affine_some p x y hp hs) as (X & Y & e & hx & hy); unfold to_uncompressed; rewrite e; cbn [px py]; fold f.
exists (rev (bytes f X)), (rev (bytes f Y)); destruct (C45_bytes f M X x hn hx) as ([h1 h2] & h3 & _).
destruct (C45_bytes f M Y y hn hy) as ([k1 k2] & k3 & _). rewrite !rev_length, !be_rev'.
split; [reflexivity|]; repeat (split; [first [assumption|apply all_rev; assumption]|]); assumption.
Qed.

Lemma set_rev bs : length bs = 32%nat -> all_bytes bs ->
  match set_bytes f (rev bs) with Some x => be_value bs < M /\ enc M x (be_value bs) | None => M <= be_value bs end.
Proof.
intros hl hb; rewrite be_rev; apply (C45_set_bytes_canonical f M _ (g_in _ _ _ _ hc)).
split; [rewrite rev_length; exact hl|apply all_rev, hb].
Qed.

Lemma from_compressed_ok bs : all_bytes bs -> prime M ->
  match from_compressed c bs with
  | None => length bs <> 33%nat \/ (hd 0 bs <> 2 /\ hd 0 bs <> 3) \/ M <= be_value (tl bs)
  | Some p => length bs = 33%nat /\ (hd 0 bs = 2 \/ hd 0 bs = 3) /\ be_value (tl bs) < M /\
      ((exists y, on_curve M A B (be_value (tl bs)) y /\ (y = 0 \/ y mod 2 = hd 0 bs mod 2) /\
                  stands M p (Some (be_value (tl bs), y))) \/
       (forall y, ~ on_curve M A B (be_value (tl bs)) y) /\ p = identity)
  end.
Proof.
intros hb hp; unfold from_compressed; fold f; cbv zeta.
destruct (Nat.eqb_spec (length bs) 33) as [hl|hl]; cbn [negb]; [|left; exact hl].
destruct ((negb (hd 0 bs =? 2)) && negb (hd 0 bs =? 3)) eqn:es.
{ right; left. destruct (Z.eqb_spec (hd 0 bs) 2), (Z.eqb_spec (hd 0 bs) 3); try discriminate es; tauto. }
assert (hs : hd 0 bs = 2 \/ hd 0 bs = 3).
{ destruct (Z.eqb_spec (hd 0 bs) 2), (Z.eqb_spec (hd 0 bs) 3); try tauto; discriminate es. }
clear es. destruct bs as [|s bs]; [discriminate hl|]; cbn [hd skipn tl] in *.
injection hl as hl; pose proof (Forall_inv_tail hb) as hb'.
pose proof (set_rev bs hl hb') as hx; destruct (set_bytes_with cmp_helper f (rev bs)) as [X|]; [|right; right; exact hx].
destruct hx as [hlt hx]; set (x := be_value bs) in *.
pose proof (rhs_enc X x hx) as hr.
destruct (C74_sqrt f M (c_sqrt c) zero4 _ _ (g_sqrt _ _ _ _ hc) wf0 hr) as (Y & w & r & -> & hcase & hiff); specialize (hiff hp).
destruct hcase as [(-> & hy & hrr)|(-> & _)].
- rewrite Z.eqb_refl. rewrite (bytes_parity Y r hy), land1.
  split; [simpl length; rewrite hl; reflexivity|split; [exact hs|split; [exact hlt|left]]].
  destruct (Z.eqb_spec (r mod 2) (s mod 2)) as [ep|np].
  + exists r; split; [exact hrr|split; [right; exact ep|apply stands_affine; assumption]].
  + exists ((- r) mod M); split; [|split; [|apply stands_affine; [exact hx|apply hopp, hy]]].
    * unfold on_curve; rewrite <- Zmult_mod, Z.mul_opp_opp; exact hrr.
    * destruct (Z.eq_dec r 0) as [->|n0]; [left; apply Z.mod_0_l; lia|right].
      assert (hrb : 0 <= r < M) by apply hy.
      replace ((- r) mod M) with (M - r) by (apply (Z.mod_unique _ _ (-1)); lia).
      pose proof (g_odd _ _ _ _ hc). rewrite Zminus_mod.
      pose proof (Z.mod_pos_bound r 2 ltac:(lia)); pose proof (Z.mod_pos_bound s 2 ltac:(lia)).
      assert (e2 : r mod 2 = 0 /\ s mod 2 = 1 \/ r mod 2 = 1 /\ s mod 2 = 0) by lia.
      destruct e2 as [[-> ->]|[-> ->]]; rewrite H; reflexivity.
- rewrite (proj2 (Z.eqb_neq 0 1)) by lia.
  split; [simpl length; rewrite hl; reflexivity|split; [exact hs|split; [exact hlt|right]]].
  split; [|reflexivity]. intros y hy; assert (h01 : 0 = 1) by (apply hiff; exists y; exact hy); discriminate h01.
Qed.

Lemma roots_pm y y' : prime M -> 0 <= y < M -> 0 <= y' < M -> (y * y) mod M = (y' * y') mod M -> y' = y \/ y' = (- y) mod M.
Proof.
intros hp hy hy' h.
assert (hd : (M | (y' - y) * (y' + y))).
{ apply Z.mod_divide; [lia|]. replace ((y' - y) * (y' + y)) with (y' * y' - y * y) by ring.
  rewrite Zminus_mod, h, Z.sub_diag; apply Z.mod_0_l; lia. }
destruct (prime_mult _ hp _ _ hd) as [[k hk]|[k hk]].
- left; assert (k = 0) by nia; lia.
- right; assert (hk2 : k = 0 \/ k = 1) by nia. destruct hk2 as [-> | ->].
  + assert (y = 0) by lia; assert (y' = 0) by lia; subst; symmetry; apply Z.mod_0_l; lia.
  + apply (Z.mod_unique _ _ (-1)); lia.
Qed.

Lemma compressed_round p x y : prime M -> stands M p (Some (x, y)) -> on_curve M A B x y ->
  exists q, from_compressed c (to_compressed c p) = Some q /\ stands M q (Some (x, y)).
Proof.
intros hp hs ho; destruct (to_compressed_some p x y hp hs) as (t & -> & hl & hb & hv).
destruct hs as (hxr & hyr & _).
assert (hpar : 0 <= y mod 2 < 2) by (apply Z.mod_pos_bound; lia).
assert (hall : all_bytes ((2 + y mod 2) :: t)) by (constructor; [lia|exact hb]).
pose proof (from_compressed_ok _ hall hp) as h; cbn [hd tl length] in h; rewrite hl, hv in h.
destruct (from_compressed c ((2 + y mod 2) :: t)) as [q|]; [|exfalso; lia].
exists q; split; [reflexivity|].
destruct h as (_ & _ & _ & [(y' & ho' & hpy & hs')|(hno & _)]); [|exfalso; exact (hno y ho)].
assert (hyr' : 0 <= y' < M) by apply hs'.
destruct (roots_pm y y' hp hyr hyr' ltac:(unfold on_curve in *; congruence)) as [->|e]; [exact hs'|].
destruct (Z.eq_dec y 0) as [->|n0].
- rewrite Z.mod_0_l in e by lia; subst y'; exact hs'.
- exfalso. replace ((- y) mod M) with (M - y) in e by (apply (Z.mod_unique _ _ (-1)); lia).
  pose proof (g_odd _ _ _ _ hc) as hodd.
  assert (hpy2 : y' mod 2 = y mod 2).
  { destruct hpy as [h0|h0]; [lia|]. rewrite h0. rewrite <- Zplus_mod_idemp_l. change (2 mod 2) with 0. rewrite Z.add_0_l; apply Zmod_mod. }
  rewrite e, Zminus_mod, hodd in hpy2.
  assert (e2 : y mod 2 = 0 \/ y mod 2 = 1) by lia. destruct e2 as [e2|e2]; rewrite e2 in hpy2; discriminate hpy2.
Qed.

Lemma from_uncompressed_ok bs : all_bytes bs ->
  match from_uncompressed c bs with
  | None => length bs <> 65%nat \/ hd 0 bs <> 4 \/ M <= be_value (firstn 32 (tl bs)) \/ M <= be_value (skipn 32 (tl bs))
  | Some p => length bs = 65%nat /\ hd 0 bs = 4 /\ stands M p (Some (be_value (firstn 32 (tl bs)), be_value (skipn 32 (tl bs))))
  end.
Proof.
intros hb; unfold from_uncompressed; fold f.
destruct (Nat.eqb_spec (length bs) 65) as [hl|hl]; cbn [negb]; [|left; exact hl].
destruct (Z.eqb_spec (hd 0 bs) 4) as [hs|hs]; cbn [negb]; [|right; left; exact hs].
destruct bs as [|s bs]; [discriminate hl|]; cbn [hd tl] in *.
change (skipn 1 (s :: bs)) with bs; change (skipn 33 (s :: bs)) with (skipn 32 bs).
injection hl as hl; pose proof (Forall_inv_tail hb) as hb'.
assert (h1 : length (firstn 32 bs) = 32%nat) by (rewrite firstn_length; lia).
assert (h2 : length (skipn 32 bs) = 32%nat) by (rewrite skipn_length; lia).
pose proof (set_rev _ h1 (is_bytes_firstn 32 _ hb')) as k1; pose proof (set_rev _ h2 (is_bytes_skipn 32 _ hb')) as k2.
destruct (set_bytes_with cmp_helper f (rev (firstn 32 bs))) as [X|]; [|right; right; left; exact k1].
destruct (set_bytes_with cmp_helper f (rev (skipn 32 bs))) as [Y|]; [|right; right; right; exact k2].
split; [simpl length; rewrite hl; reflexivity|split; [exact hs|apply stands_affine; [apply k1|apply k2]]].
Qed.

Lemma uncompressed_round p x y : prime M -> stands M p (Some (x, y)) ->
  exists q, from_uncompressed c (to_uncompressed c p) = Some q /\ stands M q (Some (x, y)).
Proof.
intros hp hs; destruct (to_uncompressed_some p x y hp hs) as (bx & yb & -> & hl1 & hl2 & b1 & b2 & v1 & v2).
assert (hall : all_bytes (4 :: bx ++ yb)) by (constructor; [lia|apply Forall_app; split; assumption]).
pose proof (from_uncompressed_ok _ hall) as h; cbn [hd tl length] in h.
rewrite app_length, hl1, hl2 in h.
assert (e1 : firstn 32 (bx ++ yb) = bx) by (rewrite <- hl1, firstn_app, firstn_all, Nat.sub_diag, firstn_O, app_nil_r; reflexivity).
assert (e2 : skipn 32 (bx ++ yb) = yb) by (rewrite <- hl1, skipn_app, skipn_all, Nat.sub_diag; reflexivity).
rewrite e1, e2, v1, v2 in h.
destruct hs as (hx & hy & _).
destruct (from_uncompressed c (4 :: bx ++ yb)) as [q|]; [exists q; split; [reflexivity|apply h]|exfalso; simpl in h; lia].
Qed.

Lemma set_affine_ok x y : prime M ->
  match set_affine c x y with
  | None => (x mod M <> 0 \/ y mod M <> 0) /\ ~ on_curve M A B (x mod M) (y mod M)
  | Some p => x mod M = 0 /\ y mod M = 0 /\ p = identity \/
              (x mod M <> 0 \/ y mod M <> 0) /\ on_curve M A B (x mod M) (y mod M) /\ stands M p (Some (x mod M, y mod M))
  end.
Proof.
intros hp; unfold set_affine; fold f; cbv zeta.
pose proof (C45_set_bigint f M zero4 x (g_in _ _ _ _ hc)) as hx; pose proof (C45_set_bigint f M zero4 y (g_in _ _ _ _ hc)) as hy.
set (X := set_bigint f zero4 x) in *; set (Y := set_bigint f zero4 y) in *.
destruct (C74_tests f M X Y _ _ hn hx hy) as (_ & -> & _); destruct (C74_tests f M Y X _ _ hn hy hx) as (_ & -> & _).
assert (cases : (x mod M = 0 /\ y mod M = 0) \/ ((x mod M <> 0 \/ y mod M <> 0))) by lia.
destruct cases as [[ex ey]|hne].
- rewrite ex, ey; simpl (Z.land _ _). rewrite !select_ok by (first [lia|exact wf0|apply hx|apply hy|apply hone]).
  rewrite andb_comm; simpl. left; split; [reflexivity|split; reflexivity].
- assert (e0 : Z.land (if x mod M =? 0 then 1 else 0) (if y mod M =? 0 then 1 else 0) = 0).
  { destruct (Z.eqb_spec (x mod M) 0), (Z.eqb_spec (y mod M) 0); try reflexivity; lia. }
  rewrite e0. rewrite !select_ok by (first [lia|exact wf0|apply hx|apply hy|apply hone]). cbn [Z.eqb]; rewrite andb_true_r.
  pose proof (stands_affine X Y _ _ hx hy) as hs. pose proof (on_curve_ok _ _ _ hp hs) as ho.
  destruct (is_on_curve c (Pt X Y (f_r f))) eqn:eo; cbn [negb].
  + right; split; [exact hne|split; [apply ho; reflexivity|exact hs]].
  + split; [exact hne|]. intros k; apply ho in k; discriminate.
Qed.
End Curve.
