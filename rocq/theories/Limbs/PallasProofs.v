(** The Pallas point codec over the limb code. *)
From Coq Require Import ZArith Znumtheory NArith List Bool Lia.
From Verif Require Import Limbs.Model Limbs.Spec Limbs.Ops Limbs.FieldModel Limbs.FieldInst Limbs.FieldProofs Limbs.ApiProofs
  Limbs.RootProofs Limbs.CmpProofs Limbs.PointModel Limbs.PastafpCode Limbs.PropsField Limbs.PropsCodec Limbs.PointProofs.
Import ListNotations.
Local Open Scope Z_scope.

Notation M := p_pasta.
Notation f := pastafp.
(** Jacobian limbs standing for an affine point or infinity: x = X / Z^2, y = Y / Z^3 *)
Definition ep_stands (p : point) (o : option (Z * Z)) : Prop :=
  match o with
  | None => (exists a, enc M (px p) a) /\ (exists b, enc M (py p) b) /\ enc M (pz p) 0
  | Some (x, y) => 0 <= x < M /\ 0 <= y < M /\
      exists z, z <> 0 /\ enc M (pz p) z /\ enc M (px p) ((x * (z * z)) mod M) /\ enc M (py p) ((y * (z * z * z)) mod M)
  end.

Lemma hp0 : In (f, M) pastas. Proof. left; reflexivity. Qed.
Lemma hn0 : In (f, M) natives. Proof. apply pastas_native, hp0. Qed.
Lemma M1 : 1 < M. Proof. reflexivity. Qed.
Lemma Mn0 : M <> 0. Proof. discriminate. Qed.
Lemma Modd : M mod 2 = 1. Proof. reflexivity. Qed.
Lemma M255 : M < 2 ^ 255. Proof. reflexivity. Qed.
Lemma Mneg : M <> q_bls. Proof. discriminate. Qed.
#[local] Opaque p_pasta.

Lemma pmul x y a b : enc M x a -> enc M y b -> enc M (mul f x y) ((a * b) mod M).
Proof. intros hx hy; exact (proj1 (C74_ring f M x y a b hn0 hx hy)). Qed.
Lemma psqr x a : enc M x a -> enc M (square f x) ((a * a) mod M).
Proof. intros hx; exact (proj1 (proj2 (C74_ring f M x x a a hn0 hx hx))). Qed.
Lemma padd x y a b : enc M x a -> enc M y b -> enc M (add f x y) ((a + b) mod M).
Proof. intros hx hy; exact (proj1 (proj2 (proj2 (C74_ring f M x y a b hn0 hx hy)))). Qed.
Lemma popp x a : enc M x a -> enc M (opp f x) ((- a) mod M).
Proof. intros hx; exact (proj1 (proj2 (proj2 (proj2 (proj2 (C74_ring f M x x a a hn0 hx hx))))) (or_introl Mneg)). Qed.
Lemma pone : enc M (f_r f) 1. Proof. exact (proj1 (C74_conversions f M hn0)). Qed.
Lemma pzero : enc M zero4 0. Proof. exact (proj1 (proj2 (C74_conversions f M hn0))). Qed.
Lemma pfive : enc M (set_uint64 f 5) 5.
Proof. apply (proj1 (proj2 (proj2 (C74_conversions f M hn0)))). split; [discriminate|reflexivity]. Qed.
Lemma pequal x y a b : enc M x a -> enc M y b -> (equal_helper x y =? 1) = (a =? b).
Proof. intros hx hy; rewrite (proj1 (C74_tests f M x y a b hn0 hx hy)); destruct (a =? b); reflexivity. Qed.
Lemma piszero x a : enc M x a -> (is_zero x =? 1) = (a =? 0).
Proof. intros hx; rewrite (proj1 (proj2 (C74_tests f M x x a a hn0 hx hx))); destruct (a =? 0); reflexivity. Qed.
Lemma pbytes_parity x v : enc M x v -> Z.land (hd 0 (bytes f x)) 1 = v mod 2.
Proof.
intros hx; destruct (C45_bytes f M x v hn0 hx) as (_ & h & _). rewrite land1, <- parity_number, le_value_eq, h; reflexivity.
Qed.

Lemma rhs_pallas_enc x v : enc M x v -> enc M (rhs_pallas x) ((v * v * v + 0 * v + 5) mod M).
Proof.
intros hx; unfold rhs_pallas; pose proof (padd _ _ _ _ (pmul _ _ _ _ hx (psqr _ _ hx)) pfive) as h.
rewrite Z.mul_mod_idemp_r, Z.add_mod_idemp_l in h by exact Mn0.
replace (v * v * v + 0 * v + 5) with (v * (v * v) + 5) by ring; exact h.
Qed.
Lemma ep_stands_affine X Y x y : enc M X x -> enc M Y y -> ep_stands (Pt X Y (f_r f)) (Some (x, y)).
Proof.
intros hx hy; split; [apply hx|split; [apply hy|]]; exists 1; split; [lia|split; [exact pone|]]; cbn [px py].
rewrite !Z.mul_1_r, !Z.mod_small by (first [apply hx|apply hy]); split; assumption.
Qed.
Lemma ep_on_curve_one X Y x y : enc M X x -> enc M Y y ->
  (ep_on_curve (Pt X Y (f_r f)) = true <-> on_curve M 0 5 x y).
Proof.
intros hx hy; unfold ep_on_curve; cbv zeta; cbn [px py pz].
rewrite (piszero _ _ pone); change (1 =? 0) with false; rewrite orb_false_l.
pose proof (psqr _ _ pone) as z2; change (1 * 1) with 1 in z2; rewrite Z.mod_small in z2 by (pose proof M1; lia).
pose proof (psqr _ _ z2) as z4; change (1 * 1) with 1 in z4; rewrite Z.mod_small in z4 by (pose proof M1; lia).
pose proof (pmul _ _ _ _ z2 z4) as z6; change (1 * 1) with 1 in z6; rewrite Z.mod_small in z6 by (pose proof M1; lia).
pose proof (padd _ _ _ _ (pmul _ _ _ _ pfive z6) (pmul _ _ _ _ (psqr _ _ hx) hx)) as hr.
rewrite Z.mul_mod_idemp_l, Z.add_mod_idemp_l, Z.add_mod_idemp_r in hr by exact Mn0.
replace (5 * 1 + x * x * x) with (x * x * x + 0 * x + 5) in hr by ring.
rewrite (pequal _ _ _ _ (psqr _ _ hy) hr); unfold on_curve; apply Z.eqb_eq.
Qed.

Lemma ep_affine_some p x y : prime M -> ep_stands p (Some (x, y)) ->
  exists X Y, ep_to_affine p = Pt X Y (f_r f) /\ enc M X x /\ enc M Y y.
Proof.
intros hp (hx & hy & z & hz & ez & ex & ey); unfold ep_to_affine.
rewrite (piszero _ _ ez), (proj2 (Z.eqb_neq z 0) hz).
destruct (C74_pasta_invert f M pastafp_invert (pz p) z (or_introl eq_refl) ez) as (zi & w & -> & hw & _ & hinv).
specialize (hinv hz hp); cbn [fst].
pose proof (psqr _ _ hw) as w2; pose proof (pmul _ _ _ _ hw w2) as w3.
pose proof (pmul _ _ _ _ ex w2) as h1; pose proof (pmul _ _ _ _ ey w3) as h2.
pose proof M1 as hM.
assert (e2 : (z * z * ((w * w) mod M)) mod M = 1).
{ rewrite Z.mul_mod_idemp_r by exact Mn0. replace (z * z * (w * w)) with (z * w * (z * w)) by ring.
  rewrite Zmult_mod, hinv. apply Z.mod_small; lia. }
assert (e3 : (z * z * z * ((w * ((w * w) mod M)) mod M)) mod M = 1).
{ rewrite Z.mul_mod_idemp_r by exact Mn0. rewrite (Z.mul_assoc (z * z * z) w), Z.mul_mod_idemp_r by exact Mn0.
  replace (z * z * z * w * (w * w)) with (z * w * (z * w * (z * w))) by ring.
  rewrite Zmult_mod, hinv, Z.mul_1_l, Zmod_mod, Zmult_mod, hinv. apply Z.mod_small; lia. }
rewrite (mod_mul_cancel M x _ _ hM hx e2) in h1. rewrite (mod_mul_cancel M y _ _ hM hy e3) in h2.
eexists; eexists; split; [reflexivity|split; assumption].
Qed.
Lemma ep_affine_none p : ep_stands p None -> ep_to_affine p = Pt zero4 zero4 (f_r f).
Proof. intros (_ & _ & ez); unfold ep_to_affine; rewrite (piszero _ _ ez); reflexivity. Qed.

(** last byte *)
Lemma split31 bs : byte_string 32 bs -> exists l b, bs = l ++ [b] /\ length l = 31%nat /\ all_bytes l /\ 0 <= b < 256 /\
  nth 31 bs 0 = b /\ (forall h, update_last h bs = l ++ [h b]).
Proof.
intros [hl hb]; exists (firstn 31 bs), (nth 31 bs 0).
assert (h1 : length (firstn 31 bs) = 31%nat) by (rewrite firstn_length; lia).
assert (h2 : length (skipn 31 bs) = 1%nat) by (rewrite skipn_length; lia).
assert (e : skipn 31 bs = [nth 31 bs 0]).
{ rewrite <- (firstn_skipn 31 bs) at 2. rewrite app_nth2, h1 by lia. rewrite Nat.sub_diag.
  destruct (skipn 31 bs) as [|b [|]]; try discriminate h2; reflexivity. }
split; [rewrite <- e; symmetry; apply firstn_skipn|split; [exact h1|split; [apply is_bytes_firstn, hb|split]]].
- pose proof (is_bytes_skipn 31 _ hb) as hs; rewrite e in hs; exact (Forall_inv hs).
- split; [reflexivity|intros h; unfold update_last; rewrite e; reflexivity].
Qed.
Lemma le_app_last l b : length l = 31%nat -> le_value (l ++ [b]) = le_value l + 2 ^ 248 * b.
Proof.
intros h; rewrite <- !le_value_eq, number_app, h; cbn [number]; rewrite Z.mul_0_r, Z.add_0_r; reflexivity.
Qed.
Lemma last_small l b : length l = 31%nat -> all_bytes l -> 0 <= b -> le_value (l ++ [b]) < M -> b < 128.
Proof.
intros h1 h2 hb h; rewrite le_app_last in h by exact h1. pose proof (number_bound l h2) as hn; rewrite le_value_eq in hn.
pose proof M255 as hM. change (2 ^ 255) with (2 ^ 248 * 128) in hM. nia.
Qed.
Lemma masked bs : byte_string 32 bs -> byte_string 32 (update_last (fun b => Z.land b 127) bs).
Proof.
intros h; destruct (split31 bs h) as (l & b & _ & h1 & h2 & h3 & _ & h4); rewrite h4; split.
- rewrite app_length, h1; reflexivity.
- apply Forall_app; split; [exact h2|constructor; [|constructor]].
  change 127 with (Z.ones 7); rewrite Z.land_ones by lia. change (2 ^ 7) with 128. pose proof (Z.mod_pos_bound b 128 ltac:(lia)); lia.
Qed.

Definition top_bit_cleared (bs : list Z) : list Z := update_last (fun b => Z.land b 127) bs.
(** the field decoder's verdict on a 32-byte string *)
Definition pasta_accepts (bs : list Z) : Prop := wrap_order (msf (from_bytes bs)) (msf (f_m f)) = -1.

Lemma ep_from_compressed_ok bs : all_bytes bs -> prime M ->
  match ep_from_compressed bs with
  | None => length bs <> 32%nat \/ ~ pasta_accepts (top_bit_cleared bs) \/
            (forall y, ~ on_curve M 0 5 (le_value (top_bit_cleared bs) mod M) y)
  | Some p => length bs = 32%nat /\ pasta_accepts (top_bit_cleared bs) /\
      exists y, on_curve M 0 5 (le_value (top_bit_cleared bs) mod M) y /\ (y = 0 \/ y mod 2 = nth 31 bs 0 / 128) /\
                ep_stands p (Some (le_value (top_bit_cleared bs) mod M, y))
  end.
Proof.
intros hb hp; unfold ep_from_compressed, pasta_accepts, top_bit_cleared.
destruct (Nat.eqb_spec (length bs) 32) as [hl|hl]; cbn [negb]; [|left; exact hl]; cbv zeta.
assert (hbs : byte_string 32 bs) by (split; assumption).
pose proof (C45_pasta_set_bytes f M _ hp0 (masked bs hbs)) as hs.
set (ms := update_last (fun b => Z.land b 127) bs) in *.
destruct (set_bytes_with pasta_cmp f ms) as [X|]; [|right; left; exact hs].
destruct hs as [ha hx]; set (x := le_value ms mod M) in *.
destruct (C74_pasta_sqrt f M pastafp_sqrt _ _ (or_introl eq_refl) (rhs_pallas_enc X x hx)) as (Y & w & r & -> & hy & hw & hsq).
specialize (hsq hp). destruct w; cbn [negb].
- assert (hrr : (r * r) mod M = (x * x * x + 0 * x + 5) mod M) by (apply hw; reflexivity).
  assert (hsg : Z.land (Z.shiftr (nth 31 bs 0) 7) 1 = nth 31 bs 0 / 128).
  { destruct (split31 bs hbs) as (_ & b & _ & _ & _ & hb8 & -> & _). rewrite land1, Z.shiftr_div_pow2 by lia. change (2 ^ 7) with 128.
    apply Z.mod_small; split; [apply Z.div_pos; lia|apply Z.div_lt_upper_bound; lia]. }
  assert (hs2 : 0 <= nth 31 bs 0 / 128 < 2).
  { destruct (split31 bs hbs) as (_ & b & _ & _ & _ & hb8 & -> & _). split; [apply Z.div_pos; lia|apply Z.div_lt_upper_bound; lia]. }
  rewrite (pbytes_parity Y r hy), hsg.
  destruct (Z.eqb_spec (r mod 2) (nth 31 bs 0 / 128)) as [ep|np].
  + assert (ho : ep_on_curve (Pt X Y (f_r f)) = true) by (apply (ep_on_curve_one X Y x r hx hy); exact hrr).
    rewrite ho; split; [exact hl|split; [exact ha|exists r]].
    split; [exact hrr|split; [right; exact ep|apply ep_stands_affine; assumption]].
  + pose proof (popp _ _ hy) as hy'.
    assert (hrr' : on_curve M 0 5 x ((- r) mod M)) by (unfold on_curve; rewrite <- Zmult_mod, Z.mul_opp_opp; exact hrr).
    assert (ho : ep_on_curve (Pt X (opp f Y) (f_r f)) = true) by (apply (ep_on_curve_one X _ x _ hx hy'); exact hrr').
    rewrite ho; split; [exact hl|split; [exact ha|exists ((- r) mod M)]].
    split; [exact hrr'|split; [|apply ep_stands_affine; assumption]].
    destruct (Z.eq_dec r 0) as [->|n0]; [left; apply Z.mod_0_l, Mn0|right].
    assert (hrb : 0 <= r < M) by apply hy.
    replace ((- r) mod M) with (M - r) by (apply (Z.mod_unique _ _ (-1)); lia).
    rewrite Zminus_mod, Modd. pose proof (Z.mod_pos_bound r 2 ltac:(lia)).
    assert (e2 : r mod 2 = 0 /\ nth 31 bs 0 / 128 = 1 \/ r mod 2 = 1 /\ nth 31 bs 0 / 128 = 0) by lia.
    destruct e2 as [[-> ->]|[-> ->]]; reflexivity.
- right; right; intros y hyc. assert (e : false = true) by (apply hsq; exists y; exact hyc); discriminate e.
Qed.

Lemma sign_bits b s : 0 <= b < 128 -> 0 <= s < 2 -> Z.lor b (Z.shiftl s 7) = b + 128 * s /\ Z.land (b + 128 * s) 127 = b.
Proof.
intros hb hs; split.
- rewrite Z.shiftl_mul_pow2 by lia; change (2 ^ 7) with 128.
  assert (e : s = 0 \/ s = 1) by lia; destruct e as [-> | ->]; [rewrite Z.mul_0_l, Z.lor_0_r; ring|].
  change (1 * 128) with (2 ^ 7); change (128 * 1) with (2 ^ 7).
  rewrite <- Z.lxor_lor, <- Z.add_nocarry_lxor; try lia.
  + apply Z.bits_inj'; intros i hi; rewrite Z.land_spec, Z.bits_0, Z.pow2_bits_eqb by lia.
    destruct (Z.eqb_spec 7 i) as [<-|]; [|apply andb_false_r].
    rewrite andb_true_r; apply (Z.bits_above_log2); [lia|].
    destruct (Z.eq_dec b 0) as [->|]; [reflexivity|apply Z.log2_lt_pow2; [lia|exact (proj2 hb)]].
  + apply Z.bits_inj'; intros i hi; rewrite Z.land_spec, Z.bits_0, Z.pow2_bits_eqb by lia.
    destruct (Z.eqb_spec 7 i) as [<-|]; [|apply andb_false_r].
    rewrite andb_true_r; apply (Z.bits_above_log2); [lia|].
    destruct (Z.eq_dec b 0) as [->|]; [reflexivity|apply Z.log2_lt_pow2; [lia|exact (proj2 hb)]].
- change 127 with (Z.ones 7); rewrite Z.land_ones by lia; change (2 ^ 7) with 128.
  replace (b + 128 * s) with (b + s * 128) by ring; rewrite Z.mod_add by lia; apply Z.mod_small, hb.
Qed.

Lemma ep_to_compressed_some p x y : prime M -> ep_stands p (Some (x, y)) ->
  exists bs, ep_to_compressed p = bs /\ byte_string 32 bs /\ le_value (top_bit_cleared bs) = x /\ nth 31 bs 0 / 128 = y mod 2.
Proof.
intros hp hs; destruct (ep_affine_some p x y hp hs) as (X & Y & e & hx & hy); unfold ep_to_compressed; rewrite e; cbn [px py pz].
rewrite (piszero _ _ pone); change (1 =? 0) with false; cbv iota.
destruct (C45_bytes f M X x hn0 hx) as (hb & hv & _).
destruct (split31 _ hb) as (l & b & el & h1 & h2 & h3 & _ & h4).
assert (hlt : b < 128) by (apply (last_small l b h1 h2); [lia|rewrite <- el, hv; apply hx]).
assert (hy2 : 0 <= y mod 2 < 2) by (apply Z.mod_pos_bound; lia).
rewrite h4, (pbytes_parity Y y hy). destruct (sign_bits b (y mod 2) ltac:(lia) hy2) as [-> hm].
assert (hbs : byte_string 32 (l ++ [b + 128 * (y mod 2)])).
{ split; [rewrite app_length, h1; reflexivity|apply Forall_app; split; [exact h2|constructor; [lia|constructor]]]. }
eexists; split; [reflexivity|split; [exact hbs|]].
destruct (split31 _ hbs) as (l' & b' & el' & k1 & k2 & k3 & -> & k4). apply app_inj_tail in el'; destruct el' as [<- <-].
split.
- unfold top_bit_cleared; rewrite k4, hm, <- el; exact hv.
- rewrite Z.mul_comm, Z.div_add, (Z.div_small b 128) by lia; reflexivity.
Qed.
Lemma ep_to_compressed_none p : ep_stands p None -> ep_to_compressed p = repeat 0 32.
Proof.
intros hs; unfold ep_to_compressed; rewrite (ep_affine_none p hs); cbn [px py pz].
rewrite (piszero _ _ pone); change (1 =? 0) with false; cbv iota.
assert (e : bytes f zero4 = repeat 0 32).
{ destruct (C45_bytes f M zero4 0 hn0 pzero) as ([h1 h2] & h3 & _).
  rewrite <- (bytes_of_number (bytes f zero4) 32 h2 h1), le_value_eq, h3; reflexivity. }
rewrite e; reflexivity.
Qed.

Lemma accepts_canonical bs : byte_string 32 bs -> le_value bs < M -> (pasta_accepts bs <-> ~ in_hole M (le_value bs)).
Proof.
intros hb hv; pose proof (C45_pasta_canonical f M bs hp0 hb hv) as hc; pose proof (C45_pasta_set_bytes f M bs hp0 hb) as hs.
unfold pasta_accepts; destruct (set_bytes_with pasta_cmp f bs).
- split; [intros _ hh; apply hc in hh; discriminate|intros _; apply hs].
- split; [intros h; contradiction|intros h; exfalso; apply h, hc; reflexivity].
Qed.

Lemma proots_pm y y' : prime M -> 0 <= y < M -> 0 <= y' < M -> (y * y) mod M = (y' * y') mod M -> y' = y \/ y' = (- y) mod M.
Proof.
intros hp hy hy' h. pose proof M1.
assert (hd : (M | (y' - y) * (y' + y))).
{ apply Z.mod_divide; [lia|]. replace ((y' - y) * (y' + y)) with (y' * y' - y * y) by ring.
  rewrite Zminus_mod, h, Z.sub_diag; apply Z.mod_0_l; lia. }
destruct (prime_mult _ hp _ _ hd) as [[k hk]|[k hk]].
- left; assert (k = 0) by nia; lia.
- right; assert (hk2 : k = 0 \/ k = 1) by nia. destruct hk2 as [-> | ->].
  + assert (y = 0) by lia; assert (y' = 0) by lia; subst; symmetry; apply Z.mod_0_l; lia.
  + apply (Z.mod_unique _ _ (-1)); lia.
Qed.

Lemma ep_round p x y : prime M -> ep_stands p (Some (x, y)) -> on_curve M 0 5 x y ->
  (~ in_hole M x -> exists q, ep_from_compressed (ep_to_compressed p) = Some q /\ ep_stands q (Some (x, y))) /\
  (in_hole M x -> ep_from_compressed (ep_to_compressed p) = None).
Proof.
intros hp hs ho; destruct (ep_to_compressed_some p x y hp hs) as (bs & -> & hb & hv & hsg).
destruct hs as (hxr & hyr & _). pose proof (masked bs hb) as hm; fold (top_bit_cleared bs) in hm.
pose proof (accepts_canonical _ hm ltac:(rewrite hv; lia)) as hacc; rewrite hv in hacc.
pose proof (ep_from_compressed_ok bs (proj2 hb) hp) as h; rewrite hv, Z.mod_small in h by exact hxr.
destruct (ep_from_compressed bs) as [q|].
- destruct h as (_ & ha & y' & ho' & hpy & hs'); apply hacc in ha; split; [intros _|intros hh; contradiction].
  exists q; split; [reflexivity|].
  assert (hyr' : 0 <= y' < M) by apply hs'.
  destruct (proots_pm y y' hp hyr hyr' ltac:(unfold on_curve in *; congruence)) as [->|e]; [exact hs'|].
  destruct (Z.eq_dec y 0) as [->|n0]; [rewrite Z.mod_0_l in e by exact Mn0; subst y'; exact hs'|].
  exfalso. replace ((- y) mod M) with (M - y) in e by (apply (Z.mod_unique _ _ (-1)); lia).
  rewrite hsg in hpy. destruct hpy as [h0|h0]; [lia|].
  pose proof (Z.mod_pos_bound y 2 ltac:(lia)).
  rewrite e, Zminus_mod, Modd in h0.
  assert (e2 : y mod 2 = 0 \/ y mod 2 = 1) by lia. destruct e2 as [e2|e2]; rewrite e2 in h0; discriminate h0.
- split; [intros nh; exfalso|reflexivity].
  destruct h as [h|[h|h]]; [exact (h (proj1 hb))|apply h, hacc, nh|exact (h y ho)].
Qed.

Lemma ep_from_uncompressed_ok bs : all_bytes bs ->
  match ep_from_uncompressed bs with
  | None => length bs <> 64%nat \/ ~ pasta_accepts (firstn 32 bs) \/ ~ pasta_accepts (skipn 32 bs) \/
            ~ on_curve M 0 5 (le_value (firstn 32 bs) mod M) (le_value (skipn 32 bs) mod M)
  | Some p => length bs = 64%nat /\ pasta_accepts (firstn 32 bs) /\ pasta_accepts (skipn 32 bs) /\
              on_curve M 0 5 (le_value (firstn 32 bs) mod M) (le_value (skipn 32 bs) mod M) /\
              ep_stands p (Some (le_value (firstn 32 bs) mod M, le_value (skipn 32 bs) mod M))
  end.
Proof.
intros hb; unfold ep_from_uncompressed, pasta_accepts.
destruct (Nat.eqb_spec (length bs) 64) as [hl|hl]; cbn [negb]; [|left; exact hl].
assert (h1 : byte_string 32 (firstn 32 bs)) by (split; [rewrite firstn_length; lia|apply is_bytes_firstn, hb]).
assert (h2 : byte_string 32 (skipn 32 bs)) by (split; [rewrite skipn_length; lia|apply is_bytes_skipn, hb]).
pose proof (C45_pasta_set_bytes f M _ hp0 h1) as k1; pose proof (C45_pasta_set_bytes f M _ hp0 h2) as k2.
destruct (set_bytes_with pasta_cmp f (firstn 32 bs)) as [X|]; [|right; left; exact k1].
destruct (set_bytes_with pasta_cmp f (skipn 32 bs)) as [Y|]; [|right; right; left; exact k2].
destruct k1 as [a1 hx], k2 as [a2 hy]. cbv zeta. pose proof (ep_on_curve_one X Y _ _ hx hy) as ho.
destruct (ep_on_curve (Pt X Y (f_r f))).
- split; [exact hl|split; [exact a1|split; [exact a2|split; [apply ho; reflexivity|apply ep_stands_affine; assumption]]]].
- right; right; right; intros k; apply ho in k; discriminate.
Qed.
