(** C47: decoding of K256, P256 and Pallas points. *)
From Coq Require Import ZArith Znumtheory Zpow_facts NArith List Bool Lia.
From Verif Require Import Limbs.Model Limbs.Spec Limbs.Ops Limbs.FieldModel Limbs.FieldInst Limbs.FieldProofs Limbs.ApiProofs
  Limbs.RootProofs Limbs.CmpProofs Limbs.PointModel Limbs.K256fpCode Limbs.P256fpCode Limbs.PastafpCode
  Limbs.PropsField Limbs.PropsCodec Limbs.PointProofs Limbs.PallasProofs.
Import ListNotations.
Local Open Scope Z_scope.

Definition b_p256 : Z := 0x5ac635d8aa3a93e7b3ebbd55769886bc651d06b0cc53b0f63bce3c3e27d2604b.
(** the curves y^2 = x^3 + A x + B modulo M: secp256k1 and P-256 *)
Definition curves : list (wcurve * (Z * Z * Z)) :=
  [(k256_curve, (p_k256, 0, 7)); (p256_curve, (p_p256, p_p256 - 3, b_p256))].
Lemma h7 : 0 <= 7 < 2 ^ 64. Proof. split; [discriminate|reflexivity]. Qed.
Lemma curves_good c M A B : In (c, (M, A, B)) curves -> good c M A B.
Proof.
intros h; simpl in h; destruct h as [h|[h|[]]]; injection h as <- <- <- <-; constructor.
- left; reflexivity.
- discriminate.
- left; reflexivity.
- left; reflexivity.
- reflexivity.
- exact (proj1 (proj2 (proj2 (C74_conversions k256fp p_k256 (or_introl eq_refl)))) 7 h7).
- reflexivity.
- right; right; left; reflexivity.
- discriminate.
- right; right; left; reflexivity.
- right; right; left; reflexivity.
- split; [repeat split; first [discriminate|reflexivity]|split; [split; [discriminate|reflexivity]|vm_compute; reflexivity]].
- split; [repeat split; first [discriminate|reflexivity]|split; [split; [discriminate|reflexivity]|vm_compute; reflexivity]].
- reflexivity.
Qed.

(** FromAffineCompressed: errors exactly on a bad length, tag or x >= M; an x with a point decodes to the point with the
    tag's parity; an x without a point decodes, without error, to the identity *)
Theorem C47_compressed_decode c M A B bs : In (c, (M, A, B)) curves -> all_bytes bs -> prime M ->
  match from_compressed c bs with
  | None => length bs <> 33%nat \/ (hd 0 bs <> 2 /\ hd 0 bs <> 3) \/ M <= be_value (tl bs)
  | Some p => length bs = 33%nat /\ (hd 0 bs = 2 \/ hd 0 bs = 3) /\ be_value (tl bs) < M /\
      ((exists y, on_curve M A B (be_value (tl bs)) y /\ (y = 0 \/ y mod 2 = hd 0 bs mod 2) /\
                  stands M p (Some (be_value (tl bs), y))) \/
       (forall y, ~ on_curve M A B (be_value (tl bs)) y) /\ p = identity)
  end.
Proof. intros h; apply from_compressed_ok, curves_good, h. Qed.
Print Assumptions C47_compressed_decode.

Theorem C47_compressed_round_trip c M A B p x y : In (c, (M, A, B)) curves -> prime M ->
  stands M p (Some (x, y)) -> on_curve M A B x y ->
  exists q, from_compressed c (to_compressed c p) = Some q /\ stands M q (Some (x, y)).
Proof. intros h; exact (compressed_round c M A B (curves_good _ _ _ _ h) p x y). Qed.
Print Assumptions C47_compressed_round_trip.

(** FromAffineUncompressed: no curve check, every pair of canonical coordinates is accepted *)
Theorem C47_uncompressed_decode c M A B bs : In (c, (M, A, B)) curves -> all_bytes bs ->
  match from_uncompressed c bs with
  | None => length bs <> 65%nat \/ hd 0 bs <> 4 \/ M <= be_value (firstn 32 (tl bs)) \/ M <= be_value (skipn 32 (tl bs))
  | Some p => length bs = 65%nat /\ hd 0 bs = 4 /\
              stands M p (Some (be_value (firstn 32 (tl bs)), be_value (skipn 32 (tl bs))))
  end.
Proof. intros h; exact (from_uncompressed_ok c M A B (curves_good _ _ _ _ h) bs). Qed.
Print Assumptions C47_uncompressed_decode.

Theorem C47_uncompressed_round_trip c M A B p x y : In (c, (M, A, B)) curves -> prime M -> stands M p (Some (x, y)) ->
  exists q, from_uncompressed c (to_uncompressed c p) = Some q /\ stands M q (Some (x, y)).
Proof. intros h; exact (uncompressed_round c M A B (curves_good _ _ _ _ h) p x y). Qed.
Print Assumptions C47_uncompressed_round_trip.

(** refuted: decoding returns only curve points *)
Definition one_one : list Z := 4 :: (repeat 0 31 ++ [1]) ++ (repeat 0 31 ++ [1]).
Theorem C47_uncompressed_on_curve_refuted c M A B : In (c, (M, A, B)) curves ->
  exists p, from_uncompressed c one_one = Some p /\ stands M p (Some (1, 1)) /\ ~ on_curve M A B 1 1 /\
            (prime M -> is_on_curve c p = false).
Proof.
intros h; assert (hall : all_bytes one_one) by (repeat constructor; discriminate).
pose proof (C47_uncompressed_decode c M A B one_one h hall) as hd.
assert (hno : ~ on_curve M A B 1 1).
{ simpl in h; destruct h as [h|[h|[]]]; injection h as <- <- <- <-; vm_compute; discriminate. }
destruct (from_uncompressed c one_one) as [p|].
- exists p; split; [reflexivity|]; destruct hd as (_ & _ & hs). split; [exact hs|split; [exact hno|]].
  intros hp; pose proof (on_curve_ok c M A B (curves_good _ _ _ _ h) p 1 1 hp hs) as ho.
  destruct (is_on_curve c p); [exfalso; apply hno, ho; reflexivity|reflexivity].
- exfalso; simpl in h; destruct h as [h|[h|[]]]; injection h as <- <- <- <-;
    destruct hd as [hd|[hd|[hd|hd]]]; vm_compute in hd; try (apply hd; reflexivity); auto.
Qed.
Print Assumptions C47_uncompressed_on_curve_refuted.

(** the identity encodes as 02 00..00 on both curves *)
Theorem C47_identity_encoding c M A B p : In (c, (M, A, B)) curves -> stands M p None -> to_compressed c p = 2 :: repeat 0 32.
Proof. intros h; exact (to_compressed_none c M A B (curves_good _ _ _ _ h) p). Qed.
Print Assumptions C47_identity_encoding.

Lemma zero_bytes : all_bytes (2 :: repeat 0 32).
Proof. repeat constructor; discriminate. Qed.
(** exponentiation by squaring modulo M = 2^k - c, folding instead of dividing, to evaluate Euler's criterion *)
Definition fold_once (k c x : Z) : Z := Z.land x (Z.ones k) + c * Z.shiftr x k.
Definition fold3 (k c x : Z) : Z := fold_once k c (fold_once k c (fold_once k c x)).
Fixpoint powfold (k c b : Z) (e : positive) : Z :=
  match e with
  | xH => b
  | xO e' => powfold k c (fold3 k c (b * b)) e'
  | xI e' => fold3 k c (b * powfold k c (fold3 k c (b * b)) e')
  end.
Lemma fold_once_ok M k c x : 0 <= k -> M = 2 ^ k - c -> fold_once k c x mod M = x mod M.
Proof.
intros hk e; unfold fold_once; rewrite Z.land_ones, Z.shiftr_div_pow2 by exact hk.
assert (h : 2 ^ k <> 0) by (apply Z.pow_nonzero; lia).
rewrite (Z.div_mod x (2 ^ k) h) at 3. replace (2 ^ k) with (M + c) at 3 by lia.
replace ((M + c) * (x / 2 ^ k) + x mod 2 ^ k) with (x mod 2 ^ k + c * (x / 2 ^ k) + (x / 2 ^ k) * M) by ring.
destruct (Z.eq_dec M 0) as [->|hM]; [rewrite Z.mul_0_r, Z.add_0_r; reflexivity|rewrite Z.mod_add by exact hM; reflexivity].
Qed.
Lemma fold3_ok M k c x : 0 <= k -> M = 2 ^ k - c -> fold3 k c x mod M = x mod M.
Proof. intros hk e; unfold fold3; rewrite !(fold_once_ok M) by assumption; reflexivity. Qed.
Lemma powfold_ok M k c e : 1 < M -> 0 <= k -> M = 2 ^ k - c -> forall b, powfold k c b e mod M = b ^ Zpos e mod M.
Proof.
intros hM hk eM; induction e as [e IH|e IH|]; intros b; cbn [powfold].
- rewrite (fold3_ok M) by assumption. rewrite <- Z.mul_mod_idemp_r, IH, Zpower_mod, (fold3_ok M), <- Zpower_mod by (assumption || lia).
  rewrite Z.mul_mod_idemp_r, Pos2Z.inj_xI, <- Z.pow_2_r, <- Z.pow_mul_r, Z.add_comm, Z.pow_add_r, Z.pow_1_r by lia. reflexivity.
- rewrite IH, Zpower_mod, (fold3_ok M), <- Zpower_mod, (Pos2Z.inj_xO e) by (assumption || lia).
  rewrite <- Z.pow_2_r, <- Z.pow_mul_r by lia. reflexivity.
- rewrite Z.pow_1_r; reflexivity.
Qed.
Lemma k256_7 : 7 ^ 57896044618658097711785492504343953926634992332820282019728792003954417335831 mod p_k256 = p_k256 - 1.
Proof. rewrite <- (powfold_ok p_k256 256 (2 ^ 32 + 977)) by (discriminate || reflexivity). vm_compute. reflexivity. Qed.
Lemma pallas_5 : 5 ^ 14474011154664524427946373126085988481681528240970780357977338382174983815168 mod p_pasta = p_pasta - 1.
Proof.
rewrite <- (powfold_ok p_pasta 254 (- 0x224698fc094cf91b992d30ed00000001)) by (discriminate || reflexivity). vm_compute. reflexivity.
Qed.

(** K256: it decodes back to the identity; only because 7 is no square *)
Theorem C47_k256_identity_round_trip p : prime p_k256 -> stands p_k256 p None ->
  from_compressed k256_curve (to_compressed k256_curve p) = Some identity.
Proof.
intros hp hs; assert (h : In (k256_curve, (p_k256, 0, 7)) curves) by (left; reflexivity).
rewrite (C47_identity_encoding _ _ _ _ p h hs).
pose proof (C47_compressed_decode _ _ _ _ _ h zero_bytes hp) as hd.
change (be_value (tl (2 :: repeat 0 32))) with 0 in hd.
destruct (from_compressed k256_curve (2 :: repeat 0 32)) as [q|].
2:{ exfalso; destruct hd as [hd|[[hd _]|hd]]; [apply hd; reflexivity|apply hd; reflexivity|apply hd; reflexivity]. }
destruct hd as (_ & _ & _ & [(y & ho & _)|[_ ->]]); [exfalso|reflexivity].
unfold on_curve in ho. replace ((0 * 0 * 0 + 0 * 0 + 7) mod p_k256) with 7 in ho by (vm_compute; reflexivity).
destruct (natives_ok k256fp p_k256 (or_introl eq_refl)) as [hf eM].
assert (hsq : is_square k256fp 7) by (exists y; rewrite eM; exact ho).
assert (h7 : 0 < 7 < eval (f_m k256fp)) by (rewrite eM; split; reflexivity).
assert (hp' : prime (eval (f_m k256fp))) by (rewrite eM; exact hp).
destruct (euler k256fp hf 7 hp' h7 hsq) as [e|e]; rewrite eM in e; [|discriminate e].
change ((p_k256 - 1) / 2) with (Zpos 57896044618658097711785492504343953926634992332820282019728792003954417335831) in e.
rewrite k256_7 in e; discriminate e.
Qed.
Print Assumptions C47_k256_identity_round_trip.

(** P-256: it decodes to a point with x = 0 *)
Theorem C47_p256_identity_round_trip_refuted p : prime p_p256 -> stands p_p256 p None ->
  exists q y, from_compressed p256_curve (to_compressed p256_curve p) = Some q /\ stands p_p256 q (Some (0, y)) /\
              on_curve p_p256 (p_p256 - 3) b_p256 0 y.
Proof.
intros hp hs; assert (h : In (p256_curve, (p_p256, p_p256 - 3, b_p256)) curves) by (right; left; reflexivity).
rewrite (C47_identity_encoding _ _ _ _ p h hs).
pose proof (C47_compressed_decode _ _ _ _ _ h zero_bytes hp) as hd.
change (be_value (tl (2 :: repeat 0 32))) with 0 in hd.
destruct (from_compressed p256_curve (2 :: repeat 0 32)) as [q|].
2:{ exfalso; destruct hd as [hd|[[hd _]|hd]]; [apply hd; reflexivity|apply hd; reflexivity|apply hd; reflexivity]. }
destruct hd as (_ & _ & _ & [(y & ho & _ & hy)|[hno _]]); [exists q, y; split; [reflexivity|split; assumption]|exfalso].
apply (hno 0x66485c780e2f83d72433bd5d84a06bb6541c2af31dae871728bf856a174f93f4); vm_compute; reflexivity.
Qed.
Print Assumptions C47_p256_identity_round_trip_refuted.

(** Point.Set reduces its integers, then accepts exactly the curve points and (0, 0), which is the identity *)
Theorem C47_set c M A B x y : In (c, (M, A, B)) curves -> prime M ->
  match set_affine c x y with
  | None => (x mod M <> 0 \/ y mod M <> 0) /\ ~ on_curve M A B (x mod M) (y mod M)
  | Some p => x mod M = 0 /\ y mod M = 0 /\ p = identity \/
              (x mod M <> 0 \/ y mod M <> 0) /\ on_curve M A B (x mod M) (y mod M) /\ stands M p (Some (x mod M, y mod M))
  end.
Proof. intros h; exact (set_affine_ok c M A B (curves_good _ _ _ _ h) x y). Qed.
Print Assumptions C47_set.

(** ** Pallas *)
Theorem C47_pallas_compressed_decode bs : all_bytes bs -> prime p_pasta ->
  match ep_from_compressed bs with
  | None => length bs <> 32%nat \/ ~ pasta_accepts (top_bit_cleared bs) \/
            (forall y, ~ on_curve p_pasta 0 5 (le_value (top_bit_cleared bs) mod p_pasta) y)
  | Some p => length bs = 32%nat /\ pasta_accepts (top_bit_cleared bs) /\
      exists y, on_curve p_pasta 0 5 (le_value (top_bit_cleared bs) mod p_pasta) y /\ (y = 0 \/ y mod 2 = nth 31 bs 0 / 128) /\
                ep_stands p (Some (le_value (top_bit_cleared bs) mod p_pasta, y))
  end.
Proof. apply ep_from_compressed_ok. Qed.
Print Assumptions C47_pallas_compressed_decode.

Lemma pallas_decode_at bs t v : all_bytes bs -> prime p_pasta -> top_bit_cleared bs = t -> le_value t mod p_pasta = v ->
  match ep_from_compressed bs with
  | None => length bs <> 32%nat \/ ~ pasta_accepts t \/ (forall y, ~ on_curve p_pasta 0 5 v y)
  | Some p => exists y, on_curve p_pasta 0 5 v y /\ ep_stands p (Some (v, y))
  end.
Proof.
intros h hp <- <-; pose proof (C47_pallas_compressed_decode bs h hp) as hd.
destruct (ep_from_compressed bs); [|exact hd]. destruct hd as (_ & _ & y & ho & _ & hs); exists y; split; assumption.
Qed.

Theorem C47_pallas_uncompressed_decode bs : all_bytes bs ->
  match ep_from_uncompressed bs with
  | None => length bs <> 64%nat \/ ~ pasta_accepts (firstn 32 bs) \/ ~ pasta_accepts (skipn 32 bs) \/
            ~ on_curve p_pasta 0 5 (le_value (firstn 32 bs) mod p_pasta) (le_value (skipn 32 bs) mod p_pasta)
  | Some p => length bs = 64%nat /\ pasta_accepts (firstn 32 bs) /\ pasta_accepts (skipn 32 bs) /\
              on_curve p_pasta 0 5 (le_value (firstn 32 bs) mod p_pasta) (le_value (skipn 32 bs) mod p_pasta) /\
              ep_stands p (Some (le_value (firstn 32 bs) mod p_pasta, le_value (skipn 32 bs) mod p_pasta))
  end.
Proof. apply ep_from_uncompressed_ok. Qed.
Print Assumptions C47_pallas_uncompressed_decode.

(** a Pallas point survives the compressed round trip exactly when its x is outside the field decoder's hole *)
Theorem C47_pallas_compressed_round_trip p x y : prime p_pasta -> ep_stands p (Some (x, y)) -> on_curve p_pasta 0 5 x y ->
  (~ in_hole p_pasta x -> exists q, ep_from_compressed (ep_to_compressed p) = Some q /\ ep_stands q (Some (x, y))) /\
  (in_hole p_pasta x -> ep_from_compressed (ep_to_compressed p) = None).
Proof. apply ep_round. Qed.
Print Assumptions C47_pallas_compressed_round_trip.

(** refuted for all points: this one is refused *)
Definition hole_x : Z := 0x40000000000000000000000000000000224698fc094cf91b0000000000000000.
Definition hole_y : Z := 0x3c280c9a6d7dd9dcb5ef0b4cc5a3a90443c45097bba731ea3b6447cbc56e0adc.
Theorem C47_pallas_round_trip_refuted : on_curve p_pasta 0 5 hole_x hole_y /\
  exists p, ep_stands p (Some (hole_x, hole_y)) /\ (prime p_pasta -> ep_from_compressed (ep_to_compressed p) = None).
Proof.
assert (ho : on_curve p_pasta 0 5 hole_x hole_y) by (vm_compute; reflexivity).
split; [exact ho|].
destruct (enc_of pastafp p_pasta hole_x hn0) as [X hX]; [split; [discriminate|reflexivity]|].
destruct (enc_of pastafp p_pasta hole_y hn0) as [Y hY]; [split; [discriminate|reflexivity]|].
pose proof (ep_stands_affine X Y _ _ hX hY) as hs.
eexists; split; [exact hs|]; intros hp; apply (ep_round _ _ _ hp hs ho); vm_compute; split; [reflexivity|discriminate].
Qed.
Print Assumptions C47_pallas_round_trip_refuted.

(** refuted: one encoding per point.  This non-canonical string decodes to a point that encodes differently. *)
Definition alias : list Z := repeat 0 16 ++ [1; 0; 0; 0; 0; 0; 0; 128] ++ repeat 0 7 ++ [64].
Theorem C47_pallas_unique_encoding_refuted : prime p_pasta ->
  p_pasta <= le_value alias /\ exists p, ep_from_compressed alias = Some p /\ ep_to_compressed p <> alias.
Proof.
intros hp; split; [vm_compute; discriminate|].
assert (hall : all_bytes alias) by (repeat constructor; discriminate).
assert (e1 : top_bit_cleared alias = alias) by (vm_compute; reflexivity).
assert (e2 : le_value alias mod p_pasta = 0x8000000000000000ddb96703f6b306e466d2cf12ffffffff) by (vm_compute; reflexivity).
assert (e3 : pasta_accepts alias) by (vm_compute; reflexivity).
pose proof (pallas_decode_at alias _ _ hall hp e1 e2) as h.
destruct (ep_from_compressed alias) as [p|].
- exists p; split; [reflexivity|]; destruct h as (y & _ & hs).
  destruct (ep_to_compressed_some p _ y hp hs) as (bs & -> & _ & hv & _). intros e; rewrite e in hv.
  vm_compute in hv; discriminate hv.
- exfalso; destruct h as [h|[h|h]]; [apply h; reflexivity|exact (h e3)|].
  apply (h 0x392c2afbe22f88fa097a7a8d67655055b53d738a82f847457f66f93c7dcac317); vm_compute; reflexivity.
Qed.
Print Assumptions C47_pallas_unique_encoding_refuted.

(** the identity encodes as 32 zero bytes, which do not decode *)
Theorem C47_pallas_identity_round_trip_refuted p : prime p_pasta -> ep_stands p None ->
  ep_to_compressed p = repeat 0 32 /\ ep_from_compressed (ep_to_compressed p) = None.
Proof.
intros hp hs; rewrite (ep_to_compressed_none p hs); split; [reflexivity|].
assert (hall : all_bytes (repeat 0 32)) by (repeat constructor; discriminate).
assert (e1 : top_bit_cleared (repeat 0 32) = repeat 0 32) by (vm_compute; reflexivity).
assert (e2 : le_value (repeat 0 32) mod p_pasta = 0) by (vm_compute; reflexivity).
pose proof (pallas_decode_at _ _ _ hall hp e1 e2) as h.
destruct (ep_from_compressed (repeat 0 32)) as [q|]; [exfalso|reflexivity].
destruct h as (y & ho & _).
unfold on_curve in ho. replace ((0 * 0 * 0 + 0 * 0 + 5) mod p_pasta) with 5 in ho by (vm_compute; reflexivity).
destruct (natives_ok pastafp p_pasta hn0) as [hf eM].
assert (hsq : is_square pastafp 5) by (exists y; rewrite eM; exact ho).
assert (h5 : 0 < 5 < eval (f_m pastafp)) by (rewrite eM; split; reflexivity).
assert (hp' : prime (eval (f_m pastafp))) by (rewrite eM; exact hp).
destruct (euler pastafp hf 5 hp' h5 hsq) as [e|e]; rewrite eM in e; [|discriminate e].
change ((p_pasta - 1) / 2) with (Zpos 14474011154664524427946373126085988481681528240970780357977338382174983815168) in e.
rewrite pallas_5 in e; discriminate e.
Qed.
Print Assumptions C47_pallas_identity_round_trip_refuted.

(** the hypotheses are met: the standard generator of secp256k1 is on the curve and has limbs standing for it *)
Example C47_hyps : exists p, stands p_k256 p
   (Some (0x79be667ef9dcbbac55a06295ce870b07029bfcdb2dce28d959f2815b16f81798,
          0x483ada7726a3c4655da4fbfc0e1108a8fd17b448a68554199c47d08ffb10d4b8)) /\
  on_curve p_k256 0 7 0x79be667ef9dcbbac55a06295ce870b07029bfcdb2dce28d959f2815b16f81798
                      0x483ada7726a3c4655da4fbfc0e1108a8fd17b448a68554199c47d08ffb10d4b8.
Proof.
assert (h : In (k256_curve, (p_k256, 0, 7)) curves) by (left; reflexivity).
destruct (enc_of k256fp p_k256 0x79be667ef9dcbbac55a06295ce870b07029bfcdb2dce28d959f2815b16f81798 (or_introl eq_refl)) as [X hX];
  [split; [discriminate|reflexivity]|].
destruct (enc_of k256fp p_k256 0x483ada7726a3c4655da4fbfc0e1108a8fd17b448a68554199c47d08ffb10d4b8 (or_introl eq_refl)) as [Y hY];
  [split; [discriminate|reflexivity]|].
eexists; split; [exact (stands_affine _ _ _ _ (curves_good _ _ _ _ h) _ _ _ _ hX hY)|vm_compute; reflexivity].
Qed.
Example C47_hyps_infinity : stands p_k256 identity None /\ stands p_p256 identity None /\ ep_stands identity None.
Proof.
assert (h : forall f M, In (f, M) natives -> enc M zero4 0) by (intros f M hn; exact (proj1 (proj2 (C74_conversions f M hn)))).
assert (h1 := h k256fp p_k256 (or_introl eq_refl)). assert (h2 := h p256fp p_p256 (or_intror (or_intror (or_introl eq_refl)))).
assert (h3 := h pastafp p_pasta hn0).
split; [|split]; (split; [exists 0|split; [exists 0|]]); assumption.
Qed.
