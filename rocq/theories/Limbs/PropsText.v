(** C48: binary, text and JSON forms of scalars and points. *)
From Coq Require Import String ZArith Znumtheory NArith List Bool Lia.
From Verif Require Import Lib.Res Limbs.Model Limbs.Spec Limbs.Ops Limbs.FieldModel Limbs.FieldProofs Limbs.ApiProofs
  Limbs.CmpProofs Limbs.PointModel Limbs.TextModel Limbs.K256fqCode Limbs.P256fqCode Limbs.PastafqCode Limbs.BlsfqCode
  Limbs.PropsField Limbs.PropsCodec Limbs.PointProofs Limbs.PallasProofs Limbs.PropsPoint Limbs.TextProofs.
Import ListNotations.
Notation length := List.length.
Local Open Scope Z_scope.

(** ** specification *)
(** the names a decoder accepts *)
Definition named (n : list Z) (c : curve) : Prop :=
  n = curve_name c \/ n = ascii_bytes "BLS12831" /\ c = Bls381G1 \/ n = ascii_bytes "BLS12377" /\ c = Bls377G1.
(** the bytes are a valid encoding of the scalar: 32 bytes below the order, any number of bytes on BLS12-377; Pallas decides
    by the comparison of C46 and reduces *)
Definition decodes (c : curve) (bs : list Z) (s : scalar) : Prop :=
  match c with
  | Pallas => length bs = 32%nat /\ wrap_order (msf (from_bytes bs)) (msf (f_m pastafq)) = -1 /\ denotes s c (le_value bs mod q_pasta)
  | _ => (length bs = 32%nat \/ type_of c = TBls377) /\ denotes s c (num c bs)
  end.
Definition pad (bs : list Z) : list Z := bs ++ repeat 0 (32 - length bs).

Lemma denotes_inj s s' c v : denotes s c v -> denotes s' c v -> s = s'.
Proof.
intros (h1 & h2 & h3) (h1' & _ & h3'); destruct s as [k w], s' as [k' w']; cbn [s_curve s_val] in *; subst k k'; f_equal.
assert (hi : forall f M x y, In (f, M) natives -> enc M x v -> enc M y v -> x = y).
{ intros f M x y hn hx hy; nat_ok hn; exact (enc_inj f _ _ _ hx hy). }
destruct w as [x|x], w' as [y|y]; destruct c; try contradiction; try congruence.
- f_equal; exact (hi k256fq q_k256 x y (or_intror (or_introl eq_refl)) h3 h3').
- f_equal; exact (hi blsfq q_bls x y (primes256_native _ _ bls_in) h3 h3').
- f_equal; exact (hi blsfq q_bls x y (primes256_native _ _ bls_in) h3 h3').
- f_equal; exact (hi p256fq q_p256 x y (or_intror (or_intror (or_intror (or_introl eq_refl)))) h3 h3').
- f_equal; exact (hi pastafq q_pasta x y (pastas_native _ _ (or_intror (or_introl eq_refl))) h3 h3').
Qed.
Lemma pallas_in : In (pastafq, q_pasta) pastas. Proof. right; left; reflexivity. Qed.
Lemma q_pos : 0 < q_pasta. Proof. reflexivity. Qed.
Lemma set_iff c bs s : all_bytes bs -> (scalar_set_bytes c bs = Some s <-> decodes c bs s).
Proof.
intros hb; assert (hc : c = Pallas \/ c <> Pallas) by (destruct c; (left; reflexivity) || (right; discriminate)).
destruct hc as [->|hc].
- cbn [scalar_set_bytes decodes]. destruct (Nat.eqb_spec (length bs) 32) as [hl|hl]; [|split; [discriminate|intros [h _]; contradiction]].
  pose proof (C45_pasta_set_bytes pastafq q_pasta bs pallas_in (byte32 _ hl hb)) as h.
  destruct (set_bytes_with pasta_cmp pastafq bs) as [x|]; cbn [wrap].
  + destruct h as [h1 h2].
    assert (hd : denotes (Sc Pallas (VL x)) Pallas (le_value bs mod q_pasta))
      by (split; [reflexivity|split; [exact (Z.mod_pos_bound _ _ q_pos)|exact h2]]).
    split; [intros e; injection e as <-; split; [exact hl|split; [exact h1|exact hd]]|].
    intros (_ & _ & hs); f_equal; exact (denotes_inj _ _ _ _ hd hs).
  + split; [discriminate|intros (_ & h' & _); contradiction].
- assert (hd : decodes c bs s <-> (length bs = 32%nat \/ type_of c = TBls377) /\ denotes s c (num c bs)) by (destruct c; try contradiction; reflexivity).
  rewrite hd; pose proof (set_ok c bs hb hc) as h; destruct (scalar_set_bytes c bs) as [s'|].
  + destruct h as (h1 & h2 & h3); split; [intros e; injection e as <-; split; assumption|].
    intros [_ h4]; f_equal; exact (denotes_inj _ _ _ _ h3 h4).
  + split; [discriminate|intros [h1 (_ & h2 & _)]; exfalso; destruct h as [[h h']|h]; [destruct h1; contradiction|lia]].
Qed.
Lemma set_round s c v : denotes s c v -> (c = Pallas -> ~ in_hole q_pasta v) -> scalar_set_bytes c (scalar_bytes s) = Some s.
Proof.
intros hs hh; destruct (value_bytes s c v hs) as (h1 & h2 & h3); apply set_iff; [exact h2|].
assert (hv : 0 <= v < order c) by apply hs.
destruct c; cbn [decodes]; try (split; [left; exact h1|rewrite h3; exact hs]).
cbn [num order] in *; split; [exact h1|].
pose proof (C45_pasta_canonical pastafq q_pasta (scalar_bytes s) pallas_in (byte32 _ h1 h2)) as hc.
pose proof (C45_pasta_set_bytes pastafq q_pasta (scalar_bytes s) pallas_in (byte32 _ h1 h2)) as hp.
rewrite h3 in *. specialize (hc (proj2 hv)). destruct (set_bytes_with pasta_cmp pastafq (scalar_bytes s)) as [x|].
- split; [exact (proj1 hp)|rewrite Z.mod_small by exact hv; exact hs].
- elim (hh eq_refl); apply hc; reflexivity.
Qed.

Lemma text_spec input s :
  scalar_unmarshal_text input = Ok s <-> (70 <= length input)%nat /\
  exists n c d bs, input = n ++ 58 :: d /\ ~ In 58 n /\ named n c /\ spells d bs /\ (length bs <= 32)%nat /\ decodes c (pad bs) s.
Proof.
unfold scalar_unmarshal_text; destruct (Nat.ltb_spec (length input) 70) as [hl|hl];
  [split; [discriminate|intros [h _]; lia]|].
pose proof (split_ok input ltac:(lia)) as hs.
assert (hpad : forall bs, all_bytes bs -> all_bytes (bs ++ repeat 0 (32 - length bs))).
{ intros bs h; apply Forall_app; split; [exact h|apply Forall_forall; intros x hx; apply repeat_spec in hx; subst x; lia]. }
split.
- destruct (split_input input) as [[c d]| |]; cbn [bind]; try discriminate.
  destruct (hex_decode 32 d) as [bs| |] eqn:e; cbn [bind]; try discriminate.
  apply hex_decode_ok in e; destruct e as [e1 e2].
  destruct (scalar_set_bytes c (bs ++ repeat 0 (32 - length bs))) as [s'|] eqn:es; cbn [of_option]; [|discriminate].
  intros h; injection h as ->. apply set_iff in es; [|apply hpad, (spells_bytes _ _ e1)].
  destruct hs as (n & h1 & h2 & h3); split; [exact hl|exists n, c, d, bs]. apply names in h3; repeat split; assumption.
- intros (_ & n & c & d & bs & -> & h2 & h3 & h4 & h5 & h6). apply names in h3.
  rewrite (split_app n d c h2 h3); cbn [bind]. rewrite (proj2 (hex_decode_ok d 32%nat bs)) by (split; assumption); cbn [bind].
  apply set_iff in h6; [|apply hpad, (spells_bytes _ _ h4)]. unfold pad in h6; rewrite h6; reflexivity.
Qed.
Lemma name_ge5 c : (5 <= length (curve_name c))%nat. Proof. destruct c; vm_compute; lia. Qed.

(** ** round trips *)
Theorem C48_round_trip s c v : denotes s c v -> (c = Pallas -> ~ in_hole q_pasta v) ->
  scalar_unmarshal_text (scalar_marshal_text s) = Ok s /\
  scalar_unmarshal_binary (scalar_marshal_binary s) = Ok s /\
  scalar_unmarshal_json (scalar_marshal_json s) = Ok s.
Proof.
intros hs hh; destruct (value_bytes s c v hs) as (h1 & h2 & _); pose proof (set_round s c v hs hh) as hr.
pose proof (encode_spells _ h2) as hsp; assert (hc : s_curve s = c) by apply hs. pose proof (name_ge5 c) as hn.
split; [|split].
- unfold scalar_unmarshal_text, scalar_marshal_text; rewrite hc, app_length; simpl length; rewrite encode_length, h1.
  destruct (Nat.ltb_spec (length (curve_name c) + S (2 * 32)) 70) as [hl|hl]; [lia|].
  rewrite (split_app _ _ c (name_no_colon c) (name_found c)); cbn [bind].
  rewrite (proj2 (hex_decode_ok _ 32%nat (scalar_bytes s))) by (split; [exact hsp|rewrite h1; apply Nat.le_refl]); cbn [bind].
  rewrite h1; change (repeat 0 (32 - 32)) with (@nil Z); rewrite app_nil_r, hr; reflexivity.
- unfold scalar_unmarshal_binary, scalar_marshal_binary; rewrite hc, app_length; simpl length; rewrite h1.
  destruct (Nat.ltb_spec (length (curve_name c) + 33) 38) as [hl|hl]; [lia|].
  rewrite (split_app _ _ c (name_no_colon c) (name_found c)); cbn [bind]. rewrite hr; reflexivity.
- unfold scalar_unmarshal_json, scalar_marshal_json, hex_decode_string; cbn [fst snd]; rewrite hc, name_found.
  rewrite (proj2 (hex_decode_ok _ _ (scalar_bytes s))) by (split; [exact hsp|rewrite encode_length; lia]); cbn [bind].
  rewrite hr; reflexivity.
Qed.
Print Assumptions C48_round_trip.

(** refuted for Pallas: the scalars in the decoder's hole are refused in every form *)
Theorem C48_pallas_round_trip_refuted s v : denotes s Pallas v -> in_hole q_pasta v ->
  scalar_unmarshal_text (scalar_marshal_text s) = Err /\
  scalar_unmarshal_binary (scalar_marshal_binary s) = Err /\
  scalar_unmarshal_json (scalar_marshal_json s) = Err.
Proof.
intros hs hh; destruct (value_bytes s Pallas v hs) as (h1 & h2 & h3).
assert (hr : scalar_set_bytes Pallas (scalar_bytes s) = None).
{ pose proof (C45_pasta_canonical pastafq q_pasta (scalar_bytes s) pallas_in (byte32 _ h1 h2)) as hc.
  cbn [num] in h3; rewrite h3 in hc. cbn [scalar_set_bytes]; rewrite h1, Nat.eqb_refl.
  rewrite (proj2 (hc (proj2 (proj1 (proj2 hs))))) by exact hh. reflexivity. }
pose proof (encode_spells _ h2) as hsp; assert (hc : s_curve s = Pallas) by apply hs.
split; [|split].
- unfold scalar_unmarshal_text, scalar_marshal_text; rewrite hc, app_length; simpl length; rewrite encode_length, h1.
  change (Nat.ltb (6 + S (2 * 32)) 70) with false; cbn [negb].
  rewrite (split_app _ _ Pallas (name_no_colon Pallas) (name_found Pallas)); cbn [bind].
  rewrite (proj2 (hex_decode_ok _ 32%nat (scalar_bytes s))) by (split; [exact hsp|rewrite h1; apply Nat.le_refl]); cbn [bind].
  rewrite h1; change (repeat 0 (32 - 32)) with (@nil Z); rewrite app_nil_r, hr; reflexivity.
- unfold scalar_unmarshal_binary, scalar_marshal_binary; rewrite hc, app_length; simpl length; rewrite h1.
  change (Nat.ltb (6 + 33) 38) with false.
  rewrite (split_app _ _ Pallas (name_no_colon Pallas) (name_found Pallas)); cbn [bind]. rewrite hr; reflexivity.
- unfold scalar_unmarshal_json, scalar_marshal_json, hex_decode_string; cbn [fst snd]; rewrite hc, name_found.
  rewrite (proj2 (hex_decode_ok _ _ (scalar_bytes s))) by (split; [exact hsp|rewrite encode_length; lia]); cbn [bind].
  rewrite hr; reflexivity.
Qed.
Print Assumptions C48_pallas_round_trip_refuted.

(** ** what is accepted *)
(** text: a known name, a colon, at most 32 hex-spelled bytes, padded with zero bytes at the end; at least 70 characters in all *)
Theorem C48_text_accepted input s :
  scalar_unmarshal_text input = Ok s <-> (70 <= length input)%nat /\
  exists n c d bs, input = n ++ 58 :: d /\ ~ In 58 n /\ named n c /\ spells d bs /\ (length bs <= 32)%nat /\ decodes c (pad bs) s.
Proof. exact (text_spec input s). Qed.
Print Assumptions C48_text_accepted.

(** text that spells a 33rd byte panics, whatever follows *)
Theorem C48_text_panics input :
  scalar_unmarshal_text input = Panic <-> (70 <= length input)%nat /\
  exists n c pre bs rest, input = n ++ 58 :: pre ++ rest /\ ~ In 58 n /\ named n c /\ spells pre bs /\ length bs = 33%nat.
Proof.
unfold scalar_unmarshal_text; destruct (Nat.ltb_spec (length input) 70) as [hl|hl];
  [split; [discriminate|intros [h _]; lia]|].
pose proof (split_ok input ltac:(lia)) as hs. split.
- destruct (split_input input) as [[c d]| |]; cbn [bind]; try discriminate; [|contradiction].
  intros h; assert (e : hex_decode 32 d = Panic).
  { destruct (hex_decode 32 d) as [bs| |]; cbn [bind] in h; [|discriminate h|reflexivity].
    destruct (scalar_set_bytes c _); discriminate h. }
  apply hex_decode_panic in e; destruct e as (pre & bs & rest & -> & h1 & h2).
  destruct hs as (n & e1 & e2 & e3); apply names in e3; split; [exact hl|exists n, c, pre, bs, rest]; repeat split; assumption.
- intros (_ & n & c & pre & bs & rest & -> & h2 & h3 & h4 & h5). apply names in h3.
  rewrite (split_app n _ c h2 h3); cbn [bind].
  rewrite (proj2 (hex_decode_panic (pre ++ rest) 32%nat)) by (exists pre, bs, rest; repeat split; assumption). reflexivity.
Qed.
Print Assumptions C48_text_panics.

(** every marshalled text followed by two more digits, and anything, panics *)
Theorem C48_overlong_text_refuted s c v a b x y rest : denotes s c v -> digit a x -> digit b y ->
  scalar_unmarshal_text (scalar_marshal_text s ++ a :: b :: rest) = Panic.
Proof.
intros hs ha hb; destruct (value_bytes s c v hs) as (h1 & h2 & _); assert (hc : s_curve s = c) by apply hs. pose proof (name_ge5 c).
unfold scalar_marshal_text; rewrite hc.
apply C48_text_panics; split; [rewrite !app_length; simpl length; rewrite encode_length, h1; lia|].
exists (curve_name c), c, (hex_encode (scalar_bytes s) ++ [a; b]), (scalar_bytes s ++ [16 * x + y]), rest.
split; [rewrite <- !app_assoc; reflexivity|split; [apply name_no_colon|split; [left; reflexivity|split]]].
- apply spells_app; [apply encode_spells, h2|constructor; [exact ha|exact hb|constructor]].
- rewrite app_length, h1; reflexivity.
Qed.
Print Assumptions C48_overlong_text_refuted.

Lemma split_last (l : list Z) n : length l = S n -> exists l' b, l = l' ++ [b] /\ length l' = n.
Proof.
intros h; destruct (exists_last (l := l)) as (l' & b & ->); [intros ->; discriminate h|].
exists l', b; split; [reflexivity|]. rewrite app_length in h; simpl in h; lia.
Qed.
Lemma be_snoc l b : be_value (l ++ [b]) = 256 * be_value l + b.
Proof. unfold be_value; rewrite fold_left_app; reflexivity. Qed.
Lemma le_snoc l b : le_value (l ++ [b]) = le_value l + 256 ^ Z.of_nat (length l) * b.
Proof.
induction l as [|x l IH]; [change (le_value ([] ++ [b])) with (b + 256 * 0); change (le_value []) with 0; simpl length; change (256 ^ Z.of_nat 0) with 1; ring|].
change (le_value ((x :: l) ++ [b])) with (x + 256 * le_value (l ++ [b])); rewrite IH.
change (le_value (x :: l)) with (x + 256 * le_value l); simpl length; rewrite Nat2Z.inj_succ, Z.pow_succ_r by apply Nat2Z.is_nonneg. ring.
Qed.
Lemma le_bound l : all_bytes l -> 0 <= le_value l < 256 ^ Z.of_nat (length l).
Proof.
induction 1 as [|b l hb hl IH]; [split; reflexivity || discriminate|].
change (le_value (b :: l)) with (b + 256 * le_value l); simpl length; rewrite Nat2Z.inj_succ, Z.pow_succ_r by apply Nat2Z.is_nonneg. lia.
Qed.

(** the last two characters may be missing when the curve name has at least seven letters: the text decodes, to the value
    with its last byte zeroed *)
Theorem C48_truncated_text_refuted s c v : denotes s c v -> c <> P256 -> c <> Pallas -> exists t d1 d2 s',
  scalar_marshal_text s = t ++ [d1; d2] /\ scalar_unmarshal_text t = Ok s' /\
  denotes s' c (match c with Ed25519 => v mod 2 ^ 248 | _ => v - v mod 256 end).
Proof.
intros hs hP hQ; destruct (value_bytes s c v hs) as (h1 & h2 & h3); assert (hc : s_curve s = c) by apply hs.
assert (hn : (7 <= length (curve_name c))%nat) by (destruct c; try contradiction; vm_compute; lia).
destruct (split_last _ _ h1) as (l & b & e & hl). rewrite e in *.
assert (h2' : all_bytes l /\ 0 <= b < 256).
{ apply Forall_app in h2; destruct h2 as [h2 h2']; split; [exact h2|exact (Forall_inv h2')]. }
destruct h2' as [hal hb].
assert (hv : 0 <= v < order c) by apply hs.
set (w := match c with Ed25519 => v mod 2 ^ 248 | _ => v - v mod 256 end).
assert (hnum : num c (l ++ [0]) = w /\ 0 <= w <= v).
{ assert (hbe : be_value (l ++ [b]) = v -> be_value (l ++ [0]) = v - v mod 256 /\ 0 <= v - v mod 256 <= v).
  { rewrite !be_snoc; intros <-. assert (e1 : (256 * be_value l + b) mod 256 = b) by (symmetry; apply (Z.mod_unique _ _ (be_value l)); lia).
    rewrite e1. split; [ring|]. assert (0 <= be_value l) by exact (num_byte K256 l hal). lia. }
  assert (hle : le_value (l ++ [b]) = v -> le_value (l ++ [0]) = v mod 2 ^ 248 /\ 0 <= v mod 2 ^ 248 <= v).
  { rewrite !le_snoc, hl; change (256 ^ Z.of_nat 31) with (2 ^ 248); intros <-.
    pose proof (le_bound l hal) as hlb; rewrite hl in hlb; change (256 ^ Z.of_nat 31) with (2 ^ 248) in hlb.
    assert (e1 : (le_value l + 2 ^ 248 * b) mod 2 ^ 248 = le_value l) by (symmetry; apply (Z.mod_unique _ _ b); [left; exact hlb|ring]).
    rewrite e1, Z.mul_0_r, Z.add_0_r. split; [reflexivity|]. assert (0 <= 2 ^ 248 * b) by (apply Z.mul_nonneg_nonneg; [apply Z.pow_nonneg|]; lia). lia. }
  unfold w; destruct c; try contradiction; first [exact (hle h3)|exact (hbe h3)]. }
destruct hnum as [hnum hw].
assert (hd : exists s', decodes c (l ++ [0]) s').
{ assert (ha : all_bytes (l ++ [0])) by (apply Forall_app; split; [exact hal|constructor; [lia|constructor]]).
  pose proof (set_ok c (l ++ [0]) ha hQ) as hk; destruct (scalar_set_bytes c (l ++ [0])) as [s'|] eqn:es.
  - exists s'; apply set_iff; assumption.
  - exfalso; rewrite hnum in hk; destruct hk as [[hk _]|hk]; [apply hk; rewrite app_length, hl; reflexivity|lia]. }
destruct hd as [s' hd].
exists (curve_name c ++ 58 :: hex_encode l), (hex_char (Z.shiftr b 4)), (hex_char (Z.land b 15)), s'.
split; [|split].
- unfold scalar_marshal_text; rewrite hc, e, encode_app, <- app_assoc; reflexivity.
- apply text_spec; split; [rewrite app_length; simpl length; rewrite encode_length, hl; lia|].
  exists (curve_name c), c, (hex_encode l), l; split; [reflexivity|split; [apply name_no_colon|split; [left; reflexivity|]]].
  split; [apply encode_spells, hal|split; [rewrite hl; lia|unfold pad; rewrite hl; exact hd]].
- fold w; rewrite <- hnum; unfold decodes in hd; destruct c; try contradiction; exact (proj2 hd).
Qed.
Print Assumptions C48_truncated_text_refuted.

(** no text shorter than P-256's and Pallas' is accepted for them *)
Theorem C48_full_length_text input s : scalar_unmarshal_text input = Ok s -> s_curve s = P256 \/ s_curve s = Pallas ->
  exists d bs, input = curve_name (s_curve s) ++ 58 :: d /\ spells d bs /\ length bs = 32%nat /\ decodes (s_curve s) bs s.
Proof.
intros h hc; apply text_spec in h; destruct h as (hl & n & c & d & bs & -> & _ & hn & hsp & hb & hd).
assert (e : s_curve s = c) by (unfold decodes in hd; destruct c; apply hd).
rewrite e in *. assert (en : n = curve_name c) by (destruct hn as [->|[[_ ->]|[_ ->]]]; [reflexivity|destruct hc; discriminate|destruct hc; discriminate]).
subst n; pose proof (spells_length _ _ hsp) as hl'. rewrite app_length in hl; simpl length in hl.
assert (hk : (length (curve_name c) <= 6)%nat) by (destruct hc; subst c; rewrite ?H; vm_compute; lia).
assert (e32 : length bs = 32%nat) by lia. exists d, bs; unfold pad in hd; rewrite e32 in hd; simpl repeat in hd; rewrite app_nil_r in hd.
repeat split; assumption.
Qed.
Print Assumptions C48_full_length_text.

(** binary: a known name, a colon and a valid encoding, at least 38 bytes in all; it never panics *)
Theorem C48_binary_accepted input : all_bytes input ->
  scalar_unmarshal_binary input <> Panic /\
  forall s, scalar_unmarshal_binary input = Ok s <-> (38 <= length input)%nat /\
    exists n c d, input = n ++ 58 :: d /\ ~ In 58 n /\ named n c /\ decodes c d s.
Proof.
intros hall; unfold scalar_unmarshal_binary; destruct (Nat.ltb_spec (length input) 38) as [hl|hl];
  [split; [discriminate|intros s; split; [discriminate|intros [h _]; lia]]|].
pose proof (split_ok input ltac:(lia)) as hs; split.
- destruct (split_input input) as [[c d]| |]; cbn [bind]; [destruct (scalar_set_bytes c d); discriminate|discriminate|contradiction].
- intros s; split.
  + destruct (split_input input) as [[c d]| |]; cbn [bind]; try discriminate.
    destruct hs as (n & e1 & e2 & e3). assert (hd : all_bytes d) by (subst input; apply Forall_app in hall; exact (Forall_inv_tail (proj2 hall))).
    destruct (scalar_set_bytes c d) as [s'|] eqn:es; cbn [of_option]; [|discriminate].
    intros h; injection h as ->. apply set_iff in es; [|exact hd]. apply names in e3.
    split; [exact hl|exists n, c, d; repeat split; assumption].
  + intros (_ & n & c & d & e1 & e2 & e3 & e4); subst input; apply names in e3. rewrite (split_app _ _ c e2 e3); cbn [bind].
    apply set_iff in e4; [rewrite e4; reflexivity|apply Forall_app in hall; exact (Forall_inv_tail (proj2 hall))].
Qed.
Print Assumptions C48_binary_accepted.

(** JSON: a known type name and hex of a valid encoding of its full length; it never panics *)
Theorem C48_json_accepted ty value :
  scalar_unmarshal_json (ty, value) <> Panic /\
  forall s, scalar_unmarshal_json (ty, value) = Ok s <-> exists c bs, named ty c /\ spells value bs /\ decodes c bs s.
Proof.
unfold scalar_unmarshal_json, hex_decode_string; cbn [fst snd]; split.
- destruct (curve_by_name ty) as [c|]; [|discriminate]. destruct (hex_decode (length value) value) as [bs| |] eqn:e; cbn [bind].
  + destruct (scalar_set_bytes c bs); discriminate.
  + discriminate.
  + apply hex_decode_panic in e; destruct e as (pre & bs & rest & e & h & hb). apply spells_length in h.
    apply (f_equal (@List.length Z)) in e; rewrite app_length in e; lia.
- intros s; split.
  + destruct (curve_by_name ty) as [c|] eqn:en; [|discriminate]. apply names in en.
    destruct (hex_decode (length value) value) as [bs| |] eqn:e; cbn [bind]; try discriminate. apply hex_decode_ok in e; destruct e as [e _].
    destruct (scalar_set_bytes c bs) as [s'|] eqn:es; cbn [of_option]; [|discriminate]. intros h; injection h as ->.
    exists c, bs; split; [exact en|split; [exact e|apply set_iff in es; [exact es|exact (spells_bytes _ _ e)]]].
  + intros (c & bs & h1 & h2 & h3); apply names in h1; rewrite h1.
    rewrite (proj2 (hex_decode_ok value _ bs)) by (split; [exact h2|rewrite (spells_length _ _ h2); lia]); cbn [bind].
    apply set_iff in h3; [rewrite h3; reflexivity|exact (spells_bytes _ _ h2)].
Qed.
Print Assumptions C48_json_accepted.

(** ** receivers *)
(** UnmarshalText and UnmarshalBinary store curve and value in a receiver of the right Go type and err on any other *)
Theorem C48_receiver recv s c v : denotes s c v -> (c = Pallas -> ~ in_hole q_pasta v) ->
  (type_of c = o_type recv ->
     assign recv (scalar_unmarshal_text (scalar_marshal_text s)) = Ok (Obj (o_type recv) (Some c) (Some (s_val s))) /\
     assign recv (scalar_unmarshal_binary (scalar_marshal_binary s)) = Ok (Obj (o_type recv) (Some c) (Some (s_val s)))) /\
  (type_of c <> o_type recv ->
     assign recv (scalar_unmarshal_text (scalar_marshal_text s)) = Err /\
     assign recv (scalar_unmarshal_binary (scalar_marshal_binary s)) = Err).
Proof.
intros hs hh; destruct (C48_round_trip s c v hs hh) as (h1 & h2 & _); assert (hc : s_curve s = c) by apply hs.
rewrite h1, h2; unfold assign; cbn [bind]; rewrite hc. split; intros ht.
- rewrite <- ht; assert (e : type_eqb (type_of c) (type_of c) = true) by (destruct c; reflexivity). rewrite e; split; reflexivity.
- assert (e : type_eqb (type_of c) (o_type recv) = false) by (destruct c, (o_type recv); try reflexivity; elim ht; reflexivity).
  rewrite e; split; reflexivity.
Qed.
Print Assumptions C48_receiver.

(** refuted: a JSON round trip of a pairing-curve scalar keeps the receiver's group, which a new receiver does not have;
    marshalling the result panics, or names another group *)
Theorem C48_json_group_refuted s c v : denotes s c v -> type_of c = TBls381 \/ type_of c = TBls377 ->
  (exists o, assign_json (fresh (type_of c)) (scalar_unmarshal_json (scalar_marshal_json s)) = Ok o /\
             o_val o = Some (s_val s) /\ object_marshal_text o = Panic) /\
  (forall c' w, type_of c' = type_of c ->
     exists o, assign_json (Obj (type_of c) (Some c') w) (scalar_unmarshal_json (scalar_marshal_json s)) = Ok o /\
               object_marshal_text o = Ok (curve_name c' ++ 58 :: hex_encode (scalar_bytes s))).
Proof.
intros hs ht; destruct (C48_round_trip s c v hs) as (_ & _ & h); [intros ->; destruct ht; discriminate|].
assert (hc : s_curve s = c) by apply hs. rewrite h; unfold assign_json; cbn [bind o_type fresh]; rewrite hc.
assert (e : type_eqb (type_of c) (type_of c) = true) by (destruct c; reflexivity). rewrite e.
split.
- eexists; split; [reflexivity|split; [reflexivity|]]. unfold object_marshal_text; cbn [o_point].
  destruct ht as [ht|ht]; rewrite ht; reflexivity.
- intros c' w hc'; eexists; split; [reflexivity|]. unfold object_marshal_text, scalar_marshal_text; cbn [o_point o_val s_curve].
  f_equal; f_equal; f_equal; f_equal. unfold scalar_bytes; rewrite hc; cbn [s_curve s_val].
  destruct hs as (_ & _ & hs); destruct c, c'; try discriminate hc'; destruct ht as [ht|ht]; try discriminate ht; destruct (s_val s); try contradiction; reflexivity.
Qed.
Print Assumptions C48_json_group_refuted.

(** ** points: every form of compressed bytes decodes as those bytes do, and nothing panics *)
Theorem C48_points (point : Type) (dec : curve -> list Z -> option point) c bs : all_bytes bs -> (32 <= length bs)%nat ->
  point_unmarshal_binary point dec (point_marshal_binary c bs) = of_option (dec c bs) /\
  point_unmarshal_text point dec (point_marshal_text c bs) = of_option (dec c bs) /\
  point_unmarshal_json point dec (point_marshal_json c bs) = of_option (dec c bs).
Proof.
intros hb hl; pose proof (encode_spells _ hb) as hsp; pose proof (name_ge5 c) as hn.
split; [|split].
- unfold point_unmarshal_binary, point_marshal_binary; rewrite app_length; simpl length.
  destruct (Nat.ltb_spec (length (curve_name c) + S (length bs)) 38); [lia|].
  rewrite (split_app _ _ c (name_no_colon c) (name_found c)); reflexivity.
- unfold point_unmarshal_text, point_marshal_text; rewrite app_length; simpl length; rewrite encode_length.
  destruct (Nat.ltb_spec (length (curve_name c) + S (2 * length bs)) 70); [lia|].
  rewrite (split_app _ _ c (name_no_colon c) (name_found c)); cbn [bind].
  assert (e : Nat.div (S (length (hex_encode bs))) 2 = length bs).
  { rewrite encode_length; symmetry; apply (Nat.div_unique _ _ _ 1); lia. }
  rewrite e, (proj2 (hex_decode_ok _ _ bs)) by (split; [exact hsp|apply Nat.le_refl]); cbn [bind].
  rewrite Nat.sub_diag; cbn [repeat]; rewrite app_nil_r; reflexivity.
- unfold point_unmarshal_json, point_marshal_json, hex_decode_string; cbn [fst snd]; rewrite name_found.
  rewrite (proj2 (hex_decode_ok _ _ bs)) by (split; [exact hsp|rewrite encode_length; lia]); reflexivity.
Qed.
Print Assumptions C48_points.

Theorem C48_points_accepted (point : Type) (dec : curve -> list Z -> option point) input :
  point_unmarshal_text point dec input <> Panic /\
  forall p, point_unmarshal_text point dec input = Ok p <-> (70 <= length input)%nat /\
    exists n c d bs, input = n ++ 58 :: d /\ ~ In 58 n /\ named n c /\ spells d bs /\ dec c bs = Some p.
Proof.
unfold point_unmarshal_text; destruct (Nat.ltb_spec (length input) 70) as [hl|hl];
  [split; [discriminate|intros p; split; [discriminate|intros [h _]; lia]]|].
pose proof (split_ok input ltac:(lia)) as hs.
assert (hroom : forall d bs, spells d bs -> Nat.div (S (length d)) 2 = length bs).
{ intros d bs h; rewrite (spells_length _ _ h); symmetry; apply (Nat.div_unique _ _ _ 1); lia. }
split.
- destruct (split_input input) as [[c d]| |]; cbn [bind]; [|discriminate|contradiction].
  destruct (hex_decode (Nat.div (S (length d)) 2) d) as [bs| |] eqn:e; cbn [bind].
  + destruct (dec c _); discriminate.
  + discriminate.
  + apply hex_decode_panic in e; destruct e as (pre & bs & rest & e & h & hb). apply spells_length in h.
    apply (f_equal (@List.length Z)) in e; rewrite app_length in e.
    assert (hd : (Nat.div (S (length d)) 2 * 2 <= S (length d))%nat) by (rewrite Nat.mul_comm; apply Nat.mul_div_le; discriminate).
    assert (hd2 : (S (length d) < 2 * S (Nat.div (S (length d)) 2))%nat) by (apply Nat.mul_succ_div_gt; discriminate). lia.
- intros p; split.
  + destruct (split_input input) as [[c d]| |]; cbn [bind]; try discriminate.
    destruct (hex_decode (Nat.div (S (length d)) 2) d) as [bs| |] eqn:e; cbn [bind]; try discriminate.
    apply hex_decode_ok in e; destruct e as [e _]. rewrite (hroom _ _ e), Nat.sub_diag; cbn [repeat]; rewrite app_nil_r.
    destruct (dec c bs) as [p'|] eqn:ep; cbn [of_option]; [|discriminate]. intros h; injection h as ->.
    destruct hs as (n & e1 & e2 & e3); apply names in e3. split; [exact hl|exists n, c, d, bs; repeat split; assumption].
  + intros (_ & n & c & d & bs & -> & e2 & e3 & e4 & e5); apply names in e3. rewrite (split_app _ _ c e2 e3); cbn [bind].
    rewrite (hroom _ _ e4), (proj2 (hex_decode_ok d _ bs)) by (split; [exact e4|apply Nat.le_refl]); cbn [bind].
    rewrite Nat.sub_diag; cbn [repeat]; rewrite app_nil_r, e5; reflexivity.
Qed.
Print Assumptions C48_points_accepted.

(** with the decoders of C47, every K256 and P256 point survives its text form *)
Definition decode_k256_p256 (c : curve) (bs : list Z) : option point :=
  match c with K256 => from_compressed k256_curve bs | P256 => from_compressed p256_curve bs | _ => None end.
Theorem C48_point_round_trip c w M A B p x y : In (c, w, (M, A, B)) [(K256, k256_curve, (p_k256, 0, 7)); (P256, p256_curve, (p_p256, p_p256 - 3, b_p256))] ->
  prime M -> stands M p (Some (x, y)) -> on_curve M A B x y ->
  exists q, point_unmarshal_text point decode_k256_p256 (point_marshal_text c (to_compressed w p)) = Ok q /\ stands M q (Some (x, y)).
Proof.
intros hin hp hs ho.
assert (hw : In (w, (M, A, B)) curves /\ forall bs, decode_k256_p256 c bs = from_compressed w bs).
{ destruct hin as [h|[h|[]]]; injection h as <- <- <- <- <-; (split; [simpl; tauto|reflexivity]). }
destruct hw as [hw hd]; destruct (C47_compressed_round_trip w M A B p x y hw hp hs ho) as (q & h1 & h2).
destruct (to_compressed_some w M A B (curves_good _ _ _ _ hw) p x y hp hs) as (bs & e & hl & hb & _).
assert (hall : all_bytes (to_compressed w p) /\ (32 <= length (to_compressed w p))%nat).
{ rewrite e; split; [constructor; [pose proof (Z.mod_pos_bound y 2 eq_refl); lia|exact hb]|simpl; lia]. }
destruct hall as [ha hl'].
exists q; split; [|exact h2]. rewrite (proj1 (proj2 (C48_points point decode_k256_p256 c _ ha hl'))), hd, h1; reflexivity.
Qed.
Print Assumptions C48_point_round_trip.

(** the hypotheses are met: scalars of every curve, here with value 5 *)
Example C48_hyps c : exists s, denotes s c 5.
Proof.
assert (h : forall f M, In (f, M) natives -> exists x, enc M x 5).
{ intros f M hn; exists (set_uint64 f 5). exact (proj1 (proj2 (proj2 (C74_conversions f M hn))) 5 (conj (Zle_0_pos 5) eq_refl)). }
destruct (h k256fq q_k256 (or_intror (or_introl eq_refl))) as [xk hk].
destruct (h p256fq q_p256 (or_intror (or_intror (or_intror (or_introl eq_refl))))) as [xp hp].
destruct (h pastafq q_pasta (pastas_native _ _ pallas_in)) as [xq hq].
destruct (h blsfq q_bls (primes256_native _ _ bls_in)) as [xb hb].
destruct c; [exists (Sc K256 (VL xk))|exists (Sc Bls381G1 (VL xb))|exists (Sc Bls381G2 (VL xb))|exists (Sc P256 (VL xp))|exists (Sc Ed25519 (VZ 5))|
  exists (Sc Pallas (VL xq))|exists (Sc Bls377G1 (VZ 5))|exists (Sc Bls377G2 (VZ 5))];
  (split; [reflexivity|split; [split; [discriminate|reflexivity]|first [assumption|reflexivity]]]).
Qed.
Example C48_hyps_hole : exists v, 0 <= v < q_pasta /\ in_hole q_pasta v.
Proof. exists (q_pasta - q_pasta mod 2 ^ 64); vm_compute; repeat split; discriminate. Qed.
(** ed25519 text with 62 digits, one byte short, spells the scalar 1 *)
Example C48_hyps_short : scalar_unmarshal_text (ascii_bytes ("ed25519:01000000000000000000000000000000000000000000000000000000000000")) = Ok (Sc Ed25519 (VZ 1)).
Proof. vm_compute; reflexivity. Qed.
