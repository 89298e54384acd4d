(** C45: byte and integer codecs of the native fields.  C46: their comparison. *)
From Coq Require Import ZArith NArith List Bool Lia.
From Verif Require Import Limbs.Model Limbs.Spec Limbs.Ops Limbs.FieldModel Limbs.FieldProofs Limbs.ApiProofs Limbs.CmpProofs
  Limbs.K256fpCode Limbs.K256fqCode Limbs.P256fpCode Limbs.P256fqCode Limbs.PastafpCode Limbs.PastafqCode Limbs.BlsfqCode Limbs.PropsField.
Import ListNotations.
Local Open Scope Z_scope.

(** the number a byte string spells, least significant byte first *)
Definition le_value (bs : list Z) : Z := fold_right (fun b acc => b + 256 * acc) 0 bs.
Definition byte_string (n : nat) (bs : list Z) : Prop := length bs = n /\ Forall (fun b => 0 <= b < 256) bs.
Lemma le_value_eq bs : number bs = le_value bs.
Proof. induction bs as [|b bs IH]; [reflexivity|]; cbn [number]; rewrite IH; reflexivity. Qed.
Lemma byte_string_bytes n bs : byte_string n bs -> is_bytes bs /\ length bs = n.
Proof. intros [h1 h2]; split; assumption. Qed.

(** the fields whose SetBytes uses the exact comparison, and the Pasta fields *)
Definition primes256 : list (field * Z) := [(k256fp, p_k256); (k256fq, q_k256); (p256fp, p_p256); (p256fq, q_p256);
  (blsfq, q_bls)].
Definition pastas : list (field * Z) := [(pastafp, p_pasta); (pastafq, q_pasta)].
Lemma primes256_native f M : In (f, M) primes256 -> In (f, M) natives.
Proof. simpl; tauto. Qed.
Lemma pastas_native f M : In (f, M) pastas -> In (f, M) natives.
Proof. simpl; tauto. Qed.

(** ** C45 *)
Theorem C45_set_bytes_wide f M bs : In (f, M) natives -> byte_string 64 bs ->
  enc M (set_bytes_wide f bs) (le_value bs mod M).
Proof.
intros h hb; destruct (byte_string_bytes _ _ hb) as [h1 h2]; nat_ok h; rewrite <- le_value_eq.
apply set_bytes_wide_enc; assumption.
Qed.
Print Assumptions C45_set_bytes_wide.

Theorem C45_bytes f M x v : In (f, M) natives -> enc M x v ->
  byte_string 32 (bytes f x) /\ le_value (bytes f x) = v /\ bigint f x = v.
Proof.
intros h hx; nat_ok h; destruct (bytes_ok f hf x v hx) as (h1 & h2 & h3).
unfold bigint; rewrite <- le_value_eq; split; [split; assumption|split; assumption].
Qed.
Print Assumptions C45_bytes.

(** accepted exactly when canonical, with the exact value *)
Theorem C45_set_bytes_canonical f M bs : In (f, M) primes256 -> byte_string 32 bs ->
  match set_bytes f bs with Some x => le_value bs < M /\ enc M x (le_value bs) | None => M <= le_value bs end.
Proof.
intros h hb; destruct (byte_string_bytes _ _ hb) as [h1 h2]; apply primes256_native in h; nat_ok h; rewrite <- le_value_eq.
apply (set_bytes_ok f hf); assumption.
Qed.
Print Assumptions C45_set_bytes_canonical.

Theorem C45_round_trip f M : In (f, M) primes256 ->
  (forall bs x, byte_string 32 bs -> set_bytes f bs = Some x -> bytes f x = bs) /\
  (forall x v, enc M x v -> set_bytes f (bytes f x) = Some x).
Proof.
intros h; pose proof (primes256_native _ _ h) as hn; split.
- intros bs x hb hs; pose proof (C45_set_bytes_canonical f M bs h hb) as hc; rewrite hs in hc; destruct hc as [_ he].
  destruct (C45_bytes f M x _ hn he) as (h1 & h2 & _).
  destruct (byte_string_bytes _ _ hb) as [b1 b2], (byte_string_bytes _ _ h1) as [c1 c2].
  rewrite <- (bytes_of_number (bytes f x) 32 c1 c2), <- (bytes_of_number bs 32 b1 b2), !le_value_eq, h2; reflexivity.
- intros x v hx; destruct (C45_bytes f M x v hn hx) as (h1 & h2 & _).
  pose proof (C45_set_bytes_canonical f M _ h h1) as hc; rewrite h2 in hc.
  destruct (set_bytes_with cmp_helper f (bytes f x)) as [y|]; [|destruct hx as (_ & hv & _); lia].
  f_equal; destruct hc as [_ hy]. nat_ok hn. exact (enc_inj f _ _ _ hy hx).
Qed.
Print Assumptions C45_round_trip.

Theorem C45_set_bigint f M recv z : In (f, M) primes256 -> enc M (set_bigint f recv z) (z mod M).
Proof. intros h; apply primes256_native in h; nat_ok h; apply set_bigint_enc, hf. Qed.
Print Assumptions C45_set_bigint.

(** *** the Pasta fields *)
(** the canonical encodings their SetBytes refuses *)
Definition in_hole (M v : Z) : Prop := v / 2 ^ 64 = M / 2 ^ 64 /\ v mod 2 ^ 64 <= M mod 2 ^ 64 - 2 ^ 63.

Lemma limbs_of bs : byte_string 32 bs ->
  exists a, from_bytes bs = a /\ wf a /\ eval a = le_value bs.
Proof.
intros hb; destruct (byte_string_bytes _ _ hb) as [h1 h2]; exists (from_bytes bs); split; [reflexivity|split; [apply from_bytes_wf, h1|]].
rewrite from_bytes_eval by exact h2; apply le_value_eq.
Qed.

(** exactly which strings are accepted, and as what *)
Theorem C45_pasta_set_bytes f M bs : In (f, M) pastas -> byte_string 32 bs ->
  match pasta_set_bytes f bs with
  | Some x => wrap_order (msf (from_bytes bs)) (msf (f_m f)) = -1 /\ enc M x (le_value bs mod M)
  | None => wrap_order (msf (from_bytes bs)) (msf (f_m f)) <> -1
  end.
Proof.
intros h hb; destruct (byte_string_bytes _ _ hb) as [h1 h2]; apply pastas_native in h; nat_ok h; rewrite <- le_value_eq.
destruct (consts f hf) as (hm & _).
rewrite <- pasta_cmp_ok by (first [exact hm|apply from_bytes_wf, h1]).
apply (set_bytes_with_ok f hf pasta_cmp); assumption.
Qed.
Print Assumptions C45_pasta_set_bytes.

Lemma pasta_shape f M : In (f, M) pastas -> exists m0 m1, f_m f = L4 m0 m1 0 (2 ^ 62) /\
  2 ^ 63 <= m0 < W /\ 0 < m1 < 2 ^ 63 /\ M = m0 + W * m1 + W * W * W * 2 ^ 62.
Proof.
intros h; simpl in h; destruct h as [h|[h|[]]]; injection h as <- <-;
  eexists; eexists; (split; [reflexivity|]); repeat split; discriminate.
Qed.

(** canonical strings: all but those in the hole are accepted *)
Theorem C45_pasta_canonical f M bs : In (f, M) pastas -> byte_string 32 bs -> le_value bs < M ->
  (pasta_set_bytes f bs = None <-> in_hole M (le_value bs)).
Proof.
intros h hb hlt; pose proof (C45_pasta_set_bytes f M bs h hb) as hs.
destruct (limbs_of bs hb) as (a & ea & (a0 & a1 & a2 & a3) & ev); rewrite ea in hs.
destruct (pasta_shape f M h) as (m0 & m1 & em & hm0 & hm1 & eM); rewrite em in hs.
assert (hd : (pasta_set_bytes f bs = None <-> wrap_order (msf a) (msf (L4 m0 m1 0 (2 ^ 62))) <> -1)).
{ destruct (pasta_set_bytes f bs); split; intros hh; try reflexivity; [discriminate|destruct hs; contradiction|exact hs]. }
rewrite hd; clear hd hs. rewrite <- ev in hlt |- *. unfold in_hole, eval in *; rewrite eM in *; clear eM ev ea em h.
destruct a as [x0 x1 x2 x3]; unfold msf; cbn [l0 l1 l2 l3] in *.
change (2 ^ 64) with W; rewrite hW in *.
change (2 ^ 63) with 9223372036854775808 in *; change (2 ^ 62) with 4611686018427387904 in *.
replace ((x0 + 18446744073709551616 * (x1 + 18446744073709551616 * (x2 + 18446744073709551616 * x3))) / 18446744073709551616)
  with (x1 + 18446744073709551616 * (x2 + 18446744073709551616 * x3))
  by (apply (Z.div_unique _ _ _ x0); [left; assumption|ring]).
replace ((x0 + 18446744073709551616 * (x1 + 18446744073709551616 * (x2 + 18446744073709551616 * x3))) mod 18446744073709551616)
  with x0 by (apply (Z.mod_unique _ _ (x1 + 18446744073709551616 * (x2 + 18446744073709551616 * x3))); [left; assumption|ring]).
set (K := m0 + _ + _) in *.
replace (K / 18446744073709551616) with (m1 + 18446744073709551616 * (18446744073709551616 * 4611686018427387904))
  by (apply (Z.div_unique _ _ _ m0); [left; lia|unfold K; ring]).
replace (K mod 18446744073709551616) with m0
  by (apply (Z.mod_unique _ _ (m1 + 18446744073709551616 * (18446744073709551616 * 4611686018427387904))); [left; lia|unfold K; ring]).
unfold K in hlt; clear K.
cbn [wrap_order].
change (2 ^ 64) with 18446744073709551616; change (2 ^ 63) with 9223372036854775808.
destruct (Z.eqb_spec x3 4611686018427387904) as [->|n3].
2:{ rewrite Z.mod_small by lia. destruct (Z.leb_spec 9223372036854775808 (4611686018427387904 - x3)); [lia|].
    split; [intros hh; exfalso; apply hh; reflexivity|lia]. }
assert (x2 = 0) as -> by lia. cbn [Z.eqb].
destruct (Z.eqb_spec x1 m1) as [->|n1].
2:{ rewrite Z.mod_small by lia. destruct (Z.leb_spec 9223372036854775808 (m1 - x1)); [lia|].
    split; [intros hh; exfalso; apply hh; reflexivity|lia]. }
destruct (Z.eqb_spec x0 m0) as [->|n0]; [lia|].
rewrite Z.mod_small by lia. destruct (Z.leb_spec 9223372036854775808 (m0 - x0)).
- split; [intros _; lia|intros _; discriminate].
- split; [intros hh; exfalso; apply hh; reflexivity|lia].
Qed.
Print Assumptions C45_pasta_canonical.

(** the hole is inhabited: refuted round trip, canonical value refused, SetBigInt leaves its receiver *)
Theorem C45_pasta_round_trip_refuted f M : In (f, M) pastas -> exists v x,
  0 <= v < M /\ enc M x v /\ pasta_set_bytes f (bytes f x) = None /\ forall recv, pasta_set_bigint f recv v = recv.
Proof.
intros h; pose proof (pastas_native _ _ h) as hn.
assert (hv : exists v, 0 <= v < M /\ in_hole M v).
{ exists (M - M mod 2 ^ 64); simpl in h; destruct h as [h|[h|[]]]; injection h as _ <-; vm_compute; repeat split; discriminate. }
destruct hv as (v & hv & hh); destruct (C74_representation f M hn) as (hex & _ & _).
destruct (hex v hv) as [x hx]; exists v, x; split; [exact hv|split; [exact hx|]].
destruct (C45_bytes f M x v hn hx) as (b1 & b2 & _).
assert (hnone : pasta_set_bytes f (bytes f x) = None).
{ apply (C45_pasta_canonical f M _ h b1); rewrite b2; [lia|exact hh]. }
split; [exact hnone|]. intros recv.
destruct (byte_string_bytes _ _ b1) as [c1 c2].
assert (e : bytes_of 32 (v mod M) = bytes f x).
{ rewrite Z.mod_small by exact hv. rewrite <- b2, <- le_value_eq. apply bytes_of_number; assumption. }
destruct (natives_ok _ _ hn) as [_ eM]. unfold set_bigint_with. unfold eval in eM; rewrite eM, e, hnone. reflexivity.
Qed.
Print Assumptions C45_pasta_round_trip_refuted.

(** SetBigInt is exact outside the hole *)
Theorem C45_pasta_set_bigint f M recv z : In (f, M) pastas ->
  (~ in_hole M (z mod M) -> enc M (pasta_set_bigint f recv z) (z mod M)) /\
  (in_hole M (z mod M) -> pasta_set_bigint f recv z = recv).
Proof.
intros h; pose proof (pastas_native _ _ h) as hn; destruct (natives_ok _ _ hn) as [hf eM].
assert (hpos : 0 < M) by (destruct (consts f hf) as (_ & _ & _ & _ & hh & _); lia).
pose proof (Z.mod_pos_bound z M hpos) as hv.
pose proof (b32 f hf z) as hb. rewrite eM in hb.
assert (hbs : byte_string 32 (bytes_of 32 (z mod M))) by (split; [apply bytes_of_length|apply bytes_of_bytes; lia]).
assert (ev : le_value (bytes_of 32 (z mod M)) = z mod M) by (rewrite <- le_value_eq; apply number_bytes_of, hb).
pose proof (C45_pasta_canonical f M _ h hbs) as hc; rewrite ev in hc; specialize (hc ltac:(lia)).
pose proof (C45_pasta_set_bytes f M _ h hbs) as hs; rewrite ev, Zmod_mod in hs.
unfold set_bigint_with; unfold eval in eM; rewrite eM.
destruct (pasta_set_bytes f (bytes_of 32 (z mod M))) as [y|]; split; intros hh.
- apply hs.
- apply hc in hh; discriminate.
- exfalso; apply hh, hc; reflexivity.
- reflexivity.
Qed.
Print Assumptions C45_pasta_set_bigint.

(** every string whose top byte is above 0xC0 is accepted, though none is canonical *)
Theorem C45_pasta_noncanonical_accepted f M bs : In (f, M) pastas -> byte_string 32 bs -> 192 < nth 31 bs 0 ->
  M <= le_value bs /\ exists x, pasta_set_bytes f bs = Some x /\ enc M x (le_value bs mod M) /\ bytes f x <> bs.
Proof.
intros h hb ht; pose proof (C45_pasta_set_bytes f M bs h hb) as hs; pose proof (pastas_native _ _ h) as hn.
destruct (limbs_of bs hb) as (a & ea & (a0 & a1 & a2 & a3) & ev); rewrite ea in hs.
destruct (pasta_shape f M h) as (m0 & m1 & em & hm0 & hm1 & eM); rewrite em in hs.
assert (h3 : 13835058055282163712 < l3 a).
{ rewrite <- ea; cbn [from_bytes l3]. destruct hb as [hl hf].
  assert (hk : length (firstn 8 (skipn 24 bs)) = 8%nat) by (rewrite firstn_length, skipn_length, hl; reflexivity).
  rewrite firstn_all2 by (rewrite skipn_length, hl; lia).
  assert (hk' : length (skipn 24 bs) = 8%nat) by (rewrite skipn_length, hl; reflexivity).
  assert (he : nth 7 (skipn 24 bs) 0 = nth 31 bs 0).
  { rewrite <- (firstn_skipn 24 bs) at 2. rewrite app_nth2 by (rewrite firstn_length, hl; lia).
    rewrite firstn_length, hl; reflexivity. }
  rewrite <- he in ht. assert (hff : Forall (fun b => 0 <= b < 256) (skipn 24 bs)) by (apply is_bytes_skipn, hf).
  destruct (skipn 24 bs) as [|c0 [|c1 [|c2 [|c3 [|c4 [|c5 [|c6 [|c7 [|]]]]]]]]]; try discriminate hk'.
  cbn [nth number] in *. repeat match goal with H : Forall _ (_ :: _) |- _ => inversion_clear H end. lia. }
assert (hbig : M <= le_value bs).
{ rewrite <- ev, eM; unfold eval. rewrite hW in *; change (2 ^ 62) with 4611686018427387904; lia. }
split; [exact hbig|].
assert (ho : wrap_order (msf a) (msf (L4 m0 m1 0 (2 ^ 62))) = -1).
{ unfold msf; cbn [l0 l1 l2 l3 wrap_order]. change (2 ^ 62) with 4611686018427387904; change (2 ^ 63) with 9223372036854775808.
  change (2 ^ 64) with 18446744073709551616; rewrite hW in *. destruct (Z.eqb_spec (l3 a) 4611686018427387904); [lia|].
  replace ((4611686018427387904 - l3 a) mod 18446744073709551616) with (4611686018427387904 - l3 a + 18446744073709551616)
    by (apply (Z.mod_unique _ _ (-1)); lia).
  destruct (Z.leb_spec 9223372036854775808 (4611686018427387904 - l3 a + 18446744073709551616)); [lia|reflexivity]. }
destruct (pasta_set_bytes f bs) as [x|]; [|contradiction].
exists x; split; [reflexivity|]; destruct hs as [_ hx]; split; [exact hx|].
intros e; destruct (C45_bytes f M x _ hn hx) as (_ & h2 & _). rewrite e in h2.
pose proof hx as (_ & hv & _); lia.
Qed.
Print Assumptions C45_pasta_noncanonical_accepted.

(** the hypotheses are met *)
Example C45_hyps : byte_string 64 (repeat 255 64) /\ byte_string 32 (repeat 7 32) /\ le_value (repeat 7 32) < p_pasta /\
  192 < nth 31 (repeat 255 32) 0 /\ byte_string 32 (repeat 255 32).
Proof. repeat split; try (repeat constructor; discriminate); vm_compute; reflexivity. Qed.

(** ** C46 *)
(** Cmp of the K256 and P256 fields and scalars and of the BLS12-381 scalars orders the residues by their stored forms *)
Theorem C46_native_order f M x y a b : In (f, M) natives -> enc M x a -> enc M y b ->
  cmp_helper x y = match (a * 2 ^ 256) mod M ?= (b * 2 ^ 256) mod M with Eq => 0 | Lt => -1 | Gt => 1 end /\
  (cmp_helper x y = 0 <-> a = b) /\ cmp_helper y x = - cmp_helper x y.
Proof.
intros h hx hy; nat_ok h.
assert (e1 : cmp_helper x y = match eval x ?= eval y with Eq => 0 | Lt => -1 | Gt => 1 end) by (apply cmp_helper_ok; [apply hx|apply hy]).
assert (e2 : cmp_helper y x = match eval y ?= eval x with Eq => 0 | Lt => -1 | Gt => 1 end) by (apply cmp_helper_ok; [apply hy|apply hx]).
pose proof (enc_eqb f hf x y a b hx hy) as hq.
split; [rewrite e1; destruct hx as (_ & _ & <-), hy as (_ & _ & <-); reflexivity|].
rewrite e1, e2, (Z.compare_antisym (eval x) (eval y)).
destruct (Z.compare_spec (eval x) (eval y)) as [e|l|g]; simpl; (split; [|reflexivity]); split; intros k; try discriminate; try reflexivity.
- apply Z.eqb_eq; rewrite <- hq; apply Z.eqb_eq, e.
- exfalso; apply Z.eqb_eq in k; rewrite <- hq in k; apply Z.eqb_eq in k; lia.
- exfalso; apply Z.eqb_eq in k; rewrite <- hq in k; apply Z.eqb_eq in k; lia.
Qed.
Print Assumptions C46_native_order.

Lemma enc_of f M v : In (f, M) natives -> 0 <= v < M -> exists x, enc M x v.
Proof. intros h; apply C74_representation with (1 := h). Qed.

(** so it is not the numeric order: in every field there are a < b with Cmp(a, b) = 1 *)
Theorem C46_numeric_order_refuted f M : In (f, M) primes256 ->
  exists a b, a < b /\ (exists x, enc M x a) /\ (exists y, enc M y b) /\
  forall x y, enc M x a -> enc M y b -> cmp_helper x y = 1.
Proof.
intros h; pose proof (primes256_native _ _ h) as hn.
assert (hab : exists a b, 0 <= a < M /\ 0 <= b < M /\ a < b /\ (b * 2 ^ 256) mod M < (a * 2 ^ 256) mod M).
{ simpl in h; destruct h as [h|[h|[h|[h|[h|[]]]]]]; injection h as _ <-; exists 2.
  - exists 0xc9bd1905155383999c46c2c295f2b761bcb223fedc24a059d838091d0868192a; vm_compute; repeat split; discriminate.
  - exists 0xd9e8890d6494ef93897f30c127cfab5d3bbbd4567fa50c3c80fd22938097c016; vm_compute; repeat split; discriminate.
  - exists 0xfffffffe00000003fffffffd0000000200000001fffffffe0000000300000000; vm_compute; repeat split; discriminate.
  - exists 0x60d066334905c1e907f8b6041e607725badef3e243566fafce1bc8f79c197c79; vm_compute; repeat split; discriminate.
  - exists 0x1bbe869330009d577204078a4f77266aab6fca8f09dc705f13f75b69fe75c040; vm_compute; repeat split; discriminate. }
destruct hab as (a & b & ha & hb & hab & hr); exists a, b; split; [exact hab|].
split; [apply (enc_of f M a hn ha)|split; [apply (enc_of f M b hn hb)|]].
intros x y hx hy; destruct (C46_native_order f M x y a b hn hx hy) as [-> _].
apply Z.compare_gt_iff in hr; rewrite hr; reflexivity.
Qed.
Print Assumptions C46_numeric_order_refuted.

(** the Pasta fields: the first differing limbs of the stored forms decide, by the sign of their 64-bit difference *)
Theorem C46_pasta_order f M x y a b : In (f, M) pastas -> enc M x a -> enc M y b ->
  pasta_cmp x y = wrap_order (msf x) (msf y) /\ (pasta_cmp x y = 0 <-> a = b).
Proof.
intros h hx hy; pose proof (pastas_native _ _ h) as hn; split; [apply pasta_cmp_ok; [apply hx|apply hy]|].
rewrite pasta_cmp_zero by (first [apply hx|apply hy]).
destruct (C74_representation f M hn) as (_ & _ & hr); apply hr; assumption.
Qed.
Print Assumptions C46_pasta_order.

(** no order at all: three elements each below the next, cyclically *)
Theorem C46_pasta_cycle f M : In (f, M) pastas ->
  exists x y z a b c, enc M x a /\ enc M y b /\ enc M z c /\
  pasta_cmp x y = -1 /\ pasta_cmp y z = -1 /\ pasta_cmp z x = -1.
Proof.
intros h; pose proof (pastas_native _ _ h) as hn; destruct (C74_representation f M hn) as (_ & hr & _).
assert (hl : forall n, 0 <= n < W -> exists v, enc M (L4 n 0 0 0) v).
{ intros n hw; apply hr; [repeat split; cbn [l0 l1 l2 l3]; try apply hw; first [discriminate|reflexivity]|].
  unfold eval; cbn [l0 l1 l2 l3]. rewrite !Z.mul_0_r, Z.add_0_r.
  apply Z.lt_trans with W; [apply hw|]. simpl in h; destruct h as [h|[h|[]]]; injection h as _ <-; reflexivity. }
exists (L4 0 0 0 0), (L4 6148914691236517205 0 0 0), (L4 12297829382473034410 0 0 0).
destruct (hl 0) as [a ha]; [split; [discriminate|reflexivity]|].
destruct (hl 6148914691236517205) as [b hb]; [split; [discriminate|reflexivity]|].
destruct (hl 12297829382473034410) as [c hc]; [split; [discriminate|reflexivity]|].
exists a, b, c; repeat split; try apply ha; try apply hb; try apply hc; reflexivity.
Qed.
Print Assumptions C46_pasta_cycle.

Example C46_hyps : exists x y, enc q_k256 x 3 /\ enc q_k256 y 9 /\ In (k256fq, q_k256) natives.
Proof.
assert (h : In (k256fq, q_k256) natives) by (right; left; reflexivity).
destruct (enc_of _ _ 3 h) as [x hx]; [split; [discriminate|reflexivity]|].
destruct (enc_of _ _ 9 h) as [y hy]; [split; [discriminate|reflexivity]|].
exists x, y; split; [exact hx|split; [exact hy|exact h]].
Qed.
