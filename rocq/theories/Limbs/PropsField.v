(** C74: the machine arithmetic of the native fields is arithmetic modulo the field order. *)
From Coq Require Import ZArith Znumtheory NArith List Bool Lia.
From Verif Require Import Limbs.Model Limbs.Spec Limbs.Ops Limbs.FieldModel Limbs.FieldInst Limbs.FieldProofs Limbs.ApiProofs
  Limbs.RootProofs Limbs.ChainCode Limbs.K256fpCode Limbs.K256fqCode Limbs.P256fpCode Limbs.P256fqCode Limbs.PastafpCode
  Limbs.PastafqCode Limbs.BlsfqCode Limbs.BlsfqProofs.
Import ListNotations.
Local Open Scope Z_scope.

(** the published moduli *)
Definition p_k256 : Z := 2 ^ 256 - 2 ^ 32 - 977.
Definition q_k256 : Z := 0xfffffffffffffffffffffffffffffffebaaedce6af48a03bbfd25e8cd0364141.
Definition p_p256 : Z := 2 ^ 256 - 2 ^ 224 + 2 ^ 192 + 2 ^ 96 - 1.
Definition q_p256 : Z := 0xffffffff00000000ffffffffffffffffbce6faada7179e84f3b9cac2fc632551.
Definition p_pasta : Z := 0x40000000000000000000000000000000224698fc094cf91b992d30ed00000001.
Definition q_pasta : Z := 0x40000000000000000000000000000000224698fc0994a8dd8c46eb2100000001.
(** the scalar field of BLS12-381 *)
Definition q_bls : Z := 0x73eda753299d7d483339d80809a1d80553bda402fffe5bfeffffffff00000001.
(** the seven field packages with their moduli *)
Definition natives : list (field * Z) :=
  [(k256fp, p_k256); (k256fq, q_k256); (p256fp, p_p256); (p256fq, q_p256); (pastafp, p_pasta); (pastafq, q_pasta);
   (blsfq, q_bls)].

Lemma unconditional (A B C : Prop) : A /\ C -> A /\ (B -> C). Proof. tauto. Qed.
Lemma natives_all f M : In (f, M) natives -> (field_good f /\ (M <> q_bls -> opp_good f)) /\ eval (f_m f) = M.
Proof.
intros h; simpl in h.
destruct h as [h|[h|[h|[h|[h|[h|[h|[]]]]]]]]; injection h as <- <-; (split; [|reflexivity]);
  [| | | | | |split; [exact blsfq_good|intros hq; contradiction hq; reflexivity]];
  (apply unconditional, compiled_good; vm_compute; reflexivity).
Qed.
Lemma natives_ok f M : In (f, M) natives -> field_good f /\ eval (f_m f) = M.
Proof. intros h; destruct (natives_all f M h) as [[h1 _] h2]; split; assumption. Qed.
Lemma natives_opp_good f M : In (f, M) natives -> M <> q_bls -> opp_good f.
Proof. intros h; exact (proj2 (proj1 (natives_all f M h))). Qed.
Ltac nat_ok h := let hf := fresh "hf" in destruct (natives_ok _ _ h) as [hf <-].
Lemma natives_opp f M x a : In (f, M) natives -> M <> q_bls \/ a <> 0 -> enc M x a -> enc M (opp f x) ((- a) mod M).
Proof.
intros h hq hx; pose proof (natives_opp_good f M h) as hg; destruct (natives_ok _ _ h) as [hf e].
destruct (Z.eq_dec M q_bls) as [eq|nq].
- destruct hq as [hq|hq]; [contradiction|].
  assert (ef : f = blsfq).
  { clear - h eq; simpl in h; destruct h as [h|[h|[h|[h|[h|[h|[h|[]]]]]]]]; injection h as <- <-; first [reflexivity|discriminate eq]. }
  subst f; rewrite <- e in hx |- *; apply (opp_enc blsfq blsfq_good); [|exact hx].
  apply blsfq_opp; [apply hx|].
  pose proof (enc_eqb blsfq blsfq_good x (L4 0 0 0 0) a 0 hx (zero_enc blsfq blsfq_good)) as he.
  apply Z.eqb_neq in hq; rewrite hq in he; apply Z.eqb_neq in he; change (eval (L4 0 0 0 0)) with 0 in he.
  destruct (enc_lt blsfq blsfq_good x a hx) as [h1 h2]; split; [lia|exact h2].
- rewrite <- e in hx |- *; apply (opp_enc f hf); [|exact hx]; exact (hg nq x (proj1 hx) (proj2 (enc_lt f hf x a hx))).
Qed.

(** every residue has exactly one stored form, and every reduced limb vector stores exactly one residue *)
Theorem C74_representation f M : In (f, M) natives ->
  (forall v, 0 <= v < M -> exists x, enc M x v) /\
  (forall x, wf x -> eval x < M -> exists v, enc M x v) /\
  (forall x y a b, enc M x a -> enc M y b -> (x = y <-> a = b)).
Proof.
intros h; nat_ok h; split; [|split].
- intros v hv; exists (set_bigint f (L4 0 0 0 0) v).
  pose proof (set_bigint_enc f hf (L4 0 0 0 0) v) as he; rewrite Z.mod_small in he by exact hv; exact he.
- apply (enc_ex f hf).
- intros x y a b hx hy; split; [intros <-; exact (enc_fun f hf _ _ _ hx hy)|intros <-; exact (enc_inj f _ _ _ hx hy)].
Qed.
Print Assumptions C74_representation.

Theorem C74_ring f M x y a b : In (f, M) natives -> enc M x a -> enc M y b ->
  enc M (mul f x y) ((a * b) mod M) /\ enc M (square f x) ((a * a) mod M) /\
  enc M (add f x y) ((a + b) mod M) /\ enc M (sub f x y) ((a - b) mod M) /\
  (M <> q_bls \/ a <> 0 -> enc M (opp f x) ((- a) mod M)) /\
  enc M (double f x) ((2 * a) mod M).
Proof.
intros h hx hy; assert (ho := fun k => natives_opp f M x a h k hx); nat_ok h.
split; [apply mul_enc; assumption|split; [apply square_enc; assumption|split; [apply add_enc; assumption|
  split; [apply sub_enc; assumption|split; [exact ho|]]]]].
replace (2 * a) with (a + a) by ring; apply add_enc; assumption.
Qed.
Print Assumptions C74_ring.

(** the BLS12-381 scalar field: Neg of zero returns the limbs of the modulus, which no residue is stored as.  IsZero and
    Equal do not recognise it as zero, Cmp puts it above zero, Invert reports success; Bytes and BigInt read it as zero. *)
Theorem C74_bls_neg_zero_refuted x out : enc q_bls x 0 -> wf out ->
  eval (opp blsfq x) = q_bls /\ (forall v, ~ enc q_bls (opp blsfq x) v) /\
  is_zero (opp blsfq x) = 0 /\ is_nonzero (opp blsfq x) = 1 /\ equal_helper (opp blsfq x) x = 0 /\
  cmp_helper (opp blsfq x) x = 1 /\ blsfq_invert out (opp blsfq x) = (x, 1) /\
  bytes blsfq (opp blsfq x) = repeat 0 32 /\ bigint blsfq (opp blsfq x) = 0.
Proof.
intros hx ho; assert (hn : In (blsfq, q_bls) natives) by (simpl; tauto).
assert (e : x = L4 0 0 0 0) by (pose proof (zero_enc blsfq blsfq_good) as hz; exact (enc_inj blsfq _ _ _ hx hz)).
rewrite e; clear e hx x.
assert (eo : opp blsfq (L4 0 0 0 0) = blsfq_m) by (vm_compute; reflexivity).
rewrite eo; split; [reflexivity|split].
- intros v hv; exact (Z.lt_irrefl _ (proj2 (enc_lt blsfq blsfq_good blsfq_m v hv))).
- split; [vm_compute; reflexivity|split; [vm_compute; reflexivity|split; [vm_compute; reflexivity|split; [vm_compute; reflexivity|split]]]].
  + unfold blsfq_invert, invert.
    assert (er : run_chain blsfq blsfq_chain blsfq_m = L4 0 0 0 0) by (vm_compute; reflexivity). 
    rewrite er. change (is_nonzero blsfq_m) with 1.
    rewrite select_ok by (first [exact ho|lia|repeat split; first [discriminate|reflexivity]]); reflexivity.
  + split; vm_compute; reflexivity.
Qed.
Print Assumptions C74_bls_neg_zero_refuted.
Example C74_bls_neg_hyps : enc q_bls (L4 0 0 0 0) 0 /\ wf (f_r blsfq).
Proof. split; [exact (zero_enc blsfq blsfq_good)|repeat split; first [discriminate|reflexivity]]. Qed.

(** its CMove selects as the other fields' does *)
Theorem C74_bls_select x y a b : enc q_bls x a -> enc q_bls y b -> blsfq_select 0 x y = x /\ blsfq_select 1 x y = y.
Proof.
intros hx hy; rewrite !select_same, !select_ok by (first [apply hx|apply hy|lia]); split; reflexivity.
Qed.
Print Assumptions C74_bls_select.

Theorem C74_conversions f M : In (f, M) natives ->
  enc M (f_r f) 1 /\ enc M (L4 0 0 0 0) 0 /\
  (forall n, 0 <= n < 2 ^ 64 -> enc M (set_uint64 f n) n) /\
  (forall x, wf x -> enc M (to_montgomery f x) (eval x mod M)) /\
  (forall x v, enc M x v -> wf (from_montgomery f x) /\ eval (from_montgomery f x) = v).
Proof.
intros h; assert (hbig : 2 ^ 64 < M).
{ clear - h; simpl in h; repeat (destruct h as [h|h]; [injection h as _ <-; reflexivity|]); contradiction. }
nat_ok h; split; [apply one_enc, hf|split; [apply zero_enc, hf|split; [|split; [apply to_enc, hf|apply from_enc, hf]]]].
intros n hn; assert (hw : wf (L4 n 0 0 0)) by (change (2 ^ 64) with W in hn; repeat split; simpl; try lia; reflexivity).
pose proof (to_enc f hf _ hw) as he. unfold set_uint64.
replace (eval (L4 n 0 0 0)) with n in he by (unfold eval; cbn [l0 l1 l2 l3]; ring).
rewrite Z.mod_small in he by lia; exact he.
Qed.
Print Assumptions C74_conversions.

(** Equal, IsZero, IsNonZero, IsOne, CMove *)
Theorem C74_tests f M x y a b : In (f, M) natives -> enc M x a -> enc M y b ->
  equal_helper x y = (if a =? b then 1 else 0) /\ is_zero x = (if a =? 0 then 1 else 0) /\
  is_nonzero x = (if a =? 0 then 0 else 1) /\ is_one f x = (if a =? 1 then 1 else 0) /\
  select 0 x y = x /\ select 1 x y = y.
Proof.
intros h hx hy; nat_ok h.
assert (hz : (eval x =? 0) = (a =? 0)).
{ pose proof (enc_eqb f hf x (L4 0 0 0 0) a 0 hx (zero_enc f hf)) as he; exact he. }
rewrite is_zero_ok, is_nonzero_ok, hz by apply hx.
rewrite !select_ok by (first [apply hx|apply hy|lia]).
split; [apply (equal_enc f hf); assumption|split; [reflexivity|split; [reflexivity|split; [apply is_one_enc; assumption|]]]].
split; reflexivity.
Qed.
Print Assumptions C74_tests.

Theorem C74_exp f M x y a b e : In (f, M) natives -> enc M x a -> enc M y b -> wf e ->
  enc M (exp f x y) (a ^ b mod M) /\ enc M (pow f x e) (a ^ eval e mod M).
Proof. intros h hx hy he; nat_ok h; split; [apply exp_enc; assumption|apply pow_enc; assumption]. Qed.
Print Assumptions C74_exp.

(** Invert of the K256 and P256 fields: field, modulus, method *)
Definition inverters : list (field * Z * (limbs -> limbs -> limbs * Z)) :=
  [(k256fp, p_k256, k256fp_invert); (k256fq, q_k256, k256fq_invert); (p256fp, p_p256, p256fp_inverse);
   (p256fq, q_p256, p256fq_invert); (blsfq, q_bls, blsfq_invert)].
(** 0: flag 0, the output keeps its content.  Otherwise flag 1 and, the modulus being prime, the inverse. *)
Theorem C74_invert f M inv out x v : In (f, M, inv) inverters -> wf out -> enc M x v ->
  (v = 0 -> inv out x = (out, 0)) /\
  (v <> 0 -> exists y w, inv out x = (y, 1) /\ enc M y w /\ (prime M -> (v * w) mod M = 1)).
Proof.
intros h ho hx; simpl in h.
assert (H : forall f' M', In (f', M') natives -> M' = M -> enc (eval (f_m f')) x v /\ field_good f' /\ eval (f_m f') = M).
{ intros f' M' hn e; destruct (natives_ok _ _ hn) as [h1 h2]; rewrite h2, e; tauto. }
destruct h as [h|[h|[h|[h|[h|[]]]]]]; injection h as <- <- <-.
- destruct (H k256fp p_k256) as (he & hf & e); [simpl; tauto|reflexivity|].
  rewrite <- e; apply invert_ok; [exact hf|vm_compute; reflexivity|exact ho|exact he].
- destruct (H k256fq q_k256) as (he & hf & e); [simpl; tauto|reflexivity|].
  rewrite <- e; apply invert_ok; [exact hf|vm_compute; reflexivity|exact ho|exact he].
- destruct (H p256fp p_p256) as (he & hf & e); [simpl; tauto|reflexivity|].
  rewrite <- e; apply p256_invert_ok; [exact hf|vm_compute; reflexivity|exact ho|exact he].
- destruct (H p256fq q_p256) as (he & hf & e); [simpl; tauto|reflexivity|].
  rewrite <- e; apply invert_ok; [exact hf|vm_compute; reflexivity|exact ho|exact he].
- destruct (H blsfq q_bls) as (he & hf & e); [simpl; tauto|reflexivity|].
  rewrite <- e; apply invert_ok; [exact hf|vm_compute; reflexivity|exact ho|exact he].
Qed.
Print Assumptions C74_invert.

Definition pasta_inverters : list (field * Z * (limbs -> limbs * bool)) :=
  [(pastafp, p_pasta, pastafp_invert); (pastafq, q_pasta, pastafq_invert)].
(** The Pasta fields: the flag says whether the argument is nonzero; the result for 0 is 0. *)
Theorem C74_pasta_invert f M inv x v : In (f, M, inv) pasta_inverters -> enc M x v ->
  exists y w, inv x = (y, negb (v =? 0)) /\ enc M y w /\ (v = 0 -> w = 0) /\ (v <> 0 -> prime M -> (v * w) mod M = 1).
Proof.
intros h hx; simpl in h.
destruct h as [h|[h|[]]]; injection h as <- <- <-.
- destruct (natives_ok pastafp p_pasta) as [hf e]; [simpl; tauto|]; rewrite <- e in hx |- *.
  destruct (pasta_invert_ok pastafp hf (L4 0x992d30ecffffffff 0x224698fc094cf91b 0x0000000000000000 0x4000000000000000) x v)
    as (y & w & h1 & h2 & h3 & h4); [repeat split; first [discriminate|reflexivity]|reflexivity|exact hx|].
  exists y, w; split; [exact h1|split; [exact h2|split; [|exact h4]]]. intros hv; destruct (h3 hv) as [|h5]; [assumption|discriminate h5].
- destruct (natives_ok pastafq q_pasta) as [hf e]; [simpl; tauto|]; rewrite <- e in hx |- *.
  destruct (pasta_invert_ok pastafq hf (L4 0x8c46eb20ffffffff 0x224698fc0994a8dd 0x0000000000000000 0x4000000000000000) x v)
    as (y & w & h1 & h2 & h3 & h4); [repeat split; first [discriminate|reflexivity]|reflexivity|exact hx|].
  exists y, w; split; [exact h1|split; [exact h2|split; [|exact h4]]]. intros hv; destruct (h3 hv) as [|h5]; [assumption|discriminate h5].
Qed.
Print Assumptions C74_pasta_invert.

(** Sqrt of the K256 and P256 fields *)
Definition rooters : list (field * Z * (limbs -> limbs -> limbs * Z)) :=
  [(k256fp, p_k256, k256fp_sqrt); (k256fq, q_k256, k256fq_sqrt); (p256fp, p_p256, p256fp_sqrt); (p256fq, q_p256, p256fq_sqrt);
   (blsfq, q_bls, blsfq_sqrt)].
Definition square_mod (M v : Z) : Prop := exists u, (u * u) mod M = v.

(** the residues the stored constants c5 stand for *)
Lemma c5_k256 : enc q_k256 (L4 0x944cf2a220910e04 0x815c829c780589f4 0x55980b07bc222113 0xc702b0d248825b36)
  0xc1dc060e7a91986df9879a3fbc483a898bdeab680756045992f4b5402b052f2.
Proof. split; [repeat split; first [discriminate|reflexivity]|split; [split; [vm_compute; discriminate|vm_compute; reflexivity]|vm_compute; reflexivity]]. Qed.
Lemma c5_p256 : enc q_p256 (L4 0x1015708f7e368fe1 0x31c6c5456ecc4511 0x5281fe8998a19ea1 0x0279089e10c63fe8)
  0xffc97f062a770992ba807ace842a3dfc1546cad004378daf0592d7fbb41e6602.
Proof. split; [repeat split; first [discriminate|reflexivity]|split; [split; [vm_compute; discriminate|vm_compute; reflexivity]|vm_compute; reflexivity]]. Qed.
Lemma c5_pastafp : enc p_pasta (L4 0xa28db849bad6dbf0 0x9083cd03d3b539df 0xfba6b9ca9dc8448e 0x3ec928747b89c6da)
  0x2bce74deac30ebda362120830561f81aea322bf2b7bb7584bdad6fabd87ea32f.
Proof. split; [repeat split; first [discriminate|reflexivity]|split; [split; [vm_compute; discriminate|vm_compute; reflexivity]|vm_compute; reflexivity]]. Qed.
Lemma c5_pastafq : enc q_pasta (L4 0x218077428c9942de 0xcc49578921b60494 0xac2e5d27b2efbee2 0x0b79fa897f2db056)
  0x2de6a9b8746d3f589e5c4dfd492ae26e9bb97ea3c106f049a70e2c1102b6d05f.
Proof. split; [repeat split; first [discriminate|reflexivity]|split; [split; [vm_compute; discriminate|vm_compute; reflexivity]|vm_compute; reflexivity]]. Qed.
(** 7 to the power c2, by repeated squaring *)
Section PowMod.
Variables (M a : Z).
Hypothesis hM : M <> 0.
Fixpoint pow_mod (e : positive) : Z :=
  match e with
  | xH => a mod M
  | xO e' => let t := pow_mod e' in (t * t) mod M
  | xI e' => let t := pow_mod e' in (a * (t * t)) mod M
  end.
Lemma pow_mod_ok e : pow_mod e = a ^ Zpos e mod M.
Proof.
induction e as [e IH|e IH|]; cbn [pow_mod]; cbv zeta; rewrite ?IH.
- rewrite Pos2Z.inj_xI, Z.pow_add_r, Z.pow_1_r, Z.pow_twice_r, (Z.mul_comm _ a) by lia.
  rewrite <- Z.mul_mod_idemp_r, <- Z.mul_mod, Z.mul_mod_idemp_r by exact hM; reflexivity.
- rewrite Pos2Z.inj_xO, Z.pow_twice_r, <- Z.mul_mod by lia; reflexivity.
- rewrite Z.pow_1_r; reflexivity.
Qed.
End PowMod.
Definition c5_value : Z := 0x16a2a19edfe81f20d09b681922c813b4b63683508c2280b93829971f439f0d2b.
Lemma blsfq_gen : enc q_bls blsfq_generator 7.
Proof. split; [repeat split; first [discriminate|reflexivity]|split; [split; [discriminate|reflexivity]|vm_compute; reflexivity]]. Qed.
Lemma c5_blsfq : enc q_bls (pow blsfq blsfq_generator blsfq_c2) c5_value.
Proof.
assert (hw : wf blsfq_c2) by (repeat split; first [discriminate|reflexivity]).
assert (hn : In (blsfq, q_bls) natives) by (simpl; tauto).
pose proof (proj2 (C74_exp blsfq q_bls _ _ 7 7 blsfq_c2 hn blsfq_gen blsfq_gen hw)) as h.
assert (e : 7 ^ eval blsfq_c2 mod q_bls = c5_value); [|rewrite <- e; exact h].
replace (eval blsfq_c2) with (Zpos 0x73eda753299d7d483339d80809a1d80553bda402fffe5bfeffffffff) by (vm_compute; reflexivity).
rewrite <- pow_mod_ok by discriminate; vm_compute; reflexivity.
Qed.

Theorem C74_sqrt f M rt out x v : In (f, M, rt) rooters -> wf out -> enc M x v ->
  exists y w r, rt out x = (y, w) /\
  (w = 1 /\ enc M y r /\ (r * r) mod M = v \/ w = 0 /\ y = out) /\ (prime M -> (w = 1 <-> square_mod M v)).
Proof.
intros h ho hx; simpl in h.
destruct h as [h|[h|[h|[h|[h|[]]]]]]; injection h as <- <- <-.
- destruct (natives_ok k256fp p_k256) as [hf e]; [simpl; tauto|]; rewrite <- e in hx |- *.
  apply sqrt34_ok; [exact hf|repeat split; first [discriminate|reflexivity]|vm_compute; reflexivity|exact ho|exact hx].
- destruct (natives_ok k256fq q_k256) as [hf e]; [simpl; tauto|]; pose proof c5_k256 as h5; rewrite <- e in hx, h5 |- *.
  unfold k256fq_sqrt; eapply (sqrt_ts_ok k256fq hf 6);
    [repeat split; first [discriminate|reflexivity]|exact h5|lia|vm_compute; reflexivity|vm_compute; reflexivity|exact ho|exact hx].
- destruct (natives_ok p256fp p_p256) as [hf e]; [simpl; tauto|]; rewrite <- e in hx |- *.
  apply sqrt34_ok; [exact hf|repeat split; first [discriminate|reflexivity]|vm_compute; reflexivity|exact ho|exact hx].
- destruct (natives_ok p256fq q_p256) as [hf e]; [simpl; tauto|]; pose proof c5_p256 as h5; rewrite <- e in hx, h5 |- *.
  unfold p256fq_sqrt; eapply (sqrt_ts_ok p256fq hf 4);
    [repeat split; first [discriminate|reflexivity]|exact h5|lia|vm_compute; reflexivity|vm_compute; reflexivity|exact ho|exact hx].
- destruct (natives_ok blsfq q_bls) as [hf e]; [simpl; tauto|]; pose proof c5_blsfq as h5; rewrite <- e in hx, h5 |- *.
  unfold blsfq_sqrt; eapply (sqrt_ts_ok blsfq hf 32);
    [repeat split; first [discriminate|reflexivity]|exact h5|lia|vm_compute; reflexivity|vm_compute; reflexivity|exact ho|exact hx].
Qed.
Print Assumptions C74_sqrt.

Definition pasta_rooters : list (field * Z * (limbs -> limbs * bool)) :=
  [(pastafp, p_pasta, pastafp_sqrt); (pastafq, q_pasta, pastafq_sqrt)].
(** Pasta: the flag is exact for the returned value; a non-residue leaves an element that is no root *)
Theorem C74_pasta_sqrt f M rt x v : In (f, M, rt) pasta_rooters -> enc M x v ->
  exists y b r, rt x = (y, b) /\ enc M y r /\ (b = true <-> (r * r) mod M = v) /\
  (prime M -> (b = true <-> square_mod M v)).
Proof.
intros h hx; simpl in h.
destruct h as [h|[h|[]]]; injection h as <- <- <-.
- destruct (natives_ok pastafp p_pasta) as [hf e]; [simpl; tauto|]; pose proof c5_pastafp as h5; rewrite <- e in hx, h5 |- *.
  unfold pastafp_sqrt; eapply (pasta_sqrt_ok pastafp hf 32);
    [repeat split; first [discriminate|reflexivity]|exact h5|lia|vm_compute; reflexivity|vm_compute; reflexivity|exact hx].
- destruct (natives_ok pastafq q_pasta) as [hf e]; [simpl; tauto|]; pose proof c5_pastafq as h5; rewrite <- e in hx, h5 |- *.
  unfold pastafq_sqrt; eapply (pasta_sqrt_ok pastafq hf 32);
    [repeat split; first [discriminate|reflexivity]|exact h5|lia|vm_compute; reflexivity|vm_compute; reflexivity|exact hx].
Qed.
Print Assumptions C74_pasta_sqrt.

(** the hypotheses are met: the stored form of 5 modulo the K256 prime is 5 * 2^256 reduced, and squares to 25 *)
Example C74_hyps : In (k256fp, p_k256) natives /\ enc p_k256 (L4 (5 * 4294968273) 0 0 0) 5.
Proof. split; [left; reflexivity|split; [repeat split; first [discriminate|reflexivity]|split; [split; [discriminate|reflexivity]|vm_compute; reflexivity]]]. Qed.
Example C74_squares : enc p_k256 (square k256fp (L4 (5 * 4294968273) 0 0 0)) ((5 * 5) mod p_k256).
Proof. destruct C74_hyps as [h1 h2]; exact (proj1 (proj2 (C74_ring k256fp p_k256 _ _ 5 5 h1 h2 h2))). Qed.
