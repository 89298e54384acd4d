From Coq Require Import String ZArith NArith List Bool Lia.
From Verif Require Import Lib.Res Limbs.Model Limbs.Spec Limbs.Ops Limbs.FieldModel Limbs.FieldProofs Limbs.ApiProofs
  Limbs.CmpProofs Limbs.PointModel Limbs.TextModel Limbs.K256fqCode Limbs.P256fqCode Limbs.PastafqCode Limbs.BlsfqCode
  Limbs.PropsField Limbs.PropsCodec Limbs.PointProofs.
Import ListNotations.
Notation length := List.length.
Local Open Scope Z_scope.

(** ** specification *)
(** a hexadecimal digit and the number it stands for *)
Definition digit (ch d : Z) : Prop :=
  0 <= d < 10 /\ ch = 48 + d \/ 10 <= d < 16 /\ (ch = 97 + (d - 10) \/ ch = 65 + (d - 10)).
(** the characters spell the bytes, two digits per byte *)
Inductive spells : list Z -> list Z -> Prop :=
| sp_nil : spells [] []
| sp_cons a b x y t bs : digit a x -> digit b y -> spells t bs -> spells (a :: b :: t) (16 * x + y :: bs).
Definition order (c : curve) : Z :=
  match c with K256 => q_k256 | P256 => q_p256 | Pallas => q_pasta | Ed25519 => r_ed
             | Bls381G1 | Bls381G2 => q_bls | Bls377G1 | Bls377G2 => r_bls377 end.
(** Ed25519 and Pallas put the least significant byte first *)
Definition num (c : curve) (bs : list Z) : Z := match c with Ed25519 | Pallas => le_value bs | _ => be_value bs end.
(** the scalar has this curve and this value *)
Definition denotes (s : scalar) (c : curve) (v : Z) : Prop :=
  s_curve s = c /\ 0 <= v < order c /\
  match s_val s with
  | VL x => match c with K256 => enc q_k256 x v | P256 => enc q_p256 x v | Pallas => enc q_pasta x v
            | Bls381G1 | Bls381G2 => enc q_bls x v | _ => False end
  | VZ w => match c with K256 | P256 | Pallas | Bls381G1 | Bls381G2 => False | _ => w = v end
  end.

(** ** hex *)
Lemma from_hex ch d : from_hex_char ch = Some d <-> digit ch d.
Proof.
unfold from_hex_char, digit.
destruct (Z.leb_spec 48 ch), (Z.leb_spec ch 57), (Z.leb_spec 97 ch), (Z.leb_spec ch 102), (Z.leb_spec 65 ch), (Z.leb_spec ch 70);
  cbn [andb]; split; intros h; try (injection h as <-); try discriminate h; try (apply f_equal); try lia.
Qed.
Lemma digit_range ch d : digit ch d -> 0 <= d < 16. Proof. unfold digit; lia. Qed.
Lemma nibbles x y : 0 <= x < 16 -> 0 <= y < 16 -> Z.lor (Z.shiftl x 4) y = 16 * x + y.
Proof.
intros hx hy.
assert (h : forallb (fun x => forallb (fun y => Z.lor (Z.shiftl x 4) y =? 16 * x + y) (map Z.of_nat (seq 0 16))) (map Z.of_nat (seq 0 16)) = true)
  by (vm_compute; reflexivity).
rewrite forallb_forall in h.
assert (hin : forall z, 0 <= z < 16 -> In z (map Z.of_nat (seq 0 16))).
{ intros z hz; apply in_map_iff; exists (Z.to_nat z); split; [apply Z2Nat.id; lia|apply in_seq; lia]. }
specialize (h x (hin x hx)); rewrite forallb_forall in h; specialize (h y (hin y hy)); apply Z.eqb_eq, h.
Qed.
Lemma digit_fun ch d d' : digit ch d -> digit ch d' -> d = d'.
Proof. unfold digit; lia. Qed.

Lemma hex_decode_ok src : forall room l, hex_decode room src = Ok l <-> spells src l /\ (length l <= room)%nat.
Proof.
assert (H : forall n src, (length src <= n)%nat -> forall room l, hex_decode room src = Ok l <-> spells src l /\ (length l <= room)%nat).
2:{ exact (H (length src) src (Nat.le_refl _)). }
clear src; induction n as [|n IH]; intros [|a [|b t]] hl room l; cbn [hex_decode]; simpl in hl; try lia.
- split; [intros h; injection h as <-; split; [constructor|simpl; lia]|intros [h _]; inversion h; reflexivity].
- split; [intros h; injection h as <-; split; [constructor|simpl; lia]|intros [h _]; inversion h; reflexivity].
- split; [discriminate|intros [h _]; inversion h].
- destruct (from_hex_char a) as [x|] eqn:ea.
  2:{ split; [discriminate|intros [h _]; inversion h as [|? ? x y ? ? ha]; subst; apply from_hex in ha; congruence]. }
  destruct (from_hex_char b) as [y|] eqn:eb.
  2:{ split; [discriminate|intros [h _]; inversion h as [|? ? x' y ? ? ha hb]; subst; apply from_hex in hb; congruence]. }
  apply from_hex in ea; apply from_hex in eb.
  destruct room as [|room].
  { split; [discriminate|intros [h hr]; inversion h; subst; simpl in hr; lia]. }
  specialize (IH t ltac:(lia) room).
  rewrite (nibbles x y (digit_range _ _ ea) (digit_range _ _ eb)).
  split.
  + destruct (hex_decode room t) as [l'| |]; cbn [bind]; [|discriminate|discriminate].
    intros h; assert (e : l = 16 * x + y :: l') by congruence; subst l. destruct (proj1 (IH l') eq_refl) as [h1 h2].
    split; [constructor; assumption|simpl; lia].
  + intros [h hr]; inversion h as [|? ? x' y' ? l' ha hb ht]; subst.
    rewrite (digit_fun _ _ _ ea ha), (digit_fun _ _ _ eb hb). simpl in hr. rewrite (proj2 (IH l')) by (split; [assumption|lia]). reflexivity.
Qed.

Lemma hex_decode_panic src : forall room, hex_decode room src = Panic <->
  exists pre bs rest, src = pre ++ rest /\ spells pre bs /\ length bs = S room.
Proof.
assert (H : forall n src, (length src <= n)%nat -> forall room, hex_decode room src = Panic <->
  exists pre bs rest, src = pre ++ rest /\ spells pre bs /\ length bs = S room).
2:{ exact (H (length src) src (Nat.le_refl _)). }
clear src; induction n as [|n IH]; intros [|a [|b t]] hl room; cbn [hex_decode]; simpl in hl; try lia.
- split; [discriminate|intros (pre & bs & rest & e & h & hb)]. destruct pre; [inversion h; subst; discriminate|discriminate].
- split; [discriminate|intros (pre & bs & rest & e & h & hb)]. destruct pre; [inversion h; subst; discriminate|discriminate].
- split; [discriminate|intros (pre & bs & rest & e & h & hb)].
  destruct pre as [|? [|? ?]]; [inversion h; subst; discriminate|inversion h|discriminate].
- assert (hinv : forall pre bs rest r, a :: b :: t = pre ++ rest -> spells pre bs -> length bs = S r ->
    exists x y pre' bs', digit a x /\ digit b y /\ t = pre' ++ rest /\ spells pre' bs' /\ length bs' = r).
  { intros pre bs rest r e h hb; inversion h as [|a' b' x y pre' bs' ha hb' ht]; subst; [discriminate|].
    simpl in e; injection e as <- <- ->; simpl in hb. exists x, y, pre', bs'; repeat split; try assumption; lia. }
  destruct (from_hex_char a) as [x|] eqn:ea.
  2:{ split; [discriminate|intros (pre & bs & rest & e & h & hb)]. destruct (hinv _ _ _ _ e h hb) as (x & _ & _ & _ & hx & _).
      apply from_hex in hx; congruence. }
  destruct (from_hex_char b) as [y|] eqn:eb.
  2:{ split; [discriminate|intros (pre & bs & rest & e & h & hb)]. destruct (hinv _ _ _ _ e h hb) as (_ & y & _ & _ & _ & hy & _).
      apply from_hex in hy; congruence. }
  apply from_hex in ea; apply from_hex in eb.
  destruct room as [|room].
  { split; [intros _|reflexivity]. exists [a; b], [16 * x + y], t; repeat split; constructor; try assumption; constructor. }
  specialize (IH t ltac:(lia) room). split.
  + intros h; destruct (hex_decode room t) as [l'| |]; simpl in h; try discriminate h.
    destruct (proj1 IH eq_refl) as (pre & bs & rest & -> & h1 & h2).
    exists (a :: b :: pre), (16 * x + y :: bs), rest; split; [reflexivity|split; [constructor; assumption|simpl; lia]].
  + intros (pre & bs & rest & e & h & hb). destruct (hinv _ _ _ _ e h hb) as (_ & _ & pre' & bs' & _ & _ & e' & h' & hb').
    rewrite (proj2 IH); [reflexivity|exists pre', bs', rest; repeat split; assumption].
Qed.

Lemma hex_char_digit d : 0 <= d < 16 -> digit (hex_char d) d.
Proof. intros hd; unfold hex_char, digit; destruct (d <? 10) eqn:e; lia. Qed.
Lemma encode_spells bs : all_bytes bs -> spells (hex_encode bs) bs.
Proof.
induction 1 as [|b bs hb hbs IH]; [constructor|].
assert (h1 : 0 <= Z.shiftr b 4 < 16) by (rewrite Z.shiftr_div_pow2 by lia; change (2 ^ 4) with 16; split; [apply Z.div_pos; lia|apply Z.div_lt_upper_bound; lia]).
assert (h2 : Z.land b 15 = b mod 16) by (change 15 with (Z.ones 4); apply Z.land_ones; lia).
assert (h3 : 0 <= Z.land b 15 < 16) by (rewrite h2; apply Z.mod_pos_bound; lia).
assert (e : b = 16 * Z.shiftr b 4 + Z.land b 15).
{ rewrite h2, Z.shiftr_div_pow2 by lia; change (2 ^ 4) with 16; apply Z.div_mod; lia. }
change (hex_encode (b :: bs)) with (hex_char (Z.shiftr b 4) :: hex_char (Z.land b 15) :: hex_encode bs).
rewrite e at 3. constructor; [apply hex_char_digit, h1|apply hex_char_digit, h3|exact IH].
Qed.
Lemma encode_length bs : length (hex_encode bs) = (2 * length bs)%nat.
Proof. induction bs as [|b bs IH]; [reflexivity|]; simpl length; fold (hex_encode bs); rewrite IH; lia. Qed.
Lemma encode_app a b : hex_encode (a ++ b) = hex_encode a ++ hex_encode b.
Proof. apply flat_map_app. Qed.
Lemma spells_app a x : spells a x -> forall b y, spells b y -> spells (a ++ b) (x ++ y).
Proof. induction 1; intros; simpl; [assumption|constructor; auto]. Qed.
Lemma spells_length s l : spells s l -> length s = (2 * length l)%nat.
Proof. induction 1; simpl; lia. Qed.
Lemma spells_fun s l : spells s l -> forall l', spells s l' -> l' = l.
Proof.
induction 1 as [|a b x y t bs ha hb hs IH]; intros l' h; inversion h as [|? ? x' y' ? l'' ha' hb' hs']; subst; [reflexivity|].
rewrite (digit_fun _ _ _ ha ha'), (digit_fun _ _ _ hb hb'), (IH _ hs'); reflexivity.
Qed.
Lemma spells_bytes s l : spells s l -> all_bytes l.
Proof. induction 1 as [|a b x y t bs ha hb hs IH]; constructor; [apply digit_range in ha; apply digit_range in hb; lia|exact IH]. Qed.

(** ** names and the separator *)
Lemma before_ok n d : ~ In 58 n -> before_colon (n ++ 58 :: d) = n.
Proof.
induction n as [|b n IH]; intros h; [reflexivity|]; cbn [before_colon app].
destruct (b =? 58) eqn:e; [apply Z.eqb_eq in e; subst b; elim h; left; reflexivity|].
rewrite IH; [reflexivity|intros hin; apply h; right; exact hin].
Qed.
Lemma before_split l : ~ In 58 (before_colon l) /\ (before_colon l = l \/ exists d, l = before_colon l ++ 58 :: d).
Proof.
induction l as [|b l [h1 h2]]; [split; [intros []|left; reflexivity]|]; cbn [before_colon].
destruct (b =? 58) eqn:e; [apply Z.eqb_eq in e; subst b; split; [intros []|right; exists l; reflexivity]|].
apply Z.eqb_neq in e; split; [intros [h|h]; [contradiction|exact (h1 h)]|].
destruct h2 as [h2|[d h2]]; [left; rewrite h2; reflexivity|right; exists d; simpl; rewrite <- h2; reflexivity].
Qed.
Lemma same_eq a b : same a b = true <-> a = b.
Proof. unfold same; destruct (list_eq_dec Z.eq_dec a b); split; congruence. Qed.
Lemma name_found c : curve_by_name (curve_name c) = Some c.
Proof. destruct c; vm_compute; reflexivity. Qed.
Lemma name_no_colon c : ~ In 58 (curve_name c).
Proof. destruct c; vm_compute; intros h; repeat destruct h as [h|h]; try discriminate h; exact h. Qed.
(** the accepted names: the eight curve names and two aliases *)
Lemma names n c : curve_by_name n = Some c <->
  n = curve_name c \/ n = ascii_bytes "BLS12831"%string /\ c = Bls381G1 \/ n = ascii_bytes "BLS12377"%string /\ c = Bls377G1.
Proof.
split.
- unfold curve_by_name; intros h.
  repeat match type of h with (if same n ?l then _ else _) = _ =>
    let e := fresh "e" in destruct (same n l) eqn:e; [apply same_eq in e; injection h as <-; subst n; auto; fail|] end.
  discriminate h.
- intros [->|[[-> ->]|[-> ->]]]; [apply name_found|vm_compute; reflexivity|vm_compute; reflexivity].
Qed.
Lemma name_short n c : curve_by_name n = Some c -> (length n <= 10)%nat.
Proof. intros h; apply names in h; destruct h as [->|[[-> _]|[-> _]]]; [destruct c|..]; vm_compute; lia. Qed.
Lemma split_app n d c : ~ In 58 n -> curve_by_name n = Some c -> split_input (n ++ 58 :: d) = Ok (c, d).
Proof.
intros hn hc; unfold split_input; rewrite before_ok by exact hn; rewrite hc.
rewrite app_length; simpl length. destruct (Nat.leb_spec (S (length n)) (length n + S (length d))); [|lia].
replace (S (length n)) with (length (n ++ [58])) by (rewrite app_length; simpl; lia).
replace (n ++ 58 :: d) with ((n ++ [58]) ++ d) by (rewrite <- app_assoc; reflexivity).
rewrite skipn_app, skipn_all, Nat.sub_diag; reflexivity.
Qed.
Lemma split_ok input : (11 <= length input)%nat ->
  match split_input input with
  | Ok (c, d) => exists n, input = n ++ 58 :: d /\ ~ In 58 n /\ curve_by_name n = Some c
  | Err => forall n c d, input = n ++ 58 :: d -> ~ In 58 n -> curve_by_name n <> Some c
  | Panic => False
  end.
Proof.
intros hl; destruct (before_split input) as [h1 [h2|[d h2]]].
- unfold split_input; destruct (curve_by_name (before_colon input)) as [c|] eqn:e.
  { apply name_short in e; rewrite h2 in e; lia. }
  intros n c d he hn hc; rewrite he, before_ok in e by exact hn; congruence.
- destruct (curve_by_name (before_colon input)) as [c|] eqn:e.
  + pose proof (split_app _ d c h1 e) as hs; rewrite <- h2 in hs; rewrite hs. exists (before_colon input); repeat split; assumption.
  + unfold split_input; rewrite e. intros n c d' he hn hc. rewrite he, before_ok in e by exact hn; congruence.
Qed.

(** ** scalar bytes *)
Lemma num_byte c bs : all_bytes bs -> 0 <= num c bs.
Proof.
intros h; assert (h1 : forall l, all_bytes l -> 0 <= le_value l).
{ induction 1 as [|b l hb hl IH]; [apply Z.le_refl|]. change (le_value (b :: l)) with (b + 256 * le_value l); lia. }
unfold num; destruct c; try (rewrite be_rev; apply h1, all_rev, h); apply h1, h.
Qed.
Lemma number_be bs : number (rev bs) = be_value bs.
Proof. rewrite le_value_eq, be_rev; reflexivity. Qed.
Lemma byte32 bs : length bs = 32%nat -> all_bytes bs -> byte_string 32 bs.
Proof. intros; split; assumption. Qed.
Lemma bls_in : In (blsfq, q_bls) primes256. Proof. simpl; tauto. Qed.
Lemma set_ok c bs : all_bytes bs -> c <> Pallas ->
  match scalar_set_bytes c bs with
  | Some s => (length bs = 32%nat \/ type_of c = TBls377) /\ num c bs < order c /\ denotes s c (num c bs)
  | None => (length bs <> 32%nat /\ type_of c <> TBls377) \/ order c <= num c bs
  end.
Proof.
intros hb hc; pose proof (num_byte c bs hb) as h0.
assert (hnat : forall f M, In (f, M) primes256 -> length bs = 32%nat ->
   match set_bytes f (rev bs) with Some x => be_value bs < M /\ enc M x (be_value bs) | None => M <= be_value bs end).
{ intros f M hin hl. rewrite be_rev. apply (C45_set_bytes_canonical f M (rev bs) hin).
  apply byte32; [rewrite rev_length; exact hl|apply all_rev, hb]. }
destruct c; try contradiction; cbn [scalar_set_bytes num order type_of] in *;
  try (destruct (Nat.eqb_spec (length bs) 32) as [hl|hl]; [|left; split; [exact hl|discriminate]]).
- pose proof (hnat k256fq q_k256 (or_intror (or_introl eq_refl)) hl) as h. destruct (set_bytes_with cmp_helper k256fq (rev bs)) as [x|]; cbn [wrap];
    [destruct h as [h1 h2]; split; [left; exact hl|split; [exact h1|split; [reflexivity|split; [split; assumption|exact h2]]]]|right; exact h].
- pose proof (hnat blsfq q_bls bls_in hl) as h. destruct (set_bytes_with cmp_helper blsfq (rev bs)) as [x|]; cbn [wrap];
    [destruct h as [h1 h2]; split; [left; exact hl|split; [exact h1|split; [reflexivity|split; [split; assumption|exact h2]]]]|right; exact h].
- pose proof (hnat blsfq q_bls bls_in hl) as h. destruct (set_bytes_with cmp_helper blsfq (rev bs)) as [x|]; cbn [wrap];
    [destruct h as [h1 h2]; split; [left; exact hl|split; [exact h1|split; [reflexivity|split; [split; assumption|exact h2]]]]|right; exact h].
- pose proof (hnat p256fq q_p256 (or_intror (or_intror (or_intror (or_introl eq_refl)))) hl) as h.
  destruct (set_bytes_with cmp_helper p256fq (rev bs)) as [x|]; cbn [wrap];
    [destruct h as [h1 h2]; split; [left; exact hl|split; [exact h1|split; [reflexivity|split; [split; assumption|exact h2]]]]|right; exact h].
- rewrite le_value_eq; destruct (Z.ltb_spec (le_value bs) r_ed) as [h|h];
    [split; [left; exact hl|split; [exact h|split; [reflexivity|split; [split; assumption|reflexivity]]]]|right; exact h].
- rewrite number_be; destruct (Z.eqb_spec (be_value bs mod r_bls377) (be_value bs)) as [h|h].
  + assert (hb' : 0 < r_bls377) by reflexivity; pose proof (Z.mod_pos_bound (be_value bs) r_bls377 hb').
    rewrite h. split; [right; reflexivity|split; [lia|split; [reflexivity|split; [cbn [order]; lia|reflexivity]]]].
  + right; destruct (Z.le_gt_cases r_bls377 (be_value bs)) as [|h']; [assumption|elim h; apply Z.mod_small; lia].
- rewrite number_be; destruct (Z.eqb_spec (be_value bs mod r_bls377) (be_value bs)) as [h|h].
  + assert (hb' : 0 < r_bls377) by reflexivity; pose proof (Z.mod_pos_bound (be_value bs) r_bls377 hb').
    rewrite h. split; [right; reflexivity|split; [lia|split; [reflexivity|split; [cbn [order]; lia|reflexivity]]]].
  + right; destruct (Z.le_gt_cases r_bls377 (be_value bs)) as [|h']; [assumption|elim h; apply Z.mod_small; lia].
Qed.

Lemma order_small c : order c < 256 ^ 32.
Proof. destruct c; vm_compute; reflexivity. Qed.
Lemma value_bytes s c v : denotes s c v ->
  length (scalar_bytes s) = 32%nat /\ all_bytes (scalar_bytes s) /\ num c (scalar_bytes s) = v.
Proof.
intros (hc & hv & hs); pose proof (order_small c) as ho.
assert (hl : forall f M x, In (f, M) natives -> enc M x v -> length (bytes f x) = 32%nat /\ all_bytes (bytes f x) /\ le_value (bytes f x) = v).
{ intros f M x hin hx; destruct (C45_bytes f M x v hin hx) as ([h1 h2] & h3 & _); repeat split; assumption. }
assert (hb : forall f M x, In (f, M) natives -> enc M x v -> length (rev (bytes f x)) = 32%nat /\ all_bytes (rev (bytes f x)) /\ be_value (rev (bytes f x)) = v).
{ intros f M x hin hx; destruct (hl f M x hin hx) as (h1 & h2 & h3). rewrite rev_length, be_rev'; split; [exact h1|split; [apply all_rev, h2|exact h3]]. }
assert (hn : 0 <= v < 256 ^ Z.of_nat 32) by (change (Z.of_nat 32) with 32; lia).
assert (hz : length (bytes_of 32 v) = 32%nat /\ all_bytes (bytes_of 32 v) /\ le_value (bytes_of 32 v) = v).
{ split; [apply bytes_of_length|split; [apply bytes_of_bytes, hn|rewrite <- le_value_eq; apply number_bytes_of, hn]]. }
assert (hzr : length (rev (bytes_of 32 v)) = 32%nat /\ all_bytes (rev (bytes_of 32 v)) /\ be_value (rev (bytes_of 32 v)) = v).
{ destruct hz as (h1 & h2 & h3). rewrite rev_length, be_rev'; split; [exact h1|split; [apply all_rev, h2|exact h3]]. }
unfold scalar_bytes; rewrite hc; destruct c, (s_val s) as [x|w]; try contradiction; try (subst w); cbn [num]; try assumption.
- exact (hb k256fq q_k256 x (or_intror (or_introl eq_refl)) hs).
- exact (hb blsfq q_bls x (primes256_native _ _ bls_in) hs).
- exact (hb blsfq q_bls x (primes256_native _ _ bls_in) hs).
- exact (hb p256fq q_p256 x (or_intror (or_intror (or_intror (or_introl eq_refl)))) hs).
- exact (hl pastafq q_pasta x (pastas_native _ _ (or_intror (or_introl eq_refl))) hs).
Qed.
