(** Proofs about the methods of native.Field. *)
From Coq Require Import ZArith NArith List Bool Lia.
From Verif Require Import Limbs.Model Limbs.Spec Limbs.Checker Limbs.Elim Limbs.Sub Limbs.Ops Limbs.FieldModel.
Import ListNotations.
Local Open Scope Z_scope.

Lemma hW : W = 18446744073709551616. Proof. reflexivity. Qed.

(** ** comparison *)
Definition lt1 (a b : Z) : Z := if a <? b then 1 else 0.
Lemma half_bit a b : 0 <= a < 4294967296 -> 0 <= b < 4294967296 -> Z.land (Z.shiftr ((a - b) mod W) 32) 1 = lt1 a b.
Proof.
intros ha hb; change 1 with (Z.ones 1); rewrite Z.land_ones, Z.shiftr_div_pow2 by lia; unfold lt1.
change (2 ^ 32) with 4294967296; change (2 ^ 1) with 2; destruct (Z.ltb_spec a b).
- replace ((a - b) mod W) with (W + (a - b)) by (apply (Z.mod_unique _ _ (-1)); rewrite hW; lia).
  replace ((W + (a - b)) / 4294967296) with 4294967295; [reflexivity|].
  apply (Z.div_unique _ _ _ (4294967296 + (a - b))); [left|rewrite hW]; lia.
- rewrite (Z.mod_small (a - b)) by (rewrite hW; lia). rewrite Z.div_small by lia; reflexivity.
Qed.

Lemma full_bit a b : 0 <= a < W -> 0 <= b < W ->
  Z.shiftr ((a - b) mod W) 63 = if (a <? b) && (b - a <=? 2 ^ 63) || (2 ^ 63 <=? a - b) then 1 else 0.
Proof.
intros ha hb; rewrite Z.shiftr_div_pow2 by lia; change (2 ^ 63) with 9223372036854775808.
rewrite hW in *; destruct (Z.ltb_spec a b), (Z.leb_spec (b - a) 9223372036854775808), (Z.leb_spec 9223372036854775808 (a - b)); simpl; try lia.
- rewrite <- (Z.mod_unique (a - b) 18446744073709551616 (-1) (18446744073709551616 + (a - b))) by lia.
  symmetry; apply (Z.div_unique _ _ _ (9223372036854775808 + (a - b))); lia.
- rewrite <- (Z.mod_unique (a - b) 18446744073709551616 (-1) (18446744073709551616 + (a - b))) by lia.
  apply Z.div_small; lia.
- rewrite Z.mod_small by lia. symmetry; apply (Z.div_unique _ _ _ (a - b - 9223372036854775808)); lia.
- rewrite Z.mod_small by lia. apply Z.div_small; lia.
Qed.

Definition sgn_pair (c : comparison) : Z * Z := match c with Eq => (0, 0) | Lt => (0, 1) | Gt => (1, 0) end.
Lemma cmp_limb_ok c l r : 0 <= l < W -> 0 <= r < W ->
  cmp_limb (sgn_pair c) l r = sgn_pair (match c with Eq => l ?= r | _ => c end).
Proof.
intros hl hr.
assert (h32 : forall x, 0 <= x < W -> 0 <= Z.shiftr x 32 < 4294967296 /\ 0 <= Z.land x 4294967295 < 4294967296 /\
  x = 4294967296 * Z.shiftr x 32 + Z.land x 4294967295).
{ intros x hx; rewrite hW in hx; rewrite Z.shiftr_div_pow2 by lia; change 4294967295 with (Z.ones 32).
  rewrite Z.land_ones by lia; change (2 ^ 32) with 4294967296.
  pose proof (Z.div_mod x 4294967296 ltac:(lia)); pose proof (Z.mod_pos_bound x 4294967296 ltac:(lia)); lia. }
destruct (h32 l hl) as (a1 & a2 & a3), (h32 r hr) as (b1 & b2 & b3).
unfold cmp_limb. destruct (sgn_pair c) as [g t] eqn:ec.
rewrite !half_bit by assumption; unfold lt1.
set (lh := Z.shiftr l 32) in *; set (rh := Z.shiftr r 32) in *; set (ll := Z.land l 4294967295) in *;
  set (rl := Z.land r 4294967295) in *; clearbody lh rh ll rl.
assert (hcmp : (l ?= r) = match lh ?= rh with Eq => ll ?= rl | x => x end).
{ destruct (Z.compare_spec lh rh), (Z.compare_spec ll rl), (Z.compare_spec l r); try reflexivity; exfalso; lia. }
rewrite hcmp; clear - ec.
destruct c; injection ec as <- <-;
destruct (Z.compare_spec lh rh), (Z.compare_spec ll rl);
repeat match goal with |- context [?a <? ?b] => destruct (Z.ltb_spec a b); try (exfalso; lia) end; reflexivity.
Qed.

Lemma cmp_helper_ok a b : wf a -> wf b ->
  cmp_helper a b = match eval a ?= eval b with Eq => 0 | Lt => -1 | Gt => 1 end.
Proof.
intros (a0 & a1 & a2 & a3) (b0 & b1 & b2 & b3); unfold cmp_helper.
change (0, 0) with (sgn_pair Eq); rewrite !cmp_limb_ok by assumption.
assert (h : (eval a ?= eval b) = match l3 a ?= l3 b with Eq => match l2 a ?= l2 b with Eq => match l1 a ?= l1 b with Eq =>
  l0 a ?= l0 b | c => c end | c => c end | c => c end).
{ unfold eval; rewrite hW in *.
  destruct (Z.compare_spec (l3 a) (l3 b)), (Z.compare_spec (l2 a) (l2 b)), (Z.compare_spec (l1 a) (l1 b)),
   (Z.compare_spec (l0 a) (l0 b));
  first [apply Z.compare_eq_iff; lia | apply Z.compare_lt_iff; lia | apply Z.compare_gt_iff; lia]. }
rewrite h.
destruct (l3 a ?= l3 b), (l2 a ?= l2 b), (l1 a ?= l1 b), (l0 a ?= l0 b); reflexivity.
Qed.

(** ** bits *)
Lemma lor_ge a b : 0 <= a -> 0 <= b -> a <= Z.lor a b.
Proof.
intros ha hb; pose proof (land_le a (Z.lor a b) ha ltac:(apply Z.lor_nonneg; lia)) as h.
replace (Z.land a (Z.lor a b)) with a in h; [lia|].
apply Z.bits_inj'; intros n hn; rewrite Z.land_spec, Z.lor_spec; destruct (Z.testbit a n), (Z.testbit b n); reflexivity.
Qed.
Lemma word_mod x : 0 <= x -> (0 <= x < W <-> Z.land x (Z.ones 64) = x).
Proof.
intros hx; rewrite Z.land_ones by lia; change (2 ^ 64) with W; split; intros h.
- apply Z.mod_small, h.
- pose proof (Z.mod_pos_bound x W W_pos); lia.
Qed.
Lemma lor_word a b : 0 <= a < W -> 0 <= b < W -> 0 <= Z.lor a b < W.
Proof.
intros ha hb; assert (h0 : 0 <= Z.lor a b) by (apply Z.lor_nonneg; lia).
apply (word_mod _ h0); rewrite Z.land_lor_distr_l; f_equal; apply word_mod; lia.
Qed.
Lemma lxor_word a b : 0 <= a < W -> 0 <= b < W -> 0 <= Z.lxor a b < W.
Proof.
intros ha hb; assert (h0 : 0 <= Z.lxor a b) by (apply Z.lxor_nonneg; lia).
apply (word_mod _ h0).
assert (ea := proj1 (word_mod a ltac:(lia)) ha); assert (eb := proj1 (word_mod b ltac:(lia)) hb).
apply Z.bits_inj'; intros n hn; rewrite Z.land_spec, Z.lxor_spec.
rewrite <- ea, <- eb, !Z.land_spec; destruct (Z.testbit a n), (Z.testbit b n), (Z.testbit (Z.ones 64) n); reflexivity.
Qed.
Lemma sign_mask_ok t : 0 <= t < W -> sign_mask t = if t =? 0 then 0 else -1.
Proof.
intros ht; unfold sign_mask; destruct (Z.eqb_spec t 0) as [->|n]; [reflexivity|].
assert (hn : 0 <= (- t) mod W) by (apply Z.mod_pos_bound; wpos).
assert (h : 9223372036854775808 <= Z.lor t ((- t) mod W)).
{ destruct (Z.le_gt_cases 9223372036854775808 t).
  - pose proof (lor_ge t ((- t) mod W) ltac:(lia) hn); lia.
  - pose proof (lor_ge ((- t) mod W) t hn ltac:(lia)) as h; rewrite Z.lor_comm in h.
    rewrite <- (Z.mod_unique (- t) W (-1) (W - t)) in h |- * by (rewrite hW in *; lia).
    rewrite hW in *; lia. }
destruct (Z.leb_spec 9223372036854775808 (Z.lor t ((- t) mod W))); [reflexivity|lia].
Qed.

Lemma lxor_0 a b : Z.lxor a b = 0 <-> a = b.
Proof. split; [apply Z.lxor_eq|intros ->; apply Z.lxor_nilpotent]. Qed.
Lemma equal_helper_ok a b : wf a -> wf b -> equal_helper a b = if eval a =? eval b then 1 else 0.
Proof.
intros ha hb; pose proof ha as (a0 & a1 & a2 & a3); pose proof hb as (b0 & b1 & b2 & b3); unfold equal_helper.
rewrite sign_mask_ok by (repeat apply lor_word; apply lxor_word; assumption).
match goal with |- (if ?t =? 0 then _ else _) + _ = _ => destruct (Z.eqb_spec t 0) as [e|n]; destruct (Z.eqb_spec (eval a) (eval b)) as [e'|n'] end;
 try reflexivity; exfalso.
- apply n'; rewrite !Z.lor_eq_0_iff, !lxor_0 in e; unfold eval; destruct e as (((-> & ->) & ->) & ->); reflexivity.
- apply n; rewrite (wf_eval_inj a b ha hb e'), !Z.lxor_nilpotent; reflexivity.
Qed.
Lemma or_zero a : wf a -> Z.lor (Z.lor (Z.lor (l0 a) (l1 a)) (l2 a)) (l3 a) = 0 <-> eval a = 0.
Proof.
intros (a0 & a1 & a2 & a3); rewrite !Z.lor_eq_0_iff; unfold eval; rewrite hW in *; lia.
Qed.
Lemma is_zero_ok a : wf a -> is_zero a = if eval a =? 0 then 1 else 0.
Proof.
intros ha; pose proof ha as (a0 & a1 & a2 & a3); unfold is_zero.
rewrite sign_mask_ok by (repeat apply lor_word; assumption).
destruct (Z.eqb_spec (eval a) 0) as [e|n].
- apply or_zero in e; [rewrite e; reflexivity|assumption].
- destruct (Z.eqb_spec (Z.lor (Z.lor (Z.lor (l0 a) (l1 a)) (l2 a)) (l3 a)) 0) as [e|_]; [apply or_zero in e; [lia|assumption]|reflexivity].
Qed.
Lemma is_nonzero_ok a : wf a -> is_nonzero a = if eval a =? 0 then 0 else 1.
Proof.
intros ha; pose proof (is_zero_ok a ha) as h; unfold is_zero in h; unfold is_nonzero.
destruct (eval a =? 0); lia.
Qed.

Lemma select_ok c a b : 0 <= c <= 1 -> wf a -> wf b -> select c a b = if c =? 0 then a else b.
Proof.
intros hc (a0 & a1 & a2 & a3) (b0 & b1 & b2 & b3); unfold select; rewrite !cmovznz_ok by assumption.
destruct a, b; simpl; destruct (c =? 0); reflexivity.
Qed.

(** ** bytes *)
Definition is_bytes (bs : list Z) : Prop := Forall (fun b => 0 <= b < 256) bs.
Lemma number_bound bs : is_bytes bs -> 0 <= number bs < 256 ^ Z.of_nat (length bs).
Proof.
induction 1 as [|b bs hb hbs IH]; [simpl; lia|]; cbn [number].
cbn [length]; rewrite Nat2Z.inj_succ, Z.pow_succ_r by lia; lia.
Qed.
Lemma number_app a b : number (a ++ b) = number a + 256 ^ Z.of_nat (length a) * number b.
Proof.
induction a as [|x a IH]; [simpl app; simpl number; simpl length; rewrite Z.pow_0_r; lia|].
cbn [app number length]; rewrite Nat2Z.inj_succ, Z.pow_succ_r by lia; rewrite IH; ring.
Qed.
Lemma bytes_of_number bs n : is_bytes bs -> length bs = n -> bytes_of n (number bs) = bs.
Proof.
intros h; revert n; induction h as [|b bs hb hbs IH]; intros n <-; [reflexivity|].
cbn [length bytes_of number]; change 255 with (Z.ones 8); rewrite Z.land_ones, Z.shiftr_div_pow2 by lia; change (2 ^ 8) with 256.
rewrite <- (Z.mod_unique (b + 256 * number bs) 256 (number bs) b) by lia.
rewrite <- (Z.div_unique (b + 256 * number bs) 256 (number bs) b) by lia.
f_equal; apply IH; reflexivity.
Qed.
Lemma bytes_of_length n x : length (bytes_of n x) = n.
Proof. revert x; induction n; simpl; intros; [|rewrite IHn]; reflexivity. Qed.
Lemma bytes_of_bytes n x : 0 <= x -> is_bytes (bytes_of n x).
Proof.
revert x; induction n; simpl; intros x hx; constructor.
- change 255 with (Z.ones 8); rewrite Z.land_ones by lia; change (2 ^ 8) with 256; apply Z.mod_pos_bound; lia.
- apply IHn; apply Z.shiftr_nonneg, hx.
Qed.
Lemma number_bytes_of n x : 0 <= x < 256 ^ Z.of_nat n -> number (bytes_of n x) = x.
Proof.
revert x; induction n; intros x hx; [simpl in *; lia|].
cbn [bytes_of number]; rewrite Nat2Z.inj_succ, Z.pow_succ_r in hx by lia.
rewrite IHn; rewrite Z.shiftr_div_pow2 by lia; change (2 ^ 8) with 256.
- change 255 with (Z.ones 8); rewrite Z.land_ones by lia; change (2 ^ 8) with 256.
  pose proof (Z.div_mod x 256 ltac:(lia)); lia.
- split; [apply Z.div_pos; lia|apply Z.div_lt_upper_bound; lia].
Qed.

Lemma is_bytes_firstn n bs : is_bytes bs -> is_bytes (firstn n bs).
Proof. intros h; rewrite <- (firstn_skipn n bs) in h; apply Forall_app in h; apply h. Qed.
Lemma is_bytes_skipn n bs : is_bytes bs -> is_bytes (skipn n bs).
Proof. intros h; rewrite <- (firstn_skipn n bs) in h; apply Forall_app in h; apply h. Qed.
Lemma word_of_8 bs : is_bytes bs -> 0 <= number (firstn 8 bs) < W.
Proof.
intros h; pose proof (number_bound _ (is_bytes_firstn 8 _ h)) as hb.
assert (length (firstn 8 bs) <= 8)%nat by (rewrite firstn_length; lia).
assert (256 ^ Z.of_nat (length (firstn 8 bs)) <= 256 ^ 8) by (apply Z.pow_le_mono_r; lia).
change (256 ^ 8) with W in *; lia.
Qed.
Lemma from_bytes_wf bs : is_bytes bs -> wf (from_bytes bs).
Proof. intros h; unfold wf, from_bytes; cbn [l0 l1 l2 l3]; repeat split; apply word_of_8; repeat apply is_bytes_skipn; assumption. Qed.
Lemma number_split n bs : (n <= length bs)%nat -> number bs = number (firstn n bs) + 256 ^ Z.of_nat n * number (skipn n bs).
Proof. intros h; rewrite <- (firstn_skipn n bs) at 1; rewrite number_app, firstn_length_le by exact h; reflexivity. Qed.
Lemma skipn_add (l : list Z) (m n : nat) : skipn m (skipn n l) = skipn (n + m) l.
Proof. revert l; induction n as [|n IH]; intros l; [reflexivity|]; destruct l; [simpl; destruct m; reflexivity|apply IH]. Qed.
Lemma from_bytes_eval bs : length bs = 32%nat -> eval (from_bytes bs) = number bs.
Proof.
intros h; unfold eval, from_bytes; cbn [l0 l1 l2 l3].
rewrite (number_split 8 bs) by lia.
rewrite (number_split 8 (skipn 8 bs)) by (rewrite skipn_length; lia).
rewrite (number_split 8 (skipn 8 (skipn 8 bs))) by (rewrite !skipn_length; lia).
rewrite (number_split 8 (skipn 8 (skipn 8 (skipn 8 bs)))) by (rewrite !skipn_length; lia).
rewrite !skipn_add; cbn [Nat.add].
rewrite (skipn_all2 (n := 32)) by lia. change (256 ^ Z.of_nat 8) with W. simpl (number []). ring.
Qed.

Lemma is_bytes_app a b : is_bytes a -> is_bytes b -> is_bytes (a ++ b).
Proof. intros; apply Forall_app; split; assumption. Qed.
Lemma to_bytes_bytes a : wf a -> is_bytes (to_bytes a).
Proof. intros (a0 & a1 & a2 & a3); unfold to_bytes; repeat apply is_bytes_app; apply bytes_of_bytes; lia. Qed.
Lemma to_bytes_length a : length (to_bytes a) = 32%nat.
Proof. unfold to_bytes; rewrite !app_length, !bytes_of_length; reflexivity. Qed.
Lemma number_to_bytes a : wf a -> number (to_bytes a) = eval a.
Proof.
intros (a0 & a1 & a2 & a3); unfold to_bytes, eval.
rewrite !number_app, !bytes_of_length, !number_bytes_of by (change (256 ^ Z.of_nat 8) with W; assumption).
change (256 ^ Z.of_nat 8) with W; ring.
Qed.
Lemma number_inj a b : is_bytes a -> is_bytes b -> length a = length b -> number a = number b -> a = b.
Proof. intros ha hb hl h. rewrite <- (bytes_of_number a _ ha eq_refl), <- (bytes_of_number b _ hb eq_refl), hl, h; reflexivity. Qed.
