(** The comparison of the Pasta fields: the order it decides. *)
From Coq Require Import ZArith NArith List Bool Lia.
From Verif Require Import Limbs.Model Limbs.Spec Limbs.FieldModel Limbs.FieldProofs.
Import ListNotations.
Local Open Scope Z_scope.

(** limb vectors, most significant limb first: the first limbs that differ are compared by the sign of their 64-bit
    difference, read as a two's complement number *)
Fixpoint wrap_order (ls rs : list Z) : Z :=
  match ls, rs with
  | l :: ls', r :: rs' => if l =? r then wrap_order ls' rs' else if 2 ^ 63 <=? (r - l) mod 2 ^ 64 then 1 else -1
  | _, _ => 0
  end.
Definition msf (a : limbs) : list Z := [l3 a; l2 a; l1 a; l0 a].

Definition code (c : Z) : Z * Z := if c =? 0 then (0, 0) else if c =? 1 then (1, 0) else (0, 1).
Definition limb_order (l r : Z) : Z := if l =? r then 0 else if 2 ^ 63 <=? (r - l) mod 2 ^ 64 then 1 else -1.
Lemma limb_order_tri l r : limb_order l r = 0 \/ limb_order l r = 1 \/ limb_order l r = -1.
Proof. unfold limb_order; destruct (l =? r); [auto|destruct (_ <=? _); auto]. Qed.

Lemma top_bit x : 0 <= x < W -> Z.shiftr x 63 = if 2 ^ 63 <=? x then 1 else 0.
Proof.
intros hx; rewrite Z.shiftr_div_pow2 by lia; rewrite hW in hx; change (2 ^ 63) with 9223372036854775808.
destruct (Z.leb_spec 9223372036854775808 x); symmetry.
- apply (Z.div_unique _ _ _ (x - 9223372036854775808)); lia.
- apply (Z.div_unique _ _ _ x); lia.
Qed.
Lemma neg_mod l r : 0 <= l < W -> 0 <= r < W -> l <> r -> (l - r) mod W = W - (r - l) mod W.
Proof.
intros hl hr n; rewrite hW in *.
destruct (Z_lt_le_dec l r).
- rewrite (Z.mod_small (r - l)) by lia. symmetry; apply (Z.mod_unique _ _ (-1)); lia.
- rewrite (Z.mod_small (l - r)) by lia.
  replace ((r - l) mod 18446744073709551616) with (r - l + 18446744073709551616); [lia|].
  apply (Z.mod_unique _ _ (-1)); lia.
Qed.
Lemma pasta_limb c l r : c = 0 \/ c = 1 \/ c = -1 -> 0 <= l < W -> 0 <= r < W ->
  pasta_cmp_limb (code c) l r = code (if c =? 0 then limb_order l r else c).
Proof.
intros hc hl hr.
assert (hb1 : 0 <= (r - l) mod W < W) by (apply Z.mod_pos_bound; reflexivity).
assert (hb2 : 0 <= (l - r) mod W < W) by (apply Z.mod_pos_bound; reflexivity).
destruct hc as [->|[->| ->]]; cbn [code Z.eqb Pos.eqb]; unfold pasta_cmp_limb, code; cbn [Z.eqb Pos.eqb];
  rewrite !top_bit by assumption.
- unfold limb_order; change (2 ^ 64) with W; destruct (Z.eqb_spec l r) as [->|n].
  + rewrite Z.sub_diag. reflexivity.
  + rewrite (neg_mod l r) by assumption. set (d := (r - l) mod W) in *.
    rewrite hW in *; change (2 ^ 63) with 9223372036854775808.
    destruct (Z.leb_spec 9223372036854775808 d); destruct (Z.leb_spec 9223372036854775808 (18446744073709551616 - d)); try reflexivity; lia.
- destruct (2 ^ 63 <=? _); destruct (2 ^ 63 <=? _); reflexivity.
- destruct (2 ^ 63 <=? _); destruct (2 ^ 63 <=? _); reflexivity.
Qed.

Lemma pasta_cmp_ok a b : wf a -> wf b -> pasta_cmp a b = wrap_order (msf a) (msf b).
Proof.
intros (a0 & a1 & a2 & a3) (b0 & b1 & b2 & b3); unfold pasta_cmp; cbv zeta; change (0, 0) with (code 0).
rewrite pasta_limb by auto. cbn [Z.eqb].
rewrite pasta_limb by (first [assumption|apply limb_order_tri]).
assert (T : forall c l r, c = 0 \/ c = 1 \/ c = -1 -> (let d := if c =? 0 then limb_order l r else c in d = 0 \/ d = 1 \/ d = -1)).
{ intros c l r hc; cbv zeta; destruct (c =? 0); [apply limb_order_tri|exact hc]. }
rewrite pasta_limb by (first [assumption|apply T, limb_order_tri]).
rewrite pasta_limb by (first [assumption|apply T, T, limb_order_tri]).
unfold msf, wrap_order. fold (limb_order (l3 a) (l3 b)).
assert (S : forall l r X, (if l =? r then X else if 2 ^ 63 <=? (r - l) mod 2 ^ 64 then 1 else -1) = (if limb_order l r =? 0 then X else limb_order l r)).
{ intros l r X; unfold limb_order; destruct (l =? r); [reflexivity|]. destruct (_ <=? _); reflexivity. }
rewrite !S.
assert (C : forall c, c = 0 \/ c = 1 \/ c = -1 -> fst (code c) - snd (code c) = c) by (intros c [->|[->| ->]]; reflexivity).
rewrite C by (apply T, T, T, limb_order_tri).
destruct (limb_order (l3 a) (l3 b) =? 0) eqn:e3; cbn [Z.eqb]; [|rewrite !e3; reflexivity].
destruct (limb_order (l2 a) (l2 b) =? 0) eqn:e2; [|rewrite !e2; reflexivity].
destruct (limb_order (l1 a) (l1 b) =? 0) eqn:e1; [|rewrite ?e1; reflexivity].
destruct (limb_order (l0 a) (l0 b) =? 0) eqn:e0; [apply Z.eqb_eq in e0; exact e0|reflexivity].
Qed.

Lemma wrap_zero ls rs : length ls = length rs -> wrap_order ls rs = 0 <-> ls = rs.
Proof.
revert rs; induction ls as [|l ls IH]; intros [|r rs] h; try discriminate h; [tauto|].
cbn [wrap_order]; destruct (Z.eqb_spec l r) as [->|n].
- injection h as h; rewrite (IH rs h); split; [intros ->; reflexivity|intros e; injection e as e; exact e].
- split; [destruct (_ <=? _); discriminate|intros e; injection e as e; contradiction].
Qed.
Lemma pasta_cmp_zero a b : wf a -> wf b -> pasta_cmp a b = 0 <-> a = b.
Proof.
intros ha hb; rewrite pasta_cmp_ok by assumption; rewrite wrap_zero by reflexivity.
destruct a as [x0 x1 x2 x3], b as [y0 y1 y2 y3]; unfold msf; cbn [l0 l1 l2 l3]; split; intros h; [injection h as -> -> -> ->; reflexivity|injection h as -> -> -> ->; reflexivity].
Qed.
