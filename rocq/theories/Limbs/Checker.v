(** A checker for straight-line limb code, and its soundness.  [bounds] follows upper bounds of the variables and
    checks that every variable is assigned once; [elim] rewrites a weighted sum of variables with the equations of the
    statements.  Both are proved sound for all inputs; they are run on the transcribed programs in Limbs/Props.v. *)
From Coq Require Import ZArith NArith List Bool Lia.
From Verif Require Import Limbs.Model.
Import ListNotations.
Local Open Scope Z_scope.

Lemma W_pos : 0 < W. Proof. reflexivity. Qed.
#[global] Opaque W.
Ltac wpos := pose proof W_pos; lia.

(** ** upper bounds *)
Definition ubs := list (N * Z).
Fixpoint find (st : ubs) (r : N) : option Z :=
  match st with
  | [] => None
  | (r', u) :: st' => if N.eqb r r' then Some u else find st' r
  end.
Definition fresh (st : ubs) (r : N) : bool := match find st r with None => true | Some _ => false end.

Fixpoint ub (st : ubs) (o : opd) : option Z :=
  match o with
  | R r => find st r
  | K k => if (0 <=? k) && (k <? W) then Some k else None
  | Sm a b =>
      match ub st a, ub st b with
      | Some x, Some y => if x + y <? W then Some (x + y) else None
      | _, _ => None
      end
  | Am r k =>
      match find st r with
      | Some _ => if (0 <=? k) && (k <? W) then Some k else None
      | None => None
      end
  end.

Definition ub3 st a b d : option Z :=
  match ub st a, ub st b, ub st d with Some x, Some y, Some z => Some (x + y + z) | _, _, _ => None end.

(** a borrow *)
Definition small st i : bool := match ub st i with Some u => u <=? 1 | None => false end.

Definition bump (st : ubs) (i : instr) : option ubs :=
  match i with
  | IMul hi lo a b =>
      match ub st a, ub st b with
      | Some x, Some y =>
          if fresh st hi && fresh st lo && negb (N.eqb hi lo) then Some ((hi, x * y / W) :: (lo, W - 1) :: st) else None
      | _, _ => None
      end
  | IMulLo lo a b =>
      match ub st a, ub st b with Some _, Some _ => if fresh st lo then Some ((lo, W - 1) :: st) else None | _, _ => None end
  | IAdd s c a b d =>
      match ub3 st a b d with
      | Some t => if fresh st s && fresh st c && negb (N.eqb s c) && (t / W <? W)
                  then Some ((s, Z.min t (W - 1)) :: (c, t / W) :: st) else None
      | None => None
      end
  | IAddC c a b d =>
      match ub3 st a b d with Some t => if fresh st c && (t / W <? W) then Some ((c, t / W) :: st) else None | None => None end
  | IAddS s a b d =>
      match ub3 st a b d with Some t => if fresh st s then Some ((s, W - 1) :: st) else None | None => None end
  | ISub d o a b i =>
      match ub3 st a b i with
      | Some _ => if fresh st d && fresh st o && negb (N.eqb d o) && small st i
                  then Some ((d, W - 1) :: (o, 1) :: st) else None
      | None => None
      end
  | ISubB o a b i =>
      match ub3 st a b i with Some _ => if fresh st o && small st i then Some ((o, 1) :: st) else None | None => None end
  | IMov x a => match ub st a with Some t => if fresh st x then Some ((x, t) :: st) else None | None => None end
  | ICmov x c a b =>
      match ub st c, ub st a, ub st b with
      | Some z, Some y, Some t => if fresh st x && (z <=? 1) then Some ((x, Z.max y t) :: st) else None
      | _, _, _ => None
      end
  end.
Fixpoint bounds (st : ubs) (p : list instr) : option ubs :=
  match p with
  | [] => Some st
  | i :: p' => match bump st i with Some st' => bounds st' p' | None => None end
  end.

(** the value of an operand when no sum overflows *)
Fixpoint lv (E : env) (o : opd) : Z :=
  match o with R r => E r | K k => k | Sm a b => lv E a + lv E b | Am r k => Z.land (E r) k end.

(** what a statement says about the values of the variables once they are all assigned *)
Definition holds (E : env) (i : instr) : Prop :=
  match i with
  | IMul hi lo a b => E lo + W * E hi = lv E a * lv E b
  | IMulLo lo a b => E lo = (lv E a * lv E b) mod W
  | IAdd s c a b d => E s + W * E c = lv E a + lv E b + lv E d
  | IAddC c a b d => exists s, 0 <= s < W /\ s + W * E c = lv E a + lv E b + lv E d
  | IAddS s a b d => E s = (lv E a + lv E b + lv E d) mod W
  | ISub d o a b i => E d - W * E o = lv E a - lv E b - lv E i
  | ISubB o a b i => exists d, 0 <= d < W /\ d - W * E o = lv E a - lv E b - lv E i
  | IMov x a => E x = lv E a
  | ICmov x c a b => E x = (if lv E c =? 0 then lv E a else lv E b)
  end.

(** every bound holds *)
Definition inv (st : ubs) (E : env) : Prop := forall r u, find st r = Some u -> 0 <= E r <= u /\ u < W.
(** two assignments agree on the bounded variables *)
Definition agree (st : ubs) (E E' : env) : Prop := forall r, find st r <> None -> E r = E' r.

Lemma upd_same E r v : upd E r v r = v. Proof. unfold upd; now rewrite N.eqb_refl. Qed.
Lemma upd_other E r v r' : r' <> r -> upd E r v r' = E r'.
Proof. unfold upd; intros h; destruct (N.eqb_spec r' r); congruence. Qed.

Lemma fresh_ne st r r' : fresh st r = true -> find st r' <> None -> r' <> r.
Proof. unfold fresh; intros h1 h2 ->; destruct (find st r); congruence. Qed.

Lemma ub_known st E E' o u : agree st E E' -> ub st o = Some u -> lv E o = lv E' o.
Proof.
intros ha; revert u; induction o as [r|k|a IHa b IHb|r k]; simpl; intros u h.
- apply ha; congruence.
- reflexivity.
- destruct (ub st a), (ub st b); try discriminate; erewrite IHa, IHb by reflexivity; reflexivity.
- rewrite (ha r); [reflexivity|destruct (find st r); congruence].
Qed.

Lemma land_le x k : 0 <= x -> 0 <= k -> 0 <= Z.land x k <= k.
Proof.
intros hx hk; split; [apply Z.land_nonneg; lia|].
assert (h : Z.ldiff (Z.land x k) k = 0).
{ apply Z.bits_inj'; intros n hn; rewrite Z.ldiff_spec, Z.land_spec, Z.bits_0.
  destruct (Z.testbit k n), (Z.testbit x n); reflexivity. }
pose proof (Z.sub_nocarry_ldiff k (Z.land x k) h).
assert (0 <= Z.ldiff k (Z.land x k)) by (apply Z.ldiff_nonneg; lia). lia.
Qed.

Lemma ub_ok st E o u : inv st E -> ub st o = Some u -> 0 <= lv E o <= u /\ u < W /\ ev E o = lv E o.
Proof.
intros hi; revert u; induction o as [r|k|a IHa b IHb|r k]; simpl; intros u h.
- destruct (hi _ _ h); auto.
- destruct (Z.leb_spec 0 k); try discriminate; destruct (Z.ltb_spec k W); inversion h; subst; repeat split; lia.
- destruct (ub st a) as [x|]; [|discriminate]; destruct (ub st b) as [y|]; [|discriminate].
  destruct (Z.ltb_spec (x + y) W); [|discriminate]; inversion h; subst.
  destruct (IHa _ eq_refl) as (h1 & h2 & ->), (IHb _ eq_refl) as (h3 & h4 & ->).
  repeat split; try lia; apply Z.mod_small; lia.
- destruct (find st r) as [x|] eqn:e; [|discriminate].
  destruct (hi _ _ e).
  destruct (Z.leb_spec 0 k); [|discriminate]; destruct (Z.ltb_spec k W); inversion h; subst.
  pose proof (land_le (E r) u). repeat split; lia.
Qed.

Lemma cmovznz_ok c a b : 0 <= c <= 1 -> 0 <= a < W -> 0 <= b < W -> cmovznz c a b = if c =? 0 then a else b.
Proof.
intros hc ha hb.
assert (hl : forall x, 0 <= x < W -> Z.land (W - 1) x = x).
{ intros x hx; rewrite Z.land_comm.
  replace (W - 1) with (Z.ones 64) by reflexivity; rewrite Z.land_ones by lia; apply Z.mod_small; exact hx. }
unfold cmovznz; assert (c = 0 \/ c = 1) as [-> | ->] by lia; simpl Z.eqb.
- rewrite Z.mul_0_l, Z.mod_0_l, Z.land_0_l, Z.lor_0_l, Z.sub_0_r by wpos; auto.
- rewrite Z.mul_1_l, Z.mod_small by wpos.
  rewrite Z.sub_diag, Z.land_0_l, Z.lor_0_r; auto.
Qed.

Lemma find_cons r u st r' : find ((r, u) :: st) r' = if N.eqb r' r then Some u else find st r'.
Proof. reflexivity. Qed.

Definition ok_step (st st' : ubs) (E : env) (i : instr) : Prop :=
  inv st' (step E i) /\ holds (step E i) i /\ agree st E (step E i) /\
  (forall r, find st r <> None -> find st' r <> None) /\
  (forall E', agree st' (step E i) E' -> holds E' i).

Lemma one st E r v u : inv st E -> fresh st r = true -> 0 <= v <= u -> u < W ->
  inv ((r, u) :: st) (upd E r v) /\ agree st E (upd E r v) /\ (forall r', find st r' <> None -> find ((r, u) :: st) r' <> None).
Proof.
intros hi hf hv hu; split; [|split].
- intros r0 x h; rewrite find_cons in h; destruct (N.eqb_spec r0 r) as [->|ne];
  [inversion h; subst; rewrite upd_same; lia | rewrite (upd_other _ _ _ _ ne); apply hi; exact h].
- intros r' h; symmetry; apply upd_other; eapply fresh_ne; eauto.
- intros r' h; rewrite find_cons; destruct (N.eqb r' r); congruence.
Qed.

Lemma agree_trans st E1 E2 E3 : agree st E1 E2 -> agree st E2 E3 -> agree st E1 E3.
Proof. intros h1 h2 r h; rewrite (h1 r h); auto. Qed.
Lemma agree_sub st st' E E' : (forall r, find st r <> None -> find st' r <> None) -> agree st' E E' -> agree st E E'.
Proof. intros h1 h2 r h; auto. Qed.

Lemma fresh_cons st r r' u : fresh st r = true -> r <> r' -> fresh ((r', u) :: st) r = true.
Proof. unfold fresh; rewrite find_cons; intros; destruct (N.eqb_spec r r'); congruence. Qed.

Lemma find_cons_some st r r' u : find st r <> None \/ r = r' -> find ((r', u) :: st) r <> None.
Proof. rewrite find_cons; destruct (N.eqb_spec r r'); intros []; congruence. Qed.

Ltac bsplit := repeat match goal with h : (_ && _) = true |- _ => apply andb_true_iff in h; destruct h end.

Lemma upd_comm E r r' v v' x : r <> r' -> upd (upd E r v) r' v' x = upd (upd E r' v') r v x.
Proof. intros; unfold upd; destruct (N.eqb_spec x r'), (N.eqb_spec x r); congruence. Qed.

Lemma two st E r1 v1 u1 r2 v2 u2 : inv st E -> fresh st r1 = true -> fresh st r2 = true -> r1 <> r2 ->
  0 <= v1 <= u1 -> u1 < W -> 0 <= v2 <= u2 -> u2 < W ->
  inv ((r1, u1) :: (r2, u2) :: st) (upd (upd E r1 v1) r2 v2) /\ agree st E (upd (upd E r1 v1) r2 v2) /\
  (forall r', find st r' <> None -> find ((r1, u1) :: (r2, u2) :: st) r' <> None).
Proof.
intros hi h1 h2 ne a b c d.
destruct (one _ _ _ _ _ hi h2 c d) as (i1 & g1 & k1).
destruct (one _ _ _ _ _ i1 (fresh_cons _ _ _ u2 h1 ne) a b) as (i2 & g2 & k2).
assert (heq : forall x, upd (upd E r2 v2) r1 v1 x = upd (upd E r1 v1) r2 v2 x) by (intros; apply upd_comm; congruence).
split; [|split].
- intros r0 x h; destruct (i2 _ _ h); rewrite heq in *; lia.
- intros x hx; rewrite <- heq, (g1 x hx); apply g2; auto.
- auto.
Qed.

Lemma sub_ok p : - W <= p < W ->
  0 <= p mod W < W /\ 0 <= (if p <? 0 then 1 else 0) <= 1 /\ p mod W - W * (if p <? 0 then 1 else 0) = p.
Proof.
intros h; pose proof (Z.mod_pos_bound p W W_pos); split; [lia|]; destruct (Z.ltb_spec p 0); split; try lia.
- rewrite <- (Z.mod_unique p W (-1) (p + W)); lia.
- rewrite Z.mod_small; lia.
Qed.

Lemma bump_ok st i st' E : bump st i = Some st' -> inv st E -> ok_step st st' E i.
Proof.
intros hb hi; pose proof W_pos as Wp.
destruct i as [hi' lo a b|lo a b|s c a b d|c a b d|s a b d|d o a b i|o a b i|x a|x c a b]; cbn [bump] in hb;
  try (unfold ub3 in hb; destruct (ub st a) as [ua|] eqn:ea; [|discriminate]; destruct (ub st b) as [ub'|] eqn:eb; [|discriminate]);
  try (destruct (ub st d) as [ud|] eqn:ed; [|discriminate]);
  try (destruct (ub st i) as [ud|] eqn:ed; [|discriminate]);
  try (destruct (ub st c) as [uc|] eqn:ec; [|discriminate]).
- destruct (fresh st hi' && fresh st lo && negb (hi' =? lo)%N) eqn:e; [|discriminate]; inversion hb; subst; clear hb; bsplit.
  destruct (N.eqb_spec hi' lo); [discriminate|].
  destruct (ub_ok _ _ _ _ hi ea) as (a1 & a2 & a3), (ub_ok _ _ _ _ hi eb) as (b1 & b2 & b3).
  set (p := lv E a * lv E b) in *.
  assert (hp : 0 <= p <= ua * ub') by (unfold p; nia).
  pose proof (Z.mod_pos_bound p W Wp); pose proof (Z.div_pos p W).
  assert (p / W <= ua * ub' / W) by (apply Z.div_le_mono; lia).
  assert (ua * ub' / W < W) by (apply Z.div_lt_upper_bound; nia).
  destruct (two _ E hi' (p / W) (ua * ub' / W) lo (p mod W) (W - 1) hi) as (i2 & g & k); auto; try lia.
  unfold ok_step; cbn [step]; rewrite a3, b3; fold p.
  assert (hold : forall E', agree ((hi', ua * ub' / W) :: (lo, W - 1) :: st) (upd (upd E hi' (p / W)) lo (p mod W)) E' ->
    holds E' (IMul hi' lo a b)).
  { intros E' hg; cbn [holds].
    rewrite <- (ub_known _ _ _ _ _ (agree_trans _ _ _ _ g (agree_sub _ _ _ _ k hg)) ea),
      <- (ub_known _ _ _ _ _ (agree_trans _ _ _ _ g (agree_sub _ _ _ _ k hg)) eb).
    fold p; rewrite <- (hg lo), <- (hg hi') by (apply find_cons_some; auto; left; apply find_cons_some; auto).
    rewrite upd_same, upd_other, upd_same by congruence. pose proof (Z.div_mod p W); lia. }
  split; [exact i2|]; split; [apply hold; intros r _; reflexivity|]; auto.
- destruct (fresh st lo) eqn:e; [|discriminate]; inversion hb; subst; clear hb.
  destruct (ub_ok _ _ _ _ hi ea) as (a1 & a2 & a3), (ub_ok _ _ _ _ hi eb) as (b1 & b2 & b3).
  set (p := lv E a * lv E b) in *.
  pose proof (Z.mod_pos_bound p W Wp).
  destruct (one _ E lo (p mod W) (W - 1) hi) as (i2 & g & k); auto; try lia.
  unfold ok_step; cbn [step]; rewrite a3, b3; fold p.
  assert (hold : forall E', agree ((lo, W - 1) :: st) (upd E lo (p mod W)) E' -> holds E' (IMulLo lo a b)).
  { intros E' hg; cbn [holds].
    rewrite <- (ub_known _ _ _ _ _ (agree_trans _ _ _ _ g (agree_sub _ _ _ _ k hg)) ea),
      <- (ub_known _ _ _ _ _ (agree_trans _ _ _ _ g (agree_sub _ _ _ _ k hg)) eb).
    fold p; rewrite <- (hg lo) by (apply find_cons_some; auto). now rewrite upd_same. }
  split; [exact i2|]; split; [apply hold; intros r _; reflexivity|]; auto.
- destruct (fresh st s && fresh st c && negb (s =? c)%N && ((ua + ub' + ud) / W <? W)) eqn:e; [|discriminate]; inversion hb; subst; clear hb; bsplit.
  destruct (N.eqb_spec s c); [discriminate|].
  destruct (ub_ok _ _ _ _ hi ea) as (a1 & a2 & a3), (ub_ok _ _ _ _ hi eb) as (b1 & b2 & b3), (ub_ok _ _ _ _ hi ed) as (d1 & d2 & d3).
  set (p := lv E a + lv E b + lv E d) in *; set (u := ua + ub' + ud) in *.
  assert (hp : 0 <= p <= u) by (unfold p, u; lia).
  pose proof (Z.mod_pos_bound p W Wp); pose proof (Z.div_pos p W); pose proof (Z.mod_le p W).
  assert (p / W <= u / W) by (apply Z.div_le_mono; lia).
  destruct (two _ E s (p mod W) (Z.min u (W - 1)) c (p / W) (u / W) hi) as (i2 & g & k); auto; try lia.
  unfold ok_step; cbn [step]; rewrite a3, b3, d3; fold p.
  assert (hold : forall E', agree ((s, Z.min u (W - 1)) :: (c, u / W) :: st) (upd (upd E s (p mod W)) c (p / W)) E' ->
    holds E' (IAdd s c a b d)).
  { intros E' hg; cbn [holds].
    rewrite <- (ub_known _ _ _ _ _ (agree_trans _ _ _ _ g (agree_sub _ _ _ _ k hg)) ea),
      <- (ub_known _ _ _ _ _ (agree_trans _ _ _ _ g (agree_sub _ _ _ _ k hg)) eb),
      <- (ub_known _ _ _ _ _ (agree_trans _ _ _ _ g (agree_sub _ _ _ _ k hg)) ed).
    fold p; rewrite <- (hg s), <- (hg c) by (apply find_cons_some; auto; left; apply find_cons_some; auto).
    rewrite upd_same, upd_other, upd_same by congruence. pose proof (Z.div_mod p W); lia. }
  split; [exact i2|]; split; [apply hold; intros r _; reflexivity|]; auto.
- destruct (fresh st c && ((ua + ub' + ud) / W <? W)) eqn:e; [|discriminate]; inversion hb; subst; clear hb; bsplit.
  destruct (ub_ok _ _ _ _ hi ea) as (a1 & a2 & a3), (ub_ok _ _ _ _ hi eb) as (b1 & b2 & b3), (ub_ok _ _ _ _ hi ed) as (d1 & d2 & d3).
  set (p := lv E a + lv E b + lv E d) in *; set (u := ua + ub' + ud) in *.
  assert (hp : 0 <= p <= u) by (unfold p, u; lia).
  pose proof (Z.mod_pos_bound p W Wp); pose proof (Z.div_pos p W).
  assert (p / W <= u / W) by (apply Z.div_le_mono; lia).
  destruct (one _ E c (p / W) (u / W) hi) as (i2 & g & k); auto; try lia.
  unfold ok_step; cbn [step]; rewrite a3, b3, d3; fold p.
  assert (hold : forall E', agree ((c, u / W) :: st) (upd E c (p / W)) E' -> holds E' (IAddC c a b d)).
  { intros E' hg; cbn [holds].
    rewrite <- (ub_known _ _ _ _ _ (agree_trans _ _ _ _ g (agree_sub _ _ _ _ k hg)) ea),
      <- (ub_known _ _ _ _ _ (agree_trans _ _ _ _ g (agree_sub _ _ _ _ k hg)) eb),
      <- (ub_known _ _ _ _ _ (agree_trans _ _ _ _ g (agree_sub _ _ _ _ k hg)) ed).
    fold p; rewrite <- (hg c) by (apply find_cons_some; auto).
    rewrite upd_same; exists (p mod W); split; [lia|]. pose proof (Z.div_mod p W); lia. }
  split; [exact i2|]; split; [apply hold; intros r _; reflexivity|]; auto.
- destruct (fresh st s) eqn:e; [|discriminate]; inversion hb; subst; clear hb.
  destruct (ub_ok _ _ _ _ hi ea) as (a1 & a2 & a3), (ub_ok _ _ _ _ hi eb) as (b1 & b2 & b3), (ub_ok _ _ _ _ hi ed) as (d1 & d2 & d3).
  set (p := lv E a + lv E b + lv E d) in *.
  pose proof (Z.mod_pos_bound p W Wp).
  destruct (one _ E s (p mod W) (W - 1) hi) as (i2 & g & k); auto; try lia.
  unfold ok_step; cbn [step]; rewrite a3, b3, d3; fold p.
  assert (hold : forall E', agree ((s, W - 1) :: st) (upd E s (p mod W)) E' -> holds E' (IAddS s a b d)).
  { intros E' hg; cbn [holds].
    rewrite <- (ub_known _ _ _ _ _ (agree_trans _ _ _ _ g (agree_sub _ _ _ _ k hg)) ea),
      <- (ub_known _ _ _ _ _ (agree_trans _ _ _ _ g (agree_sub _ _ _ _ k hg)) eb),
      <- (ub_known _ _ _ _ _ (agree_trans _ _ _ _ g (agree_sub _ _ _ _ k hg)) ed).
    fold p; rewrite <- (hg s) by (apply find_cons_some; auto). now rewrite upd_same. }
  split; [exact i2|]; split; [apply hold; intros r _; reflexivity|]; auto.
- unfold small in hb; rewrite ed in hb.
  destruct (fresh st d && fresh st o && negb (d =? o)%N && (ud <=? 1)) eqn:e; [|discriminate]; inversion hb; subst; clear hb; bsplit.
  destruct (N.eqb_spec d o); [discriminate|].
  destruct (ub_ok _ _ _ _ hi ea) as (a1 & a2 & a3), (ub_ok _ _ _ _ hi eb) as (b1 & b2 & b3), (ub_ok _ _ _ _ hi ed) as (d1 & d2 & d3).
  apply Z.leb_le in H0.
  set (p := lv E a - lv E b - lv E i) in *.
  assert (hp : - W <= p < W) by (unfold p; lia).
  destruct (sub_ok p hp) as (q1 & q2 & q3).
  destruct (two _ E d (p mod W) (W - 1) o (if p <? 0 then 1 else 0) 1 hi) as (i2 & g & k); auto; try lia.
  unfold ok_step; cbn [step]; rewrite a3, b3, d3; fold p.
  assert (hold : forall E', agree ((d, W - 1) :: (o, 1) :: st) (upd (upd E d (p mod W)) o (if p <? 0 then 1 else 0)) E' ->
    holds E' (ISub d o a b i)).
  { intros E' hg; cbn [holds].
    rewrite <- (ub_known _ _ _ _ _ (agree_trans _ _ _ _ g (agree_sub _ _ _ _ k hg)) ea),
      <- (ub_known _ _ _ _ _ (agree_trans _ _ _ _ g (agree_sub _ _ _ _ k hg)) eb),
      <- (ub_known _ _ _ _ _ (agree_trans _ _ _ _ g (agree_sub _ _ _ _ k hg)) ed).
    fold p; rewrite <- (hg d), <- (hg o) by (apply find_cons_some; auto; left; apply find_cons_some; auto).
    rewrite upd_same, upd_other, upd_same by congruence. exact q3. }
  split; [exact i2|]; split; [apply hold; intros r _; reflexivity|]; auto.
- unfold small in hb; rewrite ed in hb.
  destruct (fresh st o && (ud <=? 1)) eqn:e; [|discriminate]; inversion hb; subst; clear hb; bsplit.
  destruct (ub_ok _ _ _ _ hi ea) as (a1 & a2 & a3), (ub_ok _ _ _ _ hi eb) as (b1 & b2 & b3), (ub_ok _ _ _ _ hi ed) as (d1 & d2 & d3).
  apply Z.leb_le in H0.
  set (p := lv E a - lv E b - lv E i) in *.
  assert (hp : - W <= p < W) by (unfold p; lia).
  destruct (sub_ok p hp) as (q1 & q2 & q3).
  destruct (one _ E o (if p <? 0 then 1 else 0) 1 hi) as (i2 & g & k); auto; try lia.
  unfold ok_step; cbn [step]; rewrite a3, b3, d3; fold p.
  assert (hold : forall E', agree ((o, 1) :: st) (upd E o (if p <? 0 then 1 else 0)) E' -> holds E' (ISubB o a b i)).
  { intros E' hg; cbn [holds].
    rewrite <- (ub_known _ _ _ _ _ (agree_trans _ _ _ _ g (agree_sub _ _ _ _ k hg)) ea),
      <- (ub_known _ _ _ _ _ (agree_trans _ _ _ _ g (agree_sub _ _ _ _ k hg)) eb),
      <- (ub_known _ _ _ _ _ (agree_trans _ _ _ _ g (agree_sub _ _ _ _ k hg)) ed).
    fold p; rewrite <- (hg o) by (apply find_cons_some; auto).
    rewrite upd_same; exists (p mod W); split; [lia | exact q3]. }
  split; [exact i2|]; split; [apply hold; intros r _; reflexivity|]; auto.
- destruct (ub st a) as [ua|] eqn:ea; [|discriminate]; destruct (fresh st x) eqn:e; [|discriminate]; inversion hb; subst; clear hb.
  destruct (ub_ok _ _ _ _ hi ea) as (a1 & a2 & a3).
  destruct (one _ E x (lv E a) ua hi) as (i2 & g & k); auto; try lia.
  unfold ok_step; cbn [step]; rewrite a3.
  assert (hold : forall E', agree ((x, ua) :: st) (upd E x (lv E a)) E' -> holds E' (IMov x a)).
  { intros E' hg; cbn [holds].
    rewrite <- (ub_known _ _ _ _ _ (agree_trans _ _ _ _ g (agree_sub _ _ _ _ k hg)) ea).
    rewrite <- (hg x) by (apply find_cons_some; auto). now rewrite upd_same. }
  split; [exact i2|]; split; [apply hold; intros r _; reflexivity|]; auto.
- destruct (ub st a) as [ua|] eqn:ea; [|discriminate]; destruct (ub st b) as [ub'|] eqn:eb; [|discriminate].
  destruct (fresh st x && (uc <=? 1)) eqn:e; [|discriminate]; inversion hb; subst; clear hb; bsplit.
  destruct (ub_ok _ _ _ _ hi ea) as (a1 & a2 & a3), (ub_ok _ _ _ _ hi eb) as (b1 & b2 & b3), (ub_ok _ _ _ _ hi ec) as (c1 & c2 & c3).
  apply Z.leb_le in H0.
  set (p := if lv E c =? 0 then lv E a else lv E b).
  assert (hp : 0 <= p <= Z.max ua ub') by (unfold p; destruct (lv E c =? 0); lia).
  destruct (one _ E x p (Z.max ua ub') hi) as (i2 & g & k); auto; try lia.
  unfold ok_step; cbn [step]; rewrite a3, b3, c3, cmovznz_ok by lia; fold p.
  assert (hold : forall E', agree ((x, Z.max ua ub') :: st) (upd E x p) E' -> holds E' (ICmov x c a b)).
  { intros E' hg; cbn [holds].
    rewrite <- (ub_known _ _ _ _ _ (agree_trans _ _ _ _ g (agree_sub _ _ _ _ k hg)) ea),
      <- (ub_known _ _ _ _ _ (agree_trans _ _ _ _ g (agree_sub _ _ _ _ k hg)) eb),
      <- (ub_known _ _ _ _ _ (agree_trans _ _ _ _ g (agree_sub _ _ _ _ k hg)) ec).
    fold p; rewrite <- (hg x) by (apply find_cons_some; auto). now rewrite upd_same. }
  split; [exact i2|]; split; [apply hold; intros r _; reflexivity|]; auto.
Qed.

(** The statements of a checked program all hold of the final values, which extend the initial ones. *)
Lemma bounds_ok p st st' E : bounds st p = Some st' -> inv st E ->
  inv st' (exec p E) /\ agree st E (exec p E) /\ (forall r, find st r <> None -> find st' r <> None) /\
  Forall (holds (exec p E)) p.
Proof.
revert st E; induction p as [|i p IH]; intros st E; cbn [bounds].
- intros [= ->] hi; split; [exact hi|]; split; [intros r _; reflexivity|]; auto.
- destruct (bump st i) as [st1|] eqn:e; [|discriminate]; intros hb hi.
  destruct (bump_ok _ _ _ _ e hi) as (i1 & h1 & g1 & k1 & t1).
  destruct (IH _ _ hb i1) as (i2 & g2 & k2 & f2).
  change (exec (i :: p) E) with (exec p (step E i)).
  split; [exact i2|]; split; [|split].
  + apply agree_trans with (step E i); [exact g1 | apply agree_sub with st1; auto].
  + auto.
  + constructor; auto.
Qed.
