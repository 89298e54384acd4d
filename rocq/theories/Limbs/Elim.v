(** Checking what a straight-line program computes: elimination of its variables from a weighted sum. *)
From Coq Require Import ZArith NArith List Bool Lia.
From Verif Require Import Limbs.Model Limbs.Spec Limbs.Checker.
Import ListNotations.
Local Open Scope Z_scope.

(** ** decidable equality *)
Fixpoint opd_eqb (a b : opd) : bool :=
  match a, b with
  | R x, R y => N.eqb x y
  | K x, K y => Z.eqb x y
  | Sm x y, Sm x' y' => opd_eqb x x' && opd_eqb y y'
  | Am x k, Am x' k' => N.eqb x x' && Z.eqb k k'
  | _, _ => false
  end.
Lemma opd_eqb_ok a b : opd_eqb a b = true -> a = b.
Proof.
revert b; induction a; intros []; simpl; try discriminate; intros h.
- apply N.eqb_eq in h; congruence.
- apply Z.eqb_eq in h; congruence.
- apply andb_true_iff in h as [h1 h2]; rewrite (IHa1 _ h1), (IHa2 _ h2); auto.
- apply andb_true_iff in h as [h1 h2]; apply N.eqb_eq in h1; apply Z.eqb_eq in h2; congruence.
Qed.

(** ** weighted sums of variables and products *)
Inductive mono := M1 (r : N) | M2 (a b : opd).
Definition form := list (mono * nat).
Definition mono_eqb (x y : mono) : bool :=
  match x, y with
  | M1 r, M1 r' => N.eqb r r'
  | M2 a b, M2 a' b' => opd_eqb a a' && opd_eqb b b'
  | _, _ => false
  end.
Lemma mono_eqb_ok x y : mono_eqb x y = true -> x = y.
Proof.
destruct x, y; simpl; try discriminate; intros h; [apply N.eqb_eq in h; congruence|].
apply andb_true_iff in h as [h1 h2]; now rewrite (opd_eqb_ok _ _ h1), (opd_eqb_ok _ _ h2).
Qed.

Fixpoint pw (k : nat) : Z := match k with O => 1 | S k' => W * pw k' end.
Definition mv (E : env) (m : mono) : Z := match m with M1 r => E r | M2 a b => lv E a * lv E b end.
Fixpoint fv (E : env) (f : form) : Z := match f with [] => 0 | (m, k) :: f' => pw k * mv E m + fv E f' end.

Lemma fv_app E f g : fv E (f ++ g) = fv E f + fv E g.
Proof. induction f as [|[m k] f IH]; simpl; [reflexivity|]; rewrite IH; lia. Qed.

Fixpoint add_opd (o : opd) (k : nat) (f : form) : option form :=
  match o with
  | R r => Some ((M1 r, k) :: f)
  | K c => if c =? 0 then Some f else None
  | Sm a b => match add_opd a k f with Some f' => add_opd b k f' | None => None end
  | Am _ _ => None
  end.
Lemma add_opd_ok E o k f f' : add_opd o k f = Some f' -> fv E f' = pw k * lv E o + fv E f.
Proof.
revert f f'; induction o; simpl; intros f f' h.
- inversion h; subst; reflexivity.
- destruct (Z.eqb_spec k0 0); inversion h; subst; lia.
- destruct (add_opd o1 k f) eqn:e; [|discriminate]; rewrite (IHo2 _ _ h), (IHo1 _ _ e); lia.
- discriminate.
Qed.
Fixpoint add_at (o : opd) (ks : list nat) (f : form) : option form :=
  match ks with
  | [] => Some f
  | k :: ks' => match add_opd o k f with Some f' => add_at o ks' f' | None => None end
  end.
Fixpoint spw (ks : list nat) : Z := match ks with [] => 0 | k :: ks' => pw k + spw ks' end.
Lemma add_at_ok E o ks f f' : add_at o ks f = Some f' -> fv E f' = spw ks * lv E o + fv E f.
Proof.
revert f f'; induction ks as [|k ks IH]; simpl; intros f f' h; [inversion h; subst; lia|].
destruct (add_opd o k f) eqn:e; [|discriminate]; rewrite (IH _ _ h), (add_opd_ok _ _ _ _ _ e); lia.
Qed.
Lemma spw_S ks : spw (map S ks) = W * spw ks.
Proof. induction ks as [|k ks IH]; simpl; [lia|]; rewrite IH; lia. Qed.

(** the exponents of a variable, and the rest *)
Fixpoint take (r : N) (f : form) : list nat * form :=
  match f with
  | [] => ([], [])
  | (m, k) :: f' =>
      let (ks, g) := take r f' in
      match m with
      | M1 r' => if N.eqb r r' then (k :: ks, g) else (ks, (m, k) :: g)
      | _ => (ks, (m, k) :: g)
      end
  end.
Lemma take_ok E r f ks g : take r f = (ks, g) -> fv E f = spw ks * E r + fv E g.
Proof.
revert ks g; induction f as [|[m k] f IH]; simpl; intros ks g h; [inversion h; subst; reflexivity|].
destruct (take r f) as [ks' g'] eqn:e; rewrite (IH _ _ eq_refl).
destruct m as [r'|a b]; [destruct (N.eqb_spec r r') as [<-|ne]|]; inversion h; subst; simpl; lia.
Qed.

Definition ren_opd (x y : N) (o : opd) : opd := match o with R r => if N.eqb r x then R y else o | _ => o end.
Definition rename (x y : N) (f : form) : form :=
  map (fun mk => match mk with
                 | (M1 r, k) => (M1 (if N.eqb r x then y else r), k)
                 | (M2 a b, k) => (M2 (ren_opd x y a) (ren_opd x y b), k)
                 end) f.
Lemma rename_ok E x y f : E x = E y -> fv E (rename x y f) = fv E f.
Proof.
intros h.
assert (ho : forall o, lv E (ren_opd x y o) = lv E o).
{ intros []; simpl; auto; destruct (N.eqb_spec r x); subst; simpl; auto. }
induction f as [|[[r|a b] k] f IH]; simpl; auto; rewrite IH.
- destruct (N.eqb_spec r x); subst; congruence.
- now rewrite !ho.
Qed.

Fixpoint nats_eqb (a b : list nat) : bool :=
  match a, b with
  | [], [] => true
  | x :: a', y :: b' => Nat.eqb x y && nats_eqb a' b'
  | _, _ => false
  end.
Lemma nats_eqb_ok a b : nats_eqb a b = true -> a = b.
Proof.
revert b; induction a; intros []; simpl; try discriminate; auto; intros h; apply andb_true_iff in h as [h1 h2].
apply Nat.eqb_eq in h1; f_equal; auto.
Qed.

(** the quotient digit of a Montgomery step: y is the low word of q * m0 and q = x * m' with m0 * m' = -1 *)
Definition def_q (p : list instr) (y : N) : option (N * Z) :=
  fold_right (fun i r => match i with
    | IMul _ y' (R q) (K m0) => if N.eqb y y' then Some (q, m0) else r
    | _ => r end) None p.
Definition is_q (p : list instr) (q x : N) (m0 : Z) : bool :=
  (N.eqb q x && ((m0 + 1) mod W =? 0))
  || existsb (fun i => match i with
       | IMulLo q' (R x') (K m') => N.eqb q q' && N.eqb x x' && ((m0 * m' + 1) mod W =? 0)
       | _ => false end) p.
Definition zero_sum (p : list instr) (a b d : opd) : option N :=
  match a, b, d with
  | R x, R y, K 0 => match def_q p y with Some (q, m0) => if is_q p q x m0 then Some q else None | None => None end
  | _, _, _ => None
  end.

Lemma def_q_ok E p y q m0 : Forall (holds E) p -> def_q p y = Some (q, m0) -> exists h, E y + W * h = E q * m0.
Proof.
induction 1 as [|i p hi hp IH]; simpl; [discriminate|].
destruct i; auto; destruct a; auto; destruct b; auto.
destruct (N.eqb_spec y lo); auto; intros [= -> ->]; subst; simpl in hi; eauto.
Qed.
Lemma zero_sum_ok E p a b d q : Forall (holds E) p -> zero_sum p a b d = Some q ->
  exists t, lv E a + lv E b + lv E d = W * t.
Proof.
intros hp; unfold zero_sum; destruct a as [x| | |]; try discriminate; destruct b as [y| | |]; try discriminate.
destruct d as [|[| |]| |]; try discriminate.
destruct (def_q p y) as [[q' m0]|] eqn:e; [|discriminate]; destruct (is_q p q' x m0) eqn:e'; [|discriminate].
intros _; destruct (def_q_ok _ _ _ _ _ hp e) as [h hy]; simpl.
pose proof W_pos as Wp.
apply orb_true_iff in e' as [e'|e'].
- apply andb_true_iff in e' as [e1 e2]; apply N.eqb_eq in e1; subst q'; apply Z.eqb_eq in e2.
  apply Z.mod_divide in e2; [|lia]; destruct e2 as [t ht].
  exists (E x * t - h). nia.
- apply existsb_exists in e' as [i [hin hi]].
  rewrite Forall_forall in hp; specialize (hp _ hin).
  destruct i; try discriminate; destruct a; try discriminate; destruct b; try discriminate.
  apply andb_true_iff in hi as [hi e2]; apply andb_true_iff in hi as [e1 e3].
  apply N.eqb_eq in e1; apply N.eqb_eq in e3; subst; apply Z.eqb_eq in e2; simpl in hp.
  apply Z.mod_divide in e2; [|lia]; destruct e2 as [t ht].
  pose proof (Z.div_mod (E r * k) W ltac:(lia)) as hd; rewrite <- hp in hd.
  set (D := E r * k / W) in *; exists (E r * t - h - D * m0).
  assert (hq : E lo = E r * k - W * D) by lia.
  assert (hy' : E y = E lo * m0 - W * h) by lia.
  rewrite hy', hq; transitivity (E r * (m0 * k + 1) - W * (D * m0 + h)); [ring | rewrite ht; ring].
Qed.

Definition elim (p : list instr) (i : instr) (f : form) : option form :=
  match i with
  | IMul hi lo a b =>
      let (kl, f1) := take lo f in let (kh, f2) := take hi f1 in
      if nats_eqb kh (map S kl) then Some (map (fun k => (M2 a b, k)) kl ++ f2) else None
  | IAdd s c a b d =>
      let (ks, f1) := take s f in let (kc, f2) := take c f1 in
      if nats_eqb kc (map S ks) then
        match add_at a ks f2 with
        | Some f3 => match add_at b ks f3 with Some f4 => add_at d ks f4 | None => None end
        | None => None
        end
      else None
  | IAddC c a b d =>
      match zero_sum p a b d with
      | Some _ =>
          let (kc, f1) := take c f in
          let ks := map pred kc in
          if nats_eqb kc (map S ks) then
            match add_at a ks f1 with
            | Some f3 => match add_at b ks f3 with Some f4 => add_at d ks f4 | None => None end
            | None => None
            end
          else None
      | None => None
      end
  | IMov x (R y) => Some (rename x y f)
  | IMov x a => let (ks, f1) := take x f in add_at a ks f1
  | _ => Some f
  end.

Lemma fv_prods E a b ks f : fv E (map (fun k => (M2 a b, k)) ks ++ f) = spw ks * (lv E a * lv E b) + fv E f.
Proof. rewrite fv_app; f_equal; induction ks; simpl; [reflexivity|]; rewrite IHks; lia. Qed.

Lemma elim_ok E p i f f' : Forall (holds E) p -> holds E i -> elim p i f = Some f' -> fv E f' = fv E f.
Proof.
intros hp hi; destruct i; simpl; try (intros [= ->]; reflexivity).
- destruct (take lo f) as [kl f1] eqn:e1, (take hi0 f1) as [kh f2] eqn:e2.
  destruct (nats_eqb kh (map S kl)) eqn:e3; [|discriminate]; intros [= <-].
  apply nats_eqb_ok in e3; subst kh; simpl in hi.
  rewrite fv_prods, (take_ok E _ _ _ _ e1), (take_ok E _ _ _ _ e2), spw_S, <- hi; ring.
- destruct (take s f) as [ks f1] eqn:e1, (take c f1) as [kc f2] eqn:e2.
  destruct (nats_eqb kc (map S ks)) eqn:e3; [|discriminate].
  apply nats_eqb_ok in e3; subst kc; simpl in hi.
  destruct (add_at a ks f2) as [f3|] eqn:e4; [|discriminate]; destruct (add_at b ks f3) as [f4|] eqn:e5; [|discriminate].
  intros e6; rewrite (add_at_ok E _ _ _ _ e6), (add_at_ok E _ _ _ _ e5), (add_at_ok E _ _ _ _ e4).
  rewrite (take_ok E _ _ _ _ e1), (take_ok E _ _ _ _ e2), spw_S.
  replace (lv E d) with (E s + W * E c - lv E a - lv E b) by lia; ring.
- destruct (zero_sum p a b d) eqn:e0; [|discriminate].
  destruct (take c f) as [kc f1] eqn:e1.
  destruct (nats_eqb kc (map S (map pred kc))) eqn:e3; [|discriminate].
  apply nats_eqb_ok in e3; set (ks := map pred kc) in *; clearbody ks; subst kc; simpl in hi.
  destruct (add_at a ks f1) as [f3|] eqn:e4; [|discriminate]; destruct (add_at b ks f3) as [f4|] eqn:e5; [|discriminate].
  intros e6; rewrite (add_at_ok E _ _ _ _ e6), (add_at_ok E _ _ _ _ e5), (add_at_ok E _ _ _ _ e4).
  rewrite (take_ok E _ _ _ _ e1), spw_S.
  destruct hi as [s [hs hi]], (zero_sum_ok _ _ _ _ _ _ hp e0) as [t ht].
  assert (hs' : s = W * (t - E c)) by lia.
  assert (t - E c = 0) by (pose proof W_pos; nia).
  assert (s = 0) by (rewrite hs', H; apply Z.mul_0_r); subst s.
  replace (lv E d) with (W * E c - lv E a - lv E b) by lia; ring.
- simpl in hi; destruct a; try (intros [= <-]; apply rename_ok; exact hi);
    destruct (take x f) as [ks f1] eqn:e1; intros e; rewrite (add_at_ok E _ _ _ _ e), (take_ok E _ _ _ _ e1), hi; ring.
Qed.

Fixpoint elim_all (p q : list instr) (f : form) : option form :=
  match q with
  | [] => Some f
  | i :: q' => match elim p i f with Some f' => elim_all p q' f' | None => None end
  end.
Lemma elim_all_ok E p q f f' : Forall (holds E) p -> Forall (holds E) q -> elim_all p q f = Some f' -> fv E f' = fv E f.
Proof.
intros hp hq; revert f; induction hq as [|i q hi hq IH]; simpl; intros f; [intros [= ->]; reflexivity|].
destruct (elim p i f) eqn:e; [|discriminate]; intros h; rewrite (IH _ h); exact (elim_ok _ _ _ _ _ hp hi e).
Qed.

(** a copied variable replaced by its original *)
Fixpoint copies (q : list instr) (f : form) : form :=
  match q with
  | [] => f
  | IMov x (R y) :: q' => copies q' (rename x y f)
  | _ :: q' => copies q' f
  end.
Lemma copies_ok E q f : Forall (holds E) q -> fv E (copies q f) = fv E f.
Proof.
intros hq; revert f; induction hq as [|i q hi hq IH]; simpl; auto; intros f.
destruct i; auto; destruct a; auto; rewrite IH; apply rename_ok; exact hi.
Qed.

Fixpoint remove1 (x : mono * nat) (f : form) : option form :=
  match f with
  | [] => None
  | y :: f' => if mono_eqb (fst x) (fst y) && Nat.eqb (snd x) (snd y) then Some f'
               else match remove1 x f' with Some g => Some (y :: g) | None => None end
  end.
Fixpoint same_form (f g : form) : bool :=
  match f with
  | [] => match g with [] => true | _ => false end
  | x :: f' => match remove1 x g with Some g' => same_form f' g' | None => false end
  end.
Lemma remove1_ok E x f g : remove1 x f = Some g -> fv E f = pw (snd x) * mv E (fst x) + fv E g.
Proof.
revert g; induction f as [|[m k] f IH]; simpl; intros g; [discriminate|].
destruct (mono_eqb (fst x) m && Nat.eqb (snd x) k) eqn:e.
- apply andb_true_iff in e as [e1 e2]; apply mono_eqb_ok in e1; apply Nat.eqb_eq in e2; intros [= <-]; subst; reflexivity.
- destruct (remove1 x f) eqn:e'; [|discriminate]; intros [= <-]; rewrite (IH _ eq_refl); simpl; lia.
Qed.
Lemma same_form_ok E f g : same_form f g = true -> fv E f = fv E g.
Proof.
revert g; induction f as [|[m k] f IH]; simpl; intros g; [destruct g; [reflexivity|discriminate]|].
destruct (remove1 (m, k) g) eqn:e; [|discriminate]; intros h; rewrite (remove1_ok E _ _ _ e), (IH _ h); reflexivity.
Qed.

(** ** the final subtraction *)

(** the inputs *)
Definition init : ubs := map (fun r => (r, W - 1)) [1; 2; 3; 4; 5; 6; 7; 8]%N.

Definition instr_eqb (i j : instr) : bool :=
  match i, j with
  | IMul a b c d, IMul a' b' c' d' => N.eqb a a' && N.eqb b b' && opd_eqb c c' && opd_eqb d d'
  | IMulLo a c d, IMulLo a' c' d' => N.eqb a a' && opd_eqb c c' && opd_eqb d d'
  | IAdd a b c d e, IAdd a' b' c' d' e' => N.eqb a a' && N.eqb b b' && opd_eqb c c' && opd_eqb d d' && opd_eqb e e'
  | IAddC a c d e, IAddC a' c' d' e' => N.eqb a a' && opd_eqb c c' && opd_eqb d d' && opd_eqb e e'
  | IAddS a c d e, IAddS a' c' d' e' => N.eqb a a' && opd_eqb c c' && opd_eqb d d' && opd_eqb e e'
  | ISub a b c d e, ISub a' b' c' d' e' => N.eqb a a' && N.eqb b b' && opd_eqb c c' && opd_eqb d d' && opd_eqb e e'
  | ISubB a c d e, ISubB a' c' d' e' => N.eqb a a' && opd_eqb c c' && opd_eqb d d' && opd_eqb e e'
  | IMov a c, IMov a' c' => N.eqb a a' && opd_eqb c c'
  | ICmov a c d e, ICmov a' c' d' e' => N.eqb a a' && opd_eqb c c' && opd_eqb d d' && opd_eqb e e'
  | _, _ => false
  end.
Lemma instr_eqb_ok i j : instr_eqb i j = true -> i = j.
Proof.
destruct i, j; simpl; try discriminate; intros h;
  repeat match goal with
  | h : (_ && _) = true |- _ => apply andb_true_iff in h; destruct h
  | h : N.eqb _ _ = true |- _ => apply N.eqb_eq in h; subst
  | h : opd_eqb _ _ = true |- _ => apply opd_eqb_ok in h; subst
  end; reflexivity.
Qed.
Fixpoint instrs_eqb (p q : list instr) : bool :=
  match p, q with
  | [], [] => true
  | i :: p', j :: q' => instr_eqb i j && instrs_eqb p' q'
  | _, _ => false
  end.
Lemma instrs_eqb_ok p q : instrs_eqb p q = true -> p = q.
Proof.
revert q; induction p; intros []; simpl; try discriminate; auto; intros h; apply andb_true_iff in h as [h1 h2].
rewrite (instr_eqb_ok _ _ h1); f_equal; auto.
Qed.

(** the last nine statements subtract the modulus and keep the difference unless it is negative *)
Record tail := Tail { t_d0 : N; t_o0 : N; t_p0 : N; t_d1 : N; t_o1 : N; t_p1 : N; t_d2 : N; t_o2 : N; t_p2 : N;
  t_d3 : N; t_o3 : N; t_p3 : N; t_o4 : N; t_top : opd }.
Definition tail_instrs (c : code) (m : limbs) (t : tail) : list instr :=
  [ISub (t_d0 t) (t_o0 t) (R (t_p0 t)) (K (l0 m)) (K 0);
   ISub (t_d1 t) (t_o1 t) (R (t_p1 t)) (K (l1 m)) (R (t_o0 t));
   ISub (t_d2 t) (t_o2 t) (R (t_p2 t)) (K (l2 m)) (R (t_o1 t));
   ISub (t_d3 t) (t_o3 t) (R (t_p3 t)) (K (l3 m)) (R (t_o2 t));
   ISubB (t_o4 t) (t_top t) (K 0) (R (t_o3 t));
   ICmov (out0 c) (R (t_o4 t)) (R (t_d0 t)) (R (t_p0 t));
   ICmov (out1 c) (R (t_o4 t)) (R (t_d1 t)) (R (t_p1 t));
   ICmov (out2 c) (R (t_o4 t)) (R (t_d2 t)) (R (t_p2 t));
   ICmov (out3 c) (R (t_o4 t)) (R (t_d3 t)) (R (t_p3 t))].
Definition dst (i : instr) : N := match i with ISub d _ _ _ _ => d | _ => 0%N end.
Definition brw (i : instr) : N := match i with ISub _ o _ _ _ => o | ISubB o _ _ _ => o | _ => 0%N end.
Definition src (i : instr) : N := match i with ISub _ _ (R p) _ _ => p | _ => 0%N end.
Definition guess_tail (p : list instr) : option tail :=
  match p with
  | i0 :: i1 :: i2 :: i3 :: ISubB o top _ _ :: _ =>
      Some (Tail (dst i0) (brw i0) (src i0) (dst i1) (brw i1) (src i1) (dst i2) (brw i2) (src i2)
                 (dst i3) (brw i3) (src i3) o top)
  | _ => None
  end.
Definition tail_of (c : code) (m : limbs) : option tail :=
  let p := skipn (length (body c) - 9) (body c) in
  match guess_tail p with
  | Some t => if instrs_eqb p (tail_instrs c m t) then Some t else None
  | None => None
  end.

(** quotient digits, in order *)
Definition digits (p : list instr) : list N :=
  flat_map (fun i => match i with
    | IAddC _ a b d => match zero_sum p a b d with Some q => [q] | None => [] end
    | _ => [] end) p.

(** x * k at position j, for a constant k *)
Definition times (x : N) (k : Z) (j : nat) : form :=
  if k =? 0 then [] else if k =? 1 then [(M1 x, j)] else [(M2 (R x) (K k), j)].
Definition times4 (x : N) (m : limbs) (j : nat) : form :=
  times x (l0 m) j ++ times x (l1 m) (1 + j) ++ times x (l2 m) (2 + j) ++ times x (l3 m) (3 + j).
Fixpoint digit_form (qs : list N) (m : limbs) (j : nat) : form :=
  match qs with [] => [] | q :: qs' => times4 q m j ++ digit_form qs' m (S j) end.
Fixpoint qval (E : env) (qs : list N) : Z := match qs with [] => 0 | q :: qs' => E q + W * qval E qs' end.

(** The program reduces the weighted sum [t]: with e Montgomery steps (e = 4) or none (e = 0). *)
Definition check (c : code) (m : limbs) (e : nat) (t : form) : bool :=
  match bounds init (body c), tail_of c m with
  | Some st, Some tl =>
      let qs := digits (body c) in
      forallb (fun q => negb (fresh st q)) ([t_p0 tl; t_p1 tl; t_p2 tl; t_p3 tl;
        t_d0 tl; t_d1 tl; t_d2 tl; t_d3 tl; out0 c; out1 c; out2 c; out3 c] ++ qs) && Nat.eqb (length qs) e
      && (match ub st (t_top tl) with Some _ => true | None => false end)
      && (match find st (t_o4 tl) with Some u => u <=? 1 | None => false end)
      && match add_opd (t_top tl) (4 + e) [(M1 (t_p0 tl), e); (M1 (t_p1 tl), 1 + e); (M1 (t_p2 tl), 2 + e);
                 (M1 (t_p3 tl), 3 + e)]%nat with
         | Some f =>
             match elim_all (body c) (rev (body c)) f with
             | Some g => same_form g (t ++ copies (rev (body c)) (digit_form qs m 0))
             | None => false
             end
         | None => false
         end
  | _, _ => false
  end.

Transparent W.
(** Subtracting the modulus once: the kept value is the residue *)
Lemma final_sub p0 p1 p2 p3 t m0 m1 m2 m3 d0 d1 d2 d3 o0 o1 o2 o3 o4 d4 :
  0 <= p0 < W -> 0 <= p1 < W -> 0 <= p2 < W -> 0 <= p3 < W -> 0 <= t ->
  0 <= m0 < W -> 0 <= m1 < W -> 0 <= m2 < W -> 0 <= m3 < W ->
  0 <= d0 < W -> 0 <= d1 < W -> 0 <= d2 < W -> 0 <= d3 < W -> 0 <= d4 < W -> 0 <= o4 <= 1 ->
  d0 - W * o0 = p0 - m0 - 0 -> d1 - W * o1 = p1 - m1 - o0 -> d2 - W * o2 = p2 - m2 - o1 ->
  d3 - W * o3 = p3 - m3 - o2 -> d4 - W * o4 = t - 0 - o3 ->
  let P := p0 + W * (p1 + W * (p2 + W * (p3 + W * t))) in
  let M := m0 + W * (m1 + W * (m2 + W * m3)) in
  P < 2 * M ->
  let out := if o4 =? 0 then d0 + W * (d1 + W * (d2 + W * d3)) else p0 + W * (p1 + W * (p2 + W * p3)) in
  0 <= out < M /\ (out = P \/ out = P - M).
Proof.
unfold W; cbv zeta; intros; destruct (Z.eqb_spec o4 0); lia.
Qed.
Opaque W.

Lemma qval_bound st E qs : inv st E -> forallb (fun q => negb (fresh st q)) qs = true -> 0 <= qval E qs < pw (length qs).
Proof.
intros hi; induction qs as [|q qs IH]; simpl; [lia|]; intros h; apply andb_true_iff in h as [h1 h2].
unfold fresh in h1; destruct (find st q) as [u|] eqn:e; [|discriminate]; destruct (hi _ _ e).
specialize (IH h2); pose proof W_pos; nia.
Qed.

Lemma times_ok E x k j : fv E (times x k j) = pw j * (E x * k).
Proof.
unfold times; destruct (Z.eqb_spec k 0); [subst; simpl; lia|]; destruct (Z.eqb_spec k 1); subst; simpl; lia.
Qed.
Lemma times4_ok E x m j : fv E (times4 x m j) = pw j * (E x * eval m).
Proof. unfold times4, eval; rewrite !fv_app, !times_ok; simpl; ring. Qed.
Lemma digit_form_ok E qs m j : fv E (digit_form qs m j) = pw j * (qval E qs * eval m).
Proof. revert j; induction qs as [|q qs IH]; intros j; simpl; [lia|]; rewrite fv_app, times4_ok, IH; simpl; ring. Qed.

Lemma init_inv a b : wf a -> wf b -> inv init (args a b).
Proof.
intros (h1 & h2 & h3 & h4) (h5 & h6 & h7 & h8) r u; unfold init; simpl.
repeat match goal with |- context [N.eqb r ?k] => destruct (N.eqb_spec r k); [subst; intros [= <-]; simpl; lia|] end.
discriminate.
Qed.

(** What a checked program computes *)
Lemma check_ok c m e t a b : check c m e t = true -> wf m -> wf a -> wf b ->
  let E := exec (body c) (args a b) in
  agree init (args a b) E /\
  (0 <= fv E t < (pw e + 1) * eval m ->
   wf (run c a b) /\ 0 <= eval (run c a b) < eval m /\
   exists q, pw e * eval (run c a b) = fv E t + q * eval m).
Proof.
intros hc hm ha hb E; unfold check in hc.
destruct (bounds init (body c)) as [st|] eqn:eb; [|discriminate].
destruct (bounds_ok _ _ _ _ eb (init_inv _ _ ha hb)) as (hi & hg & _ & hh); fold E in hi, hg, hh.
split; [exact hg|]; intros ht.
destruct (tail_of c m) as [tl|] eqn:et; [|discriminate].
apply andb_true_iff in hc as [hc hf]; apply andb_true_iff in hc as [hc ho4]; apply andb_true_iff in hc as [hc htop].
apply andb_true_iff in hc as [hq hl]; apply Nat.eqb_eq in hl.
destruct (ub st (t_top tl)) as [ut|] eqn:eu; [|discriminate]; destruct (ub_ok _ _ _ _ hi eu) as (htop1 & _ & _).
destruct (find st (t_o4 tl)) as [uo|] eqn:eo; [|discriminate]; destruct (hi _ _ eo) as [ho4' _]; apply Z.leb_le in ho4.
rewrite forallb_app in hq; apply andb_true_iff in hq as [hp hq].
pose proof (qval_bound _ _ _ hi hq) as hqb; rewrite hl in hqb.
assert (hb4 : forall r, negb (fresh st r) = true -> 0 <= E r < W).
{ intros r h; unfold fresh in h; destruct (find st r) as [u|] eqn:e'; [|discriminate]; destruct (hi _ _ e'); lia. }
cbn [forallb] in hp.
repeat match goal with h : (_ && _) = true |- _ => apply andb_true_iff in h; destruct h end.
repeat match goal with h : negb (fresh st ?r) = true |- _ => apply hb4 in h end.
destruct (add_opd (t_top tl) (4 + e) _) as [f|] eqn:ea; [|discriminate].
destruct (elim_all (body c) (rev (body c)) f) as [g|] eqn:ee; [|discriminate].
assert (hr : Forall (holds E) (rev (body c))).
{ apply Forall_forall; intros i hin; rewrite <- in_rev in hin; rewrite Forall_forall in hh; auto. }
pose proof (same_form_ok E _ _ hf) as hs.
rewrite (elim_all_ok _ _ _ _ _ hh hr ee), (add_opd_ok E _ _ _ _ ea), fv_app, (copies_ok _ _ _ hr), digit_form_ok in hs.
simpl fv in hs; simpl pw in hs.
set (P := E (t_p0 tl) + W * (E (t_p1 tl) + W * (E (t_p2 tl) + W * (E (t_p3 tl) + W * lv E (t_top tl))))).
assert (hP : pw e * P = fv E t + qval E (digits (body c)) * eval m) by (unfold P; lia).
assert (he : 0 < pw e) by (clear; induction e; simpl; pose proof W_pos; nia).
assert (hP2 : P < 2 * eval m).
{ apply Z.mul_lt_mono_pos_l with (pw e); auto. rewrite hP. nia. }
unfold tail_of in et; destruct (guess_tail _) as [tl'|]; [|discriminate].
destruct (instrs_eqb _ (tail_instrs c m tl')) eqn:es; [|discriminate]; injection et as ->.
apply instrs_eqb_ok in es.
assert (hT : Forall (holds E) (tail_instrs c m tl)).
{ rewrite <- es; apply Forall_forall; intros i hin; rewrite Forall_forall in hh; apply hh.
  rewrite <- (firstn_skipn (length (body c) - 9) (body c)); apply in_or_app; right; exact hin. }
unfold tail_instrs in hT.
repeat match goal with h : Forall _ (_ :: _) |- _ => inversion h; clear h; subst end.
cbn [holds lv] in *.
match goal with h : exists d, _ |- _ => destruct h as [d4 [hd4 he4]] end.
destruct hm as (hm0 & hm1 & hm2 & hm3).
assert (F := final_sub (E (t_p0 tl)) (E (t_p1 tl)) (E (t_p2 tl)) (E (t_p3 tl)) (lv E (t_top tl)) (l0 m) (l1 m) (l2 m) (l3 m)
  (E (t_d0 tl)) (E (t_d1 tl)) (E (t_d2 tl)) (E (t_d3 tl)) (E (t_o0 tl)) (E (t_o1 tl)) (E (t_o2 tl)) (E (t_o3 tl)) (E (t_o4 tl)) d4).
cbv zeta in F; fold P in F; change (l0 m + W * (l1 m + W * (l2 m + W * l3 m))) with (eval m) in F.
destruct F as [F1 F2]; try assumption; try lia.
assert (hout : eval (run c a b) = if E (t_o4 tl) =? 0
  then E (t_d0 tl) + W * (E (t_d1 tl) + W * (E (t_d2 tl) + W * E (t_d3 tl)))
  else E (t_p0 tl) + W * (E (t_p1 tl) + W * (E (t_p2 tl) + W * E (t_p3 tl)))).
{ unfold eval, run; cbn [l0 l1 l2 l3]; fold E.
  repeat match goal with h : E _ = if _ then _ else _ |- _ => rewrite h end. now destruct (E (t_o4 tl) =? 0). }
rewrite hout; split; [|split; [exact F1|]].
- unfold wf, run; cbn [l0 l1 l2 l3]; fold E; auto.
- destruct F2 as [-> | ->]; [exists (qval E (digits (body c))) | exists (qval E (digits (body c)) - pw (length (digits (body c))))]; lia.
Qed.
