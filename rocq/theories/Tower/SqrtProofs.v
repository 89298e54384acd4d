(** fp2 as a mathcomp ring, x^q = conj x over a field of q = 3 mod 4 elements, and the square root. *)
From mathcomp Require Import all_ssreflect all_algebra all_field.
From Coq Require Import Ring_theory Field.
From Verif Require Import Lib.FieldTac Tower.TowerModel Tower.TowerProofs Tower.GtProofs Tower.FrobProofs.
Set Implicit Arguments.
Unset Strict Implicit.
Unset Printing Implicit Defensive.
Import GRing.Theory.
Local Open Scope ring_scope.

Section Ring2.
Variable F : fieldType.
Definition of2 (x : fp2 F) : F * F := (A2 x, B2 x).
Definition to2 (p : F * F) : fp2 F := Fp2 p.1 p.2.
Lemma of2K : cancel of2 to2. Proof. by case. Qed.
Definition fp2_eqMixin := CanEqMixin of2K.
Canonical fp2_eqType := Eval hnf in EqType (fp2 F) fp2_eqMixin.
Definition fp2_choiceMixin := CanChoiceMixin of2K.
Canonical fp2_choiceType := Eval hnf in ChoiceType (fp2 F) fp2_choiceMixin.
Add Ring fp2_ring : (rth2 F).
Lemma a2A : associative (@add2 F). Proof. move=> x y z; ring. Qed.
Lemma a2C : commutative (@add2 F). Proof. move=> x y; ring. Qed.
Lemma a20 : left_id (zero2 F) (@add2 F). Proof. move=> x; ring. Qed.
Lemma a2N : left_inverse (zero2 F) (@neg2 F) (@add2 F). Proof. move=> x; ring. Qed.
Definition fp2_zmodMixin := ZmodMixin a2A a2C a20 a2N.
Canonical fp2_zmodType := Eval hnf in ZmodType (fp2 F) fp2_zmodMixin.
Lemma m2A : associative (@mul2 F). Proof. move=> x y z; ring. Qed.
Lemma m2C : commutative (@mul2 F). Proof. move=> x y; ring. Qed.
Lemma m21 : left_id (one2 F) (@mul2 F). Proof. move=> x; ring. Qed.
Lemma m2D : left_distributive (@mul2 F) (@add2 F). Proof. move=> x y z; ring. Qed.
Lemma n210 : one2 F != 0 :> fp2 F.
Proof. by apply/eqP => /(congr1 (@A2 F)) /= /eqP; rewrite oner_eq0. Qed.
Definition fp2_ringMixin := ComRingMixin m2A m2C m21 m2D n210.
Canonical fp2_ringType := Eval hnf in RingType (fp2 F) fp2_ringMixin.
Canonical fp2_comRingType := Eval hnf in ComRingType (fp2 F) m2C.

Definition re (a : F) : fp2 F := Fp2 a 0.
Definition uu : fp2 F := Fp2 0 1.
Lemma reM a b : re (a * b) = re a * re b.
Proof. by rewrite [RHS]mul2E /re /= !mulr0 !mul0r subr0 addr0. Qed.
Lemma reX a n : re a ^+ n = re (a ^+ n).
Proof. by elim: n => [//|n IH]; rewrite !exprS IH -reM. Qed.
Lemma fp2D (x : fp2 F) : x = re (A2 x) + uu * re (B2 x).
Proof.
have -> : uu * re (B2 x) = Fp2 0 (B2 x) by rewrite [LHS]mul2E /= mul0r !mulr0 mul1r subrr add0r.
by case: x => a b; rewrite [RHS]/(add2 _ _) /add2 /= addr0 add0r.
Qed.
Lemma re_nat n : n%:R = re n%:R :> fp2 F.
Proof. by elim: n => [//|n IH]; rewrite !mulrS IH [LHS]/(add2 _ _) /add2 /= addr0. Qed.
Lemma uu2 : uu * uu = - 1 :> fp2 F.
Proof. by rewrite [LHS]mul2E /= !mul0r !mulr0 mul1r sub0r addr0 [RHS]/(neg2 _) /neg2 /= oppr0. Qed.
Lemma char2 (p : nat) : p \in [char F] -> p \in [char (fp2_ringType)].
Proof. by rewrite !inE => /andP [-> /eqP h] /=; apply/eqP; rewrite re_nat h. Qed.

(** the q-power map is the conjugation *)
Lemma pow_conj (q k : nat) (p : nat) : p \in [char F] -> p.-nat q ->
  (forall a : F, a ^+ q = a) -> (q = 4 * k + 3)%N -> forall x : fp2 F, x ^+ q = conj2 x.
Proof.
move=> hp hq hf hk x.
have hq' : [char fp2_ringType].-nat q.
  by rewrite (eq_pnat _ (charf_eq (char2 hp))).
rewrite {1}[x]fp2D exprDn_char // exprMn_comm; last exact: mulrC.
rewrite !reX !hf.
have -> : uu ^+ q = - uu.
  have u2 : uu ^+ 2 = -1 by rewrite expr2 uu2.
  have u4 : uu ^+ 4 = 1 by rewrite (exprM uu 2 2) u2 sqrrN expr1n.
  by rewrite hk exprD exprM u4 expr1n mul1r exprS u2 mulrN1.
rewrite mulNr /conj2.
have -> : uu * re (B2 x) = Fp2 0 (B2 x) by rewrite [LHS]mul2E /= mul0r !mulr0 mul1r subrr add0r.
by rewrite [LHS]/(add2 _ (neg2 _)) /add2 /neg2 /= oppr0 addr0 add0r.
Qed.

Lemma pow2E (x : fp2 F) (bs : seq bool) : pow2 x bs = x ^+ bitsVal bs.
Proof.
rewrite /pow2 /bitsVal -[one2 F]/(1 : fp2 F) -[in LHS](expr0 x).
elim: bs 0%N => [//|b bs IH] n /=.
rewrite -IH; congr foldl; rewrite square2E /cmove -addnn.
by case: b; rewrite ?addn0 ?addn1 ?exprSr exprD.
Qed.

(** a square root exists *)
Section Sqrt.
Variables (q k p : nat) (e1 e2 : seq bool).
Hypothesis hp : p \in [char F].
Hypothesis hpq : p.-nat q.
Hypothesis hf : forall a : F, a ^+ q = a.
Hypothesis hk : (q = 4 * k + 3)%N.
Hypothesis he1 : bitsVal e1 = k.
Hypothesis he2 : bitsVal e2 = (2 * k + 1)%N.
Let hconj := pow_conj hp hpq hf hk.

Lemma q_noI : noI F.
Proof.
move=> a ha.
have h2 : (1 + 1 : F) != 0.
  apply/negP => /eqP h.
  have : (2%N \in [char F]) by rewrite inE /= -[2%:R]/(1 + 1) h eqxx.
  move=> h2; have e := charf_eq h2 p; rewrite hp in e.
  have p2 : p = 2%N by move: (esym e); rewrite !inE => /eqP.
  move: hpq; rewrite p2 hk => /p_natP [m].
  case: m => [|m]; first by case: k => [|n] //; rewrite mulnS.
  rewrite expnS => /(congr1 odd); by rewrite oddD !oddM.
have ha0 : a != 0 by apply/eqP => h; move: ha; rewrite h mul0r => /eqP; rewrite eq_sym oppr_eq0 oner_eq0.
have : a ^+ (q.-1) = 1.
  apply: (mulfI ha0); rewrite -exprS mulr1 prednK; last by rewrite hk addn3.
  exact: hf.
have -> : q.-1 = (2 * (2 * k + 1))%N by rewrite hk addnS /= mulnDr mulnA.
rewrite exprM expr2 ha exprD exprM sqrrN expr1n expr1n mul1r expr1 => h.
by move: h2; rewrite -{1}h addNr eqxx.
Qed.

Lemma mul2I (x y z : fp2 F) : x != 0 -> x * y = x * z -> y = z.
Proof.
move=> /eqP hx h; case: (invert2_ok q_noI 0 hx) => i [_ hi].
have e (t : fp2 F) : t = i * (x * t) by rewrite mulrA [i * x]mulrC [x * i]hi mul1r.
by rewrite (e y) h -e.
Qed.

Lemma sqrt2_complete (f b : fp2 F) : exists r, sqrt2 e1 e2 f (b * b) = (r, true) /\ r * r = b * b.
Proof.
set a := b * b.
suff [h|h] : let a1 := a ^+ k in let alpha := a1 * a1 * a in let x0 := a1 * a in
   let ism1 := equal2 alpha (Fp2 (-1) 0) in
   (ism1 /\ (isZero2 a = false /\ (uu * x0) * (uu * x0) = a)) \/
   (ism1 = false /\ ((1 + alpha) ^+ (2 * k + 1) * x0) * ((1 + alpha) ^+ (2 * k + 1) * x0) = a).
- move: h; cbv zeta => -[h1 [h0 h2]].
  have h1' : equal2 (mul2 (mul2 (a ^+ k) (a ^+ k)) a) (Fp2 (-1) 0) = true := h1.
  rewrite /sqrt2; cbv zeta; rewrite !pow2E he1 he2 !square2E h0 h1' {2 3}/cmove.
  set x0 := mul2 (a ^+ k) a in h2 *.
  have ex : Fp2 (- B2 x0) (A2 x0) = uu * x0.
    by rewrite [RHS]mul2E [A2 uu]/= [B2 uu]/= !mul0r !mul1r sub0r add0r.
  rewrite /cmove ex; exists (uu * x0).
  have -> : equal2 (mul2 (uu * x0) (uu * x0)) a by apply/equal2P; exact: h2.
  by split.
- move: h; cbv zeta => -[h1 h2].
  have h1' : equal2 (mul2 (mul2 (a ^+ k) (a ^+ k)) a) (Fp2 (-1) 0) = false := h1.
  rewrite /sqrt2; cbv zeta; rewrite !pow2E he1 he2 !square2E h1' /cmove.
  set r := mul2 _ (mul2 (a ^+ k) a).
  have hr : r * r = a := h2.
  exists r; have -> : equal2 (mul2 r r) a by apply/equal2P; exact: hr.
  by split.
move=> a1 alpha x0 ism1.
have e_alpha : alpha = b ^+ (4 * k + 2).
  have -> : alpha = a ^+ (2 * k + 1) by rewrite /alpha /a1 -exprD addnn -mul2n addn1 exprSr.
  by rewrite /a -expr2 -exprM mulnDr mulnA.
have e_x0 : x0 * x0 = alpha * a by rewrite /x0 /alpha mulrACA mulrA.
case e : ism1; [left|right]; split=> //.
  have eal : alpha = -1.
    have /equal2P -> : equal2 alpha (Fp2 (-1) 0) by exact: e.
    by rewrite [RHS]/(neg2 _) /neg2 /= oppr0.
  split; last by rewrite mulrACA uu2 e_x0 eal mulrA mulrN1 opprK mul1r.
  apply/negP => /isZero2P ea; move: eal; rewrite /alpha ea mulr0 => /(congr1 (@A2 F)) /= /eqP.
  by rewrite eq_sym oppr_eq0 oner_eq0.
have hne : 1 + alpha != 0.
  apply/eqP => h; move: e; rewrite /ism1 => /negP; apply; apply/equal2P.
  have -> : alpha = - 1 by rewrite -[alpha](addKr 1) h addr0.
  by rewrite [LHS]/(neg2 _) /neg2 /= oppr0.
case: (altP (b =P 0)) => [b0|b0].
  have a0 : a = 0 by rewrite /a b0 mulr0.
  by rewrite /x0 a0 !mulr0.
rewrite mulrACA e_x0 -expr2 -exprM.
have -> : ((2 * k + 1) * 2 = q.-1)%N by rewrite hk mulnDl mulnAC [(4 * k + 3)%N]addnS.
apply: (mul2I hne); rewrite mulrA -exprS prednK; last by rewrite hk addn3.
rewrite hconj.
have bal : b * alpha = conj2 b by rewrite e_alpha -exprS -hconj hk -addnS.
have cbal : conj2 b * conj2 alpha = b by rewrite -[LHS]conj2M [mul2 _ _]bal conj2K.
have cb0 : conj2 b != 0 by apply: contraNneq b0 => h; rewrite -(conj2K b) h; apply/eqP; exact: conj20.
have hca : alpha * conj2 alpha = 1.
  apply: (mul2I b0); apply: (mul2I cb0).
  by rewrite mulr1 [b * (_ * _)]mulrA bal mulrCA cbal.
have -> : conj2 (1 + alpha) = 1 + conj2 alpha by rewrite [LHS]conj2D conj21.
by rewrite mulrA mulrDl mul1r [conj2 alpha * _]mulrC hca [alpha + 1]addrC.
Qed.

Lemma sqrt2_sound (f a r : fp2 F) : sqrt2 e1 e2 f a = (r, true) -> r * r = a.
Proof.
rewrite /sqrt2; set e := equal2 (square2 _) a; case: (boolP e) => // he [<-].
by move: he; rewrite /e square2E => /equal2P.
Qed.
Lemma sqrt2_flag (f a : fp2 F) : (sqrt2 e1 e2 f a).2 = false -> (sqrt2 e1 e2 f a).1 = f.
Proof. by rewrite /sqrt2 /= => ->. Qed.
End Sqrt.
End Ring2.
