(** The engine's result as a product over the pairs; negated inputs; Check. *)
From mathcomp Require Import all_ssreflect all_algebra.
From Coq Require Import Ring_theory Field.
From Verif Require Import Lib.FieldTac Tower.TowerModel Tower.TowerProofs Tower.GtProofs Tower.FrobProofs
  Tower.FinalProofs Tower.PairModel.
Set Implicit Arguments.
Unset Strict Implicit.
Unset Printing Implicit Defensive.
Import GRing.Theory.
Local Open Scope ring_scope.

Section Steps.
Variable F : fieldType.
Add Ring fp2_ring : (rth2 F).
Local Notation "x +2 y" := (add2 x y) (at level 50, left associativity).
Local Notation "x -2 y" := (sub2 x y) (at level 50, left associativity).
Local Notation "x *2 y" := (mul2 x y) (at level 40, left associativity).
Definition sc (n : nat) (x : fp2 F) : fp2 F := iter n (add2 x) (zero2 F).

(** Jacobian doubling and the tangent, in closed form *)
Lemma doublingStepE (p : G2 F) :
  let X := x2 p in let Y := y2 p in let Z := z2 p in
  let X3 := sc 9 (X *2 X *2 X *2 X) -2 sc 8 (X *2 Y *2 Y) in
  doublingStep p =
   (MkG2 X3 (sc 3 (X *2 X) *2 (sc 4 (X *2 Y *2 Y) -2 X3) -2 sc 8 (Y *2 Y *2 Y *2 Y)) (sc 2 (Y *2 Z)),
    Coef (sc 4 (Y *2 Z *2 Z *2 Z)) (neg2 (sc 6 (X *2 X *2 Z *2 Z))) (sc 6 (X *2 X *2 X) -2 sc 4 (Y *2 Y))).
Proof.
case: p => X Y Z; rewrite /doublingStep /sc; cbn [x2 y2 z2 iter]; cbv zeta; rewrite !square2E !double2E.
congr (_, _); [congr MkG2|congr Coef]; ring.
Qed.
(** mixed Jacobian-affine addition and the chord, in closed form *)
Lemma additionStepE (r q : G2 F) :
  let X := x2 r in let Y := y2 r in let Z := z2 r in
  let H := x2 q *2 Z *2 Z -2 X in
  let R := sc 2 (y2 q *2 Z *2 Z *2 Z -2 Y) in
  let X3 := R *2 R -2 sc 4 (H *2 H *2 H) -2 sc 8 (X *2 H *2 H) in
  let Z3 := sc 2 (Z *2 H) in
  additionStep r q =
   (MkG2 X3 (R *2 (sc 4 (X *2 H *2 H) -2 X3) -2 sc 8 (Y *2 H *2 H *2 H)) Z3,
    Coef (sc 2 Z3) (neg2 (sc 2 R)) (sc 2 (R *2 x2 q) -2 sc 2 (y2 q *2 Z3))).
Proof.
case: r q => X Y Z [xq yq zq]; rewrite /additionStep /sc; cbn [x2 y2 z2 iter]; cbv zeta; rewrite !square2E !double2E.
congr (_, _); [congr MkG2|congr Coef]; ring.
Qed.

(** y^2 = x^3 + b z^6 *)
Definition onJ (b : fp2 F) (p : G2 F) : Prop :=
  y2 p *2 y2 p = x2 p *2 x2 p *2 x2 p +2 b *2 (z2 p *2 z2 p *2 z2 p *2 z2 p *2 z2 p *2 z2 p).
Lemma doubling_on b p : onJ b p -> onJ b (doublingStep p).1.
Proof.
rewrite doublingStepE /onJ /sc; case: p => X Y Z; cbn [x2 y2 z2 fst iter] => h.
ring [h].
Qed.
Lemma addition_on b r q : z2 q = one2 F -> onJ b r -> onJ b q -> onJ b (additionStep r q).1.
Proof.
rewrite additionStepE /onJ /sc; case: r q => X Y Z [xq yq zq]; cbn [x2 y2 z2 fst iter] => -> hr hq.
have hq' : yq *2 yq = xq *2 xq *2 xq +2 b by rewrite hq; ring.
ring [hr hq'].
Qed.

(** negating the moving point: only the first coefficient changes sign *)
Definition cneg (c : coefficients F) : coefficients F := Coef (neg2 (ca c)) (cb c) (cc c).
Definition flipy (p : G2 F) := MkG2 (x2 p) (neg2 (y2 p)) (z2 p).
Definition flipz (p : G2 F) := MkG2 (x2 p) (y2 p) (neg2 (z2 p)).
Lemma dbl_flipy p : doublingStep (flipy p) = (flipz (doublingStep p).1, cneg (doublingStep p).2).
Proof.
rewrite !doublingStepE /flipy /flipz /cneg /sc; case: p => X Y Z; cbn [x2 y2 z2 fst snd iter ca cb cc].
congr (_, _); [congr MkG2|congr Coef]; ring.
Qed.
Lemma dbl_flipz p : doublingStep (flipz p) = (flipz (doublingStep p).1, cneg (doublingStep p).2).
Proof.
rewrite !doublingStepE /flipz /cneg /sc; case: p => X Y Z; cbn [x2 y2 z2 fst snd iter ca cb cc].
congr (_, _); [congr MkG2|congr Coef]; ring.
Qed.
Lemma add_flip r q : additionStep (flipz r) (flipy q) = (flipz (additionStep r q).1, cneg (additionStep r q).2).
Proof.
rewrite !additionStepE /flipz /flipy /cneg /sc; case: r q => X Y Z [xq yq zq].
cbn [x2 y2 z2 fst snd iter ca cb cc].
congr (_, _); [congr MkG2|congr Coef]; ring.
Qed.
End Steps.

Local Opaque doublingStep additionStep.
Section Lines.
Variable F : fieldType.
Add Ring fp12_ring : (rth12 F).
Definition line (c : coefficients F) (p : G1 F) : fp12 F :=
  Fp12 (Fp6 (cc c) (mul0_2 (cb c) (x1 p)) (zero2 F)) (Fp6 (zero2 F) (mul0_2 (ca c) (y1 p)) (zero2 F)).
Lemma ellE f c p : ell f c p = mul12 f (line c p).
Proof. by rewrite /ell mulByABDE. Qed.
Local Notation entry := (pair F * (seq (coefficients F) * bool))%type.
Definition lineOf (i : nat) (e : entry) : fp12 F :=
  if isId1 e.1.1 || e.2.2 then one12 F else line (nth (coef0 F) e.2.1 i) e.1.1.
Lemma lines_cons i (f : fp12 F) e es : lines i f (e :: es) = lines i (mul12 f (lineOf i e)) es.
Proof.
rewrite /lines /= /lineOf; congr foldl; rewrite /cmove ellE; case: (_ || _) => //; ring.
Qed.
Lemma linesM i (f : fp12 F) es : lines i f es = mul12 f (lines i (one12 F) es).
Proof.
elim: es f => [|e es IH] f; first by rewrite /lines /=; ring.
rewrite !lines_cons IH [in RHS]IH; ring.
Qed.
Lemma lines_cat i (f g : fp12 F) es1 es2 :
  lines i (mul12 f g) (es1 ++ es2) = mul12 (lines i f es1) (lines i g es2).
Proof.
have -> : lines i (mul12 f g) (es1 ++ es2) = lines i (lines i (mul12 f g) es1) es2 by rewrite /lines foldl_cat.
rewrite linesM [lines i (mul12 f g) es1]linesM [lines i f es1]linesM [lines i g es2]linesM; ring.
Qed.
Lemma miller_cat hb es1 es2 (f1 f2 : fp12 F) :
  millerLoop hb (mul12 f1 f2) (es1 ++ es2) = mul12 (millerLoop hb f1 es1) (millerLoop hb f2 es2).
Proof.
rewrite /millerLoop.
suff H : forall fd i g1 g2, exists g1' g2' fd' i',
  [/\ foldl (millerStep (es1 ++ es2)) (mul12 g1 g2, fd, i) hb = (mul12 g1' g2', fd', i'),
      foldl (millerStep es1) (g1, fd, i) hb = (g1', fd', i') &
      foldl (millerStep es2) (g2, fd, i) hb = (g2', fd', i')].
  by case: (H false 0%N f1 f2) => g1' [g2' [fd' [i' [-> -> ->]]]]; rewrite lines_cat conj12M.
elim: hb => [|b hb IH] fd i g1 g2; first by exists g1, g2, fd, i.
rewrite /=; case: fd => //.
have sqM (a c : fp12 F) : square12 (mul12 a c) = mul12 (square12 a) (square12 c) by rewrite !square12E; ring.
by case: b; rewrite !lines_cat sqM; apply: IH.
Qed.

(** conjugating every line conjugates the loop *)
Lemma miller_conj hb (es es' : seq entry) :
  (forall i, lines i (one12 F) es' = conj12 (lines i (one12 F) es)) ->
  forall f, millerLoop hb (conj12 f) es' = conj12 (millerLoop hb f es).
Proof.
move=> hl f.
have hl' i g : lines i (conj12 g) es' = conj12 (lines i g es) by rewrite linesM hl -conj12M -linesM.
rewrite /millerLoop.
suff H : forall fd i g, exists g' fd' i',
  foldl (millerStep es') (conj12 g, fd, i) hb = (conj12 g', fd', i') /\
      foldl (millerStep es) (g, fd, i) hb = (g', fd', i').
  by case: (H false 0%N f) => g' [fd' [i' [-> ->]]]; rewrite hl'.
elim: hb => [|b hb IH] fd i g; first by exists g, fd, i.
rewrite /=; case: fd => //.
have sqC (a : fp12 F) : square12 (conj12 a) = conj12 (square12 a) by rewrite !square12E conj12M.
by case: b; rewrite !hl' sqC; apply: IH.
Qed.

Lemma line_cneg c p : line (cneg c) p = conj12 (line c p).
Proof.
rewrite /line /cneg /conj12 /neg6 /= ; congr Fp12; congr Fp6; rewrite /neg2 /mul0_2 /zero2 /= ?oppr0 //.
by rewrite !mulNr.
Qed.
Lemma line_neg c (p : G1 F) : line c (MkG1 (x1 p) (- y1 p) (z1 p)) = conj12 (line c p).
Proof.
rewrite /line /conj12 /neg6 /= ; congr Fp12; congr Fp6; rewrite /neg2 /mul0_2 /zero2 /= ?oppr0 //.
by rewrite !mulrN.
Qed.
Lemma cneg0 : cneg (coef0 F) = coef0 F.
Proof. by rewrite /cneg /coef0 /neg2 /zero2 /= oppr0. Qed.

(** coefficients of a negated point *)
Lemma coeffs_neg gen hb (p : pair F) : isId2 p.2 = false ->
  computeCoeffs gen hb (p.1, negG2 p.2) =
   ([seq cneg c | c <- (computeCoeffs gen hb p).1], (computeCoeffs gen hb p).2).
Proof.
case: p => P Q /= hq.
have en : negG2 Q = flipy Q by rewrite /negG2 hq /cneg2 /cmove.
have hq' : isId2 (negG2 Q) = false by rewrite /isId2 /negG2 /= -/(isId2 Q) hq.
rewrite /computeCoeffs /= hq' hq /cmoveG2 /cmove en.
have -> : MkG2 (x2 Q) (y2 Q) (z2 Q) = Q by case: (Q).
have -> : MkG2 (x2 (flipy Q)) (y2 (flipy Q)) (z2 (flipy Q)) = flipy Q by [].
suff H : forall fd c cfs, exists fd' c' cfs',
   foldl (coefStep Q) (fd, c, cfs) hb = (fd', c', cfs') /\
   ((foldl (coefStep (flipy Q)) (fd, flipy c, map (@cneg F) cfs) hb = (fd', flipy c', map (@cneg F) cfs') \/
     foldl (coefStep (flipy Q)) (fd, flipy c, map (@cneg F) cfs) hb = (fd', flipz c', map (@cneg F) cfs')) /\
    (foldl (coefStep (flipy Q)) (fd, flipz c, map (@cneg F) cfs) hb = (fd', flipz c', map (@cneg F) cfs'))).
  case: (H false Q [::]) => fd' [c' [cfs' [-> [[->|->] _]]]].
    by rewrite /= dbl_flipy /= map_rcons.
  by rewrite /= dbl_flipz /= map_rcons.
elim: hb => [|b hb IH] fd c cfs.
  exists fd, c, cfs; split=> //; split=> //; by left.
rewrite /=; case: fd.
  rewrite dbl_flipy dbl_flipz; case: (doublingStep c) => c1 cf1 /=.
  case: b => /=.
    rewrite add_flip; case: (additionStep c1 Q) => c2 cf2 /=.
    rewrite -!map_rcons; case: (IH true c2 (rcons (rcons cfs cf1) cf2)) => fd' [c' [cfs' [-> [_ h]]]].
    by exists fd', c', cfs'; split=> //; split=> //; right.
  rewrite -!map_rcons; case: (IH true c1 (rcons cfs cf1)) => fd' [c' [cfs' [-> [_ h]]]].
  by exists fd', c', cfs'; split=> //; split=> //; right.
by case: (IH b c cfs) => fd' [c' [cfs' [-> [h1 h2]]]]; exists fd', c', cfs'.
Qed.
End Lines.
