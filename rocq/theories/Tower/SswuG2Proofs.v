(** The simplified SWU map of G2: facts about squares of fp2 and the proof that the map lands on the curve. *)
From Coq Require Import NArith Nnat ZArith.
From mathcomp Require Import all_ssreflect all_algebra all_fingroup all_solvable all_field.
From Coq Require Import Ring_theory Field.
From Verif Require Import Lib.FieldTac Tower.TowerModel Tower.TowerProofs Tower.SqrtProofs Tower.Literals Tower.PropsTower.
From Verif Require Import Curves.SswuProofs Curves.SswuConst Curves.SswuIso Tower.SswuG2Model Tower.GtProofs.
Set Implicit Arguments.
Unset Strict Implicit.
Unset Printing Implicit Defensive.
Import GRing.Theory.
Delimit Scope N_scope with Ns.
Delimit Scope Z_scope with Zs.
Local Open Scope ring_scope.

Section Alg.
Variable K : fieldType.
Add Field K_fieldG : (f_fth K).
Definition nrm (x : fp2 K) : K := A2 x * A2 x + B2 x * B2 x.
Lemma nrmM x y : nrm (mul2 x y) = nrm x * nrm y.
Proof. by rewrite mul2E /nrm /=; f_fold K; ring. Qed.
Lemma csqrt_t (t x y n c : K) : c <> 0 -> t <> 0 -> c * c = (x + n) / t -> n * n = x * x + y * y ->
  c * c - (y / (t * c)) * (y / (t * c)) = (1 + 1) * x / t.
Proof.
move=> c0 h2 hc hn.
have y2 : y * y = n * n - x * x by rewrite hn; f_fold K; ring.
have e : n = t * (c * c) - x by rewrite hc; f_fold K; field.
have -> : c * c - (y / (t * c)) * (y / (t * c)) = c * c - (y * y) / (t * t * (c * c)).
  by f_fold K; field.
by rewrite y2 e; f_fold K; field.
Qed.
Lemma csqrt2_t (t y c : K) : c <> 0 -> t <> 0 -> c * (y / (t * c)) + (y / (t * c)) * c = (1 + 1) * y / t.
Proof. by move=> c0 h2; f_fold K; field. Qed.
Lemma half_prod (t x y n : K) : t <> 0 -> n * n = x * x + y * y ->
  (x + n) / t * ((x - n) / t) = - (y / t * (y / t)).
Proof.
move=> h2 hn; have y2 : y * y = n * n - x * x by rewrite hn; f_fold K; ring.
have -> : y / t * (y / t) = (y * y) / (t * t) by f_fold K; field.
by rewrite y2; f_fold K; field.
Qed.
Lemma csqrt (x y n c : K) : c <> 0 -> (1 + 1 : K) <> 0 -> c * c = (x + n) / (1 + 1) -> n * n = x * x + y * y ->
  let d := y / ((1 + 1) * c) in mul2 (Fp2 c d) (Fp2 c d) = Fp2 x y.
Proof.
move=> c0 h2 hc hn d; rewrite mul2E [A2 _]/= [B2 _]/= (csqrt_t c0 h2 hc hn) [c * d + d * c](csqrt2_t y c0 h2).
by move/eqP: h2 => h2; rewrite ![(1 + 1) * _]mulrC !mulfK.
Qed.
Lemma nn_alg (v m : K) : (v * v * v * m) * (v * v * v * m) = - (m * m) * (- (v * v) * - (v * v) * - (v * v)).
Proof. by f_fold K; ring. Qed.
End Alg.

Section Swu2.
Variable K : fieldType.
Add Ring K2_ringG : (rth2 K).
Local Notation "x +2 y" := (add2 x y) (at level 50, left associativity).
Local Notation "x *2 y" := (mul2 x y) (at level 40, left associativity).
Lemma swu2_ident (A B M s t : fp2 K) : A *2 M +2 B = zero2 K -> s *2 (t +2 t *2 t) = one2 K ->
  let x1 := (s +2 one2 K) *2 M in
  (x1 *2 x1 +2 A) *2 x1 *2 (t *2 t *2 t) +2 B *2 (t *2 t *2 t) =
  ((t *2 x1) *2 (t *2 x1) +2 A) *2 (t *2 x1) +2 B.
Proof.
move=> h1 h2 x1; rewrite /x1.
have e : ((t *2 ((s +2 one2 K) *2 M)) *2 (t *2 ((s +2 one2 K) *2 M)) +2 A) *2 (t *2 ((s +2 one2 K) *2 M)) +2 B =
  (((s +2 one2 K) *2 M *2 ((s +2 one2 K) *2 M) +2 A) *2 ((s +2 one2 K) *2 M) *2 (t *2 t *2 t) +2 B *2 (t *2 t *2 t)) +2
  (B *2 (sub2 (one2 K) t +2 (sub2 t (one2 K)) *2 (s *2 (t +2 t *2 t))) +2
   (A *2 M +2 B) *2 ((s +2 one2 K) *2 (sub2 t (t *2 t *2 t)))) by ring.
by rewrite e h1 h2; ring.
Qed.
Lemma cube_id (t s : fp2 K) : s *2 (t +2 t *2 t) = one2 K -> s +2 one2 K = zero2 K -> t = (t *2 t) *2 (t *2 t).
Proof.
move=> h1 h2; have hs : s = neg2 (one2 K).
  have e : s = (s +2 one2 K) +2 neg2 (one2 K) by ring.
  by rewrite h2 in e; rewrite e; ring.
have h3 : t +2 t *2 t +2 one2 K = zero2 K by rewrite -h1 hs; ring.
have e : (t *2 t) *2 (t *2 t) = t +2 (t +2 t *2 t +2 one2 K) *2 (t *2 t +2 neg2 t) by ring.
by rewrite e h3; ring.
Qed.
End Swu2.

Section Squares.
Variable F : finFieldType.
Variable c1 : nat.
Hypothesis hc : (c1 * 4 + 3 = #|F|)%N.
Hypothesis hI : forall a : F, a * a <> -1.
Lemma two0 : (1 + 1 : F) <> 0.
Proof.
move=> h; apply: (hI (a := 1)); rewrite mulr1; apply/eqP; rewrite -addr_eq0; exact/eqP.
Qed.
(** one of a, -a is a square *)
Lemma sq_or (a : F) : exists r, r * r = a \/ r * r = - a.
Proof.
exists (a ^+ c1.+1); have e : a ^+ c1.+1 * a ^+ c1.+1 = a * a ^+ (c1 * 2 + 1).
  by rewrite -exprD -exprS; congr (_ ^+ _); rewrite muln2 -addnn addSn addnS addn1.
case: (halfE hc a) => [|[]] h; rewrite e h; [|by left; rewrite mulr1|by right; rewrite mulrN1].
by left; move/eqP: h; rewrite expf_eq0 => /andP [_ /eqP ->]; rewrite mul0r.
Qed.
Lemma nsq_neg (k : F) : k <> 0 -> forall n, n * n <> - (k * k).
Proof.
move=> /eqP k0 n h; apply: (hI (a := n / k)).
by rewrite mulrACA h mulNr -invfM divff // mulf_neq0.
Qed.
Lemma sq_norm (a : fp2 F) (n : F) : n * n = nrm a -> exists b, mul2 b b = a.
Proof.
case: a => x y; rewrite /nrm /= => hn; case: (eqVneq y 0) => [y0|/eqP y0].
  case: (sq_or x) => r [] hr; [exists (Fp2 r 0)|exists (Fp2 0 r)]; rewrite mul2E /= !(mulr0, mul0r, subr0, sub0r, addr0) hr ?opprK y0 //.
have hp := half_prod two0 hn.
have yy : - (y / (1 + 1) * (y / (1 + 1))) <> 0.
  by move/eqP; rewrite oppr_eq0 !mulf_eq0 orbb invr_eq0 => /orP [] /eqP // /two0.
case: (sq_or ((x + n) / (1 + 1))) => r [] hr.
  have r0 : r <> 0 by move=> r0; apply: yy; rewrite -hp -hr r0 !mul0r.
  by exists (Fp2 r (y / ((1 + 1) * r))); apply: (csqrt r0 two0 hr hn).
have r0 : r <> 0 by move=> r0; apply: yy; move/eqP: hr; rewrite -hp r0 mul0r eq_sym oppr_eq0 => /eqP ->; rewrite mul0r.
have r0' : r != 0 by apply/eqP.
pose c := y / (1 + 1) / r.
have hc' : c * c = (x + - n) / (1 + 1).
  apply: (@mulfI _ (r * r)); first by rewrite mulf_neq0.
  have -> : r * r * (c * c) = y / (1 + 1) * (y / (1 + 1)).
    by rewrite mulrACA /c !(mulrC r) !divfK.
  by rewrite hr mulNr hp opprK.
have c0 : c <> 0.
  by move/eqP; rewrite /c !mulf_eq0 !invr_eq0 (negPf r0') orbF => /orP [] /eqP // /two0.
exists (Fp2 c (y / ((1 + 1) * c))); apply: (csqrt c0 two0 hc'); by rewrite mulrNN.
Qed.
Lemma nsq_half (a : fp2 F) : (forall b, mul2 b b <> a) -> exists m, nrm a = - (m * m).
Proof.
move=> h; case: (sq_or (nrm a)) => r [] hr; last by exists r; rewrite hr opprK.
by case: (sq_norm hr) => b /h.
Qed.
Lemma nrm0 (x : fp2 F) : nrm x = 0 -> x = zero2 F.
Proof. exact: (norm0 hI). Qed.
End Squares.

Section Ring2.
Variable K : fieldType.
Add Ring K2_ringH : (rth2 K).
Lemma dist2 (a b c : fp2 K) : mul2 (add2 a b) c = add2 (mul2 a c) (mul2 b c). Proof. by ring. Qed.
Lemma r20 (t : fp2 K) : add2 t (mul2 t t) = mul2 t (add2 (one2 K) t). Proof. by ring. Qed.
Lemma r21 (t : fp2 K) : add2 (one2 K) t = zero2 K -> t = neg2 (one2 K).
Proof. move=> h; have e : t = add2 (add2 (one2 K) t) (neg2 (one2 K)) by ring.
by rewrite h in e; rewrite e; ring. Qed.
Lemma r22 (a b : fp2 K) : mul2 a b = mul2 b a. Proof. by ring. Qed.
Lemma r23 (y : fp2 K) : mul2 (neg2 y) (neg2 y) = mul2 y y. Proof. by ring. Qed.
Lemma r24 (A B M : fp2 K) : add2 (mul2 A M) B = zero2 K ->
  add2 (mul2 (add2 (mul2 M M) A) M) B = mul2 M (mul2 M M).
Proof.
move=> h; have -> : add2 (mul2 (add2 (mul2 M M) A) M) B = add2 (mul2 M (mul2 M M)) (add2 (mul2 A M) B) by ring.
by rewrite h; ring.
Qed.
Lemma r25 (a : fp2 K) : mul2 (zero2 K) a = zero2 K. Proof. by ring. Qed.
Lemma r26 (a : fp2 K) : mul2 a (zero2 K) = zero2 K. Proof. by ring. Qed.
Lemma r27 (a : fp2 K) : add2 (zero2 K) a = a. Proof. by ring. Qed.
Lemma r28 (a : fp2 K) : mul2 (one2 K) a = a. Proof. by ring. Qed.
End Ring2.

Section Map.
Variable F : finFieldType.
Variable c1 : nat.
Hypothesis hc : (c1 * 4 + 3 = #|F|)%N.
Hypothesis hI : forall a : F, a * a <> -1.
Hypothesis hsq : forall a : fp2 F, ((sqrtNew a).2 = true <-> exists b, mul2 b b = a) /\
  ((sqrtNew a).2 = true -> mul2 (sqrtNew a).1 (sqrtNew a).1 = a) /\ ((sqrtNew a).2 = false -> (sqrtNew a).1 = zero2 F).
Variables (p : sswuG2 F) (k : F).
Hypothesis hM : add2 (mul2 (gA p) (gMbDivA p)) (gB p) = zero2 F.
Hypothesis k0 : k <> 0.
Hypothesis hZ : nrm (gZ p) = - (k * k).
Variable s : F -> bool.
Hypothesis hs : forall y, y <> 0 -> s (- y) = ~~ s y.

Lemma sgn2N (y : fp2 F) : y <> zero2 F -> sgn2 s (neg2 y) = ~~ sgn2 s y.
Proof.
case: y => a b; rewrite /sgn2 /= oppr_eq0; case: (eqVneq a 0) => [-> h|/eqP h _]; rewrite ?andbT ?andbF ?orbF /=.
  by apply: hs => hb; apply: h; rewrite hb.
exact: hs.
Qed.
Lemma y_fix (u y : fp2 F) : let y' := cneg2 y y (sgn2 s u (+) sgn2 s y) in
  mul2 y' y' = mul2 y y /\ (y' <> zero2 F -> sgn2 s y' = sgn2 s u).
Proof.
rewrite /cneg2 /cmove /=; case e: (_ (+) _); last by split=> // _; move: e; case: (sgn2 s u); case: (sgn2 s y).
rewrite r23; split=> // h; rewrite sgn2N; first by move: e; case: (sgn2 s u); case: (sgn2 s y).
by move=> h0; apply: h; rewrite h0 /neg2 /= oppr0.
Qed.
Lemma nrm_nz (x : fp2 F) : x <> zero2 F -> nrm x <> 0.
Proof. by move=> h /(nrm0 hI). Qed.
Definition okp (u : fp2 F) (r : fp2 F * fp2 F) : Prop :=
  let: (x, y) := r in
  mul2 y y = add2 (mul2 (add2 (mul2 x x) (gA p)) x) (gB p) /\ (y <> zero2 F -> sgn2 s y = sgn2 s u).
Lemma map_ok (u : fp2 F) : u <> zero2 F -> okp u (sswu s p u).
Proof.
move=> u0; rewrite /okp /sswu; cbv zeta; move: hsq; move: (@sqrtNew F) => q hq; rewrite !square2E; set t := mul2 (mul2 u u) (gZ p).
have kn : nrm u * k <> 0 by move/eqP; rewrite mulf_eq0 => /orP [] /eqP // /(nrm_nz u0).
have tn : nrm t = - ((nrm u * k) * (nrm u * k)) by rewrite /t !nrmM hZ mulrN; congr (- _); rewrite mulrACA.
clearbody t.
have t0 : t <> zero2 F.
  move=> e; apply: kn; apply/eqP; move: tn; rewrite e /nrm /= !mul0r addr0 => /eqP.
  by rewrite eq_sym oppr_eq0 mulf_eq0 orbb.
have tt0 : add2 t (mul2 t t) <> zero2 F.
  rewrite r20 => /(mul2_eq0 hI) [] // /r21 e; apply: (hI (a := nrm u * k)).
  by apply/eqP; rewrite -eqr_oppLR -tn e /nrm /= oppr0 mulr0 addr0 mulrNN mulr1.
case: (invert2_ok hI (add2 t (mul2 t t)) tt0) => i [-> hi]; rewrite [(i, true).1]/=.
rewrite r22 in hi.
have i0 : isZero2 (add2 i (one2 F)) = false.
  apply/isZero2P => h; have e := cube_id hi h.
  apply: (nsq_neg hI kn (n := nrm (mul2 t t))); by rewrite -nrmM -e tn.
rewrite i0 [cmove (add2 i _) _ _]/=; set x1 := mul2 _ (gMbDivA p).
set gx1 := add2 (mul2 (add2 (mul2 x1 x1) (gA p)) x1) (gB p).
have := swu2_ident hM hi; cbv zeta; rewrite -/x1 => hid.
case e2: (q gx1).2; rewrite /cmove.
  have [h1 h2] := y_fix u (q gx1).1; split=> //; rewrite h1.
  by case: (hq gx1) => _ [h _]; apply: h.
set gx2 := mul2 gx1 _.
have [h1 h2] := y_fix u (q gx2).1; split=> //; rewrite h1.
have hg : gx2 = add2 (mul2 (add2 (mul2 (mul2 t x1) (mul2 t x1)) (gA p)) (mul2 t x1)) (gB p).
  by rewrite -hid /gx2 /gx1 dist2.
rewrite -hg; case: (hq gx2) => hq2 [h _]; apply: h; apply/hq2.
have [m hm] : exists m, nrm gx1 = - (m * m).
  apply: (nsq_half hc hI) => b hb; case: (hq gx1) => hq1 _.
  have : (q gx1).2 = true by apply/hq1; exists b.
  by rewrite e2.
set v := nrm u * k.
apply: (sq_norm hc hI (n := v * v * v * m)).
by rewrite /gx2 !nrmM hm tn -/v; exact: nn_alg.
Qed.
Lemma map_okE (u : fp2 F) : u <> zero2 F -> forall x y, sswu s p u = (x, y) ->
  mul2 y y = add2 (mul2 (add2 (mul2 x x) (gA p)) x) (gB p) /\ (y <> zero2 F -> sgn2 s y = sgn2 s u).
Proof. by move=> u0 x y e; have := map_ok u0; rewrite e /okp. Qed.
Lemma map_zero (m : F) : m <> 0 -> nrm (gMbDivA p) = - (m * m) -> sswu s p (zero2 F) = (zero2 F, zero2 F).
Proof.
move=> m0 hm; rewrite /sswu; cbv zeta; move: hsq; move: (@sqrtNew F) => q hq; rewrite !square2E !r25 r27 invert2_zero [(_, false).1]/= r27.
have -> : isZero2 (one2 F) = false by rewrite /isZero2 /= oner_eq0.
rewrite [cmove (one2 F) _ _]/= r28 (r24 hM) ?r25 ?r26.
have -> : (q (mul2 (gMbDivA p) (mul2 (gMbDivA p) (gMbDivA p)))).2 = false.
  apply/negbTE/negP => h; case: (hq (mul2 (gMbDivA p) (mul2 (gMbDivA p) (gMbDivA p)))) => hq1 _.
  case: (hq1.1 h) => b /(congr1 (@nrm F)); rewrite !nrmM hm mulrNN mulNr => e.
  have m3 : m * (m * m) <> 0 by move/eqP; rewrite !mulf_eq0 !orbb => /eqP.
  by apply: (nsq_neg hI m3 (n := nrm b)); rewrite e; congr (- _); rewrite mulrACA.
have hy : (q (zero2 F)).1 = zero2 F.
  case e : (q (zero2 F)).2; case: (hq (zero2 F)) => _ [h1 h2]; last exact: h2.
  by case: (mul2_eq0 hI (h1 e)).
by rewrite /cmove hy /cneg2 /cmove /neg2 /= oppr0; case: (_ (+) _).
Qed.
End Map.
