(** The simplified SWU map on a finite field with 3 mod 4 elements. *)
From mathcomp Require Import all_ssreflect all_algebra all_fingroup all_solvable all_field.
From Coq Require Import Ring_theory Field.
From Verif Require Import Lib.FieldTac Curves.SswuModel.
Set Implicit Arguments.
Unset Strict Implicit.
Unset Printing Implicit Defensive.
Import GRing.Theory.
Local Open Scope ring_scope.

Section Alg.
Variable K : fieldType.
Add Field K_field : (f_fth K).
Lemma swu_ident (A B t : K) : let xd := (t * t + t) * - A in let n := (1 + (t * t + t)) * B in
  ((t * n) * (t * n) + xd * xd * A) * (t * n) + xd * xd * xd * B =
  t ^+ 3 * ((n * n + xd * xd * A) * n + xd * xd * xd * B).
Proof. by move=> xd n; rewrite /xd /n; f_fold K; ring. Qed.
Lemma curve_div (A B n d g : K) : d <> 0 -> (n * n + d * d * A) * n + d * d * d * B = g ->
  (n * d^-1) ^+ 3 + A * (n * d^-1) + B = g * (d * d * d)^-1.
Proof. by move=> hd <-; f_fold K; field. Qed.
Lemma y1_alg (e g d : K) : (e * (g * d)) * (e * (g * d)) * d = g * (e * e * (d * d * (g * d))).
Proof. by f_fold K; ring. Qed.
Lemma gd_alg (d r w : K) : let D := d * d * d in w * w * D = r -> D * D * (r * D) = (w * D * D) * (w * D * D).
Proof. by move=> D <-; f_fold K; ring. Qed.
Lemma y2_alg (y c u Z g D : K) : D <> 0 -> y * y * D = - g -> c * c = - Z ^+ 3 ->
  (y * c * (u * u) * u) ^+ 2 = (Z * (u * u)) ^+ 3 * g * D^-1.
Proof.
move=> hD hy hc.
have -> : (y * c * (u * u) * u) ^+ 2 = (y * y * D) * (c * c) * ((u * u) ^+ 3) * D^-1.
  by f_fold K; field.
by rewrite hy hc; f_fold K; field.
Qed.
End Alg.

Section Fin.
Variable F : finFieldType.
Lemma halfE (c1 : nat) : (c1 * 4 + 3 = #|F|)%N -> forall a : F, a ^+ (c1 * 2 + 1) = 0 \/ a ^+ (c1 * 2 + 1) = 1 \/ a ^+ (c1 * 2 + 1) = -1.
Proof.
move=> hc a; case: (eqVneq a 0) => [->|a0]; first by left; rewrite expr0n addn1.
right; have h : a ^+ (c1 * 2 + 1) ^+ 2 = 1.
  have := expf_card a; rewrite -hc -exprM.
  have -> : (c1 * 4 + 3 = ((c1 * 2 + 1) * 2).+1)%N by rewrite mulnDl -mulnA -addnS.
  by rewrite exprS -{3}(mulr1 a) => /(mulfI a0).
by move/eqP: h; rewrite sqrf_eq1 => /orP [] /eqP; [left|right].
Qed.

(** what the parameters must satisfy *)
Record sswu_ok (p : sswu F) : Prop := {
  so_c1 : (s_C1 p * 4 + 3 = #|F|)%N;
  so_c2 : s_C2 p ^+ 2 = - s_Z p ^+ 3;
  so_A : s_A p <> 0;
  so_Z : s_Z p <> 0;
  so_exc : exists w, w ^+ 2 = (s_B p / (s_Z p * s_A p)) ^+ 3 + s_A p * (s_B p / (s_Z p * s_A p)) + s_B p }.
Record sgn_ok (sgn : F -> bool) : Prop := { sg_neg : forall y, y <> 0 -> sgn (- y) = ~~ sgn y }.

Lemma sqr_half c1 (a : F) : (c1 * 4 + 3 = #|F|)%N -> a <> 0 -> (a * a) ^+ (c1 * 2 + 1) = 1.
Proof.
move=> hc /eqP a0; rewrite -expr2 -exprM mulnC; have := expf_card a; rewrite -hc.
have -> : (c1 * 4 + 3 = ((c1 * 2 + 1) * 2).+1)%N by rewrite mulnDl -mulnA -addnS.
by rewrite exprS -{3}(mulr1 a) => /(mulfI a0).
Qed.

Lemma y1E c1 (g d : F) :
  ((d * d * (g * d)) ^+ c1 * (g * d)) * ((d * d * (g * d)) ^+ c1 * (g * d)) * d = g * (d * d * (g * d)) ^+ (c1 * 2 + 1).
Proof.
by rewrite exprD exprM expr1 expr2 y1_alg.
Qed.

Lemma sswu_core (p : sswu F) (u : F) : sswu_ok p ->
  let A := s_A p in let B := s_B p in
  let t := s_Z p * (u * u) in
  let n := (1 + (t * t + t)) * B in
  let xd0 := (t * t + t) * - A in
  let d := if xd0 == 0 then s_Z p * A else xd0 in
  let D := d * d * d in
  let g := (n * n + d * d * A) * n + D * B in
  let y1 := (D * D * (g * D)) ^+ s_C1 p * (g * D) in
  let e2 := y1 * y1 * D == g in
  let x := (if e2 then n else t * n) * d^-1 in
  let y := if e2 then y1 else y1 * s_C2 p * (u * u) * u in
  d <> 0 /\ y ^+ 2 = x ^+ 3 + A * x + B.
Proof.
move=> [hc c2 hA hZ [w hw]] A B t n xd0 d D g y1 e2 x y.
have d0 : d <> 0.
  rewrite /d; case: eqP => // _ /eqP; rewrite mulf_eq0 => /orP [] /eqP //.
have D0 : D <> 0 by move/eqP; rewrite !mulf_eq0 -!orbA !orbb => /eqP.
split=> //; rewrite /x /y; case e: e2; move: e; rewrite /e2 => /eqP h.
  by rewrite (curve_div d0 (erefl _)) -[d * d * d]/D -[X in _ = X * _]/g -h mulfK ?expr2 //; apply/eqP.
have hd : d = xd0.
  rewrite /d; case: eqP => // z0; case: h.
  have tt : t * t + t = 0.
    by move/eqP: z0; rewrite mulf_eq0 oppr_eq0 => /orP [] /eqP.
  have dE : d = s_Z p * A by rewrite /d; case: eqP.
  have nE : n = B by rewrite /n tt addr0 mul1r.
  have gE : w * w * D = g.
    by rewrite -expr2 hw -/A -/B -dE (curve_div d0 (erefl _)) -[d * d * d]/D -mulrA mulVf ?mulr1 /g ?nE //; apply/eqP.
  rewrite /y1 y1E (gd_alg gE).
  case: (eqVneq w 0) => [w0|w0]; first by rewrite -gE w0 !mul0r.
  rewrite sqr_half ?mulr1 //; apply/eqP; rewrite !mulf_neq0 //; exact/eqP.
have h1 : y1 * y1 * D = - g.
  move: h; rewrite /y1 y1E; case: (halfE hc (D * D * (g * D))) => [|[]] e; rewrite e.
  - have : D * D * (g * D) == 0 by have /eqP := e; rewrite expf_eq0 => /andP [].
    have hD : (D == 0) = false by apply/eqP.
    rewrite mulf_eq0 [D * D == 0]mulf_eq0 [g * D == 0]mulf_eq0 hD !orbF /= => /eqP ->.
    by rewrite mul0r.
  - by rewrite mulr1.
  - by rewrite mulrN1.
rewrite (@y2_alg _ _ _ u (s_Z p) g D D0 h1); last by rewrite -expr2.
have hn : (t * n * (t * n) + d * d * A) * (t * n) + d * d * d * B = t ^+ 3 * g.
  by rewrite /g /D hd /xd0 /n swu_ident.
by rewrite (curve_div d0 hn).
Qed.

Lemma osswuE sgn (p : sswu F) u : sswu_ok p ->
  osswu3mod4 sgn p u = g1_osswu3mod4 sgn p u.
Proof.
move=> ok; have [d0 _] := sswu_core u ok.
rewrite /osswu3mod4 /g1_osswu3mod4 /select /finv /=.
rewrite [_ + 1]addrC ![- s_A p * _]mulrC ![s_B p * _]mulrC.
move/eqP/negPf: d0 => ->.
rewrite [_^-1 * _]mulrC; congr (_, _).
by case: (sgn u); case: (sgn _).
Qed.

Lemma sswu_curve sgn (p : sswu F) u : sswu_ok p ->
  let: (x, y) := osswu3mod4 sgn p u in y ^+ 2 = x ^+ 3 + s_A p * x + s_B p.
Proof.
move=> ok; have [d0 hh] := sswu_core u ok.
rewrite /osswu3mod4 /select /finv /=; move/eqP/negPf: (d0) => ->.
move: hh => /= <-.
by case: ifP => _; rewrite ?sqrrN.
Qed.

Lemma sswu_sign sgn (p : sswu F) u : sgn_ok sgn -> sswu_ok p ->
  let: (x, y) := osswu3mod4 sgn p u in y <> 0 -> sgn y = sgn u.
Proof.
move=> sok ok; have [d0 _] := sswu_core u ok.
rewrite /osswu3mod4 /select /finv /=; move/eqP/negPf: (d0) => ->.
set y := (X in if sgn u != sgn X then _ else _).
case h: (sgn u != sgn y) => hy.
  by rewrite (sg_neg sok) => [|y0]; [move: h; case: (sgn u); case: (sgn y)|apply: hy; rewrite y0 oppr0].
by move/negbFE/eqP: h.
Qed.
End Fin.
