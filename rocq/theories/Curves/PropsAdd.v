(** C44: the addition, doubling, negation, subtraction, equality and membership code of the curve types computes the
    chord-and-tangent law, without exceptional cases. *)
From mathcomp Require Import all_ssreflect all_algebra.
From Coq Require Import Field.
From Verif Require Import Lib.FieldTac Curves.AddSpec Curves.AddModel Curves.AddProofs.
Set Implicit Arguments.
Unset Strict Implicit.
Unset Printing Implicit Defensive.
Import GRing.Theory.
Local Open Scope ring_scope.

Section Props.
Variable F : fieldType.
Add Field F_field : (f_fth F).
Implicit Types p q : pt F.

Lemma unscale p : pZ p != 0 -> p = Pt (pX p / pZ p * pZ p) (pY p / pZ p * pZ p) (pZ p).
Proof. by case: p => x y z /= hz; rewrite !divfK. Qed.

Lemma rep_some p : pZ p != 0 -> rep p = Some (pX p / pZ p, pY p / pZ p).
Proof. by rewrite /rep => /negbTE ->. Qed.

Lemma rep_scaled (k x y z : F) : k != 0 -> z != 0 -> rep (Pt (k * x) (k * y) (k * z)) = Some (x / z, y / z).
Proof. by move=> hk hz; rewrite /rep /= mulf_eq0 (negbTE hk) (negbTE hz) /= -!mulf_div divff // !mul1r. Qed.

(** a function computing the generic formulas on scaled affine coordinates *)
Definition homog (a b : F) (f : pt F -> pt F -> pt F) : Prop :=
  forall x1 y1 z1 x2 y2 z2 : F,
    f (Pt (x1 * z1) (y1 * z1) z1) (Pt (x2 * z2) (y2 * z2) z2) =
    let k := (z1 * z2) ^+ 2 in
    Pt (k * rX a b x1 y1 x2 y2) (k * rY a b x1 y1 x2 y2) (k * rZ a b x1 y1 x2 y2).

Lemma homog_law a b f p q :
  (2%:R : F) != 0 -> no_two_torsion a b -> homog a b f ->
  pZ p != 0 -> pZ q != 0 -> on_curve a b (rep p) -> on_curve a b (rep q) ->
  rep (f p q) = aadd a (rep p) (rep q) /\ (pZ (f p q) = 0 -> pX (f p q) = 0 /\ pY (f p q) != 0).
Proof.
move=> two no2 hf hp hq.
have := hf (pX p / pZ p) (pY p / pZ p) (pZ p) (pX q / pZ q) (pY q / pZ q) (pZ q).
rewrite -(unscale hp) -(unscale hq) (rep_some hp) (rep_some hq) => ->; cbv zeta; rewrite ![pZ (Pt _ _ _)]/= ![pX (Pt _ _ _)]/= ![pY (Pt _ _ _)]/=.
move: (pX p / pZ p) (pY p / pZ p) (pX q / pZ q) (pY q / pZ q) => x1 y1 x2 y2 h1 h2.
have hk : (pZ p * pZ q) ^+ 2 != 0 by rewrite expf_neq0 // mulf_neq0.
case: (boolP ((x1 == x2) && (y1 == - y2))) => hn.
  rewrite aadd_slope hn; move/andP: hn => [/eqP ex /eqP ey].
  have [eX eZ eY] := rcb_inverse two no2 h1.
  have -> : y2 = - y1 by rewrite ey opprK.
  rewrite -ex eX eZ !mulr0; split; first by rewrite /rep eqxx.
  by move=> _; split=> //; rewrite mulf_neq0.
have [hz ->] := rcb_generic two no2 h1 h2 hn.
rewrite rep_scaled //; split=> // /eqP; by rewrite mulf_eq0 (negbTE hk) (negbTE hz).
Qed.

Lemma homog_k256 b : homog 0 b (k256_formula b).
Proof. by move=> *; rewrite /k256_formula /rX /rY /rZ /=; congr Pt; f_fold F; ring. Qed.
Lemma homog_p256 b : homog (- 3%:R) b (p256_formula b).
Proof. by move=> *; rewrite /p256_formula /rX /rY /rZ /=; congr Pt; f_fold F; ring. Qed.
Lemma homog_bls b mul3b : (forall x, mul3b x = 3%:R * b * x) -> homog 0 b (bls_add mul3b).
Proof. by move=> h x1 y1 z1 x2 y2 z2; rewrite /bls_add /rX /rY /rZ /= !h; congr Pt; f_fold F; ring. Qed.

Lemma select_law a p q r :
  (pZ p != 0 -> pZ q != 0 -> rep r = aadd a (rep p) (rep q)) ->
  rep (select_identity p q r) = aadd a (rep p) (rep q).
Proof.
rewrite /select_identity /is_identity => h.
case: (pZ q =P 0) => [q0|/eqP hq].
  have -> : rep q = None by rewrite /rep q0 eqxx.
  by case: (rep p) => [[]|].
case: (pZ p =P 0) => [p0|/eqP hp]; last exact: h.
by have -> : rep p = None by rewrite /rep p0 eqxx.
Qed.

(** K-256: for all triples standing for points of the curve y^2 = x^3 + b, the sum is the sum *)
Theorem C44_k256_add (b : F) p q :
  (2%:R : F) != 0 -> no_two_torsion 0 b -> on_curve 0 b (rep p) -> on_curve 0 b (rep q) ->
  rep (k256_add b p q) = aadd 0 (rep p) (rep q) /\ on_curve 0 b (rep (k256_add b p q)).
Proof.
move=> two no2 h1 h2.
have e : rep (k256_add b p q) = aadd 0 (rep p) (rep q).
  by apply: select_law => hp hq; apply: (homog_law two no2 (@homog_k256 b) hp hq h1 h2).1.
by rewrite e; split=> //; apply: aadd_on_curve.
Qed.

(** P-256: the same on y^2 = x^3 - 3 x + b *)
Theorem C44_p256_add (b : F) p q :
  (2%:R : F) != 0 -> no_two_torsion (- 3%:R) b -> on_curve (- 3%:R) b (rep p) -> on_curve (- 3%:R) b (rep q) ->
  rep (p256_add b p q) = aadd (- 3%:R) (rep p) (rep q) /\ on_curve (- 3%:R) b (rep (p256_add b p q)).
Proof.
move=> two no2 h1 h2.
have e : rep (p256_add b p q) = aadd (- 3%:R) (rep p) (rep q).
  by apply: select_law => hp hq; apply: (homog_law two no2 (@homog_p256 b) hp hq h1 h2).1.
by rewrite e; split=> //; apply: aadd_on_curve.
Qed.

Lemma curve_eq a b p : pZ p != 0 -> on_curve a b (rep p) ->
  pY p ^+ 2 * pZ p = pX p ^+ 3 + a * pX p * pZ p ^+ 2 + b * pZ p ^+ 3.
Proof.
move=> hz; rewrite (rep_some hz) /= => h.
have -> : pY p ^+ 2 * pZ p = (pY p / pZ p) ^+ 2 * pZ p ^+ 3 by f_fold F; field; f_side.
by rewrite h; f_fold F; field; f_side.
Qed.

Lemma double_law a b (dbl : pt F -> pt F) f p :
  (2%:R : F) != 0 -> no_two_torsion a b -> homog a b f ->
  (pZ p = 0 -> pZ (dbl p) = 0) ->
  (forall x y z, z != 0 -> y ^+ 2 = x ^+ 3 + a * x + b -> let P := Pt (x * z) (y * z) z in dbl P = f P P) ->
  on_curve a b (rep p) -> rep (dbl p) = aadd a (rep p) (rep p).
Proof.
move=> two no2 hf h0 hd h1.
case: (pZ p =P 0) => [z0|/eqP hz]; first by rewrite /rep (h0 z0) z0 eqxx.
rewrite -(homog_law two no2 hf hz hz h1 h1).1; congr rep.
have := hd (pX p / pZ p) (pY p / pZ p) (pZ p) hz; rewrite -(unscale hz) /=; apply.
by move: h1; rewrite (rep_some hz).
Qed.

Theorem C44_k256_double (b : F) p :
  (2%:R : F) != 0 -> no_two_torsion 0 b -> on_curve 0 b (rep p) ->
  rep (k256_double b p) = aadd 0 (rep p) (rep p) /\ on_curve 0 b (rep (k256_double b p)).
Proof.
move=> two no2 h.
have e : rep (k256_double b p) = aadd 0 (rep p) (rep p).
  apply: (double_law two no2 (@homog_k256 b)) h => [z0|x y z hz hc /=]; first by rewrite /k256_double /= z0 mulr0 !addr0.
  have hb : b = y ^+ 2 - x ^+ 3 by rewrite hc; f_fold F; ring.
  by rewrite /k256_double /k256_formula /= hb; congr Pt; f_fold F; ring.
by rewrite e; split=> //; apply: aadd_on_curve.
Qed.

Theorem C44_p256_double (b : F) p :
  (2%:R : F) != 0 -> no_two_torsion (- 3%:R) b -> on_curve (- 3%:R) b (rep p) ->
  rep (p256_double b p) = aadd (- 3%:R) (rep p) (rep p) /\ on_curve (- 3%:R) b (rep (p256_double b p)).
Proof.
move=> two no2 h.
have e : rep (p256_double b p) = aadd (- 3%:R) (rep p) (rep p).
  apply: (double_law two no2 (@homog_p256 b)) h => [z0|x y z hz hc /=].
    by rewrite /p256_double /= z0 !mulr0 !addr0 !mul0r !addr0.
  have hb : b = y ^+ 2 - x ^+ 3 + 3%:R * x by rewrite hc; f_fold F; ring.
  by rewrite /p256_double /p256_formula /= hb; congr Pt; f_fold F; ring.
by rewrite e; split=> //; apply: aadd_on_curve.
Qed.

(** a point of the projective curve: not all coordinates vanish and they satisfy the homogeneous equation *)
Definition proj_point (b : F) p : Prop :=
  pY p ^+ 2 * pZ p = pX p ^+ 3 + b * pZ p ^+ 3 /\ ~ (pX p = 0 /\ pY p = 0 /\ pZ p = 0).

Lemma proj_inf b p : proj_point b p -> pZ p = 0 -> pX p = 0 /\ pY p != 0.
Proof.
move=> [h hn] z0; move: h; rewrite z0 mulr0 expr0n mulr0 addr0 => /esym/eqP.
rewrite expf_eq0 /= => /eqP x0; split=> //; apply/eqP => y0; exact: hn.
Qed.

Lemma proj_aff b p : proj_point b p -> on_curve 0 b (rep p).
Proof.
move=> [h _]; rewrite /rep; case: (pZ p =P 0) => [//|/eqP hz] /=.
have -> : (pY p / pZ p) ^+ 2 = (pY p ^+ 2 * pZ p) / pZ p ^+ 3 by f_fold F; field; f_side.
by rewrite h; f_fold F; field; f_side.
Qed.

Lemma aff_proj b p : pZ p != 0 -> on_curve 0 b (rep p) -> proj_point b p.
Proof.
move=> hz h; split; last by move=> [_ [_ /eqP]]; rewrite (negbTE hz).
by rewrite (curve_eq hz h); f_fold F; ring.
Qed.

(** BLS12-381 G1 and G2: no selection is needed, the formula covers the identity too *)
Theorem C44_bls_add (b : F) (mul3b : F -> F) p q :
  (2%:R : F) != 0 -> no_two_torsion 0 b -> (forall x, mul3b x = 3%:R * b * x) ->
  proj_point b p -> proj_point b q ->
  rep (bls_add mul3b p q) = aadd 0 (rep p) (rep q) /\ proj_point b (bls_add mul3b p q).
Proof.
move=> two no2 hm hp hq.
have inf P Q (r := bls_add mul3b P Q) : pZ P = 0 -> proj_point b P -> proj_point b Q ->
    [/\ r = Pt (pY P ^+ 2 * pY Q * pX Q) (pY P ^+ 2 * pY Q * pY Q) (pY P ^+ 2 * pY Q * pZ Q),
        pY P ^+ 2 * pY Q != 0, rep r = rep Q & proj_point b r].
  move=> z0 hP hQ; have [x0 y0] := proj_inf hP z0.
  have e : r = Pt (pY P ^+ 2 * pY Q * pX Q) (pY P ^+ 2 * pY Q * pY Q) (pY P ^+ 2 * pY Q * pZ Q).
    by rewrite /r /bls_add /= !hm z0 x0; congr Pt; f_fold F; ring.
  have hyQ : pY Q != 0.
    case: (pZ Q =P 0) => [zq|/eqP zq]; first by case: (proj_inf hQ zq).
    have := proj_aff hQ; rewrite (rep_some zq) => /(y_neq0 no2).
    by rewrite mulf_eq0 negb_or => /andP[].
  have hk : pY P ^+ 2 * pY Q != 0 by rewrite mulf_neq0 // expf_neq0.
  have er : rep r = rep Q.
    rewrite e; move: hk; generalize (pY P ^+ 2 * pY Q) => k hk.
    case: (pZ Q =P 0) => [zq|/eqP zq]; first by rewrite /rep /= zq mulr0 eqxx.
    by rewrite rep_scaled // (rep_some zq).
  split=> //; case: (pZ Q =P 0) => [zq|/eqP zq].
    have [xq yq] := proj_inf hQ zq.
    rewrite e zq xq; split; first by rewrite /= !mulr0 !expr0n /= !mulr0 addr0.
    by move=> [_ [/= /eqP]]; rewrite mulf_eq0 (negbTE hk) (negbTE yq).
  by apply: aff_proj; [rewrite e /= mulf_neq0|rewrite er; apply: proj_aff].
case: (pZ p =P 0) => [p0|/eqP p0].
  have [_ _ -> hpr] := inf p q p0 hp hq; split=> //.
  by have -> : rep p = None by rewrite /rep p0 eqxx.
case: (pZ q =P 0) => [q0|/eqP q0].
  have c : bls_add mul3b p q = bls_add mul3b q p by rewrite /bls_add /= !hm; congr Pt; f_fold F; ring.
  rewrite c; have [_ _ -> hpr] := inf q p q0 hq hp; split=> //.
  have -> : rep q = None by rewrite /rep q0 eqxx.
  by rewrite /aadd; case: (rep p) => [[]|].
have h := homog_law two no2 (homog_bls hm) p0 q0 (proj_aff hp) (proj_aff hq); have [e hz] := h.
split=> //; case: (pZ (bls_add mul3b p q) =P 0) => [z0|/eqP z0].
  have [x0 y0] := hz z0; split; first by rewrite x0 z0 mulr0 !expr0n /= mulr0 addr0.
  by move=> [_ [y1 _]]; rewrite y1 eqxx in y0.
by apply: aff_proj => //; rewrite e; apply: aadd_on_curve => //; apply: proj_aff.
Qed.

Theorem C44_bls_double (b : F) (mul3b : F -> F) p :
  (2%:R : F) != 0 -> no_two_torsion 0 b -> (forall x, mul3b x = 3%:R * b * x) -> proj_point b p ->
  rep (bls_double mul3b p) = aadd 0 (rep p) (rep p) /\ proj_point b (bls_double mul3b p).
Proof.
move=> two no2 hm hp.
case: (pZ p =P 0) => [z0|/eqP hz].
  have -> : bls_double mul3b p = Pt 0 1 0 by rewrite /bls_double /is_identity z0 eqxx.
  rewrite /rep /= z0 !eqxx; split=> //; split; first by rewrite /= mulr0 !expr0n /= mulr0 addr0.
  by move=> [_ [/= /eqP]]; rewrite oner_eq0.
have [e hr] := C44_bls_add two no2 hm hp hp.
suff -> : bls_double mul3b p = bls_add mul3b p p by [].
have hc := proj_aff hp; rewrite (rep_some hz) /= in hc.
have := unscale hz; move: (pX p / pZ p) (pY p / pZ p) hc => x y hc; move: (pZ p) hz => z hz ->.
have hb : b = y ^+ 2 - x ^+ 3 by rewrite hc; f_fold F; ring.
by rewrite /bls_double /bls_add /is_identity /= (negbTE hz) !hm hb; congr Pt; f_fold F; ring.
Qed.

(** the two implementations of MulBy3b: G1 has b = 4, G2 multiplies by a constant that has to be 3 b *)
Theorem C44_mul3b (b c x : F) :
  fp_mul3b x = 3%:R * 4%:R * x /\ (c = 3%:R * b -> fp2_mul3b c x = 3%:R * b * x).
Proof. by split=> [|->]; rewrite /fp_mul3b /fp2_mul3b; f_fold F; ring. Qed.

(** negation and subtraction *)
Theorem C44_neg p : rep (native_neg p) = aneg (rep p) /\ rep (bls_neg p) = aneg (rep p).
Proof.
rewrite /rep /native_neg /bls_neg /is_identity /=; case: (pZ p =P 0) => //= _.
by rewrite mulNr.
Qed.

Theorem C44_bls_neg_valid b p : proj_point b p -> proj_point b (bls_neg p).
Proof.
rewrite /proj_point /bls_neg /is_identity /=; case: (pZ p =P 0) => // hz [h hn]; rewrite sqrrN; split=> //.
by move=> [x0 [y0 z0]]; apply: hn.
Qed.

Theorem C44_sub (a b : F) add p q :
  (forall p q, on_curve a b (rep p) -> on_curve a b (rep q) -> rep (add p q) = aadd a (rep p) (rep q)) ->
  on_curve a b (rep p) -> on_curve a b (rep q) ->
  rep (method_sub add false p q) = aadd a (rep p) (aneg (rep q)).
Proof. by move=> h hp hq; rewrite /method_sub h // (C44_neg q).1 //; apply: aneg_on_curve. Qed.

(** a receiver that is also the second operand is overwritten before it is read: [p.Add(q, p)] is q + q and
    [p.Sub(q, p)] is the identity, whatever p was *)
Theorem C44_alias_refuted (a b : F) add p q :
  (forall p q, on_curve a b (rep p) -> on_curve a b (rep q) -> rep (add p q) = aadd a (rep p) (rep q)) ->
  on_curve a b (rep q) ->
  rep (method_add add true q p) = aadd a (rep q) (rep q) /\ rep (method_sub add true q p) = None.
Proof.
move=> h hq; rewrite /method_add /method_sub !h ?(C44_neg q).1 //; try exact: aneg_on_curve.
split=> //; case: (rep q) => [[x y]|] //=; by rewrite eqxx opprK eqxx.
Qed.

(** equality is equality of the points, for any triples *)
Theorem C44_equal p q : pt_equal p q = (rep p == rep q).
Proof.
rewrite /pt_equal /rep; case: (pZ p =P 0) => [p0|/eqP p0]; case: (pZ q =P 0) => [q0|/eqP q0] //=.
by rewrite (inj_eq (@Some_inj _)) xpair_eqE (eqr_div _ _ p0 q0) (eqr_div _ _ p0 q0).
Qed.

(** IsOnCurve of K-256 and P-256: exact for points with Z <> 0; the identity itself is reported off the curve *)
Theorem C44_on_curve (a b : F) p :
  (pZ p != 0 -> native_on_curve a b p <-> on_curve a b (rep p)) /\
  (pZ p = 0 -> native_on_curve a b p = (b == 0)).
Proof.
rewrite /native_on_curve /to_affine /rhs_eq /rep; split=> [hz|->]; last first.
  by rewrite eqxx /= !mulr0 add0r addr0 eq_sym.
rewrite (negbTE hz) /= (_ : _ + a * _ = (pX p / pZ p) ^+ 3 + a * (pX p / pZ p) + b); last by f_fold F; ring.
by rewrite -expr2; split=> /eqP.
Qed.

Theorem C44_bls_on_curve (b : F) p :
  bls_on_curve b p <-> (pZ p != 0 /\ on_curve 0 b (rep p)) \/ (pZ p = 0 /\ pX p = 0).
Proof.
have e : bls_on_curve b p = (pY p ^+ 2 * pZ p == pX p ^+ 3 + b * pZ p ^+ 3).
  by rewrite /bls_on_curve; congr (_ == _); f_fold F; ring.
rewrite e; split=> [/eqP h|[[hz h]|[z0 x0]]].
- case: (pZ p =P 0) => [z0|/eqP hz]; [right; split=> //|left; split=> //].
    by move: h; rewrite z0 mulr0 expr0n mulr0 addr0 => /esym/eqP; rewrite expf_eq0 => /eqP.
  by apply: proj_aff; split=> // -[_ [_ /eqP]]; rewrite (negbTE hz).
- by apply/eqP; case: (aff_proj hz h).
- by rewrite z0 x0 mulr0 !expr0n /= mulr0 addr0.
Qed.

(** ToAffine normalises: same point, Z = 1 (or all zeros for the identity) *)
Theorem C44_to_affine p :
  rep (to_affine p) = rep p /\ pZ (to_affine p) = (if pZ p == 0 then 0 else 1).
Proof.
rewrite /to_affine; case: (pZ p =P 0) => [z0|/eqP hz]; rewrite /rep /= ?eqxx ?z0 ?eqxx //.
by rewrite oner_eq0 (negbTE hz) !divr1.
Qed.

(** Pallas uses Jacobian coordinates *)
Definition rep_jac p : apoint F :=
  if pZ p == 0 then None else Some (pX p / pZ p ^+ 2, pY p / pZ p ^+ 3).

Lemma jac_unscale p : pZ p != 0 -> p = Pt (pX p / pZ p ^+ 2 * pZ p ^+ 2) (pY p / pZ p ^+ 3 * pZ p ^+ 3) (pZ p).
Proof. by case: p => x y z /= hz; rewrite !divfK ?expf_neq0. Qed.

Lemma jac_some p : pZ p != 0 -> rep_jac p = Some (pX p / pZ p ^+ 2, pY p / pZ p ^+ 3).
Proof. by rewrite /rep_jac => /negbTE ->. Qed.

Theorem C44_pallas_double p :
  (2%:R : F) != 0 -> rep_jac (pallas_double p) = aadd 0 (rep_jac p) (rep_jac p).
Proof.
move=> two; case: (pZ p =P 0) => [z0|/eqP hz].
  by rewrite /pallas_double /is_identity z0 eqxx /rep_jac z0 eqxx.
rewrite (jac_some hz); have := jac_unscale hz.
move: (pX p / _) (pY p / _) => x y; move: (pZ p) hz => z hz ->.
rewrite /pallas_double /is_identity /= (negbTE hz) /rep_jac /= eqxx /=.
have -> : y * z ^+ 3 * z + y * z ^+ 3 * z = (2%:R * y) * z ^+ 4 by f_fold F; ring.
have -> : (y == - y) = (y == 0).
  by rewrite -subr_eq0 opprK -mulr2n -mulr_natl mulf_eq0 (negbTE two).
rewrite mulf_eq0 [2%:R * y == 0]mulf_eq0 (negbTE two) (negbTE (expf_neq0 4 hz)) /= orbF.
case: (y =P 0) => [//|/eqP hy]; rewrite /chord.
by congr Some; congr pair; f_fold F; field; f_side.
Qed.


Theorem C44_pallas_add (b : F) p q :
  (2%:R : F) != 0 -> no_two_torsion 0 b -> on_curve 0 b (rep_jac p) -> on_curve 0 b (rep_jac q) ->
  rep_jac (pallas_add p q) = aadd 0 (rep_jac p) (rep_jac q) /\ on_curve 0 b (rep_jac (pallas_add p q)).
Proof.
move=> two no2 h1 h2.
suff e : rep_jac (pallas_add p q) = aadd 0 (rep_jac p) (rep_jac q) by rewrite e; split=> //; apply: aadd_on_curve.
case: (pZ p =P 0) => [p0|/eqP hp].
  by rewrite /pallas_add /is_identity p0 eqxx {2}/rep_jac p0 eqxx.
case: (pZ q =P 0) => [q0|/eqP hq].
  rewrite /pallas_add /is_identity q0 eqxx (negbTE hp) [rep_jac q]/rep_jac q0 eqxx.
  by case: (rep_jac p) => [[]|].
move: h1 h2; rewrite (jac_some hp) (jac_some hq).
have ep := jac_unscale hp; have eq := jac_unscale hq; move: ep eq (C44_pallas_double p two); rewrite (jac_some hp).
move: (pX p / _) (pY p / _) (pX q / _) (pY q / _) => x1 y1 x2 y2 ep eq hdbl h1 h2.
rewrite /pallas_add /is_identity (negbTE hp) (negbTE hq).
have eu : (pX p * (pZ q * pZ q) == pX q * (pZ p * pZ p)) = (x1 == x2).
  rewrite ep eq /=; have -> : x1 * pZ p ^+ 2 * (pZ q * pZ q) = x1 * (pZ p * pZ q) ^+ 2 by f_fold F; ring.
  have -> : x2 * pZ q ^+ 2 * (pZ p * pZ p) = x2 * (pZ p * pZ q) ^+ 2 by f_fold F; ring.
  by rewrite (inj_eq (mulIf _)) // expf_neq0 // mulf_neq0.
have es : (pY p * (pZ q * pZ q) * pZ q == pY q * (pZ p * pZ p) * pZ p) = (y1 == y2).
  rewrite ep eq /=; have -> : y1 * pZ p ^+ 3 * (pZ q * pZ q) * pZ q = y1 * (pZ p * pZ q) ^+ 3 by f_fold F; ring.
  have -> : y2 * pZ q ^+ 3 * (pZ p * pZ p) * pZ p = y2 * (pZ p * pZ q) ^+ 3 by f_fold F; ring.
  by rewrite (inj_eq (mulIf _)) // expf_neq0 // mulf_neq0.
cbv zeta; rewrite eu es.
case: (x1 =P x2) => [ex|/eqP hx].
  rewrite -ex in h2 *; case: (y1 =P y2) => [ey|/eqP hy]; first by rewrite hdbl ey.
  rewrite /aadd eqxx /=.
  case: (y1 =P - y2) => [_|/eqP hn]; first by rewrite /rep_jac eqxx.
  by rewrite (same_x h1 h2 hn) eqxx in hy.
rewrite /aadd hx /chord ep eq /=.
have hd : x2 - x1 != 0 by rewrite subr_eq0 eq_sym.
move: (pZ p) hp (pZ q) hq hd => z hz w hw hd.
rewrite /rep_jac /=.
have e3 : ((z + w) * (z + w) - z * z - w * w) * (x2 * w ^+ 2 * (z * z) - x1 * z ^+ 2 * (w * w))
  = 2%:R * (z * w) ^+ 3 * (x2 - x1) by f_fold F; ring.
rewrite e3 (negbTE (mulf_neq0 (mulf_neq0 two (expf_neq0 3 (mulf_neq0 hz hw))) hd)).
by congr Some; congr pair; f_fold F; field; f_side.
Qed.

(** Pallas: equality for points of the curve, and membership; unlike the other curves the identity is on the curve *)
Theorem C44_pallas_equal (b : F) p q :
  b != 0 -> on_curve 0 b (rep_jac p) -> on_curve 0 b (rep_jac q) -> pallas_equal p q = (rep_jac p == rep_jac q).
Proof.
have aff r : pallas_affine r = if rep_jac r is Some (x, y) then Pt x y 1 else Pt 0 0 1.
  rewrite /pallas_affine /rep_jac /is_identity; case: (pZ r =P 0) => // /eqP hz.
  by congr Pt; f_fold F; field; f_side.
move=> hb; rewrite /pallas_equal !aff.
have inf x y : on_curve 0 b (Some (x, y)) -> ~ (x = 0 /\ y = 0).
  move=> /= h [x0 y0]; move: h; rewrite x0 y0 !expr0n /= mulr0 !add0r => /esym/eqP; by rewrite (negbTE hb).
case: (rep_jac p) => [[x y]|]; case: (rep_jac q) => [[x' y']|] h1 h2 /=; rewrite ?eqxx //.
- by apply/negbTE/negP => /andP[/eqP e1 /eqP e2]; case: (inf _ _ h1).
- by apply/negbTE/negP => /andP[/eqP e1 /eqP e2]; case: (inf _ _ h2).
Qed.

Theorem C44_pallas_on_curve p : pallas_on_curve p <-> on_curve 0 5%:R (rep_jac p).
Proof.
rewrite /pallas_on_curve /rep_jac; case: (pZ p =P 0) => //= /eqP hz.
have e6 : pZ p ^+ 6 != 0 by rewrite expf_neq0.
rewrite -(inj_eq (mulIf (invr_neq0 e6))).
rewrite (_ : _ / _ = (pY p / pZ p ^+ 3) ^+ 2); last by f_fold F; field; f_side.
rewrite (_ : (5%:R * _ + _) / _ = (pX p / pZ p ^+ 2) ^+ 3 + 0 * (pX p / pZ p ^+ 2) + 5%:R); last by f_fold F; field; f_side.
by split=> /eqP.
Qed.
End Props.

(** The hypotheses are met, with generic sums, doublings, inverse pairs and the identity among the operands.  The fields
    and curves of the examples are small; on the real curves the groups have odd order, so no point has order two. *)
Definition f7 (n : nat) : 'F_7 := n%:R.

Lemma all7 (P : 'F_7 -> bool) : all (fun n => P (f7 n)) (iota 0 7) -> forall x, P x.
Proof.
move=> h x; have -> : x = f7 (val x) by rewrite /f7 natr_Zp.
by move/allP: h; apply; rewrite mem_iota /=; case: x.
Qed.

Lemma no2_k7 : no_two_torsion (0 : 'F_7) 3%:R.
Proof. by move=> x; apply/eqP; move: x; apply: all7; vm_compute. Qed.
Lemma no2_p7 : no_two_torsion (- 3%:R : 'F_7) 1.
Proof. by move=> x; apply/eqP; move: x; apply: all7; vm_compute. Qed.
Lemma no2_b7 : no_two_torsion (0 : 'F_7) 4%:R.
Proof. by move=> x; apply/eqP; move: x; apply: all7; vm_compute. Qed.
Lemma no2_l7 : no_two_torsion (0 : 'F_7) 5%:R.
Proof. by move=> x; apply/eqP; move: x; apply: all7; vm_compute. Qed.

Definition pt7 (x y z : nat) : pt [fieldType of 'F_7] := Pt (f7 x) (f7 y) (f7 z).
Lemma two7 : (2%:R : 'F_7) != 0. Proof. by []. Qed.

(** y^2 = x^3 + 3: (1, 2) = (2 : 4 : 2), (2, 2), (1, 5), identity with stray coordinates *)
Example C44_k256_hyps :
  [/\ on_curve 0 3%:R (rep (pt7 2 4 2)), on_curve 0 3%:R (rep (pt7 2 2 1)), on_curve 0 3%:R (rep (pt7 1 5 1)),
      on_curve 0 3%:R (rep (pt7 4 6 0))
    & [/\ rep (k256_add 3%:R (pt7 2 4 2) (pt7 2 2 1)) == Some (f7 4, f7 5),
          rep (k256_add 3%:R (pt7 2 4 2) (pt7 1 5 1)) == None,
          rep (k256_add 3%:R (pt7 2 4 2) (pt7 4 6 0)) == Some (f7 1, f7 2),
          rep (k256_double 3%:R (pt7 2 4 2)) == Some (f7 6, f7 3)
        & rep (k256_add 3%:R (pt7 2 4 2) (pt7 1 2 1)) == Some (f7 6, f7 3)]].
Proof. by split; try (by apply/eqP); split; vm_compute. Qed.

(** y^2 = x^3 - 3 x + 1: (0, 1) = (0 : 3 : 3), (4, 5) *)
Example C44_p256_hyps :
  [/\ on_curve (- 3%:R) 1 (rep (pt7 0 3 3)), on_curve (- 3%:R) 1 (rep (pt7 4 5 1)), on_curve (- 3%:R) 1 (rep (pt7 0 6 1))
    & [/\ rep (p256_add 1 (pt7 0 3 3) (pt7 4 5 1)) == Some (f7 4, f7 2),
          rep (p256_add 1 (pt7 0 3 3) (pt7 0 6 1)) == None
        & rep (p256_double 1 (pt7 0 3 3)) == Some (f7 4, f7 5)]].
Proof. by split; try (by apply/eqP); split; vm_compute. Qed.

(** the BLS formulas on y^2 = x^3 + 3 (constant 9), with the identity (0 : 4 : 0) *)
Example C44_bls_hyps :
  [/\ bls_on_curve 3%:R (pt7 2 4 2), bls_on_curve 3%:R (pt7 0 4 0), bls_on_curve 3%:R (pt7 2 2 1)
    & [/\ rep (bls_add (fp2_mul3b 9%:R) (pt7 2 4 2) (pt7 2 2 1)) == Some (f7 4, f7 5),
          rep (bls_add (fp2_mul3b 9%:R) (pt7 2 4 2) (pt7 0 4 0)) == Some (f7 1, f7 2),
          rep (bls_add (fp2_mul3b 9%:R) (pt7 2 4 2) (pt7 1 5 1)) == None
        & rep (bls_double (fp2_mul3b 9%:R) (pt7 2 4 2)) == Some (f7 6, f7 3)]].
Proof. by split; try (by vm_compute); split; vm_compute. Qed.

Example C44_bls_proj : proj_point 3%:R (pt7 2 4 2) /\ proj_point 3%:R (pt7 0 4 0).
Proof. by split; split; try (by apply/eqP); move=> [_ [/eqP]]. Qed.

(** y^2 = x^3 + 5 in Jacobian coordinates: (3, 2) = (3 * 4 : 2 * 8 : 2) *)
Example C44_pallas_hyps :
  [/\ pallas_on_curve (pt7 5 2 2), pallas_on_curve (pt7 5 5 1), pallas_on_curve (pt7 1 1 0)
    & [/\ rep_jac (pallas_add (pt7 5 2 2) (pt7 5 5 1)) == Some (f7 3, f7 5),
          rep_jac (pallas_add (pt7 5 2 2) (pt7 3 2 1)) == Some (f7 5, f7 2),
          rep_jac (pallas_add (pt7 5 2 2) (pt7 3 5 1)) == None
        & rep_jac (pallas_double (pt7 5 2 2)) == Some (f7 5, f7 2)]].
Proof. by split; try (by vm_compute); split; vm_compute. Qed.

(** the aliased sum differs from the sum *)
Example C44_alias_hyps :
  (rep (method_add (k256_add 3%:R) true (pt7 1 2 1) (pt7 2 2 1)) == Some (f7 6, f7 3)) &&
  (rep (k256_add 3%:R (pt7 1 2 1) (pt7 2 2 1)) == Some (f7 4, f7 5)).
Proof. by vm_compute. Qed.

(** the identity is not "on the curve" for K-256 and P-256, and is for the other types *)
Example C44_identity_on_curve :
  [/\ ~~ native_on_curve 0 3%:R (@native_identity [fieldType of 'F_7]), bls_on_curve 3%:R (@bls_identity [fieldType of 'F_7])
    & pallas_on_curve (@native_identity [fieldType of 'F_7])].
Proof. by split; vm_compute. Qed.

Print Assumptions C44_k256_add.
Print Assumptions C44_p256_add.
Print Assumptions C44_k256_double.
Print Assumptions C44_p256_double.
Print Assumptions C44_bls_add.
Print Assumptions C44_bls_double.
Print Assumptions C44_mul3b.
Print Assumptions C44_neg.
Print Assumptions C44_bls_neg_valid.
Print Assumptions C44_sub.
Print Assumptions C44_alias_refuted.
Print Assumptions C44_equal.
Print Assumptions C44_on_curve.
Print Assumptions C44_bls_on_curve.
Print Assumptions C44_to_affine.
Print Assumptions C44_pallas_double.
Print Assumptions C44_pallas_add.
Print Assumptions C44_pallas_equal.
Print Assumptions C44_pallas_on_curve.
