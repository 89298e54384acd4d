(** C78: the BLS12-381 pairing engine. *)
From Coq Require Import ZArith.
From mathcomp Require Import all_ssreflect all_algebra all_field.
From Coq Require Import Ring Field.
From Verif Require Import Lib.FieldTac Tower.TowerModel Tower.TowerProofs Tower.GtProofs Tower.FrobProofs
  Tower.FinalProofs Tower.Literals Tower.PairModel Tower.PairProofs Tower.PropsTower Tower.PropsGt.
Set Implicit Arguments.
Unset Strict Implicit.
Unset Printing Implicit Defensive.
Import GRing.Theory.
Local Open Scope ring_scope.

(** the bits of paramX >> 1, most significant first *)
Definition hbits : seq bool := wordBits (Z.shiftr paramX 1).

(** the engine after a list of AddPair calls *)
Definition engine (F : fieldType) (ps : seq (G1 F * G2 F)) : seq (pair F) :=
  foldl (fun e p => addPair e p.1 p.2) [::] ps.

Section P.
Variable F : fieldType.
Hypothesis hF : goodField F.
Variables c1 c2 g : fp2 F.
Hypothesis hc : frobConsts c1 c2 g.
Variables (gen : G2 F) (xb hb : seq bool).
Local Notation FE := (finalExponentiation (frob12 c1 c2 g) xb).
Local Notation res := (pairing (frob12 c1 c2 g) gen xb hb).
Add Ring fp12_ring : (rth12 F).

Definition mil (e : seq (pair F)) : fp12 F :=
  millerLoop hb (one12 F) [seq (p, computeCoeffs gen hb p) | p <- e].
Lemma mil_cat e1 e2 : mil (e1 ++ e2) = mul12 (mil e1) (mil e2).
Proof.
rewrite /mil map_cat -miller_cat; congr millerLoop; ring.
Qed.
Lemma feE gt gt' a : a <> zero12 F -> FE gt a = FE gt' a.
Proof.
move=> ha; case: (inv_ok hF ha) => ai [h1 h2].
by rewrite (finalE (hc' hc) _ gt h1 h2) (finalE (hc' hc) _ gt' h1 h2).
Qed.
Lemma fe1 gt : FE gt (one12 F) = one12 F.
Proof.
have h := feM hF hc xb gt (@one_ne F) (@one_ne F).
have [_] := fe_cyc hF hc xb gt (@one_ne F).
have e1 : mul12 (one12 F) (one12 F) = one12 F by ring.
rewrite /unit12 in h *; rewrite e1 in h; move: (FE gt (one12 F)) h => x h u.
have -> : x = mul12 x (mul12 x (conj12 x)) by rewrite u; ring.
have -> : mul12 x (mul12 x (conj12 x)) = mul12 (mul12 x x) (conj12 x) by ring.
by rewrite -h.
Qed.
Lemma lines_nil i (f : fp12 F) : lines i f [::] = f. Proof. by []. Qed.
Lemma mil_nil : mil [::] = one12 F.
Proof.
have h : mul12 (mil [::]) (mil [::]) = mil [::] by rewrite -mil_cat.
rewrite /mil /millerLoop [map _ _]/=.
have sq : square12 (one12 F) = one12 F by rewrite square12E; ring.
have st fd i b : exists fd' i', millerStep (F := F) [::] (one12 F, fd, i) b = (one12 F, fd', i').
  rewrite /millerStep; case: fd; last by exists b, i.
  by case: b; rewrite !lines_nil sq; [exists true, i.+2|exists true, i.+1].
have H : forall fd i, exists fd' i', foldl (millerStep (F := F) [::]) (one12 F, fd, i) hb = (one12 F, fd', i').
  elim: hb => [|b bs IH] fd i; first by exists fd, i.
  by rewrite -cat1s foldl_cat; case: (st fd i b) => fd' [i' /= ->]; apply: IH.
by case: (H false 0%N) => fd' [i' ->]; rewrite lines_nil conj121.
Qed.
Lemma resE e : res e = FE (mil e) (mil e).
Proof. by case: e => [|p e] //; rewrite mil_nil fe1. Qed.
Lemma mul0x (x : fp12 F) : mul12 (zero12 F) x = zero12 F. Proof. ring. Qed.
Lemma dec0 (x : fp12 F) : x = zero12 F \/ x <> zero12 F.
Proof. by case: (boolP (equal12 x (zero12 F))) => [/equal12P|/equal12P]; [left|right]. Qed.
Lemma res_cat e1 e2 : res (e1 ++ e2) = mul12 (res e1) (res e2).
Proof.
rewrite !resE mil_cat.
case: (dec0 (mil e1)) => [->|h1]; first by rewrite mul0x !fe_zero // mul0x.
case: (dec0 (mil e2)) => [->|h2].
  have e0 (x : fp12 F) : mul12 x (zero12 F) = zero12 F by ring.
  by rewrite e0 !fe_zero // e0.
by rewrite (feM hF hc xb _ h1 h2) (feE _ (mil e1) h1) (feE _ (mil e2) h2).
Qed.
Lemma res_zero e : (res e = zero12 F <-> mil e = zero12 F).
Proof.
rewrite resE; split=> [|->]; last by rewrite fe_zero.
case: (dec0 (mil e)) => // h h0; have [_] := fe_cyc hF hc xb (mil e) h.
by rewrite /unit12 h0 mul0x => /esym /one_ne.
Qed.
Lemma res_one e : isOne12 (res e) = equal12 (res e) (one12 F).
Proof.
case: (dec0 (mil e)) => h.
  have e1 : isOne2 (zero2 F) = false by apply/negP => /isOne2P /(congr1 (@A2 F)) /= /eqP; rewrite eq_sym oner_eq0.
  have -> : res e = zero12 F by rewrite resE h fe_zero.
  have -> : isOne12 (zero12 F) = false by rewrite /isOne12 /isOne6 [A6 _]/(zero2 F) e1.
  by symmetry; apply/negP => /equal12P /esym /one_ne.
have [_] := fe_cyc hF hc xb (mil e) h; rewrite -resE => u.
by case: hF => hI _ _; exact: isOne_unitary.
Qed.
Lemma conj_zero (x : fp12 F) : x = zero12 F -> conj12 x = zero12 F.
Proof. by move=> ->; rewrite /conj12 /zero12 /neg6 /neg2 /zero6 /zero2 /= !oppr0. Qed.
Lemma res_conj e e' : mil e' = conj12 (mil e) -> res e' = conj12 (res e).
Proof.
move=> h; rewrite !resE h; case: (dec0 (mil e)) => h0.
  by rewrite (conj_zero h0) h0 !fe_zero // conj_zero.
by rewrite (fe_conj hF hc xb _ h0) (feE _ (mil e) h0).
Qed.
End P.

(** engines are concatenated; identity pairs vanish *)
Lemma engine_cat (F : fieldType) (ps1 ps2 : seq (G1 F * G2 F)) : engine (ps1 ++ ps2) = engine ps1 ++ engine ps2.
Proof.
suff H : forall e, foldl (fun e p => addPair e p.1 p.2) e ps2 = e ++ engine ps2 by rewrite /engine foldl_cat H.
rewrite /engine; elim: ps2 => [|p ps IH] e /=; first by rewrite cats0.
rewrite IH [in RHS]IH {1}/addPair /addPair; case: ifP => _ //; by rewrite -cats1 -catA.
Qed.

(** The result over two lists of pairs is the product of the results; no pairs, or an identity in either
    component, gives one. *)
Theorem C78_product (F : fieldType) (c1 c2 g : fp2 F) (gen : G2 F) (xb hb : seq bool) (ps1 ps2 : seq (G1 F * G2 F)) :
  goodField F -> frobConsts c1 c2 g ->
  let result ps := pairing (frob12 c1 c2 g) gen xb hb (engine ps) in
  [/\ result (ps1 ++ ps2) = mul12 (result ps1) (result ps2),
      result [::] = one12 F &
      forall P Q, z1 P = 0 \/ z2 Q = zero2 F -> engine (rcons ps1 (P, Q)) = engine ps1].
Proof.
move=> hF hc result; split=> //; first by rewrite /result engine_cat res_cat.
move=> P Q hz; rewrite -cats1 engine_cat /engine /= /addPair.
suff -> : isId1 (toAffine1 P) || isId2 (toAffine2 Q) = true by rewrite cats0.
apply/orP; case: hz => hz; [left|right].
  by rewrite /toAffine1 /fpInvert hz eqxx /= /isId1 /= /cmove eqxx.
have -> : toAffine2 Q = MkG2 (zero2 F) (zero2 F) (zero2 F) by rewrite /toAffine2 hz invert2_zero.
by apply/isZero2P.
Qed.
Print Assumptions C78_product.

(** Check is exactly the comparison of the result with one, although it uses IsOne. *)
Theorem C78_check (F : fieldType) (c1 c2 g : fp2 F) (gen : G2 F) (xb hb : seq bool) (e : seq (pair F)) :
  goodField F -> frobConsts c1 c2 g ->
  check (frob12 c1 c2 g) gen xb hb e = true <-> pairing (frob12 c1 c2 g) gen xb hb e = one12 F.
Proof.
move=> hF hc; rewrite /check (res_one hF hc).
by split=> [/equal12P|h]; last apply/equal12P.
Qed.
Print Assumptions C78_check.

(** The Miller function written out: every stored line is raised to a power of two.  [weights bits] lists, for
    the coefficients in the order they are stored, how many squarings follow: a step with k steps after it
    contributes its tangent, and on a one bit its chord, each squared k + 1 times; the closing tangent is not
    squared. *)
Fixpoint weights (bits : seq bool) : seq nat :=
  if bits is b :: r then (size r).+1 :: (if b then (size r).+1 :: weights r else weights r) else [:: 0%N].
(** the line with coefficients c at P, and the product of the i-th lines of the pairs without an identity *)
Definition lineAt (F : fieldType) (c : coefficients F) (P : G1 F) : fp12 F :=
  Fp12 (Fp6 (cc c) (Fp2 (A2 (cb c) * x1 P) (B2 (cb c) * x1 P)) (zero2 F))
       (Fp6 (zero2 F) (Fp2 (A2 (ca c) * y1 P) (B2 (ca c) * y1 P)) (zero2 F)).
Fixpoint prodLines (F : fieldType) (i : nat) (es : seq (pair F * (seq (coefficients F) * bool))) : fp12 F :=
  if es is (p, (cfs, identity)) :: es' then
    if (z1 p.1 == 0) || identity then prodLines i es'
    else mul12 (lineAt (nth (coef0 F) cfs i) p.1) (prodLines i es')
  else one12 F.
Fixpoint millerSpec (F : fieldType) (i : nat) (ws : seq nat) (es : seq (pair F * (seq (coefficients F) * bool))) : fp12 F :=
  if ws is w :: ws' then mul12 (pw (prodLines i es) (2 ^ w)) (millerSpec i.+1 ws' es) else one12 F.

Section Miller.
Variable F : fieldType.
Add Ring fp12_ring' : (rth12 F).
Variable es : seq (pair F * (seq (coefficients F) * bool)).
Lemma linesProd i : lines i (one12 F) es = prodLines i es.
Proof.
elim: es => [//|[p [cfs id]] es' IH].
rewrite lines_cons linesM IH /lineOf /=; rewrite /isId1; case: (_ || _); last by rewrite /line /lineAt /mul0_2; ring.
ring.
Qed.
Lemma linesS i g : lines i g es = mul12 g (prodLines i es).
Proof. by rewrite linesM linesProd. Qed.
Lemma pwE (x : fp12 F) n : pw x n = pow12 x n. Proof. by []. Qed.
Lemma mul1x (x : fp12 F) : mul12 (one12 F) x = x. Proof. ring. Qed.
Lemma pw_sq (x : fp12 F) n : pw (square12 x) (2 ^ n) = pw x (2 ^ n.+1).
Proof.
rewrite expnS mul2n -addnn !pwE pow12D square12E pow12M; reflexivity.
Qed.
Lemma millerE bits : forall g i, exists g' i',
  foldl (millerStep es) (g, true, i) bits = (g', true, i') /\
  lines i' g' es = mul12 (pw g (2 ^ size bits)) (millerSpec i (weights bits) es).
Proof.
elim: bits => [|b bits IH] g i.
  exists g, i; split=> //; rewrite linesS [weights _]/= [millerSpec _ _ _]/= [size _]/= expn0.
  by rewrite !pwE !pow12S !pow120; ring.
have st : millerStep es (g, true, i) b =
   (square12 (if b then lines i.+1 (lines i g es) es else lines i g es), true, if b then i.+2 else i.+1).
  by rewrite /millerStep; case: b.
have e1 : foldl (millerStep es) (g, true, i) (b :: bits) = foldl (millerStep es) (millerStep es (g, true, i) b) bits by [].
case: (IH (square12 (if b then lines i.+1 (lines i g es) es else lines i g es)) (if b then i.+2 else i.+1))
  => g' [i' [h1 h2]].
exists g', i'; split; first by rewrite e1 st.
rewrite h2 pw_sq.
have -> : size (b :: bits) = (size bits).+1 by [].
case: b {st e1 h1 h2}; rewrite !linesS.
  have -> : millerSpec i (weights (true :: bits)) es =
    mul12 (pw (prodLines i es) (2 ^ (size bits).+1)) (mul12 (pw (prodLines i.+1 es) (2 ^ (size bits).+1))
      (millerSpec i.+2 (weights bits) es)) by [].
  by rewrite !pwE !pow12M; ring.
have -> : millerSpec i (weights (false :: bits)) es =
    mul12 (pw (prodLines i es) (2 ^ (size bits).+1)) (millerSpec i.+1 (weights bits) es) by [].
by rewrite !pwE !pow12M; ring.
Qed.
End Miller.

(** The loop computes the Miller function: leading zero bits are skipped, the leading one starts it, and the
    value is the conjugate of the product of all the lines with their weights. *)
Theorem C78_miller (F : fieldType) (z : nat) (bits : seq bool)
    (es : seq (pair F * (seq (coefficients F) * bool))) :
  millerLoop (nseq z false ++ true :: bits) (one12 F) es = conj12 (millerSpec 0 (weights bits) es).
Proof.
rewrite /millerLoop foldl_cat.
have -> : foldl (millerStep es) (one12 F, false, 0%N) (nseq z false) = (one12 F, false, 0%N).
  by elim: z => [//|z IH]; rewrite [nseq _ _]/= -[RHS]IH.
have -> : foldl (millerStep es) (one12 F, false, 0%N) (true :: bits) = foldl (millerStep es) (one12 F, true, 0%N) bits by [].
case: (millerE es bits (one12 F) 0) => g' [i' [-> ->]]; congr conj12.
rewrite !pwE pow121; exact: mul1x.
Qed.
Print Assumptions C78_miller.
(** the parameter has 63 bits after the shift; the weights cover exactly the stored coefficients *)
Example C78_miller_hyps :
  hbits = nseq (find id hbits) false ++ true :: drop (find id hbits).+1 hbits /\
  size (weights (drop (find id hbits).+1 hbits)) = 68%N.
Proof. by split; vm_compute. Qed.

Section Neg.
Variable F : fieldType.
Hypothesis hF : goodField F.
Variables c1 c2 g : fp2 F.
Hypothesis hc : frobConsts c1 c2 g.
Variables (gen : G2 F) (xb hb : seq bool).
Lemma affN1 (P : G1 F) : toAffine1 (neg1 P) = MkG1 (x1 (toAffine1 P)) (- y1 (toAffine1 P)) (z1 (toAffine1 P)).
Proof.
rewrite /toAffine1 /neg1 /fpInvert /= /isId1 /cmove.
by case: (z1 P == 0) => /=; rewrite ?oppr0 // mulNr.
Qed.
Lemma affN2 (Q : G2 F) : toAffine2 (negG2 Q) = flipy (toAffine2 Q).
Proof.
case: hF => hI _ _.
rewrite /toAffine2 /negG2 /flipy; cbn [x2 y2 z2]; case: (boolP (isId2 Q)) => /isZero2P h.
  by rewrite h invert2_zero /cmove /= /neg2 /zero2 /= oppr0.
case: (invert2_ok hI (zero2 F) h) => y [-> _]; rewrite /cmove; cbn [x2 y2 z2]; congr MkG2.
by rewrite /cneg2 /cmove !mul2E /neg2 /= !mulNr !opprD !opprK.
Qed.
Lemma mil1 (p : pair F) : mil gen hb [:: p] = millerLoop hb (one12 F) [:: (p, computeCoeffs gen hb p)].
Proof. by []. Qed.
Lemma milN1 (P : G1 F) (Q : G2 F) : mil gen hb [:: (MkG1 (x1 P) (- y1 P) (z1 P), Q)] = conj12 (mil gen hb [:: (P, Q)]).
Proof.
rewrite !mil1 -(@miller_conj F hb [:: ((P, Q), computeCoeffs gen hb (P, Q))]
  [:: ((MkG1 (x1 P) (- y1 P) (z1 P), Q), computeCoeffs gen hb (P, Q))]) ?conj121 // => i.
rewrite !lines_cons !lines_nil /lineOf /isId1; cbn [fst snd z1].
case: ifP => _; rewrite conj12M conj121 //; congr mul12; exact: line_neg.
Qed.
Lemma milN2 (P : G1 F) (Q : G2 F) : isId2 Q = false -> mil gen hb [:: (P, flipy Q)] = conj12 (mil gen hb [:: (P, Q)]).
Proof.
move=> hq; have en : flipy Q = negG2 Q by rewrite /negG2 hq /cneg2 /cmove.
rewrite !mil1 en (coeffs_neg gen hb (p := (P, Q)) hq).
rewrite -(@miller_conj F hb [:: ((P, Q), computeCoeffs gen hb (P, Q))]
  [:: ((P, negG2 Q), ([seq cneg c | c <- (computeCoeffs gen hb (P, Q)).1], (computeCoeffs gen hb (P, Q)).2))]) ?conj121 // => i.
rewrite !lines_cons !lines_nil /lineOf; cbn [fst snd].
case: ifP => _; rewrite conj12M conj121 //; congr mul12.
case: (ltnP i (size (computeCoeffs gen hb (P, Q)).1)) => hi.
  by rewrite (nth_map (coef0 F)) // line_cneg.
by rewrite !nth_default ?size_map // -[X in line X _ = _]cneg0 line_cneg.
Qed.
End Neg.

Lemma addPair_engine (F : fieldType) (e : seq (pair F)) P Q : addPair e P Q = e ++ engine [:: (P, Q)].
Proof. by rewrite /engine /= /addPair; case: ifP => _; rewrite ?cats0 // -cats1. Qed.

(** Negating either point conjugates the result. *)
Theorem C78_sign (F : fieldType) (c1 c2 g : fp2 F) (gen : G2 F) (xb hb : seq bool) (P : G1 F) (Q : G2 F) :
  goodField F -> frobConsts c1 c2 g ->
  let e P Q := pairing (frob12 c1 c2 g) gen xb hb (engine [:: (P, Q)]) in
  [/\ e (neg1 P) Q = conj12 (e P Q), e P (negG2 Q) = conj12 (e P Q) &
      e P Q <> zero12 F -> mul12 (e P Q) (conj12 (e P Q)) = one12 F].
Proof.
move=> hF hc e; split.
- apply: (res_conj hF hc); rewrite /engine /= /addPair affN1; cbn [fst snd].
  have -> : isId1 (MkG1 (x1 (toAffine1 P)) (- y1 (toAffine1 P)) (z1 (toAffine1 P))) = isId1 (toAffine1 P) by [].
  by case: ifP => _; [rewrite mil_nil conj121 | exact: milN1].
- apply: (res_conj hF hc); rewrite /engine /= /addPair (affN2 hF); cbn [fst snd].
  have -> : isId2 (flipy (toAffine2 Q)) = isId2 (toAffine2 Q) by [].
  by case: ifP => h; [rewrite mil_nil conj121 | apply: milN2; case/norP: (negbT h) => _ /negbTE].
- move=> h0; have h1 : mil gen hb (engine [:: (P, Q)]) <> zero12 F by move/(res_zero hF hc gen xb hb).
  by have [_] := fe_cyc hF hc xb (mil gen hb (engine [:: (P, Q)])) h1; rewrite -(resE hF hc).
Qed.
Print Assumptions C78_sign.

(** The way signature schemes use the engine: after pairs with result r, AddPairInvG1(P, Q) (or AddPairInvG2)
    and Check decide exactly whether r = e(P, Q), unless e(P, Q) is zero. *)
Theorem C78_equality_test (F : fieldType) (c1 c2 g : fp2 F) (gen : G2 F) (xb hb : seq bool)
    (en : seq (pair F)) (P : G1 F) (Q : G2 F) :
  goodField F -> frobConsts c1 c2 g ->
  let r := pairing (frob12 c1 c2 g) gen xb hb in
  let e P Q := r (engine [:: (P, Q)]) in
  let ok := check (frob12 c1 c2 g) gen xb hb in
  (ok (addPairInvG1 en P Q) = true <-> r en = e P Q /\ e P Q <> zero12 F) /\
  (ok (addPairInvG2 en P Q) = true <-> r en = e P Q /\ e P Q <> zero12 F).
Proof.
move=> hF hc r e ok.
have R := rth12 F.
have key x y : (y <> zero12 F -> mul12 y (conj12 y) = one12 F) ->
   (mul12 x (conj12 y) = one12 F <-> x = y /\ y <> zero12 F).
  move=> u; split=> [h|[-> h]]; last exact: u.
  have hy : y <> zero12 F.
    move=> h0; move: h; rewrite (conj_zero h0) (Rmul_comm R) mul0x => /esym; exact: one_ne.
  split=> //; rewrite -[x](Rmul_1_l R) -(u hy) (Rmul_comm R) (Rmul_comm R y) (Rmul_assoc R) h.
  exact: (Rmul_1_l R).
have [s1 s2 u] := C78_sign gen xb hb P Q hF hc.
by split; rewrite /ok (C78_check gen xb hb _ hF hc) /addPairInvG1 /addPairInvG2 addPair_engine (res_cat hF hc) ?s1 ?s2; apply: key.
Qed.
Print Assumptions C78_equality_test.

(** The engine only sees the affine points: scaling the projective coordinates changes nothing. *)
Theorem C78_representation (F : fieldType) (en : seq (pair F)) (P : G1 F) (Q : G2 F) (l : F) (m : fp2 F) :
  goodField F -> l <> 0 -> m <> zero2 F ->
  addPair en (MkG1 (l * x1 P) (l * y1 P) (l * z1 P)) (MkG2 (mul2 m (x2 Q)) (mul2 m (y2 Q)) (mul2 m (z2 Q))) = addPair en P Q.
Proof.
move=> [hI _ _] /eqP hl hm.
have R := rth2 F; rewrite /addPair.
have -> : toAffine1 (MkG1 (l * x1 P) (l * y1 P) (l * z1 P)) = toAffine1 P.
  rewrite /toAffine1 /fpInvert /= mulf_eq0 (negbTE hl) /=; case: eqP => [->|_] //=; rewrite /cmove /=.
  by rewrite invfM; congr MkG1; rewrite mulrACA divff // mul1r.
suff -> : toAffine2 (MkG2 (mul2 m (x2 Q)) (mul2 m (y2 Q)) (mul2 m (z2 Q))) = toAffine2 Q by [].
rewrite /toAffine2; cbn [x2 y2 z2].
case: (boolP (isId2 Q)) => /isZero2P h.
  have -> : mul2 m (z2 Q) = zero2 F by rewrite h mul2E /= !mulr0 subr0 addr0.
  by rewrite h invert2_zero.
case: (invert2_ok hI (zero2 F) h) => y [-> hy].
case: (invert2_ok hI (zero2 F) hm) => mi [_ hmi].
have h' : mul2 m (z2 Q) <> zero2 F.
  move=> h0; apply: h; rewrite -[z2 Q](Rmul_1_l R) -hmi (Rmul_comm R m) -(Rmul_assoc R) h0.
  by rewrite mul2E /= !mulr0 subr0 addr0.
case: (invert2_ok hI (zero2 F) h') => w [-> hw]; rewrite /cmove.
have e : mul2 m w = y.
  rewrite -[mul2 m w](Rmul_1_l R) -hy (Rmul_comm R (z2 Q)) -(Rmul_assoc R) (Rmul_assoc R (z2 Q)) (Rmul_comm R (z2 Q)) hw.
  by rewrite (Rmul_comm R) (Rmul_1_l R).
by congr MkG2; rewrite (Rmul_comm R m) -(Rmul_assoc R) e.
Qed.
Print Assumptions C78_representation.

(** The steps of the Miller loop are the geometry they stand for.  Points are Jacobian: (X, Y, Z) is the
    affine (X/Z^2, Y/Z^3); a coefficient triple (a, b, c) is the line a y + b x + c = 0. *)
Section Geometry.
Variable F : fieldType.
Add Ring fp2_ring : (rth2 F).
Definition onCurve (b : fp2 F) (p : G2 F) : Prop :=
  mul2 (y2 p) (y2 p) = add2 (mul2 (x2 p) (mul2 (x2 p) (x2 p)))
    (mul2 b (mul2 (mul2 (z2 p) (mul2 (z2 p) (z2 p))) (mul2 (z2 p) (mul2 (z2 p) (z2 p))))).
Definition onLine (l : coefficients F) (p : G2 F) : Prop :=
  add2 (mul2 (ca l) (y2 p)) (add2 (mul2 (cb l) (mul2 (x2 p) (z2 p))) (mul2 (cc l) (mul2 (z2 p) (mul2 (z2 p) (z2 p))))) = zero2 F.
Definition opp (p : G2 F) : G2 F := MkG2 (x2 p) (neg2 (y2 p)) (z2 p).
Lemma onJE b p : onCurve b p <-> onJ b p.
Proof. by rewrite /onCurve /onJ; split=> ->; ring. Qed.
Theorem C78_steps (b : fp2 F) (p q : G2 F) :
  let dbl := doublingStep p in let add := additionStep p q in
  (onCurve b p -> [/\ onCurve b dbl.1, onLine dbl.2 p & onLine dbl.2 (opp dbl.1)] /\
     (** tangent slope: a * 3 x^2 = - b * 2 y in affine coordinates *)
     mul2 (ca dbl.2) (mul2 (Fp2 3%:R 0) (mul2 (x2 p) (x2 p))) = neg2 (mul2 (cb dbl.2) (mul2 (Fp2 2%:R 0) (mul2 (y2 p) (z2 p))))) /\
  (onCurve b p -> onCurve b q -> z2 q = one2 F ->
     [/\ onCurve b add.1, onLine add.2 p, onLine add.2 q & onLine add.2 (opp add.1)]).
Proof.
have e3 : Fp2 3%:R 0 = add2 (one2 F) (add2 (one2 F) (one2 F)).
  by rewrite /add2 /one2 /= !addr0 !mulrS addr0.
have e2 : Fp2 2%:R 0 = add2 (one2 F) (one2 F) by rewrite /add2 /one2 /= addr0 !mulrS addr0.
move=> dbl add; split.
  move=> h; split; last first.
    rewrite e3 e2 /dbl doublingStepE /sc; cbn [ca cb cc fst snd iter]; ring.
  split; first by apply/onJE; apply: doubling_on; apply/onJE.
    rewrite /dbl doublingStepE /onLine /sc; cbn [ca cb cc fst snd iter x2 y2 z2]; ring.
  rewrite /onCurve in h; rewrite /dbl doublingStepE /onLine /opp /sc; cbn [ca cb cc fst snd iter x2 y2 z2].
  ring.
move=> hp hq hz; split; first by apply/onJE; apply: addition_on => //; apply/onJE.
- rewrite /add additionStepE /onLine /sc; cbn [ca cb cc fst snd iter x2 y2 z2]; ring.
- rewrite /add additionStepE /onLine /sc hz; cbn [ca cb cc fst snd iter x2 y2 z2]; ring.
- rewrite /onCurve hz in hp hq; rewrite /add additionStepE /onLine /opp /sc; cbn [ca cb cc fst snd iter x2 y2 z2].
  ring.
Qed.
End Geometry.
Print Assumptions C78_steps.

(** computeCoeffs fills exactly the 68 slots it allocates and millerLoop reads exactly those: no index is
    out of range, for any pairs. *)
Definition cntStep (s : bool * nat) (b : bool) : bool * nat :=
  if s.1 then (true, if b then s.2.+2 else s.2.+1) else (b, s.2).
Theorem C78_indices (F : fieldType) (gen : G2 F) (p : pair F) (f : fp12 F) (es : seq (pair F * (seq (coefficients F) * bool))) :
  size (computeCoeffs gen hbits p).1 = 68%N /\
  (forall k, (k <= 64)%N -> ((foldl (millerStep es) (f, false, 0%N) (take k hbits)).2 < 68)%N) /\
  (foldl (millerStep es) (f, false, 0%N) hbits).2 = 67%N.
Proof.
have H1 (q : G2 F) hb : forall fd c cfs, let r := foldl (coefStep q) (fd, c, cfs) hb in
    (r.1.1, size r.2) = foldl cntStep (fd, size cfs) hb.
  elim: hb => [//|b hb IH] fd c cfs /=; case: fd; last by rewrite IH.
  case: (doublingStep c) => c' cf; case: b; last by rewrite IH size_rcons.
  by case: (additionStep c' q) => c'' cf'; rewrite IH !size_rcons.
have H2 hb : forall fd i f, let r := foldl (millerStep es) (f, fd, i) hb in
    (r.1.2, r.2) = foldl cntStep (fd, i) hb.
  elim: hb => [//|b hb IH] fd i f0; rewrite -cat1s !foldl_cat.
  have -> : foldl (millerStep es) (f0, fd, i) [:: b] = millerStep es (f0, fd, i) b by [].
  have -> : foldl cntStep (fd, i) [:: b] = cntStep (fd, i) b by [].
  by rewrite /millerStep /cntStep; case: fd; [case: b|]; apply: IH.
split.
  rewrite /computeCoeffs; move: (H1 (cmoveG2 p.2 gen (isId2 p.2)) hbits false (cmoveG2 p.2 gen (isId2 p.2)) [::]).
  case: (foldl _ _ _) => [[fd c] cfs]; cbn [fst snd].
  have -> : foldl cntStep (false, size (@nil (coefficients F))) hbits = (true, 67%N) by vm_compute.
  by move=> [_ h]; rewrite size_rcons h.
split; last first.
  have e : foldl cntStep (false, 0%N) hbits = (true, 67%N) by vm_compute.
  exact: (eq_trans (congr1 snd (H2 hbits false 0%N f)) (congr1 snd e)).
move=> k hk.
have ha : all (fun k => (foldl cntStep (false, 0%N) (take k hbits)).2 < 68)%N (iota 0 65) by vm_compute.
have /(allP ha) : k \in iota 0 65 by rewrite mem_iota.
by rewrite -(congr1 snd (H2 (take k hbits) false 0%N f)).
Qed.
Print Assumptions C78_indices.

(** F_19 with g = (1+u)^3 meets the hypotheses, and the pairing of a concrete pair is neither zero nor one. *)
Definition f19 (n : nat) : 'F_19 := n%:R.
Example C78_hyps : let g : fp2 [fieldType of 'F_19] := Fp2 (f19 17) (f19 2) in
  goodField [fieldType of 'F_19] /\ frobConsts (mul2 g g) (mul2 (mul2 g g) (mul2 g g)) g.
Proof.
split; first exact: C76_invert_hyps.
by split=> //; apply/equal2P; vm_compute.
Qed.
Example C78_nontrivial :
  let g : fp2 [fieldType of 'F_19] := Fp2 (f19 17) (f19 2) in
  let Q : G2 [fieldType of 'F_19] := MkG2 (Fp2 (f19 2) (f19 3)) (Fp2 (f19 4) (f19 1)) (one2 _) in
  let P : G1 [fieldType of 'F_19] := MkG1 (f19 3) (f19 5) 1 in
  let r := pairing (frob12 (mul2 g g) (mul2 (mul2 g g) (mul2 g g)) g) Q [:: true; true] [:: true; false; true] (engine [:: (P, Q)]) in
  ~~ isZero12 r && ~~ isOne12 r.
Proof. by vm_compute. Qed.
