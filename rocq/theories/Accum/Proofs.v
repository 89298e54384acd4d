(** Lemmas about the accumulator model. *)
From mathcomp Require Import all_ssreflect all_algebra zify.
From Verif Require Import Lib.Res Lib.Bytes Lib.Pairing Lib.FieldTac Lib.LmodTac Accum.Model.
From Coq Require Import Field.
Set Implicit Arguments.
Unset Strict Implicit.
Unset Printing Implicit Defensive.
Import GRing.Theory.
Local Open Scope ring_scope.

Section P.
Variables (F : fieldType) (G1 : lmodType F).
Add Field F_field : (f_fth F).

(** value of a coefficient list at x *)
Definition pev (p : seq F) (x : F) : F := \sum_(i < size p) p`_i * x ^+ i.
Definition gev (p : seq G1) (x : F) : G1 := \sum_(i < size p) x ^+ i *: p`_i.

Lemma pev_ord p x : pev p x = \sum_(i <- iota 0 (size p)) p`_i * x ^+ i.
Proof. by rewrite /pev -(big_mkord xpredT (fun i => p`_i * x ^+ i)) /index_iota subn0. Qed.
Lemma gev_ord p x : gev p x = \sum_(i <- iota 0 (size p)) x ^+ i *: p`_i.
Proof. by rewrite /gev -(big_mkord xpredT (fun i => x ^+ i *: p`_i)) /index_iota subn0. Qed.

(** a longer range gives the same value *)
Lemma pev_ext p x n : (size p <= n)%N -> pev p x = \sum_(i < n) p`_i * x ^+ i.
Proof.
move=> h; rewrite /pev (big_ord_widen n (fun i => p`_i * x ^+ i)) // big_mkcond; apply: eq_bigr => i _.
by case: ltnP => // hi; rewrite nth_default // mul0r.
Qed.
Lemma gev_ext p x n : (size p <= n)%N -> gev p x = \sum_(i < n) x ^+ i *: p`_i.
Proof.
move=> h; rewrite /gev (big_ord_widen n (fun i => x ^+ i *: p`_i)) // big_mkcond; apply: eq_bigr => i _.
by case: ltnP => // hi; rewrite nth_default // scaler0.
Qed.

Lemma poly_add_nth (p q : seq F) i : (poly_add p q)`_i = p`_i + q`_i.
Proof.
rewrite /poly_add; case: (ltnP i (maxn (size p) (size q))) => h.
  rewrite (nth_map 0%N) ?size_iota // nth_iota // add0n.
  case: (ltnP i (size p)) => hp; case: (ltnP i (size q)) => hq //.
  - by rewrite [q`_i]nth_default // addr0.
  - by rewrite [p`_i]nth_default // add0r.
  - by rewrite [p`_i]nth_default // add0r.
move: (h); rewrite geq_max => /andP[h1 h2].
by rewrite !nth_default ?addr0 // size_map size_iota.
Qed.
Lemma poly_sub_nth (p q : seq F) i : (poly_sub p q)`_i = p`_i - q`_i.
Proof.
rewrite /poly_sub; case: (ltnP i (maxn (size p) (size q))) => h.
  rewrite (nth_map 0%N) ?size_iota // nth_iota // add0n.
  case: (ltnP i (size p)) => hp; case: (ltnP i (size q)) => hq //.
  - by rewrite [q`_i]nth_default // subr0.
  - by rewrite [p`_i]nth_default // add0r.
  - by rewrite [p`_i]nth_default // add0r.
move: (h); rewrite geq_max => /andP[h1 h2].
by rewrite !nth_default ?subr0 // size_map size_iota.
Qed.
Lemma poly_add_size (p q : seq F) : size (poly_add p q) = maxn (size p) (size q).
Proof. by rewrite size_map size_iota. Qed.
Lemma poly_sub_size (p q : seq F) : size (poly_sub p q) = maxn (size p) (size q).
Proof. by rewrite size_map size_iota. Qed.
Lemma pev_add p q x : pev (poly_add p q) x = pev p x + pev q x.
Proof.
have e : forall a, (size a <= maxn (size p) (size q))%N -> pev a x = \sum_(i < maxn (size p) (size q)) a`_i * x ^+ i by move=> a; exact: pev_ext.
rewrite !e ?poly_add_size ?leq_maxl ?leq_maxr // -big_split; apply: eq_bigr => i _.
by rewrite poly_add_nth mulrDl.
Qed.
Lemma pev_sub p q x : pev (poly_sub p q) x = pev p x - pev q x.
Proof.
have e : forall a, (size a <= maxn (size p) (size q))%N -> pev a x = \sum_(i < maxn (size p) (size q)) a`_i * x ^+ i by move=> a; exact: pev_ext.
rewrite !e ?poly_sub_size ?leq_maxl ?leq_maxr // -sumrB; apply: eq_bigr => i _.
by rewrite poly_sub_nth mulrBl.
Qed.
Lemma pev_scale p k x : pev (poly_scale p k) x = pev p x * k.
Proof.
rewrite /pev size_map mulr_suml; apply: eq_bigr => i _; by rewrite (nth_map 0) // mulrAC.
Qed.

Lemma ppoint_add_nth (p q : seq G1) i : (ppoint_add p q)`_i = p`_i + q`_i.
Proof.
rewrite /ppoint_add; case: (ltnP i (maxn (size p) (size q))) => h.
  rewrite (nth_map 0%N) ?size_iota // nth_iota // add0n.
  case: (ltnP i (size p)) => hp; case: (ltnP i (size q)) => hq //.
  - by rewrite [q`_i]nth_default.
  - by rewrite [p`_i]nth_default // add0r addr0.
  - by rewrite [p`_i]nth_default // add0r addr0.
move: (h); rewrite geq_max => /andP[h1 h2].
by rewrite !nth_default ?addr0 // size_map size_iota.
Qed.
Lemma ppoint_add_size (p q : seq G1) : size (ppoint_add p q) = maxn (size p) (size q).
Proof. by rewrite size_map size_iota. Qed.
Lemma gev_add p q x : gev (ppoint_add p q) x = gev p x + gev q x.
Proof.
have e : forall a, (size a <= maxn (size p) (size q))%N -> gev a x = \sum_(i < maxn (size p) (size q)) x ^+ i *: a`_i by move=> a; exact: gev_ext.
rewrite !e ?ppoint_add_size ?leq_maxl ?leq_maxr // -big_split; apply: eq_bigr => i _.
by rewrite ppoint_add_nth scalerDr.
Qed.
Lemma gev_mul p k x : gev (ppoint_mul p k) x = k *: gev p x.
Proof.
rewrite /gev size_map scaler_sumr; apply: eq_bigr => i _; rewrite (nth_map 0) // !scalerA; congr (_ *: _); exact: mulrC.
Qed.
Lemma gev_map (l : seq F) (v : G1) x : gev [seq a *: v | a <- l] x = pev l x *: v.
Proof.
rewrite /gev /pev size_map scaler_suml; apply: eq_bigr => i _; rewrite (nth_map 0) // scalerA; congr (_ *: _); exact: mulrC.
Qed.

Lemma evaluate_ok (p : seq G1) x : (0 < size p)%N -> evaluate p x = Ok (gev p x).
Proof.
case: p => // c r _; rewrite /evaluate; congr Ok.
have -> : gev (c :: r) x = c + \sum_(i < size r) x ^+ i.+1 *: r`_i.
  by rewrite /gev big_ord_recl expr0 scale1r.
have h : forall k c, (foldl (fun st a => (st.1 * x, st.2 + st.1 *: a)) (x ^+ k, c) r).2 = c + \sum_(i < size r) x ^+ (i + k) *: r`_i.
  elim: r {c} => [|a r IH] k c /=; first by rewrite big_ord0 addr0.
  rewrite -exprSr IH big_ord_recl add0n /= addrA; congr (_ + _); apply: eq_bigr => i _.
  by rewrite addSnnS.
by rewrite (h 1%N) ; congr (_ + _); apply: eq_bigr => i _; rewrite addn1.
Qed.

(** polynomial multiplication *)
Lemma pev_set (l : seq F) k c x : (k < size l)%N -> pev (set_nth 0 l k (l`_k + c)) x = pev l x + c * x ^+ k.
Proof.
move=> h; have hs : size (set_nth 0 l k (l`_k + c)) = size l by rewrite size_set_nth; apply/maxn_idPr.
rewrite /pev hs (bigD1 (Ordinal h)) //= [in RHS](bigD1 (Ordinal h)) //= nth_set_nth /= eqxx mulrDl -!addrA; congr (_ + _).
rewrite addrC; congr (_ + _); apply: eq_bigr => i hi; rewrite nth_set_nth /=.
by case: eqP => // hk; case/eqP: hi; apply: val_inj.
Qed.
Lemma mul_inner (p q prod : seq F) i js x : all (fun j => i + j < size prod)%N js ->
  let r := foldl (fun prod j => set_nth 0 prod (i + j) (prod`_(i + j) + p`_i * q`_j)) prod js in
  size r = size prod /\ pev r x = pev prod x + \sum_(j <- js) p`_i * q`_j * x ^+ (i + j).
Proof.
elim: js prod => [|j js IH] prod /=; first by rewrite big_nil addr0.
case/andP => h1 h2.
have hs : size (set_nth 0 prod (i + j) (prod`_(i + j) + p`_i * q`_j)) = size prod by rewrite size_set_nth; apply/maxn_idPr.
case: (IH (set_nth 0 prod (i + j) (prod`_(i + j) + p`_i * q`_j))); first by rewrite hs.
by move=> -> ->; rewrite hs pev_set // big_cons addrA.
Qed.
Lemma mul_outer (p q prod : seq F) ks x : all (fun i => i + size q <= size prod)%N ks ->
  let r := foldl (fun prod i => foldl (fun prod j => set_nth 0 prod (i + j) (prod`_(i + j) + p`_i * q`_j)) prod (iota 0 (size q))) prod ks in
  size r = size prod /\ pev r x = pev prod x + \sum_(i <- ks) \sum_(j <- iota 0 (size q)) p`_i * q`_j * x ^+ (i + j).
Proof.
elim: ks prod => [|i l IH] prod /=; first by rewrite big_nil addr0.
case/andP => h1 h2.
have ha : all (fun j => i + j < size prod)%N (iota 0 (size q)).
  by apply/allP => j; rewrite mem_iota /= add0n => hj; apply: leq_trans h1; rewrite ltn_add2l.
have [hs hp] := mul_inner p q x ha.
set pr := foldl _ prod (iota 0 (size q)) in hs hp *.
by have [|-> ->] := IH pr; rewrite hs // hp big_cons addrA.
Qed.
Lemma poly_mul_ok (p q : seq F) x : (0 < size p)%N -> (0 < size q)%N ->
  exists2 r, poly_mul p q = Ok r & size r = (size p + size q).-1 /\ pev r x = pev p x * pev q x.
Proof.
move=> hp hq; rewrite /poly_mul eqn0Ngt hp /=.
eexists; first reflexivity.
have [|-> ->] := @mul_outer p q (nseq (size p + size q).-1 0) (iota 0 (size p)) x.
  by apply/allP => i; rewrite mem_iota size_nseq; lia.
rewrite size_nseq; split=> //.
have -> : pev (nseq (size p + size q).-1 0) x = 0.
  by rewrite /pev big1 // => i _; rewrite nth_nseq; case: ifP => _; rewrite mul0r.
rewrite add0r !pev_ord mulr_suml; apply: eq_bigr => i _; rewrite mulr_sumr; apply: eq_bigr => j _.
by rewrite exprD; move: (x ^+ i) (x ^+ j) => u v; f_fold F; ring.
Qed.

(** products *)
Definition dprod (ys : seq F) (x : F) : F := \prod_(y <- ys) (y - x).
Definition aprod (ys : seq F) (sk : F) : F := \prod_(y <- ys) (y + sk).
Lemma batch_additionsE sk ys : batch_additions sk ys = aprod ys sk.
Proof.
have h : forall a, foldl (fun m y => m * (y + sk)) a ys = a * aprod ys sk.
  rewrite /aprod; elim: ys => [|y ys IH] a /=; first by rewrite big_nil mulr1.
  by rewrite IH big_cons mulrA.
by rewrite /batch_additions h mul1r.
Qed.
Lemma dadE ys y : dad (Some ys) y = Ok (dprod ys y).
Proof.
rewrite /dad; congr Ok; case: eqP => [|_].
  by case: ys => [|a [|]] //= _; rewrite /dprod big_seq1.
have h : forall a, foldl (fun r v => r * (v - y)) a ys = a * dprod ys y.
  rewrite /dprod; elim: ys => [|b ys IH] a /=; first by rewrite big_nil mulr1.
  by rewrite IH big_cons mulrA.
by rewrite h mul1r.
Qed.

Lemma factors_ok (ys p : seq F) x : (0 < size p)%N ->
  exists2 r, factors p ys = Ok r & size r = (size p + size ys)%N /\ pev r x = pev p x * dprod ys x.
Proof.
elim: ys p => [|y ys IH] p hp /=; first by exists p; rewrite // /dprod big_nil mulr1 addn0.
have [r -> [hs hv]] := @poly_mul_ok p [:: y; -1] x hp isT.
cbn [bind]; have [|r' -> [hs' hv']] := IH r; first by rewrite hs /=; lia.
exists r' => //; rewrite hs' hs hv' hv; split; first by rewrite /=; lia.
have -> : pev [:: y; -1] x = y - x.
  by rewrite /pev !big_ord_recl big_ord0 /= expr0 expr1; f_fold F; ring.
by rewrite /dprod big_cons mulrA.
Qed.
Lemma factors1 (ys : seq F) x :
  exists2 r, factors [:: 1] ys = Ok r & size r = (size ys).+1 /\ pev r x = dprod ys x.
Proof.
have [r -> [h1 h2]] := @factors_ok ys [:: 1] x isT; exists r => //; split=> //.
by rewrite h2 /pev big_ord1 /= expr0 !mul1r.
Qed.

(** the loops of CreateCoefficients, all elements at once; [x] is where the result is evaluated *)
Lemma factors_det (ys : seq F) : exists2 r, factors [:: 1] ys = Ok r & size r = (size ys).+1 /\ forall x, pev r x = dprod ys x.
Proof.
have [r h [hs _]] := factors1 ys 0; exists r => //; split=> // x.
by have [r' h' [_ <-]] := factors1 ys x; move: h'; rewrite h => -[->].
Qed.

Lemma loopD_ok sk dels (s : seq nat) vD : all (fun i => aprod (take i.+1 dels) sk != 0) s ->
  exists2 r, loopD sk dels s vD = Ok r & size r = maxn (size vD) (\max_(i <- s) (size (take i dels)).+1) /\ forall x,
    pev r x = pev vD x + \sum_(i <- s) dprod (take i dels) x / aprod (take i.+1 dels) sk.
Proof.
elim: s vD => [|i s IH] vD /=; first by exists vD => //; split=> [|x]; rewrite big_nil ?maxn0 ?addr0.
case/andP => h1 h2; rewrite /batch_deletions batch_additionsE /invert (negbTE h1); cbn [bind].
have [p -> [hsp hp]] := factors_det (take i dels); cbn [bind].
have [r -> [hrs hr]] := IH (poly_add vD (poly_scale p (aprod (take i.+1 dels) sk)^-1)) h2; exists r => //; split=> [|x]; first by rewrite hrs poly_add_size size_map hsp big_cons maxnA.
by rewrite hr pev_add pev_scale hp big_cons addrA.
Qed.
Lemma loopD_err sk dels (s : seq nat) vD : has (fun i => aprod (take i.+1 dels) sk == 0) s -> loopD sk dels s vD = Err.
Proof.
elim: s vD => //= i s IH vD; rewrite /batch_deletions batch_additionsE /invert.
case: eqP => //= _ h; have [p -> _] := factors_det (take i dels); cbn [bind]; exact: IH.
Qed.
Lemma loopA_ok sk adds (s : seq nat) vA :
  exists2 r, loopA sk adds s vA = Ok r & size r = maxn (size vA) (\max_(i <- s) (size (drop i.+1 adds)).+1) /\ forall x,
    pev r x = pev vA x + \sum_(i <- s) dprod (drop i.+1 adds) x * aprod (take i adds) sk.
Proof.
elim: s vA => [|i s IH] vA /=; first by exists vA => //; split=> [|x]; rewrite big_nil ?maxn0 ?addr0.
have [p -> [hsp hp]] := factors_det (drop i.+1 adds); cbn [bind].
have [r -> [hrs hr]] := IH (poly_add vA (poly_scale p (if (i == 0)%N then 1 else batch_additions sk (take i adds)))); exists r => //; split=> [|x].
  by rewrite hrs poly_add_size size_map hsp big_cons maxnA.
rewrite hr pev_add pev_scale hp big_cons addrA; congr (_ + _ + _); congr (_ * _).
by case: eqP => [->|_]; [rewrite take0 /aprod big_nil|rewrite batch_additionsE].
Qed.

(** telescoping *)
Lemma telA sk adds x :
  (x + sk) * (\sum_(i <- iota 0 (size adds)) dprod (drop i.+1 adds) x * aprod (take i adds) sk) = aprod adds sk - dprod adds x.
Proof.
elim: adds => [|a l IH]; first by rewrite big_nil mulr0 /aprod /dprod !big_nil subrr.
rewrite /= big_cons (iotaDl 1 0) big_map drop0.
rewrite (eq_bigr (fun i => (a + sk) * (dprod (drop i.+1 l) x * aprod (take i l) sk))); last first.
  by move=> i _; rewrite add1n /= /aprod big_cons; f_fold F; ring.
rewrite -mulr_sumr mulrDr (mulrCA _ (a + sk)) IH /aprod /dprod !big_nil !big_cons.
by move: (\prod_(y <- l) _) (\prod_(y <- l) _) => P Q; f_fold F; ring.
Qed.
Lemma aprod_take sk dels : aprod dels sk != 0 -> all (fun i => aprod (take i.+1 dels) sk != 0) (iota 0 (size dels)).
Proof.
move=> h; apply/allP => i _; apply: contraNneq h => h.
by rewrite -(cat_take_drop i.+1 dels) /aprod big_cat /= -!/(aprod _ _) h mul0r.
Qed.
Lemma telD sk dels x : aprod dels sk != 0 ->
  (x + sk) * (\sum_(i <- iota 0 (size dels)) dprod (take i dels) x / aprod (take i.+1 dels) sk) = 1 - dprod dels x / aprod dels sk.
Proof.
elim: dels => [|a l IH]; first by rewrite big_nil mulr0 /aprod /dprod !big_nil divr1 subrr.
rewrite {1}/aprod big_cons mulf_eq0 negb_or => /andP[ha hl].
rewrite /= big_cons (iotaDl 1 0) big_map take0.
rewrite (eq_bigr (fun i => ((a - x) / (a + sk)) * (dprod (take i l) x / aprod (take i.+1 l) sk))); last first.
  move=> i _; by rewrite add1n /= /aprod /dprod !big_cons invfM mulrACA.
rewrite -mulr_sumr mulrDr (mulrCA _ ((a - x) / (a + sk))) (IH hl).
have -> : dprod [::] x = 1 by rewrite /dprod big_nil.
rewrite take0; have -> : aprod [:: a] sk = a + sk by rewrite /aprod big_seq1.
have -> : dprod (a :: l) x = (a - x) * dprod l x by rewrite /dprod big_cons.
have -> : aprod (a :: l) sk = (a + sk) * aprod l sk by rewrite /aprod big_cons.
move: hl; rewrite -/(aprod l sk); move: (dprod l x) (aprod l sk) ha => P Q ha hl; f_fold F; field; f_side.
Qed.

Lemma coefficients_ok sk adds dels : aprod dels sk != 0 ->
  exists2 r, create_coefficients sk adds dels = Ok r & size r = maxn (size adds) (size dels) /\ forall x,
    (x + sk) * pev r x = aprod adds sk * (dprod dels x / aprod dels sk) - dprod adds x.
Proof.
move=> h; rewrite /create_coefficients.
have [vD hD [sD eD]] := loopD_ok [::] (aprod_take h); rewrite hD; cbn [bind].
have [vA hA [sA eA]] := loopA_ok sk adds (iota 0 (size adds)) [::]; rewrite hA; cbn [bind].
eexists; first reflexivity; split.
  rewrite poly_sub_size size_map; congr maxn.
  - rewrite sA max0n; apply/eqP; rewrite eqn_leq; apply/andP; split.
      by apply/bigmax_leqP_seq => i; rewrite mem_iota size_drop; lia.
    case E: (size adds) => [//|n]; rewrite -E.
    have := @leq_bigmax_seq _ (iota 0 (size adds)) xpredT (fun i => (size (drop i.+1 adds)).+1) 0%N _ isT.
    by rewrite mem_iota size_drop E /=; move/(_ isT); rewrite subn1.
  - rewrite sD max0n; apply/eqP; rewrite eqn_leq; apply/andP; split.
      by apply/bigmax_leqP_seq => i; rewrite mem_iota size_take; case: ltnP; lia.
    case E: (size dels) => [//|n]; rewrite -E.
    have := @leq_bigmax_seq _ (iota 0 (size dels)) xpredT (fun i => (size (take i dels)).+1) n _ isT.
    by rewrite mem_iota size_take E ltnSn /=; apply; rewrite ?add0n ?ltnSn.
move=> x; rewrite pev_sub pev_scale eA eD batch_additionsE.
have -> : pev [::] x = 0 by rewrite /pev big_ord0.
rewrite !add0r mulrBr telA mulrA telD //.
by move: (dprod dels x / _) (aprod adds sk) (dprod adds x) => a b c; f_fold F; ring.
Qed.
End P.
