(** Properties C55, C56 and C57: inner product arguments and range proofs. *)
From Coq Require Import PeanoNat Field.
From mathcomp Require Import all_ssreflect all_algebra zify.
From Verif Require Import Lib.Res Lib.Bytes Lib.Inst Lib.FieldTac Lib.LmodTac Sharing.Spec
  Bulletproof.Model Bulletproof.IppProofs Bulletproof.RangeProofs.
Set Implicit Arguments.
Unset Strict Implicit.
Unset Printing Implicit Defensive.
Import GRing.Theory.
Local Open Scope ring_scope.

Section Props.
Variables (F : fieldType) (G : lmodType F).
Variables (puenc : G -> bytes) (enc : F -> bytes) (dec : bytes -> option F) (bigint : F -> nat).
Variables (xof : tlog -> bytes) (wide : bytes -> F).
Notation ipp_prove := (ipp_prove puenc xof wide).
Notation ipp_verify := (ipp_verify puenc xof wide).
Notation range_prove := (range_prove puenc enc dec bigint xof wide).
Notation range_verify := (range_verify puenc xof wide).
Notation batch_prove := (batch_prove puenc enc dec bigint xof wide).
Notation verify_batched := (verify_batched puenc xof wide).
Implicit Types (gs : gens G) (u P : G) (tr : tlog).

(* ------------------------------------------------------ specifications *)
(** <a,G> + <b,H> + <a,b> u over the first generators *)
Definition commitment gs u (a b : seq F) : G :=
  \sum_(i < size a) (a`_i *: (gG gs)`_i + b`_i *: (gH gs)`_i) + (\sum_(i < size a) a`_i * b`_i) *: u.
(** every challenge the hash gives is invertible *)
Definition no_zero_challenge := forall t, wide (xof t) != 0.
(** the transcript contents behind the challenges of the rounds *)
Fixpoint round_logs tr (Ls Rs : seq G) : seq tlog :=
  match Ls, Rs with
  | l :: Ls', r :: Rs' =>
    let t := tr ++ [:: TApp LRecL (puenc l); TApp LRecR (puenc r); TExt Lgetx 64] in t :: round_logs t Ls' Rs'
  | _, _ => [::]
  end.
(** the coefficient of the i-th generator after folding with challenges xs: the j-th challenge enters
    inverted or not according to the j-th most significant bit of i *)
Definition coeff (xs : seq F) (i : nat) : F :=
  \prod_(j < size xs) (if odd (i %/ 2 ^ (size xs - j.+1)) then xs`_j else xs`_j^-1).
Definition le_scalars := [/\ codec_ok enc dec, forall x, is_bytes (enc x), forall x y, size (enc x) = size (enc y),
  forall x, le_val (enc x) = bigint x & forall x, (bigint x)%:R = x].
Definition be_scalars := [/\ codec_ok enc dec, forall x, is_bytes (enc x), forall x y, size (enc x) = size (enc y),
  forall x, be_val (enc x) = bigint x & forall x, (bigint x)%:R = x].

Lemma statementE gs u (a b : seq F) : size a = size b -> (size a <= size (gG gs))%N -> (size a <= size (gH gs))%N ->
  statement (take (size a) (gG gs)) (take (size a) (gH gs)) u a b = commitment gs u a b.
Proof.
move=> s hg hh; rewrite /statement /commitment /gsum -s -big_split; congr (_ + _ *: _); apply: eq_bigr => i _ /=.
by rewrite !nth_take.
Qed.

(* ------------------------------------------------------ C55 *)
(** Verify on a proof made by Prove answers whether P is the commitment to (a, b), for every P *)
Theorem C55_honest_exact gs a b u tr pf tr' P :
  ipp_prove gs a b u tr = Ok (pf, tr') -> (size a < 2 ^ 63)%N ->
  ipp_verify gs P u pf tr = Ok (commitment gs u a b == P, tr').
Proof.
move=> h hs; rewrite (ipp_exact P h hs); congr (Ok (_ == _, _)).
move: h; rewrite /Model.ipp_prove; case: ifP => // _; case: eqP => //= hgh h.
binv h c ec h1; have [s _ _] := inner_ok ec; move: h1; case: ltnP => // hn _.
by rewrite statementE // -hgh.
Qed.

Theorem C55_complete gs a b u tr k : no_zero_challenge ->
  size a = (2 ^ k)%N -> size b = (2 ^ k)%N -> (k < 63)%N -> size (gG gs) = size (gH gs) -> (2 ^ k <= size (gG gs))%N ->
  exists pf tr', [/\ ipp_prove gs a b u tr = Ok (pf, tr'), getP gs a b u = Ok (commitment gs u a b) &
    ipp_verify gs (commitment gs u a b) u pf tr = Ok (true, tr')].
Proof.
move=> hw sa sb hk hgh hg; have sab : size a = size b by rewrite sa sb.
have p0 : (0 < size a)%N by rewrite sa expn_gt0.
have [pf [tr' h]] : exists pf tr', ipp_prove gs a b u tr = Ok (pf, tr').
  rewrite /Model.ipp_prove sa is_pow2_exp hgh eqxx; cbn [negb]; rewrite innerE //; cbn [bind].
  rewrite -hgh ltnNge hg; cbn [negb].
  have [||[pf tr'] h] := @prove_rec_total _ _ puenc xof wide k a b (take (2 ^ k) (gG gs)) (take (size b) (gH gs)) u [::] [::] tr (2 ^ k) hw sa sb (size_takel hg).
  - by rewrite sb size_takel // -hgh.
  - by rewrite ltnW // ltn_expl.
  by exists pf, tr'.
exists pf, tr'; split=> //; last by rewrite (C55_honest_exact _ h) ?eqxx // sa ltn_exp2l.
rewrite /getP sa is_pow2_exp hgh eqxx; cbn [negb]; rewrite innerE //; cbn [bind]; rewrite -hgh ltnNge hg; cbn [negb].
rewrite sopE ?size_takel ?sa //; cbn [bind]; rewrite sopE ?size_takel ?sb -?hgh //; cbn [bind].
rewrite -[X in _ = Ok X]statementE // ?sa // -?hgh // /statement.
Qed.

(** Prove returns an error, never a proof, for any other lengths *)
Theorem C55_bad_lengths gs a b u tr : ~ (exists k, size a = (2 ^ k)%N) \/ size a <> size b \/ (size (gG gs) < size a)%N \/ size (gG gs) <> size (gH gs) ->
  ipp_prove gs a b u tr = Err.
Proof.
move=> h; case E : (ipp_prove gs a b u tr) => [[pf tr']||] //.
- exfalso; move: E; rewrite /Model.ipp_prove; case: ifP => // _; case: eqP => //= hgh h1.
  binv h1 c ec h2; have [s _ _] := inner_ok ec; move: h2; case: ltnP => // hn h2.
  have [Ls [Rs [xs [[sl _ _ _] _ _ _ _]]]] := prove_rec_ok h2.
  by case: h => [[]|[|[|]]]; [exists (size Ls)| |rewrite ltnNge hn|].
- exfalso; move: E; rewrite /Model.ipp_prove; case: ifP => // _; case: eqP => //= hgh.
  case ec: (inner a b) => [c||] //; last by move: ec; rewrite /inner; case: ifP => //; case: ifP.
  cbn [bind]; have [s _ _] := inner_ok ec; case: ltnP => // hn; clear h.
  have : size (take (size a) (gG gs)) = size (take (size b) (gH gs)) by rewrite !size_takel -?s -?hgh.
  have : size (take (size a) (gG gs)) = size a by rewrite size_takel.
  move: (take _ _) (take _ _) => h g sg sgh; move: {1}(size a) => fuel.
  move: (nil : seq G) {1}(nil : seq G) tr => Ls Rs.
  elim: fuel a b g h Ls Rs s sg sgh {hn ec c} => [|f IH] a b g h Ls Rs s sg sgh tr; cbn [prove_rec]; rewrite s -sgh sg s !eqxx; cbn [negb]; first by case: ifP.
  case: ifP => // _.
  have spl : forall (T : Type) (l : seq T), split l = Panic -> False by move=> T l; rewrite /split; case: ifP => //; case: ifP.
  case e1: (split a) => [[aLo aHi]||] //; last by case: (spl _ _ e1).
  cbn [bind]; have [ea sa _] := split_ok e1.
  have h2 : forall (T : Type) (l : seq T), size l = size a -> exists lo hi, split l = Ok (lo, hi) /\ size lo = size aLo /\ size hi = size aLo.
    move=> T l el; move: (el); rewrite ea size_cat -sa => el'; exists (take (size aLo) l), (drop (size aLo) l).
    have t1 : size (take (size aLo) l) = size aLo by rewrite size_takel // el' leq_addr.
    have t2 : size (drop (size aLo) l) = size aLo by rewrite size_drop el' addnK.
    split=> //; rewrite -{1}(cat_take_drop (size aLo) l) split_cat ?t1 ?t2 //; by have [] := split_ok e1.
  have [bLo [bHi [-> [sb1 sb2]]]] := h2 _ b (esym s); have [gLo [gHi [-> [sg1 sg2]]]] := h2 _ g sg.
  have [hLo [hHi [-> [sh1 sh2]]]] := h2 _ h (etrans (esym sgh) sg); cbn [bind].
  have p0 : (0 < size aLo)%N by have [] := split_ok e1.
  rewrite innerE ?sb2 //; cbn [bind]; rewrite innerE ?sb1 -?sa //; cbn [bind].
  rewrite sopE ?sg2 //; cbn [bind]; rewrite sopE ?sh1 ?sb2 //; cbn [bind].
  rewrite sopE ?sg1 //; cbn [bind]; rewrite sopE ?sh2 ?sb1 //; cbn [bind].
  case: (ipp_calcx _ _ _ _ _ _) => x t'; rewrite /invert; case: (eqVneq x 0) => // hx; cbn [bind].
  have [|g' -> [sg' _]] := @addpE F G (smulp x^-1 gLo) (smulp x gHi); first by rewrite !size_smulp sg1 sg2.
  have [|h' -> [sh' _]] := @addpE F G (smulp x hLo) (smulp x^-1 hHi); first by rewrite !size_smulp sh1 sh2.
  have [|a' -> [sa' _]] := @addsE F (smuls x aLo) (smuls x^-1 aHi); first by rewrite !size_smuls sa.
  have [|b' -> [sb' _]] := @addsE F (smuls x^-1 bLo) (smuls x bHi); first by rewrite !size_smuls sb1 sb2.
  cbn [bind]; apply: IH; rewrite ?sa' ?sb' ?sg' ?sh' ?size_smuls ?size_smulp ?sb1 ?sg1 ?sh1 //.
Qed.

(** the two ways of computing the coefficients agree, on every list of challenges, and give coeff *)
Lemma svec_coeff (xs : seq F) i : (i < 2 ^ size xs)%N -> (svec xs)`_i = coeff xs i.
Proof.
elim: xs i => [|x r IH] i hi; first by move: hi; rewrite expn0 ltnS leqn0 => /eqP ->; rewrite /coeff big_ord0.
rewrite /coeff big_ord_recl /= subn1 /=.
rewrite nth_cat size_map size_svec; have hk : (0 < 2 ^ size r)%N by rewrite expn_gt0.
have e : \prod_(j < size r) (if odd (i %/ 2 ^ ((size r).+1 - (bump 0 j).+1)) then (x :: r)`_(lift ord0 j) else (x :: r)`_(lift ord0 j)^-1) = coeff r (i %% 2 ^ size r).
  apply: eq_bigr => j _ /=; rewrite /bump leq0n add1n subSS.
  have -> : odd (i %/ 2 ^ (size r - j.+1)) = odd ((i %% 2 ^ size r) %/ 2 ^ (size r - j.+1)).
    have e2 : (2 ^ size r = 2 ^ j.+1 * 2 ^ (size r - j.+1))%N by rewrite -expnD subnKC.
    have e1 : (i = (i %/ 2 ^ size r * 2 ^ j.+1) * 2 ^ (size r - j.+1) + i %% 2 ^ size r)%N by rewrite -mulnA -e2 -divn_eq.
    by rewrite {1}e1 divnMDl ?expn_gt0 // oddD oddM oddX andbF.
  by [].
rewrite e; case: ltnP => h.
  by rewrite (nth_map 0) ?size_svec // IH // modn_small // divn_small.
have h2 : (i - 2 ^ size r < 2 ^ size r)%N by rewrite ltn_subLR // addnn -mul2n -expnS.
rewrite (nth_map 0) ?size_svec // IH //.
have -> : (i %/ 2 ^ size r = 1)%N.
  by rewrite -(subnKC h) divnDl // divnn hk divn_small.
by rewrite -{2}(subnKC h) modnDl modn_small.
Qed.
Theorem C55_coefficients_agree (xs : seq F) :
  gets xs (2 ^ size xs) = gets_new xs (2 ^ size xs) /\
  (all (fun x => x != 0) xs -> gets_new xs (2 ^ size xs) = Ok [seq coeff xs i | i <- iota 0 (2 ^ size xs)]).
Proof.
have h : all (fun x => x != 0) xs -> gets_new xs (2 ^ size xs) = Ok [seq coeff xs i | i <- iota 0 (2 ^ size xs)].
  move=> ha; rewrite gets_new_ok //; congr Ok; apply: (@eq_from_nth _ 0); rewrite size_svec ?size_map ?size_iota // => i hi.
  by rewrite svec_coeff // (nth_map 0%N) ?size_iota // nth_iota.
split=> //; case: (boolP (all (fun x => x != 0) xs)) => ha; first by rewrite gets_ok // gets_new_ok.
have hz : has (fun x => x == 0) xs by move: ha; rewrite -has_predC; apply: sub_has => x /=; rewrite negbK.
by rewrite gets_err // gets_new_err // expn_gt0.
Qed.

(** what Verify accepts in general: as many Ls as Rs, enough generators, non-zero challenges, and the folded
    equation *)
Lemma getxsE tr (Ls Rs : seq G) : size Ls = size Rs ->
  exists tr', getxs puenc xof wide tr Ls Rs = Ok ([seq wide (xof t) | t <- round_logs tr Ls Rs], tr').
Proof.
elim: Ls Rs tr => [|l Ls IH] [|r Rs] tr // => [_|[h]]; first by exists tr.
cbn [getxs round_logs map]; rewrite /ipp_calcx /extract -!cats1 -!catA; cbn [cat].
by have [tr' ->] := IH _ (tr ++ [:: TApp LRecL (puenc l); TApp LRecR (puenc r); TExt Lgetx 64]) h; cbn [bind]; exists tr'.
Qed.
Lemma lr_sumE (Ls Rs : seq G) (xs : seq F) : size Rs = size Ls -> size xs = size Ls ->
  lr_sum Ls Rs xs = \sum_(j < size Ls) ((xs`_j ^+ 2) *: Ls`_j + (xs`_j ^- 2) *: Rs`_j).
Proof.
elim: Ls Rs xs => [|l Ls IH] [|r Rs] [|x xs] // => [_ _|[h1] [h2]]; first by rewrite big_ord0.
by rewrite big_ord_recl /= IH // addrA expr2.
Qed.
Theorem C55_verify_iff gs P u pf tr : (size (ip_L pf) < 63)%N ->
  let k := size (ip_L pf) in
  let xs := [seq wide (xof t) | t <- round_logs tr (ip_L pf) (ip_R pf)] in
  (exists tr', ipp_verify gs P u pf tr = Ok (true, tr')) <->
  [/\ size (ip_R pf) = k, size (gG gs) = size (gH gs) /\ (2 ^ k <= size (gG gs))%N, all (fun x => x != 0) xs &
   \sum_(i < 2 ^ k) ((ip_a pf * coeff xs i) *: (gG gs)`_i + (ip_b pf / coeff xs i) *: (gH gs)`_i) + (ip_a pf * ip_b pf) *: u =
   P + \sum_(j < k) ((xs`_j ^+ 2) *: (ip_L pf)`_j + (xs`_j ^- 2) *: (ip_R pf)`_j)].
Proof.
move=> hk k xs; rewrite /Model.ipp_verify.
case: (eqVneq (size (ip_L pf)) (size (ip_R pf))) => [hLR|/eqP hLR]; last by split=> [[]|[]] // e; case: hLR.
case: (eqVneq (size (gG gs)) (size (gH gs))) => [hGH|/eqP hGH]; last by split=> [[]|[_ []]].
cbn [negb]; rewrite shl1E //; cbn [deref bind]; case: ltnP => hn; first by split=> [[]|[_ [_]]] //; rewrite leqNgt hn.
have [tr' e] := getxsE tr hLR; rewrite e -/xs; cbn [bind].
have sx : size xs = k := getxs_size e.
case: (boolP (all (fun x => x != 0) xs)) => ha; last first.
  have hz : has (fun x => x == 0) xs by move: ha; rewrite -has_predC; apply: sub_has => x /=; rewrite negbK.
  by rewrite gets_new_err ?expn_gt0 //; split=> [[]|[]].
have -> : gets_new xs (2 ^ size (ip_L pf)) = Ok (svec xs) by rewrite -[size (ip_L pf)]/k -sx gets_new_ok.
cbn [bind]; rewrite get_lhs_ok ?size_takel ?sx // -?hGH //; cbn [bind]; rewrite /get_rhs rhs_ok //; cbn [bind].
rewrite lr_sumE //.
have -> : ip_a pf *: gsum (take (2 ^ k) (gG gs)) (svec xs) + ip_b pf *: gsum (take (2 ^ k) (gH gs)) (isvec xs) =
   \sum_(i < 2 ^ k) ((ip_a pf * coeff xs i) *: (gG gs)`_i + (ip_b pf / coeff xs i) *: (gH gs)`_i).
  rewrite /gsum size_map size_svec sx !scaler_sumr -big_split; apply: eq_bigr => i _ /=.
  by rewrite !nth_take // (nth_map 0) ?size_svec ?sx // svec_coeff ?sx // !scalerA.
split=> [[t [/eqP E _]]|[_ _ _ E]]; first by split.
by exists tr'; congr (Ok (_, _)); apply/eqP.
Qed.

(* ------------------------------------------------------ C56 *)
Lemma le_ok : le_scalars -> enc_ok enc dec. Proof. by case. Qed.
Lemma be_ok : be_scalars -> enc_ok enc dec. Proof. by case. Qed.
Notation zch tr Vs pf := (wide (xof (z_of puenc tr Vs pf))).
Notation wch tr Vs pf := (wide (xof (w_of puenc tr Vs pf))).

(** with little-endian scalars the proof made by Prove verifies exactly when v < 2^n (or a challenge or the
    point u is zero) *)
Theorem C56_honest_exact gs v gamma n pp tr alpha fL fR rho tau1 tau2 pf tr' : le_scalars ->
  range_prove gs v gamma (Posz n) pp tr alpha fL fR rho tau1 tau2 = Ok (pf, tr') -> (n < 2 ^ 63)%N ->
  let V := gamma *: ph pp + v *: pg pp in
  (bigint v <= 2 ^ n)%N /\
  range_verify gs pf V pp (Posz n) tr =
  Ok ((bigint v < 2 ^ n)%N || (zch tr [:: V] pf * wch tr [:: V] pf * 2%:R ^+ n == 0) || (pu pp == 0), tr').
Proof.
move=> hle hp hn V; have [N [[eN] _ hb]] := range_exact (le_ok hle) hp hn; rewrite -{}eN in hb * => ->; split=> //.
case: hle => _ hby _ hle hv; rewrite bitval_le // hle; congr (Ok (_, _)).
move: hb; rewrite leq_eqVlt => /orP[/eqP e|h]; last by rewrite h /= modn_small // hv subrr mulr0 scale0r eqxx.
rewrite e ltnn modnn subr0 -[X in _ * X]hv e natrX scaler_eq0; congr (_ || _).
by rewrite !mulf_eq0 orbb.
Qed.

Theorem C56_complete gs v gamma k pp tr alpha fL fR rho tau1 tau2 : le_scalars -> no_zero_challenge ->
  (0 < k < 63)%N -> (2 ^ k <= size (gG gs))%N -> (2 ^ k <= size (gH gs))%N -> (2 ^ k <= 8 * size (enc v))%N -> (bigint v < 2 ^ (2 ^ k))%N ->
  exists pf tr', range_prove gs v gamma (Posz (2 ^ k)) pp tr alpha fL fR rho tau1 tau2 = Ok (pf, tr') /\
    range_verify gs pf (gamma *: ph pp + v *: pg pp) pp (Posz (2 ^ k)) tr = Ok (true, tr').
Proof.
move=> hle hw /andP[k0 k63] hg hh hN hv.
have [[pf tr'] h] := @range_total _ _ puenc enc dec bigint xof wide gs v gamma k pp tr alpha fL fR rho tau1 tau2 (le_ok hle) hw k0 hg hh (ltnW hv) hN.
exists pf, tr'; split=> //; have [|_ ->] := C56_honest_exact hle h; first by rewrite ltn_exp2l.
by rewrite hv.
Qed.

(** Finding: v = 2^n is accepted by Prove, and the proof never verifies *)
Theorem C56_upper_bound_refuted gs v gamma k pp tr alpha fL fR rho tau1 tau2 : le_scalars -> no_zero_challenge ->
  (0 < k < 63)%N -> (2 ^ k <= size (gG gs))%N -> (2 ^ k <= size (gH gs))%N -> (2 ^ k <= 8 * size (enc v))%N ->
  bigint v = (2 ^ (2 ^ k))%N -> (2%:R : F) != 0 -> pu pp != 0 ->
  exists pf tr', range_prove gs v gamma (Posz (2 ^ k)) pp tr alpha fL fR rho tau1 tau2 = Ok (pf, tr') /\
    range_verify gs pf (gamma *: ph pp + v *: pg pp) pp (Posz (2 ^ k)) tr = Ok (false, tr').
Proof.
move=> hle hw /andP[k0 k63] hg hh hN hv h2 hu.
have [[pf tr'] h] := @range_total _ _ puenc enc dec bigint xof wide gs v gamma k pp tr alpha fL fR rho tau1 tau2 (le_ok hle) hw k0 hg hh (eq_leq hv) hN.
exists pf, tr'; split=> //; have [|_ ->] := C56_honest_exact hle h; first by rewrite ltn_exp2l.
by rewrite hv ltnn !mulf_eq0 !(negbTE (hw _)) expf_eq0 (negbTE h2) (negbTE hu) andbF.
Qed.

(** Finding: with big-endian scalars (K256, P256, BLS12-381) the bits committed to are those of the most
    significant bytes, so that no proof of a small non-zero value verifies *)
Lemma be_high_zero b k : is_bytes b -> (be_val b < 256 ^ (size b - k))%N -> (k <= size b)%N -> forall i, (i < k)%N -> nth 0%N b i = 0%N.
Proof.
elim: b k => [|x b IH] k; first by move=> _ _ _ i _; rewrite nth_nil.
move=> /andP[hx hb]; rewrite be_val_cons => hv hk; case: k hv hk => // k hv hk.
have x0 : x = 0%N.
  apply/eqP; rewrite -leqn0 leqNgt; apply/negP => hx0; move: hv; rewrite ltnNge subSS => /negP; apply.
  by apply: (leq_trans (_ : _ <= 256 ^ size b)%N); [rewrite leq_exp2l // leq_subr|apply: leq_trans (leq_addr _ _); rewrite leq_pmull].
case=> [|i] hi //; apply: (IH k) => //; by move: hv; rewrite x0 mul0n add0n subSS.
Qed.
Theorem C56_big_endian_refuted gs v gamma n pp tr alpha fL fR rho tau1 tau2 pf tr' : be_scalars -> no_zero_challenge ->
  range_prove gs v gamma (Posz n) pp tr alpha fL fR rho tau1 tau2 = Ok (pf, tr') -> (n < 2 ^ 63)%N ->
  v != 0 -> (bigint v < 256 ^ (size (enc v) - (n + 7) %/ 8))%N -> pu pp != 0 ->
  range_verify gs pf (gamma *: ph pp + v *: pg pp) pp (Posz n) tr = Ok (false, tr').
Proof.
move=> hbe hw hp hn v0 hv hu; have [N [[eN] /andP[_ hN] hb ->]] := range_exact (be_ok hbe) hp hn.
rewrite -{}eN in hN hb *; case: hbe => _ hby _ hbe _; rewrite -hbe in hv.
have h8 : ((n + 7) %/ 8 <= size (enc v))%N by rewrite -ltnS ltn_divLR // mulnC mulnS; lia.
have hz := be_high_zero (hby v) hv h8.
have -> : bitval (enc v) n = 0%N.
  apply: big1 => i _; rewrite /bit hz ?div0n ?mod0n //; rewrite ltn_divLR //.
  by have := divn_eq (n + 7) 8; have := ltn_pmod (n + 7) (isT : 0 < 8)%N; have := ltn_ord i; lia.
by lazy zeta; rewrite subr0 scaler_eq0 !mulf_eq0 !(negbTE (hw _)) (negbTE v0) (negbTE hu).
Qed.

(** Finding: the prover panics, instead of returning an error or a proof, for n = 1, for a negative n, and
    when n exceeds the number of bits of an encoded scalar *)
Theorem C56_prove_panics gs v gamma n pp tr alpha fL fR rho tau1 tau2 : enc_ok enc dec ->
  (forall k, n = Posz k -> (k <= size (gG gs))%N && (k <= size (gH gs))%N && (bigint v <= 2 ^ k)%N) ->
  n = Posz 1 \/ (n < 0)%R \/ (exists k, n = Posz k /\ (8 * size (enc v) < k)%N) ->
  range_prove gs v gamma n pp tr alpha fL fR rho tau1 tau2 = Panic.
Proof.
move=> he hk; case=> [en|[|[k [en hb]]]]; last first.
- move: (hk _ en) => /andP[/andP[h1 h2] h3]; rewrite en /Model.range_prove; cbn [trim].
  by rewrite ltnNge h1 ltnNge h2; cbn [negb bind]; rewrite ltnNge h3; cbn [negb]; rewrite getaL_panic.
- by case: n hk.
move: (hk 1%N en) => /andP[/andP[h1 h2] h3].
rewrite en /Model.range_prove; cbn [trim]; rewrite ltnNge h1 ltnNge h2; cbn [negb bind]; rewrite ltnNge h3; cbn [negb].
have sg := size_takel h1; have sh := size_takel h2; move: (take 1 (gG gs)) (take 1 (gH gs)) sg sh => g h sg sh.
case: (leqP 1 (8 * size (enc v))) => hb; last by rewrite getaL_panic.
rewrite getaLE //; cbn [bind]; set aL := map _ _; have saL : size aL = 1%N by [].
have [|aR -> [saR _]] := @subsE F aL (get1n F 1); first by rewrite saL.
rewrite saL in saR; cbn [bind]; rewrite sopE ?sg ?saL //; cbn [bind]; rewrite sopE ?sh ?saR //; cbn [bind].
rewrite sopE ?sg //; cbn [bind]; rewrite sopE ?sh //; cbn [bind].
case: (calc_yz _ _ _ _ _ _ _) => [[y z] tr1].
have [|cl -> _] := @subsE F aL (smuls z (get1n F 1)); first by rewrite saL size_smuls.
cbn [bind get2n]; by have [|aRz -> _] := @addsE F aR (smuls z (get1n F 1)); first by rewrite saR size_smuls.
Qed.

(** Finding: VerifyFromRangeProof does not compare the lengths, so that cutting the Rs of an honest proof
    makes the verifier panic *)
Lemma getxs_panic tr (Ls Rs : seq G) : (size Rs < size Ls)%N -> getxs puenc xof wide tr Ls Rs = Panic.
Proof.
elim: Ls Rs tr => [|l Ls IH] [|r Rs] tr // h; cbn [getxs]; case: (ipp_calcx _ _ _ _ _ _) => x t.
by rewrite IH.
Qed.
Definition with_ipp (pf : rproof G) (i : ipp G) : rproof G :=
  RProof (r_A pf) (r_S pf) (r_T1 pf) (r_T2 pf) (r_taux pf) (r_mu pf) (r_tHat pf) i.
Theorem C56_verify_panics gs V pp n tr pf res i : range_verify gs pf V pp n tr = Ok res ->
  (size (ip_R i) < size (ip_L i))%N -> range_verify gs (with_ipp pf i) V pp n tr = Panic.
Proof.
rewrite /Model.range_verify => H hs; binv H t0 et H1; move: t0 et H1 => [[N g] h] ->; cbn [bind].
cbn [with_ipp r_A r_S r_T1 r_T2 r_ipp r_tHat r_mu].
case: (calc_yz _ _ _ _ _ _ _) => [[y z] tr1]; case: (calc_x _ _ _ _ _ _) => x tr2; case: (extract _ _ _ _) => w tr3.
case: (deltayz _ _ _) => // delta; cbn [bind]; rewrite /check_that; cbn [with_ipp r_T1 r_T2 r_tHat r_taux].
case: ifP => // _; case: (gethPrime _ _) => // h'; cbn [bind]; case: (getPhmu _ _ _ _ _ _ _ _ _ _) => // Ph; cbn [bind] => _.
by rewrite /verify_from_range getxs_panic.
Qed.

(* ------------------------------------------------------ C57 *)
(** the batched proof verifies exactly when the weighted errors cancel; they are all zero when every value is
    in range *)
Theorem C57_honest_exact gs vs gammas n pp tr alpha fL fR rho tau1 tau2 pf tr' Vs : le_scalars ->
  batch_prove gs vs gammas (Posz n) pp tr alpha fL fR rho tau1 tau2 = Ok (pf, tr') -> (n * size vs < 2 ^ 63)%N ->
  size Vs = size vs -> (forall j, (j < size vs)%N -> Vs`_j = gammas`_j *: ph pp + vs`_j *: pg pp) ->
  let z := zch tr Vs pf in
  [/\ (1 < size vs <= size gammas)%N, all (fun v => bigint v <= 2 ^ n)%N vs &
  verify_batched gs pf Vs pp (Posz n) tr =
  Ok ((z * wch tr Vs pf * (\sum_(j < size vs | bigint vs`_j == (2 ^ n)%N) z ^+ j * 2%:R ^+ n) == 0) || (pu pp == 0), tr')].
Proof.
move=> hle hp hn sV nV z; have [N [Vs' [[eN] [hm _] hb [sV' nV'] h]]] := batch_exact (le_ok hle) hp hn; rewrite -{}eN in hb h.
have eV : Vs = Vs' by apply: (@eq_from_nth _ 0) => [|j]; rewrite sV ?sV' // => hj; rewrite nV // nV'.
split=> //; rewrite eV h; congr (Ok (_, _)); case: hle => _ hby _ hle hv.
rewrite -eV -/z scaler_eq0; congr (_ || _).
have -> : \sum_(j < size vs) z ^+ j * (vs`_j - (bitval (enc vs`_j) n)%:R) =
   \sum_(j < size vs | bigint vs`_j == (2 ^ n)%N) z ^+ j * 2%:R ^+ n.
  rewrite [RHS]big_mkcond; apply: eq_bigr => j _; rewrite bitval_le // hle.
  have := allP hb _ (mem_nth 0 (ltn_ord j)); rewrite leq_eqVlt => /orP[/eqP e|hlt].
    by rewrite e eqxx modnn subr0 -[X in _ * X]hv e natrX.
  by rewrite (modn_small hlt) hv subrr mulr0 ifF //; apply/negbTE; rewrite neq_ltn hlt.
by rewrite !mulf_eq0 orbb.
Qed.

Theorem C57_complete gs vs gammas k j pp tr alpha fL fR rho tau1 tau2 : le_scalars -> no_zero_challenge ->
  size vs = (2 ^ j)%N -> (0 < j)%N -> (k + j < 63)%N -> (size vs <= size gammas)%N ->
  (2 ^ k * size vs <= size (gG gs))%N -> (2 ^ k * size vs <= size (gH gs))%N ->
  all (fun v => bigint v < 2 ^ (2 ^ k))%N vs -> all (fun v => 2 ^ k <= 8 * size (enc v))%N vs ->
  exists pf tr', batch_prove gs vs gammas (Posz (2 ^ k)) pp tr alpha fL fR rho tau1 tau2 = Ok (pf, tr') /\
    verify_batched gs pf [seq x.1 *: ph pp + x.2 *: pg pp | x <- zip gammas vs] pp (Posz (2 ^ k)) tr = Ok (true, tr').
Proof.
move=> hle hw hm j0 hkj hgm hg hh hv hN.
have hv' : all (fun v => bigint v <= 2 ^ (2 ^ k))%N vs by apply: sub_all hv => v /ltnW.
have [[pf tr'] h] := @batch_total _ _ puenc enc dec bigint xof wide gs vs gammas k j pp tr alpha fL fR rho tau1 tau2 (le_ok hle) hw hm j0 hgm hg hh hv' hN.
exists pf, tr'; split=> //.
have sz : size (zip gammas vs) = size vs by rewrite size2_zip.
set Vs := map _ _; have sV : size Vs = size vs by rewrite size_map sz.
have nV : forall i, (i < size vs)%N -> Vs`_i = gammas`_i *: ph pp + vs`_i *: pg pp.
  move=> i hi; rewrite (nth_map (0, 0)) ?sz // nth_zip_cond sz hi //.
have [|_ _ ->] := C57_honest_exact hle h _ sV nV; first by rewrite hm -expnD ltn_exp2l.
rewrite big_pred0 ?mulr0 ?eqxx // => i; apply/negbTE; rewrite neq_ltn.
by rewrite (allP hv) // mem_nth.
Qed.

(** Finding: a batch of one value makes both sides panic *)
Theorem C57_single_value_refuted gs v gamma n pp tr alpha fL fR rho tau1 tau2 : enc_ok enc dec ->
  (forall t, wide (xof t) != 0) -> (1 < n)%N -> (n <= size (gG gs))%N -> (n <= size (gH gs))%N ->
  (bigint v <= 2 ^ n)%N -> (n <= 8 * size (enc v))%N ->
  batch_prove gs [:: v] [:: gamma] (Posz n) pp tr alpha fL fR rho tau1 tau2 = Panic /\
  forall pf, verify_batched gs pf [:: gamma *: ph pp + v *: pg pp] pp (Posz n) tr = Panic.
Proof.
move=> he hw N1 hg hh hv hN; split; last first.
  move=> pf; rewrite /Model.verify_batched /trim_batched mulr1; cbn [trim]; rewrite ltnNge hg ltnNge hh; cbn [negb bind].
  case: (calc_yz _ _ _ _ _ _ _) => [[y z] tr1]; case: (calc_x _ _ _ _ _ _) => x tr2; case: (extract _ _ _ _) => w tr3.
  by rewrite deltaybE ?muln1.
rewrite /Model.batch_prove /trim_batched mulr1; cbn [trim]; rewrite ltnNge hg ltnNge hh; cbn [negb bind size].
rewrite [has _ _]/= ltnNge hv; cbn [negb orb].
have sg := size_takel hg; have sh := size_takel hh; move: (take n (gG gs)) (take n (gH gs)) sg sh => g h sg sh.
cbn [getaL_batched]; rewrite getaLE //; cbn [bind]; rewrite cats0 muln1.
set aL := map _ _; have saL : size aL = n by rewrite size_map size_iota.
have [|aR -> [saR _]] := @subsE F aL (get1n F n); first by rewrite saL size_nseq.
rewrite saL in saR; cbn [bind]; rewrite sopE ?sg ?saL //; cbn [bind]; rewrite sopE ?sh ?saR //; cbn [bind].
have sbl : forall f, size (blinding n f : seq F) = n by move=> f; rewrite size_map size_iota.
move: (blinding n fL) (blinding n fR) (sbl fL) (sbl fR) => sL sR ssL ssR.
rewrite sopE ?sg ?ssL //; cbn [bind]; rewrite sopE ?sh ?ssR //; cbn [bind capV_batched].
case: (calc_yz _ _ _ _ _ _ _) => [[y z] tr1].
have [|cl -> [scl _]] := @subsE F aL (smuls z (get1n F n)); first by rewrite saL size_smuls size_nseq.
rewrite saL in scl; cbn [bind]; have [tw etw] := get2n_total F (ltnW N1); have [_ stw _] := get2n_ok etw; rewrite etw; cbn [bind].
have [|aRz -> [saRz _]] := @addsE F aR (smuls z (get1n F n)); first by rewrite saR size_smuls size_nseq.
rewrite saR in saRz; cbn [bind]; have [yn eyn] := getkn_total y N1; have [_ syn _] := getkn_ok eyn; rewrite eyn; cbn [bind].
have [|hd -> [shd _]] := @mulsE F yn aRz; first by rewrite syn saRz.
rewrite syn in shd; cbn [bind]; have [|cr -> [scr _]] := @addsE F hd (sum_term z z tw 1); first by rewrite shd size_sum_term stw muln1.
rewrite shd in scr; cbn [bind]; have [|lr -> [slr _]] := @mulsE F yn sR; first by rewrite syn ssR.
rewrite syn in slr; cbn [bind]; rewrite innerE ?ssL ?scr ?(ltnW N1) //; cbn [bind].
rewrite innerE ?slr ?scl ?(ltnW N1) //; cbn [bind]; rewrite innerE ?ssL ?slr ?(ltnW N1) //; cbn [bind].
case: (calc_x _ _ _ _ _ _) => x tr2.
have [|l -> [sl _]] := @addsE F cl (smuls x sL); first by rewrite scl size_smuls ssL.
rewrite scl in sl; cbn [bind]; by have [|r -> [sr _]] := @addsE F cr (smuls x lr); first by rewrite scr size_smuls slr.
Qed.
End Props.

Print Assumptions C55_honest_exact.
Print Assumptions C55_complete.
Print Assumptions C55_bad_lengths.
Print Assumptions C55_coefficients_agree.
Print Assumptions C55_verify_iff.
Print Assumptions C56_honest_exact.
Print Assumptions C56_complete.
Print Assumptions C56_upper_bound_refuted.
Print Assumptions C56_big_endian_refuted.
Print Assumptions C56_prove_panics.
Print Assumptions C56_verify_panics.
Print Assumptions C57_honest_exact.
Print Assumptions C57_complete.
Print Assumptions C57_single_value_refuted.

(* ------------------------------------------------------ the hypotheses are met *)
Section Examples.
Let okb (A : Type) (o : outcome A) : bool := if o is Ok _ then true else false.
Let okv (o : outcome (bool * tlog)) : bool := if o is Ok (b, _) then b else false.
Let rjv (o : outcome (bool * tlog)) : bool := if o is Ok (b, _) then ~~ b else false.
Let pu0 (P : G257) : bytes := [:: P : nat].
Let big (x : F257) : nat := x.
Let encl (x : F257) : bytes := le_bytes 2 x.
Let decl (b : bytes) : option F257 := Some (le_val b)%:R.
Let encb (x : F257) : bytes := rev (le_bytes 2 x).
Let decb (b : bytes) : option F257 := Some (be_val b)%:R.
Let xf (t : tlog) : bytes := [:: size t].
Let wd (b : bytes) : F257 := ((head 0%N b) %% 255).+2%:R.

Lemma nat257_lt (x : F257) : ((x : nat) < 257)%N.
Proof. exact: ltn_ord. Qed.
Example C56_le_hyps : le_scalars encl decl big /\ no_zero_challenge xf wd.
Proof.
have hlt : forall x : F257, ((x : nat) < 256 ^ 2)%N by move=> x; apply: leq_trans (nat257_lt x) _.
split; last first.
  move=> t; rewrite /wd; have := ltn_pmod (head 0%N (xf t)) (isT : 0 < 255)%N; move: (_ %% _)%N => m hm.
  by rewrite -[0]/(0%:R) natr257 modn_small // !ltnS (leq_trans hm).
split=> [x|x|x y|x|x].
- by rewrite /decl /encl le_bytesK // natr_Zp.
- exact: is_bytes_le.
- by rewrite !size_le_bytes.
- by rewrite le_bytesK.
- exact: natr_Zp.
Qed.

Example C56_be_hyps : be_scalars encb decb big.
Proof.
have hlt : forall x : F257, ((x : nat) < 256 ^ 2)%N by move=> x; apply: leq_trans (nat257_lt x) _.
have bv : forall x, be_val (encb x) = x by move=> x; rewrite /encb -[be_val (rev _)]/(le_val _) le_bytesK.
split=> [x|x|x y|x|x] //.
- by rewrite /decb bv natr_Zp.
- by rewrite /is_bytes /encb all_rev; exact: (is_bytes_le 2 x).
- exact: natr_Zp.
Qed.

Let gs8 : gens G257 := Gens [:: 3%:R; 5%:R; 7%:R; 11%:R; 13%:R; 17%:R; 19%:R; 23%:R : G257] [:: 29%:R; 31%:R; 37%:R; 41%:R; 43%:R; 47%:R; 53%:R; 59%:R].
Let pp : pgens G257 := PGens (61%:R : G257) 67%:R 71%:R.
Let tr0 : tlog := [:: TApp Lgetx [:: 1; 2]%N].
Let P0 : G257 := 100%:R.
Let rnd (i : nat) : F257 := (7 * i + 3)%N%:R.
(** a proof over four coordinates: accepted for its own statement and refused for another *)
Example C55_hyps : let a : seq F257 := [:: 3%:R; 5%:R; 7%:R; 9%:R] in let b : seq F257 := [:: 2%:R; 4%:R; 6%:R; 8%:R] in
  (if (do pf <- ipp_prove pu0 xf wd gs8 a b P0 tr0; do P <- getP gs8 a b P0; Ok (pf, P)) is Ok (pf, t, P) then
   [&& size (ip_L pf) == 2%N, okv (ipp_verify pu0 xf wd gs8 P P0 pf tr0) & rjv (ipp_verify pu0 xf wd gs8 (P + 1) P0 pf tr0)] else false).
Proof. by vm_compute. Qed.
(** 8-bit proofs of 200 and of 2^8 with little-endian scalars, and of 200 with big-endian ones *)
Let run e d v n := if range_prove pu0 e d big xf wd gs8 (v%:R : F257) 9%:R n pp tr0 8%:R rnd rnd 5%:R 6%:R 7%:R is Ok (pf, t)
  then Some (range_verify pu0 xf wd gs8 pf ((9%:R : F257) *: ph pp + (v%:R : F257) *: pg pp) pp n tr0) else None.
Example C56_hyps : [&& (if run encl decl 200 (Posz 8) is Some o then okv o else false),
  (if run encl decl 256 (Posz 8) is Some o then rjv o else false),
  (if run encb decb 200 (Posz 8) is Some o then rjv o else false),
  (pu pp != 0), (2%:R : F257) != 0 & (big 200%:R < 256 ^ (size (encb 200%:R) - (8 + 7) %/ 8))%N].
Proof. by vm_compute. Qed.
(** two 4-bit values in a batch; one of them out of range *)
Let brun vs n := let vs : seq F257 := [seq x%:R | x <- vs] in
  if batch_prove pu0 encl decl big xf wd gs8 vs [:: 9%:R; 10%:R] n pp tr0 8%:R rnd rnd 5%:R 6%:R 7%:R is Ok (pf, t)
  then Some (verify_batched pu0 xf wd gs8 pf [seq x.1 *: ph pp + x.2 *: pg pp | x <- zip [:: 9%:R; 10%:R] vs] pp n tr0) else None.
Example C57_hyps : (if brun [:: 3; 15]%N (Posz 4) is Some o then okv o else false) &&
  (if brun [:: 3; 16]%N (Posz 4) is Some o then rjv o else false) && (if brun [:: 3]%N (Posz 4) is None then true else false).
Proof. by vm_compute. Qed.
End Examples.
