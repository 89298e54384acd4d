From Coq Require Import NArith.
From mathcomp Require Import all_ssreflect all_algebra zify.
From Verif Require Import Lib.Bytes Core.HashModel Core.HashProofs OT.GfModel.
Set Implicit Arguments. Unset Strict Implicit. Unset Printing Implicit Defensive.
Import GRing.Theory Pdiv.Field.
Local Open Scope ring_scope.

Notation K := 'F_2.
(** the polynomial over GF(2) whose coefficients are the bits of w *)
Definition PP (w : N) : {poly K} := \poly_(i < N.to_nat w) (N.testbit w (N.of_nat i))%:R.

Lemma testbit_ge w i : (N.to_nat w <= i)%N -> N.testbit w (N.of_nat i) = false.
Proof.
move=> h; case: (N.eq_dec w 0%num) => [->|nz]; first by rewrite N.bits_0.
apply: N.bits_above_log2; have := N.log2_lt_lin w; lia.
Qed.

Lemma PP_coef w i : (PP w)`_i = (N.testbit w (N.of_nat i))%:R.
Proof. by rewrite coef_poly; case: ltnP => // h; rewrite testbit_ge. Qed.

Lemma boolF (a b : bool) : (a%:R == b%:R :> K) = (a == b).
Proof. by case: a; case: b. Qed.
Lemma boolF_add (a b : bool) : ((a (+) b)%:R = a%:R + b%:R :> K).
Proof. by case: a; case: b; apply/eqP. Qed.

Lemma PP_inj w v : PP w = PP v -> w = v.
Proof.
move=> e; apply: N.bits_inj => i; have := congr1 (fun p : {poly K} => p`_(N.to_nat i)) e.
by rewrite !PP_coef N2Nat.id => /eqP; rewrite boolF => /eqP.
Qed.

Lemma PP0 : PP 0%num = 0.
Proof. by apply/polyP => i; rewrite PP_coef coef0 N.bits_0. Qed.

Lemma PP_lxor w v : PP (N.lxor w v) = PP w + PP v.
Proof. by apply/polyP => i; rewrite coefD !PP_coef N.lxor_spec -boolF_add; case: N.testbit; case: N.testbit. Qed.

Lemma PP_shiftl w k : PP (N.shiftl w (N.of_nat k)) = 'X^k * PP w.
Proof.
apply/polyP => i; rewrite coefXnM !PP_coef; case: ltnP => h.
  by rewrite N.shiftl_spec_low //; lia.
rewrite N.shiftl_spec_high'; last by lia.
by congr (_%:R); congr N.testbit; lia.
Qed.

Lemma PP_split w k : PP w = PP (N.modulo w (N.shiftl 1 (N.of_nat k))) + 'X^k * PP (N.shiftr w (N.of_nat k)).
Proof.
apply/polyP => i; rewrite coefD coefXnM !PP_coef N.shiftl_1_l.
case: ltnP => h; first by rewrite N.mod_pow2_bits_low ?addr0 //; lia.
rewrite N.mod_pow2_bits_high ?add0r; last by lia.
by rewrite N.shiftr_spec'; congr (_%:R); congr N.testbit; lia.
Qed.

Definition wok (w : N) := N.lt w w64.

Lemma wok_bits w i : wok w -> (64 <= i)%N -> N.testbit w (N.of_nat i) = false.
Proof.
rewrite /wok /w64 N.shiftl_1_l => h hi; case: (N.eq_dec w 0%num) => [->|nz]; first by rewrite N.bits_0.
apply: N.bits_above_log2; apply N.log2_lt_pow2 in h; lia.
Qed.

Lemma wokP w : (forall i, (64 <= i)%N -> N.testbit w (N.of_nat i) = false) -> wok w.
Proof.
move=> h; rewrite /wok /w64 N.shiftl_1_l; case: (N.eq_dec w 0%num) => [->|nz]; first by lia.
apply N.log2_lt_pow2; first by lia.
case: (N.lt_ge_cases (N.log2 w) 64) => // hl.
have := N.bit_log2 w nz; rewrite -{1}(N2Nat.id (N.log2 w)) h //; lia.
Qed.

Lemma wok_lxor w v : wok w -> wok v -> wok (N.lxor w v).
Proof. by move=> h1 h2; apply: wokP => i hi; rewrite N.lxor_spec !wok_bits. Qed.
Lemma wok_lor w v : wok w -> wok v -> wok (N.lor w v).
Proof. by move=> h1 h2; apply: wokP => i hi; rewrite N.lor_spec !wok_bits. Qed.
Lemma wok_shl w k : wok (shl w k).
Proof. by rewrite /wok /shl; apply: N.mod_lt. Qed.
Lemma wok_shr w k : wok w -> wok (shr w k).
Proof.
move=> h; apply: wokP => i hi; rewrite /shr N.shiftr_spec' -Nnat.Nat2N.inj_add wok_bits //; lia.
Qed.
Lemma wok0 : wok 0%num. Proof. by []. Qed.

Lemma shl_shr w s : (s <= 64)%N -> 'X^s * PP w = PP (shl w s) + 'X^64 * PP (shr w (64 - s)).
Proof.
move=> hs; rewrite -PP_shiftl (PP_split _ 64) /shl /shr /w64; congr (_ + _ * PP _).
apply: N.bits_inj => i; rewrite !N.shiftr_spec'.
case: (N.lt_ge_cases (i + N.of_nat 64) (N.of_nat s)) => h; first by lia.
rewrite N.shiftl_spec_high' //; congr N.testbit; lia.
Qed.

(** vectors of words *)
Fixpoint PW (l : seq N) : {poly K} := match l with [::] => 0 | x :: l' => PP x + 'X^64 * PW l' end.

Lemma PW_nseq n : PW (nseq n 0%num) = 0.
Proof. by elim: n => //= n ->; rewrite PP0 mulr0 addr0. Qed.

Lemma PW_cat l l' : PW (l ++ l') = PW l + 'X^(64 * size l) * PW l'.
Proof.
elim: l => [|x l IH]; first by rewrite muln0 expr0 mul1r add0r.
by rewrite [size _]/= mulnS exprD cat_cons /= IH mulrDr addrA mulrA.
Qed.

Lemma PW_upd l i y : (i < size l)%N ->
  PW (wupd l i (fun x => N.lxor x y)) = PW l + 'X^(64 * i) * PP y.
Proof.
rewrite /wupd /wnth; elim: l i => [|x l IH] [|i] // hi.
  by rewrite /= PP_lxor muln0 expr0 mul1r -!addrA [PP y + _]addrC.
cbn [set_nth nth PW]; rewrite IH // mulnS exprD mulrDr addrA mulrA //.
Qed.

Lemma size_upd l i f : (i < size l)%N -> size (wupd l i f) = size l.
Proof. by move=> h; rewrite size_set_nth; apply/maxn_idPr. Qed.

Lemma nth_upd l i j f : wnth (wupd l i f) j = if j == i then f (wnth l i) else wnth l j.
Proof. by rewrite /wnth /wupd nth_set_nth. Qed.

Lemma take_upd l i n f : (i < n)%N -> (n <= size l)%N -> take n (wupd l i f) = wupd (take n l) i f.
Proof.
move=> hi hn; have hs : (i < size l)%N by apply: leq_trans hi hn.
apply: (@eq_from_nth _ 0%num).
  rewrite size_takel ?size_upd // ?size_takel //.
rewrite size_takel ?size_upd // => j hj; rewrite nth_take //.
rewrite -!/(wnth _ _) !nth_upd; case: eqP => _; by rewrite /wnth nth_take.
Qed.

(** adding masked rows *)
Lemma addrow_gen c b j m (s : seq nat) : all (fun i => j + i < size c)%N s ->
  let c' := foldl (fun c i => wupd c (j + i) (fun x => N.lxor x (N.land (wnth b i) m))) c s in
  size c' = size c /\
  PW c' = PW c + 'X^(64 * j) * \sum_(i <- s) 'X^(64 * i) * PP (N.land (wnth b i) m).
Proof.
elim: s c => [|i s IH] c /=; first by rewrite big_nil mulr0 addr0.
case/andP => hi hs; have h1 := size_upd (fun x => N.lxor x (N.land (wnth b i) m)) hi.
have [|e1 e2] := IH (wupd c (j + i) (fun x => N.lxor x (N.land (wnth b i) m))); first by rewrite h1.
rewrite e1 e2 h1 PW_upd //; split=> //; rewrite big_cons mulrDr mulrA -exprD -mulnDr addrA //.
Qed.

Lemma PW_sum l : PW l = \sum_(i < size l) 'X^(64 * i) * PP (wnth l i).
Proof.
elim: l => [|x l IH]; first by rewrite big_ord0.
rewrite [size _]/= big_ord_recl muln0 expr0 mul1r /= IH mulr_sumr; congr (_ + _).
by apply: eq_bigr => i _; rewrite mulrA -exprD -mulnS.
Qed.

Definition woks (l : seq N) := forall i, wok (wnth l i).
Lemma woks_upd l i f : woks l -> wok (f (wnth l i)) -> woks (wupd l i f).
Proof. by move=> h hf j; rewrite nth_upd; case: eqP. Qed.

Lemma mask_land w k v : wok v -> N.land v (mask w k) = if N.testbit w (N.of_nat k) then v else 0%num.
Proof.
move=> hv; rewrite /mask /shr -N.bit0_odd N.shiftr_spec' N.add_0_l.
case: N.testbit; last by rewrite N.land_0_r.
have -> : N.pred w64 = N.ones 64 by [].
by rewrite N.land_ones N.mod_small.
Qed.

Lemma addrow_ok c b j w k : woks b -> size b = 5%N -> (j < 4)%N -> size c = 8%N ->
  size (addrow c b j (mask w k)) = 8%N /\
  PW (addrow c b j (mask w k)) = PW c + (N.testbit w (N.of_nat k))%:R * ('X^(64 * j) * PW b).
Proof.
move=> hb sb hj sc.
have [|e1 e2] := @addrow_gen c b j (mask w k) (iota 0 5).
  by apply/allP => i; rewrite mem_iota sc; lia.
rewrite /addrow e1 e2 sc; split=> //; congr (_ + _).
have -> : PW b = \sum_(i <- iota 0 5) 'X^(64 * i) * PP (wnth b i).
  by rewrite PW_sum sb -(big_mkord xpredT (fun i => 'X^(64 * i) * PP (wnth b i))).
rewrite mulrCA; congr (_ * _); rewrite mulr_sumr; apply: eq_bigr => i _.
rewrite mask_land //; case: N.testbit; rewrite ?mul1r // PP0 mulr0 mul0r //.
Qed.

Lemma addrow_woks c b j m : woks c -> woks b -> (j < 4)%N -> size c = 8%N -> woks (addrow c b j m).
Proof.
move=> hc hb hj _; rewrite /addrow; elim: (iota 0 5) c hc => //= i s IH c hc; apply: IH.
apply: woks_upd => //; apply: wok_lxor => //.
by apply: wokP => k hk; rewrite N.land_spec (wok_bits (hb i)).
Qed.

Lemma lor_lxor_shift w v : wok v -> N.lor (shl w 1) (shr v 63) = N.lxor (shl w 1) (shr v 63).
Proof.
move=> hv; symmetry; apply: N.lxor_lor; apply: N.bits_inj => i; rewrite N.land_spec N.bits_0.
rewrite -(N2Nat.id i); case: (N.to_nat i) => [|n].
  by rewrite {1}/shl /w64 -[N.shiftl 1 64]/(2 ^ 64)%num N.mod_pow2_bits_low // N.shiftl_spec_low.
rewrite andbC /shr N.shiftr_spec' -Nnat.Nat2N.inj_add (wok_bits hv) //; lia.
Qed.

Lemma PW_shift1 b : woks b -> size b = 5%N -> shr (wnth b 4) 63 = 0%num ->
  PW (shift1 b) = 'X * PW b /\ woks (shift1 b) /\ size (shift1 b) = 5%N.
Proof.
move=> hb; case: b hb => [|b0 [|b1 [|b2 [|b3 [|b4 [|]]]]]] // hb _ h4.
have w0 := hb 0%N; have w1 := hb 1%N; have w2 := hb 2%N; have w3 := hb 3%N; have w4 := hb 4%N.
rewrite /wnth /= in w0 w1 w2 w3 w4 h4.
have E : shift1 [:: b0; b1; b2; b3; b4] = [:: shl b0 1; N.lor (shl b1 1) (shr b0 63);
   N.lor (shl b2 1) (shr b1 63); N.lor (shl b3 1) (shr b2 63); N.lor (shl b4 1) (shr b3 63)] by [].
rewrite E; split; last split=> //.
  cbn [PW]; rewrite !lor_lxor_shift // !PP_lxor !mulr0 !addr0.
  have S w : 'X * PP w = PP (shl w 1) + 'X^64 * PP (shr w 63).
    by rewrite -[in LHS](expr1 'X) shl_shr.
  have S4 : 'X * PP b4 = PP (shl b4 1) by rewrite S h4 PP0 mulr0 addr0.
  move: (S b0) (S b1) (S b2) (S b3) S4; set Y := 'X^64.
  move=> e0 e1 e2 e3 e4.
  have H p q s r t : 'X * p = s + Y * r -> t + 'X * (p + Y * q) = (s + t) + Y * (r + 'X * q).
    by move=> e; rewrite mulrDr e ['X * (Y * _)]mulrCA -addrA -mulrDr addrA [t + s]addrC.
  rewrite -[RHS]add0r (H _ _ _ _ _ e0) addr0 (H _ _ _ _ _ e1) (H _ _ _ _ _ e2) (H _ _ _ _ _ e3).
  by rewrite e4 [PP (shr b3 63) + _]addrC.
move=> i; case: i => [|[|[|[|[|i]]]]]; rewrite /wnth /= ?nth_nil; first (by exact: wok_shl);
  last (by []); by apply: wok_lor; [exact: wok_shl | exact: wok_shr].
Qed.

(** the double loop *)
Definition rowp (a : seq N) (k : nat) : {poly K} :=
  \sum_(j <- iota 0 4) (N.testbit (wnth a j) (N.of_nat k))%:R * 'X^(64 * j).

Lemma mul_step_ok a c b k : woks b -> woks c -> size b = 5%N -> size c = 8%N ->
  shr (wnth b 4) 63 = 0%num ->
  let st := mul_step a (c, b) k in
  [/\ size st.1 = 8%N, woks st.1, PW st.1 = PW c + rowp a k * PW b & st.2 = shift1 b].
Proof.
move=> hb hc sb sc h4; rewrite /mul_step /fst /snd /rowp.
have : all (fun j => j < 4)%N (iota 0 4) by [].
elim: (iota 0 4) c hc sc => [|j s IH] c hc sc /=; first by rewrite big_nil mul0r addr0.
case/andP => hj hs; have [s1 e1] := addrow_ok (wnth a j) k hb sb hj sc.
have w1 := addrow_woks (mask (wnth a j) k) hc hb hj sc.
have [s2 w2 e2 _] := IH _ w1 s1 hs; split=> //.
by rewrite e2 e1 big_cons mulrDl -!addrA mulrA.
Qed.

Lemma shift1_top b n : woks b -> size b = 5%N ->
  (forall i, (n <= i)%N -> N.testbit (wnth b 4) (N.of_nat i) = false) ->
  (forall i, (n.+1 <= i)%N -> N.testbit (wnth (shift1 b) 4) (N.of_nat i) = false).
Proof.
move=> hb sb h i hi; rewrite /shift1 /wnth /= -!/(wnth _ _) N.lor_spec.
have -> : N.testbit (shr (wnth b 3) 63) (N.of_nat i) = false.
  by rewrite /shr N.shiftr_spec' -Nnat.Nat2N.inj_add (wok_bits (hb 3%N)) //; lia.
rewrite orbF /shl /w64 -[N.shiftl 1 64]/(2 ^ 64)%num.
case: (ltnP i 64) => h64; last by rewrite N.mod_pow2_bits_high //; lia.
rewrite N.mod_pow2_bits_low; last by lia.
rewrite N.shiftl_spec_high'; last by lia.
have -> : (N.of_nat i - N.of_nat 1)%num = N.of_nat i.-1 by lia.
by apply: h; lia.
Qed.

Lemma mul_loop_inv a c0 b0 n : (n <= 64)%N -> woks b0 -> woks c0 -> size b0 = 5%N -> size c0 = 8%N ->
  wnth b0 4 = 0%num ->
  let st := foldl (mul_step a) (c0, b0) (iota 0 n) in
  [/\ size st.1 = 8%N /\ woks st.1, size st.2 = 5%N /\ woks st.2,
      PW st.1 = PW c0 + (\sum_(k < n) rowp a k * 'X^k) * PW b0,
      PW st.2 = 'X^n * PW b0 &
      forall i, (n <= i)%N -> N.testbit (wnth st.2 4) (N.of_nat i) = false].
Proof.
move=> hn hb hc sb sc h0; elim: n hn => [|n IH] hn.
  by cbn [iota foldl fst snd]; rewrite big_ord0 mul0r addr0 expr0 mul1r; split=> // i _; rewrite h0 N.bits_0.
have {IH} := IH (ltnW hn); rewrite -[n.+1]addn1 iotaD foldl_cat add0n.
case: (foldl _ _ _) => c b; cbn [iota foldl fst snd] => -[[s1 w1] [s2 w2] e1 e2 h].
have h4 : shr (wnth b 4) 63 = 0%num.
  apply: N.bits_inj => i; rewrite N.bits_0 /shr N.shiftr_spec' -(N2Nat.id i) -Nnat.Nat2N.inj_add h //; lia.
have := mul_step_ok a n w2 w1 s2 s1 h4.
case: (mul_step _ _ _) => c' b'; cbn [iota foldl fst snd] => -[s3 w3 e3 ->].
have [e4 [w4 s4]] := PW_shift1 w2 s2 h4; split=> //.
- by rewrite addn1 big_ord_recr /= e3 e1 e2 mulrDl addrA mulrA.
- by rewrite e4 e2 mulrA addn1 exprS.
by move=> i hi; apply: (shift1_top w2 s2 h); rewrite -addn1.
Qed.

Lemma PP_sum w : wok w -> PP w = \sum_(k < 64) (N.testbit w (N.of_nat k))%:R * 'X^k.
Proof.
move=> hw; have -> : PP w = \poly_(i < 64) (N.testbit w (N.of_nat i))%:R.
  apply/polyP => i; rewrite PP_coef coef_poly; case: ltnP => // h; by rewrite wok_bits.
rewrite poly_def; apply: eq_bigr => k _; case: N.testbit; by rewrite ?scale1r ?mul1r // scale0r mul0r.
Qed.

Lemma rowp_sum a : woks a -> size a = 4%N -> \sum_(k < 64) rowp a k * 'X^k = PW a.
Proof.
move=> ha sa; rewrite PW_sum sa -(big_mkord xpredT (fun i => 'X^(64 * i) * PP (wnth a i))).
rewrite (eq_bigr (fun k : 'I_64 => \sum_(j <- iota 0 4) (N.testbit (wnth a j) (N.of_nat k))%:R * 'X^(64 * j) * 'X^k)); last first.
  by move=> k _; rewrite /rowp mulr_suml.
rewrite exchange_big /=; apply: eq_bigr => j _; rewrite PP_sum // mulr_sumr.
by apply: eq_bigr => k _; rewrite mulrAC mulrC.
Qed.

Lemma mul_loop_ok a b0 : woks a -> size a = 4%N -> woks b0 -> size b0 = 5%N -> wnth b0 4 = 0%num ->
  let c := mul_loop a (nseq 8 N0) b0 in [/\ size c = 8%N, woks c & PW c = PW a * PW b0].
Proof.
move=> ha sa hb sb h0; rewrite /mul_loop.
have w0 : woks (nseq 8 N0) by move=> i; rewrite /wnth nth_nseq; case: ifP.
have := @mul_loop_inv a (nseq 8 N0) b0 64 (leqnn _) hb w0 sb (size_nseq _ _) h0.
case: (foldl _ _ _) => c b; cbn [fst snd] => -[[s w] _ e _ _]; split=> //; rewrite e PW_nseq add0r rowp_sum //.
Qed.

(** the reduction *)
Definition fpoly : {poly K} := 'X^256 + 'X^10 + 'X^5 + 'X^2 + 1.

Lemma char2 (p : {poly K}) : p + p = 0.
Proof. by apply/polyP => i; rewrite coefD coef0 addrr_char2 //; apply: char_Fp. Qed.

Lemma red_step_ok c i : size c = 8%N -> woks c -> (4 <= i < 8)%N ->
  let c' := red_step c i in
  [/\ size c' = 8%N, woks c',
      PW c' = PW c + 'X^(64 * (i - 4)) * (('X^10 + 'X^5 + 'X^2 + 1) * PP (wnth c i)) &
      forall j, (i <= j)%N -> wnth c' j = wnth c j].
Proof.
move=> sc wc /andP[h4 h8].
have L1 : forall d : seq N, size d = 8%N -> (i - 4 < size d)%N by move=> d ->; lia.
have L2 : forall d : seq N, size d = 8%N -> (i - 3 < size d)%N by move=> d ->; lia.
have S1 (d : seq N) f : size d = 8%N -> size (wupd d (i - 4) f) = 8%N by move=> h; rewrite size_upd ?L1.
have S2 (d : seq N) f : size d = 8%N -> size (wupd d (i - 3) f) = 8%N by move=> h; rewrite size_upd ?L2.
rewrite /red_step; split.
- by do 7 (refine (S1 _ _ _) || refine (S2 _ _ _)).
- have hx := wc i; have WX (l : seq N) n y : woks l -> wok y -> woks (wupd l n (fun x => N.lxor x y)).
    by move=> hl hy; apply: woks_upd => //; apply: wok_lxor.
  refine (WX _ _ _ _ hx); do 3 (refine (WX _ _ _ _ (wok_shr _ hx)); refine (WX _ _ _ _ (wok_shl _ _))).
  exact: wc.
- rewrite !PW_upd; try (by (refine (L1 _ _) || refine (L2 _ _)); repeat (refine (S1 _ _ _) || refine (S2 _ _ _))).
  have -> : (64 * (i - 3) = 64 * (i - 4) + 64)%N by lia.
  move: (@shl_shr (wnth c i) 10 isT) (@shl_shr (wnth c i) 5 isT) (@shl_shr (wnth c i) 2 isT).
  rewrite -[(64 - 10)%N]/54%N -[(64 - 5)%N]/59%N -[(64 - 2)%N]/62%N exprD.
  move: ('X^64) ('X^(64 * (i - 4))) ('X^10) ('X^5) ('X^2) => Y Z t10 t5 t2 e1 e2 e3.
  rewrite -!addrA; congr (_ + _).
  by rewrite -!mulrA -!mulrDr !mulrDl mul1r e1 e2 e3 !addrA.
move=> j hj; rewrite !nth_upd.
have -> : (j == i - 4)%N = false by lia.
by have -> : (j == i - 3)%N = false by lia.
Qed.

Lemma PW_take4 c : size c = 8%N ->
  PW c = PW (take 4 c) + 'X^256 * (PP (wnth c 4) + 'X^64 * PP (wnth c 5) + 'X^128 * PP (wnth c 6) + 'X^192 * PP (wnth c 7)).
Proof.
move=> sc; rewrite -{1}(cat_take_drop 4 c) PW_cat size_takel ?sc //; congr (_ + _ * _).
case: c sc => [|c0 [|c1 [|c2 [|c3 [|c4 [|c5 [|c6 [|c7 [|]]]]]]]]] // _.
rewrite /wnth; cbn [drop PW nth]; rewrite mulr0 addr0 -!addrA; congr (_ + _).
have -> : 'X^192 = 'X^64 * ('X^64 * 'X^64) :> {poly K} by rewrite -!exprD.
have -> : 'X^128 = 'X^64 * 'X^64 :> {poly K} by rewrite -exprD.
by move: ('X^64) => Y; rewrite !mulrDr !mulrA.
Qed.

Lemma reduce_ok c : size c = 8%N -> woks c ->
  let c' := reduce c in
  [/\ size c' = 8%N, woks c' & exists q, PW c = PW (take 4 c') + fpoly * q].
Proof.
move=> s0 w0; rewrite /reduce; cbn [foldl].
have [s1 w1 e1 k1] := @red_step_ok c 7 s0 w0 isT.
have [s2 w2 e2 k2] := @red_step_ok (red_step c 7) 6 s1 w1 isT.
have [s3 w3 e3 k3] := @red_step_ok (red_step (red_step c 7) 6) 5 s2 w2 isT.
have [s4 w4 e4 k4] := @red_step_ok (red_step (red_step (red_step c 7) 6) 5) 4 s3 w3 isT.
set c4 := red_step _ 4 in s4 w4 e4 k4 *.
set c3 := red_step _ 5 in s3 w3 e3 k3 e4 k4 *.
set c2 := red_step _ 6 in s2 w2 e2 k2 e3 k3 *.
set c1 := red_step _ 7 in s1 w1 e1 k1 e2 k2 *.
split=> //; exists (PP (wnth c4 4) + 'X^64 * PP (wnth c4 5) + 'X^128 * PP (wnth c4 6) + 'X^192 * PP (wnth c4 7)).
have x4 : wnth c3 4 = wnth c4 4 by rewrite k4.
have x5 : wnth c2 5 = wnth c4 5 by rewrite k4 // k3.
have x6 : wnth c1 6 = wnth c4 6 by rewrite k4 // k3 // k2.
have x7 : wnth c 7 = wnth c4 7 by rewrite k4 // k3 // k2 // k1.
rewrite x4 in e4; rewrite x5 in e3; rewrite x6 in e2; rewrite x7 in e1.
have E := PW_take4 s4.
set T := PW (take 4 c4) in E *; move: E; rewrite e4 e3 e2 e1.
set r := ('X^10 + 'X^5 + 'X^2 + 1).
have ef : fpoly = 'X^256 + r by rewrite /fpoly /r !addrA.
rewrite -[(64 * (7 - 4))%N]/(192)%N -[(64 * (6 - 4))%N]/(128)%N -[(64 * (5 - 4))%N]/(64)%N -[(64 * (4 - 4))%N]/(0)%N expr0 mul1r ef.
move: (PP (wnth c4 4)) (PP (wnth c4 5)) (PP (wnth c4 6)) (PP (wnth c4 7)) => a4 a5 a6 a7.
move: r {ef} ('X^256) ('X^192) ('X^128) ('X^64) => r W Z3 Z2 Z1 E.
rewrite mulrDl addrA -E.
have -> : r * (a4 + Z1 * a5 + Z2 * a6 + Z3 * a7) = Z3 * (r * a7) + Z2 * (r * a6) + Z1 * (r * a5) + r * a4.
  rewrite !mulrDr ![r * (_ * _)]mulrCA.
  by rewrite [RHS]addrC [Z3 * _ + _ + _]addrC [Z3 * _ + _]addrC !addrA.
move: (Z3 * _) (Z2 * _) (Z1 * _) (r * a4) (PW c) => y7 y6 y5 y4 P.
by rewrite -!(addrA P) char2 addr0.
Qed.

(** coefficients of a word vector *)
Lemma PW_coef l i : woks l -> (PW l)`_i = (N.testbit (wnth l (i %/ 64)) (N.of_nat (i %% 64)))%:R.
Proof.
elim: l i => [|x l IH] i hl; first by rewrite /= coef0 /wnth nth_nil N.bits_0.
cbn [PW]; rewrite coefD coefXnM PP_coef.
case: ltnP => h; first by rewrite divn_small // modn_small // addr0.
rewrite (wok_bits (hl 0%N)) // add0r IH; last by move=> j; apply: (hl j.+1).
have -> : (i %/ 64 = ((i - 64) %/ 64).+1)%N by rewrite -{1}(subnK h) divnDr // divnn addn1.
by have -> : (i %% 64 = (i - 64) %% 64)%N by rewrite -{1}(subnK h) modnDr.
Qed.

Lemma testbit_byte x k : (x < 256)%N -> (8 <= k)%N -> N.testbit (N.of_nat x) (N.of_nat k) = false.
Proof.
move=> hx hk; case: (x =P 0%N) => [->|nz]; first by rewrite N.bits_0.
apply: N.bits_above_log2.
have : (N.log2 (N.of_nat x) < 8)%num by apply N.log2_lt_pow2; [lia | change (2 ^ 8)%num with 256%num; lia].
lia.
Qed.

Lemma testbit_folds (g : nat -> N) s acc k :
  N.testbit (foldl (fun acc i => N.lor acc (g i)) acc s) k = N.testbit acc k || has (fun i => N.testbit (g i) k) s.
Proof. by elim: s acc => [|i s IH] acc /=; rewrite ?orbF // IH N.lor_spec orbA. Qed.

Lemma testbit_condense A j k : is_bytes A -> (k < 64)%N ->
  N.testbit (condense A j) (N.of_nat k) = N.testbit (N.of_nat (nth 0%N A (8 * j + k %/ 8))) (N.of_nat (k %% 8)).
Proof.
move=> hA hk; rewrite /condense testbit_folds N.bits_0 orFb.
have hb n : (nth 0 A n < 256)%N.
  case: (ltnP n (size A)) => h; last by rewrite nth_default.
  by apply: (allP hA); apply: mem_nth.
have Hs i : N.testbit (N.shiftl (N.of_nat (nth 0%N A (8 * j + i))) (N.of_nat (8 * i))) (N.of_nat k)
   = (i == k %/ 8)%N && N.testbit (N.of_nat (nth 0%N A (8 * j + i))) (N.of_nat (k %% 8)).
  have ek := divn_eq k 8; have lk : (k %% 8 < 8)%N by rewrite ltn_mod.
  case: (ltngtP i (k %/ 8)) => hi /=.
  - rewrite N.shiftl_spec_high'; last by lia.
    have -> : (N.of_nat k - N.of_nat (8 * i))%num = N.of_nat (k - 8 * i) by lia.
    by rewrite testbit_byte //; lia.
  - by rewrite N.shiftl_spec_low //; lia.
  rewrite N.shiftl_spec_high'; last by lia.
  by have -> : (N.of_nat k - N.of_nat (8 * i))%num = N.of_nat (k %% 8) by lia.
rewrite (eq_has Hs); case E : (N.testbit _ (N.of_nat (k %% 8))).
  apply/hasP; exists (k %/ 8)%N; last by rewrite eqxx.
  by rewrite mem_iota /= ltn_divLR.
by apply/hasPn => i _; case: eqP => // ->; rewrite E.
Qed.

Lemma wok_condense A j : is_bytes A -> wok (condense A j).
Proof.
move=> hA; apply: wokP => k hk; rewrite /condense testbit_folds N.bits_0 orFb.
apply/negbTE/hasPn => i; rewrite mem_iota => /andP[_ hi].
have hb : (nth 0 A (8 * j + i) < 256)%N.
  case: (ltnP (8 * j + i) (size A)) => h; last by rewrite nth_default.
  by apply: (allP hA); apply: mem_nth.
rewrite N.shiftl_spec_high'; last by lia.
have -> : (N.of_nat k - N.of_nat (8 * i))%num = N.of_nat (k - 8 * i) by lia.
by rewrite testbit_byte //; lia.
Qed.

(** Specification: the polynomial over GF(2) of a byte string; coefficient i is bit (i mod 8) of byte
    (i div 8). *)
Definition polyof (A : bytes) : {poly K} :=
  \poly_(i < 8 * size A) (N.testbit (N.of_nat (nth 0%N A (i %/ 8))) (N.of_nat (i %% 8)))%:R.

Lemma polyof_coef A i : (polyof A)`_i = (N.testbit (N.of_nat (nth 0%N A (i %/ 8))) (N.of_nat (i %% 8)))%:R.
Proof.
rewrite coef_poly; case: ltnP => // h; rewrite nth_default ?N.bits_0 //.
by rewrite leq_divRL // mulnC.
Qed.

Lemma PW_condense A n : is_bytes A -> size A = (8 * n)%N -> PW [seq condense A j | j <- iota 0 n] = polyof A.
Proof.
move=> hA sA; have hw : woks [seq condense A j | j <- iota 0 n].
  move=> i; rewrite /wnth; case: (ltnP i n) => h; last by rewrite nth_default // size_map size_iota.
  by rewrite (nth_map 0%N) ?size_iota //; apply: wok_condense.
apply/polyP => i; rewrite PW_coef // polyof_coef.
have lk : (i %% 64 < 64)%N by rewrite ltn_mod.
have e1 : (i %% 64 %% 8 = i %% 8)%N by rewrite modn_dvdm.
have e2 : (8 * (i %/ 64) + i %% 64 %/ 8 = i %/ 8)%N.
  by rewrite {3}(divn_eq i 64) [(_ * 64)%N](mulnA _ 8%N 8%N) divnMDl // mulnC.
rewrite /wnth; case: (ltnP (i %/ 64) n) => h.
  by rewrite (nth_map 0%N) ?size_iota // nth_iota // add0n testbit_condense // e1 e2.
rewrite nth_default ?size_map ?size_iota // N.bits_0 nth_default ?N.bits_0 //.
by rewrite sA -e2; lia.
Qed.

Lemma polyof_tobytes c : woks c -> polyof (tobytes c) = PW (take 4 c).
Proof.
move=> hc; have hw : woks (take 4 c).
  move=> i; rewrite /wnth; case: (ltnP i 4) => h; first by rewrite nth_take //; apply: hc.
  by rewrite nth_default // size_take; case: ltnP => // h'; lia.
apply/polyP => i; rewrite PW_coef // polyof_coef.
have lk : (i %% 8 < 8)%N by rewrite ltn_mod.
case: (ltnP i 256) => h; last first.
  rewrite nth_default ?N.bits_0; last by rewrite size_map size_iota leq_divRL.
  rewrite /wnth nth_default ?N.bits_0 // size_take; case: ltnP => h'; rewrite leq_divRL //; lia.
have h8 : (i %/ 8 < 32)%N by rewrite ltn_divLR.
rewrite /tobytes (nth_map 0%N) ?size_iota // nth_iota // add0n N2Nat.id.
change 256%num with (2 ^ 8)%num; rewrite N.mod_pow2_bits_low; last by lia.
rewrite /shr N.shiftr_spec' -Nnat.Nat2N.inj_add /wnth nth_take; last by rewrite ltn_divLR.
rewrite -divnMA; congr (_%:R); congr N.testbit; congr N.of_nat.
have := divn_eq i 64; have := divn_eq i 8; have := divn_eq (i %/ 8) 8; rewrite -divnMA -[(8 * 8)%N]/64%N; lia.
Qed.

Lemma tobytes_ok c : size (tobytes c) = 32%N /\ is_bytes (tobytes c).
Proof.
rewrite /tobytes size_map size_iota; split=> //; apply/allP => x /mapP[i _ ->].
by have := N.mod_lt (shr (wnth c (i %/ 8)) (8 * (i %% 8))) 256; lia.
Qed.

Lemma size_fpoly : size fpoly = 257%N.
Proof.
rewrite /fpoly -!addrA size_addl size_polyXn //.
have h (p q : {poly K}) n : (size p <= n)%N -> (size q <= n)%N -> (size (p + q)%R <= n)%N.
  by move=> hp hq; apply: leq_trans (size_add _ _) _; rewrite geq_max hp.
rewrite ltnS; apply: (@leq_trans 11%N); last by [].
by repeat (apply: (h)); rewrite ?size_polyXn ?size_poly1.
Qed.

Lemma binary_field_mul_ok A B : is_bytes A -> is_bytes B -> size A = 32%N -> size B = 32%N ->
  let C := binary_field_mul A B in
  [/\ size C = 32%N, is_bytes C & polyof C = (polyof A * polyof B) %% fpoly].
Proof.
move=> hA hB sA sB; rewrite /binary_field_mul.
set a := [seq condense A j | j <- iota 0 4]; set b := rcons _ _.
have wa : woks a.
  move=> i; rewrite /wnth; case: (ltnP i 4) => h; last by rewrite nth_default // size_map size_iota.
  by rewrite (nth_map 0%N) ?size_iota //; apply: wok_condense.
have wb : woks b.
  move=> i; rewrite /wnth nth_rcons size_map size_iota; case: (ltnP i 4) => h; last by case: eqP.
  by rewrite (nth_map 0%N) ?size_iota //; apply: wok_condense.
have sa : size a = 4%N by rewrite size_map size_iota.
have sb : size b = 5%N by rewrite size_rcons size_map size_iota.
have b4 : wnth b 4 = 0%num by rewrite /wnth nth_rcons size_map size_iota ltnn eqxx.
have := mul_loop_ok wa sa wb sb b4; move: (mul_loop a _ b) => m [s1 w1 e1].
have := reduce_ok s1 w1; move: (reduce m) => r [s2 w2 [q e2]].
have pa : PW a = polyof A by apply: PW_condense.
have pb : PW b = polyof B.
  rewrite /b -cats1 PW_cat; cbn [PW]; rewrite PP0 mulr0 addr0 mulr0 addr0; exact: PW_condense.
have [sC bC] := tobytes_ok r; have e3 := polyof_tobytes w2.
split; [exact: sC | exact: bC |].
have hs : (size (polyof (tobytes r)) < size fpoly)%N by rewrite size_fpoly ltnS (leq_trans (size_poly _ _)) // sC.
by rewrite -pa -pb -e1 e2 -e3 addrC mulrC modp_addl_mul_small.
Qed.
