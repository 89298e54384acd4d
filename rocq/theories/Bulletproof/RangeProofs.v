(** Lemmas on the range proofs. *)
From Coq Require Import PeanoNat Field.
From mathcomp Require Import all_ssreflect all_algebra zify.
From Verif Require Import Lib.Res Lib.Bytes Lib.FieldTac Lib.LmodTac Sharing.Spec Bulletproof.Model Bulletproof.IppProofs.
Set Implicit Arguments.
Unset Strict Implicit.
Unset Printing Implicit Defensive.
Import GRing.Theory.
Local Open Scope ring_scope.

Lemma bindE A B (x : outcome A) (f : A -> outcome B) b : bind x f = Ok b -> exists a, x = Ok a /\ f a = Ok b.
Proof. by case: x => //= a h; exists a. Qed.
Ltac binv H a e h := move: (bindE H) => [a [e h]]; clear H.

Section Range.
Variables (F : fieldType) (G : lmodType F).
Variables (puenc : G -> bytes) (enc : F -> bytes) (dec : bytes -> option F) (bigint : F -> nat).
Variables (xof : tlog -> bytes) (wide : bytes -> F).
Add Field F_field : (f_fth F).

(* ------------------------------------------------- powers *)
Lemma getkn_ok (k : F) n r : getkn k n = Ok r -> [/\ (1 < n)%N, size r = n & forall i, (i < n)%N -> r`_i = k ^+ i].
Proof.
case: n => [|[|n]] // [<-]; split=> //=; first by rewrite size_traject.
case=> [|i] // hi; rewrite /= -[k :: _]/(traject (fun x => x * k) k n.+1) (set_nth_default k) ?size_traject // nth_traject //.
by elim: i {hi} => //= i ->; rewrite [in RHS]exprSr.
Qed.
Lemma getkn_total (k : F) n : (1 < n)%N -> exists r, getkn k n = Ok r.
Proof. by case: n => [|[|n]] //; eexists. Qed.
Lemma get2n_ok n (r : seq F) : get2n F n = Ok r -> [/\ (0 < n)%N, size r = n & forall i, (i < n)%N -> r`_i = 2%:R ^+ i].
Proof.
case: n => [|n] // [<-]; split=> //; first by rewrite /= size_traject.
move=> i hi; rewrite -[1 :: _]/(traject (fun x => x + x) 1 n.+1) (set_nth_default 1) ?size_traject // nth_traject //.
by elim: i {hi} => //= i ->; rewrite exprS mulr2n mulrDl mul1r.
Qed.

(* ------------------------------------------------- the bits *)
Definition enc_ok := [/\ codec_ok enc dec, forall x, is_bytes (enc x) & forall x y, size (enc x) = size (enc y)].
Definition bit (b : bytes) (i : nat) : nat := ((nth 0%N b (i %/ 8) %/ 2 ^ (i %% 8)) %% 2)%N.

Lemma cmove_bytes0 x y : size x = size y -> cmove_bytes x y 0 = Ok x.
Proof. by elim: x y => [|a x IH] [|b y] //= [h]; rewrite IH //= Nat.land_0_r Nat.lxor_0_r. Qed.
Lemma lxor_mask a b : (a < 256)%N -> (b < 256)%N -> Nat.lxor a (Nat.land (Nat.lxor a b) 255) = b.
Proof.
move=> ha hb; apply: Nat.bits_inj => i; rewrite Nat.lxor_spec Nat.land_spec Nat.lxor_spec.
have h255 : 255%N = Nat.ones 8 by [].
have hlow : forall c, (c < 256)%N -> ~ Peano.lt i 8 -> Nat.testbit c i = false.
  move=> c hc hi; case: (Nat.eq_dec c 0) => [->|hc0]; first exact: Nat.bits_0.
  apply: Nat.bits_above_log2; have h1 : Peano.lt 0 c by lia.
  have := proj1 (Nat.log2_lt_pow2 c 8 h1); change (Nat.pow 2 8) with 256%N; lia.
case: (Nat.lt_ge_cases i 8) => hi.
  by rewrite h255 Nat.ones_spec_low // andbT; case: (Nat.testbit a i); case: (Nat.testbit b i).
by rewrite !hlow //; lia.
Qed.
Lemma cmove_bytes1 x y : size x = size y -> is_bytes x -> is_bytes y -> cmove_bytes x y 255 = Ok y.
Proof.
elim: x y => [|a x IH] [|b y] // [h] /andP[ha hx] /andP[hb hy]; cbn [cmove_bytes]; rewrite IH //; cbn [bind].
by rewrite lxor_mask.
Qed.
Lemma cmoveE b : enc_ok -> (b < 2)%N -> cmove enc dec 0 1 b = Ok (b%:R : F).
Proof.
move=> [hc hb hs]; rewrite /cmove; case: b => [|[|//]] _ /=.
- by rewrite cmove_bytes0 //= hc.
- by rewrite cmove_bytes1 //= hc.
Qed.
Lemma getaL_loopE vb idx : enc_ok -> all (fun i => i %/ 8 < size vb)%N idx ->
  getaL_loop enc dec vb idx = Ok [seq ((bit vb i)%:R : F) | i <- idx].
Proof.
move=> he; elim: idx => //= i r IH /andP[hi hr]; rewrite leqNgt hi /= -/(bit vb i) cmoveE //; last by rewrite ltn_pmod.
by cbn [bind]; rewrite IH.
Qed.
Lemma getaLE v n : enc_ok -> (n <= 8 * size (enc v))%N -> getaL enc dec v n = Ok [seq ((bit (enc v) i)%:R : F) | i <- iota 0 n].
Proof.
move=> he hn; apply: getaL_loopE => //; apply/allP => i; rewrite mem_iota /= add0n => hi.
by rewrite ltn_divLR // mulnC; apply: leq_trans hn.
Qed.
Lemma getaL_loop_inv vb idx l : enc_ok -> getaL_loop enc dec vb idx = Ok l -> all (fun i => i %/ 8 < size vb)%N idx.
Proof.
move=> he; elim: idx l => //= i r IH l; case: leqP => //= hi; rewrite -/(bit vb i) cmoveE //; last by rewrite ltn_pmod.
by cbn [bind]; case E: (getaL_loop _ _ _ _) => [ll||] //= _; apply: IH E.
Qed.
Lemma getaL_ok v n l : enc_ok -> getaL enc dec v n = Ok l ->
  (n <= 8 * size (enc v))%N /\ l = [seq ((bit (enc v) i)%:R : F) | i <- iota 0 n].
Proof.
move=> he h; have := getaL_loop_inv he h => ha; split; last first.
  by move: h; rewrite /getaL getaL_loopE // => -[].
case: n h ha => // n h /allP /(_ n); rewrite mem_iota /= add0n ltnSn => /(_ isT).
by rewrite ltn_divLR // mulnC.
Qed.
Lemma getaL_panic v n : enc_ok -> (8 * size (enc v) < n)%N -> getaL enc dec v n = Panic.
Proof.
move=> he hn; rewrite /getaL.
have : has (fun i => size (enc v) <= i %/ 8)%N (iota 0 n).
  apply/hasP; exists (8 * size (enc v))%N; first by rewrite mem_iota.
  by rewrite mulKn.
elim: (iota 0 n) => //= i r IH; case: leqP => //= hi hr; rewrite -/(bit _ i) cmoveE //; last by rewrite ltn_pmod.
by cbn [bind]; rewrite IH.
Qed.

(** the value the bits stand for *)
Definition bitval (b : bytes) (n : nat) : nat := \sum_(i < n) bit b i * 2 ^ i.
Lemma bit_le b i : is_bytes b -> bit b i = ((le_val b %/ 2 ^ i) %% 2)%N.
Proof.
rewrite /bit; elim: b i => [|x b IH] i hb; first by rewrite nth_nil le_val_nil !div0n.
move: hb => /andP[hx hb]; rewrite le_val_cons.
case: (ltnP i 8) => hi.
- have -> : (256 * le_val b = le_val b * 2 ^ (7 - i) * 2 * 2 ^ i)%N.
    have h8 : (2 ^ (7 - i) * 2 * 2 ^ i = 256)%N by rewrite -expnSr -expnD addSn subnK.
    by rewrite -h8 mulnC !mulnA.
  rewrite (divn_small hi) (modn_small hi) [nth _ _ 0]/= addnC divnMDl ?expn_gt0 // modnMDl //.
- have -> : i = (8 + (i - 8))%N by lia.
  rewrite divnDl // divnn modnDl [nth _ _ _]/= IH //.
  by rewrite expnD divnMA [(x + _)%N]addnC mulnC divnMDl // (divn_small hx) addn0.
Qed.
Lemma bitval_le b n : is_bytes b -> bitval b n = (le_val b %% 2 ^ n)%N.
Proof.
move=> hb; rewrite /bitval; elim: n => [|n IH]; first by rewrite big_ord0 expn0 modn1.
by rewrite big_ord_recr /= IH bit_le // mod_bit addnC.
Qed.

(* ------------------------------------------------- the algebra *)
Section Core.
Variables (N : nat) (g h : seq G) (aL aR sL sR yn zs cl aRz hada cr lr l r : seq F) (h' : seq G) (x y z : F).
Hypothesis y0 : y != 0.
Hypotheses (sg : size g = N) (sh : size h = N) (saL : size aL = N) (szs : size zs = N) (saR : size aR = N)
  (ssL : size sL = N) (ssR : size sR = N) (syn : size yn = N) (scl : size cl = N) (scr : size cr = N) (slr : size lr = N)
  (sl : size l = N) (sr : size r = N).
Hypothesis bits : forall i, (i < N)%N -> aL`_i * (aL`_i - 1) = 0.
Hypothesis naR : forall i, (i < N)%N -> aR`_i = aL`_i - 1.
Hypothesis nyn : forall i, (i < N)%N -> yn`_i = y ^+ i.
Hypothesis ncl : forall i, (i < N)%N -> cl`_i = aL`_i - z.
Hypothesis ncr : forall i, (i < N)%N -> cr`_i = yn`_i * (aR`_i + z) + zs`_i.
Hypothesis nlr : forall i, (i < N)%N -> lr`_i = yn`_i * sR`_i.
Hypothesis nl : forall i, (i < N)%N -> l`_i = cl`_i + sL`_i * x.
Hypothesis nr : forall i, (i < N)%N -> r`_i = cr`_i + lr`_i * x.
Hypothesis nh' : forall i, (i < N)%N -> h'`_i = (y^-1 ^+ i) *: h`_i.

Lemma core_dot : dotp l r = (z - z * z) * (\sum_(i < N) y ^+ i) - z * (\sum_(i < N) zs`_i) + (\sum_(i < N) zs`_i * aL`_i)
   + (dotp sL cr + dotp lr cl) * x + dotp sL lr * (x * x).
Proof.
rewrite [(dotp sL cr + _) * x]mulrDl /dotp sl ssL slr !mulr_suml !mulr_sumr -sumrN -!big_split; apply: eq_bigr => i _ /=.
rewrite nl // nr // ncl // nlr // ncr // naR // nyn //; have := bits (ltn_ord i).
move: (aL`_i) (sL`_i) (sR`_i) (y ^+ i) (zs`_i) => a s t u v hb.
apply/eqP; rewrite -subr_eq0; apply/eqP.
transitivity (u * (a * (a - 1))); last by rewrite hb mulr0.
by f_fold F; ring.
Qed.

Lemma core_sum : gsum g l + gsum h' r =
  (gsum g aL + gsum h aR) + x *: (gsum g sL + gsum h sR) + gsum g (smuls (- z) (nseq N 1))
  + \sum_(i < N) (yn`_i * z + zs`_i) *: h'`_i.
Proof.
rewrite /gsum sl sr saL saR ssL ssR size_map size_nseq scalerDr !scaler_sumr -!big_split; apply: eq_bigr => i _ /=.
rewrite nh' // nl // nr // ncl // nlr // ncr // naR // nyn // nth_smuls nth_nseq ltn_ord.
have yi : y ^+ i * y^-1 ^+ i = 1 by rewrite -exprMn divff // expr1n.
set u := y ^+ i; set u' := y^-1 ^+ i; rewrite -/u -/u' in yi.
have hu : u' = u^-1 by rewrite /u' exprVn.
have hu0 : u != 0 by rewrite expf_neq0.
rewrite hu; move: (aL`_i) (sL`_i) (sR`_i) (u) hu0 (zs`_i) (g`_i) (h`_i) => a s t w hw v p q.
by lm_reduce F G; f_fold F; field; f_side.
Qed.
End Core.

(* ------------------------------------------------- the verifier of the inner product *)
Lemma shl1E k : (k < 63)%N -> shl1 k = Some (2 ^ k)%N. Proof. by rewrite /shl1 => ->. Qed.
Lemma shl1_size (A : Type) (s : seq A) k : size s = (2 ^ k)%N -> (size s < 2 ^ 63)%N -> shl1 k = Some (size s).
Proof. by move=> -> h; apply: shl1E; move: h; rewrite ltn_exp2l. Qed.
Lemma get_lhs_ok u pf (g h : seq G) xs : all (fun x => x != 0) xs -> size g = (2 ^ size xs)%N -> size h = (2 ^ size xs)%N ->
  get_lhs u pf g h (svec xs) =
  Ok (ip_a pf *: gsum g (svec xs) + ip_b pf *: gsum h (isvec xs) + (ip_a pf * ip_b pf) *: u).
Proof.
move=> hx hg hh; rewrite /get_lhs inverts_ok ?svec_neq0 //; cbn [bind].
rewrite sopE ?size_smuls ?size_svec //; cbn [bind]; rewrite sopE ?size_smuls ?size_map ?size_svec //; cbn [bind].
have gs : forall (g : seq G) c a, gsum g (smuls c a) = c *: gsum g a.
  move=> g' c a; rewrite /gsum size_smuls scaler_sumr; apply: eq_bigr => i _; by rewrite nth_smuls scalerA mulrC.
by rewrite !gs.
Qed.

Lemma vfr_exact fuel (l r : seq F) (g h : seq G) P u t tr pf tr' :
  prove_rec puenc xof wide fuel l r g h u [::] [::] tr = Ok (pf, tr') -> (size l < 2 ^ 63)%N ->
  verify_from_range puenc xof wide g h P u t pf tr = Ok (statement g h u l r == P + t *: u, tr').
Proof.
move=> /prove_rec_ok [Ls [Rs [xs [[sl sr sg sh] [/= eL eR sR] ex nz E]]]] hs.
rewrite /verify_from_range eL eR ex; cbn [bind]; rewrite (shl1_size sl hs); cbn [deref bind].
have sx := getxs_size ex.
rewrite sl -sx gets_ok //; cbn [bind]; rewrite get_lhs_ok ?sg ?sh ?sl ?sx //; cbn [bind].
by rewrite E /get_rhs eL eR rhs_ok //; cbn [bind]; rewrite (inj_eq (addIr _)).
Qed.

Lemma ipp_exact gs a b u tr pf tr' P :
  ipp_prove puenc xof wide gs a b u tr = Ok (pf, tr') -> (size a < 2 ^ 63)%N ->
  ipp_verify puenc xof wide gs P u pf tr =
    Ok (statement (take (size a) (gG gs)) (take (size a) (gH gs)) u a b == P, tr').
Proof.
rewrite /ipp_prove; case: ifP => // _; case: eqP => //= hgh hb; binv hb c ec hb1; move: hb1; case: ltnP => // hn hp hs.
move: hp => /prove_rec_ok [Ls [Rs [xs [[sl sr sg sh] [/= eL eR sR] ex nz E]]]].
rewrite /ipp_verify eL eR sR eqxx hgh eqxx /= (shl1_size sl hs); cbn [deref bind]; rewrite -hgh ltnNge hn /= ex; cbn [bind].
have sx := getxs_size ex.
have sl' : size a = (2 ^ size xs)%N by rewrite sx.
have -> : gets_new xs (size a) = Ok (svec xs) by rewrite sl' gets_new_ok.
cbn [bind]; move: E; rewrite sr => E; rewrite sr in sh.
rewrite get_lhs_ok ?sg ?sh //; cbn [bind].
by rewrite E /get_rhs eL eR rhs_ok //; cbn [bind]; rewrite (inj_eq (addIr _)).
Qed.

Lemma prove_rec_total k a b (g h : seq G) u Ls Rs tr fuel :
  (forall t, wide (xof t) != 0) -> size a = (2 ^ k)%N -> size b = (2 ^ k)%N -> size g = (2 ^ k)%N -> size h = (2 ^ k)%N -> (k <= fuel)%N ->
  exists r, prove_rec puenc xof wide fuel a b g h u Ls Rs tr = Ok r.
Proof.
move=> hw; elim: k fuel a b g h Ls Rs tr => [|k IH] fuel a b g h Ls Rs tr sa sb sg sh.
  move=> _; case: fuel => [|f]; cbn [prove_rec]; rewrite sa sb sg sh !eqxx /=; by eexists.
case: fuel => // f hf; cbn [prove_rec]; rewrite sa sb sg sh !eqxx /=.
have -> : (2 ^ k.+1 == 1)%N = false by apply/negbTE; rewrite -(expn0 2) eqn_exp2l.
have sp : forall (T : Type) (s : seq T), size s = (2 ^ k.+1)%N -> exists lo hi, split s = Ok (lo, hi) /\ size lo = (2 ^ k)%N /\ size hi = (2 ^ k)%N.
  move=> T s e; have h1 : (0 < 2 ^ k)%N by rewrite expn_gt0.
  have e2 : (2 ^ k.+1 = 2 ^ k + 2 ^ k)%N by rewrite addnn -mul2n expnS.
  exists (take (2 ^ k) s), (drop (2 ^ k) s).
  have s1 : size (take (2 ^ k) s) = (2 ^ k)%N by rewrite size_takel // e e2 leq_addr.
  have s2 : size (drop (2 ^ k) s) = (2 ^ k)%N by rewrite size_drop e e2 addnK.
  by split=> //; rewrite -{1}(cat_take_drop (2 ^ k) s) split_cat ?s1 ?s2.
have [aLo [aHi [-> [sa1 sa2]]]] := sp _ a sa; have [bLo [bHi [-> [sb1 sb2]]]] := sp _ b sb.
have [gLo [gHi [-> [sg1 sg2]]]] := sp _ g sg; have [hLo [hHi [-> [sh1 sh2]]]] := sp _ h sh; cbn [bind].
have p0 : (0 < 2 ^ k)%N by rewrite expn_gt0.
rewrite innerE ?sa1 ?sb2 //; cbn [bind]; rewrite innerE ?sa2 ?sb1 //; cbn [bind].
rewrite sopE ?sg2 ?sa1 //; cbn [bind]; rewrite sopE ?sh1 ?sb2 //; cbn [bind].
rewrite sopE ?sg1 ?sa2 //; cbn [bind]; rewrite sopE ?sh2 ?sb1 //; cbn [bind].
rewrite /ipp_calcx /extract /invert (negbTE (hw _)); cbn [bind].
move: (wide (xof _)) => x; set t' := rcons _ _.
have [|g' -> [sg' _]] := @addpE F G (smulp x^-1 gLo) (smulp x gHi); first by rewrite !size_smulp sg1 sg2.
have [|h' -> [sh' _]] := @addpE F G (smulp x hLo) (smulp x^-1 hHi); first by rewrite !size_smulp sh1 sh2.
have [|a' -> [sa' _]] := @addsE F (smuls x aLo) (smuls x^-1 aHi); first by rewrite !size_smuls sa1 sa2.
have [|b' -> [sb' _]] := @addsE F (smuls x^-1 bLo) (smuls x bHi); first by rewrite !size_smuls sb1 sb2.
cbn [bind]; apply: IH => //; rewrite ?sa' ?sb' ?sg' ?sh' ?size_smuls ?size_smulp //.
Qed.
Lemma is_pow2_exp k : is_pow2 (2 ^ k).
Proof.
rewrite /is_pow2; apply/eqP.
have e0 : (2 ^ k)%N = Nat.pow 2 k by elim: k => // k IH; rewrite expnS Nat.pow_succ_r' IH.
have e : (2 ^ k).-1 = Nat.ones k by rewrite Nat.ones_equiv e0.
by rewrite e Nat.land_ones e0 Nat.mod_same //; apply: Nat.pow_nonzero.
Qed.

(* ------------------------------------------------- the pieces of the verifier *)
Lemma gethPrime_ok (h : seq G) y h' : gethPrime h y = Ok h' ->
  [/\ y != 0, (1 < size h)%N, size h' = size h & forall i, (i < size h)%N -> h'`_i = (y^-1 ^+ i) *: h`_i].
Proof.
rewrite /gethPrime; case: (eqVneq y 0) => [_|hy]; first by case: ifP.
move=> H; binv H yn e H1; case: (getkn_ok e) => h1 s1 n1; move: H1 => [<-]; split=> //.
- by rewrite size_map size1_zip ?s1.
- by move=> i hi; rewrite (nth_map (0, 0)) ?size1_zip ?s1 // nth_zip ?s1 //= n1.
Qed.
Lemma nth_get1n n i : (i < n)%N -> (get1n F n)`_i = 1. Proof. by move=> h; rewrite nth_nseq h. Qed.
Lemma dotp1 n (a : seq F) : size a = n -> dotp (get1n F n) a = \sum_(i < n) a`_i.
Proof. by move=> h; rewrite /dotp size_nseq; apply: eq_bigr => i _; rewrite nth_get1n // mul1r. Qed.
Lemma deltayzE (y z : F) n : (1 < n)%N ->
  deltayz y z n = Ok ((z - z * z) * (\sum_(i < n) y ^+ i) - z * z * z * (\sum_(i < n) 2%:R ^+ i)).
Proof.
move=> hn; have [yn ey] := getkn_total y hn; have [_ sy ny] := getkn_ok ey.
have n0 : (0 < n)%N := ltnW hn.
have [tn et] : exists r, get2n F n = Ok r by case: (n) n0 => // m _; eexists.
have [_ st nt] := get2n_ok et.
rewrite /deltayz ey; cbn [bind]; rewrite innerE ?size_nseq ?sy //; cbn [bind]; rewrite et; cbn [bind].
rewrite innerE ?size_nseq ?st //; cbn [bind]; rewrite !dotp1 //.
by do ! [congr (Ok _) | congr (_ - _) | congr (_ * _)]; apply: eq_bigr => i _; rewrite ?ny ?nt.
Qed.
Lemma getPhmuE (g h' : seq G) (h A S : G) x y z mu n : (1 < n)%N -> size g = n -> size h' = n ->
  getPhmu g h' h A S x y z mu n =
  Ok (A + x *: S + gsum g (smuls (- z) (nseq n 1)) + (\sum_(i < n) (y ^+ i * z + 2%:R ^+ i * (z * z)) *: h'`_i) - mu *: h).
Proof.
move=> hn sg sh; have [yn ey] := getkn_total y hn; have [_ sy ny] := getkn_ok ey.
have n0 : (0 < n)%N := ltnW hn.
have [tn et] : exists r, get2n F n = Ok r by case: (n) n0 => // m _; eexists.
have [_ st nt] := get2n_ok et.
rewrite /getPhmu ey; cbn [bind]; rewrite et; cbn [bind].
have [|e -> [se ne]] := @addsE F (smuls z yn) (smuls (z * z) tn); first by rewrite !size_smuls sy st.
rewrite size_smuls sy in se.
cbn [bind]; rewrite sopE ?sh ?se //; cbn [bind]; rewrite sopE ?sg ?size_smuls ?size_nseq //; cbn [bind].
congr Ok; congr (_ - _); congr (_ + _); rewrite /gsum se; apply: eq_bigr => i _.
by rewrite ne !nth_smuls ny ?nt.
Qed.

(* ------------------------------------------------- the range proof *)
Lemma trim_ok (gs : gens G) n m g h : trim gs n = Ok (m, g, h) ->
  [/\ n = Posz m, size g = m, size h = m, g = take m (gG gs) & h = take m (gH gs)].
Proof.
case: n => // k /=; case: ltnP => // h1; case: ltnP => // h2 [<- <- <-]; split=> //; exact: size_takel.
Qed.
Lemma bit01 b i : ((bit b i)%:R : F) * ((bit b i)%:R - 1) = 0.
Proof. by rewrite /bit; case: (_ %% 2)%N (ltn_pmod (nth 0%N b (i %/ 8) %/ 2 ^ (i %% 8)) (isT : 0 < 2)%N) => [|[|]] // _; rewrite ?mul0r ?subrr ?mulr0. Qed.
Lemma bitvalR b n : ((bitval b n)%:R : F) = \sum_(i < n) (bit b i)%:R * 2%:R ^+ i.
Proof. by rewrite /bitval natr_sum; apply: eq_bigr => i _; rewrite natrM natrX. Qed.

(** the transcript contents from which z and w are extracted *)
Definition z_of (tr : tlog) (Vs : seq G) (pf : rproof G) : tlog :=
  tr ++ [seq TApp LaddV (puenc V) | V <- Vs] ++
  [:: TApp LaddA (puenc (r_A pf)); TApp LaddS (puenc (r_S pf)); TExt Lgety 64; TExt Lgetz 64].
Definition w_of (tr : tlog) (Vs : seq G) (pf : rproof G) : tlog :=
  z_of tr Vs pf ++ [:: TApp LaddT1 (puenc (r_T1 pf)); TApp LaddT2 (puenc (r_T2 pf)); TExt Lgetx 64; TExt Lgetw 64].
Lemma z_ofE tr Vs pf y z tr1 : calc_yz puenc xof wide Vs (r_A pf) (r_S pf) tr = (y, z, tr1) -> z = wide (xof (z_of tr Vs pf)) /\ tr1 = z_of tr Vs pf.
Proof. by rewrite /calc_yz /extract /z_of -!cats1 -!catA => -[_ <- <-]. Qed.
Lemma w_ofE tr Vs pf y z tr1 x tr2 w tr3 : calc_yz puenc xof wide Vs (r_A pf) (r_S pf) tr = (y, z, tr1) ->
  calc_x puenc xof wide (r_T1 pf) (r_T2 pf) tr1 = (x, tr2) -> extract xof wide tr2 Lgetw = (w, tr3) -> w = wide (xof (w_of tr Vs pf)).
Proof.
move=> /z_ofE [_ ->]; rewrite /calc_x /extract => -[_ <-] [<- _]; by rewrite /w_of -!cats1 -!catA.
Qed.

Lemma range_exact gs v gamma n pp tr alpha fL fR rho tau1 tau2 pf tr' : enc_ok ->
  range_prove puenc enc dec bigint xof wide gs v gamma n pp tr alpha fL fR rho tau1 tau2 = Ok (pf, tr') ->
  (`|n| < 2 ^ 63)%N ->
  exists N, [/\ n = Posz N, (1 < N <= 8 * size (enc v))%N, (bigint v <= 2 ^ N)%N &
  range_verify puenc xof wide gs pf (gamma *: ph pp + v *: pg pp) pp n tr =
   let z := wide (xof (z_of tr [:: gamma *: ph pp + v *: pg pp] pf)) in
   let w := wide (xof (w_of tr [:: gamma *: ph pp + v *: pg pp] pf)) in
   Ok ((z * z * w * (v - (bitval (enc v) N)%:R)) *: pu pp == 0, tr')].
Proof.
move=> he; rewrite /range_prove => H hn63.
binv H t0 et H1; move: t0 et H1 => [[N g] h] et; rewrite /range_verify et; cbn [bind].
have [en sg sh _ _] := trim_ok et; case: ltnP => // hv H.
binv H aL eaL H1; have [hN eL] := getaL_ok he eaL.
have saL : size aL = N by rewrite eL size_map size_iota.
have naL : forall i, (i < N)%N -> aL`_i = (bit (enc v) i)%:R by move=> i hi; rewrite eL (nth_map 0%N) ?size_iota // nth_iota.
binv H1 aR eaR H; have [_ saR naR] := subs_ok eaR; rewrite saL in saR.
binv H gaL egaL H1; have [_ ega] := sop_ok egaL.
binv H1 haR ehaR H; have [_ eha] := sop_ok ehaR.
binv H gsL egsL H1; have [_ egs] := sop_ok egsL.
binv H1 hsR ehsR H; have [_ ehs] := sop_ok ehsR.
move: egsL ehsR egs ehs H; have sbl : forall f, size (blinding N f : seq F) = N by move=> f; rewrite size_map size_iota.
move: (sbl fL) (sbl fR); move: (blinding N fL) (blinding N fR) => sL sR ssL ssR egsL ehsR egs ehs.
rewrite /capV; set V := gamma *: ph pp + v *: pg pp; set A := _ + _ + haR; set S := _ + _ + hsR.
case Eyz: (calc_yz _ _ _ _ _ _ _) => [[y z] tr1] H.
binv H cl ecl H1; have [_ scl ncl] := subs_ok ecl; rewrite saL in scl.
binv H1 twon etw H; have [n0 stw ntw] := get2n_ok etw.
binv H aRz eaRz H1; have [_ saRz naRz] := adds_ok eaRz; rewrite saR in saRz.
binv H1 yn eyn H; have [n1 syn nyn] := getkn_ok eyn.
binv H hada ehd H1; have [_ shd nhd] := muls_ok ehd; rewrite syn in shd.
binv H1 cr ecr H; have [_ scr ncr] := adds_ok ecr; rewrite shd in scr.
binv H lr elr H1; have [_ slr nlr] := muls_ok elr; rewrite syn in slr.
binv H1 t1a et1a H; have [_ _ et1a'] := inner_ok et1a.
binv H t1b et1b H1; have [_ _ et1b'] := inner_ok et1b.
binv H1 t2 et2 H; have [_ _ et2'] := inner_ok et2.
move: H; set T1 := _ *: pg pp + tau1 *: _; set T2 := _ *: pg pp + tau2 *: _.
case Ex: (calc_x _ _ _ _ _ _) => [x tr2] H.
binv H l el H1; have [_ sl nl] := adds_ok el; rewrite scl in sl.
binv H1 r er H; have [_ sr nr] := adds_ok er; rewrite scr in sr.
binv H delta ed H1.
binv H1 h' eh H; have [y0 _ sh' nh'] := gethPrime_ok eh; rewrite sh in sh' nh'.
binv H Ph ePh H1; move: H1; case Ew: (extract _ _ _ _) => [w tr3] H.
binv H t0 epr H1; move: t0 epr H1 => [ipf tr4] epr [epf <-].
exists N; split=> //; first by rewrite n1 hN.
have Eyz' : calc_yz puenc xof wide [:: V] (r_A pf) (r_S pf) tr = (y, z, tr1) by rewrite -epf.
have Ex' : calc_x puenc xof wide (r_T1 pf) (r_T2 pf) tr1 = (x, tr2) by rewrite -epf.
have [ez _] := z_ofE Eyz'; have ewo := w_ofE Eyz' Ex' Ew.
rewrite Eyz' Ex' Ew ed; cbn [bind].
have -> : check_that pf V (pg pp) (ph pp) delta x z.
  rewrite -epf; apply/eqP; cbn [r_tHat r_taux r_T1 r_T2]; rewrite /T1 /T2 /V; move: (pg pp) (ph pp) => p q.
  by lm_reduce F G; f_fold F; ring.
rewrite [~~ true]/= eh; cbn [bind]; rewrite getPhmuE //; cbn [bind]; rewrite -ez -ewo -epf; cbn [r_tHat r_ipp r_A r_S r_mu].
rewrite (vfr_exact _ _ epr); last by rewrite sl; move: hn63; rewrite en.
congr (Ok (_, _)).
have nzs : forall i, (i < N)%N -> (smuls (z * z) twon)`_i = 2%:R ^+ i * (z * z) by move=> i hi; rewrite nth_smuls ntw.
have ncl' : forall i, (i < N)%N -> cl`_i = aL`_i - z by move=> i hi; rewrite ncl nth_smuls nth_get1n // mul1r.
have naR' : forall i, (i < N)%N -> aR`_i = aL`_i - 1 by move=> i hi; rewrite naR nth_get1n.
have ncr' : forall i, (i < N)%N -> cr`_i = yn`_i * (aR`_i + z) + (smuls (z * z) twon)`_i.
  by move=> i hi; rewrite ncr nhd naRz nth_smuls nth_get1n // mul1r.
have nl' : forall i, (i < N)%N -> l`_i = cl`_i + sL`_i * x by move=> i hi; rewrite nl nth_smuls.
have nr' : forall i, (i < N)%N -> r`_i = cr`_i + lr`_i * x by move=> i hi; rewrite nr nth_smuls.
have bits : forall i, (i < N)%N -> aL`_i * (aL`_i - 1) = 0 by move=> i hi; rewrite naL // bit01.
have szs : size (smuls (z * z) twon) = N by rewrite size_smuls.
have cs := @core_sum N g h aL aR sL sR yn _ cl cr lr l r h' x y z y0 saL saR ssL ssR sl sr naR' nyn ncl' ncr' (fun i _ => nlr i) nl' nr' nh'.
have cd := @core_dot N aL aR sL sR yn _ cl cr lr l r x y z ssL slr sl bits naR' nyn ncl' ncr' (fun i _ => nlr i) nl' nr'.
have e1 : \sum_(i < N) (yn`_i * z + (smuls (z * z) twon)`_i) *: h'`_i = \sum_(i < N) (y ^+ i * z + 2%:R ^+ i * (z * z)) *: h'`_i.
  by apply: eq_bigr => i _; rewrite nyn // nzs.
have e2 : \sum_(i < N) (smuls (z * z) twon)`_i = z * z * (\sum_(i < N) 2%:R ^+ i).
  by rewrite mulr_sumr; apply: eq_bigr => i _; rewrite nzs // mulrC.
have e3 : \sum_(i < N) (smuls (z * z) twon)`_i * aL`_i = z * z * (bitval (enc v) N)%:R.
  by rewrite bitvalR mulr_sumr; apply: eq_bigr => i _; rewrite nzs // naL //; f_fold F; ring.
rewrite e1 in cs; rewrite e2 e3 in cd.
rewrite deltayzE // in ed; case: ed => ed.
rewrite /statement cs cd /A /S ega eha egs ehs -subr_eq0 -ed et1a' et1b' et2'.
rewrite -[in RHS]oppr_eq0; congr (_ == 0).
move: (\sum_(i < N) y ^+ i) (\sum_(i < N) 2%:R ^+ i) (\sum_(i < N) _ *: _) (gsum g (smuls _ _)) (gsum g aL) (gsum h aR) (gsum g sL) (gsum h sR)
  (dotp sL cr) (dotp lr cl) (dotp sL lr) ((bitval _ _)%:R) (pu pp) (ph pp) => Y W P1 P2 P3 P4 P5 P6 D1 D2 D3 B u q.
by lm_reduce F G; f_fold F; ring.
Qed.

(* ------------------------------------------------- the batched range proof *)
Lemma zsumE (z e : F) (l : seq F) : zsum z e l = e * (\sum_(j < size l) z ^+ j.+1 * l`_j).
Proof.
elim: l e => [|c l IH] e /=; first by rewrite big_ord0 mulr0.
rewrite IH big_ord_recl /= expr1 mulrDr !mulrA; congr (_ + _).
rewrite -mulrA; congr (_ * _); rewrite mulr_sumr; apply: eq_bigr => i _; by rewrite mulrA -exprS.
Qed.
Lemma size_sum_term (z e : F) twon m : size (sum_term z e twon m) = (size twon * m)%N.
Proof. by elim: m e => [|m IH] e /=; rewrite ?muln0 // size_cat size_smuls IH mulnS. Qed.
Lemma getaLb_ok vs n (aL : seq F) : enc_ok -> getaL_batched enc dec vs n = Ok aL ->
  [/\ size aL = (n * size vs)%N, all (fun v => n <= 8 * size (enc v))%N vs,
      forall i, (i < n * size vs)%N -> aL`_i * (aL`_i - 1) = 0 &
      forall (z e : F) twon, size twon = n -> (forall i, (i < n)%N -> twon`_i = 2%:R ^+ i) ->
        dotp (sum_term z e twon (size vs)) aL = zsum z e [seq (bitval (enc v) n)%:R | v <- vs]].
Proof.
move=> he; elim: vs aL => [|v vs IH] aL /=.
  by case=> <-; rewrite muln0; split=> // z e tw _ _; rewrite dotp_nil.
move=> H; binv H a ea H1; binv H1 ss es H.
have [h1 eqa] := getaL_ok he ea; have {IH} [s1 a1 b1 d1] := IH _ es; move: H => [<-]; rewrite eqa; split.
- by rewrite size_cat size_map size_iota s1 mulnS.
- by rewrite h1 a1.
- move=> i hi; rewrite nth_cat size_map size_iota; case: ltnP => hin.
    by rewrite (nth_map 0%N) ?size_iota // nth_iota // bit01.
  by apply: b1; rewrite ltn_subLR // -mulnS.
- move=> z e tw st nt; rewrite dotp_cat; last by rewrite size_smuls size_map size_iota.
  rewrite d1 //; congr (_ + _).
  rewrite /dotp size_smuls st bitvalR mulr_sumr; apply: eq_bigr => i _.
  rewrite nth_smuls nt // (nth_map 0%N) ?size_iota // nth_iota // add0n; f_fold F.
  by move: (bit _ _)%:R (_ ^+ _) => p q; ring.
Qed.
Lemma dotp1r (a : seq F) n : size a = n -> dotp a (get1n F n) = \sum_(i < n) a`_i.
Proof. by move=> h; rewrite /dotp h; apply: eq_bigr => i _; rewrite nth_get1n // mulr1. Qed.
Lemma sum_sum_term (z e : F) twon m n : size twon = n ->
  \sum_(i < n * m) (sum_term z e twon m)`_i = zsum z e (nseq m (\sum_(i < n) twon`_i)).
Proof.
move=> st; rewrite -dotp1r ?size_sum_term ?st //; elim: m e => [|m IH] e /=; first by rewrite dotp_nil.
rewrite mulnS /get1n nseqD dotp_cat ?size_smuls ?size_nseq // IH; congr (_ + _).
rewrite mulr_sumr /dotp size_smuls st; apply: eq_bigr => i _; by rewrite nth_smuls nth_nseq ltn_ord mulr1 mulrC.
Qed.
Lemma phmu_loopE (h' : seq G) n (z e : F) twon m last : size twon = n -> size h' = (n * m)%N ->
  phmu_loop h' n z e twon m last = Ok (last + gsum h' (sum_term z e twon m)).
Proof.
move=> st; elim: m e h' last => [|m IH] e h' last sh; first by rewrite /= gsum_nil addr0.
cbn [phmu_loop sum_term]; rewrite mulnS in sh.
have s1 : size (take n h') = n by rewrite size_takel // sh leq_addr.
rewrite sopE ?size_smuls ?s1 ?st //; cbn [bind]; rewrite IH; last by rewrite size_drop sh addKn.
by rewrite -addrA -gsum_cat ?cat_take_drop // size_smuls s1 st.
Qed.
Lemma get2n_total n : (0 < n)%N -> exists r, get2n F n = Ok r.
Proof. by case: n => // m _; eexists. Qed.
Lemma deltaybE (y z : F) n m : (1 < n * m)%N ->
  deltayz_batched y z n m = Ok ((z - z * z) * (\sum_(i < n * m) y ^+ i) - zsum z (z * z) (nseq m (\sum_(i < n) 2%:R ^+ i))).
Proof.
move=> hn; have [yn ey] := getkn_total y hn; have [_ sy ny] := getkn_ok ey.
have n0 : (0 < n)%N by rewrite lt0n; apply/eqP => e; move: hn; rewrite e mul0n.
have [tn et] := get2n_total n0; have [_ st nt] := get2n_ok et.
rewrite /deltayz_batched ey; cbn [bind]; rewrite innerE ?size_nseq ?sy ?(ltnW hn) //; cbn [bind]; rewrite et; cbn [bind].
rewrite innerE ?size_nseq ?st //; cbn [bind]; rewrite !dotp1 //; congr Ok; congr (_ - zsum _ _ (nseq _ _)).
  by congr (_ * _); apply: eq_bigr => i _; rewrite ny.
by apply: eq_bigr => i _; rewrite nt.
Qed.
Lemma getPhmubE (g h' : seq G) (h A S : G) x y z mu n m twon : (1 < n * m)%N -> size g = (n * m)%N -> size h' = (n * m)%N ->
  get2n F n = Ok twon ->
  getPhmu_batched g h' h A S x y z mu n m =
  Ok (A + x *: S + gsum g (smuls (- z) (nseq (n * m) 1)) +
      (\sum_(i < n * m) (y ^+ i * z + (sum_term z z twon m)`_i) *: h'`_i) - mu *: h).
Proof.
move=> hn sg sh et; have [yn ey] := getkn_total y hn; have [_ sy ny] := getkn_ok ey.
have [_ st nt] := get2n_ok et.
rewrite /getPhmu_batched et; cbn [bind]; rewrite phmu_loopE //; cbn [bind]; rewrite ey; cbn [bind].
rewrite sopE ?sh ?size_smuls ?sy //; cbn [bind]; rewrite sopE ?sg ?size_smuls ?size_nseq //; cbn [bind].
congr Ok; congr (_ - _); congr (_ + _); rewrite add0r /gsum size_smuls sy size_sum_term st -big_split; apply: eq_bigr => i _ /=.
by rewrite nth_smuls ny // addrC -scalerDl.
Qed.
Lemma trimb_ok (gs : gens G) n m n' g h : trim_batched gs n m = Ok (n', g, h) ->
  [/\ n = Posz n', size g = (n' * m)%N & size h = (n' * m)%N].
Proof.
rewrite /trim_batched => H; binv H t0 et H1; move: t0 et H1 => [[k g'] h'] et; case: n et => // n1 et [<- <- <-].
have [e1 e2 e3 _ _] := trim_ok et; split=> //; by rewrite ?e2 ?e3; move: e1 => [<-].
Qed.
Lemma capVb_ok vs gammas (p q : G) Vs : capV_batched vs gammas p q = Ok Vs ->
  [/\ (size vs <= size gammas)%N, size Vs = size vs & forall j, (j < size vs)%N -> Vs`_j = gammas`_j *: q + vs`_j *: p].
Proof.
elim: vs gammas Vs => [|v vs IH] [|gm gr] Vs //=; [by case=> <-|by case=> <-|].
move=> H; binv H r er H1; move: H1 => [<-]; have [h1 h2 h3] := IH _ _ er; split=> //=; first by rewrite h2.
by case=> [|j] //= hj; apply: h3.
Qed.
Lemma sumvE (z : F) zm vs : size zm = size vs -> (forall i, (i < size vs)%N -> zm`_i = z ^+ i) ->
  foldl (fun s p => s + p.1 * p.2) 0 (zip (smuls (z * z) zm) vs) = zsum z z vs.
Proof.
move=> sz nz; rewrite zsumE mulr_sumr.
have -> : \sum_(j < size vs) z * (z ^+ j.+1 * vs`_j) = dotp (smuls (z * z) zm) vs.
  by rewrite /dotp size_smuls sz; apply: eq_bigr => i _; rewrite nth_smuls nz // mulrA -!exprS [z ^+ i * _]mulrC -expr2 -exprD.
rewrite -[RHS]add0r; move: (smuls _ _) (size_smuls (z * z) zm) => a; rewrite sz => sa; clear sz nz.
elim: a vs sa (0 : F) => [|x a IH] [|y b] // => [_|[sa]] s0 /=; first by rewrite dotp_nil addr0.
by rewrite IH // dotp_cons addrA.
Qed.

Lemma batch_exact gs vs gammas n pp tr alpha fL fR rho tau1 tau2 pf tr' : enc_ok ->
  batch_prove puenc enc dec bigint xof wide gs vs gammas n pp tr alpha fL fR rho tau1 tau2 = Ok (pf, tr') ->
  (`|n| * size vs < 2 ^ 63)%N ->
  exists N Vs, [/\ n = Posz N, (1 < size vs <= size gammas)%N /\ all (fun v => N <= 8 * size (enc v))%N vs,
   all (fun v => bigint v <= 2 ^ N)%N vs,
   size Vs = size vs /\ (forall j, (j < size vs)%N -> Vs`_j = gammas`_j *: ph pp + vs`_j *: pg pp) &
  verify_batched puenc xof wide gs pf Vs pp n tr =
   let z := wide (xof (z_of tr Vs pf)) in
   let w := wide (xof (w_of tr Vs pf)) in
   Ok ((z * z * w * (\sum_(j < size vs) z ^+ j * (vs`_j - (bitval (enc vs`_j) N)%:R))) *: pu pp == 0, tr')].
Proof.
move=> he; rewrite /batch_prove => H hn63.
binv H t0 et H1; move: t0 et H1 => [[N g] h] et.
have [en sg sh] := trimb_ok et; case: ifP => // hv H.
binv H aL eaL H1; have [saL hN bits eL] := getaLb_ok he eaL.
binv H1 aR eaR H; have [_ saR naR] := subs_ok eaR; rewrite saL in saR.
binv H gaL egaL H1; have [_ ega] := sop_ok egaL.
binv H1 haR ehaR H; have [_ eha] := sop_ok ehaR.
binv H gsL egsL H1; have [_ egs] := sop_ok egsL.
binv H1 hsR ehsR H; have [_ ehs] := sop_ok ehsR.
move: egsL ehsR egs ehs H; have sbl : forall f, size (blinding (N * size vs) f : seq F) = (N * size vs)%N by move=> f; rewrite size_map size_iota.
move: (sbl fL) (sbl fR); move: (blinding _ fL) (blinding _ fR) => sL sR ssL ssR egsL ehsR egs ehs.
set A := _ + _ + haR; set S := _ + _ + hsR => H.
binv H Vs eVs H1; have [hgm sVs nVs] := capVb_ok eVs; move: H1.
case Eyz: (calc_yz _ _ _ _ _ _ _) => [[y z] tr1] H.
binv H cl ecl H1; have [_ scl ncl] := subs_ok ecl; rewrite saL in scl.
binv H1 twon etw H; have [n0 stw ntw] := get2n_ok etw.
binv H aRz eaRz H1; have [_ saRz naRz] := adds_ok eaRz; rewrite saR in saRz.
binv H1 yn eyn H; have [n1 syn nyn] := getkn_ok eyn.
binv H hada ehd H1; have [_ shd nhd] := muls_ok ehd; rewrite syn in shd.
binv H1 cr ecr H; have [_ scr ncr] := adds_ok ecr; rewrite shd in scr.
binv H lr elr H1; have [_ slr nlr] := muls_ok elr; rewrite syn in slr.
binv H1 t1a et1a H; have [_ _ et1a'] := inner_ok et1a.
binv H t1b et1b H1; have [_ _ et1b'] := inner_ok et1b.
binv H1 t2 et2 H; have [_ _ et2'] := inner_ok et2.
move: H; set T1 := _ *: pg pp + tau1 *: _; set T2 := _ *: pg pp + tau2 *: _.
case Ex: (calc_x _ _ _ _ _ _) => [x tr2] H.
binv H l el H1; have [_ sl nl] := adds_ok el; rewrite scl in sl.
binv H1 r er H; have [_ sr nr] := adds_ok er; rewrite scr in sr.
binv H zm ezm H1; have [m1 szm nzm] := getkn_ok ezm.
binv H1 delta ed H.
binv H h' eh H1; have [y0 _ sh' nh'] := gethPrime_ok eh; rewrite sh in sh' nh'.
binv H1 Ph ePh H; move: H; case Ew: (extract _ _ _ _) => [w tr3] H.
binv H t0 epr H1; move: t0 epr H1 => [ipf tr4] epr [epf <-].
exists N, Vs; split=> //.
- by rewrite m1 hgm.
- by apply/allP => v hvv; move/hasPn: hv => /(_ v hvv); rewrite -leqNgt.
have Eyz' : calc_yz puenc xof wide Vs (r_A pf) (r_S pf) tr = (y, z, tr1) by rewrite -epf.
have Ex' : calc_x puenc xof wide (r_T1 pf) (r_T2 pf) tr1 = (x, tr2) by rewrite -epf.
have [ez _] := z_ofE Eyz'; have ewo := w_ofE Eyz' Ex' Ew.
rewrite /verify_batched sVs et; cbn [bind].
rewrite Eyz' Ex' Ew ed; cbn [bind].
rewrite sumvE // in epf.
have eVz : gsum Vs (smuls (z * z) zm) = zsum z z (take (size vs) gammas) *: ph pp + zsum z z vs *: pg pp.
  rewrite !zsumE size_takel // -!scalerA !scaler_suml !scaler_sumr -big_split /gsum size_smuls szm.
  apply: eq_bigr => i _ /=; rewrite nth_smuls nzm // nVs // nth_take // exprS.
  by move: (z ^+ i) (gammas`_i) (vs`_i) (ph pp) (pg pp) => a b c p q; lm_reduce F G; f_fold F; ring.
have -> : check_that_batched pf Vs (pg pp) (ph pp) delta x z (size vs) = Ok true.
  rewrite /check_that_batched ezm; cbn [bind]; rewrite sopE ?size_smuls ?szm //; cbn [bind]; rewrite eVz.
  rewrite -epf; congr Ok; apply/eqP; cbn [r_tHat r_taux r_T1 r_T2]; rewrite /T1 /T2; move: (pg pp) (ph pp) (zsum _ _ _) (zsum _ _ _) => p q a b.
  by lm_reduce F G; f_fold F; ring.
cbn [bind]; rewrite [~~ true]/= eh; cbn [bind]; rewrite (@getPhmubE _ _ _ _ _ _ _ _ _ _ _ twon) //; cbn [bind]; rewrite -ez -ewo -epf; cbn [r_tHat r_ipp r_A r_S r_mu].
rewrite (vfr_exact _ _ epr); last by rewrite sl; move: hn63; rewrite en.
congr (Ok (_, _)).
have ncl' : forall i, (i < N * size vs)%N -> cl`_i = aL`_i - z by move=> i hi; rewrite ncl nth_smuls nth_get1n // mul1r.
have naR' : forall i, (i < N * size vs)%N -> aR`_i = aL`_i - 1 by move=> i hi; rewrite naR nth_get1n.
have ncr' : forall i, (i < N * size vs)%N -> cr`_i = yn`_i * (aR`_i + z) + (sum_term z z twon (size vs))`_i.
  by move=> i hi; rewrite ncr nhd naRz nth_smuls nth_get1n // mul1r.
have nl' : forall i, (i < N * size vs)%N -> l`_i = cl`_i + sL`_i * x by move=> i hi; rewrite nl nth_smuls.
have nr' : forall i, (i < N * size vs)%N -> r`_i = cr`_i + lr`_i * x by move=> i hi; rewrite nr nth_smuls.
have cs := @core_sum (N * size vs) g h aL aR sL sR yn _ cl cr lr l r h' x y z y0 saL saR ssL ssR sl sr naR' nyn ncl' ncr' (fun i _ => nlr i) nl' nr' nh'.
have cd := @core_dot (N * size vs) aL aR sL sR yn _ cl cr lr l r x y z ssL slr sl bits naR' nyn ncl' ncr' (fun i _ => nlr i) nl' nr'.
have e1 : \sum_(i < N * size vs) (yn`_i * z + (sum_term z z twon (size vs))`_i) *: h'`_i =
   \sum_(i < N * size vs) (y ^+ i * z + (sum_term z z twon (size vs))`_i) *: h'`_i.
  by apply: eq_bigr => i _; rewrite nyn.
have e2 : \sum_(i < N * size vs) (sum_term z z twon (size vs))`_i = zsum z z (nseq (size vs) (\sum_(i < N) 2%:R ^+ i)).
  by rewrite (@sum_sum_term z z twon (size vs) N) //; congr (zsum _ _ (nseq _ _)); apply: eq_bigr => i _; rewrite ntw.
have e3 : \sum_(i < N * size vs) (sum_term z z twon (size vs))`_i * aL`_i = zsum z z [seq (bitval (enc v) N)%:R | v <- vs].
  by rewrite -(eL z z twon) // /dotp size_sum_term stw.
rewrite e1 in cs; rewrite e2 e3 in cd.
rewrite deltaybE // in ed; case: ed => ed.
have e4 : forall l, zsum z (z * z) l = z * zsum z z l by move=> ll; rewrite !zsumE mulrA.
rewrite e4 in ed.
have e5 : z * z * w * (\sum_(j < size vs) z ^+ j * (vs`_j - (bitval (enc vs`_j) N)%:R)) =
   w * (zsum z z vs - zsum z z [seq (bitval (enc v) N)%:R | v <- vs]).
  rewrite !zsumE size_map -mulrBr -sumrB !mulr_sumr; apply: eq_bigr => j _.
  rewrite (nth_map 0) // exprS; f_fold F; move: (z ^+ j) (vs`_j) (_%:R) => a b c; ring.
rewrite e5 /statement cs cd /A /S ega eha egs ehs -subr_eq0 -ed et1a' et1b' et2'.
rewrite -[in RHS]oppr_eq0; congr (_ == 0).
move: (\sum_(i < _) y ^+ i) (zsum z z (nseq _ _)) (zsum z z vs) (zsum z z (map _ _)) (\sum_(i < _) _ *: _) (gsum g (smuls _ _)) (gsum g aL) (gsum h aR) (gsum g sL) (gsum h sR)
  (dotp sL cr) (dotp lr cl) (dotp sL lr) (pu pp) (ph pp) => Y W B VV P1 P2 P3 P4 P5 P6 D1 D2 D3 u q.
by lm_reduce F G; f_fold F; ring.
Qed.

(* ------------------------------------------------- success of the provers *)
Lemma gethPrime_total (h : seq G) y : y != 0 -> (1 < size h)%N -> exists2 h', gethPrime h y = Ok h' & size h' = size h.
Proof.
move=> hy hs; rewrite /gethPrime (negbTE hy); have [r e] := getkn_total y^-1 hs; rewrite e; cbn [bind].
by eexists; first reflexivity; have [_ s _] := getkn_ok e; rewrite size_map size1_zip ?s.
Qed.
Lemma range_total gs v gamma k pp tr alpha fL fR rho tau1 tau2 : enc_ok ->
  (forall t, wide (xof t) != 0) -> (0 < k)%N -> (2 ^ k <= size (gG gs))%N -> (2 ^ k <= size (gH gs))%N ->
  (bigint v <= 2 ^ (2 ^ k))%N -> (2 ^ k <= 8 * size (enc v))%N ->
  exists r, range_prove puenc enc dec bigint xof wide gs v gamma (Posz (2 ^ k)) pp tr alpha fL fR rho tau1 tau2 = Ok r.
Proof.
move=> he hw k0; set N := (2 ^ k)%N => hg hh hv hN; have N1 : (1 < N)%N by rewrite -(expn0 2) ltn_exp2l.
rewrite /range_prove; cbn [trim]; rewrite ltnNge hg ltnNge hh; cbn [negb bind]; rewrite ltnNge hv; cbn [negb].
have sg := size_takel hg; have sh := size_takel hh; move: (take N (gG gs)) (take N (gH gs)) sg sh => g h sg sh.
rewrite getaLE //; cbn [bind]; set aL := map _ _; have saL : size aL = N by rewrite size_map size_iota.
have [|aR -> [saR _]] := @subsE F aL (get1n F N); first by rewrite saL size_nseq.
rewrite saL in saR; cbn [bind]; rewrite sopE ?sg ?saL //; cbn [bind]; rewrite sopE ?sh ?saR //; cbn [bind].
have sbl : forall f, size (blinding N f : seq F) = N by move=> f; rewrite size_map size_iota.
move: (blinding N fL) (blinding N fR) (sbl fL) (sbl fR) => sL sR ssL ssR.
rewrite sopE ?sg ?ssL //; cbn [bind]; rewrite sopE ?sh ?ssR //; cbn [bind].
case Eyz: (calc_yz _ _ _ _ _ _ _) => [[y z] tr1].
have y0 : y != 0 by move: Eyz; rewrite /calc_yz /extract => -[<- _ _].
have [|cl -> [scl _]] := @subsE F aL (smuls z (get1n F N)); first by rewrite saL size_smuls size_nseq.
rewrite saL in scl; cbn [bind]; have [tw etw] := get2n_total (ltnW N1); have [_ stw _] := get2n_ok etw; rewrite etw; cbn [bind].
have [|aRz -> [saRz _]] := @addsE F aR (smuls z (get1n F N)); first by rewrite saR size_smuls size_nseq.
rewrite saR in saRz; cbn [bind]; have [yn eyn] := getkn_total y N1; have [_ syn _] := getkn_ok eyn; rewrite eyn; cbn [bind].
have [|hd -> [shd _]] := @mulsE F yn aRz; first by rewrite syn saRz.
rewrite syn in shd; cbn [bind]; have [|cr -> [scr _]] := @addsE F hd (smuls (z * z) tw); first by rewrite shd size_smuls stw.
rewrite shd in scr; cbn [bind]; have [|lr -> [slr _]] := @mulsE F yn sR; first by rewrite syn ssR.
rewrite syn in slr; cbn [bind]; rewrite innerE ?ssL ?scr ?(ltnW N1) //; cbn [bind].
rewrite innerE ?slr ?scl ?(ltnW N1) //; cbn [bind]; rewrite innerE ?ssL ?slr ?(ltnW N1) //; cbn [bind].
case: (calc_x _ _ _ _ _ _) => x tr2.
have [|l -> [sl _]] := @addsE F cl (smuls x sL); first by rewrite scl size_smuls ssL.
rewrite scl in sl; cbn [bind]; have [|r -> [sr _]] := @addsE F cr (smuls x lr); first by rewrite scr size_smuls slr.
rewrite scr in sr; cbn [bind]; rewrite deltayzE //; cbn [bind].
have [|h' -> sh'] := @gethPrime_total h y y0; first by rewrite sh.
rewrite sh in sh'; cbn [bind]; rewrite getPhmuE //; cbn [bind].
case: (extract _ _ _ _) => w tr3.
have [|pf ->] := @prove_rec_total k l r g h' (w *: pu pp) [::] [::] tr3 (size l) hw sl sr sg sh'.
  by rewrite sl /N ltnW // ltn_expl.
by case: pf => a b; cbn [bind]; eexists.
Qed.

Lemma getaLb_total vs n : enc_ok -> all (fun v => n <= 8 * size (enc v))%N vs ->
  exists2 aL : seq F, getaL_batched enc dec vs n = Ok aL & size aL = (n * size vs)%N.
Proof.
move=> he ha; have [aL e] : exists aL : seq F, getaL_batched enc dec vs n = Ok aL.
  elim: vs ha => [|v vs IH] /=; first by eexists.
  by move=> /andP[h1 /IH [aL e]]; rewrite getaLE //; cbn [bind]; rewrite e; eexists.
by exists aL => //; have [] := getaLb_ok he e.
Qed.
Lemma capVb_total (vs gammas : seq F) (p q : G) : (size vs <= size gammas)%N -> exists Vs, capV_batched vs gammas p q = Ok Vs.
Proof.
elim: vs gammas => [|v vs IH] [|gm gr] //=; [by eexists|by eexists|].
by move=> /IH [Vs ->]; cbn [bind]; eexists.
Qed.
Lemma batch_total gs vs gammas k j pp tr alpha fL fR rho tau1 tau2 : enc_ok ->
  (forall t, wide (xof t) != 0) -> size vs = (2 ^ j)%N -> (0 < j)%N -> (size vs <= size gammas)%N ->
  (2 ^ k * size vs <= size (gG gs))%N -> (2 ^ k * size vs <= size (gH gs))%N ->
  all (fun v => bigint v <= 2 ^ (2 ^ k))%N vs -> all (fun v => 2 ^ k <= 8 * size (enc v))%N vs ->
  exists r, batch_prove puenc enc dec bigint xof wide gs vs gammas (Posz (2 ^ k)) pp tr alpha fL fR rho tau1 tau2 = Ok r.
Proof.
move=> he hw hm j0 hgm hg hh hv hN; set n := (2 ^ k)%N in hg hh hv hN *; set N := (n * size vs)%N in hg hh.
have m1 : (1 < size vs)%N by rewrite hm -(expn0 2) ltn_exp2l.
have n0 : (0 < n)%N by rewrite expn_gt0.
have N1 : (1 < N)%N by rewrite /N (leq_trans m1) // leq_pmull.
have eN : N = (2 ^ (k + j))%N by rewrite /N hm -expnD.
rewrite /batch_prove /trim_batched -PoszM -/N; cbn [trim]; rewrite ltnNge hg ltnNge hh; cbn [negb bind].
have -> : has (fun v => 2 ^ n < bigint v)%N vs = false.
  by apply/negbTE; rewrite -all_predC; apply: sub_all hv => v /=; rewrite -leqNgt.
have sg := size_takel hg; have sh := size_takel hh; move: (take N (gG gs)) (take N (gH gs)) sg sh => g h sg sh.
have [aL -> saL] := getaLb_total he hN; cbn [bind]; rewrite -/N in saL *.
have [|aR -> [saR _]] := @subsE F aL (get1n F N); first by rewrite saL size_nseq.
rewrite saL in saR; cbn [bind]; rewrite sopE ?sg ?saL //; cbn [bind]; rewrite sopE ?sh ?saR //; cbn [bind].
have sbl : forall f, size (blinding N f : seq F) = N by move=> f; rewrite size_map size_iota.
move: (blinding N fL) (blinding N fR) (sbl fL) (sbl fR) => sL sR ssL ssR.
rewrite sopE ?sg ?ssL //; cbn [bind]; rewrite sopE ?sh ?ssR //; cbn [bind].
have [Vs ->] := capVb_total (pg pp) (ph pp) hgm; cbn [bind].
case Eyz: (calc_yz _ _ _ _ _ _ _) => [[y z] tr1].
have y0 : y != 0 by move: Eyz; rewrite /calc_yz /extract => -[<- _ _].
have [|cl -> [scl _]] := @subsE F aL (smuls z (get1n F N)); first by rewrite saL size_smuls size_nseq.
rewrite saL in scl; cbn [bind]; have [tw etw] := get2n_total n0; have [_ stw _] := get2n_ok etw; rewrite etw; cbn [bind].
have [|aRz -> [saRz _]] := @addsE F aR (smuls z (get1n F N)); first by rewrite saR size_smuls size_nseq.
rewrite saR in saRz; cbn [bind]; have [yn eyn] := getkn_total y N1; have [_ syn _] := getkn_ok eyn; rewrite eyn; cbn [bind].
have [|hd -> [shd _]] := @mulsE F yn aRz; first by rewrite syn saRz.
rewrite syn in shd; cbn [bind]; have [|cr -> [scr _]] := @addsE F hd (sum_term z z tw (size vs)); first by rewrite shd size_sum_term stw.
rewrite shd in scr; cbn [bind]; have [|lr -> [slr _]] := @mulsE F yn sR; first by rewrite syn ssR.
rewrite syn in slr; cbn [bind]; rewrite innerE ?ssL ?scr ?(ltnW N1) //; cbn [bind].
rewrite innerE ?slr ?scl ?(ltnW N1) //; cbn [bind]; rewrite innerE ?ssL ?slr ?(ltnW N1) //; cbn [bind].
case: (calc_x _ _ _ _ _ _) => x tr2.
have [|l -> [sl _]] := @addsE F cl (smuls x sL); first by rewrite scl size_smuls ssL.
rewrite scl in sl; cbn [bind]; have [|r -> [sr _]] := @addsE F cr (smuls x lr); first by rewrite scr size_smuls slr.
rewrite scr in sr; cbn [bind]; have [zm ->] := getkn_total z m1; cbn [bind]; rewrite deltaybE //; cbn [bind].
have [|h' -> sh'] := @gethPrime_total h y y0; first by rewrite sh.
rewrite sh in sh'; cbn [bind]; rewrite (@getPhmubE _ _ _ _ _ _ _ _ _ _ _ tw) //; cbn [bind].
case: (extract _ _ _ _) => w tr3; rewrite eN in sl sr sg sh'.
have [|pf ->] := @prove_rec_total (k + j) l r g h' (w *: pu pp) [::] [::] tr3 (size l) hw sl sr sg sh'.
  by rewrite sl ltnW // ltn_expl.
by case: pf => a b; cbn [bind]; eexists.
Qed.
End Range.
