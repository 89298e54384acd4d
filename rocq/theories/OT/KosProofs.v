From Coq Require Import PeanoNat NArith.
From mathcomp Require Import all_ssreflect all_algebra zify.
From Verif Require Import Lib.Res Lib.Bytes Core.HashModel Core.HashProofs OT.GfModel OT.SimplestModel OT.KosModel.
Set Implicit Arguments. Unset Strict Implicit. Unset Printing Implicit Defensive.
Import GRing.Theory.

Notation tb := PeanoNat.Nat.testbit.

Lemma nth_bxor a b i : size a = size b -> nth 0 (bxor a b) i = Nat.lxor (nth 0 a i) (nth 0 b i).
Proof. by elim: a b i => [|x a IH] [|y b] [|i] //= [e]; apply: IH. Qed.

Lemma extract_bxor a b i : size a = size b -> extract_bit (bxor a b) i = extract_bit a i (+) extract_bit b i.
Proof.
move=> e; rewrite /extract_bit nth_bxor // PeanoNat.Nat.lxor_spec; by case: tb; case: tb.
Qed.

Lemma tb_high x k : x < 256 -> 8 <= k -> tb x k = false.
Proof.
move=> hx hk; case: (x =P 0) => [->|nz]; first by rewrite PeanoNat.Nat.bits_0.
apply: PeanoNat.Nat.bits_above_log2.
have : (PeanoNat.Nat.log2 x < 8)%coq_nat by apply/PeanoNat.Nat.log2_lt_pow2; simpl; lia.
lia.
Qed.

Lemma tb_lt x : (forall k, 8 <= k -> tb x k = false) -> x < 256.
Proof.
move=> h; case: (x =P 0) => [->//|nz].
have hx : (0 < x)%coq_nat by lia.
suff : (x < PeanoNat.Nat.pow 2 8)%coq_nat by simpl; lia.
apply/PeanoNat.Nat.log2_lt_pow2 => //.
case: (ltnP (PeanoNat.Nat.log2 x) 8) => hl; first by apply/ltP.
by have := PeanoNat.Nat.bit_log2 _ nz; rewrite h.
Qed.

Lemma bytes_ext a b : is_bytes a -> is_bytes b -> size a = size b ->
  (forall i, i < 8 * size a -> extract_bit a i = extract_bit b i) -> a = b.
Proof.
move=> ha hb e h; apply: (@eq_from_nth _ 0) => // i hi.
have bA : nth 0 a i < 256 by apply: (allP ha); apply: mem_nth.
have bB : nth 0 b i < 256 by apply: (allP hb); apply: mem_nth; rewrite -e.
apply: PeanoNat.Nat.bits_inj => k; case: (ltnP k 8) => hk; last by rewrite !tb_high.
have := h (i * 8 + k); rewrite /extract_bit divnMDl // modnMDl divn_small // modn_small // addn0.
by apply; lia.
Qed.

Lemma bytes_bxor a b : is_bytes a -> is_bytes b -> size a = size b -> is_bytes (bxor a b).
Proof.
move=> ha hb e; apply/(all_nthP 0) => i; rewrite size_bxor => hi; rewrite nth_bxor //.
have bA : nth 0 a i < 256 by apply: (allP ha); apply: mem_nth.
have bB : nth 0 b i < 256 by apply: (allP hb); apply: mem_nth; rewrite -e.
by apply: tb_lt => k hk; rewrite PeanoNat.Nat.lxor_spec !tb_high.
Qed.

Lemma extract_nseq n i : extract_bit (nseq n 0) i = false.
Proof. by rewrite /extract_bit nth_nseq; case: ifP => _; rewrite PeanoNat.Nat.bits_0. Qed.

Lemma land255 x : x < 256 -> Nat.land 255 x = x.
Proof.
move=> hx; apply: PeanoNat.Nat.bits_inj => k; rewrite PeanoNat.Nat.land_spec.
case: (ltnP k 8) => hk; last by rewrite [tb x k]tb_high // andbF.
by case: k hk => [|[|[|[|[|[|[|[|]]]]]]]].
Qed.

Lemma bmaskE b x : is_bytes x -> bmask b x = if b then x else nseq (size x) 0.
Proof.
move=> hx; case: b; rewrite /bmask /bitmask.
  by rewrite -[RHS]map_id; apply/eq_in_map => y hy; apply: land255; apply: (allP hx).
by apply: (@eq_from_nth _ 0); rewrite ?size_map ?size_nseq // => i hi; rewrite (nth_map 0) // nth_nseq hi.
Qed.

Lemma tb_fold (f : nat -> bool) s acc k : tb (foldl (fun acc k => Nat.lor acc (Nat.shiftl (nat_of_bool (f k)) k)) acc s) k
  = tb acc k || (k \in s) && f k.
Proof.
elim: s acc => [|j s IH] acc /=; first by rewrite orbF.
rewrite IH PeanoNat.Nat.lor_spec in_cons -orbA; congr orb.
case: (ltngtP j k) => h /=.
- rewrite PeanoNat.Nat.shiftl_spec_high'; last by lia.
  have -> : (k - j)%coq_nat = (k - j).-1.+1 by lia.
  by case: (f j) => /=; rewrite ?PeanoNat.Nat.bits_0.
- by rewrite PeanoNat.Nat.shiftl_spec_low //; lia.
rewrite h PeanoNat.Nat.shiftl_spec_high'; last by lia.
by rewrite PeanoNat.Nat.sub_diag; case: (f k); rewrite ?orbT // orbC andbF.
Qed.

Lemma tb_pack8 f k : tb (pack8 f) k = (k < 8) && f k.
Proof. by rewrite /pack8 tb_fold PeanoNat.Nat.bits_0 mem_iota. Qed.

Lemma pack8_lt f : pack8 f < 256.
Proof. by apply: tb_lt => k hk; rewrite tb_pack8 ltnNge hk. Qed.

Section P.
Variables (F : fieldType) (enc : F -> bytes) (dec : bytes -> option F)
  (hash : bytes -> bytes) (shake : bytes -> bytes -> nat -> bytes)
  (mul : bytes -> bytes -> bytes) (kb lb eb : nat).
Definition word (a : bytes) := is_bytes a /\ size a = kb.
Hypothesis Hhash : forall x, word (hash x).
Hypothesis Hshake : forall s x n, is_bytes (shake s x n) /\ size (shake s x n) = n.
Hypothesis Hmul : forall a b, word a -> word b -> word (mul a b).
Hypothesis HmulDl : forall a b c, word a -> word b -> word c -> mul (bxor a b) c = bxor (mul a c) (mul b c).
Hypothesis HmulDr : forall a b c, word a -> word b -> word c -> mul a (bxor b c) = bxor (mul a b) (mul a c).

Let zero := nseq kb 0.
Lemma word0 : word zero.
Proof. by split; [apply/allP => x /nseqP[-> _] | rewrite size_nseq]. Qed.
Lemma word_bxor a b : word a -> word b -> word (bxor a b).
Proof. by move=> [h1 h2] [h3 h4]; split; [apply: bytes_bxor; rewrite ?h2 | rewrite size_bxor]. Qed.

Lemma word_ext a b : word a -> word b -> (forall i, extract_bit a i = extract_bit b i) -> a = b.
Proof. by move=> [h1 h2] [h3 h4] h; apply: bytes_ext => //; rewrite h2. Qed.

Lemma ebx a b i : word a -> word b -> extract_bit (bxor a b) i = extract_bit a i (+) extract_bit b i.
Proof. by move=> [_ h1] [_ h2]; apply: extract_bxor; rewrite h1. Qed.

Lemma wxA a b c : word a -> word b -> word c -> bxor a (bxor b c) = bxor (bxor a b) c.
Proof.
move=> ha hb hc; apply: word_ext; try by do ?apply: word_bxor.
by move=> i; rewrite !ebx ?addbA //; apply: word_bxor.
Qed.
Lemma wxC a b : word a -> word b -> bxor a b = bxor b a.
Proof.
move=> ha hb; apply: word_ext; try by do ?apply: word_bxor.
by move=> i; rewrite !ebx // addbC.
Qed.
Lemma wx0 a : word a -> bxor a zero = a.
Proof. by move=> ha; apply: word_ext => //; [apply: word_bxor => //; exact: word0 | move=> i; rewrite ebx // ?extract_nseq ?addbF //; exact: word0]. Qed.
Lemma wxx a : word a -> bxor a a = zero.
Proof. by move=> ha; apply: word_ext; [apply: word_bxor | exact: word0 | move=> i; rewrite ebx // addbb extract_nseq]. Qed.

Lemma mulr_zero a : word a -> mul a zero = zero.
Proof. by move=> ha; rewrite -{1}(wxx word0) HmulDr ?wxx //; try exact: word0; apply: Hmul => //; exact: word0. Qed.
Lemma mull_zero a : word a -> mul zero a = zero.
Proof. by move=> ha; rewrite -{1}(wxx word0) HmulDl ?wxx //; try exact: word0; apply: Hmul => //; exact: word0. Qed.

(** xor sums *)
Lemma foldx_word (x : nat -> bytes) s acc : word acc -> (forall j, j \in s -> word (x j)) -> word (foldl (fun acc j => bxor acc (x j)) acc s).
Proof.
elim: s acc => [|j s IH] acc //= ha hx; apply: IH; last by move=> i hi; apply: hx; rewrite in_cons hi orbT.
by apply: word_bxor => //; apply: hx; rewrite in_cons eqxx.
Qed.

Lemma xorsum_cat x s j : xorsum kb x (rcons s j) = bxor (xorsum kb x s) (x j).
Proof. by rewrite /xorsum -cats1 foldl_cat. Qed.

Lemma xorsum_word (x : nat -> bytes) s : (forall j, j \in s -> word (x j)) -> word (xorsum kb x s).
Proof. by move=> h; apply: foldx_word => //; exact: word0. Qed.

(** The heart of the check: Sum (psi_j + w_j nabla) chi_j = Sum psi_j chi_j + nabla (Sum w_j chi_j). *)
Lemma xorsum_check (psi c : nat -> bytes) (w : nat -> bool) nabla s : word nabla ->
  (forall j, j \in s -> word (psi j)) -> (forall j, word (c j)) ->
  xorsum kb (fun j => mul (bxor (psi j) (bmask (w j) nabla)) (c j)) s =
  bxor (xorsum kb (fun j => mul (psi j) (c j)) s) (mul nabla (xorsum kb (fun j => bmask (w j) (c j)) s)).
Proof.
move=> hn hp hc; elim/last_ind: s hp => [|s j IH] hp.
  by rewrite /xorsum /= -/zero mulr_zero // wx0 //; exact: word0.
have hs : forall i, i \in s -> word (psi i) by move=> i hi; apply: hp; rewrite mem_rcons in_cons hi orbT.
have hj : word (psi j) by apply: hp; rewrite mem_rcons in_cons eqxx.
have bm b x : word x -> word (bmask b x).
  move=> [h1 h2]; rewrite bmaskE //; case: b => //; rewrite h2; exact: word0.
rewrite !xorsum_cat IH //.
have wA : word (xorsum kb (fun j => mul (psi j) (c j)) s).
  by apply: xorsum_word => i hi; apply: Hmul => //; apply: hs.
have wS : word (xorsum kb (fun j => bmask (w j) (c j)) s) by apply: xorsum_word => i hi; apply: bm.
have wB := Hmul hn wS; have wC := Hmul hj (hc j).
rewrite HmulDl // ?HmulDr //; try exact: bm.
have -> : mul (bmask (w j) nabla) (c j) = mul nabla (bmask (w j) (c j)).
  have [n1 n2] := hn; have [c1 c2] := hc j; rewrite !bmaskE //; case: (w j) => //.
  by rewrite n2 c2 -/zero mull_zero // mulr_zero.
have wD := Hmul hn (bm (w j) _ (hc j)).
rewrite !wxA //; try by do ?apply: word_bxor.
congr bxor; rewrite -!wxA //; congr bxor; exact: wxC.
Qed.

(** the transpose *)
Lemma nth_transpose M c : c < 8 * eb -> word (nth [::] (transpose kb eb M) c) /\
  forall i, i < 8 * kb -> extract_bit (nth [::] (transpose kb eb M) c) i = extract_bit (nth [::] M i) c.
Proof.
move=> hc; rewrite /transpose (nth_map 0) ?size_iota // nth_iota // add0n; split.
  split; last by rewrite size_map size_iota.
  by apply/allP => x /mapP[rb _ ->]; apply: pack8_lt.
move=> i hi; rewrite /extract_bit; have h8 : i %/ 8 < kb by rewrite ltn_divLR // mulnC.
rewrite (nth_map 0) ?size_iota // nth_iota // add0n tb_pack8 ltn_mod /=.
by rewrite [8 * _]mulnC -divn_eq.
Qed.

(** seed OT consistency: the KOS sender holds the key selected by its choice bit, and its packed bits *)
Definition seeds_ok (r : receiver F) (s : sender F) : Prop :=
  [/\ size (kr_seeds r) = 8 * kb, size (ks_bits s) = 8 * kb, size (ks_keys s) = 8 * kb, word (ks_packed s) &
   forall i, i < 8 * kb -> nth false (ks_bits s) i = extract_bit (ks_packed s) i /\
     nth [::] (ks_keys s) i = (if nth false (ks_bits s) i then (nth ([::], [::]) (kr_seeds r) i).2
                               else (nth ([::], [::]) (kr_seeds r) i).1)].

Lemma zeta_ok r s sid choice ext r' m : seeds_ok r s ->
  is_bytes choice -> is_bytes ext -> size choice + size ext = eb ->
  round1 hash shake mul kb eb r sid choice (Some ext) = Ok (r', m) ->
  forall j, j < 8 * eb ->
  [/\ word (nth [::] (kr_psi r') j) &
  nth [::] (zeta_of shake kb eb s sid m) j = bxor (nth [::] (kr_psi r') j) (bmask (extract_bit (kr_w r') j) (ks_packed s))].
Proof.
move=> [h1 h2 h3 h4 h5] bc be sz; rewrite /round1 h1 ltnn => -[<- <-] j hj.
rewrite /kr_psi /kr_w /zeta_of /k1_U.
set v0 := fun i => shake sid (nth ([::], [::]) (kr_seeds r) i).1 eb.
set v1 := fun i => shake sid (nth ([::], [::]) (kr_seeds r) i).2 eb.
set w := choice ++ ext.
have bw : is_bytes w by rewrite /is_bytes all_cat; apply/andP; split.
have sw : size w = eb by rewrite size_cat.
have [wp ep] := nth_transpose [seq v0 i | i <- iota 0 (8 * kb)] hj.
set U := [seq bxor (bxor (v0 i) (v1 i)) w | i <- _]; set Z := [seq bxor _ (bmask _ _) | i <- _]; have [wz ez] := nth_transpose Z hj; split=> //.
have wm : word (bmask (extract_bit w j) (ks_packed s)).
  have [p1 p2] := h4; rewrite bmaskE //; case: extract_bit => //; rewrite p2; exact: word0.
apply: bytes_ext; [by case: wz | by case: (word_bxor wp wm) | by case: wz => _ ->; case: (word_bxor wp wm) => _ -> |].
move=> i; rewrite (proj2 wz) => hi; rewrite ez // ebx // ep //.
rewrite /Z /U !(nth_map 0) ?size_iota // !nth_iota // !add0n.
have [s0 z0] := Hshake sid (nth ([::], [::]) (kr_seeds r) i).1 eb.
have [s1 z1] := Hshake sid (nth ([::], [::]) (kr_seeds r) i).2 eb.
have [e1 e2] := h5 i hi; rewrite e2 -/(v0 i) -/(v1 i).
have bU : is_bytes (bxor (bxor (v0 i) (v1 i)) w).
  by apply: bytes_bxor => //; rewrite ?size_bxor; [apply: bytes_bxor => //; rewrite z0 z1 | rewrite z0 sw].
rewrite bmaskE // e1 bmaskE; last by case: h4.
case: (extract_bit (ks_packed s) i) (e1) => E.
  rewrite extract_bxor; last by rewrite z1 !size_bxor z0.
  rewrite !extract_bxor ?size_bxor ?z0 ?z1 //.
  have -> : extract_bit (if extract_bit w j then ks_packed s else nseq (size (ks_packed s)) 0) i = extract_bit w j.
    by case: (extract_bit w j); rewrite ?extract_nseq // -e1 E.
  by case: (extract_bit (v0 i) j); case: (extract_bit (v1 i) j); case: (extract_bit w j).
rewrite extract_bxor; last by rewrite z0 size_nseq !size_bxor z0.
have -> : extract_bit (if extract_bit w j then ks_packed s else nseq (size (ks_packed s)) 0) i = false.
  by case: (extract_bit w j); rewrite ?extract_nseq // -e1 E.
by rewrite extract_nseq.
Qed.

Lemma mapo_ok (A : eqType) B (f : A -> outcome B) (s : seq A) ys : mapo f s = Ok ys ->
  size ys = size s /\ forall i a b, i < size s -> f (nth a s i) = Ok (nth b ys i).
Proof.
elim: s ys => [|x s IH] ys /=; first by case=> <-.
case E: (f x) => [y| |] //=; case E2: (mapo f s) => [zs| |] //= [<-].
have [h1 h2] := IH _ E2; split=> /=; first by rewrite h1.
by move=> [|i] a b hi //=; apply: h2.
Qed.
Lemma mapo_total (A : eqType) B (f : A -> outcome B) (s : seq A) :
  (forall x, x \in s -> exists y, f x = Ok y) -> exists ys, mapo f s = Ok ys.
Proof.
elim: s => [|x s IH] h /=; first by exists [::].
have [|y ->] := h x; first by rewrite in_cons eqxx.
have [|ys ->] := IH; first by move=> z hz; apply: h; rewrite in_cons hz orbT.
by exists (y :: ys).
Qed.
Lemma mapo_nopanic (A : eqType) B (f : A -> outcome B) (s : seq A) :
  (forall x, f x <> Panic) -> mapo f s <> Panic.
Proof.
move=> h; elim: s => [|x s IH] //=; case E: (f x) => [y| |] //=; last by case: (h x).
by case E2: (mapo f s).
Qed.

Hypothesis encK : forall x, dec (enc x) = Some x.
Hypothesis Hle : lb <= eb.
Local Open Scope ring_scope.

Lemma check_ok r s sid choice ext r' m : seeds_ok r s ->
  is_bytes choice -> is_bytes ext -> (size choice + size ext = eb)%N ->
  round1 hash shake mul kb eb r sid choice (Some ext) = Ok (r', m) ->
  check2 hash mul kb eb s (zeta_of shake kb eb s sid m) m.
Proof.
move=> hs bc be sz e; have Z := zeta_ok hs bc be sz e.
have [h1 h2 h3 h4 h5] := hs; move: (e); rewrite /round1 h1 ltnn => -[er em].
rewrite /check2; apply/eqP.
have ew : kr_w r' = choice ++ ext by rewrite -er.
have eV : k1_V m = xorsum kb (fun j => mul (nth [::] (kr_psi r') j) (chi hash (k1_U m) j)) (iota 0 (8 * eb)).
  by rewrite -em -er.
have eW : k1_W m = xorsum kb (fun j => bmask (extract_bit (kr_w r') j) (chi hash (k1_U m) j)) (iota 0 (8 * eb)).
  by rewrite -em -er.
rewrite eV eW -(@xorsum_check (fun j => nth [::] (kr_psi r') j)) //; last first.
- by move=> j; apply: Hhash.
- by move=> j; rewrite mem_iota /= add0n => hj; have [] := Z j hj.
rewrite /xorsum; have : all (fun j => j < 8 * eb)%N (iota 0 (8 * eb)).
  by apply/allP => j; rewrite mem_iota.
elim: (iota 0 (8 * eb)) (nseq kb 0%N) => [|j l IH] acc //= /andP[hj hl].
by rewrite IH //; have [_ ->] := Z j hj.
Qed.

Lemma check_reject s sid (m m' : round1_out) input : size (ks_bits s) = (8 * kb)%N -> size (ks_keys s) = (8 * kb)%N ->
  size (ks_packed s) = kb -> check2 hash mul kb eb s (zeta_of shake kb eb s sid m) m -> k1_U m' = k1_U m ->
  bxor (k1_V m') (mul (ks_packed s) (k1_W m')) <> bxor (k1_V m) (mul (ks_packed s) (k1_W m)) ->
  round2 dec hash shake mul kb lb eb s sid input m' = Err.
Proof.
move=> h2 h3 h4; rewrite /check2 => /eqP ck eU ne; rewrite /round2 h2 h3 h4 !ltnn /check2 /zeta_of eU.
rewrite -/(zeta_of shake kb eb s sid m) ck.
by case: eqP => // e; case: ne.
Qed.

Lemma round1_words r s sid choice ext r' m : seeds_ok r s ->
  is_bytes choice -> is_bytes ext -> (size choice + size ext = eb)%N ->
  round1 hash shake mul kb eb r sid choice (Some ext) = Ok (r', m) -> word (k1_V m) /\ word (k1_W m).
Proof.
move=> hs bc be sz e; have Z := zeta_ok hs bc be sz e.
have [h1 h2 h3 h4 h5] := hs; move: (e); rewrite /round1 h1 ltnn => -[er em].
rewrite -er in Z; rewrite -em; cbn [k1_V k1_W]; split; apply: xorsum_word => j; rewrite mem_iota add0n => /andP[_ hj].
  by apply: Hmul; [have [] := Z j hj | exact: Hhash].
have wc U : word (chi hash U j) by exact: Hhash.
set U := [seq _ | i <- _]; have [b1 b2] := wc U; rewrite bmaskE //; case: extract_bit; first by split.
by rewrite b2; exact: word0.
Qed.

Lemma cot_ok r s sid choice ext r' m input s' tau : seeds_ok r s ->
  is_bytes choice -> is_bytes ext -> size choice = lb -> (size choice + size ext = eb)%N ->
  round1 hash shake mul kb eb r sid choice (Some ext) = Ok (r', m) ->
  round2 dec hash shake mul kb lb eb s sid input m = Ok (s', tau) ->
  exists r'', round3 enc dec shake lb r' tau = Ok r'' /\
  forall j k, (j < 8 * lb)%N -> (k < 2)%N ->
    nth 0 (nth [::] (ks_shares s') j) k + nth 0 (nth [::] (kr_shares r'') j) k
    = if extract_bit choice j then nth 0 (nth [::] input j) k else 0.
Proof.
move=> hs bc be sc sz e1; have Z := zeta_ok hs bc be sz e1.
have [h1 h2 h3 h4 h5] := hs; have er : kr_sid r' = sid /\ kr_w r' = choice ++ ext.
  by move: e1; rewrite /round1 h1 ltnn => -[<- _].
case: er => esid ew.
rewrite /round2 h2 h3 (proj2 h4) !ltnn /= (check_ok hs bc be sz e1) /=.
case E: (mapo _ _) => [slots| |] //= [<- <-]; have [s1 s2] := mapo_ok E; rewrite size_iota in s1 s2.
have key j k : (j < 8 * lb)%N -> (k < 2)%N -> exists a b x,
  [/\ nth 0 (nth ([::], [::]) slots j).1 k = a, nth 0 (nth ([::], [::]) slots j).2 k = b - a + nth 0 (nth [::] input j) k,
      col dec shake sid j (nth [::] (kr_psi r') j) k = Some x &
      x = if extract_bit choice j then b else a].
  move=> hj hk; have := s2 j 0%N ([::], [::]) hj; rewrite nth_iota // add0n.
  have hj' : (j < 8 * eb)%N by apply: leq_trans hj _; rewrite leq_mul2l Hle.
  have [wp ez] := Z j hj'; rewrite ez /slot2 /colo.
  have ec : extract_bit (kr_w r') j = extract_bit choice j.
    by rewrite ew /extract_bit nth_cat sc ltn_divLR // mulnC hj.
  have hx : bxor (bxor (nth [::] (kr_psi r') j) (bmask (extract_bit choice j) (ks_packed s))) (ks_packed s)
     = if extract_bit choice j then nth [::] (kr_psi r') j else bxor (nth [::] (kr_psi r') j) (ks_packed s).
    have [p1 p2] := h4; rewrite bmaskE //; case: (extract_bit choice j).
      by rewrite -wxA // wxx // wx0.
    by rewrite p2 wx0.
  rewrite ec hx.
  have [p1 p2] := h4.
  have hy : extract_bit choice j = false -> bxor (nth [::] (kr_psi r') j) (bmask false (ks_packed s)) = nth [::] (kr_psi r') j.
    by move=> _; rewrite bmaskE // p2 wx0.
  case C: (extract_bit choice j); rewrite ?C in hy *.
    case A0: (col _ _ _ _ _ 0) => [a0|] //=; case A1: (col _ _ _ _ _ 1) => [a1|] //=.
    case B0: (col _ _ _ _ _ 0) => [b0|] //=; case B1: (col _ _ _ _ _ 1) => [b1|] //= [es].
    rewrite -es /=; case: k hk => [|[|]] // _; [exists a0, b0, b0 | exists a1, b1, b1]; by split.
  rewrite hy //; case A0: (col _ _ _ _ _ 0) => [a0|] //=; case A1: (col _ _ _ _ _ 1) => [a1|] //=.
  case B0: (col _ _ _ _ _ 0) => [b0|] //=; case B1: (col _ _ _ _ _ 1) => [b1|] //= [es].
  rewrite -es /=; case: k hk => [|[|]] // _; [exists a0, b0, a0 | exists a1, b1, a1]; by split.
rewrite /round3 /slot3k /colo esid ew.
have slot j k : (j < 8 * lb)%N -> (k < 2)%N -> exists a b x y,
   [/\ nth 0 (nth [::] [seq z.1 | z <- slots] j) k = a,
       col dec shake sid j (nth [::] (kr_psi r') j) k = Some x,
       dec (if extract_bit (choice ++ ext) j then enc (- x + nth 0 (nth [::] [seq z.2 | z <- slots] j) k) else enc (- x)) = Some y,
       x = (if extract_bit choice j then b else a) &
       a + y = if extract_bit choice j then nth 0 (nth [::] input j) k else 0].
  move=> hj hk; have [a [b [x [ea eb' ex xx]]]] := key j k hj hk.
  have ec : extract_bit (choice ++ ext) j = extract_bit choice j.
    by rewrite /extract_bit nth_cat sc ltn_divLR // mulnC hj.
  rewrite ec !(nth_map ([::], [::])) ?s1 // ea eb'.
  exists a, b, x; rewrite ex; case: (extract_bit choice j) xx => ->.
    exists (- b + (b - a + nth 0 (nth [::] input j) k)); rewrite encK; split=> //.
    by rewrite -(addrA b) addKr addNKr.
  by exists (- a); rewrite encK; split=> //; rewrite subrr.
have [|shares es] := @mapo_total _ _ (fun j => do x0 <- (do x <- match col dec shake sid j (nth [::] (kr_psi r') j) 0 with Some a => Ok a | None => Err end;
      match dec (if extract_bit (choice ++ ext) j then enc (- x + nth 0 (nth [::] [seq z.2 | z <- slots] j) 0) else enc (- x)) with Some y => Ok y | None => Err end);
     do x1 <- (do x <- match col dec shake sid j (nth [::] (kr_psi r') j) 1 with Some a => Ok a | None => Err end;
      match dec (if extract_bit (choice ++ ext) j then enc (- x + nth 0 (nth [::] [seq z.2 | z <- slots] j) 1) else enc (- x)) with Some y => Ok y | None => Err end);
     Ok [:: x0; x1]) (iota 0 (8 * lb)).
  move=> j; rewrite mem_iota add0n /= => hj.
  have [a [b [x [y [_ -> /= -> _ _]]]]] := slot j 0%N hj isT.
  have [a' [b' [x' [y' [_ -> /= -> _ _]]]]] := slot j 1%N hj isT.
  by eexists.
rewrite es /=; eexists; split; first by [].
move=> j k hj hk; have [_ h] := mapo_ok es; have := h j 0%N [::]; rewrite size_iota nth_iota // add0n => /(_ hj).
have [a [b [x [y [e0 -> /= -> _ f0]]]]] := slot j 0%N hj isT.
have [a' [b' [x' [y' [e1' -> /= -> _ f1]]]]] := slot j 1%N hj isT.
move=> -[<-] /=; case: k hk => [|[|]] // _ /=; by [rewrite e0 f0 | rewrite e1' f1].
Qed.

(** The second round fails only if a pad does not decode to a scalar. *)
Lemma round2_total r s sid choice ext r' m input : seeds_ok r s ->
  is_bytes choice -> is_bytes ext -> size choice = lb -> (size choice + size ext = eb)%N ->
  round1 hash shake mul kb eb r sid choice (Some ext) = Ok (r', m) ->
  (forall j k x, (j < 8 * lb)%N -> (k < 2)%N -> word x -> col dec shake sid j x k <> None) ->
  exists s' tau, round2 dec hash shake mul kb lb eb s sid input m = Ok (s', tau).
Proof.
move=> hs bc be sc sz e1 hd; have Z := zeta_ok hs bc be sz e1.
have [h1 h2 h3 h4 h5] := hs.
rewrite /round2 h2 h3 (proj2 h4) !ltnn /= (check_ok hs bc be sz e1) /=.
have [|slots ->] := @mapo_total _ _ (fun j => slot2 dec shake sid (ks_packed s) (nth [::] (zeta_of shake kb eb s sid m) j) input j) (iota 0 (8 * lb)).
  move=> j; rewrite mem_iota add0n /= => hj.
  have hj' : (j < 8 * eb)%N by apply: leq_trans hj _; rewrite leq_mul2l Hle.
  have [wz _] := nth_transpose [seq bxor (shake sid (nth [::] (ks_keys s) i) eb) (bmask (nth false (ks_bits s) i) (nth [::] (k1_U m) i)) | i <- iota 0 (8 * kb)] hj'.
  have wz' : word (nth [::] (zeta_of shake kb eb s sid m) j) by exact: wz.
  have wn := word_bxor wz' h4.
  rewrite /slot2 /colo.
  case A0: (col _ _ _ _ _ 0) => [a0|] /=; last by case: (hd j 0%N _ hj isT wz' A0).
  case A1: (col _ _ _ _ _ 1) => [a1|] /=; last by case: (hd j 1%N _ hj isT wz' A1).
  case B0: (col _ _ _ _ _ 0) => [b0|] /=; last by case: (hd j 0%N _ hj isT wn B0).
  case B1: (col _ _ _ _ _ 1) => [b1|] /=; last by case: (hd j 1%N _ hj isT wn B1).
  by eexists.
by eexists; eexists.
Qed.
End P.
