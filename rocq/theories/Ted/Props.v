(** Property theorems for pkg/ted25519/ted25519. *)
From mathcomp Require Import all_ssreflect all_algebra zify.
From Coq Require Import Field.
From Verif Require Import Lib.FieldTac Lib.Res Lib.Bytes Lib.Inst SharingV1.Model SharingV1.Proofs Ted.Model Ted.Proofs.
Set Implicit Arguments.
Unset Strict Implicit.
Unset Printing Implicit Defensive.
Import GRing.Theory.
Local Open Scope ring_scope.

Section R.
Variable F : fieldType.
Add Field F_field : (f_fth F).
Lemma ring16 (c0 c1 c2 s : F) : (c2 * s + c1) * s + c0 - (c0 + c1 * s + c2) = c2 * (s * s - 1).
Proof. by f_fold F; ring. Qed.
End R.

(** C16: VerifyVSS against commitments to the coefficients [cs] compares the share with
    sum_j cs_j * sw(id^j), where sw(n) is the shortest big-endian form of n read little-endian; it
    errors when some sw(id^j) is not below the order. *)
Theorem C16_ted_vss_exact :
  forall (p : nat) (G : lmodType 'F_p) (g : G) (t id : nat) (v : 'F_p) (cs : seq 'F_p),
  prime p -> (p <= 2 ^ 253)%N -> (forall a : 'F_p, a *: g = 0 -> a = 0) ->
  (t <= size cs)%N -> (0 < size cs)%N -> (id < p)%N ->
  let sw j := le_val (be_bytes (id ^ j %% p)) in
  verify_vss g t (Share1 id v) [seq c *: g | c <- cs] =
  if all (fun j => (sw j < p)%N) (iota 1 (size cs).-1)
  then Ok (v == \sum_(j < size cs) nth 0 cs j * (sw j)%:R) else Err.
Proof.
move=> p G g t id v cs pp p253 gok ts c0 idp sw; case: ifP.
  move=> /allP h; apply: verify_vssE => // j hj; apply: h; rewrite mem_iota; lia.
move=> /negbT; rewrite -has_predC => /hasP [j]; rewrite mem_iota /= -leqNgt => hj hs.
by apply: (@verify_vss_err p pp p253 G g t id v cs j) => //; lia.
Qed.
Print Assumptions C16_ted_vss_exact.

(** While all powers id^j fit in one byte this is the intended check. *)
Theorem C16_ted_vss_small_ids :
  forall (p : nat) (G : lmodType 'F_p) (g : G) (t id : nat) (v : 'F_p) (cs : seq 'F_p),
  prime p -> (256 <= p)%N -> (p <= 2 ^ 253)%N -> (forall a : 'F_p, a *: g = 0 -> a = 0) ->
  (t <= size cs)%N -> (0 < size cs)%N -> (forall j, (j < size cs)%N -> (id ^ j < 256)%N) -> (id < p)%N ->
  verify_vss g t (Share1 id v) [seq c *: g | c <- cs] = Ok (v == (Poly cs).[id%:R]).
Proof.
move=> p G g t id v cs pp p256 p253 gok ts c0 sm idp; rewrite (@verify_vssE p) //.
- congr Ok; congr (_ == _); rewrite (@horner_coef_wide _ (size cs)) ?size_Poly //.
  apply: eq_bigr => j _; rewrite coef_Poly /pw swapped_small -?natrX; last first.
    by rewrite modn_small ?sm // (leq_trans (sm _ (ltn_ord j))).
  by rewrite modn_small // (leq_trans (sm _ (ltn_ord j))).
- move=> j /andP [_ /sm hj]; have jp : (id ^ j < p)%N := leq_trans hj p256.
  by rewrite /pw modn_small // swapped_small.
Qed.
Print Assumptions C16_ted_vss_small_ids.

(** From id^j = 256 on honest shares fail: with threshold 3 the honest share of participant 16 is
    refused unless the leading coefficient is zero. *)
Theorem C16_ted_vss_id16_refuted :
  forall (p : nat) (G : lmodType 'F_p) (g : G) (c0 c1 c2 : 'F_p),
  prime p -> (257 < p)%N -> (p <= 2 ^ 253)%N -> (forall a : 'F_p, a *: g = 0 -> a = 0) ->
  let cs := [:: c0; c1; c2] in
  verify_vss g 3 (Share1 16 (Poly cs).[16%:R]) [seq c *: g | c <- cs] = Ok (c2 == 0).
Proof.
move=> p G g c0 c1 c2 pp p257 p253 gok cs.
have small n : (n < 256)%N -> (n < p)%N by move=> h; apply: ltn_trans p257; apply: ltn_trans h _.
have e1 : pw p 16 1 = 16%N by rewrite /pw expn1 modn_small // small.
have e2 : pw p 16 2 = 256%N by rewrite /pw modn_small // ; apply: ltn_trans p257.
have e0 : pw p 16 0 = 1%N by rewrite /pw expn0 modn_small // small.
have s256 : swapped 256 = 1%N by vm_compute.
rewrite (@verify_vssE p) //; last first.
- case=> [|[|[|j]]] // _; first by rewrite e1 swapped_small ?small.
  by rewrite e2 s256 small.
- by rewrite small.
rewrite !big_ord_recl big_ord0 /= /bump /= e0 e1 e2 s256 !swapped_small //.
congr Ok; rewrite /= !cons_poly_def !hornerE /= -subr_eq0.
rewrite (@ring16 [fieldType of 'F_p]) -natrM -(natrB _ (isT : 1 <= 16 * 16)%N).
by rewrite mulf_eq0 -(dvdn_charf (char_Fp pp)) gtnNdvd ?orbF // small.
Qed.
Print Assumptions C16_ted_vss_id16_refuted.

(** The hypotheses on p, g and the encodings hold for a toy instance. *)
Definition penc257 (x : G257) : bytes := le_bytes 32 (nat_of_ord (x : 'F_257)).
Definition pdec257 (b : bytes) : option G257 := Some ((le_val b)%:R : 'F_257).
Definition hash257 (b : bytes) : bytes := le_bytes 64 (foldr addn 0%N b).
Lemma p257_253 : (257 <= 2 ^ 253)%N.
Proof. by apply: leq_trans (_ : 2 ^ 9 <= _)%N; [by vm_compute | rewrite leq_exp2l]. Qed.
Lemma p257_32 : (257 < 256 ^ 32)%N.
Proof. exact: leq_ltn_trans p257_253 pow_lt. Qed.
Example C16_hyps :
  [/\ prime 257, (256 <= 257)%N, (257 <= 2 ^ 253)%N & forall a : 'F_257, a *: g257 = 0 -> a = 0] /\
  [/\ forall P, pdec257 (penc257 P) = Some P, forall P, size (penc257 P) = 32%N,
      forall b, size (hash257 b) = 64%N & forall b, is_bytes (hash257 b)].
Proof.
split; split.
- exact: prime257.
- by [].
- exact: p257_253.
- exact: base257.
- move=> P; rewrite /pdec257 /penc257 le_bytesK; first by rewrite natr_Zp.
  exact: ltn_trans (val_lt prime257 (P : 'F_257)) p257_32.
- by move=> P; rewrite size_le_bytes.
- by move=> b; rewrite size_le_bytes.
- by move=> b; rewrite is_bytes_le.
Qed.

(** C17: a key dealt by split for a secret, a nonce dealt for the same (t, n), n <= 255: the partial
    signatures of any t or more holders of distinct indices, none of whose two shares is zero,
    aggregate to a signature that Verify accepts under the public key of the dealt secret. *)
Theorem C17_ted_threshold_sign_correct :
  forall (p : nat) (G : lmodType 'F_p) (g : G) (penc : G -> bytes) (pdec : bytes -> option G)
    (hash64 : bytes -> bytes) (t n : nat) (sk sn msg : bytes) (rk rn : nat -> 'F_p) ck cn
    (keys nonces : seq (share1 p)) (l : seq nat),
  prime p -> (p <= 2 ^ 253)%N -> (255 < p)%N -> (forall a : 'F_p, a *: g = 0 -> a = 0) ->
  (forall P, pdec (penc P) = Some P) -> (forall P, size (penc P) = 32%N) ->
  (forall b, size (hash64 b) = 64%N) ->
  (2 <= t <= n)%N -> (n <= 255)%N ->
  split_ted g t n sk rk = Ok (ck, keys) -> split_ted g t n sn rn = Ok (cn, nonces) ->
  uniq l -> (t <= size l)%N -> (forall i, i \in l -> (i < n)%N) ->
  let key i := nth (Share1 0 0) keys i in let nonce i := nth (Share1 0 0) nonces i in
  (forall i, i \in l -> s1_val (key i) != 0 /\ s1_val (nonce i) != 0) ->
  let pub := penc ((be_val sk)%:R *: g) in let R := penc ((be_val sn)%:R *: g) in
  exists (ps : nat -> partial_sig) (sig : bytes),
  [/\ forall i, i \in l -> tsign hash64 msg (key i) pub (nonce i) R = Ok (ps i),
      aggregate p t n [seq ps i | i <- l] = Ok sig &
      verify g penc pdec hash64 pub msg sig = Ok true].
Proof.
move=> p G g penc pdec hash64 t n sk sn msg rk rn ck cn keys nonces l pp p253 p255 gok pK ps hs tn n255.
have n32 : (n < 2 ^ 32)%N.
  apply: leq_trans (_ : 2 ^ 8 <= _)%N; first by apply: leq_ltn_trans n255 _.
  by rewrite leq_exp2l.
have np : (n < p)%N by apply: leq_ltn_trans p255.
have inv (s : bytes) rnd c sh : split_ted g t n s rnd = Ok (c, sh) ->
    (0 < size s)%N /\ (be_val s < p)%N.
  move: tn => /andP [t2 tn']; rewrite /split_ted /new_shamir1 ltnNge tn' ltnNge t2 /= /get_shares_and_poly.
  by rewrite lt0n; case: eqP => //= _; case: ltnP.
move=> hk hn; have [sk0 skp] := inv _ _ _ _ hk; have [sn0 snp] := inv _ _ _ _ hn.
move: hk hn; rewrite !(split_tedE pp p253) //; set ka := _ :: mkseq rk _; set na := _ :: mkseq rn _.
move=> [_ <-] [_ <-] ul tl ln key nonce nz pub R.
pose c := chal p hash64 R pub msg.
pose h : {poly 'F_p} := c *: Poly ka + Poly na.
have kE i : i \in l -> key i = mk1 ka i.
  by move=> /ln hi; rewrite /key (nth_map 0%N) ?size_iota // nth_iota.
have nE i : i \in l -> nonce i = mk1 na i.
  by move=> /ln hi; rewrite /nonce (nth_map 0%N) ?size_iota // nth_iota.
exists (fun i => PSig i.+1 (R ++ sbytes h.[(i.+1)%:R])), (R ++ sbytes h.[0]); split.
- move=> i hi; have [k0 n0] := nz _ hi; rewrite kE // nE // in k0 n0 *.
  rewrite /tsign (threshold_signE pp p253 hs) //= ?ps // /new_partial size_cat size_sbytes ps /=.
  have -> : (i.+1 %% 256 = i.+1)%N by rewrite modn_small //; have := ln _ hi; lia.
  by rewrite /h hornerD hornerZ.
- have -> : [seq PSig i.+1 (R ++ sbytes h.[(i.+1)%:R]) | i <- l] =
            [seq PSig i (R ++ sbytes h.[i%:R]) | i <- map succn l] by rewrite -map_comp.
  apply: (aggregateE pp p253) => //.
  + exact: ps.
  + have szP (a : 'F_p) r : (size (Poly (a :: mkseq r t.-1)) <= t)%N.
      apply: leq_trans (size_Poly _) _; rewrite /= size_mkseq; move: tn; lia.
    rewrite /h; apply: leq_trans (size_add _ _) _; rewrite geq_max szP andbT.
    exact: leq_trans (size_scale_leq _ _) (szP _ _).
  + by rewrite map_inj_uniq //; apply: succn_inj.
  + by rewrite size_map.
  + by rewrite all_map; apply/allP => i /ln hi /=.
- have -> : h.[0] = c * (be_val sk)%:R + (be_val sn)%:R.
    by rewrite /h hornerD hornerZ /ka /na /= !cons_poly_def !hornerE ?mulr0 ?add0r.
  exact: (verifyE pp p253).
Qed.
Print Assumptions C17_ted_threshold_sign_correct.

(** The public key of GenerateSharedKey is the encoding of the first commitment, and the dealt secret
    is its discrete logarithm. *)
Theorem C17_ted_shared_key_public_key :
  forall (p : nat) (G : lmodType 'F_p) (g : G) (penc : G -> bytes) (hash64 : bytes -> bytes)
    (t n : nat) (seed : bytes) (rnd : nat -> 'F_p) pub shares comms,
  prime p -> (p <= 2 ^ 253)%N -> (forall P, size (penc P) = 32%N) ->
  (forall b, size (hash64 b) = 64%N) -> (forall b, is_bytes (hash64 b)) ->
  (2 <= t <= n)%N -> (n < 2 ^ 32)%N -> (n < p)%N -> size seed = 32%N ->
  generate_shared_key g penc hash64 t n seed rnd = Ok (pub, shares, comms) ->
  exists f : {poly 'F_p}, [/\ (size f <= t)%N, pub = penc (f.[0] *: g), nth 0 comms 0 = f.[0] *: g,
    shares = [seq Share1 i f.[i%:R] | i <- iota 1 n] &
    (le_val (expand_seed hash64 seed))%:R = f.[0]].
Proof.
move=> p G g penc hash64 t n seed rnd pub shares comms pp p253 ps hs hb tn n32 np ss.
rewrite /generate_shared_key generate_sharable_keyE //=.
case E: (split_ted _ _ _ _ _) => [[vs sh]| |] //= [<- <- <-].
have [s0 sp] : (0 < size (ebytes (skey p hash64 seed)))%N /\ (be_val (ebytes (skey p hash64 seed)) < p)%N.
  move: tn E => /andP [t2 tn']; rewrite /split_ted /new_shamir1 ltnNge tn' ltnNge t2 /= /get_shares_and_poly.
  by rewrite lt0n; case: eqP => //= _; case: ltnP.
move: E; rewrite (split_tedE pp p253) // => -[<- <-].
set cs := _ :: mkseq _ _.
have f0 : (Poly cs).[0] = skey p hash64 seed.
  by rewrite /cs /= cons_poly_def !hornerE ?mulr0 ?add0r be_ebytes natr_val.
exists (Poly cs); rewrite f0; split=> //.
- apply: leq_trans (size_Poly _) _; rewrite /= size_mkseq; move: tn; lia.
- by rewrite /= be_ebytes natr_val.
- by rewrite (iotaDl 1 0) -map_comp.
Qed.
Print Assumptions C17_ted_shared_key_public_key.

(** Sign followed by Verify under the key of the same seed succeeds. *)
Theorem C17_ted_plain_sign_verify :
  forall (p : nat) (G : lmodType 'F_p) (g : G) (penc : G -> bytes) (pdec : bytes -> option G)
    (hash64 : bytes -> bytes) (seed msg priv sig : bytes),
  prime p -> (p <= 2 ^ 253)%N ->
  (forall P, pdec (penc P) = Some P) -> (forall P, size (penc P) = 32%N) ->
  (forall b, size (hash64 b) = 64%N) -> (forall b, is_bytes (hash64 b)) ->
  size seed = 32%N -> new_key_from_seed g penc hash64 seed = Ok priv ->
  sign g penc hash64 priv msg = Ok sig ->
  verify g penc pdec hash64 (drop 32 priv) msg sig = Ok true.
Proof.
move=> p G g penc pdec hash64 seed msg priv sig pp p253 pK ps hs hb ss.
by move=> h1 h2; apply: sign_verify h1 h2.
Qed.
Print Assumptions C17_ted_plain_sign_verify.

(** Finding: a share with value 0, which Split can produce, makes TSign panic. *)
Theorem C17_ted_zero_share_panics :
  forall (p : nat) (hash64 : bytes -> bytes) (key nonce : share1 p) (msg pub R : bytes),
  prime p -> (s1_val key == 0) || (s1_val nonce == 0) ->
  tsign hash64 msg key pub nonce R = Panic.
Proof.
by move=> p hash64 key nonce msg pub R pp h; rewrite /tsign threshold_sign_zero.
Qed.
Print Assumptions C17_ted_zero_share_panics.

(** Finding: Aggregate does not check anything but the equality of the nonce keys; one wrong partial
    signature among t gives a signature that Verify refuses, without an error. *)
Theorem C17_ted_bad_partial_undetected :
  forall (p : nat) (G : lmodType 'F_p) (g : G) (penc : G -> bytes) (pdec : bytes -> option G)
    (hash64 : bytes -> bytes) (t n : nat) (a r : 'F_p) (msg : bytes) (h : {poly 'F_p})
    (l : seq nat) (b : nat) (y : 'F_p),
  prime p -> (p <= 2 ^ 253)%N -> (forall a : 'F_p, a *: g = 0 -> a = 0) ->
  (forall P, pdec (penc P) = Some P) -> (forall P, size (penc P) = 32%N) ->
  (forall b, size (hash64 b) = 64%N) ->
  (2 <= t <= n)%N -> (n < 2 ^ 32)%N -> (n < p)%N -> (size h <= t)%N ->
  uniq l -> size l = t -> (forall i, i \in l -> (0 < i <= n)%N) -> b \in l -> y != h.[b%:R] ->
  let pub := penc (a *: g) in let R := penc (r *: g) in
  let c : 'F_p := (le_val (hash64 (R ++ pub ++ msg)))%:R in
  h.[0] = c * a + r ->
  exists sig, aggregate p t n [seq PSig i (R ++ sbytes (if i == b then y else h.[i%:R])) | i <- l] = Ok sig /\
    verify g penc pdec hash64 pub msg sig = Ok false.
Proof.
move=> p G g penc pdec hash64 t n a r msg h l b y pp p253 gok pK ps hs tn n32 np sh ul sl va bl ny
  pub R c h0.
pose pr : {poly 'F_p} := \prod_(i <- rem b l) ('X - (i%:R)%:P).
have rb i : i \in rem b l -> i != b /\ i \in l by rewrite mem_rem_uniq // !inE => /andP [].
have inj i j : i \in l -> j \in l -> (i%:R : 'F_p) = j%:R -> i = j.
  move=> /va /andP [_ hi] /va /andP [_ hj]; apply: (natr_inj pp); exact: leq_ltn_trans np.
have prE x : pr.[x] = \prod_(i <- rem b l) (x - i%:R).
  by rewrite horner_prod; apply: eq_bigr => i _; rewrite !hornerE.
have prb : pr.[b%:R] != 0.
  rewrite prE prodf_seq_neq0; apply/allP => i /rb [ib il] /=.
  by rewrite subr_eq0; apply: contra ib => /eqP /(inj _ _ bl il) ->.
have pr0 : pr.[0] != 0.
  rewrite prE prodf_seq_neq0; apply/allP => i /rb [ib /va /andP [i0 il]] /=.
  rewrite sub0r oppr_eq0; apply/eqP => /(congr1 val); rewrite (val_natr pp) //= ?mod0n; first by lia.
  exact: leq_ltn_trans np.
pose h' := h + ((y - h.[b%:R]) / pr.[b%:R]) *: pr.
have sh' : (size h' <= t)%N.
  rewrite /h'; apply: leq_trans (size_add _ _) _; rewrite geq_max sh /=; apply: leq_trans (size_scale_leq _ _) _.
  by rewrite /pr size_prod_XsubC size_rem // sl prednK //; move: tn; lia.
have e : [seq PSig i (R ++ sbytes (if i == b then y else h.[i%:R])) | i <- l] =
         [seq PSig i (R ++ sbytes h'.[i%:R]) | i <- l].
  apply/eq_in_map => i il; congr (PSig _ (R ++ sbytes _)); rewrite /h' hornerD hornerZ.
  case: eqP => [->|/eqP ni]; first by rewrite divfK // addrC subrK.
  rewrite (prE i%:R) (big_rem i) /=; last by rewrite mem_rem_uniq // !inE ni.
  by rewrite subrr mul0r mulr0 addr0.
exists (R ++ sbytes h'.[0]); split.
  rewrite e; apply: (aggregateE pp p253) => //; [by rewrite ps | by rewrite sl |].
  by apply/allP => i /va.
rewrite (verify_head pp p253) // ?ps //; congr Ok; apply/negbTE/eqP => /(congr1 pdec).
rewrite !pK => -[/(g_inj gok) er].
have : h'.[0] = h.[0] by rewrite h0 [in RHS]er -/c addrC subrK.
rewrite /h' hornerD hornerZ => /eqP; rewrite -subr_eq0 addrC addKr !mulf_eq0 invr_eq0 (negbTE pr0) (negbTE prb).
by rewrite !orbF subr_eq0 (negbTE ny).
Qed.
Print Assumptions C17_ted_bad_partial_undetected.
