(** Lemmas about the Mina model: what a roinput denotes, chunking, the sponge. *)
From mathcomp Require Import all_ssreflect all_algebra zify.
From Verif Require Import Lib.Res Lib.Bytes Mina.BitModel Mina.BitBytes Mina.BitProofs Mina.Model.
Set Implicit Arguments.
Unset Strict Implicit.
Unset Printing Implicit Defensive.
Import GRing.Theory.
Local Open Scope ring_scope.

Lemma append_all_ok l v : bv_wf v ->
  exists w, append_all l v = Ok w /\ bv_wf w /\ bv_bits w = bv_bits v ++ [seq b == 1%N | b <- l].
Proof.
elim: l v => [|b l IH] v w /=; first by exists v; rewrite cats0.
have [v1 [-> [w1 b1]]] := append_ok b w; rewrite /=.
have [v2 [-> [w2 b2]]] := IH v1 w1; exists v2; split => //; split => //.
by rewrite b2 b1 cat_rcons.
Qed.

Lemma map_b2n l : [seq b == 1%N | b <- [seq b2n b | b <- l]] = l.
Proof. by elim: l => //= b l ->; case: b. Qed.

Lemma read_bits_ok v n s : bv_wf v -> (s + n <= bv_len v)%N ->
  read_bits v n s = Ok (map nat_of_bool (take n (drop s (bv_bits v)))).
Proof.
move=> w; elim: n s => [|n IH] s h /=; first by rewrite take0.
rewrite element_ok //; last by lia.
rewrite /= IH /=; last by lia.
by rewrite (drop_nth false (n:=s)) ?size_bits //; lia.
Qed.

(** appending within the allocated bytes does not reallocate *)
Lemma append_size b v w : bv_wf v -> (bv_len v < 8 * size (bv_data v))%N -> bv_append b v = Ok w ->
  size (bv_data w) = size (bv_data v) /\ bv_len w = (bv_len v).+1.
Proof.
move=> wf h; rewrite /bv_append /at_byte.
have e : grow (bv_data v) (bv_len v).+1 = bv_data v by rewrite /grow /= ltnNge divlt h.
by rewrite e divlt h /= => -[<-] /=; rewrite size_set // divlt.
Qed.

Lemma append_all_size l v w : bv_wf v -> (bv_len v + size l <= 8 * size (bv_data v))%N -> append_all l v = Ok w ->
  size (bv_data w) = size (bv_data v) /\ bv_len w = (bv_len v + size l)%N.
Proof.
elim: l v => [|b l IH] v wf /= h; first by case=> <-; rewrite addn0.
have [v1 [e [w1 _]]] := append_ok b wf; rewrite e /= => e2.
have hv : (bv_len v < 8 * size (bv_data v))%N by clear -h; lia.
have [s1 l1] := append_size wf hv e.
have [|s2 l2] := IH v1 w1 _ e2; first by rewrite s1 l1; clear -h; lia.
by rewrite s2 l2 s1 l1 addSnnS.
Qed.

Lemma size_bits_le k x : size (bits_le k x) = k.
Proof. by elim: k x => //= k IH x; rewrite IH. Qed.

Lemma bits_le_inj k x y : (x < 2 ^ k)%N -> (y < 2 ^ k)%N -> bits_le k x = bits_le k y -> x = y.
Proof.
elim: k x y => [|k IH] x y; first by rewrite expn0; case: x y => [|x] [|y].
rewrite expnS => hx hy /= [ho hh].
have half z : (z < 2 * 2 ^ k)%N -> (z./2 < 2 ^ k)%N by move: (expn 2 k) => u; clear; lia.
have e : x./2 = y./2 by apply: IH => //; apply: half.
by rewrite -(odd_double_half x) -(odd_double_half y) ho e.
Qed.

Lemma cat_eq (T : Type) (a a' b b' : seq T) : size a = size a' -> a ++ b = a' ++ b' -> a = a' /\ b = b'.
Proof.
elim: a a' => [|x a IH] [|y a'] //= [e] [-> h]; by have [-> ->] := IH _ e h.
Qed.

Local Arguments bits_le : simpl never.

Lemma bytes_bits_inj a b : is_bytes a -> is_bytes b -> size a = size b ->
  flatten (map (bits_le 8) a) = flatten (map (bits_le 8) b) -> a = b.
Proof.
elim: a b => [|x a IH] [|y b] //= /andP[hx ha] /andP[hy hb] [e] h.
have [] := @cat_eq _ (bits_le 8 x) (bits_le 8 y) _ _ _ h; first by rewrite !size_bits_le.
by move=> /(@bits_le_inj 8 _ _ hx hy) -> /(IH _ ha hb e) ->.
Qed.

Lemma size_bytes_bits l : size (flatten (map (bits_le 8) l)) = (8 * size l)%N.
Proof. by elim: l => //= x l IH; rewrite IH; lia. Qed.

Section P.
Variables (Fp F : fieldType) (G : lmodType F) (g : G).
Variables (px py : G -> Fp) (fpraw : Fp -> nat) (fqraw : F -> nat).
Variables (blake : bytes -> bytes).
Variables (rk : nat -> seq Fp) (mdsm : seq (seq Fp)) (iv : nat -> seq Fp).
Local Notation permute := (permute rk mdsm).
Local Notation absorb := (absorb rk mdsm).
Local Notation update := (update rk mdsm).
Local Notation digest := (digest F fpraw rk mdsm).
Local Notation ctx_init := (ctx_init iv).

(** a roinput holding fields [fs] and bits [bs] *)
Definition is_ro (r : roinput Fp) (fs : seq Fp) (bs : seq bool) : Prop :=
  [/\ ro_flds r = fs, bv_wf (ro_bv r) & bv_bits (ro_bv r) = bs].

Lemma init_ro n : is_ro (ro_init n) [::] [::].
Proof.
split=> //; rewrite /bv_wf /= andbT /is_bytes all_nseq orbT //.
Qed.

Lemma add_bits_ro r fs bs l : is_ro r fs bs -> exists r', add_bits l r = Ok r' /\ is_ro r' fs (bs ++ l).
Proof.
move=> [h1 h2 h3]; have [w [e [wf wb]]] := append_all_ok (map b2n l) h2.
by exists (RO (ro_flds r) w); rewrite /add_bits e; split => //; split => //=; rewrite wb h3 map_b2n.
Qed.

Lemma add_fp_ro r fs bs x : is_ro r fs bs -> is_ro (add_fp x r) (rcons fs x) bs.
Proof. by move=> [h1 h2 h3]; split => //=; rewrite h1. Qed.

(** 254-bit little-endian chunks *)
Definition cval (bs : seq bool) : Fp := foldr (fun (b : bool) (a : Fp) => (b : nat)%:R + 2%:R * a) 0 bs.
Fixpoint chunks_f (n : nat) (bs : seq bool) : seq Fp :=
  if n is n'.+1 then
    if bs is [::] then [::] else cval (take 254 bs) :: chunks_f n' (drop 254 bs)
  else [::].
Definition chunks (bs : seq bool) : seq Fp := chunks_f (size bs) bs.

Lemma chunk_fpE bs : chunk_fp Fp (map nat_of_bool bs) = cval bs.
Proof. by elim: bs => //= b bs ->. Qed.

Lemma chunks_fuel n m bs : (size bs <= n)%N -> (size bs <= m)%N -> chunks_f n bs = chunks_f m bs.
Proof.
elim: n m bs => [|n IH] [|m] [|b bs] // hn hm; rewrite [LHS]/= [RHS]/=; congr cons.
by apply: IH; rewrite size_drop; move: hn hm; rewrite /=; clear; lia.
Qed.

Lemma chunksE bs : chunks bs = if bs is [::] then [::] else cval (take 254 bs) :: chunks (drop 254 bs).
Proof.
rewrite /chunks; case: bs => [|b bs] //; rewrite [LHS]/=; congr cons.
by apply: chunks_fuel => //; rewrite size_drop /=; clear; lia.
Qed.

Lemma chunk_loop_ok fuel v c : bv_wf v -> (bv_len v <= c + fuel)%N ->
  chunk_loop Fp fuel v c = Ok (chunks (drop c (bv_bits v))).
Proof.
move=> w; elim: fuel c => [|fuel IH] c h.
  by rewrite drop_oversize // size_bits -(addn0 c).
cbn [chunk_loop]; case: (ltnP c (bv_len v)) => hc; last by rewrite drop_oversize // size_bits.
set n := minn _ _.
have n1 : (c + n <= bv_len v)%N by rewrite /n; clear -hc; lia.
have n2 : (bv_len v <= c + n + fuel)%N by rewrite /n; clear -h hc; lia.
rewrite read_bits_ok // (IH _ n2); cbn [bind].
rewrite [in RHS]chunksE; case E: (drop c _) => [|b bs].
  by move: (congr1 size E); rewrite size_drop size_bits /= => /eqP; rewrite subn_eq0 leqNgt hc.
rewrite -E drop_drop chunk_fpE /n; congr (Ok (_ :: _)).
- congr cval; case: (leqP 254 (bv_len v - c)) => h2; first by [].
  by rewrite !take_oversize // size_drop size_bits // ltnW.
- case: (leqP 254 (bv_len v - c)) => h2; first by rewrite addnC.
  by rewrite !drop_oversize // size_bits; clear -h2; lia.
Qed.

Lemma ro_fields_ok r fs bs : is_ro r fs bs -> ro_fields r = Ok (fs ++ chunks bs).
Proof. by move=> [h1 h2 h3]; rewrite /ro_fields chunk_loop_ok // drop0 h1 h3. Qed.

(** ** Chunks of zero bits *)
Definition nchunks (n : nat) : nat := ((n + 253) %/ 254)%N.

Lemma cval_cat bs k : cval (bs ++ nseq k false) = cval bs.
Proof.
elim: bs => [|b bs IH] /=; last by rewrite IH.
by elim: k => //= k ->; rewrite mulr0 addr0.
Qed.

Lemma nchunksS n : (0 < n)%N -> nchunks n = (nchunks (n - 254)).+1.
Proof.
move=> h; rewrite /nchunks; case: (leqP n 254) => h2.
  have -> : (n - 254 = 0)%N by clear -h2; lia.
  have -> : (n + 253 = 1 * 254 + (n - 1))%N by clear -h; lia.
  by rewrite divnMDl // divn_small //; clear -h h2; lia.
have -> : (n + 253 = 1 * 254 + (n - 254 + 253))%N by clear -h2; lia.
by rewrite divnMDl.
Qed.

Lemma cval_nseq k : cval (nseq k false) = 0.
Proof. exact: (cval_cat [::]). Qed.

Lemma chunks_zeros n k : (k <= n)%N -> chunks (nseq k false) = nseq (nchunks k) 0.
Proof.
elim: n k => [|n IH] k h; first by move: h; rewrite leqn0 => /eqP ->.
case: k h => [|k] h //.
have ct : cval (take 254 (nseq k.+1 false)) = 0.
  case: (leqP 254 k.+1) => h2; first by rewrite take_nseq // cval_nseq.
  by rewrite take_oversize ?size_nseq ?(ltnW h2) // cval_nseq.
rewrite nchunksS // chunksE drop_nseq IH; last by move: h; clear; lia.
by rewrite -ct.
Qed.

Lemma chunks_pad n bs k : (size bs + k <= n)%N ->
  chunks (bs ++ nseq k false) = chunks bs ++ nseq (nchunks (size bs + k) - nchunks (size bs)) 0.
Proof.
elim: n bs k => [|n IH] bs k h.
  by move: h; rewrite leqn0 addn_eq0 => /andP[/nilP -> /eqP ->].
case E: bs => [|b bs']; first by rewrite !add0n subn0 (chunks_zeros (leqnn k)).
have e : (b :: bs') ++ nseq k false <> [::] by [].
have p : (0 < size bs + k)%N by rewrite E.
have p1 : (0 < size bs)%N by rewrite E.
rewrite -E in e *; rewrite chunksE [in RHS]chunksE.
have -> T (x y : T) : (if bs ++ nseq k false is [::] then x else y) = y by rewrite E.
have -> T (x y : T) : (if bs is [::] then x else y) = y by rewrite E.
rewrite (nchunksS p) (nchunksS p1) subSS take_cat drop_cat.
case: ltnP => h2.
  rewrite IH; last by rewrite size_drop; move: h; clear -p1; lia.
  rewrite size_drop /=; congr (_ :: _ ++ nseq (nchunks _ - _) _).
  by move: h2; clear; lia.
rewrite (take_oversize h2) (drop_oversize h2) drop_nseq (chunks_zeros (leqnn _)).
have -> : (size bs - 254 = 0)%N by move: h2; clear; lia.
rewrite [chunks [::]]/= subn0 [X in _ = X]/=; congr (_ :: nseq (nchunks _) _); last by move: h2; clear; lia.
case: (leqP (254 - size bs) k) => h3; first by rewrite take_nseq // cval_cat.
by rewrite take_oversize ?size_nseq ?(ltnW h3) // cval_cat.
Qed.

(** ** The sponge *)
Lemma size_permute st : size (permute st) = 3%N.
Proof. by rewrite /Model.permute /Model.ark size_map size_iota. Qed.
Local Arguments Model.permute : simpl never.
Local Opaque Model.permute.

Lemma set_nth_id (T : eqType) (x0 : T) (s : seq T) i : (i < size s)%N -> set_nth x0 s i (nth x0 s i) = s.
Proof.
move=> h; apply: (@eq_from_nth _ x0) => [|j]; first by rewrite size_set_nth; apply/maxn_idPr.
by rewrite nth_set_nth /=; case: eqP => [->|].
Qed.

Lemma absorb_inv c f : size (c_state c) = 3%N -> (c_absorbed c <= 2)%N ->
  size (c_state (absorb c f)) = 3%N /\
  c_absorbed (absorb c f) = (if c_absorbed c == 2%N then 1 else (c_absorbed c).+1)%N.
Proof.
case: c => st a /= hs ha; rewrite /Model.absorb /=; case: eqP => [_|n2] /=.
  by rewrite size_set_nth size_permute.
rewrite size_set_nth hs; split => //; apply/maxn_idPr; move: ha n2; clear; lia.
Qed.

Lemma update_inv c fs : size (c_state c) = 3%N -> c_absorbed c = 0%N ->
  size (c_state (update c fs)) = 3%N /\
  c_absorbed (update c fs) = (if fs is [::] then 0 else if odd (size fs) then 1 else 2)%N.
Proof.
move=> hs ha; rewrite /Model.update; elim/last_ind: fs => [|fs f [IH1 IH2]]; first by [].
rewrite foldl_rcons; set c1 := foldl _ _ _ in IH1 IH2 *.
have h2 : (c_absorbed c1 <= 2)%N by rewrite IH2; case: (fs) => // *; case: ifP.
have [-> ->] := absorb_inv f IH1 h2; split => //; rewrite IH2 size_rcons /=.
by case: (fs) => [|x l] //; case: (odd (size (x :: l))); case: (rcons _ _) (size_rcons (x :: l) f).
Qed.

Lemma digest_zero c fs : size (c_state c) = 3%N -> c_absorbed c = 0%N -> odd (size fs) ->
  digest (update c (rcons fs 0)) = digest (update c fs).
Proof.
move=> hs ha ho; have [] := update_inv fs hs ha; rewrite ho.
rewrite {1 3}/Model.update foldl_rcons -/(update c fs).
move: (update c fs) => [st a] /= h1; case: (fs) ho => // _ _ _ -> .
by rewrite /Model.digest /Model.absorb /= addr0 set_nth_id // h1.
Qed.

Lemma digest_zeros c fs z : size (c_state c) = 3%N -> c_absorbed c = 0%N ->
  uphalf (size fs + z) = uphalf (size fs) -> digest (update c (fs ++ nseq z 0)) = digest (update c fs).
Proof.
move=> hs ha h; have [z0|[z1 o]] : z = 0%N \/ z = 1%N /\ odd (size fs) by move: h; clear; lia.
  by rewrite z0 cats0.
by rewrite z1 cats1 digest_zero.
Qed.

Lemma ctx_init_inv nid c : ctx_init nid = Some c -> size (c_state c) = 3%N /\ c_absorbed c = 0%N.
Proof.
rewrite /Model.ctx_init; case: ifP => _; first by case=> <-; split => //; rewrite size_takel // size_cat leq_addl.
by case: ifP => // _ [<-].
Qed.

(** ** Challenges *)
(** the challenge for fields [fs] and bits [bs] *)
Definition chal (pk : G) (rx : Fp) (fs : seq Fp) (bs : seq bool) (nid : nat) : option F :=
  omap (fun c => digest (update c (fs ++ [:: px pk; py pk; rx] ++ chunks bs))) (ctx_init nid).

Lemma msg_hash_ok r fs bs pk rx nid : is_ro r fs bs ->
  msg_hash px py fpraw rk mdsm iv pk rx r nid = deref (chal pk rx fs bs nid).
Proof.
move=> h; rewrite /msg_hash.
have h3 := add_fp_ro rx (add_fp_ro (py pk) (add_fp_ro (px pk) h)).
rewrite (ro_fields_ok h3) /chal; cbn [bind].
by rewrite -!cats1 -!catA; case: (ctx_init nid).
Qed.

(** ** Bytes *)
Definition raw_bits (fs : seq Fp) : seq bool := flatten [seq bits_le 255 (fpraw f) | f <- fs].

Lemma size_raw_bits fs : size (raw_bits fs) = (255 * size fs)%N.
Proof.
elim: fs => [|f fs IH]; first by rewrite muln0.
have -> : raw_bits (f :: fs) = bits_le 255 (fpraw f) ++ raw_bits fs by [].
by rewrite size_cat IH size_bits_le [size (f :: fs)]/= mulnS.
Qed.

Lemma map_nob (l : seq bool) : [seq b == 1%N | b <- [seq nat_of_bool b | b <- l]] = l.
Proof. by elim: l => //= b l ->; case: b. Qed.

Lemma ro_bytes_ok r fs bs : is_ro r fs bs ->
  exists b, ro_bytes fpraw r = Ok b /\ size b = ((size bs + 7) %/ 8 + 32 * size fs)%N /\
    mkseq (dbit b) (255 * size fs + size bs) = raw_bits fs ++ bs.
Proof.
move=> [h1 h2 h3]; rewrite /ro_bytes.
have hl : bv_len (ro_bv r) = size bs by rewrite -h3 size_bits.
rewrite hl h1; set n := ((_ + _) %/ _ + _)%N.
have w0 : bv_wf (bv_new (nseq n 0%N) 0) by rewrite /bv_wf /= andbT /is_bytes all_nseq orbT.
have [v [e1 [w1 b1]]] := append_all_ok (map b2n (raw_bits fs)) w0.
have le1 : (bv_len (bv_new (nseq n 0%N) 0) + size (map b2n (raw_bits fs)) <=
            8 * size (bv_data (bv_new (nseq n 0%N) 0)))%N.
  by rewrite /= size_nseq size_map size_raw_bits /n; clear; lia.
have [s1 l1] := append_all_size w0 le1 e1.
rewrite -/(raw_bits fs) e1; cbn [bind]; rewrite read_bits_ok ?hl ?add0n //; cbn [bind].
rewrite drop0 h3 take_size.
have [w [e2 [w2 b2]]] := append_all_ok (map nat_of_bool bs) w1.
rewrite /= size_map size_raw_bits in l1; rewrite /= size_nseq in s1.
have le2 : (bv_len v + size (map nat_of_bool bs) <= 8 * size (bv_data v))%N.
  rewrite l1 s1 size_map /n; have := leq_trunc_div (size bs + 7) 8; have := ltn_ceil (size bs + 7) (ltn0Sn 7).
  by clear; lia.
have [s2 l2] := append_all_size w1 le2 e2.
rewrite e2; cbn [bind]; exists (bv_data w); split => //; split; first by rewrite s2 s1.
have -> : (255 * size fs + size bs)%N = bv_len w by rewrite l2 l1 size_map add0n.
by rewrite -/(bv_bits w) b2 b1 map_b2n map_nob.
Qed.

Lemma derive_input_ok sk r fs bs pk nid : is_ro r fs bs ->
  let fs' := fs ++ [:: px pk; py pk] in
  let bs' := bs ++ bits_le 255 (fqraw sk) ++ bits_le 8 (nid %% 256)%N in
  exists b, derive_input px py fpraw fqraw sk r pk nid = Ok b /\ size b = ((size bs' + 7) %/ 8 + 32 * size fs')%N /\
    mkseq (dbit b) (255 * size fs' + size bs') = raw_bits fs' ++ bs'.
Proof.
move=> h fs' bs'; rewrite /derive_input.
have h1 := add_fp_ro (py pk) (add_fp_ro (px pk) h).
have [r2 [e2 h2]] := add_bits_ro (bits_le 255 (fqraw sk)) h1.
rewrite /add_fq e2; cbn [bind].
have [r3 [e3 h3]] := add_bits_ro (flatten (map (bits_le 8) [:: (nid %% 256)%N])) h2.
rewrite /add_bytes e3; cbn [bind].
have [b hb] := ro_bytes_ok h3; exists b.
have fl : flatten [seq bits_le 8 i | i <- [:: (nid %% 256)%N]] = bits_le 8 (nid %% 256) by exact: cats0.
move: hb; rewrite fl -!cats1.
by rewrite -(catA fs [:: px pk] [:: py pk]) -(catA bs).
Qed.

(** ** Signing and verifying *)
Local Notation finish_sign := (finish_sign g px py fpraw fqraw blake rk mdsm iv).
Local Notation finish_verify := (finish_verify g px py fpraw rk mdsm iv).

(** the nonce as a function of the bytes msgDerive hashes *)
Definition nonce (b : bytes) : F :=
  let h := copy_into 32 (blake b) in le_fq F (set_nth 0%N h 31 (band (nth 0%N h 31) 63)).

Lemma finish_verify_ok r fs bs pk sig nid : is_ro r fs bs ->
  finish_verify pk sig r nid =
  if pk == 0 then Err else if (sig_r sig == 0) || (sig_s sig == 0) then Err else
  do e <- deref (chal pk (sig_r sig) fs bs nid);
  if ~~ fodd fpraw (py (sig_s sig *: g - e *: pk)) && (px (sig_s sig *: g - e *: pk) == sig_r sig) then Ok tt else Err.
Proof. by move=> h; rewrite /Model.finish_verify (msg_hash_ok _ _ _ h). Qed.

Lemma finish_sign_ok r fs bs sk nid : is_ro r fs bs ->
  exists b, derive_input px py fpraw fqraw sk r (sk *: g) nid = Ok b /\
  finish_sign sk r nid =
  if sk == 0 then Err else if nonce b == 0 then Err else
  let R := nonce b *: g in
  let k := if fodd fpraw (py R) then - nonce b else nonce b in
  do e <- deref (chal (sk *: g) (px R) fs bs nid);
  if (px R == 0) || (k + e * sk == 0) then Err else Ok (Sig (px R) (k + e * sk)).
Proof.
move=> h; have [b [eb _]] := derive_input_ok sk (sk *: g) nid h; exists b; split => //.
rewrite /Model.finish_sign /public_key; case: ifP => // _.
by rewrite /msg_derive eb; cbn [bind]; rewrite -/(nonce b) (msg_hash_ok _ _ _ h).
Qed.
End P.
