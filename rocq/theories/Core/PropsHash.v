(** Property theorems for pkg/core/commit.go, pkg/core/hash.go and internal/hash.go. *)
From mathcomp Require Import all_ssreflect zify.
From Verif Require Import Lib.Res Lib.Bytes Core.HashModel Core.HashProofs.
Set Implicit Arguments. Unset Strict Implicit. Unset Printing Implicit Defensive.

(** C25: whatever Commit returns is opened by Open; *)
Theorem C25_commit_opens : forall (H : bytes -> bytes) (blk : nat), (forall x, size (H x) = 32) ->
  forall msg r, size r = 32 -> exists c w, commit H blk msg (Some r) = Ok (c, w) /\ wmsg w = msg /\
    size c = 32 /\ copen H blk c w = Ok true.
Proof.
move=> H blk hH msg r hr; exists (hmac H blk r msg), (Witness msg r).
by rewrite /commit /copen hr eqxx hH /= eqxx.
Qed.
Print Assumptions C25_commit_opens.

(** a commitment that opens to two different witnesses (message or nonce) exhibits a collision of the hash
    underlying HMAC; a commitment of the wrong length is an error, and no other input is; *)
Theorem C25_commit_binding : forall (H : bytes -> bytes) (blk : nat), 32 <= blk ->
  forall c d d', size (wr d) = 32 -> size (wr d') = 32 ->
  copen H blk c d = Ok true -> copen H blk c d' = Ok true ->
  d = d' \/ exists x y, x <> y /\ H x = H y.
Proof.
move=> H blk hb c [m r] [m' r'] /= hr hr'; rewrite /copen /=; case: ifP => // _ [] /eqP e [] /eqP e'.
have [] := @hmac_collision H blk r r' m m' (etrans hr (esym hr')).
- by rewrite hr.
- by rewrite e e'.
- by move=> [-> ->]; left.
- by right.
Qed.
Print Assumptions C25_commit_binding.

Theorem C25_open_errors : forall (H : bytes -> bytes) (blk : nat) c d,
  (copen H blk c d = Err <-> size c <> 32) /\ copen H blk c d <> Panic.
Proof. by move=> H blk c d; rewrite /copen; case: eqP => h /=; split. Qed.
Print Assumptions C25_open_errors.

(** C26: I2OSP returns n bytes, and a value below 256^n is read back by OS2IP; OS2IP is injective on
    strings of one length. *)
Theorem C26_i2osp : forall b n,
  size (i2osp b n) = n /\ is_bytes (i2osp b n) /\ (b < 256 ^ n -> os2ip (i2osp b n) = b) /\
  (forall os, is_bytes os -> i2osp (os2ip os) (size os) = os).
Proof.
move=> b n; split; first exact: size_i2osp.
split; first exact: is_bytes_i2osp.
split; first exact: i2ospK.
move=> os h; rewrite /os2ip.
have h1 := i2ospK (be_val_lt h).
have h2 := is_bytes_i2osp (be_val os) (size os).
have e : rev (rev (i2osp (be_val os) (size os))) = rev (rev os).
  congr rev; have hr : size (rev (i2osp (be_val os) (size os))) = size (rev os).
    by rewrite !size_rev size_i2osp.
  rewrite -[LHS]le_valK ?/is_bytes ?all_rev //.
  rewrite -[RHS]le_valK ?/is_bytes ?all_rev //.
  by rewrite hr /le_val !revK h1.
by move: e; rewrite !revK.
Qed.
Print Assumptions C26_i2osp.

(** Finding: a value that does not fit loses its low-order bytes silently, so different values collide. *)
Theorem C26_i2osp_truncates : forall b c, 256 <= b < 65536 -> i2osp b 1 = [:: b %/ 256] /\
  (256 <= c < 65536 -> b %/ 256 = c %/ 256 -> i2osp b 1 = i2osp c 1).
Proof.
have H x : 256 <= x < 65536 -> i2osp x 1 = [:: x %/ 256].
  move=> h; have e : x = be_val [:: x %/ 256; x %% 256] by rewrite /be_val /= mul0n add0n -divn_eq.
  have hb : is_bytes [:: x %/ 256; x %% 256].
    rewrite /is_bytes; cbn [all]; rewrite ltn_mod andbT; apply/andP; split=> //.
    by rewrite ltn_divLR //; case/andP: h.
  have eb : be_bytes x = [:: x %/ 256; x %% 256].
    rewrite {1}e be_bytes_strip //=; case E: (x %/ 256) => [|k] //=.
    have : 0 < x %/ 256 by rewrite divn_gt0 //; lia.
    by rewrite E.
  by rewrite /i2osp eb.
by move=> b c hb; split; [exact: H | move=> hc e; rewrite !H // e].
Qed.
Print Assumptions C26_i2osp_truncates.

(** C65: two non-empty lists of values (fewer than 255^32 of them) with the same transcript hash are
    equal up to the sign of the integers, or exhibit a collision of the KDF. *)
Theorem C65_hash_binding : forall (kdf : bytes -> bytes), (forall x, size (kdf x) = 32) ->
  forall (vs ws : seq bytes) out, vs <> [::] -> ws <> [::] -> size vs < 255 ^ 32 -> size ws < 255 ^ 32 ->
  ihash kdf (map Some vs) = Ok out -> ihash kdf (map Some ws) = Ok out ->
  vs = ws \/ exists x y, x <> y /\ kdf x = kdf y.
Proof.
move=> kdf hk vs ws out nv nw sv sw; rewrite /ihash.
have A (us : seq bytes) : all isSome (map Some us) by elim: us.
have B (us : seq bytes) : pmap id (map Some us) = us by elim: us => //= u us ->.
rewrite !A !B => -[<-] -[e].
have [] := @fs_collision kdf hk vs ws (nseq 32 255) (nseq 32 0) (maxn (size vs) (size ws)) erefl.
- by [].
- by rewrite leq_maxl.
- by rewrite leq_maxr.
- by rewrite gtn_max sv sw.
- by move: nv nw; case: (vs) => //; case: (ws).
- by rewrite e.
- by left.
- by right.
Qed.
Print Assumptions C65_hash_binding.

Theorem C65_fiat_shamir_binding : forall (kdf : bytes -> bytes), (forall x, size (kdf x) = 32) ->
  forall (vs ws : seq (bool * nat)) out, vs <> [::] -> ws <> [::] ->
  size vs < 255 ^ 32 -> size ws < 255 ^ 32 ->
  fiat_shamir kdf (map Some vs) = Ok out -> fiat_shamir kdf (map Some ws) = Ok out ->
  map snd vs = map snd ws \/ exists x y, x <> y /\ kdf x = kdf y.
Proof.
move=> kdf hk vs ws out nv nw sv sw; rewrite /fiat_shamir -!map_comp.
have C (us : seq (bool * nat)) : map (omap (fun v : bool * nat => be_bytes v.2) \o Some) us
    = map Some (map (fun v => be_bytes v.2) us) by rewrite -map_comp.
rewrite !C => e e'.
have [] := @C65_hash_binding kdf hk _ _ out _ _ _ _ e e'; rewrite ?size_map //.
- by move: nv; case: (vs).
- by move: nw; case: (ws).
- move=> em; left; have := congr1 (map be_val) em; rewrite -!map_comp.
  have D (us : seq (bool * nat)) : map (be_val \o (fun v : bool * nat => be_bytes v.2)) us = map snd us.
    by apply: eq_map => v /=; rewrite be_bytesK.
  by rewrite !D.
- by right.
Qed.
Print Assumptions C65_fiat_shamir_binding.

(** Findings: the sign of the integers is not bound, and nil values are the only errors. *)
Theorem C65_fiat_shamir_sign_ignored : forall (kdf : bytes -> bytes) (vs ws : seq (bool * nat)),
  map snd vs = map snd ws -> fiat_shamir kdf (map Some vs) = fiat_shamir kdf (map Some ws).
Proof.
move=> kdf vs ws e; rewrite /fiat_shamir -!map_comp; congr ihash.
have C (us : seq (bool * nat)) : map (omap (fun v : bool * nat => be_bytes v.2) \o Some) us
    = map (fun n => Some (be_bytes n)) (map snd us) by rewrite -map_comp.
by rewrite !C e.
Qed.
Print Assumptions C65_fiat_shamir_sign_ignored.

Theorem C65_hash_errors : forall kdf vs, (ihash kdf vs = Err <-> None \in vs) /\ ihash kdf vs <> Panic.
Proof.
move=> kdf vs; rewrite /ihash; case: ifP => h; split=> //; split=> //.
  by move=> hn; have := allP h _ hn.
by move=> _; move/negbT: h; rewrite -has_predC => /hasP [[x|] hx].
Qed.
Print Assumptions C65_hash_errors.

(** the per-value prefixes are pairwise different for 255^n steps of an n-byte counter, and repeat after *)
Theorem C65_prefixes_distinct : forall n i j, i < 255 ^ n -> j < 255 ^ n ->
  iter i byte_sub (nseq n 255) = iter j byte_sub (nseq n 255) -> i = j.
Proof. by move=> n i j; exact: iter_distinct. Qed.
Print Assumptions C65_prefixes_distinct.

(** C66: the specification of expand_message_xmd (RFC 9380, 5.3.1), with its own byte encoding of
    integers: [be k n] is the k-byte big-endian encoding. *)
Definition be (k n : nat) : bytes := rev (le_bytes k n).
Section Rfc.
Variables (H : bytes -> bytes) (hsize blk : nat).
Definition dst_prime (dst : bytes) := dst ++ be 1 (size dst).
Definition rfc_b0 (msg dst : bytes) (len : nat) :=
  H (nseq blk 0 ++ msg ++ be 2 len ++ be 1 0 ++ dst_prime dst).
(** [rfc_b i] is the block b_{i+1} *)
Fixpoint rfc_b (b0 dp : bytes) (i : nat) : bytes :=
  match i with
  | 0 => H (b0 ++ be 1 1 ++ dp)
  | i'.+1 => H ([seq Nat.lxor p.1 p.2 | p <- zip b0 (rfc_b b0 dp i')] ++ be 1 i.+1 ++ dp)
  end.
End Rfc.

Lemma be1 n : n < 256 -> i2osp n 1 = be 1 n.
Proof.
move=> h; rewrite /i2osp be_bytes_small //; case: eqP => [->|] //= _.
by rewrite /be /= modn_small.
Qed.

Lemma bxor_zip a b : size a = size b -> bxor a b = [seq Nat.lxor p.1 p.2 | p <- zip a b].
Proof. by elim: a b => [|x a IH] [|y b] //= [e]; rewrite IH. Qed.

Lemma i2osp_be k n : n < 256 ^ k -> i2osp n k = be k n.
Proof.
move=> h; have h1 := i2ospK h; have := size_i2osp n k; have := is_bytes_i2osp n k.
move: h1; set o := i2osp n k => e b s; rewrite /be -[o]revK; congr rev.
by rewrite -[rev o]le_valK ?/is_bytes ?all_rev // size_rev s /le_val revK e.
Qed.

Lemma mkseqSr (T : Type) (f : nat -> T) n : mkseq f n.+1 = rcons (mkseq f n) (f n).
Proof. by rewrite /mkseq -(addn1 n) iotaD map_cat /= cats1 add0n. Qed.

Lemma blocksE (H : bytes -> bytes) hs b0 dp n : (forall x, size (H x) = hs) -> size b0 = hs -> n < 256 ->
  xmd_blocks H b0 dp n = mkseq (rfc_b H b0 dp) n.
Proof.
move=> hH h0; elim: n => [|n IH] hn //.
cbn [xmd_blocks]; rewrite IH; last by rewrite ltnW.
rewrite mkseqSr; congr rcons.
case: n IH hn => [|n] IH hn; first by rewrite be1.
rewrite [n.+1 == 0]/=; cbn [rfc_b]; congr (H (_ ++ _)); last by rewrite be1.
have -> : last [::] (mkseq (rfc_b H b0 dp) n.+1) = rfc_b H b0 dp n.
  by rewrite mkseqSr last_rcons.
by rewrite bxor_zip //; case: (n) => [|m] /=; rewrite hH.
Qed.

Lemma size_mkblocks (H : bytes -> bytes) hs b0 dp n : (forall x, size (H x) = hs) ->
  size (flatten (mkseq (rfc_b H b0 dp) n)) = n * hs.
Proof.
move=> hH; elim: n => [|n IH] //.
rewrite mkseqSr -cats1 flatten_cat size_cat IH mulSn addnC /= cats0.
by congr addn; case: (n) => [|m] /=; rewrite hH.
Qed.

(** For a domain tag of at most 255 bytes and a non-zero length of at most 255 hash blocks, the result is
    the one of the RFC, of exactly the requested length. *)
Theorem C66_expand_xmd_rfc : forall (H : bytes -> bytes) (hsize blk : nat), 0 < hsize -> hsize <= 256 ->
  (forall x, size (H x) = hsize) -> forall msg dst len, size dst <= 255 -> 0 < len <= 255 * hsize ->
  exists out, expand_xmd H hsize blk msg dst len = Ok out /\ size out = len /\
    out = take len (flatten [seq rfc_b H (rfc_b0 H blk msg dst len) (dst_prime dst) i | i <- iota 0 255]).
Proof.
move=> H hs blk h0 h256 hH msg dst len hd hl; rewrite /expand_xmd.
have he : (len + hs.-1) %/ hs <= 255.
  rewrite -ltnS ltn_divLR //; nia.
have hp : 0 < (len + hs.-1) %/ hs by rewrite divn_gt0 //; lia.
have hle : len <= (len + hs.-1) %/ hs * hs.
  have := ltn_ceil (len + hs.-1) h0; nia.
have -> : (255 < (len + hs.-1) %/ hs) = false by apply/negbTE; rewrite -leqNgt.
have -> : ((len + hs.-1) %/ hs == 0) = false by apply/negbTE; rewrite -lt0n.
have -> : i2osp (size dst) 1 = be 1 (size dst) by apply: be1.
have -> : i2osp 0 1 = be 1 0 by apply: be1.
have -> : i2osp 0 blk = nseq blk 0 by rewrite /i2osp be_bytes0 /= subn0 cats0; case: (blk).
have -> : i2osp len 2 = be 2 len.
  apply: i2osp_be; rewrite -[256 ^ 2]/(256 * 256); nia.
rewrite -/(dst_prime dst) -/(rfc_b0 H blk msg dst len).
set b0 := rfc_b0 _ _ _ _ _; set dp := dst_prime dst; set ell := _ %/ hs in he hp hle *.
rewrite (@blocksE H hs) //; last by rewrite /b0 /rfc_b0 hH.
eexists; split; first by [].
split; first by rewrite size_takel // (@size_mkblocks H hs).
have -> : 255 = ell + (255 - ell) by rewrite subnKC.
rewrite iotaD map_cat flatten_cat take_cat -/(mkseq _ ell) (@size_mkblocks H hs) //.
case: ltnP => // h; have -> : len = ell * hs by apply/eqP; rewrite eqn_leq hle h.
by rewrite subnn take0 cats0 take_oversize // (@size_mkblocks H hs).
Qed.
Print Assumptions C66_expand_xmd_rfc.

(** Beyond 255 blocks the function fails; Findings: a zero length panics, and a tag longer than 255 bytes
    is accepted with a wrong length byte, so the tags of 256 bytes and the RFC's rule for long tags are not
    followed. *)
Theorem C66_expand_xmd_limits : forall (H : bytes -> bytes) (hsize blk : nat), 0 < hsize ->
  forall msg dst len,
  (255 * hsize < len -> expand_xmd H hsize blk msg dst len = Err) /\
  expand_xmd H hsize blk msg dst 0 = Panic /\
  (256 <= size dst < 65536 -> 0 < len <= 255 * hsize -> is_ok (expand_xmd H hsize blk msg dst len) /\
     i2osp (size dst) 1 = [:: size dst %/ 256]).
Proof.
move=> H hs blk h0 msg dst len; rewrite /expand_xmd; split.
  move=> h; have -> : 255 < (len + hs.-1) %/ hs by rewrite leq_divRL //; nia.
  by [].
split.
  by rewrite add0n divn_small // prednK.
move=> hd hl; have he : (len + hs.-1) %/ hs <= 255 by rewrite -ltnS ltn_divLR //; nia.
have hp : 0 < (len + hs.-1) %/ hs by rewrite divn_gt0 //; lia.
have -> : (255 < (len + hs.-1) %/ hs) = false by apply/negbTE; rewrite -leqNgt.
have -> : ((len + hs.-1) %/ hs == 0) = false by apply/negbTE; rewrite -lt0n.
by split=> //; have [] := C26_i2osp_truncates 0 hd.
Qed.
Print Assumptions C66_expand_xmd_limits.

(** non-vacuity: a toy hash with 32-byte output *)
Definition toyH (x : bytes) : bytes := le_bytes 32 (le_val x * 7 + size x).
Example C25_hyps : (forall x, size (toyH x) = 32) /\
  (exists c w, commit toyH 64 [:: 1; 2] (Some (nseq 32 5)) = Ok (c, w)).
Proof. by split; [move=> x; rewrite size_le_bytes | do 2!eexists]. Qed.
Example C66_hyps : exists out, expand_xmd toyH 32 64 [:: 1; 2] [:: 3] 40 = Ok out /\ size out = 40.
Proof.
have [|out [h1 [h2 _]]] := @C66_expand_xmd_rfc toyH 32 64 isT isT _ [:: 1; 2] [:: 3] 40 isT isT.
  by move=> x; rewrite size_le_bytes.
by exists out.
Qed.
