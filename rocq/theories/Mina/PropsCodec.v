(** C62: the binary encoding of Mina transactions, keys, addresses and signatures, the JSON decoder, and the
    challenge DeriveChallenge computes from an encoded transaction. *)
From mathcomp Require Import all_ssreflect all_algebra zify.
From Verif Require Import Lib.Res Lib.Bytes Lib.Inst Sharing.Spec Mina.BitModel Mina.BitBytes Mina.BitProofs
  Mina.Model Mina.Proofs Mina.Props Mina.PropsTxn.
Set Implicit Arguments.
Unset Strict Implicit.
Unset Printing Implicit Defensive.
Import GRing.Theory.
Local Open Scope ring_scope.
Local Arguments bits_le : simpl never.
Local Arguments copy_into : simpl never.
Local Opaque Model.permute bits_le copy_into le_bytes.

Lemma copy_full k b : size b = k -> copy_into k b = b.
Proof. by move=> h; rewrite copy_intoE h // subnn cats0. Qed.

Lemma pow256 k : (256 ^ k = 2 ^ (8 * k))%N. Proof. by rewrite expnM. Qed.
Lemma le8K n : (n < 2 ^ 64)%N -> le_val (le_bytes 8 n) = n.
Proof. by move=> h; apply: le_bytesK; rewrite pow256; exact: h. Qed.
Lemma le4K n : (n < 2 ^ 32)%N -> le_val (le_bytes 4 n) = n.
Proof. by move=> h; apply: le_bytesK; rewrite pow256; exact: h. Qed.

Lemma slice_prefix b x i j : (j <= size b)%N -> slice (b ++ x) i j = slice b i j.
Proof.
move=> h; rewrite /slice; case: (ltnP i j) => hij; last by rewrite (eqP (hij : (j - i)%N == 0%N)) !take0.
have hb : (i < size b)%N := leq_trans hij h.
by rewrite drop_cat hb takel_cat // size_drop leq_sub2r.
Qed.

Lemma slice_set b p v i j : (p < i)%N || (j <= p)%N -> (p < size b)%N -> slice (set_nth 0%N b p v) i j = slice b i j.
Proof.
move=> h hp; apply: (@eq_from_nth _ 0%N); rewrite !size_take !size_drop !size_set_nth (maxn_idPr hp) //.
move=> k hk; have hk' : (k < j - i)%N by move: hk; case: (ltnP (j - i)%N (size b - i)%N) => h' h''; move: h' h''; clear; lia.
rewrite !nth_take // !nth_drop nth_set_nth /=; case: eqP => // e.
by move: h hk' e; clear; lia.
Qed.

Section Codec.
Variables (Fp F : fieldType) (G : lmodType F).
Variables (px py : G -> Fp) (fpraw : Fp -> nat) (fqraw : F -> nat).
Variables (penc : G -> bytes) (pdec : bytes -> option G).
Variables (rk : nat -> seq Fp) (mdsm : seq (seq Fp)) (iv : nat -> seq Fp).
Local Notation txn := (txn G).
Local Notation txn_marshal := (txn_marshal penc).
Local Notation txn_unmarshal := (txn_unmarshal pdec).
Local Notation derive_challenge := (derive_challenge px py fpraw pdec rk mdsm iv).
Local Notation chal := (chal px py fpraw rk mdsm iv).
Local Arguments Proofs.chal : simpl never.

(** PublicKey.MarshalBinary produces 32 bytes that PublicKey.UnmarshalBinary decodes (C47 proves this of the
    point encodings) *)
Definition pk_codec : Prop := forall p, size (penc p) = 32%N /\ pdec (penc p) = Some p.

(** ** Transactions *)

(** What decoding the encoding of a transaction gives, for a memo of any length. *)
Theorem C62_marshal_unmarshal t : pk_codec -> txn_typed t ->
  txn_unmarshal (txn_marshal t) =
  let l := (size (t_memo t) %% 256)%N in
  if (l <= 117)%N then Ok (with_memo t (slice (txn_marshal t) 58 (58 + l))) else Panic.
Proof.
move=> pk [[f1 f2 n1 v1] [tk am mb nw]].
have [sp dp] : size (penc (t_payer t)) = 32%N /\ pdec (penc (t_payer t)) = Some (t_payer t) by exact: pk.
have [ss ds] : size (penc (t_source t)) = 32%N /\ pdec (penc (t_source t)) = Some (t_source t) by exact: pk.
have [sr dr] : size (penc (t_receiver t)) = 32%N /\ pdec (penc (t_receiver t)) = Some (t_receiver t) by exact: pk.
cbn zeta; set b := txn_marshal t.
have eb : b = le_bytes 8 (t_fee t) ++ le_bytes 8 (t_fee_token t) ++ penc (t_payer t) ++
  le_bytes 4 (t_nonce t) ++ le_bytes 4 (t_valid t) ++
  [:: 1; size (t_memo t) %% 256]%N ++ copy_into 32 (t_memo t) ++
  [:: b2n (t_tag0 t); b2n (t_tag1 t); b2n (t_tag2 t)] ++
  penc (t_source t) ++ penc (t_receiver t) ++
  le_bytes 8 (t_token t) ++ le_bytes 8 (t_amount t) ++ [:: b2n (t_locked t); (t_network t %% 256)%N].
  by rewrite /b /Model.txn_marshal !(copy_full sp) !(copy_full ss) !(copy_full sr).
have sb : size b = 175%N by rewrite eb layout_size // ?size_le_bytes ?size_copy_into.
have e57 : nth 0%N b 57 = (size (t_memo t) %% 256)%N.
  by rewrite eb lay57 // ?size_le_bytes ?size_copy_into.
rewrite /Model.txn_unmarshal sb; cbn [ltn leq subn]; rewrite /pk_unmarshal.
have -> : slice b 16 48 = penc (t_payer t) by rewrite eb lay3 // ?size_le_bytes ?size_copy_into.
have -> : slice b 93 125 = penc (t_source t) by rewrite eb lay6 // ?size_le_bytes ?size_copy_into.
have -> : slice b 125 157 = penc (t_receiver t) by rewrite eb lay7 // ?size_le_bytes ?size_copy_into.
have -> : slice b 0 8 = le_bytes 8 (t_fee t) by rewrite eb lay1 // ?size_le_bytes ?size_copy_into.
have -> : slice b 8 16 = le_bytes 8 (t_fee_token t) by rewrite eb lay2 // ?size_le_bytes ?size_copy_into.
have -> : slice b 48 52 = le_bytes 4 (t_nonce t) by rewrite eb lay4 // ?size_le_bytes ?size_copy_into.
have -> : slice b 52 56 = le_bytes 4 (t_valid t) by rewrite eb lay5 // ?size_le_bytes ?size_copy_into.
have -> : slice b 157 165 = le_bytes 8 (t_token t) by rewrite eb lay8 // ?size_le_bytes ?size_copy_into.
have -> : slice b 165 173 = le_bytes 8 (t_amount t) by rewrite eb lay9 // ?size_le_bytes ?size_copy_into.
have -> : nth 0%N b 90 = b2n (t_tag0 t) by rewrite eb lay90 // ?size_le_bytes ?size_copy_into.
have -> : nth 0%N b 91 = b2n (t_tag1 t) by rewrite eb lay91 // ?size_le_bytes ?size_copy_into.
have -> : nth 0%N b 92 = b2n (t_tag2 t) by rewrite eb lay92 // ?size_le_bytes ?size_copy_into.
have -> : nth 0%N b 173 = b2n (t_locked t) by rewrite eb lay173 // ?size_le_bytes ?size_copy_into.
have -> : nth 0%N b 174 = t_network t.
  by rewrite eb lay174 ?size_le_bytes ?size_copy_into //; exact: modn_small.
rewrite dp ds dr; cbn [bind]; rewrite /memo_slice e57 sb.
rewrite (le8K f1) (le8K f2) (le4K n1) (le4K v1) (le8K tk) (le8K am).
clear eb e57 sp dp ss ds sr dr sb mb f1 f2 n1 v1 tk am nw.
have hl : (size (t_memo t) %% 256 < 256)%N by rewrite ltn_pmod.
have b1 (c : bool) : (b2n c == 1%N) = c by case: c.
rewrite !b1; move: (size (t_memo t) %% 256)%N hl => l hl.
have -> : ((58 <= (58 + l) %% 256)%N && ((58 + l) %% 256 <= 175)%N) = (l <= 117)%N.
  case: (ltnP (58 + l) 256) => h; first by rewrite modn_small //; move: h; clear; lia.
  have -> : ((58 + l) %% 256 = l - 198)%N.
    have -> : (58 + l = 256 + (l - 198))%N by move: h; clear; lia.
    by rewrite modnDl modn_small //; move: hl; clear; lia.
  by move: hl h; clear; lia.
case: (leqP l 117) => h; last by [].
have -> : ((58 + l) %% 256 = 58 + l)%N by rewrite modn_small //; move: h; clear; lia.
by [].
Qed.

(** A transaction with a memo of at most 32 bytes round-trips. *)
Theorem C62_roundtrip t : pk_codec -> txn_typed t -> (size (t_memo t) <= 32)%N ->
  txn_unmarshal (txn_marshal t) = Ok t.
Proof.
move=> pk ty hm; have e := C62_marshal_unmarshal pk ty; cbn zeta in e; rewrite e.
have -> : (size (t_memo t) %% 256 = size (t_memo t))%N by rewrite modn_small //; move: hm; clear; lia.
have -> : (size (t_memo t) <= 117)%N by move: hm; clear; lia.
have [sp _] := pk (t_payer t); have [ss _] := pk (t_source t); have [sr _] := pk (t_receiver t).
rewrite /Model.txn_marshal !(copy_full sp) !(copy_full ss) !(copy_full sr).
rewrite lay_memo // ?size_le_bytes ?size_copy_into //.
rewrite copy_intoE // take_size_cat //.
by congr Ok; case: t {ty hm e sp ss sr}.
Qed.

(** FINDING: a memo longer than 32 bytes does not round-trip.  Up to 117 bytes the decoded memo is the first 32
    bytes followed by the encoding of the fields after it; from 118 to 255 bytes decoding panics. *)
Theorem C62_long_memo_refuted t : pk_codec -> txn_typed t -> (33 <= size (t_memo t) <= 117)%N ->
  exists m, txn_unmarshal (txn_marshal t) = Ok (with_memo t m) /\ size m = size (t_memo t) /\
    take 32 m = take 32 (t_memo t) /\ drop 32 m = slice (txn_marshal t) 90 (58 + size (t_memo t)).
Proof.
move=> pk ty /andP[h1 h2]; have e := C62_marshal_unmarshal pk ty; cbn zeta in e; rewrite e {e}.
have -> : (size (t_memo t) %% 256 = size (t_memo t))%N by rewrite modn_small //; move: h2; clear; lia.
rewrite h2; exists (slice (txn_marshal t) 58 (58 + size (t_memo t))).
have [sp _] := pk (t_payer t); have [ss _] := pk (t_source t); have [sr _] := pk (t_receiver t).
have sb : size (txn_marshal t) = 175%N.
  by rewrite /Model.txn_marshal layout_size // ?size_le_bytes ?size_copy_into.
have s58 : slice (txn_marshal t) 58 (58 + 32) = take 32 (t_memo t).
  rewrite /Model.txn_marshal lay_memo // ?size_le_bytes ?size_copy_into //.
  rewrite take_oversize ?size_copy_into //.
  Local Transparent copy_into.
  rewrite /copy_into takel_cat //; first by move: h1; clear; lia.
split; first by [].
move: (txn_marshal t) sb s58 => b sb s58.
have d : (58 + size (t_memo t) - 58 = size (t_memo t))%N by clear; lia.
split; first by rewrite /slice d size_take size_drop sb; case: ltnP => //; move: h2; clear; lia.
split.
  by rewrite -s58 /slice d take_take //; move: h1; clear; lia.
rewrite /slice d; move: (size (t_memo t)) h1 h2 => l h1 h2.
have -> : (58 + l - 90 = l - 32)%N by move: h1; clear; lia.
by rewrite -{1}(subnK (ltnW h1)) -take_drop drop_drop.
Qed.

Theorem C62_memo_panics t : pk_codec -> txn_typed t ->
  is_panic (txn_unmarshal (txn_marshal t)) = (117 < size (t_memo t) %% 256)%N.
Proof.
move=> pk ty; have e := C62_marshal_unmarshal pk ty; cbn zeta in e; rewrite e {e}.
by case: leqP.
Qed.

(** Which byte strings decode, are refused, or make UnmarshalBinary panic. *)
Definition keys_ok (b : bytes) : bool :=
  [&& isSome (pdec (slice b 16 48)), isSome (pdec (slice b 93 125)) & isSome (pdec (slice b 125 157))].
Definition memo_fits (b : bytes) : bool := (nth 0%N b 57 < 198)%N && (58 + nth 0%N b 57 <= size b)%N.

Theorem C62_unmarshal_cases b : is_bytes b ->
  [/\ is_ok (txn_unmarshal b) = [&& 175 <= size b, keys_ok b & memo_fits b]%N,
      is_err (txn_unmarshal b) = ~~ ((175 <= size b)%N && keys_ok b) &
      is_panic (txn_unmarshal b) = [&& 175 <= size b, keys_ok b & ~~ memo_fits b]%N].
Proof.
move=> hb; rewrite /Model.txn_unmarshal /keys_ok /pk_unmarshal ltnNge; case: (175 <= size b)%N; last by [].
cbn [negb]; case: (pdec (slice b 16 48)) => [p1|]; last by [].
case: (pdec (slice b 93 125)) => [p2|]; last by [].
case: (pdec (slice b 125 157)) => [p3|]; last by [].
cbn [bind isSome andb negb]; rewrite /memo_slice /memo_fits.
have hn : (nth 0%N b 57 < 256)%N.
  case: (ltnP 57 (size b)) => h; first by exact: (all_nthP 0%N hb).
  by rewrite nth_default.
move: (nth 0%N b 57) hn => l hn; move: (size b) => n.
have -> : ((58 <= (58 + l) %% 256)%N && ((58 + l) %% 256 <= n)%N) = ((l < 198)%N && (58 + l <= n)%N).
  case: (ltnP l 198) => h.
    have -> : ((58 + l) %% 256 = 58 + l)%N by rewrite modn_small //; move: h; clear; lia.
    by rewrite leq_addr.
  have -> : ((58 + l) %% 256 = l - 198)%N.
    have -> : (58 + l = 256 + (l - 198))%N by move: h; clear; lia.
    by rewrite modnDl modn_small //; move: hn; clear; lia.
  by apply/negbTE; rewrite negb_and -ltnNge; apply/orP; left; move: hn; clear; lia.
by case: (_ && _).
Qed.

(** FINDING: the encoding is not unique.  The version byte 56 is ignored, a flag byte other than 1 means false
    whatever its value, and bytes after the 175th are ignored. *)
Theorem C62_version_ignored b v : (175 <= size b)%N -> txn_unmarshal (set_nth 0%N b 56 v) = txn_unmarshal b.
Proof.
move=> hb; have h56 : (56 < size b)%N by apply: leq_trans hb.
rewrite /Model.txn_unmarshal size_set_nth (maxn_idPr h56) /memo_slice size_set_nth (maxn_idPr h56).
by rewrite !nth_set_nth /= !slice_set //.
Qed.

Theorem C62_flag_bytes b p v w : (175 <= size b)%N -> (nth 0%N b 57 <= 32)%N ->
  p \in [:: 90; 91; 92; 173]%N -> (v == 1%N) = (w == 1%N) ->
  txn_unmarshal (set_nth 0%N b p v) = txn_unmarshal (set_nth 0%N b p w).
Proof.
move=> hb hl hp hv.
have hps : (p < size b)%N by apply: leq_trans hb; move: hp; rewrite !inE => /or4P[]/eqP->.
rewrite /Model.txn_unmarshal !size_set_nth (maxn_idPr hps) /memo_slice !size_set_nth (maxn_idPr hps).
have p57 : (57 == p)%N = false by move: hp; rewrite !inE => /or4P[]/eqP->.
have hs u i j : ((i < j) && (j <= 90) || (93 <= i) && (j <= 173))%N ->
    slice (set_nth 0%N b p u) i j = slice b i j.
  move=> h; apply: slice_set hps; move: h hp; rewrite !inE; clear.
  by move=> h /or4P[]/eqP->; move: h; lia.
have h58 u : slice (set_nth 0%N b p u) 58 ((58 + nth 0%N b 57) %% 256) = slice b 58 ((58 + nth 0%N b 57) %% 256).
  rewrite modn_small; last by move: hl; clear; lia.
  by apply: slice_set hps; move: hp hl; rewrite !inE; clear=> /or4P[]/eqP->; lia.
rewrite !nth_set_nth /= p57 !h58 !hs //.
do 3 (case: (pk_unmarshal _ _) => [?| |] //=).
case: (_ && _) => //=.
by move: hp; rewrite !inE => /or4P[]/eqP->; rewrite !eqxx /= ?hv.
Qed.

Theorem C62_trailing_ignored b x : (175 <= size b)%N -> memo_fits b ->
  txn_unmarshal (b ++ x) = txn_unmarshal b.
Proof.
move=> hb /andP[h1 h2].
have nx i : (i < 175)%N -> nth 0%N (b ++ x) i = nth 0%N b i by move=> h; rewrite nth_cat (leq_trans h hb).
have sx i j : (j <= 175)%N -> slice (b ++ x) i j = slice b i j by move=> h; rewrite slice_prefix // (leq_trans h hb).
rewrite /Model.txn_unmarshal /memo_slice size_cat !nx // (sx 16 48)%N // (sx 93 125)%N // (sx 125 157)%N //.
rewrite (sx 0 8)%N // (sx 8 16)%N // (sx 48 52)%N // (sx 52 56)%N // (sx 157 165)%N // (sx 165 173)%N //.
have -> : (size b + size x < 175)%N = false by move: hb; clear; lia.
have -> : (size b < 175)%N = false by move: hb; clear; lia.
have -> : ((58 + nth 0%N b 57) %% 256 = 58 + nth 0%N b 57)%N by rewrite modn_small //; move: h1; clear; lia.
by rewrite slice_prefix // h2 (leq_trans h2 (leq_addr _ _)).
Qed.

(** ** DeriveChallenge *)
(** FINDING: the challenge computed for threshold signing is the MainNet challenge, whatever the network of the
    transaction: threshold signatures on transactions for other networks do not verify, and the same partial
    signatures serve both networks. *)
Theorem C62_derive_challenge_mainnet t pk r : pk_codec -> txn_typed t -> (size (t_memo t) <= 32)%N ->
  derive_challenge (txn_marshal t) pk r = deref (chal pk (px r) (tx_flds px t) (tx_bits py fpraw t) 1).
Proof.
move=> pc ty hm; rewrite /Model.derive_challenge C62_roundtrip //; cbn [bind].
have [i [e h]] := tx_ro px py fpraw t; rewrite e; cbn [bind].
exact: msg_hash_ok h.
Qed.

Theorem C62_derive_challenge_network t pk r n : pk_codec -> txn_typed t -> (size (t_memo t) <= 32)%N ->
  (n < 256)%N -> derive_challenge (txn_marshal (with_network t n)) pk r = derive_challenge (txn_marshal t) pk r.
Proof.
move=> pc ty hm hn.
have ty' : txn_typed (with_network t n).
  by case: ty => [[a b c d] [e f h _]]; exact: (conj (And4 a b c d) (And4 e f h hn)).
by rewrite (C62_derive_challenge_mainnet pk r pc ty hm) (C62_derive_challenge_mainnet pk r pc ty' hm).
Qed.

(** ** Signatures *)
Variables (fpset : bytes -> option Fp) (fqset : bytes -> option F).

(** Fp.SetBytes and Fq.SetBytes accept exactly the 32-byte little-endian encodings Bytes produces *)
Definition field_codec (T : Type) (raw : T -> nat) (set : bytes -> option T) : Prop :=
  (forall x, set (le_bytes 32 (raw x)) = Some x) /\ (forall b x, set b = Some x -> b = le_bytes 32 (raw x)).

Theorem C62_signature_roundtrip s b : field_codec fpraw fpset -> field_codec fqraw fqset ->
  sig_unmarshal fpset fqset b = Ok s <-> b = sig_marshal fpraw fqraw s.
Proof.
move=> [p1 p2] [q1 q2]; rewrite /sig_unmarshal /sig_marshal /fp_bytes; split.
  case: eqP => // sb; cbn [negb].
  case e1 : (fpset _) => [r|]; last by [].
  case e2 : (fqset _) => [s'|]; last by [].
  move=> h; have <- : Sig r s' = s by case: h.
  rewrite -[LHS](cat_take_drop 32) [sig_r _]/= [sig_s _]/=.
  rewrite -(p2 _ _ e1) -(q2 _ _ e2) /slice drop0; congr (_ ++ _).
  by rewrite take_oversize // size_drop sb.
move=> ->; rewrite size_cat !size_le_bytes eqxx; cbn [negb].
rewrite slice_here ?size_le_bytes // p1 slice_skip ?size_le_bytes // -[(32 - 32)%N]/0%N -[(64 - 32)%N]/32%N.
rewrite -[le_bytes 32 (fqraw (sig_s s))]cats0 slice_here ?size_le_bytes // q1.
by case: s.
Qed.

(** ** Addresses *)
Variables (sha : bytes -> bytes) (b58enc : bytes -> bytes) (b58dec : bytes -> bytes).
Local Notation gen_address := (gen_address px py fpraw sha b58enc).
Local Notation parse_address := (parse_address pdec sha b58dec).

(** the compressed encoding of a point: x little endian, the parity of y in the top bit (C47) *)
Definition compressed (p : G) : bytes :=
  set_nth 0%N (fp_bytes fpraw (px p)) 31 (bor (nth 0%N (fp_bytes fpraw (px p)) 31) (bshl (fpraw (py p) %% 2)%N 7)).

(** an address whose last key byte is [v], with a matching checksum *)
Definition address_with (p : G) (v : nat) : bytes :=
  let payload := [:: 203; 1; 1]%N ++ fp_bytes fpraw (px p) ++ [:: v] in
  b58enc (payload ++ take 4 (sha (sha payload))).

Lemma bshl7 v : bshl v 7 = bshl (v %% 2)%N 7.
Proof. by rewrite /bshl {1}(divn_eq v 2) mulnDl -mulnA -[(2 * 2 ^ 7)%N]/256%N modnMDl. Qed.

Lemma parse_address_with p v : (forall b, b58dec (b58enc b) = b) -> (forall b, size (sha b) = 32%N) ->
  v = fpraw (py p) %[mod 2] -> parse_address (address_with p v) = pk_unmarshal pdec (compressed p).
Proof.
move=> h58 hs hv; rewrite /Model.parse_address /address_with h58.
set pay := [:: 203; 1; 1]%N ++ _.
have sx : size (fp_bytes fpraw (px p)) = 32%N by rewrite size_le_bytes.
have sp : size pay = 36%N by rewrite !size_cat sx.
have st : size (take 4 (sha (sha pay))) = 4%N by rewrite size_take hs.
rewrite size_cat sp st; cbn [addn addn_rec Nat.add eq_op Equality.op negb].
rewrite take_size_cat // slice_skip ?sp // -[(36 - 36)%N]/0%N -[(40 - 36)%N]/4%N.
have -> : slice (take 4 (sha (sha pay))) 0 4 = take 4 (sha (sha pay)).
  by rewrite -{1}[take 4 _]cats0 slice_here.
rewrite eqxx; cbn [negb].
have n0 i : (i < 36)%N -> nth 0%N (pay ++ take 4 (sha (sha pay))) i = nth 0%N pay i.
  by move=> hi; rewrite nth_cat sp hi.
rewrite !n0 //.
have -> : nth 0%N pay 35 = v by rewrite /pay nth_cat /= nth_cat sx.
have -> : slice (pay ++ take 4 (sha (sha pay))) 3 35 = fp_bytes fpraw (px p).
  by rewrite slice_prefix ?sp // /pay slice_skip // slice_here.
rewrite -[nth 0%N pay 0]/203%N -[nth 0%N pay 1]/1%N -[nth 0%N pay 2]/1%N !eqxx; cbn [negb]; cbn zeta.
by rewrite /compressed (bshl7 v) hv.
Qed.

(** GenerateAddress's output parses back to the key. *)
Theorem C62_address_roundtrip p : (forall b, b58dec (b58enc b) = b) -> (forall b, size (sha b) = 32%N) ->
  pdec (compressed p) = Some p -> parse_address (gen_address p) = Ok p.
Proof.
move=> h58 hs hp.
rewrite [gen_address p](_ : _ = address_with p (fpraw (py p) %% 2)%N); last first.
  have e : band (nth 0%N (fp_bytes fpraw (py p)) 0) 1 = (fpraw (py p) %% 2)%N.
    have -> : nth 0%N (fp_bytes fpraw (py p)) 0 = (fpraw (py p) %% 256)%N by [].
    rewrite -[(fpraw (py p) %% 2)%N](@modn_dvdm 256) //.
    have : (fpraw (py p) %% 256 < 256)%N by rewrite ltn_pmod.
    by move: (_ %% 256)%N => x hx; rewrite low_bit // /tbit modn2 divn1.
  by rewrite /Model.gen_address e.
by rewrite parse_address_with // ?modn_mod // /pk_unmarshal hp.
Qed.

(** FINDING: addresses are malleable: of the last key byte only the parity is used, so every key has 128
    addresses with valid checksums. *)
Theorem C62_address_malleable p v w : (forall b, b58dec (b58enc b) = b) -> (forall b, size (sha b) = 32%N) ->
  v = fpraw (py p) %[mod 2] -> w = v %[mod 2] -> v <> w ->
  address_with p v <> address_with p w /\ parse_address (address_with p v) = parse_address (address_with p w).
Proof.
move=> h58 hs hv hw ne; split; last by rewrite !parse_address_with // hw.
move=> /(congr1 b58dec); rewrite !h58 -!catA => /(congr1 (fun b => nth 0%N b 35)).
have sx : size (fp_bytes fpraw (px p)) = 32%N by rewrite size_le_bytes.
by rewrite !nth_cat sx.
Qed.

(** ** JSON *)
(** the values encoding/json stores in an interface{} *)
Definition from_json (d : dyn) : bool :=
  match d with JNull | JBool | JNum | JStr _ | JSlice | JMap => true | _ => false end.

(** FINDING: UnmarshalJSON fails on every input: the body is asserted to have Go struct types that
    encoding/json never stores in an interface. *)
Theorem C62_json_always_fails payment stake setdel b0 b1 : from_json b0 -> from_json b1 ->
  json_body pdec sha b58dec payment stake setdel b0 b1 = Err.
Proof. by case: b0 => //= s _; case: b1 => //= *; case: (s == payment); case: (s == stake). Qed.
End Codec.

Print Assumptions C62_marshal_unmarshal.
Print Assumptions C62_roundtrip.
Print Assumptions C62_long_memo_refuted.
Print Assumptions C62_memo_panics.
Print Assumptions C62_unmarshal_cases.
Print Assumptions C62_version_ignored.
Print Assumptions C62_flag_bytes.
Print Assumptions C62_trailing_ignored.
Print Assumptions C62_derive_challenge_mainnet.
Print Assumptions C62_derive_challenge_network.
Print Assumptions C62_signature_roundtrip.
Print Assumptions C62_address_roundtrip.
Print Assumptions C62_address_malleable.
Print Assumptions C62_json_always_fails.

(** ** A concrete instance: points of the 'F_7 instance as 32-byte numbers *)
Local Transparent le_bytes.
Definition penc7 (p : G7) : bytes := le_bytes 32 (raw7 (p : F7)).
Definition pdec7 (b : bytes) : option G7 := Some ((le_val b)%:R : F7).

Lemma raw7K (x : F7) : (raw7 x)%:R = x.
Proof. by rewrite /raw7 natr_Zp. Qed.

Example C62_pk_codec : pk_codec penc7 pdec7.
Proof.
move=> p; split; first by rewrite size_le_bytes.
rewrite /pdec7 /penc7 le_bytesK ?raw7K //.
apply: (leq_trans (ltn_ord (p : F7))); apply: (@leq_trans (256 ^ 2)%N); first by [].
by rewrite leq_exp2l.
Qed.

Example C62_typed : txn_typed (txn7 [:: 7; 8; 9]%N 42 1).
Proof.
have p64 x : (x < 2 ^ 7)%N -> (x < 2 ^ 64)%N by move=> h; apply: (leq_trans h); rewrite leq_exp2l.
have p32 x : (x < 2 ^ 7)%N -> (x < 2 ^ 32)%N by move=> h; apply: (leq_trans h); rewrite leq_exp2l.
split.
  by split; [apply: p64 | apply: p64 | apply: p32 | apply: p32].
by split; [apply: p64 | apply: p64 | |].
Qed.

(** a 3-byte memo round-trips, a 40-byte memo is decoded as something else, a 118-byte memo panics *)
Example C62_hyps :
  let t m := txn7 m 42 1 in
  [/\ txn_unmarshal pdec7 (txn_marshal penc7 (t [:: 7; 8; 9]%N)) = Ok (t [:: 7; 8; 9]%N),
      (if txn_unmarshal pdec7 (txn_marshal penc7 (t (nseq 40 7%N))) is Ok t' then
         t_memo t' == nseq 32 7%N ++ [:: 1; 0; 1; 5; 0; 0; 0; 0]%N else false) = true &
      is_panic (txn_unmarshal pdec7 (txn_marshal penc7 (t (nseq 118 7%N)))) = true].
Proof.
split; last by vm_compute.
- by apply: (C62_roundtrip C62_pk_codec C62_typed).
- by vm_compute.
Qed.
