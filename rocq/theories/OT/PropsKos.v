(** C28: the KOS correlated OT extension (sizes of kos.go: 256 seed OTs, 672 slots of two scalars). *)
From Coq Require Import PeanoNat NArith.
From mathcomp Require Import all_ssreflect all_algebra zify.
From Verif Require Import Lib.Res Lib.Bytes Lib.Inst Core.HashModel Core.HashProofs Schnorr.Model OT.GfModel OT.GfProofs OT.PropsGf
  OT.SimplestModel OT.PropsSimplest OT.KosModel OT.KosProofs.
Set Implicit Arguments. Unset Strict Implicit. Unset Printing Implicit Defensive.
Import GRing.Theory.
Local Open Scope ring_scope.

(** 32-byte hashes, an extendable-output function, a scalar codec *)
Definition hash_ok (hash : bytes -> bytes) : Prop := forall x, is_bytes (hash x) /\ size (hash x) = 32%N.
Definition shake_ok (shake : bytes -> bytes -> nat -> bytes) : Prop :=
  forall s x n, is_bytes (shake s x n) /\ size (shake s x n) = n.

(** What the two parties hold after the seed OT: 256 pairs of keys on one side; on the other side 256 choice
    bits, the same bits packed in 32 bytes, and the key each bit selects. *)
Definition seed_ot (F : fieldType) (r : KosModel.receiver F) (s : KosModel.sender F) : Prop :=
  [/\ size (kr_seeds r) = 256%N, size (ks_bits s) = 256%N, size (ks_keys s) = 256%N,
      is_bytes (ks_packed s) /\ size (ks_packed s) = 32%N &
   forall i, (i < 256)%N ->
     nth false (ks_bits s) i = Nat.testbit (nth 0%N (ks_packed s) (i %/ 8)) (i %% 8) /\
     nth [::] (ks_keys s) i = (if nth false (ks_bits s) i then (nth ([::], [::]) (kr_seeds r) i).2
                               else (nth ([::], [::]) (kr_seeds r) i).1)].

(** the rounds with the constants of the code and its field multiplication *)
Definition kos1 F hash shake := @KosModel.round1 F hash shake binary_field_mul KappaBytes ExtBytes.
Definition kos2 F dec hash shake :=
  @KosModel.round2 F dec hash shake binary_field_mul KappaBytes COtBlockSizeBytes ExtBytes.
Definition kos3 F enc dec shake := @KosModel.round3 F enc dec shake COtBlockSizeBytes.

Section S.
Variables (F : fieldType) (enc : F -> bytes) (dec : bytes -> option F) (hash : bytes -> bytes)
  (shake : bytes -> bytes -> nat -> bytes).
Hypotheses (hok : hash_ok hash) (sok : shake_ok shake) (encK : forall x, dec (enc x) = Some x).

Lemma seed_seeds (r : KosModel.receiver F) s : seed_ot r s -> seeds_ok KappaBytes r s.
Proof. by case=> h1 h2 h3 h4 h5; split. Qed.

Lemma bfm_word a b : word KappaBytes a -> word KappaBytes b -> word KappaBytes (binary_field_mul a b).
Proof. by move=> ha hb; have [h _] := C29_gf_mul_product ha hb; exact: h. Qed.
Lemma bfm_Dl a b c : word KappaBytes a -> word KappaBytes b -> word KappaBytes c ->
  binary_field_mul (bxor a b) c = bxor (binary_field_mul a c) (binary_field_mul b c).
Proof. by move=> ha hb hc; have [_ _ _ h _] := C29_gf_mul_ring ha hb hc; exact: h. Qed.
Lemma bfm_Dr a b c : word KappaBytes a -> word KappaBytes b -> word KappaBytes c ->
  binary_field_mul a (bxor b c) = bxor (binary_field_mul a b) (binary_field_mul a c).
Proof. by move=> ha hb hc; have [_ _ h _ _] := C29_gf_mul_ring ha hb hc; exact: h. Qed.

Lemma lb_eb : (COtBlockSizeBytes <= ExtBytes)%N. Proof. by []. Qed.
Lemma sizes84 (a b : bytes) : size a = 84%N -> size b = 42%N -> (size a + size b = ExtBytes)%N.
Proof. by move=> -> ->. Qed.
End S.

(** For every seed OT, session id, 672 choice bits, 42 random bytes and every table of inputs: the receiver's
    first message passes the sender's consistency check; once the sender's round succeeds the receiver's last
    round succeeds, and for each slot j and each of the two scalars k the two outputs add up to the sender's
    input if the j-th choice bit is set and to zero otherwise. *)
Theorem C28_cot_correct : forall (F : fieldType) (enc : F -> bytes) (dec : bytes -> option F) hash shake,
  hash_ok hash -> shake_ok shake -> (forall x, dec (enc x) = Some x) ->
  forall (r : KosModel.receiver F) (s : KosModel.sender F) sid choice ext, seed_ot r s ->
  is_bytes choice -> size choice = 84%N -> is_bytes ext -> size ext = 42%N ->
  exists r1 m, kos1 hash shake r sid choice (Some ext) = Ok (r1, m) /\
  forall input s2 tau, kos2 dec hash shake s sid input m = Ok (s2, tau) ->
  exists r3, kos3 enc dec shake r1 tau = Ok r3 /\
  forall j k, (j < 672)%N -> (k < 2)%N ->
    nth 0 (nth [::] (ks_shares s2) j) k + nth 0 (nth [::] (kr_shares r3) j) k
    = if Nat.testbit (nth 0%N choice (j %/ 8)) (j %% 8) then nth 0 (nth [::] input j) k else 0.
Proof.
move=> F enc dec hash shake hok sok encK r s sid choice ext hs bc sc be se.
have hs' := seed_seeds hs; have [h1 _ _ _ _] := hs'; have sz := sizes84 sc se.
have : exists r1 m, kos1 hash shake r sid choice (Some ext) = Ok (r1, m).
  by rewrite /kos1 /KosModel.round1 h1 ltnn; eexists; eexists.
move=> [r1 [m e1]]; exists r1, m; split; first exact: e1.
move=> input s2 tau e2.
have [r3 [e3 h]] := cot_ok (hok : forall x, word KappaBytes (hash x)) sok bfm_word bfm_Dl bfm_Dr encK lb_eb hs' bc be sc sz e1 e2.
exists r3; split; first exact: e3.
move=> j k hj hk; exact: h.
Qed.
Print Assumptions C28_cot_correct.

(** The sender's round never panics on such an input and its only failure is a pad that does not decode to
    a scalar (the consistency check always passes). *)
Theorem C28_cot_complete : forall (F : fieldType) (dec : bytes -> option F) hash shake,
  hash_ok hash -> shake_ok shake ->
  forall (r : KosModel.receiver F) (s : KosModel.sender F) sid choice ext r1 m input, seed_ot r s ->
  is_bytes choice -> size choice = 84%N -> is_bytes ext -> size ext = 42%N ->
  kos1 hash shake r sid choice (Some ext) = Ok (r1, m) ->
  kos2 dec hash shake s sid input m <> Panic /\
  ((forall j x k, (j < 672)%N -> (k < 2)%N -> size x = 32%N ->
     dec (take 32 (drop (k * 32)%N (shake sid ([:: (j %/ 256 %% 256)%N; (j %% 256)%N] ++ x) 64%N))) <> None) ->
   exists s2 tau, kos2 dec hash shake s sid input m = Ok (s2, tau)).
Proof.
move=> F dec hash shake hok sok r s sid choice ext r1 m input hs bc sc be se e1.
have hs' := seed_seeds hs; have sz := sizes84 sc se; split.
  rewrite /kos2 /KosModel.round2; have [h1 h2 h3 [h4 h4'] h5] := hs'; rewrite h2 h3 h4' !ltnn.
  case: (~~ _) => //; case E: (mapo _ _) => //.
  exfalso; move: E; apply: mapo_nopanic => j; rewrite /slot2 /colo.
  by do 4! (case: col => [?|] //=).
move=> hd; apply: (round2_total (hok : forall x, word KappaBytes (hash x)) sok bfm_word bfm_Dl bfm_Dr lb_eb input hs' bc be sc sz e1).
by move=> j k x hj hk [_ sx]; apply: hd.
Qed.
Print Assumptions C28_cot_complete.

(** A first message whose VPrime was altered is rejected, and so is one whose WPrime was altered unless the
    sender's 256 choice bits are all zero. *)
Theorem C28_cot_tamper : forall (F : fieldType) (dec : bytes -> option F) hash shake,
  hash_ok hash -> shake_ok shake ->
  forall (r : KosModel.receiver F) (s : KosModel.sender F) sid choice ext r1 m, seed_ot r s ->
  is_bytes choice -> size choice = 84%N -> is_bytes ext -> size ext = 42%N ->
  kos1 hash shake r sid choice (Some ext) = Ok (r1, m) ->
  (forall V input, is_bytes V -> size V = 32%N -> V <> k1_V m ->
     kos2 dec hash shake s sid input (Round1Out (k1_U m) (k1_W m) V) = Err) /\
  (forall W input, is_bytes W -> size W = 32%N -> W <> k1_W m -> ks_packed s <> nseq 32 0%N ->
     kos2 dec hash shake s sid input (Round1Out (k1_U m) W (k1_V m)) = Err).
Proof.
move=> F dec hash shake hok sok r s sid choice ext r1 m hs bc sc be se e1.
have hs' := seed_seeds hs; have sz := sizes84 sc se; have [h1 h2 h3 h4 h5] := hs'.
have ck := check_ok (hok : forall x, word KappaBytes (hash x)) sok bfm_word bfm_Dl bfm_Dr hs' bc be sz e1.
have eV := round1_words (hok : forall x, word KappaBytes (hash x)) sok bfm_word hs' bc be sz e1.
case: eV => wV wW.
have R m' input := @check_reject F dec hash shake binary_field_mul KappaBytes COtBlockSizeBytes ExtBytes s sid m m' input h2 h3 (proj2 h4) ck.
split=> [V|W] input b2 s2 ne; [|move=> nz]; apply: R; try exact: erefl; cbn [k1_V k1_W] => e; apply: ne.
  exact: bxor_inj e.
have wW' : word KappaBytes W by split.
have wM := bfm_word h4 wW; have wM' := bfm_word h4 wW'.
have [_ [_ cancel]] := C29_gf_mul_field.
apply: (cancel (ks_packed s)) => //.
apply: (@bxor_inj _ _ (k1_V m)); rewrite (wxC wM' wV) (wxC wM wV); exact: e.
Qed.
Print Assumptions C28_cot_tamper.

(** The seed OT of pkg/ot/base/simplest with 256 instances provides what is needed: the party that played
    the sender there is the receiver here and conversely. *)
Theorem C28_seed_from_base_ot :
  forall (F : fieldType) (G : lmodType F) (g : G) (penc : G -> bytes) (pdec : bytes -> option G)
    (enc : F -> bytes) (dec : bytes -> option F) (hash : bytes -> bytes) (ext1 ext2 : bytes -> bytes),
  (forall P, pdec (penc P) = Some P) -> (forall x c, dec x = Some c -> enc c = x) ->
  (forall x, size (hash x) = 32%N) ->
  forall sid rnd (b k : F) (a : nat -> F) bs br,
  honest_run g penc pdec enc dec hash ext1 ext2 256%N sid rnd b k a = Ok (bs, br) ->
  is_bytes rnd -> size rnd = 32%N ->
  dec (hash (ext1 sid ++ penc g ++ penc (b *: g) ++ penc (k *: g))) <> None ->
  seed_ot (KosModel.new_receiver F (s_keys bs)) (@KosModel.Sender F (r_bits br) rnd (r_keys br) [::]).
Proof.
move=> F G g penc pdec enc dec hash ext1 ext2 pcan can hsz sid rnd b k a bs br e bb sb.
case E: dec => [c|] // _.
have [s [r [e' [z1 z2 z3 h]]]] := @honest_runE F G g penc pdec enc dec hash ext1 ext2 pcan can hsz 256%N sid rnd b k a c isT E.
move: e; rewrite e' => -[<- <-]; split=> //= i hi; have [e1 e2 _ _] := h i hi; by split.
Qed.
Print Assumptions C28_seed_from_base_ot.

(** non-vacuity *)
Definition toyshake (s x : bytes) (n : nat) : bytes := le_bytes n (le_val x + size s).
Example C28_hyps : exists (enc : F257 -> bytes) (dec : bytes -> option F257) hash (r : KosModel.receiver F257) s,
  [/\ hash_ok hash, shake_ok toyshake, forall x, dec (enc x) = Some x, forall b, dec b <> None & seed_ot r s].
Proof.
exists (fun x : F257 => le_bytes 32 (x : nat)), (fun b => Some ((le_val b)%:R)), (fun b => le_bytes 32 (size b)).
exists (KosModel.new_receiver _ [seq ([:: i %% 256]%N, [:: 1; i %% 256]%N) | i <- iota 0 256]).
exists (@KosModel.Sender _ [seq (i %% 8 == 1)%N | i <- iota 0 256] (nseq 32 2%N)
   [seq (if (i %% 8 == 1)%N then [:: 1; i %% 256]%N else [:: i %% 256]%N) | i <- iota 0 256] [::]).
split.
- by move=> x; rewrite is_bytes_le size_le_bytes.
- by move=> s x n; rewrite is_bytes_le size_le_bytes.
- move=> x; congr Some; rewrite le_bytesK; first by exact: natr_Zp.
  exact: small257.
- by [].
split; rewrite ?size_map ?size_iota //; cbn [ks_packed ks_bits ks_keys kr_seeds KosModel.new_receiver].
move=> i hi; rewrite !(nth_map 0%N) ?size_iota // !nth_iota // !add0n.
rewrite nth_nseq ltn_divLR // hi; split; last by case: eqP.
by have := ltn_pmod i (isT : 0 < 8)%N; case: (i %% 8)%N => [|[|[|[|[|[|[|[|]]]]]]]].
Qed.
