(** C30, C67: the two-party multiplication of DKLs (sizes of the code: 256 seed OTs, 672 slots). *)
From Coq Require Import PeanoNat NArith.
From mathcomp Require Import all_ssreflect all_algebra zify.
From Verif Require Import Lib.Res Lib.Bytes Lib.Inst Core.HashModel Core.HashProofs OT.GfModel OT.SimplestModel
  OT.KosModel OT.KosProofs OT.PropsKos Dkls.MulModel Dkls.MulProofs.
Set Implicit Arguments. Unset Strict Implicit. Unset Printing Implicit Defensive.
Import GRing.Theory.
Local Open Scope ring_scope.

(** the scalar encoding of the ECDSA curves: 32 bytes, big-endian *)
Definition be_scalar (F : fieldType) (enc : F -> bytes) (dec : bytes -> option F) : Prop :=
  [/\ forall x, dec (enc x) = Some x, forall x, is_bytes (enc x) /\ size (enc x) = 32%N,
      forall x, (be_val (enc x))%:R = x & enc 0 = nseq 32 0%N].

(** the rounds with the constants of the code and its field multiplication *)
Definition new_snd F dec gpad := @new_msender F dec gpad KappaBytes COtBlockSizeBytes.
Definition new_rcv F dec gpad := @new_mreceiver F dec gpad KappaBytes COtBlockSizeBytes.
Definition mul1 F enc dec hash shake := @mround1 F enc dec hash shake binary_field_mul KappaBytes COtBlockSizeBytes ExtBytes.
Definition mul2 F enc dec hash shake xof := @mround2 F enc dec hash shake binary_field_mul xof KappaBytes COtBlockSizeBytes ExtBytes.
Definition mul3 F enc dec shake xof := @mround3 F enc dec shake xof KappaBytes COtBlockSizeBytes.

(** Both parties were created with the same session id on the two halves of one seed OT, Bob (receiver) ran
    round 1 on beta and Alice (sender) round 2 on alpha and Bob's message. *)
Definition honest (F : fieldType) enc dec hash shake xof gpad (otr : KosModel.receiver F) (ots : KosModel.sender F)
  sid (alpha ahat beta : F) gamma ext r1 m1 s2 m2 : Prop :=
  seed_ot otr ots /\ exists r s,
  [/\ new_rcv dec gpad otr sid = Ok r, new_snd dec gpad ots sid = Ok s,
      [/\ is_bytes gamma, size gamma = 52%N, is_bytes ext & size ext = 42%N],
      mul1 enc dec hash shake r beta (Some gamma) (Some ext) = Ok (r1, m1) &
      mul2 enc dec hash shake xof s alpha ahat m1 = Ok (s2, m2)].

Lemma honestP (F : fieldType) (enc : F -> bytes) dec hash shake xof gpad otr ots sid alpha ahat beta gamma ext r1 m1 s2 m2 :
  honest enc dec hash shake xof gpad otr ots sid alpha ahat beta gamma ext r1 m1 s2 m2 ->
  exists r s gad, honest12 enc dec hash shake binary_field_mul xof gpad KappaBytes COtBlockSizeBytes ExtBytes r s sid gad
    alpha ahat beta gamma ext r1 m1 s2 m2.
Proof.
move=> [hs [r [s [er es [b1 z1 b2 z2] e1 e2]]]]; exists r, s.
move: er es e1 e2; rewrite /new_rcv /new_snd /new_mreceiver /new_msender.
case eg: (gadget _ _ _ _) => [gad| |]; cbn [bind]; try by [].
move=> [<-] [<-] e1 e2; exists gad; split.
- exact: seed_seeds hs.
- exact: eg.
- by split.
- by split.
- by split.
Qed.

Section S.
Variables (F : fieldType) (enc : F -> bytes) (dec : bytes -> option F).
Hypothesis H : be_scalar enc dec.
Lemma be_encK x : dec (enc x) = Some x. Proof. by case: H. Qed.
Lemma be_word x : word KappaBytes (enc x). Proof. by case: H => _ h _ _; exact: h. Qed.
Lemma be_valK x : (be_val (enc x))%:R = x. Proof. by case: H. Qed.
Lemma be_enc0 : enc 0 = nseq 32 0%N. Proof. by case: H. Qed.
End S.
Lemma kb_lb : (KappaBytes <= COtBlockSizeBytes)%N. Proof. by []. Qed.

(** For all scalars alpha and beta, all randomness, any session id and any seed OT: Bob's last round accepts
    Alice's message and the two output shares add up to alpha * beta. *)
Theorem C30_multiply_correct : forall (F : fieldType) enc dec hash shake xof gpad,
  be_scalar enc dec -> hash_ok hash -> shake_ok shake ->
  forall (otr : KosModel.receiver F) ots sid (alpha ahat beta : F) gamma ext r1 m1 s2 m2,
  honest enc dec hash shake xof gpad otr ots sid alpha ahat beta gamma ext r1 m1 s2 m2 ->
  exists r3, mul3 enc dec shake xof r1 m2 = Ok r3 /\ ms_share s2 + mr_share r3 = alpha * beta.
Proof.
move=> F enc dec hash shake xof gpad hc hok sok otr ots sid alpha ahat beta gamma ext r1 m1 s2 m2 /honestP[r [s [gad h]]].
have [r3 [e3 e _]] := mul_ok (hok : forall x, word KappaBytes (hash x)) sok bfm_word bfm_Dl bfm_Dr (be_encK hc) (be_word hc)
  (be_valK hc) (be_enc0 hc) kb_lb lb_eb h.
by exists r3; split; [exact: e3 | exact: e].
Qed.
Print Assumptions C30_multiply_correct.

(** The honest rounds succeed unless a hash output fails to decode to a scalar: Bob's first round always
    does once the gadget vector exists, and Alice's second round never panics. *)
Theorem C30_multiply_complete : forall (F : fieldType) enc dec hash shake xof gpad,
  be_scalar enc dec -> hash_ok hash -> shake_ok shake ->
  forall (otr : KosModel.receiver F) ots sid (alpha ahat beta : F) gamma ext r s, seed_ot otr ots ->
  new_rcv dec gpad otr sid = Ok r -> new_snd dec gpad ots sid = Ok s ->
  is_bytes gamma -> size gamma = 52%N -> is_bytes ext -> size ext = 42%N ->
  exists r1 m1, mul1 enc dec hash shake r beta (Some gamma) (Some ext) = Ok (r1, m1) /\
    mul2 enc dec hash shake xof s alpha ahat m1 <> Panic /\
    ((forall j x k, (j < 672)%N -> (k < 2)%N -> size x = 32%N ->
       dec (take 32 (drop (k * 32)%N (shake sid ([:: (j %/ 256 %% 256)%N; (j %% 256)%N] ++ x) 64%N))) <> None) ->
     (forall l, dec (xof l) <> None) ->
     exists s2 m2, mul2 enc dec hash shake xof s alpha ahat m1 = Ok (s2, m2)).
Proof.
move=> F enc dec hash shake xof gpad hc hok sok otr ots sid alpha ahat beta gamma ext r s hs er es b1 z1 b2 z2.
move: er es; rewrite /new_rcv /new_snd /new_mreceiver /new_msender.
case eg: (gadget _ _ _ _) => [gad| |]; cbn [bind]; try by [].
move=> [<-] [<-].
have [omega [eo bo so sum]] := encode_ok (be_encK hc) (be_word hc) (be_valK hc) kb_lb beta eg b1 z1.
have hs' := seed_seeds hs; have [h1 _ _ _ _] := hs'.
have [k1 [m1 ek]] : exists k1 m1, kos1 hash shake otr sid omega (Some ext) = Ok (k1, m1).
  by rewrite /kos1 /KosModel.round1 h1 ltnn; eexists; eexists.
have [np tot] := @C28_cot_complete F dec hash shake hok sok _ _ _ _ _ _ _ (nseq (8 * COtBlockSizeBytes) [:: alpha; ahat]) hs bo so b2 z2 ek.
eexists; exists m1; split.
  rewrite /mul1 /mround1; cbn [mr_gad mr_ot mr_sid mr_share mr_log]; rewrite eo; cbn [bind].
  by move: ek; rewrite /kos1 => ->; cbn [bind].
rewrite /mul2 /mround2; cbn [ms_ot ms_sid ms_log]; rewrite -/(kos2 dec hash shake ots sid (nseq (8 * COtBlockSizeBytes) [:: alpha; ahat]) m1).
split.
  case E: (kos2 _ _ _ _ _ _ _) np => [[ot tau]| |] np; cbn [bind]; [|by []|by case: np].
  rewrite /challenges; cbn [draw]; case: (dec _) => [c0|]; [|by []].
  by case: (dec _) => [c1|].
move=> hd hx; have [s2 [tau ->]] := tot hd; cbn [bind]; rewrite /challenges; cbn [draw].
case D0: (dec _) => [c0|]; last by case: (hx _ D0).
case D1: (dec _) => [c1|]; last by case: (hx _ D1).
by cbn [bind]; eexists; eexists.
Qed.
Print Assumptions C30_multiply_complete.

(** The challenges chi are drawn from a transcript that covers Alice's whole first-round view but only the
    first 256 of the 672 rows of tau.  A sender that alters row j >= 256 of tau after learning chi passes
    Bob's check whatever Bob's choices are, and shifts Bob's share by g_j * d exactly when Bob's j-th choice
    bit is set: the output is then not a sharing of alpha * beta. *)
Theorem C67_multiply_check_refuted : forall (F : fieldType) enc dec hash shake xof gpad,
  be_scalar enc dec -> hash_ok hash -> shake_ok shake ->
  forall (otr : KosModel.receiver F) ots sid (alpha ahat beta : F) gamma ext r1 m1 s2 m2,
  honest enc dec hash shake xof gpad otr ots sid alpha ahat beta gamma ext r1 m1 s2 m2 ->
  forall j d, (256 <= j < 672)%N ->
  (* the second challenge, a function of what both parties have seen, is not zero *)
  (forall l c0 c1, challenges dec xof KappaBytes (mr_log r1 ++ app_tau enc KappaBytes (m2_tau m2)) = Ok (l, c0, c1) -> c1 != 0) ->
  exists tau' r3,
    [/\ mul3 enc dec shake xof r1 (MRound2 tau' (m2_R m2) (m2_U m2)) = Ok r3,
        forall i, (i < 672)%N -> i <> j -> nth [::] tau' i = nth [::] (m2_tau m2) i &
        ms_share s2 + mr_share r3 = alpha * beta +
          (if Nat.testbit (nth 0%N (mr_omega r1) (j %/ 8)) (j %% 8) then nth 0 (mr_gad r1) j * d else 0)].
Proof.
move=> F enc dec hash shake xof gpad hc hok sok otr ots sid alpha ahat beta gamma ext r1 m1 s2 m2 hh j d hj cn.
have [r [s [gad h]]] := honestP hh.
have [d1 [r3 [e3 e]]] := mul_unbound (hok : forall x, word KappaBytes (hash x)) sok bfm_word bfm_Dl bfm_Dr (be_encK hc) (be_word hc)
  (be_valK hc) (be_enc0 hc) kb_lb lb_eb d h (hj : (8 * KappaBytes <= j < 8 * COtBlockSizeBytes)%N) cn.
have [_ [_ [_ [_ [_ _ [_ [eg _]] _ _]]]]] := mul_run (hok : forall x, word KappaBytes (hash x)) sok bfm_word bfm_Dl bfm_Dr (be_encK hc) (be_word hc)
  (be_valK hc) kb_lb lb_eb h.
exists (shift_tau COtBlockSizeBytes (m2_tau m2) j d d1), r3; split; [exact: e3| |by rewrite eg; exact: e].
move=> i hi ne; have hi' : (i < 8 * COtBlockSizeBytes)%N by exact: hi.
rewrite /shift_tau (nth_map 0%N) ?size_iota // nth_iota // add0n; case: eqP => // e'.
Qed.
Print Assumptions C67_multiply_check_refuted.

(** non-vacuity: a scalar codec, hash functions and a seed OT over F257 with which every honest round runs *)
Definition enc257 (x : F257) : bytes := rev (le_bytes 32 (x : nat)).
Definition dec257 (b : bytes) : option F257 := Some ((be_val b)%:R).
Lemma be_scalar257 : be_scalar enc257 dec257.
Proof.
have vE (x : F257) : be_val (enc257 x) = (x : nat).
  rewrite /enc257 -/(le_val _) le_bytesK; first by [].
  exact: small257.
split.
- by move=> x; rewrite /dec257 vE; congr Some; exact: natr_Zp.
- move=> x; rewrite /enc257 size_rev size_le_bytes; split; last by [].
  by have := is_bytes_le 32 (x : nat); rewrite /is_bytes all_rev.
- by move=> x; rewrite vE; exact: natr_Zp.
- by vm_compute.
Qed.
Definition toyhash (b : bytes) : bytes := le_bytes 32 (size b).
Definition otr257 := KosModel.new_receiver F257 [seq ([:: i %% 256]%N, [:: 1; i %% 256]%N) | i <- iota 0 256].
Definition ots257 := @KosModel.Sender F257 [seq (i %% 8 == 1)%N | i <- iota 0 256] (nseq 32 2%N)
   [seq (if (i %% 8 == 1)%N then [:: 1; i %% 256]%N else [:: i %% 256]%N) | i <- iota 0 256] [::].
Lemma seed257 : seed_ot otr257 ots257.
Proof.
split; rewrite ?size_map ?size_iota //; cbn [ks_packed ks_bits ks_keys kr_seeds KosModel.new_receiver].
move=> i hi; rewrite !(nth_map 0%N) ?size_iota // !nth_iota // !add0n.
rewrite nth_nseq ltn_divLR // hi; split; last by case: eqP.
by have := ltn_pmod i (isT : 0 < 8)%N; case: (i %% 8)%N => [|[|[|[|[|[|[|[|]]]]]]]].
Qed.
Definition toyxof (l : log) : bytes := [:: size l].
Definition toypad (i : nat) : bytes := [:: i].
Lemma toy_ok : hash_ok toyhash /\ shake_ok toyshake.
Proof. by split=> [x|s x n]; rewrite is_bytes_le size_le_bytes. Qed.
Lemma gadget_tot (F : fieldType) (dec : bytes -> option F) gpad kb lb : (forall b, dec b <> None) -> exists gad, gadget dec gpad kb lb = Ok gad.
Proof.
move=> h; apply: mapo_total => j _; rewrite /gadget_at; case: ifP => _; first by eexists.
by case E: (dec _) => [a|]; [eexists | case: (h _ E)].
Qed.
Example C30_hyps (sid : bytes) (alpha ahat beta : F257) : exists r1 m1 s2 m2,
  honest enc257 dec257 toyhash toyshake toyxof toypad otr257 ots257 sid alpha ahat beta (nseq 52 3%N) (nseq 42 5%N) r1 m1 s2 m2.
Proof.
have [hok sok] := toy_ok.
have [gad eg] : exists gad, gadget dec257 toypad KappaBytes COtBlockSizeBytes = Ok gad by exact: gadget_tot.
have er : new_rcv dec257 toypad otr257 sid = Ok (MReceiver otr257 0 [::] gad [:: Start DMultiply; App LSession sid] sid).
  by rewrite /new_rcv /new_mreceiver eg.
have es : new_snd dec257 toypad ots257 sid = Ok (MSender ots257 0 gad [:: Start DMultiply; App LSession sid] sid).
  by rewrite /new_snd /new_msender eg.
have [r1 [m1 [e1 [_ h]]]] := C30_multiply_complete toyxof be_scalar257 hok sok alpha ahat beta seed257 er es
  (isT : is_bytes (nseq 52 3%N)) (erefl : size (nseq 52 3%N) = 52%N) (isT : is_bytes (nseq 42 5%N)) (erefl : size (nseq 42 5%N) = 42%N).
have [s2 [m2 e2]] := h (fun _ _ _ _ _ _ => ltac:(by [])) (fun _ => ltac:(by [])).
exists r1, m1, s2, m2; split; first exact: seed257.
by eexists; eexists; split; [exact: er | exact: es | split | exact: e1 | exact: e2].
Qed.
