(** C31, C32, C68: two-party ECDSA signing of DKLs (sizes of the code). *)
From Coq Require Import PeanoNat NArith.
From mathcomp Require Import all_ssreflect all_algebra zify.
From Verif Require Import Lib.Res Lib.Bytes Lib.Inst Core.HashModel Core.HashProofs Schnorr.Model OT.GfModel OT.SimplestModel
  OT.KosModel OT.KosProofs OT.PropsKos Dkls.MulModel Dkls.MulProofs Dkls.PropsMul Dkls.SignModel Dkls.SignProofs.
Set Implicit Arguments. Unset Strict Implicit. Unset Printing Implicit Defensive.
Import GRing.Theory.
Local Open Scope ring_scope.

(** A curve usable for ECDSA: scalars below the order q, encoded in 32 bytes, decoded only if canonical; a
    base point of that order; a compressed point is a sign byte and the 32 bytes of the x coordinate; opposite
    points have the same x and opposite signs. *)
Definition ecdsa_curve (F : fieldType) (G : lmodType F) (g : G) (q : nat) (val : F -> nat) (xc : G -> nat) (yodd : G -> bool)
  (penc : G -> bytes) (enc : F -> bytes) (dec : bytes -> option F) : Prop :=
  [/\ be_scalar enc dec, forall b c, dec b = Some c -> val c = be_val b /\ enc c = b,
      [/\ (0 < q)%N, forall c, (val c)%:R = c & forall n, val n%:R = (n %% q)%N], forall a : F, a *: g = 0 -> a = 0 &
  [/\ forall P, P <> 0 -> exists b, [/\ penc P = (2 + yodd P)%N :: b, size b = 32%N & be_val b = xc P],
      forall P, xc (- P) = xc P & forall P, P <> 0 -> yodd (- P) = ~~ yodd P]].

(** the rounds with the constants of the code; bit 255 *)
Definition sgn1 F G := @sround1 F G.
Definition sgn2 F G g enc dec hash shake xof gpad :=
  @sround2 F G g enc dec hash shake binary_field_mul xof gpad KappaBytes COtBlockSizeBytes ExtBytes.
Definition sgn3 F G g penc enc dec hash mhash shake xof gpad :=
  @sround3 F G g penc enc dec hash mhash shake binary_field_mul xof gpad KappaBytes COtBlockSizeBytes ExtBytes.
Definition sgn4 F G g q val xc penc enc dec hash mhash shake xof :=
  @sround4 F G g q val xc penc enc dec hash mhash shake xof KappaBytes COtBlockSizeBytes (2 ^ 255).

(** An honest run up to Bob's last round: the parties hold the two halves of a seed OT, multiplicative shares
    of the secret key and the public key, their hash objects have absorbed the same bytes [w], and they agree
    on the message. *)
Definition sign_run (F : fieldType) (G : lmodType F) (g : G) penc enc dec hash mhash shake xof gpad
  (ots : KosModel.sender F) (otr : KosModel.receiver F) (skA skB : F) (w msg : bytes)
  (b2 : bob G) (m3 : sround3_out G) : Prop :=
  let pk := (skA * skB) *: g in
  seed_ot otr ots /\ exists sa sb kB gam0 ext0 gam1 ext1 kPrimeA phi kS ahat0 ahat1 a1 m1 m2 a3,
  [/\ [/\ is_bytes gam0, size gam0 = 52%N, is_bytes ext0 & size ext0 = 42%N],
      [/\ is_bytes gam1, size gam1 = 52%N, is_bytes ext1 & size ext1 = 42%N],
      sgn1 (new_alice w ots skA pk) (Some sa) = Ok (a1, m1),
      sgn2 g enc dec hash shake xof gpad (new_bob w otr skB pk) m1 (Some sb) kB (Some gam0) (Some ext0) (Some gam1) (Some ext1) = Ok (b2, m2) &
      sgn3 g penc enc dec hash mhash shake xof gpad a1 msg m2 kPrimeA phi kS ahat0 ahat1 = Ok (a3, m3)].

Section S.
Variables (F : fieldType) (G : lmodType F) (g : G) (q : nat) (val : F -> nat) (xc : G -> nat) (yodd : G -> bool)
  (penc : G -> bytes) (enc : F -> bytes) (dec : bytes -> option F).
Hypothesis C : ecdsa_curve g q val xc yodd penc enc dec.
Lemma c_be : be_scalar enc dec. Proof. by case: C. Qed.
Lemma c_decV b c : dec b = Some c -> val c = be_val b. Proof. by case: C => _ h _ _ _ /h[]. Qed.
Lemma c_decE b c : dec b = Some c -> enc c = b. Proof. by case: C => _ h _ _ _ /h[]. Qed.
Lemma c_valK c : (val c)%:R = c. Proof. by case: C => _ _ [_ h _] _ _. Qed.
Lemma c_natr n : val n%:R = (n %% q)%N. Proof. by case: C => _ _ [_ _ h] _ _. Qed.
Lemma c_valq c : (val c < q)%N. Proof. by rewrite -[c]c_valK c_natr ltn_mod; case: C => _ _ [h _ _] _ _. Qed.
Lemma c_q0 : (q%:R : F) = 0. Proof. by rewrite -[_%:R]c_valK c_natr modnn. Qed.
Lemma c_opp s : s != 0 -> (val (- s) = q - val s)%N.
Proof.
move=> s0; have lt := c_valq s; have e : - s = (q - val s)%:R by rewrite natrB ?(ltnW lt) // c_q0 sub0r c_valK.
rewrite {1}e c_natr modn_small // -subn_gt0 subKn ?(ltnW lt) // lt0n; apply: contra s0 => /eqP z.
by rewrite -[s]c_valK z.
Qed.
Lemma c_gok (a : F) : a *: g = 0 -> a = 0. Proof. by case: C => _ _ _ h _; exact: h. Qed.
Lemma c_penc P : P <> 0 -> exists b, [/\ penc P = (2 + yodd P)%N :: b, size b = 32%N & be_val b = xc P].
Proof. by case: C => _ _ _ _ [h _ _]; exact: h. Qed.
Lemma c_xcN P : xc (- P) = xc P. Proof. by case: C => _ _ _ _ [_ h _]. Qed.
Lemma c_yoddN P : P <> 0 -> yodd (- P) = ~~ yodd P. Proof. by case: C => _ _ _ _ [_ _ h]; exact: h. Qed.

Variables (hash mhash : bytes -> bytes) (shake : bytes -> bytes -> nat -> bytes) (xof : log -> bytes) (gpad : nat -> bytes).
Hypotheses (hok : hash_ok hash) (sok : shake_ok shake).

(** the facts about a run, once and for all *)
Lemma run_facts ots otr skA skB w msg b2 m3 b4 res :
  sign_run g penc enc dec hash mhash shake xof gpad ots otr skA skB w msg b2 m3 ->
  sgn4 g q val xc penc enc dec hash mhash shake xof b2 msg m3 = (b4, res) ->
  exists k r s, [/\ k != 0, s * k = (be_val (mhash (w ++ msg)))%:R + r * (skA * skB), val r = xc (k *: g),
    b_sig b4 = Some (Sig (yodd (k *: g) (+) (2 ^ 255 <= val s)%N) (val r) (Some (if (2 ^ 255 <= val s)%N then val (- s) else val s))) &
    r != 0 -> s != 0 -> res = Ok tt].
Proof.
rewrite /sgn4; move: (2 ^ 255)%N => half.
move=> [hs [sa [sb [kB [gam0 [ext0 [gam1 [ext1 [kPrimeA [phi [kS [ahat0 [ahat1 [a1 [m1 [m2 [a3 [[b1 z1 b2' z2] [b3 z3 b4' z4] e1 e2 e3]]]]]]]]]]]]]]]]]] e4.
exact: (sign_ok (hok : forall x, word KappaBytes (hash x)) sok bfm_word bfm_Dl bfm_Dr (be_encK c_be) (be_word c_be)
  (be_valK c_be) (be_enc0 c_be) kb_lb lb_eb c_decV c_decE c_valK c_valq c_gok c_penc c_xcN (seed_seeds hs) erefl
  b1 z1 b2' z2 b3 z3 b4' z4 e1 e2 e3 e4).
Qed.
End S.

(** For every key shares, nonces, randomness and message: in an honest run Bob's last round computes the ECDSA
    signature of the digest under the joint key.  Unless r or s is zero, the round succeeds, the stored
    (R, S) passes the standard verification, and V is the parity of the point the verification recomputes. *)
Theorem C31_sign_correct : forall (F : fieldType) (G : lmodType F) (g : G) q val xc yodd penc enc dec hash mhash shake xof gpad,
  ecdsa_curve g q val xc yodd penc enc dec -> hash_ok hash -> shake_ok shake ->
  forall ots otr (skA skB : F) w msg b2 m3 b4 res,
  sign_run g penc enc dec hash mhash shake xof gpad ots otr skA skB w msg b2 m3 ->
  sgn4 g q val xc penc enc dec hash mhash shake xof b2 msg m3 = (b4, res) ->
  let e := be_val (mhash (w ++ msg)) in
  exists k r s V S, [/\ k != 0, s * k = e%:R + r * (skA * skB), val r = xc (k *: g),
    b_sig b4 = Some (Sig V (val r) (Some S)) /\ (S = val s \/ S = val (- s)) &
    r != 0 -> s != 0 -> [/\ res = Ok tt, ecdsa_verify g q xc ((skA * skB) *: g) e (val r) S &
      V = yodd ((e%:R / S%:R) *: g + ((val r)%:R / S%:R) *: ((skA * skB) *: g))]].
Proof.
move=> F G g q val xc yodd penc enc dec hash mhash shake xof gpad C hok sok ots otr skA skB w msg b2 m3 b4 res run e4 e.
have [k [r [s [kn es vr esg rs]]]] := run_facts C hok sok run e4.
move: esg; move: (2 ^ 255)%N => half esg; rewrite -/e in es.
exists k, r, s, (yodd (k *: g) (+) (half <= val s)%N), (if (half <= val s)%N then val (- s) else val s); split=> //.
  by split=> //; case: (half <= _)%N; [right | left].
move=> rn sn; have vm : (xc (k *: g) %% q = val r)%N by rewrite -vr modn_small // (c_valq C).
have kn' : - k != 0 by rewrite oppr_eq0.
have sn' : - s != 0 by rewrite oppr_eq0.
have eq1 := @ecdsa_eq F G g q val xc enc dec (be_encK (c_be C)) (be_enc0 (c_be C)) (c_decV C) (c_valK C) (c_valq C) (c_gok C).
have pt (s' k' : F) : s' != 0 -> s' * k' = e%:R + r * (skA * skB) ->
  ((e%:R / s') *: g + (r / s') *: ((skA * skB) *: g)) = k' *: g.
  move=> s0 e'; rewrite scalerA -scalerDl; congr (_ *: _).
  by rewrite mulrAC -mulrDl -e' mulrC mulKf.
have kg : k *: g <> 0 by move/(c_gok C)/eqP; apply/negP.
split; first exact: rs.
  case: (half <= val s)%N; last exact: (eq1 _ _ _ _ _ _ _ kn sn rn erefl erefl es).
  apply: (eq1 _ _ _ _ _ _ _ kn' sn' rn erefl erefl); first by rewrite mulrNN.
  by rewrite scaleNr (c_xcN C).
case: (half <= val s)%N; rewrite !(c_valK C).
  by rewrite (pt _ (- k)) ?mulrNN // scaleNr (c_yoddN C) // addbT.
by rewrite (pt _ k) // addbF.
Qed.
Print Assumptions C31_sign_correct.

(** Whatever Alice sends, Bob's last round succeeds only if the signature it stores verifies for the message
    under the public key he holds. *)
Theorem C31_sign_checked : forall (F : fieldType) (G : lmodType F) (g : G) q val xc penc enc dec hash mhash shake xof
  (b : bob G) msg (m : sround3_out G) b',
  sgn4 g q val xc penc enc dec hash mhash shake xof b msg m = (b', Ok tt) ->
  exists sg S, [/\ b_sig b' = Some sg, sg_S sg = Some S &
    ecdsa_verify g q xc (b_pk b) (be_val (mhash (b_w b ++ msg))) (sg_R sg) S].
Proof. move=> F G g q val xc penc enc dec hash mhash shake xof b msg m b'; exact: sign_checked. Qed.
Print Assumptions C31_sign_checked.

(** Honest runs exist: the rounds fail only if an instance key is zero or a hash output does not decode. *)
Theorem C31_sign_complete : forall (F : fieldType) (G : lmodType F) (g : G) q val xc yodd penc enc dec hash mhash shake xof gpad,
  ecdsa_curve g q val xc yodd penc enc dec -> hash_ok hash -> shake_ok shake ->
  (forall x, dec (hash x) <> None) -> (forall x, dec (mhash x) <> None) -> (forall l, dec (xof l) <> None) ->
  (forall i, dec (gpad i) <> None) ->
  (forall s x k, (k < 2)%N -> dec (take 32 (drop (k * 32)%N (shake s x 64%N))) <> None) ->
  forall ots otr (skA skB kB kPrimeA phi kS ahat0 ahat1 : F) w msg sa sb gam0 ext0 gam1 ext1, seed_ot otr ots ->
  is_bytes gam0 -> size gam0 = 52%N -> is_bytes ext0 -> size ext0 = 42%N ->
  is_bytes gam1 -> size gam1 = 52%N -> is_bytes ext1 -> size ext1 = 42%N ->
  kB != 0 -> (forall h, dec (hash (penc (kPrimeA *: (kB *: g)))) = Some h ->
    h + kPrimeA != 0 /\ dec (drop 1 (penc ((h + kPrimeA) *: (kB *: g)))) <> None) ->
  let pk := (skA * skB) *: g in
  exists a1 b2 m2 a3 m3,
    [/\ sgn1 (new_alice w ots skA pk) (Some sa) = Ok (a1, sa),
        sgn2 g enc dec hash shake xof gpad (new_bob w otr skB pk) sa (Some sb) kB (Some gam0) (Some ext0) (Some gam1) (Some ext1) = Ok (b2, m2),
        sgn3 g penc enc dec hash mhash shake xof gpad a1 msg m2 kPrimeA phi kS ahat0 ahat1 = Ok (a3, m3) &
        sign_run g penc enc dec hash mhash shake xof gpad ots otr skA skB w msg b2 m3].
Proof.
move=> F G g q val xc yodd penc enc dec hash mhash shake xof gpad C hok sok dh dm dx dg ds.
move=> ots otr skA skB kB kPrimeA phi kS ahat0 ahat1 w msg sa sb gam0 ext0 gam1 ext1 hs b1 z1 b2' z2 b3 z3 b4 z4 kB0 kA0 pk.
have hpt P : exists x, hpoint penc dec hash P = Ok x.
  by rewrite /hpoint; case E: (dec _) => [x|]; [exists x | case: (dh _ E)].
have [gad eg] : exists gad, gadget dec gpad KappaBytes COtBlockSizeBytes = Ok gad.
  apply: mapo_total => j _; rewrite /gadget_at; case: ifP => _; first by eexists.
  by case E: (dec _) => [a|]; [eexists | case: (dg _ E)].
set l0 := rcons (rcons [:: Start DSign] (App LSidAlice sa)) (App LSidBob sb).
set l1 := rcons l0 (Ext (LMulId 0) 32); set l2 := rcons l1 (Ext (LMulId 1) 32).
have er sid : new_rcv dec gpad otr sid = Ok (MReceiver otr 0 [::] gad [:: Start DMultiply; App LSession sid] sid).
  by rewrite /new_rcv /new_mreceiver eg.
have es sid : new_snd dec gpad ots sid = Ok (MSender ots 0 gad [:: Start DMultiply; App LSession sid] sid).
  by rewrite /new_snd /new_msender eg.
have [hR eR] := hpt (kPrimeA *: (kB *: g)).
have [kA0' dp] := kA0 _ (hpointE eR).
have [r0 [k0 [E0 [_ F0]]]] := C30_multiply_complete xof (c_be C) hok sok (phi + (hR + kPrimeA)^-1) ahat0 kB^-1 hs (er (xof l1)) (es (xof l1)) b1 z1 b2' z2.
have [r1 [k1 [E1 [_ F1]]]] := C30_multiply_complete xof (c_be C) hok sok (skA * (hR + kPrimeA)^-1) ahat1 (skB * kB^-1) hs (er (xof l2)) (es (xof l2)) b3 z3 b4 z4.
have [s0 [n0 {}F0]] := F0 (fun j x k _ h _ => ds _ _ _ h) dx.
have [s1 [n1 {}F1]] := F1 (fun j x k _ h _ => ds _ _ _ h) dx.
have [pf epf] : exists pf, prove penc dec hash (kB *: g) (xof (rcons l2 (Ext LSchnorrR 32))) (hR + kPrimeA) kS = Ok pf.
  by rewrite /prove; case E: (dec _) => [c|]; [eexists | case: (dh _ E)].
have est : pf_stmt pf = (hR + kPrimeA) *: (kB *: g).
  by move: epf; rewrite /prove; case: (dec _) => // c [<-].
have [h1 eh1] := hpt (((hR + kPrimeA) * phi + 1) *: g + (- ms_share s0) *: pf_stmt pf).
have [h2 eh2] := hpt (ms_share s0 *: pk + (- ms_share s1) *: g).
have [h eh] : exists h, setbytes dec (mhash (w ++ msg)) = Ok h.
  by rewrite /setbytes; case E: (dec _) => [c|]; [eexists | case: (dm _ E)].
have Pn : pf_stmt pf <> 0.
  by rewrite est scalerA => /(c_gok C)/eqP; rewrite mulf_eq0 (negbTE kA0') (negbTE kB0).
have [rX eX] : exists rX, xcoord penc dec (pf_stmt pf) = Ok rX.
  rewrite /xcoord; have [bb [ep sz _]] := c_penc C Pn; rewrite -est ep in dp; rewrite ep /= sz /=; cbn [drop] in dp |- *.
  by rewrite /setbytes; case E: (dec _) dp => [c|] // _; eexists.
have e2 : exists b2 m2, [/\ sgn2 g enc dec hash shake xof gpad (new_bob w otr skB pk) sa (Some sb) kB (Some gam0) (Some ext0) (Some gam1) (Some ext1) = Ok (b2, m2),
   s2_seed m2 = sb, s2_DB m2 = kB *: g, s2_kos0 m2 = k0 & s2_kos1 m2 = k1].
  rewrite /sgn2 /sround2 /new_bob; cbn [draw b_log b_ot b_sk b_pk b_sig b_w].
  rewrite -/l0 -/l1 -/l2 -/(new_rcv dec gpad otr (xof l1)) -/(new_rcv dec gpad otr (xof l2)) !er; cbn [bind].
  rewrite (negbTE kB0) -/(mul1 enc dec hash shake _ kB^-1 (Some gam0) (Some ext0)) E0; cbn [bind].
  rewrite -/(mul1 enc dec hash shake _ (skB * kB^-1) (Some gam1) (Some ext1)) E1; cbn [bind].
  by eexists; eexists; split.
have [b2 [m2 [{}e2 q1 q2 q3 q4]]] := e2.
have e3 : exists a3 m3, sgn3 g penc enc dec hash mhash shake xof gpad (Alice w ots skA pk (rcons [:: Start DSign] (App LSidAlice sa))) msg m2 kPrimeA phi kS ahat0 ahat1 = Ok (a3, m3).
  rewrite /sgn3 /sround3; cbn [draw a_log a_w a_ot a_sk a_pk]; rewrite q1 q2 q3 q4.
  rewrite -/l0 -/l1 -/l2 -/(new_snd dec gpad ots (xof l1)) -/(new_snd dec gpad ots (xof l2)) !es; cbn [bind].
  rewrite eR; cbn [bind]; rewrite epf; cbn [bind]; rewrite (negbTE kA0').
  rewrite -/(mul2 enc dec hash shake xof _ (phi + (hR + kPrimeA)^-1) ahat0 k0) F0; cbn [bind].
  rewrite -/(mul2 enc dec hash shake xof _ (skA * (hR + kPrimeA)^-1) ahat1 k1) F1; cbn [bind].
  rewrite eh1; cbn [bind]; rewrite eh; cbn [bind]; rewrite eX; cbn [bind]; rewrite eh2; cbn [bind].
  by eexists; eexists.
have [a3 [m3 {}e3]] := e3.
have e1 : sgn1 (new_alice w ots skA pk) (Some sa) = Ok (Alice w ots skA pk (rcons [:: Start DSign] (App LSidAlice sa)), sa) by [].
eexists; exists b2, m2, a3, m3; split; [exact: e1 | exact: e2 | exact: e3 |].
split; first exact: hs.
exists sa, sb, kB, gam0, ext0, gam1, ext1, kPrimeA, phi, kS, ahat0, ahat1; eexists; exists sa, m2, a3.
by split; [split | split | exact: e1 | exact: e2 | exact: e3].
Qed.
Print Assumptions C31_sign_complete.

(** The S of an honest run is the exact ECDSA value s, replaced by q - s exactly when bit 255 of s is set;
    for an order between 2^255 and 2^256 it is therefore always below 2^255. *)
Theorem C32_sign_s_value : forall (F : fieldType) (G : lmodType F) (g : G) q val xc yodd penc enc dec hash mhash shake xof gpad,
  ecdsa_curve g q val xc yodd penc enc dec -> hash_ok hash -> shake_ok shake ->
  forall ots otr (skA skB : F) w msg b2 m3 b4 res,
  sign_run g penc enc dec hash mhash shake xof gpad ots otr skA skB w msg b2 m3 ->
  sgn4 g q val xc penc enc dec hash mhash shake xof b2 msg m3 = (b4, res) ->
  exists k r s V S, [/\ k != 0, s * k = (be_val (mhash (w ++ msg)))%:R + r * (skA * skB), val r = xc (k *: g),
    b_sig b4 = Some (Sig V (val r) (Some S)) &
    S = (if 2 ^ 255 <= val s then q - val s else val s)%N /\ ((2 ^ 255 < q <= 2 ^ 256)%N -> (S <= 2 ^ 255)%N)].
Proof.
move=> F G g q val xc yodd penc enc dec hash mhash shake xof gpad C hok sok ots otr skA skB w msg b2 m3 b4 res run e4.
have [k [r [s [kn es vr esg rs]]]] := run_facts C hok sok run e4.
rewrite [(2 ^ 256)%N]expnS; have hp : (0 < 2 ^ 255)%N by rewrite expn_gt0.
move: (2 ^ 255)%N hp esg => half hp esg; have sq := c_valq C s.
have eS : (if half <= val s then val (- s) else val s)%N = (if half <= val s then q - val s else val s)%N.
  case: leqP => // h; apply: (c_opp C); apply: contraTN h => /eqP ->.
  by rewrite -ltnNge -[0](mulr0n 1) (c_natr C) mod0n.
exists k, r, s, (yodd (k *: g) (+) (half <= val s)%N), (if half <= val s then q - val s else val s)%N; split=> //.
  by rewrite esg eS.
split=> // /andP[h1 h2]; case: (leqP half (val s)) => h; lia.
Qed.
Print Assumptions C32_sign_s_value.

(** Hence S is not always in the lower half: whenever the ECDSA value s lies strictly between q/2 and 2^255,
    Bob's last round succeeds and publishes S > q/2.  Every s in that window is hit by some digest, whatever
    the key and the nonce; for the orders of both supported curves the window is huge. *)
Theorem C32_low_s_refuted : forall (F : fieldType) (G : lmodType F) (g : G) q val xc yodd penc enc dec hash mhash shake xof gpad,
  ecdsa_curve g q val xc yodd penc enc dec -> hash_ok hash -> shake_ok shake ->
  forall ots otr (skA skB : F) w msg b2 m3 b4 res,
  sign_run g penc enc dec hash mhash shake xof gpad ots otr skA skB w msg b2 m3 ->
  sgn4 g q val xc penc enc dec hash mhash shake xof b2 msg m3 = (b4, res) ->
  exists k r, [/\ k != 0, val r = xc (k *: g) &
    forall t : F, (q < 2 * val t)%N -> (val t < 2 ^ 255)%N -> r != 0 ->
      (be_val (mhash (w ++ msg)))%:R = t * k - r * (skA * skB) ->
      exists V S, [/\ res = Ok tt, b_sig b4 = Some (Sig V (val r) (Some S)), S = val t & (q < 2 * S)%N]].
Proof.
move=> F G g q val xc yodd penc enc dec hash mhash shake xof gpad C hok sok ots otr skA skB w msg b2 m3 b4 res run e4.
have [k [r [s [kn es vr esg rs]]]] := run_facts C hok sok run e4.
exists k, r; split=> // t; move: (2 ^ 255)%N esg => half esg h1 h2 rn e.
have st : s = t by move: es; rewrite e subrK => /(mulIf kn).
have t0 : t != 0 by apply: contraTN h1 => /eqP ->; rewrite -[0](mulr0n 1) (c_natr C) mod0n muln0.
rewrite st in esg rs; rewrite leqNgt h2 /= in esg.
exists (yodd (k *: g) (+) false), (val t); split=> //; exact: rs.
Qed.
Print Assumptions C32_low_s_refuted.

(** the orders of secp256k1 and P-256 (pkg/core/curves/native) *)
Definition k256_order : N := 0xfffffffffffffffffffffffffffffffebaaedce6af48a03bbfd25e8cd0364141%num.
Definition p256_order : N := 0xffffffff00000000ffffffffffffffffbce6faada7179e84f3b9cac2fc632551%num.
Theorem C32_window : (k256_order + 2 ^ 127 < 2 * 2 ^ 255 /\ p256_order + 2 ^ 223 < 2 * 2 ^ 255)%num.
Proof. by []. Qed.
Print Assumptions C32_window.

(** non-vacuity: a toy curve over F257 with which honest signing runs exist *)
Definition cdec257 (b : bytes) : option F257 :=
  if [&& is_bytes b, size b == 32 & be_val b < 257]%N then Some ((be_val b)%:R) else None.
Definition xc257 (P : G257) : nat := minn (P : F257) (257 - (P : F257)).
Definition yodd257 (P : G257) : bool := (128 < (P : F257))%N.
Definition penc257 (P : G257) : bytes := (2 + yodd257 P)%N :: rev (le_bytes 32 (xc257 P)).
Lemma be_rev_le (n : nat) : (n < 257)%N -> be_val (rev (le_bytes 32 n)) = n.
Proof.
move=> h; rewrite -/(le_val _) le_bytesK //.
by have e := natr_Zp; have := small257 (n%:R : F257); rewrite /F257 /= val_Fp_nat // modn_small.
Qed.
Lemma val257 (x : F257) : ((x : nat) < 257)%N. Proof. exact: ltn_ord. Qed.
Lemma opp257 (x : F257) : x != 0 -> ((- x : F257) : nat) = (257 - x)%N.
Proof.
move=> h; have p : (0 < (x : nat))%N by rewrite lt0n; apply: contra h => /eqP h; apply/eqP/val_inj.
by have := val257 x; rewrite /F257 /= => l; rewrite modn_small //; lia.
Qed.
Lemma xc257_lt P : (xc257 P < 257)%N. Proof. by rewrite /xc257 (leq_ltn_trans (geq_minl _ _)) // val257. Qed.
Lemma curve257 : ecdsa_curve g257 257 (fun x : F257 => x : nat) xc257 yodd257 penc257 enc257 cdec257.
Proof.
have [_ ew ev e0] := be_scalar257.
have vE (x : F257) : be_val (enc257 x) = (x : nat) by exact: be_rev_le (val257 x).
split.
- split=> // x; have [b s] := ew x; rewrite /cdec257 b s vE eqxx val257 /=; congr Some; exact: natr_Zp.
- move=> b c; rewrite /cdec257; case: ifP => // /and3P[hb /eqP hs hv] [<-].
  have e : ((be_val b)%:R : F257) = be_val b :> nat by rewrite /F257 /= val_Fp_nat // modn_small.
  by split=> //; rewrite /enc257 e -[be_val b]/(be_val b) -[in be_val b](revK b) -/(le_val _) -[32%N]hs -size_rev le_valK ?revK // /is_bytes all_rev.
- split=> // [c|n]; first exact: natr_Zp.
  by rewrite /F257 /= val_Fp_nat.
- exact: base257.
split.
- move=> P _; exists (rev (le_bytes 32 (xc257 P))); split; [by [] | by rewrite size_rev size_le_bytes |].
  exact: be_rev_le (xc257_lt P).
- move=> P; case: (eqVneq P 0) => [->|h]; first by rewrite oppr0.
  rewrite /xc257; have := opp257 h; have := val257 P; move: ((- P : F257) : nat) ((P : F257) : nat) => a b l ->; lia.
- move=> P /eqP h; rewrite /yodd257; have := opp257 h; have := val257 P; move: ((- P : F257) : nat) ((P : F257) : nat) => a b l ->; lia.
Qed.
Example C31_hyps (skA skB : F257) (w msg : bytes) : exists hash mhash shake xof gpad b2 m3,
  [/\ hash_ok hash, shake_ok shake &
      sign_run g257 penc257 enc257 cdec257 hash mhash shake xof gpad ots257 otr257 skA skB w msg b2 m3].
Proof.
set z := fun n => nseq n 0%N.
have zb n : is_bytes (z n) by rewrite /is_bytes all_nseq orbT.
have zv : be_val (z 32%N) = 0%N by vm_compute.
have zd : cdec257 (z 32%N) = Some 0 by rewrite /cdec257 zb size_nseq zv.
set zh := fun _ : bytes => z 32%N; set zs := fun (_ _ : bytes) n => z n; set zx := fun _ : log => z 32%N.
set zg := fun _ : nat => z 32%N.
have hok : hash_ok zh by move=> x; split; [exact: zb | exact: size_nseq].
have sok : shake_ok zs by move=> s x n; split; [exact: zb | exact: size_nseq].
have n3 : (3%:R : F257) != 0 by vm_compute.
have n7 : (7%:R : F257) != 0 by vm_compute.
have pd P : cdec257 (drop 1 (penc257 P)) <> None.
  have e : cdec257 (rev (le_bytes 32 (xc257 P))) = Some (xc257 P)%:R.
    rewrite /cdec257 (be_rev_le (xc257_lt P)) xc257_lt size_rev size_le_bytes /is_bytes all_rev -/(is_bytes _).
    by rewrite is_bytes_le.
  have d1 (x : nat) (l : bytes) : drop 1 (x :: l) = l by rewrite /= drop0.
  by rewrite /penc257 d1 e.
have zdN x : cdec257 (zh x) <> None by rewrite /zh zd.
have zxN x : cdec257 (zx x) <> None by rewrite /zx zd.
have zgN x : cdec257 (zg x) <> None by rewrite /zg zd.
have zsN s x k : (k < 2)%N -> cdec257 (take 32 (drop (k * 32)%N (zs s x 64%N))) <> None.
  move=> hk; have -> : take 32 (drop (k * 32)%N (zs s x 64%N)) = z 32%N by case: k hk => [|[|k]] // _; vm_compute.
  by rewrite zd.
have key (h : F257) : cdec257 (zh (penc257 (7%:R *: (3%:R *: g257)))) = Some h ->
  h + 7%:R != 0 /\ cdec257 (drop 1 (penc257 ((h + 7%:R) *: (3%:R *: g257)))) <> None.
  by rewrite /zh zd => -[<-]; rewrite add0r; split; [exact: n7 | exact: pd].
have [a1 [b2 [m2 [a3 [m3 [_ _ _ run]]]]]] := @C31_sign_complete F257 G257 g257 257 _ _ _ _ _ _ zh zh zs zx zg curve257 hok sok
  zdN zdN zxN zgN zsN ots257 otr257 skA skB 3%:R 7%:R 1 1 1 1 w msg [::] [::] (z 52%N) (z 42%N) (z 52%N) (z 42%N) seed257
  (zb _) (size_nseq _ _) (zb _) (size_nseq _ _) (zb _) (size_nseq _ _) (zb _) (size_nseq _ _) n3 key.
exists zh, zh, zs, zx, zg, b2, m3; split; [exact: hok | exact: sok | exact: run].
Qed.
