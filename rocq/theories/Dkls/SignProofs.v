(** Proofs about DKLs signing, with abstract sizes. *)
From Coq Require Import PeanoNat Field.
From mathcomp Require Import all_ssreflect all_algebra zify.
From Verif Require Import Lib.Res Lib.Bytes Lib.FieldTac Lib.LmodTac Core.HashModel Schnorr.Model OT.GfModel OT.SimplestModel
  OT.KosModel OT.KosProofs Dkls.MulModel Dkls.MulProofs Dkls.SignModel.
Set Implicit Arguments. Unset Strict Implicit. Unset Printing Implicit Defensive.
Import GRing.Theory.
Local Open Scope ring_scope.

Section P.
Variable F : fieldType.
Add Field F_field : (f_fth F).
Variables (G : lmodType F) (g : G) (q : nat) (val : F -> nat) (xc : G -> nat) (yodd : G -> bool) (penc : G -> bytes)
  (enc : F -> bytes) (dec : bytes -> option F)
  (hash mhash : bytes -> bytes) (shake : bytes -> bytes -> nat -> bytes) (mul : bytes -> bytes -> bytes)
  (xof : log -> bytes) (gpad : nat -> bytes) (kb lb eb : nat) (half : nat).
Hypothesis Hhash : forall x, word kb (hash x).
Hypothesis Hshake : forall s x n, is_bytes (shake s x n) /\ size (shake s x n) = n.
Hypothesis Hmul : forall a b, word kb a -> word kb b -> word kb (mul a b).
Hypothesis HmulDl : forall a b c, word kb a -> word kb b -> word kb c -> mul (bxor a b) c = bxor (mul a c) (mul b c).
Hypothesis HmulDr : forall a b c, word kb a -> word kb b -> word kb c -> mul a (bxor b c) = bxor (mul a b) (mul a c).
Hypothesis encK : forall x, dec (enc x) = Some x.
Hypothesis enc_word : forall x, word kb (enc x).
Hypothesis enc_val : forall x, (be_val (enc x))%:R = x.
Hypothesis enc0 : enc 0 = nseq 32 0%N.
Hypothesis Hkl : (kb <= lb)%N.
Hypothesis Hle : (lb <= eb)%N.
Hypothesis decV : forall b c, dec b = Some c -> val c = be_val b.
Hypothesis decE : forall b c, dec b = Some c -> enc c = b.
Hypothesis valK : forall c, (val c)%:R = c.
Hypothesis valq : forall c, (val c < q)%N.
Hypothesis gok : forall a : F, a *: g = 0 -> a = 0.
Hypothesis pencE : forall P, P <> 0 -> exists b, [/\ penc P = (2 + yodd P)%N :: b, size b = 32%N & be_val b = xc P].
Hypothesis xcN : forall P, xc (- P) = xc P.
Hypothesis yoddN : forall P, P <> 0 -> yodd (- P) = ~~ yodd P.

Lemma hpointE P x : hpoint penc dec hash P = Ok x -> dec (hash (penc P)) = Some x.
Proof. by rewrite /hpoint; case: dec => // y [->]. Qed.

Lemma val0 c : (val c == 0)%N = (c == 0).
Proof.
apply/eqP/eqP => [e|->]; first by rewrite -[c]valK e.
have e : val 0 = be_val (enc 0) by exact: decV (encK 0).
by rewrite e enc0; elim: (32%N) => //= k IH; rewrite be_val_cons mul0n.
Qed.

(** the signature equation gives a signature that verifies *)
Lemma ecdsa_eq (Q : G) (h k x s r : F) (e : nat) : k != 0 -> s != 0 -> r != 0 -> h = e%:R -> Q = x *: g ->
  s * k = h + r * x -> (xc (k *: g) %% q = val r)%N -> ecdsa_verify g q xc Q e (val r) (val s).
Proof.
move=> k0 s0 r0 he hQ hs hx; rewrite /ecdsa_verify !valK -he hQ.
have -> : (h / s) *: g + (r / s) *: (x *: g) = k *: g.
  rewrite scalerA -scalerDl; congr (_ *: _).
  have -> : k = (h + r * x) / s by rewrite -hs mulrAC divff // mul1r.
  by f_fold F; field; f_side.
rewrite !lt0n !val0 r0 s0 !valq hx eqxx !andbT /=.
by apply/eqP => /gok e0; move: k0; rewrite e0 eqxx.
Qed.

Lemma mul_use ots otr sid l0 gad beta gam ext alpha ahat r k s n : seeds_ok kb otr ots -> gadget dec gpad kb lb = Ok gad ->
  is_bytes gam -> size gam = (lb - kb)%N -> is_bytes ext -> size ext = (eb - lb)%N ->
  mround1 enc dec hash shake mul kb lb eb (MReceiver otr 0 [::] gad l0 sid) beta (Some gam) (Some ext) = Ok (r, k) ->
  mround2 enc dec hash shake mul xof kb lb eb (MSender ots 0 gad l0 sid) alpha ahat k = Ok (s, n) ->
  exists r', mround3 enc dec shake xof kb lb r n = Ok r' /\ ms_share s + mr_share r' = alpha * beta.
Proof.
move=> hs eg b1 z1 b2 z2 E0 F0.
have H : honest12 enc dec hash shake mul xof gpad kb lb eb (MReceiver otr 0 [::] gad l0 sid) (MSender ots 0 gad l0 sid) sid gad
  alpha ahat beta gam ext r k s n by split.
by have [r' [e1 e2 _]] := mul_ok Hhash Hshake Hmul HmulDl HmulDr encK enc_word enc_val enc0 Hkl Hle H; exists r'.
Qed.

Lemma sign_ok wA wB ots otr (skA skB : F) sa sb kB gam0 ext0 gam1 ext1 msg kPrimeA phi kS ahat0 ahat1 a1 m1 b2 m2 a3 m3 b4 res :
  let pk := (skA * skB) *: g in
  seeds_ok kb otr ots -> wA = wB ->
  is_bytes gam0 -> size gam0 = (lb - kb)%N -> is_bytes ext0 -> size ext0 = (eb - lb)%N ->
  is_bytes gam1 -> size gam1 = (lb - kb)%N -> is_bytes ext1 -> size ext1 = (eb - lb)%N ->
  sround1 (new_alice wA ots skA pk) (Some sa) = Ok (a1, m1) ->
  sround2 g enc dec hash shake mul xof gpad kb lb eb (new_bob wB otr skB pk) m1 (Some sb) kB (Some gam0) (Some ext0) (Some gam1) (Some ext1) = Ok (b2, m2) ->
  sround3 g penc enc dec hash mhash shake mul xof gpad kb lb eb a1 msg m2 kPrimeA phi kS ahat0 ahat1 = Ok (a3, m3) ->
  sround4 g q val xc penc enc dec hash mhash shake xof kb lb half b2 msg m3 = (b4, res) ->
  exists k r s, [/\ k != 0, s * k = (be_val (mhash (wA ++ msg)))%:R + r * (skA * skB), val r = xc (k *: g),
    b_sig b4 = Some (Sig (yodd (k *: g) (+) (half <= val s)%N) (val r) (Some (if (half <= val s)%N then val (- s) else val s))) &
    r != 0 -> s != 0 -> res = Ok tt].
Proof.
move=> pk hs ew bg0 zg0 be0 ze0 bg1 zg1 be1 ze1 [<- <-]; rewrite -{}ew.
rewrite /sround2 /new_bob /new_alice; cbn [draw b_log b_ot b_sk b_pk b_sig b_w a_log a_w a_ot a_sk a_pk].
set l0 := rcons (rcons [:: Start DSign] (App LSidAlice sa)) (App LSidBob sb).
set l1 := rcons l0 (Ext (LMulId 0) 32); set l2 := rcons l1 (Ext (LMulId 1) 32).
rewrite /new_mreceiver; case eg: (gadget _ _ _ _) => [gad| |] //; cbn [bind].
case: ifP => // /negbT kB0.
case E0: (mround1 _ _ _ _ _ _ _ _ _ _ _ _) => [[r0 k0]| |] //; cbn [bind].
case E1: (mround1 _ _ _ _ _ _ _ _ _ _ _ _) => [[r1 k1]| |] //; cbn [bind] => -[<- <-].
rewrite /sround3; cbn [draw a_log a_w a_ot a_sk a_pk s2_seed s2_DB s2_kos0 s2_kos1].
rewrite -/l0 -/l1 -/l2 /new_msender eg; cbn [bind].
case HR: (hpoint _ _ _ _) => [hR| |] //; cbn [bind].
case EP: (prove _ _ _ _ _ _ _) => [pf| |] //; cbn [bind].
set kA := hR + kPrimeA; case: ifP => // /negbT kA0.
case F0: (mround2 _ _ _ _ _ _ _ _ _ _ _ _ _) => [[s0 n0]| |] //; cbn [bind].
case F1: (mround2 _ _ _ _ _ _ _ _ _ _ _ _ _) => [[s1 n1]| |] //; cbn [bind].
case H1: (hpoint _ _ _ _) => [h1| |] //; cbn [bind].
case HM: (setbytes _ _) => [h| |] //; cbn [bind].
case HX: (xcoord _ _ _) => [rX| |] //; cbn [bind].
case H2: (hpoint _ _ _ _) => [h2| |] //; cbn [bind] => -[_ <-].
have [r0' [G0 t0]] := mul_use hs eg bg0 zg0 be0 ze0 E0 F0.
have [r1' [G1 t1]] := mul_use hs eg bg1 zg1 be1 ze1 E1 F1.
rewrite /sround4; cbn [b_mul s3_m0 s3_m1 s3_pf s3_RPrime s3_etaPhi s3_etaSig b_log b_D b_k b_w b_pk b_sig draw].
rewrite G0 G1 HR; cbn [bind].
have eR : hR *: (kB *: g) + kPrimeA *: (kB *: g) = (kA * kB) *: g by rewrite -scalerDl scalerA.
have est : pf_stmt pf = (kA * kB) *: g.
  by move: EP; rewrite /prove; case: dec => // c [<-] /=; rewrite scalerA.
have -> : verify penc enc hash (kB *: g) (xof (rcons l2 (Ext LSchnorrR 32))) (Proof (pf_c pf) (pf_s pf) (hR *: (kB *: g) + kPrimeA *: (kB *: g))) = Ok tt.
  move: EP; rewrite /prove eR; case D: dec => [c|] // [<-]; rewrite /verify; cbn [pf_c pf_s pf_stmt].
  have -> : (c * (hR + kPrimeA) + kS) *: (kB *: g) + - c *: ((kA * kB) *: g) = kS *: (kB *: g).
    by rewrite !scalerA -scalerDl; congr (_ *: _); rewrite /kA; f_fold F; ring.
  by rewrite scalerA in D; rewrite (decE D) eqxx.
cbn [bind]; rewrite eR.
rewrite est in HX; rewrite HX; cbn [bind].
set k := kA * kB; have kn : k != 0 by rewrite mulf_neq0.
set x := skA * skB.
have Pn : k *: g <> 0 by move/gok => e; rewrite e eqxx in kn.
have [bx [ep sx vx]] := pencE Pn.
have vr : val rX = xc (k *: g).
  move: HX; rewrite /xcoord -/k ep /= drop0 sx /= /setbytes; case D: dec => [y|] // [<-].
  by rewrite (decV D).
have eV : odd (nth 0%N (penc (k *: g)) 0) = yodd (k *: g) by rewrite ep /=; case: yodd.
(* the first product *)
set tA := ms_share s0 in t0 H1 H2 *; set tB := mr_share r0' in t0 *.
set uA := ms_share s1 in t1 H2 *; set uB := mr_share r1' in t1 *.
have etB : tB = (phi + kA^-1) / kB - tA by rewrite -t0 addrC addKr.
have euB : uB = skA / kA * (skB / kB) - uA by rewrite -t1 addrC addKr.
have g1 : tB *: (k *: g) = (kA * phi + 1) *: g + - tA *: (k *: g).
  rewrite !scalerA -scalerDl; congr (_ *: _); rewrite etB /k.
  move: kA0 kB0 => kA0 kB0; f_fold F; field; by f_side.
rewrite est -/k in H1; rewrite g1 H1; cbn [bind].
rewrite HM; cbn [bind].
have eh : h = (be_val (mhash (wA ++ msg)))%:R.
  by move: HM; rewrite /setbytes; case D: dec => [y|] // [<-]; rewrite -[y]valK (decV D).
set theta := tB - (h1 + phi - h1) / kB.
have eth : theta = k^-1 - tA.
  rewrite /theta etB /k; f_fold F; field; by f_side.
have g2 : uB *: g + - theta *: pk = tA *: pk + - uA *: g.
  rewrite eth euB /pk !scalerA -!scalerDl; congr (_ *: _); rewrite /k; f_fold F; field; by f_side.
rewrite g2 H2 addr0 valK.
set s := _ + _; have es : s * k = (be_val (mhash (wA ++ msg)))%:R + rX * x.
  rewrite /s -eh eth euB /k /x; f_fold F; field; by f_side.
clearbody s.
move=> E; exists k, rX, s; split=> //.
  by move: E; case: ifP => _ [<- _]; cbn [b_sig]; rewrite eV.
move=> r0n s0n.
have vmod : (xc (k *: g) %% q = val rX)%N by rewrite -vr modn_small.
move: E; case: ifP => // [_ [_ <-] //|/negP[]].
case: (half <= val s)%N; last exact: (ecdsa_eq kn s0n r0n erefl erefl es).
have kn' : - k != 0 by rewrite oppr_eq0.
have sn' : - s != 0 by rewrite oppr_eq0.
apply: (ecdsa_eq kn' sn' r0n erefl erefl); first by rewrite mulrNN.
by rewrite scaleNr xcN.
Qed.

(** whatever the last message is, success means the stored signature verifies *)
Lemma sign_checked b msg m b' : sround4 g q val xc penc enc dec hash mhash shake xof kb lb half b msg m = (b', Ok tt) ->
  exists sg S, [/\ b_sig b' = Some sg, sg_S sg = Some S & ecdsa_verify g q xc (b_pk b) (be_val (mhash (b_w b ++ msg))) (sg_R sg) S].
Proof.
rewrite /sround4; case: (b_mul b) => [[r0 r1]|] //.
case: mround3 => // r0'; case: mround3 => // r1'; cbn [draw].
case E: (bind _ _) => [[R rX]| |] //.
case: hpoint => // h1; case: setbytes => // h; case: hpoint => // h2.
set S := if (half <= _)%N then _ else _; case V: ecdsa_verify => // -[<-].
by eexists; exists S; split; [by cbn [b_sig]|by []|exact: V].
Qed.

End P.
