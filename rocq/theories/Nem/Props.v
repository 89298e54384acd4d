(** C63: NEM (Ed25519-Keccak) signatures. *)
From mathcomp Require Import all_ssreflect all_algebra zify.
From Verif Require Import Lib.Res Lib.Bytes Lib.Inst Mina.BitModel Mina.BitBytes Nem.Model.
Set Implicit Arguments.
Unset Strict Implicit.
Unset Printing Implicit Defensive.
Import GRing.Theory.
Local Open Scope ring_scope.
Local Arguments copy_into : simpl never.
Local Opaque copy_into le_bytes.

Lemma le_modE l b : le_mod l b = (le_val b %% l)%N.
Proof.
elim: b => [|x b IH]; first by rewrite /= le_val_nil.
by rewrite [le_mod _ _]/= IH le_val_cons -modnDmr modnMmr modnDmr.
Qed.

Lemma copy_full k b : size b = k -> copy_into k b = b.
Proof. by move=> h; rewrite copy_intoE h // subnn cats0. Qed.

Lemma Ok_inj (T : Type) (a b : T) : Ok a = Ok b -> a = b. Proof. by case. Qed.

Lemma s256 s : (s < 2 ^ 253)%N -> (s < 256 ^ 32)%N.
Proof. by move=> h; apply: (leq_trans h); rewrite -[256%N]/(2 ^ 8)%N -(expnM 2 8 32) leq_exp2l. Qed.

Lemma nth_le_bytes k n i : (i < k)%N -> nth 0%N (le_bytes k n) i = (n %/ 256 ^ i %% 256)%N.
Proof.
elim: k n i => // k IH n [|i] h; first by rewrite expn0 divn1.
by rewrite -[le_bytes _ _]/(n %% 256 :: le_bytes k (n %/ 256))%N [nth _ _ _]/= IH // expnS divnMA.
Qed.

Lemma low5 x : (x < 32)%N -> band x 224 = 0%N.
Proof.
move=> h; apply/eqP.
have /allP : all (fun x => band x 224 == 0%N) (iota 0 32) by vm_compute; reflexivity.
by apply; rewrite mem_iota.
Qed.

Lemma divpow s a b : (s < 2 ^ (a + b))%N -> (s %/ 2 ^ a < 2 ^ b)%N.
Proof. by move=> h; rewrite ltn_divLR ?expn_gt0 // -expnD addnC. Qed.

(** the three top bits of a canonical scalar are clear *)
Lemma top_bits R s : size R = 32%N -> (s < 2 ^ 253)%N -> band (nth 0%N (R ++ le_bytes 32 s) 63) 224 = 0%N.
Proof.
move=> sR h; rewrite nth_cat sR -[(63 < 32)%N]/false -[(63 - 32)%N]/31%N nth_le_bytes //.
apply: low5; apply: (leq_ltn_trans (leq_mod _ _)).
rewrite -(expnM 2 8 31); exact: (divpow (a := 248) (b := 5) h).
Qed.

Lemma le_val_cat a b : le_val (a ++ b) = (le_val a + 256 ^ size a * le_val b)%N.
Proof.
elim: a => [|x a IH]; first by rewrite le_val_nil expn0 mul1n.
by rewrite cat_cons !le_val_cons IH [size _]/= expnS mulnDr mulnA addnA.
Qed.
Lemma band248 x : (x < 256)%N -> band x 248 = (8 * (x %/ 8))%N.
Proof.
move=> h; apply/eqP.
have /allP : all (fun x => band x 248 == 8 * (x %/ 8))%N (iota 0 256) by vm_compute; reflexivity.
by apply; rewrite mem_iota.
Qed.
Lemma top_byte y : (y < 256)%N -> bor (band y 63) 64 = (64 + y %% 64)%N.
Proof.
move=> h; apply/eqP.
have /allP : all (fun y => bor (band y 63) 64 == 64 + y %% 64)%N (iota 0 256) by vm_compute; reflexivity.
by apply; rewrite mem_iota.
Qed.
Lemma set_last (m : bytes) y z : set_nth 0%N (m ++ [:: y]) (size m) z = m ++ [:: z].
Proof. by elim: m => //= x m ->. Qed.
Lemma clamp_arith x m y P : (x < 256)%N -> (m < P)%N ->
  (8 * (x %/ 8) + 256 * (m + P * (64 + y %% 64)) = 64 * (256 * P) + 8 * ((x + 256 * (m + P * y)) %/ 8 %% (32 * P * 64)))%N.
Proof.
move=> hx hm.
have -> : ((x + 256 * (m + P * y)) %/ 8 = x %/ 8 + 32 * m + 32 * P * y)%N.
  by rewrite -[256%N]/(32 * 8)%N -mulnA (mulnC 8%N) mulnA divnDMl // mulnDr mulnA addnA.
have ha : (x %/ 8 + 32 * m < 32 * P)%N by lia.
have -> : ((x %/ 8 + 32 * m + 32 * P * y) %% (32 * P * 64) = x %/ 8 + 32 * m + 32 * P * (y %% 64))%N.
  rewrite {1}(divn_eq y 64) mulnDr addnCA (mulnC (y %/ 64)%N) mulnA (mulnC (32 * P * 64)%N) modnMDl modn_small //.
  have := ltn_pmod y (isT : 0 < 64)%N; set r := (y %% 64)%N => hr.
  apply: (@leq_trans (32 * P * r.+1)%N); first by rewrite mulnS ltn_add2r.
  by rewrite leq_mul2l hr orbT.
rewrite !mulnDr !mulnA; lia.
Qed.

Lemma pow254 n : (64 * (256 * 256 ^ n) = 2 ^ (n * 8 + 14))%N.
Proof.
have e : (256 ^ n = 2 ^ (n * 8))%N by rewrite mulnC expnM; congr (_ ^ _)%N.
by rewrite e expnD; lia.
Qed.
Lemma pow251 n : (32 * 256 ^ n * 64 = 2 ^ (n * 8 + 11))%N.
Proof.
have e : (256 ^ n = 2 ^ (n * 8))%N by rewrite mulnC expnM; congr (_ ^ _)%N.
by rewrite e expnD; lia.
Qed.
Lemma clamp_bytes x m y : (x < 256)%N -> is_bytes m ->
  le_val ((8 * (x %/ 8))%N :: m ++ [:: (64 + y %% 64)%N]) =
  (2 ^ (size m * 8 + 14) + 8 * (le_val (x :: m ++ [:: y]) %/ 8 %% 2 ^ (size m * 8 + 11)))%N.
Proof.
move=> hx hm; rewrite -pow254 -pow251 !le_val_cons !le_val_cat !le_val_cons le_val_nil !muln0 !addn0.
exact: clamp_arith hx (le_val_lt hm).
Qed.

Section Nem.
Variables (G : zmodType) (g : G) (l : nat).
Variables (keccak : bytes -> bytes) (penc : G -> bytes) (pdec : bytes -> option G).
Local Notation new_key := (new_key g l keccak penc).
Local Notation generate_key := (generate_key g l keccak penc).
Local Notation sign := (sign g l keccak penc).
Local Notation verify := (verify g l keccak penc pdec).
Local Notation secret := (secret l keccak).

(** the subgroup generated by [g] has the prime order [l] < 2^253 *)
Definition order_ok : Prop := [/\ (1 < l)%N, (l < 2 ^ 253)%N, g *+ l = 0 & forall m n, (m < l)%N -> (n < l)%N -> g *+ m = g *+ n -> m = n].
(** points are encoded on 32 bytes and decoding inverts encoding *)
Definition point_codec : Prop := forall P, size (penc P) = 32%N /\ pdec (penc P) = Some P.

Lemma gmod n : g *+ l = 0 -> g *+ (n %% l) = g *+ n.
Proof. by move=> h; rewrite {2}(divn_eq n l) mulrnDr mulnC mulrnA h mul0rn add0r. Qed.

(** the challenge bound to commitment bytes, key bytes and message *)
Definition nem_chal (rb pk msg : bytes) : nat := (le_val (keccak (rb ++ pk ++ msg)) %% l)%N.

(** Verify accepts exactly the canonical signatures satisfying the Schnorr equation; the check of the top three
    bits is implied by canonicity. *)
Theorem C63_verify_iff pk msg sig : order_ok -> is_bytes sig ->
  verify pk msg sig = Ok true <->
  exists A R s, [/\ size pk = 32%N, pdec pk = Some A, sig = R ++ le_bytes 32 s, size R = 32%N &
    (s < l)%N /\ R = penc (g *+ s - A *+ nem_chal R pk msg)].
Proof.
move=> [l1 l2 lg li] hb; rewrite /Model.verify; split.
  case: eqP => // spk; cbn [negb]; case: eqP => // ssig; cbn [negb orb].
  case: eqP => // _; cbn [negb].
  case: (pdec pk) => [A|//]; rewrite le_modE; case: ltnP => // hs.
  move=> /(congr1 (fun x => if x is Ok true then true else false)) /=.
  case: eqP => // hr _; exists A, (take 32 sig), (le_val (drop 32 sig)).
  have sd : size (drop 32 sig) = 32%N by rewrite size_drop ssig.
  split=> //.
  - have hd : is_bytes (drop 32 sig).
      by move: hb; rewrite -{1}(cat_take_drop 32 sig) /is_bytes all_cat => /andP[].
    by have := le_valK hd; rewrite sd => ->; rewrite cat_take_drop.
  - by rewrite size_take ssig.
  by split=> //; rewrite {1}hr mulNrn addrC.
move=> [A [R [s [spk dA -> sR [hs eR]]]]].
have h32 : (s < 256 ^ 32)%N by exact: s256 (leq_trans hs (ltnW l2)).
rewrite spk eqxx dA size_cat sR size_le_bytes eqxx; cbn [negb orb].
rewrite take_size_cat // drop_size_cat // le_bytesK // hs.
rewrite (top_bits sR (leq_trans hs (ltnW l2))) eqxx; cbn [negb]; congr Ok; apply/eqP.
by rewrite le_modE {1}eR mulNrn addrC.
Qed.

(** The verdict never panics: Verify is an error or a boolean, whatever its inputs. *)
Theorem C63_verify_no_panic pk msg sig : is_panic (verify pk msg sig) = false.
Proof.
rewrite /Model.verify; case: (_ != _) => //; case: (_ || _) => //; case: (pdec pk) => // A.
by case: (_ < _)%N.
Qed.

(** Keys made from any 32-byte seed sign every message, and the signature verifies under the key's Public. *)
Theorem C63_sign_verify seed msg : order_ok -> point_codec -> size seed = 32%N ->
  exists priv pk sig, [/\ new_key seed = Ok priv, public priv = Ok pk, seed_of priv = Ok seed,
    pk = penc (g *+ secret seed) & sign priv msg = Ok sig /\ verify pk msg sig = Ok true].
Proof.
move=> [l1 l2 lg li] pc ss.
have sp P : size (penc P) = 32%N by have [] := pc P.
exists (seed ++ penc (g *+ secret seed)), (penc (g *+ secret seed)).
have e1 : new_key seed = Ok (seed ++ penc (g *+ secret seed)).
  by rewrite /Model.new_key ss eqxx; cbn [negb]; rewrite !copy_full.
have sz : size (seed ++ penc (g *+ secret seed)) = 64%N by rewrite size_cat ss sp.
have e2 : public (seed ++ penc (g *+ secret seed)) = Ok (penc (g *+ secret seed)).
  by rewrite /public sz; cbn [ltn leq subn]; rewrite drop_size_cat // copy_full.
have e3 : seed_of (seed ++ penc (g *+ secret seed)) = Ok seed.
  by rewrite /seed_of sz; cbn [ltn leq subn]; rewrite take_size_cat // copy_full.
rewrite e1 e2 e3 /Model.sign sz eqxx; cbn [negb]; cbn zeta.
rewrite take_size_cat // drop_size_cat // !copy_full ?size_le_bytes //.
eexists; split; [by [] ..|split; first by []].
set r := le_mod l _; set h := le_mod l _; set sc := clamp l _.
have lp : (0 < l)%N by apply: ltn_trans l1.
have hs : ((h * sc + r) %% l < l)%N by rewrite ltn_pmod.
have hb : is_bytes (le_bytes 32 ((h * sc + r) %% l)) by exact: is_bytes_le.
rewrite /Model.verify sp eqxx; cbn [negb].
rewrite size_cat size_le_bytes sp eqxx (top_bits (sp _) (leq_trans hs (ltnW l2))) eqxx; cbn [negb orb].
rewrite take_size_cat // drop_size_cat //.
have [_ ->] := pc (g *+ secret seed).
rewrite le_bytesK ?(s256 (leq_trans hs (ltnW l2))) // hs -/h.
congr Ok; apply/eqP; congr penc.
rewrite gmod // mulNrn /Model.secret -/sc -mulrnA mulrnDr addrA [(sc * h)%N]mulnC.
by rewrite addNr add0r.
Qed.

(** Keys and signatures are refused, not mangled, when the lengths are wrong. *)
Theorem C63_errors :
  [/\ forall seed, size seed <> 32%N -> new_key seed = Err,
      forall priv msg, size priv <> 64%N -> sign priv msg = Err,
      forall pk msg sig, size pk <> 32%N -> verify pk msg sig = Err,
      forall pk msg sig, size sig <> 64%N -> verify pk msg sig = Err &
      forall pk msg sig, pdec pk = None -> verify pk msg sig = Err].
Proof.
split.
- by move=> seed /eqP h; rewrite /Model.new_key h.
- by move=> priv msg /eqP h; rewrite /Model.sign h.
- by move=> pk msg sig /eqP h; rewrite /Model.verify h.
- by move=> pk msg sig /eqP h; rewrite /Model.verify h; case: (_ != _).
- by move=> pk msg sig h; rewrite /Model.verify h; case: (_ != _) => //; case: (_ || _).
Qed.

(** No malleability: under one key and message, a commitment has at most one accepted response. *)
Theorem C63_unique_response pk msg R s1 s2 : order_ok -> point_codec -> size R = 32%N -> size s1 = 32%N -> size s2 = 32%N ->
  is_bytes s1 -> is_bytes s2 ->
  verify pk msg (R ++ s1) = Ok true -> verify pk msg (R ++ s2) = Ok true -> s1 = s2.
Proof.
move=> [l1 l2 lg li] pc sR z1 z2 b1 b2; rewrite /Model.verify.
case: eqP => // spk; cbn [negb]; case: (_ || _) => //; case: (pdec pk) => [A|//].
rewrite !take_size_cat // !drop_size_cat //.
case: (ltnP (le_val s1) l) => // h1 e1; case: (_ || _) => //; case: (ltnP (le_val s2) l) => // h2 e2.
have k1 : R = penc ((- A) *+ le_mod l (keccak (R ++ pk ++ msg)) + g *+ le_val s1) by apply/eqP; case: e1.
have k2 : R = penc ((- A) *+ le_mod l (keccak (R ++ pk ++ msg)) + g *+ le_val s2) by apply/eqP; case: e2.
have inj P Q : penc P = penc Q -> P = Q.
  by move=> /(congr1 pdec); have [_ ->] := pc P; have [_ ->] := pc Q; case.
have := inj _ _ (etrans (esym k1) k2) => /addrI /(li _ _ h1 h2) e.
by rewrite -(le_valK b1) -(le_valK b2) z1 z2 e.
Qed.

(** FINDING: Sign hashes the public key stored in the private key without checking it.  Signing one message with
    the same seed and two different stored keys reuses the nonce, and the two signatures reveal the secret. *)
Theorem C63_foreign_public_key_leaks seed pk1 pk2 msg sig1 sig2 : prime l -> order_ok -> point_codec ->
  size seed = 32%N -> size pk1 = 32%N -> size pk2 = 32%N ->
  sign (seed ++ pk1) msg = Ok sig1 -> sign (seed ++ pk2) msg = Ok sig2 ->
  let R := take 32 sig1 in
  let h1 := nem_chal R pk1 msg in let h2 := nem_chal R pk2 msg in
  take 32 sig2 = R /\
  (h1 <> h2 -> ((secret seed)%:R : 'F_l) = ((le_val (drop 32 sig1))%:R - (le_val (drop 32 sig2))%:R) / (h1%:R - h2%:R)).
Proof.
move=> pl [l1 l2 lg li] pc ss z1 z2.
have sp P : size (penc P) = 32%N by have [] := pc P.
rewrite /Model.sign !size_cat ss z1 z2 eqxx; cbn [negb]; cbn zeta.
rewrite !take_size_cat // !drop_size_cat // !(copy_full (sp _)) !(copy_full (size_le_bytes _ _)).
set rb := penc _; move=> q1 q2; rewrite -(Ok_inj q1) -(Ok_inj q2) => {q1 q2}.
rewrite !take_size_cat ?sp // !drop_size_cat ?sp //; split; first by [].
rewrite /nem_chal -!le_modE; set h1 := le_mod l _; set h2 := le_mod l _; set sc := clamp l _; set r := le_mod l _.
move=> ne; have lp : (0 < l)%N by apply: ltn_trans l1.
have m2 x : (x %% l < l)%N by rewrite ltn_pmod.
rewrite !le_bytesK ?(s256 (leq_trans (m2 _) (ltnW l2))) //.
have cF n : ((n %% l)%:R : 'F_l) = n%:R by apply: ord_inj; rewrite !val_Fp_nat // modn_mod.
have hd : (h1%:R - h2%:R : 'F_l) != 0.
  rewrite subr_eq0; apply/negP=> /eqP /(congr1 (@nat_of_ord _)); rewrite !val_Fp_nat //.
  by rewrite !modn_small // /h1 /h2 le_modE.
apply: (mulIf hd); rewrite mulfVK // !cF !natrD !natrM.
by rewrite opprD addrACA subrr addr0 mulrBr ![sc%:R * _]mulrC.
Qed.

(** FINDING: keys of small order are not refused.  Under a key encoding the neutral element, a signature made
    without any secret is accepted for every message. *)
Theorem C63_neutral_key_accepts_all pk msg s : order_ok -> point_codec -> size pk = 32%N -> pdec pk = Some 0 ->
  (s < l)%N -> verify pk msg (penc (g *+ s) ++ le_bytes 32 s) = Ok true.
Proof.
move=> [l1 l2 lg li] pc sp dp hs; rewrite /Model.verify sp eqxx dp; cbn [negb].
have se P : size (penc P) = 32%N by have [] := pc P.
rewrite size_cat size_le_bytes se eqxx (top_bits (se _) (leq_trans hs (ltnW l2))) eqxx; cbn [negb orb].
rewrite take_size_cat // drop_size_cat // le_bytesK ?(s256 (leq_trans hs (ltnW l2))) // hs.
by rewrite oppr0 mul0rn add0r eqxx.
Qed.

(** FINDING: Public and Seed panic on a private key shorter than 32 bytes. *)
Theorem C63_short_key_panics priv :
  is_panic (public priv) = (size priv < 32)%N /\ is_panic (seed_of priv) = (size priv < 32)%N.
Proof. by rewrite /public /seed_of; case: ltnP. Qed.

(** The secret scalar is the first half of the digest, clamped as in RFC 8032: the three low bits cleared, bit 254 set,
    bit 255 cleared, and the rest unchanged. *)
Theorem C63_secret_clamped seed : is_bytes (keccak (rev seed)) -> size (keccak (rev seed)) = 64%N ->
  secret seed = ((2 ^ 254 + 8 * ((le_val (take 32 (keccak (rev seed))) %/ 8) %% 2 ^ 251)) %% l)%N.
Proof.
move=> hb hs; rewrite /Model.secret.
have hd : is_bytes (take 32 (keccak (rev seed))).
  by apply/allP => z hz; move/allP: hb; apply; apply: mem_take hz.
have hz : size (take 32 (keccak (rev seed))) = 32%N by rewrite size_take hs.
move: (take 32 _) hd hz => d; clear; case: d => [//|x d] /= /andP [hx hd] [hz].
rewrite -(cat_take_drop 30 d) in hd hz *.
have h30 : size (take 30 d) = 30%N by rewrite size_take -(cat_take_drop 30 d) hz.
have h1 : size (drop 30 d) = 1%N by move: hz; rewrite size_cat h30 => /addnI.
move: (take 30 d) (drop 30 d) hd h30 h1 => m; case=> [//|y [|//]] hd h30 _.
move: hd; rewrite /is_bytes all_cat => /andP [hm /andP [hy _]].
rewrite /clamp le_modE; congr (_ %% _)%N.
rewrite -[nth _ _ 0]/x (band248 hx) /= nth_cat h30 ltnn subnn /= (top_byte hy).
have e z : set_nth 0%N (m ++ [:: y]) 30 z = m ++ [:: z] by rewrite -(set_last m y z) h30.
by rewrite e (clamp_bytes y hx hm) h30.
Qed.
End Nem.

Print Assumptions C63_verify_iff.
Print Assumptions C63_secret_clamped.
Print Assumptions C63_verify_no_panic.
Print Assumptions C63_sign_verify.
Print Assumptions C63_errors.
Print Assumptions C63_unique_response.
Print Assumptions C63_foreign_public_key_leaks.
Print Assumptions C63_neutral_key_accepts_all.
Print Assumptions C63_short_key_panics.

(** ** A concrete instance: the additive group of 'F_257 *)
Local Transparent le_bytes copy_into.
Definition keccak257 (b : bytes) : bytes :=
  mkseq (fun i => foldl (fun a x => (a * 3 + x * (i %% 5 + 1)) %% 251)%N 7%N b) 64.
Definition penc257 (p : F257) : bytes := le_bytes 32 (nat_of_ord p).
Definition pdec257 (b : bytes) : option F257 := Some ((le_val b)%:R : F257).

Example C63_order : order_ok (1 : F257) 257.
Proof.
split; first by [].
- by apply: (@leq_trans (2 ^ 9)%N); [|rewrite leq_exp2l].
- by apply/val_inj.
- move=> m n hm hn /eqP; rewrite natr257 !modn_small // => /eqP //.
Qed.

Example C63_codec : point_codec penc257 pdec257.
Proof.
move=> p; split; first by rewrite size_le_bytes.
rewrite /pdec257 /penc257 le_bytesK ?natr_Zp //.
apply: (leq_trans (ltn_ord p)); apply: (@leq_trans (256 ^ 2)%N); first by [].
by rewrite leq_exp2l.
Qed.

(** a signature by the key of seed 1..32 verifies, not on another message, and two stored keys leak *)
Example C63_hyps :
  let seed := iota 1 32 in
  let sg k m := sign (1 : F257) 257 keccak257 penc257 k m in
  let vf pk m s := verify (1 : F257) 257 keccak257 penc257 pdec257 pk m s in
  (if new_key (1 : F257) 257 keccak257 penc257 seed is Ok k then
     if sg k [:: 1; 2; 3]%N is Ok s then
       [&& (if vf (drop 32 k) [:: 1; 2; 3]%N s is Ok b then b else false) &
           (if vf (drop 32 k) [:: 1; 2; 4]%N s is Ok b then ~~ b else false)]
     else false
   else false) = true.
Proof. by vm_compute. Qed.
