(** Properties C49, C50, C51 and C70: BBS+ signatures, blind issuance and selective disclosure. *)
From mathcomp Require Import all_ssreflect all_algebra zify.
From Verif Require Import Lib.Res Lib.Bytes Lib.Pairing Lib.Inst Lib.FieldTac Lib.LmodTac Bbs.Model Bbs.Proofs Bbs.PokProofs.
From Coq Require Import Field.
Set Implicit Arguments.
Unset Strict Implicit.
Unset Printing Implicit Defensive.
Import GRing.Theory.
Local Open Scope ring_scope.

Section Props.
Variables (F : fieldType) (G1 G2 GT : lmodType F) (g1 : G1) (g2 : G2) (e : G1 -> G2 -> GT).
Variables (hashG1 : bytes -> G1) (penc1 penc1u : G1 -> bytes) (penc2u : G2 -> bytes) (enc : F -> bytes).
Variables (xof : blog -> bytes) (wide : bytes -> F) (drbg : bytes -> F * F).
Hypothesis ok : pairing_ok e g2.
Add Field F_field : (f_fth F).

Notation gens := (gens G1).
Local Arguments gens_get : simpl never.
Notation verify := (verify g1 g2 e hashG1).
Notation sign := (sign g1 hashG1 penc1u enc drbg).
Notation init := (gens_init hashG1 penc2u).
Notation pk := (public_key g2).
Notation new_blind := (new_blind hashG1 penc1 enc xof wide).
Notation blind_verify := (blind_verify hashG1 penc1 enc xof wide).
Notation to_blind := (to_blind g1 hashG1 penc1 penc1u enc xof wide drbg).
Notation new_pok := (new_pok g1 hashG1).
Notation pok_verify := (pok_verify g1 g2 e hashG1 penc1 enc xof wide).
Notation pok_challenge := (pok_challenge enc xof wide).

(** What a BBS+ signature asserts: with h_i the generator of position i,
    (e + x) A = g1 + s h_0 + sum_i m_i h_i *)
Definition signed (sk : F) (g : gens) (sg : sig G1) (msgs : seq F) : Prop :=
  (se sg + sk) *: sa sg
  = g1 + ss sg *: h0 g + \sum_(i < size msgs) msgs`_i *: odflt 0 (gens_get hashG1 g (Posz i.+1)).

Lemma signedE sk (g : gens) sg msgs : (size msgs <= glen g)%N ->
  signed sk g sg msgs <-> (se sg + sk) *: sa sg = bcom g1 hashG1 g (ss sg) msgs.
Proof.
move=> hs; rewrite /signed /bcom.
rewrite (eq_bigr (fun i : 'I_(size msgs) => msgs`_i *: gen hashG1 g i.+1)) // => i _.
by rewrite get_ok // (leq_trans (ltn_ord i)).
Qed.

(** C49: Verify accepts exactly the signatures that satisfy the equation, on at least one and at most
    [length] messages, under a non-identity key and with A not the identity *)
Theorem C49_verify_iff sk (g : gens) sg msgs :
  verify (pk sk) sg g msgs = Ok tt <->
  [/\ (0 < size msgs <= glen g)%N, sk != 0, sa sg != 0 & signed sk g sg msgs].
Proof.
rewrite verify_iff; last exact: ok.
by split=> -[h1 h2 h3 h4]; split=> //; apply/signedE => //; case/andP: h1.
Qed.

(** C49: Sign succeeds exactly for 1..length messages and a non-zero key, unless e = -x; what it returns
    verifies, unless A is the identity *)
Theorem C49_sign_verify w n (g : gens) sk msgs : init w n = Ok g ->
  match sign sk g msgs with
  | Ok sg => [/\ (0 < size msgs <= glen g)%N, sk != 0, se sg != - sk &
               verify (pk sk) sg g msgs = if sa sg == 0 then Err else Ok tt]
  | Err => [\/ ~~ (0 < size msgs <= glen g)%N, sk = 0 |
             (drbg (enc sk ++ nonce_data hashG1 penc1u enc g msgs)).1 = - sk]
  | Panic => False
  end.
Proof.
move=> _; rewrite /Model.sign; case: ltnP => h1; first by constructor 1; rewrite andbF.
case: ltnP => h2; first by constructor 1.
case: eqP => [->|/eqP h3]; first by constructor 2.
case: (drbg _) => ee s /=; rewrite compute_b_ok //= ; case: eqP => [h|/eqP h] /=.
  by constructor 3; apply/eqP; rewrite -addr_eq0 h.
split=> //; first by rewrite -addr_eq0.
apply: verify_or => //; first by rewrite h2 h1.
by rewrite /= scalerA divff // scale1r.
Qed.

(** C49: blind issuance.  The messages are split into hidden ones (chosen by the holder) and known ones
    (chosen by the signer); the maps are visited in any order.  The context is accepted, the signature is
    issued unless e = -x, and after unblinding it verifies on all messages unless A is the identity. *)
Theorem C49_blind_issuance w n (g : gens) (hid known : seq (nat * F)) msgs sk nonce rnd bl rl :
  init w (Posz n) = Ok g -> (0 < n)%N -> size msgs = n -> (size hid <= climit)%N -> sk != 0 ->
  perm_eq (map fst (hid ++ known)) (iota 0 n) -> all (fun x => msgs`_x.1 == x.2) (hid ++ known) ->
  let es := drbg (enc sk ++ nonce_data hashG1 penc1u enc g
                    [seq odflt 0 (zassoc i (zmap known)) | i <- sort_ints (map fst (zmap known))]) in
  exists2 ctx, new_blind (zmap hid) g nonce rnd bl rl = Ok (ctx, bl) &
    blind_verify ctx (map Posz (map fst known)) g nonce = Ok tt /\
    (es.1 + sk == 0 /\ to_blind ctx (zmap known) sk g nonce = Err \/
     exists2 sg, to_blind ctx (zmap known) sk g nonce = Ok sg &
       verify (pk sk) (to_unblinded sg bl) g msgs = if sa sg == 0 then Err else Ok tt).
Proof.
move=> hi n0 hn hh hk hp ha es; have [hg hgen] := gens_initE hi.
have hall : all (fun x => x.1 < glen g)%N (hid ++ known).
  apply/allP => x hx; have := map_f fst hx; rewrite (perm_mem hp) mem_iota hg; by [].
move: (hall); rewrite all_cat => /andP[hhid hknown].
have hkn : all (fun i => i < glen g)%N (map fst known) by rewrite all_map.
have hb := @new_blind_ok F G1 hashG1 penc1 enc xof wide g hid nonce rnd bl rl hhid hh.
rewrite hb; eexists; first reflexivity.
have hpts : [seq gen hashG1 g i.+1 | i <- iota 0 (glen g) & i \notin map fst known] = [seq gen hashG1 g x.1.+1 | x <- hid].
  have h1 : forall (T : Type) (f : T -> nat) (s : seq T), [seq gen hashG1 g (f i).+1 | i <- s] = nseq (size s) (h0 g).
    by move=> T f; elim=> //= x s ->; rewrite hgen.
  rewrite (h1 _ id) (h1 _ fst); congr nseq.
  move: hp; rewrite map_cat => /perm_filter_iota /perm_size; by rewrite size_map hg.
have hv := blind_verify_ok hhid hh hkn hpts hb.
split; first by apply: hv.
have hv' := hv (sort_ints (map fst (zmap known))) (fun x => etrans (mem_sort _ _ _) (f_equal (fun s : seq int => x \in s) (zmap_fst known))).
have htb := to_blind_ok g1 penc1u drbg hk hknown hv'.
case: (boolP (es.1 + sk == 0)) => h; [left|right].
  by split=> //; rewrite htb ifT.
eexists; first by rewrite htb ifF //; apply/negbTE; exact: h.
apply: verify_or => //=; first by rewrite hn hg n0 leqnn.
rewrite scalerA divff // scale1r (@bcom_perm _ _ _ _ _ _ _ (hid ++ known)) ?hn // big_cat /= /hcom.
set S1 := \sum_(x <- hid) _; set S2 := \sum_(x <- known) _.
rewrite scalerDl addrA; congr (_ + _).
by rewrite -!addrA [LHS]addrC -!addrA [LHS]addrC -!addrA (addrC S1).
Qed.

(** C49 (finding): a hidden message at index [length] (one past the last generator) passes the index check
    and makes NewBlindSignatureContext panic instead of returning its "invalid index" error *)
Theorem C49_blind_index_refuted w n (g : gens) (hid : seq (nat * F)) nonce rnd bl rl :
  init w (Posz n) = Ok g -> all (fun x => x.1 <= n)%N hid -> (size hid <= climit)%N -> n \in map fst hid ->
  new_blind (zmap hid) g nonce rnd bl rl = Panic.
Proof.
move=> hi ha hs hn; have [hg _] := gens_initE hi.
rewrite /Model.new_blind.
suff : forall k b pts secs, size (pb_points b) = size pts -> (size pts + size hid <= climit)%N ->
  exists b' secs', blind_loop hashG1 g (zmap hid) rnd k b pts secs =
    Ok (b', pts ++ [seq gens_get hashG1 g (Posz x.1 + 1) | x <- hid], secs') /\
    size (pb_points b') = (size pts + size hid)%N.
  move=> /(_ 0%N (new_builder G1) [::] [::] erefl hs) [b' [secs' [-> hb]]].
  cbn [bind]; rewrite /commit hb ltnNge add0n hs /=.
  rewrite (_ : sop _ _ = None) // /sop all_pts_none // has_rcons; apply/orP; right.
  rewrite has_map; case/mapP: hn => x hx hxn; apply/hasP; exists x => //=.
  by rewrite -hxn -PoszD addn1 get_over // hg.
elim: hid ha {hs hn} => [_|x hid IH /= /andP[hx ha]] k b pts secs hb hs.
  by exists b, secs; rewrite /= cats0 addn0.
rewrite hg ltnNge hx /= /commit hb ltnNge.
have h1 : (size pts <= climit)%N by move: hs; rewrite /=; lia.
rewrite h1 /=.
have [||b' [secs' [-> hb']]] := IH ha k.+1 (Builder (rcons (pb_points b) (gens_get hashG1 g (Posz x.1 + 1))) (rcons (pb_scalars b) (rnd k))) (rcons pts (gens_get hashG1 g (Posz x.1 + 1))) (rcons secs x.2).
- by rewrite !size_rcons hb.
- by rewrite size_rcons; move: hs => /=; lia.
by exists b', secs'; rewrite cat_rcons hb' size_rcons addSnnS.
Qed.

(** C49 (finding): a context whose number of responses is not the number of unknown messages plus one makes
    Verify (and so ToBlindSignature) panic; the context comes from the other party *)
Theorem C49_blind_proof_count_refuted (g : gens) (ctx : bctx G1) (known : seq nat) nonce :
  all (fun i => i < glen g)%N known ->
  size (bc_proofs ctx) != (size [seq i <- iota 0 (glen g) | i \notin known]).+1 ->
  blind_verify ctx (map Posz known) g nonce = Panic.
Proof.
move=> hk hs; rewrite /Model.blind_verify (_ : has _ _ = false); last first.
  by apply/negP => /hasP[x /mapP[i hi ->]]; rewrite ltnNge (ltnW (allP hk i hi)).
rewrite [in X in X ++ _](@eq_filter _ _ (fun i => i \notin known)); last first.
  by move=> i; rewrite mem_map //; move=> a b [].
rewrite map_get; last by apply/allP => i; rewrite mem_filter mem_iota => /andP[_].
rewrite /sop (@get_ok _ _ _ _ 0) //.
set l := [seq i <- _ | _]; rewrite -[[:: _; _]]/(map Some [:: gen hashG1 g 0; bc_com ctx]).
rewrite (_ : [seq Some _ | i <- l] = map Some [seq gen hashG1 g i.+1 | i <- l]); last by rewrite -map_comp.
rewrite -map_cat all_pts_some size_cat size_map size_rcons /= addn2 eqSS eq_sym.
by rewrite (negbTE hs).
Qed.

(** C50 (finding): every generator equals the blinding generator h_0 *)
Theorem C50_generators_equal_refuted w n (g : gens) i :
  init w (Posz n) = Ok g -> (i <= n)%N -> gens_get hashG1 g (Posz i) = Some (h0 g).
Proof. exact: get_init. Qed.

(** C50 (finding): hence a signature on one message vector verifies on every vector with the same sum, in
    particular on every permutation, under every key and hash function *)
Theorem C50_binding_refuted w n (g : gens) sk sg msgs msgs' :
  init w (Posz n) = Ok g -> verify (pk sk) sg g msgs = Ok tt ->
  (0 < size msgs' <= n)%N -> \sum_(m <- msgs') m = \sum_(m <- msgs) m ->
  verify (pk sk) sg g msgs' = Ok tt.
Proof.
move=> hi; have [hg hgen] := gens_initE hi; move=> /(verify_iff g1 ok) [h1 h2 h3 h4] hs hsum.
apply/(verify_iff g1 ok); split=> //; first by rewrite hg.
rewrite h4 /bcom; congr (_ + _).
have hh : forall l : seq F, \sum_(i < size l) l`_i *: gen hashG1 g i.+1 = (\sum_(m <- l) m) *: h0 g.
  move=> l; rewrite (eq_bigr (fun i : 'I_(size l) => l`_i *: h0 g)); last by move=> i _; rewrite hgen.
  by rewrite -scaler_suml (big_nth 0) big_mkord.
by rewrite !hh hsum.
Qed.
Theorem C50_permutation_refuted w n (g : gens) sk sg msgs msgs' :
  init w (Posz n) = Ok g -> verify (pk sk) sg g msgs = Ok tt -> perm_eq msgs' msgs ->
  verify (pk sk) sg g msgs' = Ok tt.
Proof.
move=> hi hv hp; have /(verify_iff g1 ok) [h _ _ _] := hv; have [hg _] := gens_initE hi.
by apply: (C50_binding_refuted hi hv); rewrite ?(perm_size hp) -?hg // (perm_big _ hp).
Qed.

(** C70 (finding): ToBlindSignature derives e and s from the key, the generators and the known messages
    only, not from the commitment.  Two blind signatures on the same known messages share e and s, and the
    holder can combine them, without the signer, into a signature on every affine combination of the two
    message vectors. *)
Theorem C70_blind_nonce_reuse_refuted (g : gens) (ctx1 ctx2 : bctx G1) known sk nonce1 nonce2 sg1 sg2 b1 b2 msgs1 msgs2 (k : F) :
  to_blind ctx1 known sk g nonce1 = Ok sg1 -> to_blind ctx2 known sk g nonce2 = Ok sg2 ->
  size msgs1 = size msgs2 ->
  verify (pk sk) (to_unblinded sg1 b1) g msgs1 = Ok tt ->
  verify (pk sk) (to_unblinded sg2 b2) g msgs2 = Ok tt ->
  let forged := Sig (sa sg1 + k *: (sa sg1 - sa sg2)) (se sg1) (ss sg1 + b1 + k * (b1 - b2)) in
  sa forged != 0 ->
  verify (pk sk) forged g [seq m.1 + k * (m.1 - m.2) | m <- zip msgs1 msgs2] = Ok tt.
Proof.
move=> t1 t2 hsz v1 v2 forged hf.
have [he hs] : se sg1 = se sg2 /\ ss sg1 = ss sg2.
  have tb : forall ctx nonce sg, to_blind ctx known sk g nonce = Ok sg ->
    (se sg, ss sg) = drbg (enc sk ++ nonce_data hashG1 penc1u enc g [seq odflt 0 (zassoc i known) | i <- sort_ints (map fst known)]).
    move=> ctx nonce sg; rewrite /Model.to_blind; case: ifP => // _; case: ifP => // _.
    case: (Model.blind_verify _ _ _ _ _ _ _ _ _) => // tu; cbn [bind].
    case: (drbg _) => ee s /=; case: ifP => // _.
    by case: (sop _ _) => //= ? [<-].
  by have := tb _ _ _ t1; rewrite -(tb _ _ _ t2) => -[-> ->].
move/(verify_iff g1 ok): v1 => [/= l1 k1 a1 e1]; move/(verify_iff g1 ok): v2 => [/= l2 _ a2 e2].
apply/(verify_iff g1 ok); split=> //; first by rewrite size_map size_zip hsz minnn.
rewrite /= scalerDr scalerA mulrC -scalerA scalerBr e1 he e2 /bcom size_map size_zip hsz minnn.
set h := fun i => gen hashG1 g i.+1.
have -> : \sum_(i < size msgs2) [seq m.1 + k * (m.1 - m.2) | m <- zip msgs1 msgs2]`_i *: gen hashG1 g i.+1
  = \sum_(i < size msgs2) msgs1`_i *: h i + k *: (\sum_(i < size msgs2) msgs1`_i *: h i - \sum_(i < size msgs2) msgs2`_i *: h i).
  rewrite -sumrB scaler_sumr -big_split /=; apply: eq_bigr => i _.
  rewrite (nth_map (0, 0)) ?size_zip ?hsz ?minnn // nth_zip //=.
  by rewrite scalerDl -scalerA scalerBl.
rewrite -hs; set S1 := \sum_(i < _) _; set S2 := \sum_(i < _) _.
by move: S1 S2 => S1 S2; lm_reduce F G1; ring.
Qed.

(** C51: the challenge a prover uses: extracted after the prover's contribution and the nonce *)
Notation hidden_of msgs := (hidden 0 msgs).

(** C51: completeness.  For a signature that verifies, any choice of hidden messages, any randomness with
    r1 <> 0 and any transcript prefix, the proof generated for the challenge of the prover's transcript is
    accepted, with the revealed messages presented in any order. *)
Theorem C51_pok_complete (g : gens) sk sg (msgs : seq (pmsg F)) (revealed : seq (nat * F)) nonce t r1 r2 q1 q2 q3 q4 :
  verify (pk sk) sg g (map (@pm_msg F) msgs) = Ok tt -> size msgs = glen g -> (glen g <= climit.-1)%N -> r1 != 0 ->
  perm_eq revealed [seq (x.1, pm_msg x.2) | x <- shown 0 msgs] ->
  exists2 p, new_pok sg g msgs r1 r2 q1 q2 q3 q4 = Ok p &
    let c := pok_challenge (t ++ pok_contribution penc1 p) nonce in
    exists2 pf, pok_generate p c = Ok pf & pok_verify pf (zmap revealed) (pk sk) g nonce c t = Ok true.
Proof.
move=> /(verify_iff g1 ok) [hsz hsk ha heq] hs hl hr hp.
have [p1 [p2 [hn hb1 hb2]]] := @new_pok_ok F G1 g1 hashG1 sg g msgs r1 r2 q1 q2 q3 q4 hs hl hr.
rewrite hn; eexists; first reflexivity.
set b := bcom _ _ _ _ _; set aP := r1 *: sa sg; set d := r1 *: b + r2 *: h0 g.
move=> c.
have s1 : size [:: se sg; r2] = size [:: (aP, q1); (h0 g, q2)] by [].
set hl2 := (- d, q3) :: _ in hb2.
set sec2 := r1^-1 :: _.
have s2 : size sec2 = size hl2 by rewrite /= !size_map.
rewrite /pok_generate [pk_proof1 _]/= [pk_secs1 _]/= (gen_proof_ok c hb1 s1) [pk_proof2 _]/= [pk_secs2 _]/=.
cbn [bind]; rewrite -/sec2 (gen_proof_ok c hb2 s2); cbn [bind].
eexists; first reflexivity.
have [rb1 rb2] := rev_bound hp.
rewrite hs in rb1 rb2.
have hidxE : hidx g revealed = map fst (hidden_of msgs) by rewrite /hidx -hs; exact: shown_keys.
set resp := [seq x.1 * c + x.2.2 | x <- zip sec2 hl2].
have respE : resp = (r1^-1 * c + q3) :: ((ss sg + r2 / r1) * c + q4) ::
   ([seq x.1 * c + x.2.2 | x <- zip [seq pm_msg x.2 | x <- hidden_of msgs] [seq (gen hashG1 g x.1.+1, odflt 0 (pm_blind x.2)) | x <- hidden_of msgs]] ++ [::]) by rewrite cats0.
rewrite /Model.pok_verify respE [pk_aPrime _]/= [pk_aBar _]/= [pk_d _]/=.
rewrite (_ : [seq x.1 * c + x.2.2 | x <- zip [:: se sg; r2] _] = [:: se sg * c + q1, r2 * c + q2 & [::]]) //.
rewrite vcontrib_ok //; last by rewrite hidxE !size_map size_zip !size_map minnn.
cbn [bind].
have -> : c *: (r1 *: b - se sg *: aP - d) + (se sg * c + q1) *: aP + (r2 * c + q2) *: h0 g = q1 *: aP + q2 *: h0 g.
  by rewrite /d; move: (aP) (b) => aP' b'; lm_reduce F G1; ring.
rewrite (_ : [seq gen hashG1 g i.+1 | i <- hidx g revealed] = map fst [seq (gen hashG1 g x.1.+1, odflt 0 (pm_blind x.2)) | x <- hidden_of msgs]); last first.
  by rewrite hidxE -!map_comp.
rewrite resp_eq ?size_map // (_ : map fst _ = [seq gen hashG1 g x.1.+1 | x <- hidden_of msgs]); last by rewrite -map_comp.
rewrite lincomb_map -/(bsum hashG1 g msgs).
have hb : b = rcom g1 hashG1 g revealed + ss sg *: h0 g + bsum hashG1 g msgs by apply: bcom_split.
set T := \sum_(x <- [seq _ | _ <- hidden_of msgs]) _.
have -> : c *: rcom g1 hashG1 g revealed - (r1^-1 * c + q3) *: d + ((ss sg + r2 / r1) * c + q4) *: h0 g + (c *: bsum hashG1 g msgs + T)
  = q3 *: (- d) + (q4 *: h0 g + T).
  have hR : rcom g1 hashG1 g revealed = b - ss sg *: h0 g - bsum hashG1 g msgs.
    by rewrite hb; move: (rcom _ _ _ _) (bsum _ _ _) => X Y; lm_reduce F G1; ring.
  rewrite hR /d; move: (bsum hashG1 g msgs) (T) (b) (c) => X T' b' c'.
  lm_reduce F G1; field; f_side.
have -> : q1 *: aP + q2 *: h0 g = \sum_(x <- [:: (aP, q1); (h0 g, q2)]) x.2 *: x.1.
  by rewrite !big_cons big_nil addr0.
have -> : q3 *: (- d) + (q4 *: h0 g + T) = \sum_(x <- hl2) x.2 *: x.1 by rewrite !big_cons.
rewrite -(contribution_ok penc1 hb1) -(contribution_ok penc1 hb2) (_ : c == _) ?andbT; last by apply/eqP.
rewrite (verify_sig_pok_iff ok) hsk.
have hx : sk *: aP = r1 *: b - se sg *: aP.
  rewrite /b -heq /aP; move: (sa sg) => A; lm_reduce F G1; ring.
rewrite -hx eqxx andbT !scaler_eq0 !negb_or hsk hr ha /=; by [].
Qed.

(** C51: VerifySigPok accepts exactly the pairs with Abar = x A', none of them the identity *)
Theorem C51_sig_pok_iff sk (pf : pokproof G1) :
  verify_sig_pok g2 e pf (pk sk) = [&& sk != 0, pp_aPrime pf != 0, pp_aBar pf != 0 & sk *: pp_aPrime pf == pp_aBar pf].
Proof. by case: pf => *; rewrite (verify_sig_pok_iff ok). Qed.

(** C51 (finding): a proof whose second vector is too short for the hidden messages makes the verifier panic *)
Theorem C51_short_proof_refuted (g : gens) (revealed : seq (nat * F)) aP aB d x y more u v resp pkey nonce c t :
  all (fun x => x.1 < glen g)%N revealed -> (size revealed <= glen g)%N ->
  (size resp < size [seq i <- iota 0 (glen g) | i \notin map fst revealed])%N ->
  pok_verify (PokProof aP aB d (x :: y :: more) (u :: v :: resp)) (zmap revealed) pkey g nonce c t = Panic.
Proof.
move=> ha hs hr; rewrite /Model.pok_verify /vcontribution; cbn [pp_1 pp_2 pp_aBar pp_d pp_aPrime ohead drop bind deref].
rewrite (_ : sop [:: Some (aB - d); _; _] _ = Some (c *: (aB - d) + x *: aP + y *: h0 g)); last first.
  by rewrite /sop /= addr0 addrA.
cbn [bind deref].
rewrite (_ : [seq gens_get hashG1 g (m.1 + 1) | m <- zmap revealed] = map Some [seq gen hashG1 g x.1.+1 | x <- revealed]); last first.
  rewrite /zmap -!map_comp; apply/eq_in_map => z hz /=; rewrite -PoszD addn1 get_ok //; exact: (allP ha z hz).
rewrite -[Some g1 :: _]/(map Some (g1 :: [seq gen hashG1 g x.1.+1 | x <- revealed])) zmap_snd sop_some ?size_map //=; last first.
  by rewrite !size_map.
rewrite drop0 ltnNge hs /= (@eq_filter _ _ (fun i => i \notin map fst revealed)); last by move=> i; rewrite zassoc_isSome.
by rewrite take_resp_short.
Qed.

(** C51: special soundness.  Two proofs with the same A', Abar, D and the same commitments, accepted for two
    different challenges on the same revealed messages, give a signature that verifies on the revealed
    messages completed by extracted hidden ones, or a non-trivial linear relation between g1 and the
    generators (the commitment of some message vector is the identity). *)
Theorem C51_special_soundness (g : gens) sk (revealed : seq (nat * F)) aP aB d x1 y1 more1 u1 v1 w1 x2 y2 more2 u2 v2 w2 c1 c2 ops :
  injective penc1 -> (0 < glen g)%N ->
  uniq (map fst revealed) -> all (fun x => x.1 < glen g)%N revealed ->
  size w1 = (glen g - size revealed)%N -> size w2 = (glen g - size revealed)%N ->
  let p1 := PokProof aP aB d (x1 :: y1 :: more1) (u1 :: v1 :: w1) in
  let p2 := PokProof aP aB d (x2 :: y2 :: more2) (u2 :: v2 :: w2) in
  vcontribution g1 hashG1 penc1 p1 g (zmap revealed) c1 = Ok ops ->
  vcontribution g1 hashG1 penc1 p2 g (zmap revealed) c2 = Ok ops ->
  c1 != c2 -> verify_sig_pok g2 e p1 (pk sk) ->
  exists sg msgs, [/\ size msgs = glen g, all (fun x => msgs`_x.1 == x.2) revealed &
    verify (pk sk) sg g msgs = Ok tt \/ bcom g1 hashG1 g (ss sg) msgs = 0].
Proof.
move=> pinj n0 hu hall hw1 hw2 p1 p2.
have hle : (size revealed <= glen g)%N.
  rewrite -(size_iota 0 (glen g)) -(size_map fst); apply: uniq_leq_size => // i /mapP[x hx ->].
  by rewrite mem_iota; exact: (allP hall x hx).
have hsz : size (hidx g revealed) = (glen g - size revealed)%N.
  have := perm_size (perm_filter_iota (s := hidx g revealed) (t := map fst revealed) (n := glen g) _).
  have hc := count_predC (fun i => i \in map fst revealed) (iota 0 (glen g)).
  rewrite /hidx size_filter; rewrite size_iota in hc.
  have -> : count (fun i => i \notin map fst revealed) (iota 0 (glen g)) = count (predC (fun i => i \in map fst revealed)) (iota 0 (glen g)) by [].
  have hcc : count (fun i => i \in map fst revealed) (iota 0 (glen g)) = size revealed.
    rewrite -(size_map fst) -size_filter; apply/perm_size/uniq_perm => //; first by rewrite filter_uniq ?iota_uniq.
    move=> i; rewrite mem_filter; case: (boolP (i \in map fst revealed)) => //= /mapP[x hx ->].
    by rewrite mem_iota; exact: (allP hall x hx).
  by move=> _; lia.
have e1 := @vcontrib_ok F G1 g1 hashG1 penc1 g revealed aP aB d x1 y1 more1 u1 v1 w1 [::] c1 hall hle (etrans hw1 (esym hsz)).
have e2 := @vcontrib_ok F G1 g1 hashG1 penc1 g revealed aP aB d x2 y2 more2 u2 v2 w2 [::] c2 hall hle (etrans hw2 (esym hsz)).
rewrite !cats0 in e1 e2; rewrite /p1 /p2 e1 e2 => -[<-] [/pinj E1 /pinj E2] hc.
rewrite (verify_sig_pok_iff ok) => /and4P[hsk haP haB /eqP hx].
set D := c1 - c2; have hD : D != 0 by rewrite subr_eq0.
set ee := (x1 - x2) / D; set r2 := (y1 - y2) / D; set r3 := (u1 - u2) / D; set sp := (v1 - v2) / D.
set mh := fun i => (nth 0 w1 (index i (hidx g revealed)) - nth 0 w2 (index i (hidx g revealed))) / D.
pose look i := odflt (mh i) (ohead [seq x.2 | x <- revealed & x.1 == i]).
pose msgs := [seq look i | i <- iota 0 (glen g)].
have hmsgs : size msgs = glen g by rewrite size_map size_iota.
have lookr : forall x, x \in revealed -> look x.1 = x.2.
  move=> x hxr; rewrite /look.
  have : [seq y <- revealed | y.1 == x.1] = [:: x].
    have : perm_eq [seq y <- revealed | y.1 == x.1] [:: x].
      apply: uniq_perm; [by rewrite filter_uniq // (map_uniq hu)|by []|].
      move=> y; rewrite mem_filter inE; apply/andP/eqP => [[/eqP hyx hy]|->]; last by rewrite eqxx.
      move: hu hy hxr hyx; elim: revealed {hall hw1 hw2 p1 p2 hle hsz e1 e2 E1 E2 mh look msgs hmsgs} => //= z l IH /andP[hz hl].
      rewrite !inE => /orP[/eqP ->|hy] /orP[/eqP ->|hxr] // hyx.
      - by case/negP: hz; rewrite hyx; apply: map_f.
      - by case/negP: hz; rewrite -hyx; apply: map_f.
      - exact: IH.
    by move/perm_small_eq; apply.
  by move=> ->.
have lookh : forall i, i \notin map fst revealed -> look i = mh i.
  move=> i hi; rewrite /look (_ : [seq x <- revealed | x.1 == i] = [::]) //.
  apply/eqP; rewrite -[_ == _]negbK -has_filter; apply/negP => /hasP[x hxr /eqP hxi].
  by case/negP: hi; rewrite -hxi; apply: map_f.
exists (Sig (r3 *: aP) ee (sp - r2 * r3)), msgs; split=> //.
  apply/allP => x hxr; have hxn : (x.1 < glen g)%N := allP hall x hxr.
  by rewrite /msgs (nth_map 0%N) ?size_iota // nth_iota // add0n lookr.
(* the commitment of the extracted message vector *)
have hbc : forall s, bcom g1 hashG1 g s msgs = rcom g1 hashG1 g revealed + s *: h0 g + \sum_(i <- hidx g revealed) mh i *: gen hashG1 g i.+1.
  move=> s; rewrite (@bcom_perm _ _ _ _ _ _ _ ([seq (i, mh i) | i <- hidx g revealed] ++ revealed)).
  - rewrite big_cat big_map /= /rcom.
    by rewrite addrA addrAC [X in X + _]addrAC.
  - rewrite hmsgs map_cat -map_comp /= (@eq_map _ _ _ id) // map_id.
    apply: uniq_perm; rewrite ?iota_uniq // ?cat_uniq ?hu ?filter_uniq ?iota_uniq //=.
      by rewrite andbT; apply/hasPn => i hi; have : i \notin hidx g revealed by rewrite /hidx mem_filter hi.
    move=> i; rewrite mem_cat /hidx mem_filter; case: (boolP (i \in map fst revealed)) => /= [/mapP[x hx' ->]|_]; last by rewrite orbF.
    by rewrite mem_iota; symmetry; exact: (allP hall x hx').
  - rewrite all_cat; apply/andP; split; apply/allP => x.
      case/mapP => i; rewrite /hidx mem_filter mem_iota => /andP[hi hin] -> /=.
      by rewrite /msgs (nth_map 0%N) ?size_iota // nth_iota // add0n lookh.
    by move=> hxr; rewrite /msgs (nth_map 0%N) ?size_iota ?nth_iota ?add0n ?lookr //; exact: (allP hall x hxr).
have hmh : \sum_(i <- hidx g revealed) mh i *: gen hashG1 g i.+1 =
   D^-1 *: (lincomb [seq gen hashG1 g i.+1 | i <- hidx g revealed] w1 - lincomb [seq gen hashG1 g i.+1 | i <- hidx g revealed] w2).
  have hw : forall w, size w = size (hidx g revealed) ->
     lincomb [seq gen hashG1 g i.+1 | i <- hidx g revealed] w = \sum_(i <- hidx g revealed) nth 0 w (index i (hidx g revealed)) *: gen hashG1 g i.+1.
    move=> w hw; rewrite -lincomb_map; congr lincomb.
    apply: (@eq_from_nth _ 0); rewrite ?size_map // => j; rewrite hw => hj.
    by rewrite (nth_map 0%N) // index_uniq // filter_uniq // iota_uniq.
  rewrite !hw ?hsz // -sumrB scaler_sumr; apply: eq_bigr => i _.
  by rewrite -scalerBl scalerA mulrC.
set L1 := lincomb _ w1 in E2 hmh; set L2 := lincomb _ w2 in E2 hmh.
set R := rcom g1 hashG1 g revealed in E2 hbc *.
(* the two verification equations *)
have q1 : D *: (aB - d) + (x1 - x2) *: aP + (y1 - y2) *: h0 g = 0.
  move: E1; rewrite -hx /D; set X := sk *: aP - d; move=> /(congr1 (fun z => z - (c2 *: X + x2 *: aP + y2 *: h0 g))).
  by rewrite subrr => E; rewrite [RHS]E; move: X {E} => X; lm_reduce F G1; ring.
have q2 : D *: R - (u1 - u2) *: d + (v1 - v2) *: h0 g + (L1 - L2) = 0.
  move: E2 => /(congr1 (fun z => z - (c2 *: R - u2 *: d + v2 *: h0 g + L2))); rewrite subrr => E; rewrite [RHS]E /D.
  by move: R L1 L2 {E hbc hmh} => R L1 L2; lm_reduce F G1; ring.
have hd : d = (sk + ee) *: aP + r2 *: h0 g.
  have : d = D^-1 *: (D *: (aB - d) + (x1 - x2) *: aP + (y1 - y2) *: h0 g) + d by rewrite q1 scaler0 add0r.
  move=> ->; rewrite -hx /ee /r2; move: (D) (hD) => D' hD'; lm_reduce F G1; field; f_side.
have hkey : (ee + sk) *: (r3 *: aP) = bcom g1 hashG1 g (sp - r2 * r3) msgs.
  rewrite hbc hmh.
  have hR : R = r3 *: d - sp *: h0 g - D^-1 *: (L1 - L2).
    have : R = D^-1 *: (D *: R - (u1 - u2) *: d + (v1 - v2) *: h0 g + (L1 - L2)) + r3 *: d - sp *: h0 g - D^-1 *: (L1 - L2).
      rewrite /r3 /sp; move: (D) (hD) (R) (L1) (L2) => D' hD' R' L1' L2'; lm_reduce F G1; field; f_side.
    by rewrite q2 scaler0 add0r.
  rewrite hR hd; move: (D) (ee) (r2) (r3) (sp) (hD) (L1) (L2) => D' ee' r2' r3' sp' hD' L1' L2'.
  lm_reduce F G1; field; f_side.
case: (eqVneq (r3 *: aP) 0) => hz.
  by right; rewrite /= -hkey hz scaler0.
left; apply/(verify_iff g1 ok); split=> //; by rewrite hmsgs n0 leqnn.
Qed.
End Props.

Print Assumptions C49_verify_iff.
Print Assumptions C49_sign_verify.
Print Assumptions C49_blind_issuance.
Print Assumptions C49_blind_index_refuted.
Print Assumptions C49_blind_proof_count_refuted.
Print Assumptions C50_generators_equal_refuted.
Print Assumptions C50_binding_refuted.
Print Assumptions C50_permutation_refuted.
Print Assumptions C70_blind_nonce_reuse_refuted.
Print Assumptions C51_pok_complete.
Print Assumptions C51_sig_pok_iff.
Print Assumptions C51_short_proof_refuted.
Print Assumptions C51_special_soundness.

(* ------------------------------------------------------ the hypotheses are met *)
Section Examples.
Let hash7 (_ : bytes) : G257 := 7%:R.
Let pe (x : G257) : bytes := [:: (x : nat)].
Let se257 (x : F257) : bytes := [:: (x : nat)].
Let xof0 (_ : blog) : bytes := [::].
Let wide0 (_ : bytes) : F257 := 9%:R.
Let drbg0 (_ : bytes) : F257 * F257 := (2%:R, 3%:R).
Let g3 : gens G257 := Gens (7%:R : G257) 3 (copy_into 192 (pe (5%:R : G257)) ++ nseq 5 0%N ++ be4 3).

Example C49_init_hyps : gens_init hash7 pe (5%:R : G257) (Posz 3) = Ok g3.
Proof. by []. Qed.

Let okb (A : Type) (o : outcome A) : bool := if o is Ok _ then true else false.
Let pk5 : G257 := public_key g257 (5%:R : F257).

(** a signature on (1, 2, 4) that verifies, and the same signature on (2, 1, 4) *)
Example C49_sign_hyps : if sign (g257 : G257) hash7 pe se257 drbg0 (5%:R : F257) g3 [:: 1; 2%:R; 4%:R] is Ok sg
  then okb (verify (g257 : G257) g257 e257 hash7 pk5 sg g3 [:: 1; 2%:R; 4%:R]) &&
       okb (verify (g257 : G257) g257 e257 hash7 pk5 sg g3 [:: 2%:R; 1; 4%:R])
  else false.
Proof. by vm_compute. Qed.

(** two contexts for hidden messages 0 and 1 with message 2 known, giving two blind signatures that verify
    after unblinding, and whose combination with k = 1 is not the identity *)
Example C70_hyps :
  if (do c1 <- new_blind hash7 pe se257 xof0 wide0 [:: (Posz 0, 1); (Posz 1, 2%:R)] g3 (6%:R : F257) (fun k => k.+1%:R) 8%:R 9%:R;
      do c2 <- new_blind hash7 pe se257 xof0 wide0 [:: (Posz 0, 3%:R); (Posz 1, 2%:R)] g3 (6%:R : F257) (fun k => k.+1%:R) 7%:R 9%:R;
      do sg1 <- to_blind (g257 : G257) hash7 pe pe se257 xof0 wide0 drbg0 c1.1 [:: (Posz 2, 4%:R)] (5%:R : F257) g3 6%:R;
      do sg2 <- to_blind (g257 : G257) hash7 pe pe se257 xof0 wide0 drbg0 c2.1 [:: (Posz 2, 4%:R)] (5%:R : F257) g3 6%:R;
      Ok (sg1, sg2)) is Ok (sg1, sg2)
  then [&& okb (verify (g257 : G257) g257 e257 hash7 pk5 (to_unblinded sg1 8%:R) g3 [:: 1; 2%:R; 4%:R]),
           okb (verify (g257 : G257) g257 e257 hash7 pk5 (to_unblinded sg2 7%:R) g3 [:: 3%:R; 2%:R; 4%:R]) &
           sa sg1 + 1 *: (sa sg1 - sa sg2) != 0]
  else false.
Proof. by vm_compute. Qed.

(** message 1 hidden, the others revealed; the theorem's hypotheses on the messages and the lengths *)
Let pm3 : seq (pmsg F257) := [:: PMsg 1 None; PMsg 2%:R (Some 5%:R); PMsg 4%:R None].
Example C51_hyps : [/\ size pm3 = glen g3, (glen g3 <= climit.-1)%N, map (@pm_msg F257) pm3 = [:: 1; 2%:R; 4%:R] &
  perm_eq [:: (2%N, 4%:R); (0%N, 1)] [seq (x.1, pm_msg x.2) | x <- shown 0 pm3]].
Proof. by split. Qed.
End Examples.

(** two accepting transcripts with the same commitments exist whenever the proof is complete for every
    challenge function: the responses are affine in the challenge *)
Example C51_special_soundness_hyps :
  let g := Gens (7%:R : G257) 1 [::] in
  let p c := PokProof (2%:R : G257) (6%:R : G257) (3%:R : G257) [:: 5%:R - 3%:R / 2%:R * c; 0] [:: 4%:R + 3%:R^-1 * c; 0; 2%:R] in
  let points ops := [seq (if o is BApp _ b then b else [::]) | o <- ops] in
  (if vcontribution (g257 : G257) (fun _ => 7%:R) (fun x => [:: (x : nat)]) (p 1) g [::] (1 : F257) is Ok o1 then
   if vcontribution (g257 : G257) (fun _ => 7%:R) (fun x => [:: (x : nat)]) (p 2%:R) g [::] (2%:R : F257) is Ok o2 then
   points o1 == points o2 else false else false)
  && verify_sig_pok g257 e257 (p 1) (public_key g257 (3%:R : F257)).
Proof. by vm_compute. Qed.
