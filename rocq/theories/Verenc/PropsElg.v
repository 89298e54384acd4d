(** C59: ElGamal verifiable encryption (pkg/verenc/elgamal). *)
From mathcomp Require Import all_ssreflect all_algebra.
From Coq Require Import Field.
From Verif Require Import Lib.Res Lib.Bytes Lib.FieldTac Lib.LmodTac Lib.Inst Verenc.ElgModel.
Set Implicit Arguments.
Unset Strict Implicit.
Unset Printing Implicit Defensive.
Import GRing.Theory.
Local Open Scope ring_scope.

Section Props.
Variables (F : fieldType) (G : lmodType F) (g : G).
Add Field F_field : (f_fth F).
Variables (penc uenc : G -> bytes) (hashF : bytes -> F) (hashG : bytes -> G) (decF : bytes -> option F).
Variables (kdf : G -> option bytes) (seal : bytes -> bytes -> bytes -> bytes -> bytes).
Variable open : bytes -> bytes -> bytes -> bytes -> option bytes.

Notation encrypt := (verifiable_encrypt g penc uenc hashF hashG decF kdf seal).
Notation decrypt := (verifiable_decrypt g uenc hashF decF kdf open).
Notation decrypt_dom := (verifiable_decrypt_domain g uenc hashF hashG decF kdf open).
Notation vproof := (verify_proof g penc hashF).
Notation vproof_dom := (verify_domain_proof g penc uenc hashF hashG).

(** What is assumed of AES-GCM: opening what was sealed returns it, and the tag adds 16 bytes. *)
Definition aead_ok := forall k n m a, open k n (seal k n m a) a = Some m /\ size (seal k n m a) = (size m + 16)%N.

(** ** Additively homomorphic encryption *)

Theorem C59_hom_decrypt (x m r : F) : dk_decrypt x (Some (hom_encrypt g (encryption_key g x) m r)) = Some (m *: g).
Proof.
rewrite /dk_decrypt /hom_encrypt /encryption_key /=; congr Some.
by rewrite !scalerA [r * x]mulrC addrC addKr.
Qed.

(** Any number of ciphertexts added up, whoever produced them, decrypts to the sum of the plaintexts. *)
Theorem C59_hom_sum (x : F) (c0 : hciphertext G) (cs : seq (hciphertext G)) :
  dk_decrypt x (Some (foldl (@hom_add F G) c0 cs)) =
  Some (foldl +%R (h_c2 c0 - x *: h_c1 c0) [seq h_c2 c - x *: h_c1 c | c <- cs]).
Proof.
rewrite /dk_decrypt; congr Some; elim: cs c0 => //= c cs IH c0.
by rewrite IH /= scalerDr opprD addrACA.
Qed.

Theorem C59_hom_sum_plain (x m0 r0 : F) (ms : seq (F * F)) :
  let q := encryption_key g x in
  dk_decrypt x (Some (foldl (@hom_add F G) (hom_encrypt g q m0 r0) [seq hom_encrypt g q p.1 p.2 | p <- ms]))
  = Some ((m0 + foldr (fun p s => p.1 + s) 0 ms) *: g).
Proof.
move=> q; rewrite C59_hom_sum; congr Some.
have E m r : h_c2 (hom_encrypt g q m r) - x *: h_c1 (hom_encrypt g q m r) = m *: g.
  by have := C59_hom_decrypt x m r; rewrite /dk_decrypt => -[].
rewrite E; elim: ms m0 {r0} => [|[m r] ms IH] m0 /=; first by rewrite addr0.
by rewrite E -scalerDl IH addrA.
Qed.

Theorem C59_hct_decrypt_agrees (x : F) (c : hciphertext G) : hct_decrypt c (Some x) = deref (dk_decrypt x (Some c)).
Proof. by []. Qed.

(** ** Encryption *)

(** The generator the message scalar multiplies. *)
Definition msg_base (dom : option bytes) q cn := if dom is Some d then hashG (d ++ uenc q ++ cn) else g.
(** The scalar a message stands for. *)
Definition stands_for (hashed : bool) (msg : bytes) (m : F) : Prop :=
  if hashed then decF msg = Some m else m = hashF msg.

Lemma msg_scalarP hashed msg m : msg_scalar hashF decF hashed msg = Ok m <-> stands_for hashed msg m.
Proof.
rewrite /msg_scalar /stands_for; case: hashed; last by split => [[->]|->].
by case: (decF msg) => [v|]; split => // -[->].
Qed.

Lemma msg_scalar_ok hashed msg m : stands_for hashed msg m -> msg_scalar hashF decF hashed msg = Ok m.
Proof. by move/msg_scalarP. Qed.

Lemma stands_fun hashed msg m m' : stands_for hashed msg m -> stands_for hashed msg m' -> m = m'.
Proof. by rewrite /stands_for; case: hashed => [-> []|-> ->]. Qed.

(** Exactly when VerifiableEncrypt succeeds and exactly what it returns. *)
Theorem C59_encrypt_iff q msg ps rb cn r ct pf ps' :
  rb != 0 ->
  encrypt q msg (Some ps) rb cn r = Ok (ct, pf, ps') <->
  exists mb b n key m,
    [/\ msg = Some mb, cn = Some n, b = odflt rb (p_blinding ps) & b != 0] /\
    [/\ kdf (b *: q) = Some key, stands_for (p_hashed ps) mb m & ps' = Params (p_hashed ps) (p_domain ps) (Some b) (p_genproof ps) (p_nonce ps)] /\
    (let h := msg_base (p_domain ps) q n in
     let c1 := b *: g in
     let c2 := m *: h + b *: q in
     ct = CT (Some c1) (Some c2) (Some n) (Some (seal key n mb (uenc c1 ++ uenc c2))) (p_hashed ps) /\
     if p_genproof ps then
       exists pn c, [/\ p_nonce ps = Some pn,
         c = hashF (penc c1 ++ penc c2 ++ penc (r *: g) ++ penc (r *: q + b *: h) ++ pn) &
         pf = Some (PF (Some c) (Some (b - c * m)) (Some (r - c * b)))]
     else pf = None).
Proof.
move=> hrb; rewrite /verifiable_encrypt; split.
  case: msg => [mb|//]; cbn [bind deref].
  have -> : (match p_blinding ps with Some b => if b == 0 then Err else Ok b | None => Ok rb end)
    = if odflt rb (p_blinding ps) == 0 then Err else Ok (odflt rb (p_blinding ps)).
    by case: (p_blinding ps) => [//|] /=; rewrite (negbTE hrb).
  set b := odflt _ _; case: ifP => // /negbT hb; cbn [bind].
  case: cn => [n|//]; rewrite -/(msg_base (p_domain ps) q n) /encrypt_with_nonce; lazy zeta.
  case hk: (kdf _) => [key|//].
  case hm: (msg_scalar _ _ _ _) => [m||] //; cbn [bind].
  have hs := (proj1 (msg_scalarP _ _ _)) hm.
  case hg: (p_genproof ps); last first.
    by case=> <- <- <-; exists mb, b, n, key, m; do !split.
  case hp: (p_nonce ps) => [pn|//]; rewrite /gen_proof; cbn [bind deref ct_c1 ct_c2]; rewrite hm; cbn [bind].
  case=> <- <- <-; exists mb, b, n, key, m; do !split => //.
  by exists pn, (hashF (challenge_bytes penc (b *: g) (m *: msg_base (p_domain ps) q n + b *: q)
       (r *: g) (r *: q + b *: msg_base (p_domain ps) q n) pn)).
case=> [mb [b [n [key [m [[-> -> eb hb] [[hk hs ->] [-> hpf]]]]]]]]; cbn [bind deref].
have -> : (match p_blinding ps with Some b => if b == 0 then Err else Ok b | None => Ok rb end) = Ok b.
  by move: eb hb; case: (p_blinding ps) => [b'|] /= -> // /negbTE ->.
cbn [bind]; rewrite -/(msg_base (p_domain ps) q n) /encrypt_with_nonce; lazy zeta.
rewrite hk; have hm := (proj2 (msg_scalarP _ _ _)) hs; rewrite hm; cbn [bind].
move: hpf; case: (p_genproof ps) => [[pn [c [-> ec ->]]]|-> //].
by rewrite /gen_proof; cbn [bind deref ct_c1 ct_c2]; rewrite hm; cbn [bind]; rewrite ec.
Qed.

(** ** Decryption *)

Lemma decrypt_dataP x q dom msg ps rb cn r ct pf ps' :
  rb != 0 -> aead_ok -> q = encryption_key g x -> (forall n, cn = Some n -> size n = 12%N) -> p_domain ps = dom ->
  encrypt q (Some msg) (Some ps) rb cn r = Ok (ct, pf, ps') ->
  exists m n, [/\ stands_for (p_hashed ps) msg m, ct_nonce ct = Some n &
    decrypt_data uenc hashF decF kdf open x (Some ct) = Ok (msg, m, m *: msg_base dom q n)].
Proof.
move=> hrb ha eq hn ed /C59_encrypt_iff -/(_ hrb) [mb [b [n [key [m [[[<-] en eb hb] [[hk hs _] [-> _]]]]]]]].
exists m, n; split => //; rewrite /decrypt_data; cbn [ct_c1 ct_c2 ct_nonce ct_aead ct_hashed].
have [_ ->] := ha key n msg (uenc (b *: g) ++ uenc (m *: msg_base (p_domain ps) q n + b *: q)).
rewrite (hn _ en) ltnn /= ltnNge leq_addl /=.
have et : x *: (b *: g) = b *: q by rewrite eq /encryption_key !scalerA mulrC.
rewrite et hk (proj1 (ha key n msg _)) (msg_scalar_ok hs); cbn [bind].
by rewrite addrK ed.
Qed.

(** Whatever is encrypted without a domain decrypts, to itself and its scalar. *)
Theorem C59_decrypt_encrypt x msg ps rb n r ct pf ps' :
  aead_ok -> rb != 0 -> size n = 12%N -> p_domain ps = None ->
  encrypt (encryption_key g x) (Some msg) (Some ps) rb (Some n) r = Ok (ct, pf, ps') ->
  exists m, stands_for (p_hashed ps) msg m /\ decrypt x (Some ct) = Ok (msg, m).
Proof.
move=> ha hrb hn hd he.
have [m [n' [hs _ hdd]]] := decrypt_dataP hrb ha erefl (fun k (e : Some n = Some k) => match e with erefl => hn end) hd he.
by exists m; split => //; rewrite /verifiable_decrypt hdd; cbn [bind]; rewrite eqxx.
Qed.

Theorem C59_decrypt_encrypt_domain x d msg ps rb n r ct pf ps' :
  aead_ok -> rb != 0 -> size n = 12%N -> p_domain ps = Some d ->
  encrypt (encryption_key g x) (Some msg) (Some ps) rb (Some n) r = Ok (ct, pf, ps') ->
  exists m, stands_for (p_hashed ps) msg m /\ decrypt_dom x d (Some ct) = Ok (msg, m).
Proof.
move=> ha hrb hn hd he.
have [m [n' [hs en hdd]]] := decrypt_dataP hrb ha erefl (fun k (e : Some n = Some k) => match e with erefl => hn end) hd he.
by exists m; split => //; rewrite /verifiable_decrypt_domain hdd; cbn [bind obind]; rewrite /domain_point /= en /= eqxx.
Qed.

(** Exactly which ciphertexts decrypt, over every ciphertext an attacker may present. *)
Theorem C59_decrypt_iff x ct mb m :
  decrypt x (Some ct) = Ok (mb, m) <->
  exists c1 c2 n a key,
    [/\ ct = CT (Some c1) (Some c2) (Some n) (Some a) (ct_hashed ct), size n = 12%N & (16 <= size a)%N] /\
    [/\ kdf (x *: c1) = Some key, open key n a (uenc c1 ++ uenc c2) = Some mb,
        stands_for (ct_hashed ct) mb m & c2 = m *: g + x *: c1].
Proof.
rewrite /verifiable_decrypt /decrypt_data; case: ct => [c1 c2 n a hs] /=; split.
  case: c1 => [c1|//]; case: c2 => [c2|//]; case: n => [n|//]; case: a => [a|//].
  case: ifP => [//|/negbT]; rewrite negb_or -!leqNgt => /andP[h12 h16].
  case hk: (kdf _) => [key|//]; case: ifP => [//|/negbFE/eqP hn].
  case ho: (open _ _ _ _) => [mb'|//].
  case hm: (msg_scalar _ _ _ _) => [m'||] //; cbn [bind].
  case: ifP => [/eqP hq [<- <-]|//]; exists c1, c2, n, a, key; do !split => //; first exact/msg_scalarP.
  by rewrite hq subrK.
case=> [c1' [c2' [n' [a' [key [[[-> -> -> ->] hn h16] [hk ho hm hc]]]]]]].
rewrite hn ltnn /= ltnNge h16 /= hk ho (msg_scalar_ok hm); cbn [bind].
by rewrite hc addrK eqxx.
Qed.

(** Finding: the length check rejects short nonces only; a longer one reaches AES-GCM, which panics. *)
Theorem C59_long_nonce_panics x c1 c2 n a h key :
  (12 < size n)%N -> (16 <= size a)%N -> kdf (x *: c1) = Some key ->
  decrypt x (Some (CT (Some c1) (Some c2) (Some n) (Some a) h)) = Panic /\
  forall d, decrypt_dom x d (Some (CT (Some c1) (Some c2) (Some n) (Some a) h)) = Panic.
Proof.
move=> hn ha hk.
have E : decrypt_data uenc hashF decF kdf open x (Some (CT (Some c1) (Some c2) (Some n) (Some a) h)) = Panic.
  rewrite /decrypt_data; cbn [ct_c1 ct_c2 ct_nonce ct_aead ct_hashed].
  by rewrite ltnNge (ltnW hn) /= ltnNge ha /= hk gtn_eqF.
by split=> [|d]; rewrite /verifiable_decrypt /verifiable_decrypt_domain E.
Qed.

(** ** Proofs of encryption *)

(** The verdict on any ciphertext and proof. *)
Theorem C59_verify_iff q nonce ct pf :
  vproof q nonce ct pf = Ok tt <->
  exists ct' pf' c1 c2 c s1 s2,
    [/\ ct = Some ct', pf = Some pf', ct_c1 ct' = Some c1 & ct_c2 ct' = Some c2] /\
    [/\ pf_c pf' = Some c, pf_s1 pf' = Some s1, pf_s2 pf' = Some s2 &
        c = hashF (penc c1 ++ penc c2 ++ penc (c *: c1 + s2 *: g) ++ penc (c *: c2 + s2 *: q + s1 *: g) ++ nonce)].
Proof.
rewrite /verify_proof /with_parts; split.
  case: ct => [ct|//]; case: pf => [pf|//].
  case e1: (pf_c pf) => [c|//]; case e2: (pf_s1 pf) => [s1|//]; case e3: (pf_s2 pf) => [s2|//].
  case e4: (ct_c1 ct) => [c1|//]; case e5: (ct_c2 ct) => [c2|//].
  rewrite /verify; lazy zeta; case: ifP => [/eqP hc _|//].
  by exists ct, pf, c1, c2, c, s1, s2; do !split.
case=> [ct' [pf' [c1 [c2 [c [s1 [s2 [[-> -> -> ->] [-> -> -> hc]]]]]]]]].
by rewrite /verify; lazy zeta; rewrite /challenge_bytes -hc eqxx.
Qed.

Lemma honest_commitments (q h : G) (b m r c : F) :
  c *: (b *: g) + (r - c * b) *: g = r *: g /\
  c *: (m *: h + b *: q) + (r - c * b) *: q + (b - c * m) *: h = r *: q + b *: h.
Proof. by split; lm_reduce F G; f_fold F; ring. Qed.

(** An honest proof made without a domain is accepted. *)
Theorem C59_proof_complete q msg ps pn rb cn r ct pf ps' :
  rb != 0 -> p_domain ps = None -> p_nonce ps = Some pn ->
  encrypt q msg (Some ps) rb cn r = Ok (ct, Some pf, ps') ->
  vproof q pn (Some ct) (Some pf) = Ok tt.
Proof.
move=> hrb hd hp /C59_encrypt_iff -/(_ hrb) [mb [b [n [key [m [_ [_ []]]]]]]].
rewrite hd /= => -> ; case: (p_genproof ps) => // -[pn' [c []]]; rewrite hp => -[<-] hc [->].
rewrite /verify_proof /with_parts /= /verify; have [-> ->] := honest_commitments q g b m r c.
by rewrite /challenge_bytes -hc eqxx.
Qed.

(** An honest proof made with domain [d] and proof nonce [pn] and checked with VerifyDomainEncryptProof under
    [nonce] is accepted exactly when the hash of the shifted commitment reproduces the challenge. *)
Theorem C59_domain_verdict q msg ps d pn nonce rb n r ct pf ps' :
  rb != 0 -> p_domain ps = Some d -> p_nonce ps = Some pn ->
  encrypt q msg (Some ps) rb (Some n) r = Ok (ct, Some pf, ps') ->
  exists c1 c2 c s1 r1 r2,
    [/\ ct_c1 ct = Some c1, ct_c2 ct = Some c2, pf_c pf = Some c & pf_s1 pf = Some s1] /\
    c = hashF (penc c1 ++ penc c2 ++ penc r1 ++ penc r2 ++ pn) /\
    (vproof_dom q nonce (Some ct) (Some pf) = Ok tt <->
     hashF (penc c1 ++ penc c2 ++ penc r1 ++
       penc (r2 + s1 *: (hashG (nonce ++ uenc q ++ n) - hashG (d ++ uenc q ++ n))) ++ nonce) = c).
Proof.
move=> hrb hd hp /C59_encrypt_iff -/(_ hrb) [mb [b [n' [key [m [[_ [<-] _ _] [_ []]]]]]]].
rewrite hd /=; set h := hashG (d ++ _) => ->; case: (p_genproof ps) => // -[pn' [c []]]; rewrite hp => -[<-] hc [->].
exists (b *: g), (m *: h + b *: q), c, (b - c * m), (r *: g), (r *: q + b *: h); split => //; split => //.
rewrite /verify_domain_proof /with_parts /= /verify /domain_point; set h' := hashG (nonce ++ _).
have [-> _] := honest_commitments q h b m r c.
have -> : c *: (m *: h + b *: q) + (r - c * b) *: q + (b - c * m) *: h'
        = r *: q + b *: h + (b - c * m) *: (h' - h) by lm_reduce F G; f_fold F; ring.
rewrite /challenge_bytes; set w := hashF _; clearbody w.
by split=> [|->]; [case: ifP => [/eqP|] | rewrite eqxx].
Qed.

(** So a proof whose proof nonce equals its domain is accepted ... *)
Theorem C59_domain_complete q msg ps d rb n r ct pf ps' :
  rb != 0 -> p_domain ps = Some d -> p_nonce ps = Some d ->
  encrypt q msg (Some ps) rb (Some n) r = Ok (ct, Some pf, ps') ->
  vproof_dom q d (Some ct) (Some pf) = Ok tt.
Proof.
move=> hrb hd hp he; have [c1 [c2 [c [s1 [r1 [r2 [_ [hc ->]]]]]]]] := C59_domain_verdict d hrb hd hp he.
by rewrite subrr scaler0 addr0 -hc.
Qed.

(** ... and (finding) one whose proof nonce differs from its domain is rejected under that nonce, unless the hash
    function collides or the response happens to be zero. *)
Theorem C59_domain_refuted q msg ps d pn rb n r ct pf ps' :
  rb != 0 -> p_domain ps = Some d -> p_nonce ps = Some pn ->
  injective hashF -> injective penc -> (forall u v : G, size (penc u) = size (penc v)) ->
  hashG (pn ++ uenc q ++ n) != hashG (d ++ uenc q ++ n) ->
  pf_s1 pf != Some 0 ->
  encrypt q msg (Some ps) rb (Some n) r = Ok (ct, Some pf, ps') ->
  vproof_dom q pn (Some ct) (Some pf) <> Ok tt.
Proof.
move=> hrb hd hp hi hpi hsz hh hs1 he.
have [c1 [c2 [c [s1 [r1 [r2 [[_ _ _ es] [hc ->]]]]]]]] := C59_domain_verdict pn hrb hd hp he.
rewrite hc => /hi/eqP; rewrite !eqseq_cat // !eqxx /= => /andP[/eqP/hpi e _].
have hs : s1 != 0 by move: hs1; rewrite es; apply: contraNneq => ->.
move/eqP: e; rewrite -[X in _ == X]addr0 (inj_eq (addrI _)) scaler_eq0 (negbTE hs) /= subr_eq0.
by rewrite (negbTE hh).
Qed.

(** Knowledge: two accepting proofs for one ciphertext over the same commitments with different challenges
    determine an opening of the ciphertext as an encryption. *)
Theorem C59_special_soundness (q h c1 c2 : G) (c c' s1 s1' s2 s2' : F) :
  c != c' ->
  c *: c1 + s2 *: g = c' *: c1 + s2' *: g ->
  c *: c2 + s2 *: q + s1 *: h = c' *: c2 + s2' *: q + s1' *: h ->
  let b := (s2' - s2) / (c - c') in
  let m := (s1' - s1) / (c - c') in
  c1 = b *: g /\ c2 = m *: h + b *: q.
Proof.
rewrite -subr_eq0 => hc e1 e2 b m.
have E1 : (c - c') *: c1 = (s2' - s2) *: g.
  apply/eqP; rewrite -subr_eq0; apply/eqP.
  by move/eqP: e1; rewrite -subr_eq0 => /eqP <-; lm_reduce F G; f_fold F; ring.
have E2 : (c - c') *: c2 = (s1' - s1) *: h + (s2' - s2) *: q.
  apply/eqP; rewrite -subr_eq0; apply/eqP.
  by move/eqP: e2; rewrite -subr_eq0 => /eqP <-; lm_reduce F G; f_fold F; ring.
have K (v : G) : v = (c - c')^-1 *: ((c - c') *: v) by rewrite scalerA mulVf // scale1r.
by split; [rewrite (K c1) E1 scalerA mulrC | rewrite (K c2) E2 scalerDr !scalerA ![_^-1 * _]mulrC].
Qed.

(** Finding: the proof reuses the encryption randomness [b] as the mask of the message, so a ciphertext together
    with its proof reveals m*G, and without a domain the whole plaintext, to anyone.  [eavesdrop] uses no key. *)
Definition leaked_point (ct : ciphertext G) (pf : proof F) : option G :=
  match ct_c1 ct, pf_c pf, pf_s1 pf with
  | Some c1, Some c, Some s1 => Some (c^-1 *: (c1 - s1 *: g))
  | _, _, _ => None
  end.
Definition eavesdrop (ct : ciphertext G) (pf : proof F) : option bytes :=
  match leaked_point ct pf, ct_c1 ct, ct_c2 ct, ct_nonce ct, ct_aead ct with
  | Some mg, Some c1, Some c2, Some n, Some a =>
      obind (fun key => open key n a (uenc c1 ++ uenc c2)) (kdf (c2 - mg))
  | _, _, _, _, _ => None
  end.

Theorem C59_proof_leaks_point q msg ps rb cn r ct pf ps' :
  rb != 0 -> pf_c pf != Some 0 ->
  encrypt q (Some msg) (Some ps) rb cn r = Ok (ct, Some pf, ps') ->
  exists m, stands_for (p_hashed ps) msg m /\ leaked_point ct pf = Some (m *: g).
Proof.
move=> hrb hc0 /C59_encrypt_iff -/(_ hrb) [mb [b [n [key [m [[[<-] _ _ _] [[_ hs _] [-> h]]]]]]]].
exists m; split => //; move: h; case: (p_genproof ps) => // -[pn [c [_ _ epf]]].
case: epf hc0 => -> /= hc; rewrite /leaked_point /=; congr Some.
have {}hc : c != 0 by apply: contraNneq hc => ->.
have -> : b *: g - (b - c * m) *: g = c *: (m *: g) by lm_reduce F G; f_fold F; ring.
by rewrite [c^-1 *: _]scalerA mulVf // scale1r.
Qed.

Theorem C59_proof_leaks_plaintext_refuted q msg ps rb cn r ct pf ps' :
  aead_ok -> rb != 0 -> p_domain ps = None -> pf_c pf != Some 0 ->
  encrypt q (Some msg) (Some ps) rb cn r = Ok (ct, Some pf, ps') ->
  eavesdrop ct pf = Some msg.
Proof.
move=> ha hrb hd hc he; have [m [hs hl]] := C59_proof_leaks_point hrb hc he.
rewrite /eavesdrop hl; move/C59_encrypt_iff: he => /(_ hrb) [mb [b [n [key [m' [[[<-] _ _ _] [[hk hs' _] [-> _]]]]]]]].
rewrite hd /= -(stands_fun hs hs') addrAC subrr add0r hk /=.
by have [] := ha key n msg (uenc (b *: g) ++ uenc (m *: g + b *: q)).
Qed.

(** Finding: VerifiableEncrypt stores the randomness it drew in the caller's params.  A second message encrypted
    with the same params gets the same randomness: the two ciphertexts reveal the difference of the messages. *)
Theorem C59_params_reuse_refuted q m1 m2 ps rb rb' n1 n2 r1 r2 ct1 ct2 pf1 pf2 ps1 ps2 :
  rb != 0 -> rb' != 0 -> p_domain ps = None ->
  encrypt q (Some m1) (Some ps) rb n1 r1 = Ok (ct1, pf1, ps1) ->
  encrypt q (Some m2) (Some ps1) rb' n2 r2 = Ok (ct2, pf2, ps2) ->
  exists s1 s2 c1 c2, [/\ stands_for (p_hashed ps) m1 s1, stands_for (p_hashed ps) m2 s2,
     ct_c1 ct1 = ct_c1 ct2, ct_c2 ct1 = Some c1 & ct_c2 ct2 = Some c2] /\ c1 - c2 = (s1 - s2) *: g.
Proof.
move=> h1 h2 hd /C59_encrypt_iff -/(_ h1) [mb [b [n [key [m [[[<-] _ _ _] [[_ hs eps] [-> _]]]]]]]].
rewrite eps; move/C59_encrypt_iff => /(_ h2) [mb' [b' [n' [key' [m' [[[<-] _ eb _] [[_ hs' _] [-> _]]]]]]]].
exists m, m'; rewrite hd /= in hs' eb *; rewrite eb.
exists (m *: g + b *: q), (m' *: g + b *: q); split => //.
by rewrite opprD addrACA subrr addr0 scalerBl.
Qed.

(** Nil and zero arguments. *)
Theorem C59_rejects q ps rb cn r x :
  [/\ encrypt q None ps rb cn r = Err,
      forall m, encrypt q (Some m) None rb cn r = Panic,
      forall m p, p_blinding p = Some 0 -> encrypt q (Some m) (Some p) rb cn r = Err,
      decrypt x None = Err &
      dk_decrypt x (None : option (hciphertext G)) = None].
Proof.
split=> //= m p hb; rewrite /verifiable_encrypt; cbn [bind deref].
by rewrite hb eqxx.
Qed.
End Props.

Print Assumptions C59_hom_decrypt.
Print Assumptions C59_hom_sum.
Print Assumptions C59_hom_sum_plain.
Print Assumptions C59_hct_decrypt_agrees.
Print Assumptions C59_encrypt_iff.
Print Assumptions C59_decrypt_encrypt.
Print Assumptions C59_decrypt_encrypt_domain.
Print Assumptions C59_decrypt_iff.
Print Assumptions C59_long_nonce_panics.
Print Assumptions C59_verify_iff.
Print Assumptions C59_proof_complete.
Print Assumptions C59_domain_verdict.
Print Assumptions C59_domain_complete.
Print Assumptions C59_domain_refuted.
Print Assumptions C59_special_soundness.
Print Assumptions C59_proof_leaks_point.
Print Assumptions C59_proof_leaks_plaintext_refuted.
Print Assumptions C59_params_reuse_refuted.
Print Assumptions C59_rejects.

(** ** A concrete run: key 5, message "\1\2", randomness 3, proof randomness 9. *)
Definition kdf257 (t : G257) : option bytes := Some [:: nat_of_ord (t : F257)].
Definition enc257 (p : G257) : bytes := [:: nat_of_ord (p : F257)].
Definition hF257 (b : bytes) : F257 := ((foldl (fun a x => (a * 3 + x) %% 257) 7 b)%N)%:R.
Definition hG257 (b : bytes) : G257 := ((foldl (fun a x => (a * 5 + x) %% 257) 1 b)%N)%:R : F257.
Definition seal257 (k n m a : bytes) : bytes := m ++ take 16 (k ++ a ++ nseq 16 0%N).
Definition open257 (k n c a : bytes) : option bytes :=
  if drop (size c - 16) c == take 16 (k ++ a ++ nseq 16 0%N) then Some (take (size c - 16) c) else None.

Lemma aead257 : aead_ok seal257 open257.
Proof.
move=> k n m a; rewrite /open257 /seal257.
have h : size (take 16 (k ++ a ++ nseq 16 0%N)) = 16%N.
  by apply: size_takel; rewrite !size_cat size_nseq addnA leq_addl.
rewrite size_cat h addnK; split => //.
by rewrite drop_size_cat // eqxx take_size_cat.
Qed.

Definition run257 (dom : option bytes) (pn : bytes) :=
  verifiable_encrypt g257 enc257 enc257 hF257 hG257 (fun _ => None) kdf257 seal257
    (5%:R : G257) (Some [:: 1; 2]%N) (Some (Params false dom None true (Some pn))) (3%:R : F257)
    (Some (iota 1 12)) (9%:R : F257).

Example C59_hyps :
  (if run257 None [:: 8]%N is Ok (ct, Some pf, ps) then
     [&& is_ok (verify_proof g257 enc257 hF257 (5%:R : G257) [:: 8]%N (Some ct) (Some pf)),
         (if verifiable_decrypt g257 enc257 hF257 (fun _ => None) kdf257 open257 (5%:R : F257) (Some ct)
          is Ok (m, _) then m == [:: 1; 2]%N else false),
         eavesdrop g257 enc257 kdf257 open257 ct pf == Some [:: 1; 2]%N,
         pf_c pf != Some 0 & p_blinding ps == Some 3%:R]
   else false) = true.
Proof. by vm_compute. Qed.

(** domain "\4" with proof nonce "\4" verifies, with proof nonce "\8" it does not *)
Example C59_domain_hyps :
  [&& (if run257 (Some [:: 4]%N) [:: 4]%N is Ok (ct, Some pf, _) then
         is_ok (verify_domain_proof g257 enc257 enc257 hF257 hG257 (5%:R : G257) [:: 4]%N (Some ct) (Some pf))
       else false) &
      (if run257 (Some [:: 4]%N) [:: 8]%N is Ok (ct, Some pf, _) then
         ~~ is_ok (verify_domain_proof g257 enc257 enc257 hF257 hG257 (5%:R : G257) [:: 8]%N (Some ct) (Some pf))
         && (hG257 ([:: 8]%N ++ enc257 (5%:R : F257) ++ iota 1 12) != hG257 ([:: 4]%N ++ enc257 (5%:R : F257) ++ iota 1 12))
         && (pf_s1 pf != Some 0)
       else false)] = true.
Proof. by vm_compute. Qed.
