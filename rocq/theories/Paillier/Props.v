(** Property theorems for pkg/paillier. *)
From mathcomp Require Import all_ssreflect all_algebra all_fingroup cyclic zify.
From Verif Require Import Lib.Res Lib.Bytes Paillier.Model Paillier.Proofs.
Set Implicit Arguments. Unset Strict Implicit. Unset Printing Implicit Defensive.

(** what NewSecretKey needs for the cryptosystem to work *)
Definition good_primes (p q : nat) := [&& prime p, prime q, p != q & coprime (p * q) (p.-1 * q.-1)].

(** C20 *)
Theorem C20_paillier_decrypt_encrypt : forall p q, good_primes p q ->
  exists sk, new_secret_key p q = Ok sk /\ sN sk = p * q /\
  forall m r, m < p * q -> 0 < r < p * q -> coprime r (p * q) ->
  exists c, encrypt (p * q) (Some (Posz m)) (Some (Posz r)) = Ok c /\
            decrypt sk (Some (Posz c)) = Ok m.
Proof.
move=> p q /and4P [pp pq npq cN]; have [u [e _]] := new_key_ok pp pq npq cN.
eexists; split; first exact: e; split=> // m r hm hr cr.
have [c e1 [hc h]] := encrypt_enc pp pq npq cN hm hr cr; exists c; split=> //.
by rewrite (decrypt_enc pp pq npq cN e hc h) modn_small.
Qed.
Print Assumptions C20_paillier_decrypt_encrypt.

(** Finding: a nonce that shares a factor with N is accepted by encryption, and the resulting ciphertext is
    refused by Decrypt. *)
Theorem C20_paillier_bad_nonce : forall p q sk, good_primes p q -> new_secret_key p q = Ok sk ->
  forall m r, m < p * q -> 0 < r < p * q -> ~~ coprime r (p * q) ->
  exists c, encrypt (p * q) (Some (Posz m)) (Some (Posz r)) = Ok c /\ decrypt sk (Some (Posz c)) = Err.
Proof.
move=> p q sk /and4P [pp pq npq cN] e m r hm /andP [r0 hr] ncr.
rewrite /encrypt /in_range hm hr /absz (negbTE (lt0n_neq0 r0)); cbn [negb].
eexists; split; first by []; set c := _ %% _.
have N0 : 0 < p * q * (p * q) by rewrite !muln_gt0 !prime_gt0.
have hc : c < p * q * (p * q) by rewrite ltn_mod.
have := decrypt_ok pp pq npq cN c e; rewrite hc /=.
have -> : coprime c (p * q) = false.
  apply/negbTE; apply: contra ncr => h.
  have : coprime ((p * q + 1) ^ m * r ^ (p * q)) (p * q).
    have dN : p * q %| p * q * (p * q) := dvdn_mulr _ (dvdnn _).
    rewrite -coprime_modl -(modn_dvdm _ dN).
    by rewrite -modnMml -modnMmr -/c coprime_modl.
  rewrite coprimeMl => /andP [_]; rewrite coprime_pexpl //.
  by rewrite muln_gt0 !prime_gt0.
by rewrite /decrypt; do 2?case: ifP => //; rewrite /l_fun; do 3?case: ifP.
Qed.
Print Assumptions C20_paillier_bad_nonce.

(** C21 on freshly encrypted values; *)
Theorem C21_paillier_homomorphic : forall p q sk, good_primes p q -> new_secret_key p q = Ok sk ->
  forall m1 m2 r1 r2 k c1 c2, coprime `|r1| (p * q) -> coprime `|r2| (p * q) ->
  encrypt (p * q) (Some m1) (Some r1) = Ok c1 -> encrypt (p * q) (Some m2) (Some r2) = Ok c2 ->
  (exists c, padd (p * q) (Some (Posz c1)) (Some (Posz c2)) = Ok c /\
     decrypt sk (Some (Posz c)) = Ok ((`|m1| + `|m2|) %% (p * q))) /\
  (k < p * q -> exists c, pmul (p * q) (Some (Posz k)) (Some (Posz c1)) = Ok c /\
     decrypt sk (Some (Posz c)) = Ok (k * `|m1| %% (p * q))).
Proof.
move=> p q sk /and4P [pp pq npq cN] e m1 m2 r1 r2 k c1 c2 cr1 cr2 e1 e2.
have H m r c : coprime `|r| (p * q) -> encrypt (p * q) (Some m) (Some r) = Ok c ->
    c < p * q * (p * q) /\ enc_of p q c `|m|.
  case: m => m //; case: r => r // cr; rewrite /encrypt /in_range; last by case: ltnP.
  case: ltnP => //= hm; case: ltnP => //= hr; case: eqP => //= /eqP r0 [E].
  have [|c' e' [h h']] := encrypt_enc pp pq npq cN hm _ cr; first by rewrite hr andbT lt0n.
  by move: e'; rewrite /encrypt /in_range hm hr /absz (negbTE r0) E => -[->].
have [h1 h1'] := H _ _ _ cr1 e1; have [h2 h2'] := H _ _ _ cr2 e2.
have N0 : 0 < p * q * (p * q) by rewrite !muln_gt0 !prime_gt0.
split.
  rewrite /padd /in_range h1 h2; cbn [andb absz]; eexists; split; first by [].
  by rewrite (decrypt_enc pp pq npq cN e _ (enc_mul h1' h2')) // ltn_mod.
move=> hk; rewrite /pmul /in_range hk h1; cbn [andb absz]; eexists; split; first by [].
by rewrite (decrypt_enc pp pq npq cN e _ (enc_exp k h1')) // ltn_mod.
Qed.
Print Assumptions C21_paillier_homomorphic.

(** and on every value that Decrypt accepts, whoever made it: decryption turns Add into addition and Mul
    into multiplication modulo N. *)
Theorem C21_paillier_homomorphic_all : forall p q sk, good_primes p q -> new_secret_key p q = Ok sk ->
  forall c1 c2 m1 m2 k, decrypt sk (Some (Posz c1)) = Ok m1 -> decrypt sk (Some (Posz c2)) = Ok m2 ->
  (exists c, padd (p * q) (Some (Posz c1)) (Some (Posz c2)) = Ok c /\
     decrypt sk (Some (Posz c)) = Ok ((m1 + m2) %% (p * q))) /\
  (k < p * q -> exists c, pmul (p * q) (Some (Posz k)) (Some (Posz c1)) = Ok c /\
     decrypt sk (Some (Posz c)) = Ok (k * m1 %% (p * q))).
Proof.
move=> p q sk /and4P [pp pq npq cN] e c1 c2 m1 m2 k.
have [u [e' hu]] := new_key_ok pp pq npq cN.
have := e; rewrite e' => -[<-] {e sk}.
set lam := lcm_ _ _ in e' hu *; set sk := SecretKey _ _ _ _ _.
have N1 : 1 < p * q := N_gt1 pp pq npq cN.
have D c m : decrypt sk (Some (Posz c)) = Ok m -> c < p * q * (p * q) /\
    exists a, [/\ a < p * q, c ^ lam = 1 + a * (p * q) %[mod p * q * (p * q)] & m = a * u %% (p * q)].
  rewrite /decrypt /in_range /sk /=; case: ltnP => //= hc.
  rewrite /l_fun; case: eqP => //= _; case: eqP => //= h1; case: ltnP => //= hx [<-]; split=> //.
  exists ((c ^ lam %% (p * q * (p * q)) - 1) %/ (p * q)); split=> //.
    rewrite ltn_divLR; last exact: ltnW N1.
    exact: leq_ltn_trans (leq_subr _ _) hx.
  set x := c ^ lam %% _ in h1 hx *.
  have ex := divn_eq x (p * q); rewrite h1 in ex.
  rewrite {2}ex addnK mulnK; last by rewrite ltnW.
  by rewrite addnC -ex /x modn_mod.
have R c a : c < p * q * (p * q) -> c ^ lam = 1 + a * (p * q) %[mod p * q * (p * q)] ->
    decrypt sk (Some (Posz c)) = Ok (a * u %% (p * q)).
  move=> hc h; rewrite /decrypt /in_range /sk /= hc /=.
  have h' : c ^ lam = 1 + (a %% (p * q)) * (p * q) %[mod p * q * (p * q)].
    rewrite h {1}(divn_eq a (p * q)) mulnDl -mulnA addnCA modnMDl //.
  by rewrite (l_of pp pq npq cN _ h') ?ltn_mod 1?ltnW //= modnMml.
have N0 : 0 < p * q * (p * q) by rewrite muln_gt0 (ltnW N1).
move=> /D [h1 [a1 [ha1 ea1 ->]]] /D [h2 [a2 [ha2 ea2 ->]]]; split.
  rewrite /padd /in_range h1 h2; cbn [andb absz]; eexists; split; first by [].
  rewrite (R _ (a1 + a2)) ?ltn_mod //; first by rewrite modnDm mulnDl.
  rewrite modnXm expnMn (modn_eqM ea1 ea2).
  have -> : (1 + a1 * (p * q)) * (1 + a2 * (p * q)) = a1 * a2 * (p * q * (p * q)) + (1 + (a1 + a2) * (p * q)) by nia.
  by rewrite modnMDl.
move=> hk; rewrite /pmul /in_range hk h1; cbn [andb absz]; eexists; split; first by [].
rewrite (R _ (k * a1)) ?ltn_mod //; first by rewrite modnMmr mulnA.
by rewrite modnXm -expnM mulnC expnM -modnXm ea1 modnXm binom_mod.
Qed.
Print Assumptions C21_paillier_homomorphic_all.

(** C22: the accepted ranges, for every integer argument. *)
Theorem C22_paillier_input_checks : forall (N : nat),
  (forall m r, is_ok (encrypt N (Some m) (Some r)) <-> (0 <= m < N)%R /\ (0 < r < N)%R) /\
  (forall c d, is_ok (padd N (Some c) (Some d)) <-> (0 <= c < (N * N)%N)%R /\ (0 <= d < (N * N)%N)%R) /\
  (forall a c, is_ok (pmul N (Some a) (Some c)) <-> (0 <= a < N)%R /\ (0 <= c < (N * N)%N)%R) /\
  (forall x, encrypt N None x = Err /\ encrypt N x None = Err /\ padd N None x = Err /\ padd N x None = Err /\
     pmul N None x = Err /\ pmul N x None = Err).
Proof.
move=> N.
have R (x : int) (M : nat) : in_range x M = (0 <= x < M)%R by case: x => n //=; lia.
split; first move=> m r.
  rewrite /encrypt !R; case: (boolP (0 <= m < N)%R) => hm /=; last by split=> // -[].
  case: (boolP (0 <= r < N)%R) => hr /=; last by split=> // -[] _ h; lia.
  by case: eqP => h /=; split=> //; move: hr; case: (r) h => // n; lia.
split; first by move=> c d; rewrite /padd !R; case: andP => h; split=> //= -[a b]; case: h.
split; first by move=> c d; rewrite /pmul !R; case: andP => h; split=> //= -[a b]; case: h.
by move=> [x|].
Qed.
Print Assumptions C22_paillier_input_checks.

(** For a key made from good primes Decrypt accepts exactly the units modulo N in [0, N^2), and returns a
    value below N. *)
Theorem C22_paillier_decrypt_domain : forall p q sk, good_primes p q -> new_secret_key p q = Ok sk ->
  forall c, (is_ok (decrypt sk (Some c)) <-> (0 <= c < (p * q * (p * q))%N)%R /\ coprime `|c| (p * q)) /\
  (forall m, decrypt sk (Some c) = Ok m -> m < p * q) /\ decrypt sk (Some c) <> Panic /\ decrypt sk None = Err.
Proof.
move=> p q sk /and4P [pp pq npq cN] e c.
have [u [e' hu]] := new_key_ok pp pq npq cN.
split.
  case: c => n; last by rewrite /decrypt /=; split=> // -[] h; lia.
  rewrite (decrypt_ok pp pq npq cN n e) /= ltz_nat; split=> [/andP [-> ->]|[-> ->]] //.
have := e; rewrite e' => -[<-]; split.
  move=> m; rewrite /decrypt; case: ifP => // _; case: l_fun => //= a [<-].
  by rewrite ltn_mod muln_gt0 !prime_gt0.
by split=> //; rewrite /decrypt; case: ifP => // _; rewrite /l_fun; do 3?case: ifP.
Qed.
Print Assumptions C22_paillier_decrypt_domain.

(** Finding: equal primes are accepted, and then decryption does not invert encryption. *)
Theorem C22_equal_primes_refuted :
  exists p sk m r c, prime p /\ new_secret_key p p = Ok sk /\ m < p * p /\ 0 < r < p * p /\
    coprime r (p * p) /\ encrypt (p * p) (Some (Posz m)) (Some (Posz r)) = Ok c /\
    decrypt sk (Some (Posz c)) <> Ok m /\ is_ok (decrypt sk (Some (Posz c))).
Proof.
exists 3, (SecretKey 9 81 2 4 5), 0, 4, (4 ^ 9 %% 81).
by vm_compute; repeat split.
Qed.
Print Assumptions C22_equal_primes_refuted.

(** C23: completeness, for every list of 13 challenges below N (and so for every challenge derivation). *)
Theorem C23_psf_complete : forall p q sk ord xs, good_primes p q -> new_secret_key p q = Ok sk ->
  (p * q) %% ord != 0 -> size xs = 13 -> all (fun x => x < p * q) xs ->
  exists ys, psf_prove sk xs = Ok ys /\ psf_verify (p * q) ord (map (Some \o Posz) ys) xs = Ok tt.
Proof.
move=> p q sk ord xs /and4P [pp pq npq cN] e ho hs hx.
have [u [e' hu]] := new_key_ok pp pq npq cN; have := e; rewrite e' => -[<-].
rewrite /psf_prove; cbn [sN sTotient]; case E: mod_inv => [M|]; last first.
  by move: E; rewrite /mod_inv cN.
rewrite hs eqxx /=; eexists; split; first by [].
rewrite /psf_verify (negbTE ho) hs eqxx /=; apply: psf_loop_ok.
elim: xs hx {hs} => //= x xs IH /andP [hx h]; rewrite IH // andbT.
by rewrite modnXm (psf_exp pp pq npq cN x E) modn_small.
Qed.
Print Assumptions C23_psf_complete.

Lemma flatten_chunks (u : bytes) n i : size u = 32 * (i + n) ->
  flatten [seq copy_into 32 (drop (32 * k.-1) u) | k <- iota i.+1 n] = drop (32 * i) u.
Proof.
elim: n i => [|n IH] i hu; first by rewrite drop_oversize // hu addn0.
rewrite /= IH; last by rewrite hu addSnnS.
rewrite /copy_into takel_cat; last by rewrite size_drop hu; lia.
have -> : 32 * i.+1 = 32 + 32 * i by lia.
by rewrite -drop_drop cat_take_drop.
Qed.

(** C23: the candidate challenge of each step is made of the full b/8 bytes: with 32-byte hash blocks, every value
    of that width is the candidate for some hash function. *)
Theorem C23_candidate_range : forall b j m v, v < 256 ^ (b %/ 8) ->
  exists fs : nat -> nat -> nat -> bytes, (forall j k m, size (fs j k m) = 32) /\ candidate fs b j m = v.
Proof.
move=> b j m v hv; pose w := rev (le_bytes (b %/ 8) v).
have hw : size w = b %/ 8 by rewrite size_rev size_le_bytes.
have ew : be_val w = v by have := le_bytesK hv; rewrite /le_val.
pose u := w ++ nseq (32 * ((b + 255) %/ 256) - b %/ 8) 0.
have hu : size u = 32 * (0 + (b + 255) %/ 256) by rewrite size_cat size_nseq hw; lia.
exists (fun _ k _ => copy_into 32 (drop (32 * k.-1) u)); split; first by move=> *; apply: size_copy_into.
by rewrite /candidate (flatten_chunks hu) muln0 drop0 /u take_size_cat.
Qed.
Print Assumptions C23_candidate_range.

(** the generated challenges are 13 values in (0, N); *)
Theorem C23_challenges_in_range : forall fs fuel N xs, gen_challenges fs fuel N = Some (Ok xs) ->
  size xs = 13 /\ all (fun x => 0 < x < N) xs.
Proof.
move=> fs fuel N xs; rewrite /gen_challenges; case: ifP => // _.
case E: chal_loop => [ys|] //= [<-].
have H : forall f b j m zs, j <= 13 -> chal_loop fs f N b j m = Some zs ->
    size zs = 13 - j /\ all (fun x => 0 < x < N) zs.
  elim=> [|f IH] b j m zs hj /=; rewrite /psf_len; case: leqP => h //; try by move=> [<-]; split=> //; rewrite /=; lia.
  case: ifP => hx; last exact: IH.
  case El: chal_loop => [ws|] //= [<-] /=; have [|s a] := IH _ _ _ _ _ El; first by [].
  by rewrite hx a s; split=> //; lia.
by have := H _ _ 0 _ _ isT E.
Qed.
Print Assumptions C23_challenges_in_range.

(** Soundness of an accepted proof: if the square of a prime s divides N, or a prime s dividing N also
    divides t-1 for another prime factor t of N, then every accepted challenge that is coprime to N is an
    s-th residue: a proper subgroup. *)
Theorem C23_psf_sound : forall N ord proof xs, 0 < N -> psf_verify N ord proof xs = Ok tt ->
  forall x, x \in xs -> coprime x N ->
  (forall s, prime s -> s * s %| N -> x ^ s.-1 = 1 %[mod s * s]) /\
  (forall s t, prime s -> prime t -> s %| N -> t %| N -> s %| t.-1 -> x ^ (t.-1 %/ s) = 1 %[mod t]).
Proof.
move=> N ord proof xs N0; rewrite /psf_verify; case: ifP => // _; case: ifP => // _ /psf_loop_exact [_ h] x.
case/(nthP 0) => j hj ex cx; have [y [_ ey]] := h j hj; rewrite ex in ey.
have [z ez] : exists z : nat, z ^ N = x %[mod N].
  exists (absz (modz y N)).
  have hz : Posz (absz (modz y N)) = modz y N.
    by rewrite gez0_abs // modz_ge0 // eqz_nat -lt0n.
  have E : exp_mod (Posz (absz (modz y N))) N N = exp_mod y N N by rewrite /exp_mod hz modzXm.
  by rewrite -ey -E exp_modE modn_mod.
have cz : coprime z N.
  have : coprime (z ^ N) N by rewrite -coprime_modl ez coprime_modl.
  by rewrite coprime_pexpl.
split=> [s ps d | s t ps pt ds dt dst].
- have ez' : z ^ N = x %[mod s * s] by rewrite -(modn_dvdm _ d) ez modn_dvdm.
  have cs : coprime z (s * s) := coprime_dvdr d cz.
  rewrite -modnXm -ez' modnXm -expnM.
  have [k ->] : exists k, N = s * k by case/dvdnP: (dvdn_trans (dvdn_mulr s (dvdnn s)) d) => k ->; exists k; rewrite mulnC.
  rewrite mulnAC expnM -modnXm.
  have <- : totient (s * s) = s * s.-1 by rewrite -[s * s]/(s ^ 2) totient_pfactor //= expn1 mulnC.
  by rewrite Euler_exp_totient // modnXm exp1n.
have ez' : z ^ N = x %[mod t] by rewrite -(modn_dvdm _ dt) ez modn_dvdm.
have ct : coprime z t := coprime_dvdr dt cz.
rewrite -modnXm -ez' modnXm -expnM; case/dvdnP: ds => k ->.
by rewrite -mulnA [s * _]mulnC divnK // mulnC expnM -modnXm -(totient_prime pt) Euler_exp_totient // modnXm exp1n.
Qed.
Print Assumptions C23_psf_sound.

(** Findings: a proof with fewer entries than challenges panics the verifier as soon as its entries are
    correct (an empty proof always does); *)
Theorem C23_psf_short_proof_panics : forall N ord proof xs, N %% ord != 0 -> size xs = 13 ->
  size proof < 13 -> all isSome proof ->
  (forall j, j < size proof -> exists y, nth None proof j = Some y /\ exp_mod y N N = nth 0 xs j) ->
  psf_verify N ord proof xs = Panic.
Proof.
move=> N ord proof xs ho hs hp ha h; rewrite /psf_verify (negbTE ho) hs eqxx /=.
by apply: psf_loop_short; rewrite ?hs.
Qed.
Print Assumptions C23_psf_short_proof_panics.

(** and the challenges are not bound to the modulus: two moduli of one bit length get the same challenges
    whenever those of the larger one are below the smaller one. *)
Theorem C23_challenges_ignore_modulus : forall fs fuel N N' xs, N <= N' -> bitlen N = bitlen N' ->
  gen_challenges fs fuel N' = Some (Ok xs) -> all (fun x => x < N) xs ->
  gen_challenges fs fuel N = Some (Ok xs).
Proof.
move=> fs fuel N N' xs hN hb; rewrite /gen_challenges hb; case: ifP => // _.
case E: chal_loop => [ys|] //= [<-] ha.
suff H : forall f b j m zs, chal_loop fs f N' b j m = Some zs -> all (fun x => x < N) zs ->
    chal_loop fs f N b j m = Some zs by rewrite (H _ _ _ _ _ E ha).
elim=> [|f IH] b j m zs /=; case: ifP => // _; set xj := candidate _ _ _ _.
case: (ltnP xj N') => h.
  case: (ltnP 0 xj) => h0 /=; last exact: IH.
  case El: chal_loop => [ws|] //= [<-] /= /andP [hx aw].
  by rewrite hx (IH _ _ _ _ El aw).
have -> : (xj < N) = false by rewrite ltnNge (leq_trans hN h).
rewrite !andbF; exact: IH.
Qed.
Print Assumptions C23_challenges_ignore_modulus.

(** the hypotheses are met, with actual keys and values *)
Example C20_hyps : good_primes 11 17 /\ (exists sk, new_secret_key 11 17 = Ok sk) /\ coprime 6 (11 * 17).
Proof.
have h : good_primes 11 17 by [].
by split=> //; split=> //; have [sk [e _]] := C20_paillier_decrypt_encrypt h; exists sk.
Qed.
Example C23_hyps : (11 * 17) %% 13 != 0 /\ all (fun x => x < 11 * 17) (iota 1 13) /\
  (exists ys, psf_prove (SecretKey 187 (187 * 187) 80 160 0) (iota 1 13) = Ok ys).
Proof. by split=> //; split=> //; eexists. Qed.
