(** Property C64: the HMAC DRBG against NIST SP 800-90A section 10.1.2. *)
From mathcomp Require Import all_ssreflect zify.
From Verif Require Import Lib.Res Drbg.Model.
Set Implicit Arguments.
Unset Strict Implicit.
Unset Printing Implicit Defensive.

(** ** The specification: HMAC_DRBG of SP 800-90A, on (Key, V) pairs *)
Section Nist.
Variables (outlen : nat) (hmac : bytes -> bytes -> bytes).

(** 10.1.2.2 HMAC_DRBG_Update(provided_data, Key, V); no provided data is [None] *)
Definition nist_update (provided : option bytes) (kv : bytes * bytes) : bytes * bytes :=
  let data := if provided is Some p then p else [::] in
  let key := hmac kv.1 (kv.2 ++ (0 :: data)) in
  let v := hmac key kv.2 in
  if provided is None then (key, v)
  else let key2 := hmac key (v ++ (1 :: data)) in (key2, hmac key2 v).

(** 10.1.2.3 Instantiate *)
Definition nist_instantiate (entropy nonce pers : bytes) : bytes * bytes :=
  nist_update (Some (entropy ++ nonce ++ pers)) (nseq outlen 0, nseq outlen 1).

(** the successive values V of step 4 of 10.1.2.5 *)
Fixpoint nist_v (key v : bytes) (i : nat) : bytes :=
  if i is i'.+1 then hmac key (nist_v key v i') else v.

(** 10.1.2.5 Generate, no additional input: the leftmost [n] bytes of V1 || V2 || ..., and the new state *)
Definition nist_generate (blocks n : nat) (kv : bytes * bytes) : bytes * (bytes * bytes) :=
  (take n (flatten [seq nist_v kv.1 kv.2 i.+1 | i <- iota 0 blocks]),
   nist_update None (kv.1, nist_v kv.1 kv.2 blocks)).
End Nist.

Section Props.
Variables (hsz : nat) (hm : bytes -> bytes -> bytes).
Hypothesis hsz0 : 0 < hsz.
Hypothesis hm_size : forall k m, size (hm k m) = hsz.
Implicit Types (d : drbg) (dst : bytes).

Definition kv d : bytes * bytes := (d_k d, d_v d).

(** C64: the state a generator starts from is NIST's, and the seed material is used as one string: two ways to
    split the same bytes into entropy, nonce and personalisation give the same generator. *)
Theorem C64_instantiate entropy nonce pers :
  let d := new_drbg hsz hm entropy nonce pers in
  kv d = nist_instantiate hsz hm entropy nonce pers /\ d_count d = 1.
Proof. by rewrite /new_drbg /kv /nist_instantiate /nist_update /= cats0. Qed.

Theorem C64_seed_split_refuted e1 n1 p1 e2 n2 p2 : e1 ++ n1 ++ p1 = e2 ++ n2 ++ p2 ->
  new_drbg hsz hm e1 n1 p1 = new_drbg hsz hm e2 n2 p2.
Proof. by move=> h; rewrite /new_drbg /= !cats0 h. Qed.

(** C64: Reseed is NIST's reseed on Key and V, but the counter does not go back: it counts every Read since the
    generator was made. *)
Theorem C64_reseed d entropy :
  kv (reseed hm d entropy) = nist_update hm (Some entropy) (kv d) /\ d_count (reseed hm d entropy) = d_count d.
Proof. by rewrite /reseed /kv /nist_update /= cats0. Qed.

Lemma write_atE dst i v : i <= size dst ->
  write_at dst i v = if i + size v <= size dst then Ok (take i dst ++ v ++ drop (i + size v) dst) else Panic.
Proof.
elim: v dst i => [|b v IH] dst i hi /=; first by rewrite addn0 hi cat_take_drop.
case: ltnP => h; last by rewrite ifF //; lia.
have hs : size (set_nth 0 dst i b) = size dst by rewrite size_set_nth; apply/maxn_idPr.
rewrite IH hs // addSnnS; case: ifP => // _; congr (Ok _).
have hi0 : size (take i dst) = i by rewrite size_take h.
rewrite set_nthE h take_cat drop_cat hi0 ltnNge leqnSn /= subSnn /= take0 ltnNge leq_addr /=.
by rewrite addKn /= drop_drop addnS -addSn addnC -!catA.
Qed.

Definition stream d (m : nat) : bytes := flatten [seq nist_v hm (d_k d) (d_v d) i.+1 | i <- iota 0 m].

Lemma nist_v_shift k v i : nist_v hm k (hm k v) i = nist_v hm k v i.+1.
Proof. by elim: i => //= i ->. Qed.

Lemma streamS d m : stream d m.+1 = hm (d_k d) (d_v d) ++ stream (Drbg (d_k d) (hm (d_k d) (d_v d)) (d_count d)) m.
Proof.
rewrite /stream /=; congr (_ ++ flatten _); rewrite -(addn0 1) iotaDl -map_comp.
by apply: eq_map => i /=; rewrite nist_v_shift.
Qed.

Lemma read_loopE fuel d dst i m : i + m * hsz = size dst -> m <= fuel ->
  read_loop hm fuel d dst i =
    Ok (Drbg (d_k d) (nist_v hm (d_k d) (d_v d) m) (d_count d), take i dst ++ stream d m, size dst).
Proof.
elim: m fuel d dst i => [|m IH] fuel d dst i hi hf.
  rewrite mul0n addn0 in hi; rewrite /stream /= cats0 hi take_size -hi.
  by case: fuel hf => [|f] _ /=; rewrite hi ltnn; case: d.
case: fuel hf => // fuel hf; rewrite /= ifT; last by nia.
rewrite write_atE ?hm_size ?ifT /=; try nia.
set v := hm _ _; set dst1 := take i dst ++ _.
have hv : size v = hsz by rewrite hm_size.
have hi0 : size (take i dst) = i by rewrite size_take; case: ltnP; nia.
have h1 : size dst1 = size dst by rewrite /dst1 !size_cat hi0 size_drop hv; nia.
rewrite IH ?h1 //=; last by rewrite mulSn in hi; lia.
congr (Ok (_, _, _)); first by rewrite nist_v_shift.
rewrite streamS catA; congr (_ ++ _).
by rewrite /dst1 catA take_size_cat // size_cat hi0 hv.
Qed.

Lemma read_loop_panics fuel d dst i : i < size dst -> (forall m, i + m * hsz <> size dst) ->
  read_loop hm fuel d dst i = Panic.
Proof.
elim: fuel d dst i => [|fuel IH] d dst i hi hm' /=; rewrite hi //.
rewrite write_atE ?hm_size; last by lia.
case: ifP => //= hle.
have hi0 : size (take i dst) = i by rewrite size_take hi.
have h1 : size (take i dst ++ hm (d_k d) (d_v d) ++ drop (i + hsz) dst) = size dst.
  by rewrite !size_cat hi0 size_drop hm_size; lia.
apply: IH; rewrite h1; first by have := hm' 1; rewrite mul1n; lia.
by move=> m; have := hm' m.+1; rewrite mulSn; lia.
Qed.

(** C64: the exact behaviour of Read.  A zero-length read changes nothing.  A length that is a multiple of the
    hash size fills the whole destination with NIST's output, reports that length, moves to NIST's next state and
    counts one request.  Every other length panics. *)
Theorem C64_read_exact d dst :
  read hm d dst =
    if dst is [::] then Ok (d, [::], 0)
    else if hsz %| size dst then
      let m := size dst %/ hsz in
      let: (out, (k, v)) := nist_generate hm m (size dst) (kv d) in
      Ok (Drbg k v (d_count d).+1, out, size dst)
    else Panic.
Proof.
case: dst => // b l; set dst := b :: l.
have h0 : (size dst == 0) = false by [].
rewrite /read h0.
case: (boolP (hsz %| size dst)) => hd; last first.
  by rewrite read_loop_panics // => m hm'; move/negP: hd; apply; rewrite -hm' add0n dvdn_mull.
have e1 : 0 + size dst %/ hsz * hsz = size dst by rewrite add0n divnK.
rewrite (@read_loopE _ d dst 0 (size dst %/ hsz)) ?leq_div // take0 cat0s.
cbn [bind update nist_generate nist_update kv fst snd d_k d_v d_count].
congr (Ok (_, _, _)).
rewrite take_oversize // /stream size_flatten /shape -map_comp.
have -> : map (size \o (fun i => nist_v hm (d_k d) (d_v d) i.+1)) (iota 0 (size dst %/ hsz)) = nseq (size dst %/ hsz) hsz.
  by elim: (size dst %/ hsz) 0 => //= n IH s; rewrite hm_size IH.
by rewrite sumn_nseq mulnC; rewrite add0n in e1; rewrite e1.
Qed.

(** C64: the finding on its own *)
Theorem C64_read_panics_refuted d dst : size dst %% hsz != 0 -> read hm d dst = Panic.
Proof.
move=> h; rewrite C64_read_exact; case: dst h => [|b l] h; first by rewrite mod0n in h.
by rewrite /dvdn (negbTE h).
Qed.

(** C64: a Read that returns has filled the whole destination, whatever was in it before *)
Theorem C64_read_fills d d' dst dst2 out n : size dst = size dst2 -> read hm d dst = Ok (d', out, n) ->
  [/\ n = size dst, size out = size dst & read hm d dst2 = Ok (d', out, n)].
Proof.
move=> hs; rewrite !C64_read_exact.
case: dst hs => [|b l]; case: dst2 => [|b2 l2] //=; first by move=> _ [<- <- <-].
case=> hs; rewrite -hs; case: ifP => // hd [<- <- <-]; split=> //.
rewrite size_takel // size_flatten /shape -map_comp.
have -> : map (size \o (fun i => nist_v hm (d_k d) (d_v d) i.+1)) (iota 0 ((size l).+1 %/ hsz)) = nseq ((size l).+1 %/ hsz) hsz.
  by elim: ((size l).+1 %/ hsz) 0 => //= k IH s; rewrite hm_size IH.
by rewrite sumn_nseq mulnC divnK.
Qed.

End Props.
Print Assumptions C64_instantiate.
Print Assumptions C64_seed_split_refuted.
Print Assumptions C64_reseed.
Print Assumptions C64_read_exact.
Print Assumptions C64_read_panics_refuted.
Print Assumptions C64_read_fills.

(** a toy HMAC with 2-byte output; reading 4 bytes succeeds, reading 3 panics *)
Definition hm2 (k m : bytes) : bytes := [:: (sumn k + 3 * sumn m) %% 256; (size m + 7 * sumn k) %% 256].
Example C64_hyps : (0 < 2) /\ (forall k m, size (hm2 k m) = 2). Proof. by []. Qed.
Example C64_read4 : is_ok (read hm2 (new_drbg 2 hm2 [:: 5] [:: 6] [:: 7]) (nseq 4 0)). Proof. by vm_compute. Qed.
Example C64_read3 : read hm2 (new_drbg 2 hm2 [:: 5] [:: 6] [:: 7]) (nseq 3 0) = Panic. Proof. by vm_compute. Qed.
