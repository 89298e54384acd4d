(** Camenisch-Shoup verifiable encryption: pkg/verenc/camshoup.

    big.Int is [Z] with the operations of Core/ModModel.v; a nil pointer or slice is [None].  [hash] is
    internal.Hash (an error for a nil value, see Core/HashModel.v) followed by SetBytes: an arbitrary function of
    the list of byte strings.  Values drawn by core.Rand are arguments.  The unexported fields of ciphertexts and
    keys hold non-negative numbers (they come from modular operations or SetBytes). *)
From Coq Require Import ZArith List.
From mathcomp Require Import ssreflect ssrfun ssrbool eqtype ssrnat seq.
From Verif Require Import Lib.Res Lib.Bytes Core.ModModel.
Set Implicit Arguments. Unset Strict Implicit. Unset Printing Implicit Defensive.
Local Delimit Scope Z_scope with ZZ.
Local Open Scope Z_scope.

(** PaillierGroup; paillier_group.go:31-33 *)
Record group := Group {
  p_g : Z; p_h : Z; p_n : Z; p_nd4 : Z; p_n2 : Z; p_n2d2 : Z; p_n2d4 : Z; p_tit : Z }.

(** NewPaillierGroupWithPrimes; paillier_group.go:48-68, with [gt] the random gTick.  A nil ModInverse reaches
    Lsh, which panics. *)
Definition new_group (p q gt : Z) : outcome group :=
  let n := p * q in
  let n2 := n * n in
  match mod_inverse 2 n with
  | None => Panic
  | Some t =>
      do g <- deref (big_exp gt (2 * n2) (Some n2));
      Ok (Group g (n + 1) n (n / 2) n2 (n2 / 2) (n2 / 4) (2 * t))
  end.

(** UnmarshalBinary of a group; paillier_group.go:158-174, given the two byte strings (the go-bare framing is not
    modelled).  ModInverse modulo 0 gives nil. *)
Definition unmarshal_group (bn bg : bytes) : outcome group :=
  let n := Z.of_nat (be_val bn) in
  let g := Z.of_nat (be_val bg) in
  match (if n =? 0 then None else mod_inverse 2 n) with
  | None => Panic
  | Some t => Ok (Group g (n + 1) n (n / 2) (n * n) (n * n / 2) (n * n / 4) (2 * t))
  end.
(** MarshalBinary of a group; paillier_group.go:147-155 *)
Definition marshal_group (pg : group) : bytes * bytes := (be_bytes (Z.abs_nat (p_n pg)), be_bytes (Z.abs_nat (p_g pg))).

(** Abs; paillier_group.go:100-109 *)
Definition cs_abs (pg : group) (a : Z) : Z :=
  let tv := a mod p_n2 pg in if p_n2d2 pg <? tv then p_n2 pg - tv else tv.
(** Exp; paillier_group.go:112-114: nil for a negative exponent of a non-invertible base *)
Definition cs_exp (pg : group) (b e : Z) : option Z := big_exp b e (Some (p_n2 pg)).
(** Mul; paillier_group.go:116-119: panics on nil *)
Definition cs_mul (pg : group) (a b : option Z) : outcome Z :=
  match a, b with Some x, Some y => Ok ((x * y) mod p_n2 pg) | _, _ => Panic end.
(** Inv; paillier_group.go:122-124 *)
Definition cs_inv (pg : group) (a : Z) : option Z := mod_inverse a (p_n2 pg).
(** Gexp, Hexp; paillier_group.go:127-134 *)
Definition gexp (pg : group) (e : Z) : option Z := big_exp (p_g pg) e (Some (p_n2 pg)).
Definition hexp (pg : group) (e : Z) : option Z := big_exp (p_h pg) e (Some (p_n2 pg)).

(** big.Int.Bytes *)
Definition zbytes (z : Z) : bytes := be_bytes (Z.abs_nat z).

(** EncryptionKey; encryption_key.go:29-33 and DecryptionKey; decryption_key.go:28-32 *)
Record ekey := EK { ek_y1 : seq Z; ek_y2 : Z; ek_y3 : Z; ek_group : group }.
Record dkey := DK { dk_x1 : seq Z; dk_x2 : Z; dk_x3 : Z; dk_group : group }.
(** CipherText; ciphertext.go:17-20 *)
Record cipher := CT { ct_u : option Z; ct_v : option Z; ct_e : option (seq Z) }.
(** ProofVerEnc; proof_enc.go:20-23 *)
Record cproof := CP { cp_c : option Z; cp_r : option Z; cp_m : option (seq Z) }.

(** Go: for i := range xs { y, err := f(xs[i]) ... } *)
Fixpoint mapo (A B : Type) (f : A -> outcome B) (s : seq A) : outcome (seq B) :=
  match s with
  | [::] => Ok [::]
  | a :: s' => do b <- f a; do r <- mapo f s'; Ok (b :: r)
  end.

(** DecryptionKey.EncryptionKey; decryption_key.go:35-45, also the loop of NewKeys *)
Definition encryption_key (dk : dkey) : outcome ekey :=
  let pg := dk_group dk in
  do y2 <- deref (gexp pg (dk_x2 dk));
  do y3 <- deref (gexp pg (dk_x3 dk));
  do y1 <- mapo (fun x => deref (gexp pg x)) (dk_x1 dk);
  Ok (EK y1 y2 y3 pg).

(** NewKeys; encryption_key.go:35-67; the secrets are the values drawn *)
Definition new_keys (pg : group) (x1 : seq Z) (x2 x3 : Z) : outcome (ekey * dkey) :=
  if size x1 is 0%N then Err else
  let dk := DK x1 x2 x3 pg in
  do ek <- encryption_key dk;
  Ok (ek, dk).

Section Hash.
Variable hash : seq bytes -> outcome Z.

(** Hash; paillier_group.go:177-192 *)
Definition group_hash (u : option Z) (e : seq Z) (data : option bytes) : outcome Z :=
  match u, e, data with
  | Some u, _ :: _, Some d => hash (zbytes u :: map zbytes e ++ [:: d])
  | _, _, _ => Err
  end.

(** computeE; encryption_key.go:137-145.  Indexing y1 beyond its length panics. *)
Fixpoint compute_e (pg : group) (y1 : seq Z) (msgs : seq Z) (r : Z) : outcome (seq Z) :=
  match msgs, y1 with
  | [::], _ => Ok [::]
  | m :: ms, y :: ys =>
      do e <- cs_mul pg (cs_exp pg y r) (hexp pg m);
      do es <- compute_e pg ys ms r;
      Ok (e :: es)
  | _, _ => Panic
  end.

(** computeV; encryption_key.go:154-168 *)
Definition compute_v (ek : ekey) (r h : Z) (ab : bool) : outcome Z :=
  let pg := ek_group ek in
  do a <- cs_mul pg (Some (ek_y2 ek)) (cs_exp pg (ek_y3 ek) h);
  do v <- deref (cs_exp pg a r);
  Ok (if ab then cs_abs pg v else v).

(** encryptWithR; encryption_key.go:125-135 *)
Definition encrypt_with_r (ek : ekey) (domain : option bytes) (msgs : seq Z) (r : Z) : outcome cipher :=
  let pg := ek_group ek in
  do u <- deref (gexp pg r);
  do e <- compute_e pg (ek_y1 ek) msgs r;
  do hs <- group_hash (Some u) e domain;
  do v <- compute_v ek r hs true;
  Ok (CT (Some u) (Some v) (Some e)).

(** Encrypt; encryption_key.go:109-123; [r] is the value RandForEncrypt returns *)
Definition cs_encrypt (ek : ekey) (domain : option bytes) (msgs : seq (option Z)) (r : Z) : outcome cipher :=
  if (size (ek_y1 ek) < size msgs)%N then Err
  else if ~~ all (fun m => if m is Some m then m <=? p_n (ek_group ek) else false) msgs then Err
  else encrypt_with_r ek domain (pmap id msgs) r.

(** Decrypt; decryption_key.go:86-152.  The loop over the messages: a nil inverse reaches Mul, which panics. *)
Fixpoint dec_loop (pg : group) (u : Z) (x1 es : seq Z) : outcome (seq Z) :=
  match es, x1 with
  | [::], _ => Ok [::]
  | e :: es', x :: xs =>
      do ux <- deref (cs_exp pg u x);
      do a <- cs_mul pg (Some e) (cs_inv pg ux);
      do mh <- deref (cs_exp pg a (p_tit pg));
      if mh mod p_n pg =? 1 then
        let m := (mh mod p_n2 pg - 1) / p_n pg in
        do ms <- dec_loop pg u xs es';
        Ok (m :: ms)
      else Err
  | _, _ => Panic
  end.
Definition cs_decrypt (dk : dkey) (domain : option bytes) (oct : option cipher) : outcome (seq Z) :=
  let pg := dk_group dk in
  match oct with
  | Some (CT (Some u) (Some v) (Some e)) =>
      if (size (dk_x1 dk) < size e)%N then Err
      else if (u =? 0) || (v =? 0) then Err
      else if has (fun x => x =? 0) e then Err
      else if negb (v =? cs_abs pg v) then Err
      else
        do hs <- group_hash (Some u) e domain;
        do us <- deref (cs_exp pg u (2 * (hs * dk_x3 dk + dk_x2 dk)));
        do vs <- deref (cs_exp pg v 2);
        if negb (us =? vs) then Err else dec_loop pg u (dk_x1 dk) e
  | _ => Err
  end.

(** fiatShamir; proof_enc.go:158-192 *)
Definition fiat_shamir (ek : ekey) (nonce : option bytes) (u v : Z) (e : seq Z) (tu tv : Z) (te : seq Z) : outcome Z :=
  match nonce with
  | None => Err
  | Some nn =>
      hash (map zbytes ([:: p_n (ek_group ek); p_g (ek_group ek); ek_y2 ek; ek_y3 ek] ++ ek_y1 ek
        ++ [:: u] ++ e ++ [:: v] ++ [:: tu] ++ te ++ [:: tv]) ++ [:: nn])
  end.

(** schnorr; proof_enc.go:195-199 *)
Definition schnorr (pg : group) (tilde challenge value : Z) : Z := tilde - (challenge * value) mod p_n2 pg.

(** EncryptAndProveBlindings; proof_enc.go:84-142, with ciphertextTestValues (145-155) inlined; [r] and [rb] are
    the two values RandForEncrypt returns *)
Definition encrypt_and_prove (ek : ekey) (nonce : option bytes) (msgs blindings : seq (option Z)) (r rb : Z)
  : outcome (cipher * cproof) :=
  let pg := ek_group ek in
  if size msgs != size blindings then Err
  else if (size (ek_y1 ek) < size msgs)%N then Err
  else if ~~ all (fun b => if b is Some b then negb (b =? 0) else false) blindings || ~~ all isSome msgs then Err
  else
    let ms := pmap id msgs in
    let bs := pmap id blindings in
    do ct <- encrypt_with_r ek nonce ms r;
    match ct with
    | CT (Some u) (Some v) (Some e) =>
        do hs <- group_hash (Some u) e nonce;
        do tu <- deref (gexp pg (2 * rb));
        do te <- compute_e pg (ek_y1 ek) (map (fun b => 2 * b) bs) (2 * rb);
        do tv <- compute_v ek (2 * rb) hs false;
        do c <- fiat_shamir ek nonce u v e tu tv te;
        Ok (ct, CP (Some c) (Some (schnorr pg rb c r))
                   (Some (map (fun bm => schnorr pg bm.1 c bm.2) (zip bs ms))))
    | _ => Panic
    end.

(** VerifyEncryptProof; proof_enc.go:203-267: the loop over proof.m indexes ciphertext.e and y1 *)
Fixpoint ver_loop (pg : group) (y1 es ms : seq Z) (c2 r2 : Z) {struct ms} : outcome (seq Z) :=
  match ms with
  | [::] => Ok [::]
  | m :: ms' =>
      match es, y1 with
      | e :: es', y :: ys =>
          do a <- cs_mul pg (cs_exp pg e c2) (cs_exp pg y r2);
          do t <- cs_mul pg (Some a) (hexp pg (2 * m));
          do ts <- ver_loop pg ys es' ms' c2 r2;
          Ok (t :: ts)
      | _, _ => Panic
      end
  end.
Definition verify_encrypt_proof (ek : ekey) (nonce : option bytes) (oct : option cipher) (opf : option cproof) : outcome unit :=
  let pg := ek_group ek in
  match oct, opf with
  | Some (CT (Some u) (Some v) (Some e)), Some (CP (Some c) (Some r) (Some m)) =>
      if (size (ek_y1 ek) < size m)%N then Err
      else
        let c2 := 2 * c in
        let r2 := 2 * r in
        do tu <- cs_mul pg (cs_exp pg u c2) (gexp pg r2);
        do te <- ver_loop pg (ek_y1 ek) e m c2 r2;
        do hs <- group_hash (Some u) e nonce;
        do a <- cs_mul pg (Some (ek_y2 ek)) (cs_exp pg (ek_y3 ek) hs);
        do tv <- cs_mul pg (cs_exp pg v c2) (cs_exp pg a r2);
        do c' <- fiat_shamir ek nonce u v e tu tv te;
        if c' =? c then Ok tt else Err
  | _, _ => Err
  end.

(** ProofVerEnc.MarshalBinary and UnmarshalBinary; proof_enc.go:31-56, CipherText's; ciphertext.go:28-53: the
    byte strings put into the go-bare message (framing not modelled) *)
Definition proof_bytes (pf : Z * Z * seq Z) : bytes * bytes * seq bytes :=
  (zbytes pf.1.1, zbytes pf.1.2, map zbytes pf.2).
Definition proof_of_bytes (b : bytes * bytes * seq bytes) : Z * Z * seq Z :=
  (Z.of_nat (be_val b.1.1), Z.of_nat (be_val b.1.2), map (fun x => Z.of_nat (be_val x)) b.2).
End Hash.
