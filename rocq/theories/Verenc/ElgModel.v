(** ElGamal verifiable encryption: pkg/verenc/elgamal.

    Scalars [F], points [G] with generator [g].  [penc]/[uenc] are ToAffineCompressed/ToAffineUncompressed,
    [hashF] and [hashG] Scalar.Hash and Point.Hash, [decF] Scalar.SetBytes, [kdf t] the AES-256 key
    core.FiatShamir derives from the compressed encoding of [t] ([None] = error), [seal]/[open] AES-GCM.
    A nil interface, slice or pointer is [None].  Comparison of challenges (Scalar.Cmp = 0) is equality. *)
From mathcomp Require Import all_ssreflect all_algebra.
From Verif Require Import Lib.Res Lib.Bytes.
Set Implicit Arguments.
Unset Strict Implicit.
Unset Printing Implicit Defensive.
Import GRing.Theory.
Local Open Scope ring_scope.

Section Elg.
Variables (F : fieldType) (G : lmodType F) (g : G).
Variables (penc uenc : G -> bytes) (hashF : bytes -> F) (hashG : bytes -> G) (decF : bytes -> option F).
Variables (kdf : G -> option bytes) (seal : bytes -> bytes -> bytes -> bytes -> bytes).
Variable open : bytes -> bytes -> bytes -> bytes -> option bytes.

(** CipherText; ciphertext.go:20-25 *)
Record ciphertext := CT {
  ct_c1 : option G; ct_c2 : option G; ct_nonce : option bytes; ct_aead : option bytes; ct_hashed : bool }.
(** HomomorphicCipherText; ciphertext.go:32-34 *)
Record hciphertext := HCT { h_c1 : G; h_c2 : G }.
(** ProofVerEnc; proof_enc.go:20-22 *)
Record proof := PF { pf_c : option F; pf_s1 : option F; pf_s2 : option F }.
(** EncryptParams; encryption_key.go:39-45 *)
Record params := Params {
  p_hashed : bool; p_domain : option bytes; p_blinding : option F; p_genproof : bool; p_nonce : option bytes }.

(** DecryptionKey.EncryptionKey; decryption_key.go:33-37, and NewKeys; encryption_key.go:54-67 *)
Definition encryption_key (x : F) : G := x *: g.

(** HomomorphicEncrypt; encryption_key.go:96-102; [r] is the random scalar *)
Definition hom_encrypt (q : G) (msg r : F) : hciphertext := HCT (r *: g) (r *: q + msg *: g).

(** HomomorphicCipherText.Add; ciphertext.go:101-106 *)
Definition hom_add (a b : hciphertext) : hciphertext := HCT (h_c1 a + h_c1 b) (h_c2 a + h_c2 b).

(** DecryptionKey.Decrypt; decryption_key.go:69-74 (a nil ciphertext gives a nil point) *)
Definition dk_decrypt (x : F) (c : option hciphertext) : option G :=
  if c is Some h then Some (h_c2 h - x *: h_c1 h) else None.

(** HomomorphicCipherText.Decrypt; ciphertext.go:109-114 *)
Definition hct_decrypt (c : hciphertext) (x : option F) : outcome G :=
  if x is Some k then Ok (h_c2 c - k *: h_c1 c) else Err.

(** the message as a scalar; encryption_key.go:121-129, proof_enc.go:137-145, decryption_key.go:149-157 *)
Definition msg_scalar (hashed : bool) (msg : bytes) : outcome F :=
  if hashed then (if decF msg is Some m then Ok m else Err) else Ok (hashF msg).

(** encryptWithRandNonce; encryption_key.go:104-144 *)
Definition encrypt_with_nonce (q : G) (msg : bytes) (hashed : bool) (r : F) (h : G) (nonce : bytes)
  : outcome ciphertext :=
  let t := r *: q in
  match kdf t with
  | None => Err
  | Some key =>
      let c1 := r *: g in
      do m <- msg_scalar hashed msg;
      let c2 := m *: h + t in
      let aead := seal key nonce msg (uenc c1 ++ uenc c2) in
      Ok (CT (Some c1) (Some c2) (Some nonce) (Some aead) hashed)
  end.

(** the bytes hashed to the challenge; proof_enc.go:129-132, 202-205 *)
Definition challenge_bytes (c1 c2 r1 r2 : G) (nonce : bytes) : bytes :=
  penc c1 ++ penc c2 ++ penc r1 ++ penc r2 ++ nonce.

(** genProof; proof_enc.go:122-150; [r] is the random scalar.  C1 and C2 of a fresh ciphertext are not nil. *)
Definition gen_proof (q : G) (nonce msg : bytes) (hashed : bool) (ct : ciphertext) (blinding : F) (h : G) (r : F)
  : outcome proof :=
  let r1 := r *: g in
  let r2 := r *: q + blinding *: h in
  do c1 <- deref (ct_c1 ct);
  do c2 <- deref (ct_c2 ct);
  let challenge := hashF (challenge_bytes c1 c2 r1 r2 nonce) in
  do m <- msg_scalar hashed msg;
  Ok (PF (Some challenge) (Some (blinding - challenge * m)) (Some (r - challenge * blinding))).

(** the second generator for a domain; proof_enc.go:98-100, decryption_key.go:105-108 *)
Definition domain_point (domain : bytes) (q : G) (nonce : bytes) : G := hashG (domain ++ uenc q ++ nonce).

(** VerifiableEncrypt; proof_enc.go:72-120.  [rb] is the first non-zero scalar the sampling loop draws, [cnonce]
    what genNonce returns, [r] the scalar drawn in genProof.  The third result is *params afterwards: the code
    stores the blinding factor it draws in the caller's struct. *)
Definition verifiable_encrypt (q : G) (msg : option bytes) (params_ptr : option params)
  (rb : F) (cnonce : option bytes) (r : F) : outcome (ciphertext * option proof * params) :=
  match msg with
  | None => Err
  | Some m =>
      do ps <- deref params_ptr;
      do b <- (match p_blinding ps with
               | None => Ok rb
               | Some b => if b == 0 then Err else Ok b
               end);
      let ps' := Params (p_hashed ps) (p_domain ps) (Some b) (p_genproof ps) (p_nonce ps) in
      match cnonce with
      | None => Err
      | Some cn =>
          let h := if p_domain ps is Some d then domain_point d q cn else g in
          do ct <- encrypt_with_nonce q m (p_hashed ps) b h cn;
          if p_genproof ps then
            match p_nonce ps with
            | None => Err
            | Some nonce =>
                do pf <- gen_proof q nonce m (p_hashed ps) ct b h r;
                Ok (ct, Some pf, ps')
            end
          else Ok (ct, None, ps')
      end
  end.

(** verify; proof_enc.go:190-212 *)
Definition verify (q : G) (nonce : bytes) (c1 c2 : G) (c s1 s2 : F) (h : G) : outcome unit :=
  let r1 := c *: c1 + s2 *: g in
  let r2 := c *: c2 + s2 *: q + s1 *: h in
  if hashF (challenge_bytes c1 c2 r1 r2 nonce) == c then Ok tt else Err.

(** the nil checks of VerifyDomainEncryptProof and VerifyEncryptProof; proof_enc.go:156-164, 176-184 *)
Definition with_parts (ct : option ciphertext) (pf : option proof)
  (k : G -> G -> F -> F -> F -> outcome unit) : outcome unit :=
  match ct, pf with
  | Some ct, Some pf =>
      match pf_c pf, pf_s1 pf, pf_s2 pf, ct_c1 ct, ct_c2 ct with
      | Some c, Some s1, Some s2, Some c1, Some c2 => k c1 c2 c s1 s2
      | _, _, _, _, _ => Err
      end
  | _, _ => Err
  end.

(** VerifyDomainEncryptProof; proof_enc.go:155-170 *)
Definition verify_domain_proof (q : G) (nonce : bytes) (ct : option ciphertext) (pf : option proof) : outcome unit :=
  with_parts ct pf (fun c1 c2 c s1 s2 =>
    let cn := odflt [::] (obind ct_nonce ct) in
    verify q nonce c1 c2 c s1 s2 (domain_point nonce q cn)).

(** VerifyEncryptProof; proof_enc.go:175-188 *)
Definition verify_proof (q : G) (nonce : bytes) (ct : option ciphertext) (pf : option proof) : outcome unit :=
  with_parts ct pf (fun c1 c2 c s1 s2 => verify q nonce c1 c2 c s1 s2 g).

(** decryptData; decryption_key.go:116-165.  AES-GCM's Open panics unless the nonce has 12 bytes. *)
Definition decrypt_data (x : F) (oct : option ciphertext) : outcome (bytes * F * G) :=
  match oct with
  | None => Err
  | Some ct =>
      match ct_c1 ct, ct_c2 ct, ct_nonce ct, ct_aead ct with
      | Some c1, Some c2, Some nonce, Some aead =>
          if (size nonce < 12)%N || (size aead < 16)%N then Err
          else
            let t := x *: c1 in
            match kdf t with
            | None => Err
            | Some key =>
                if size nonce != 12%N then Panic
                else match open key nonce aead (uenc c1 ++ uenc c2) with
                     | None => Err
                     | Some m => do s <- msg_scalar (ct_hashed ct) m; Ok (m, s, c2 - t)
                     end
            end
      | _, _, _, _ => Err
      end
  end.

(** VerifiableDecrypt; decryption_key.go:80-91 *)
Definition verifiable_decrypt (x : F) (ct : option ciphertext) : outcome (bytes * F) :=
  do (mb, ms, rhs) <- decrypt_data x ct;
  if ms *: g == rhs then Ok (mb, ms) else Err.

(** VerifiableDecryptWithDomain; decryption_key.go:99-114 *)
Definition verifiable_decrypt_domain (x : F) (domain : bytes) (ct : option ciphertext) : outcome (bytes * F) :=
  do (mb, ms, rhs) <- decrypt_data x ct;
  let q := encryption_key x in
  let h := domain_point domain q (odflt [::] (obind ct_nonce ct)) in
  if ms *: h == rhs then Ok (mb, ms) else Err.

End Elg.
