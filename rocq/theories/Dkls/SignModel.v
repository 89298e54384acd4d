(** Model of pkg/tecdsa/dkls/v1/sign/sign.go: two-party ECDSA signing.

    Scalars are a field [F] ([val] is Scalar.BigInt, [q] the group order), points an [F]-module [G];
    [penc] is ToAffineCompressed, [xc] the affine x coordinate as an integer.  [hash] is SHA3-256, [mhash] the
    digest the user supplied.  A value of crypto/rand or Scalar.Random is an argument.  A state after an error
    is modelled only for Bob's last round, whose exported field Signature survives it. *)
From mathcomp Require Import all_ssreflect all_algebra.
From Verif Require Import Lib.Res Lib.Bytes Core.HashModel Schnorr.Model OT.GfModel OT.SimplestModel OT.KosModel Dkls.MulModel.
Set Implicit Arguments. Unset Strict Implicit. Unset Printing Implicit Defensive.
Import GRing.Theory.
Local Open Scope ring_scope.

(** Go's crypto/ecdsa.Verify with the integer [e] of the digest: range checks, then the x coordinate of
    (e/s) G + (r/s) Q modulo the order *)
Definition ecdsa_verify (F : fieldType) (G : lmodType F) (g : G) (q : nat) (xc : G -> nat) (Q : G) (e r s : nat) : bool :=
  let w := (s%:R)^-1 : F in
  let R := (e%:R * w) *: g + (r%:R * w) *: Q in
  [&& (0 < r < q)%N, (0 < s < q)%N, R != 0 & (xc R %% q == r)%N].

Section Sign.
Variables (F : fieldType) (G : lmodType F) (g : G) (q : nat) (val : F -> nat) (xc : G -> nat) (penc : G -> bytes)
  (enc : F -> bytes) (dec : bytes -> option F)
  (hash mhash : bytes -> bytes) (shake : bytes -> bytes -> nat -> bytes) (mul : bytes -> bytes -> bytes)
  (xof : log -> bytes) (gpad : nat -> bytes) (kb lb eb : nat) (half : nat).
(** [half] is 2^255: bit 255 of an integer below 2^256 is set iff it is at least [half] *)

(** sign.go:34-41; [a_w]: the bytes already written to the hash *)
Record alice := Alice { a_w : bytes; a_ot : KosModel.sender F; a_sk : F; a_pk : G; a_log : log }.
(** curves.EcdsaSignature; S is nil until computed *)
Record ecdsa_sig := Sig { sg_V : bool; sg_R : nat; sg_S : option nat }.
(** sign.go:45-62 *)
Record bob := Bob { b_sig : option ecdsa_sig; b_w : bytes; b_ot : KosModel.receiver F; b_sk : F; b_pk : G; b_log : log;
  b_mul : option (mreceiver F * mreceiver F); b_k : F; b_D : G }.

(** sign.go:65-74 and 78-87 *)
Definition new_alice (w : bytes) (ot : KosModel.sender F) (sk : F) (pk : G) : alice := Alice w ot sk pk [:: Start DSign].
Definition new_bob (w : bytes) (ot : KosModel.receiver F) (sk : F) (pk : G) : bob :=
  Bob None w ot sk pk [:: Start DSign] None 0 0.

(** sign.go:90-99 *)
Record sround2_out := SRound2 { s2_kos0 : round1_out; s2_kos1 : round1_out; s2_DB : G; s2_seed : bytes }.
(** sign.go:102-117 *)
Record sround3_out := SRound3 { s3_m0 : mround2_out F; s3_m1 : mround2_out F; s3_pf : proof G; s3_RPrime : G;
  s3_etaPhi : F; s3_etaSig : F }.

(** sign.go:125-132 Round1GenerateRandomSeed *)
Definition sround1 (a : alice) (rnd : option bytes) : outcome (alice * bytes) :=
  match rnd with
  | None => Err
  | Some seed => Ok (Alice (a_w a) (a_ot a) (a_sk a) (a_pk a) (rcons (a_log a) (App LSidAlice seed)), seed)
  end.

(** sign.go:140-181 Round2Initialize; [gam0 ext0 gam1 ext1]: the randomness of the two multiplications.
    The inverse of kB = 0 is nil and its use panics *)
Definition sround2 (b : bob) (aseed : bytes) (rnd : option bytes) (kB : F) (gam0 ext0 gam1 ext1 : option bytes)
  : outcome (bob * sround2_out) :=
  match rnd with
  | None => Err
  | Some bseed =>
    let l0 := rcons (rcons (b_log b) (App LSidAlice aseed)) (App LSidBob bseed) in
    let: (l1, id0) := draw xof l0 (LMulId 0) 32 in
    do r0 <- new_mreceiver dec gpad kb lb (b_ot b) id0;
    let: (l2, id1) := draw xof l1 (LMulId 1) 32 in
    do r1 <- new_mreceiver dec gpad kb lb (b_ot b) id1;
    let D := kB *: g in
    if kB == 0 then Panic else
    do (r0', k0) <- mround1 enc dec hash shake mul kb lb eb r0 kB^-1 gam0 ext0;
    do (r1', k1) <- mround1 enc dec hash shake mul kb lb eb r1 (b_sk b * kB^-1) gam1 ext1;
    Ok (Bob (b_sig b) (b_w b) (b_ot b) (b_sk b) (b_pk b) l2 (Some (r0', r1')) kB D, SRound2 k0 k1 D bseed)
  end.

(** sha3.Sum256 of a compressed point, then SetBytes *)
Definition hpoint (P : G) : outcome F := match dec (hash (penc P)) with Some x => Ok x | None => Err end.
(** Scalar.SetBytes *)
Definition setbytes (b : bytes) : outcome F := match dec b with Some x => Ok x | None => Err end.
(** the length check and SetBytes of the x coordinate (sign.go:256-263, 309-318) *)
Definition xcoord (P : G) : outcome F := if size (penc P) != 33%N then Err else setbytes (drop 1 (penc P)).

(** sign.go:190-279 Round3Sign with the random kPrimeA, phi, Schnorr nonce kS and the two alphaHat.
    Simplified: with kA = 0 the nil inverse is reported as a panic at once *)
Definition sround3 (a : alice) (msg : bytes) (m : sround2_out) (kPrimeA phi kS ahat0 ahat1 : F) : outcome (alice * sround3_out) :=
  let l0 := rcons (a_log a) (App LSidBob (s2_seed m)) in
  let: (l1, id0) := draw xof l0 (LMulId 0) 32 in
  do s0 <- new_msender dec gpad kb lb (a_ot a) id0;
  let: (l2, id1) := draw xof l1 (LMulId 1) 32 in
  do s1 <- new_msender dec gpad kb lb (a_ot a) id1;
  let RPrime := kPrimeA *: s2_DB m in
  do hR <- hpoint RPrime;
  let kA := hR + kPrimeA in
  let: (l3, idR) := draw xof l2 LSchnorrR 32 in
  do pf <- prove penc dec hash (s2_DB m) idR kA kS;
  let r := pf_stmt pf in
  if kA == 0 then Panic else
  do (s0', m0) <- mround2 enc dec hash shake mul xof kb lb eb s0 (phi + kA^-1) ahat0 (s2_kos0 m);
  do (s1', m1) <- mround2 enc dec hash shake mul xof kb lb eb s1 (a_sk a * kA^-1) ahat1 (s2_kos1 m);
  let gamma1 := (kA * phi + 1) *: g + (- ms_share s0') *: r in
  do h1 <- hpoint gamma1;
  let w := a_w a ++ msg in
  do h <- setbytes (mhash w);
  do rX <- xcoord r;
  let sigA := h * ms_share s0' + rX * ms_share s1' in
  let gamma2 := ms_share s0' *: a_pk a + (- ms_share s1') *: g in
  do h2 <- hpoint gamma2;
  Ok (Alice w (a_ot a) (a_sk a) (a_pk a) l3, SRound3 m0 m1 pf RPrime (h1 + phi) (h2 + sigA)).

(** sign.go:286-358 Round4Final.  The error before the signature is touched leaves Bob as he was *)
Definition sround4 (b : bob) (msg : bytes) (m : sround3_out) : bob * outcome unit :=
  match b_mul b with
  | None => (b, Panic)
  | Some (r0, r1) =>
    match mround3 enc dec shake xof kb lb r0 (s3_m0 m), mround3 enc dec shake xof kb lb r1 (s3_m1 m) with
    | Panic, _ => (b, Panic)
    | Err, _ => (b, Err)
    | Ok _, Panic => (b, Panic)
    | Ok _, Err => (b, Err)
    | Ok r0', Ok r1' =>
      let t0 := mr_share r0' in
      let t1 := mr_share r1' in
      let: (l, idR) := draw xof (b_log b) LSchnorrR 32 in
      let pre :=
        do hR <- hpoint (s3_RPrime m);
        let R := hR *: b_D b + s3_RPrime m in
        do _ <- verify penc enc hash (b_D b) idR (Proof (pf_c (s3_pf m)) (pf_s (s3_pf m)) R);
        do rX <- xcoord R;
        Ok (R, rX) in
      match pre with
      | Err => (b, Err)
      | Panic => (b, Panic)
      | Ok (R, rX) =>
        let V := odd (nth 0%N (penc R) 0) in
        let b1 := Bob (Some (Sig V (val (rX + 0)) None)) (b_w b) (b_ot b) (b_sk b) (b_pk b) l (Some (r0', r1')) (b_k b) (b_D b) in
        match hpoint (t0 *: R) with
        | Err => (b1, Err)
        | Panic => (b1, Panic)
        | Ok h1 =>
          let phi := s3_etaPhi m - h1 in
          let theta := t0 - phi / b_k b in
          let w := b_w b ++ msg in
          let b2 := Bob (b_sig b1) w (b_ot b) (b_sk b) (b_pk b) l (Some (r0', r1')) (b_k b) (b_D b) in
          match setbytes (mhash w) with
          | Err => (b2, Err)
          | Panic => (b2, Panic)
          | Ok h =>
            let cR := ((val (rX + 0))%:R : F) in
            let sigB := h * theta + cR * t1 in
            let gamma2 := t1 *: g + (- theta) *: b_pk b in
            match hpoint gamma2 with
            | Err => (b2, Err)
            | Panic => (b2, Panic)
            | Ok h2 =>
              let s := sigB + (s3_etaSig m - h2) in
              let flip := (half <= val s)%N in
              let S := if flip then val (- s) else val s in
              let b3 := Bob (Some (Sig (V (+) flip) (val (rX + 0)) (Some S))) w (b_ot b) (b_sk b) (b_pk b) l
                            (Some (r0', r1')) (b_k b) (b_D b) in
              if ecdsa_verify g q xc (b_pk b) (be_val (mhash w)) (val (rX + 0)) S then (b3, Ok tt) else (b3, Err)
            end
          end
        end
      end
    end
  end.
End Sign.
