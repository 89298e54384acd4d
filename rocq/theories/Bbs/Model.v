(** BBS+ signatures: pkg/signatures/bbs and the ProofCommittedBuilder of pkg/signatures/common.

    The curve is BLS12-381: G1, G2 and the pairing are abstract (Lib/Pairing.v), scalars are a field.
    A nil point or scalar is [None]; a Go map is an association list in the order its iteration happens to
    visit it.  The loop of getNonZeroScalar (secret_key.go:170-177) is not modelled: the scalars it returns
    are arguments, or read off the deterministic generator [drbg].  merlin transcripts are lists of
    operations with an arbitrary extraction function. *)
From mathcomp Require Import all_ssreflect all_algebra.
From Verif Require Import Lib.Res Lib.Bytes Lib.Pairing.
Set Implicit Arguments.
Unset Strict Implicit.
Unset Printing Implicit Defensive.
Import GRing.Theory.
Local Open Scope ring_scope.

(** lookup in a Go map with int keys *)
Fixpoint zassoc (A : Type) (k : int) (l : seq (int * A)) : option A :=
  match l with
  | [::] => None
  | (j, a) :: r => if j == k then Some a else zassoc k r
  end.

(** the labels of the transcript messages (blind_signature_context.go:88-92, pok_signature_proof.go:133-208) *)
Inductive blabel := LRandCommit | LBlindCommit | LNonce | LBlindChal | LAPrime | LABar | LD | LProof1 | LProof2 | LSpk.
Inductive btop := BStart | BApp of blabel & bytes | BExt of blabel & nat.
Definition blog := seq btop.

Section Bbs.
Variables (F : fieldType) (G1 G2 GT : lmodType F) (g1 : G1) (g2 : G2) (e : G1 -> G2 -> GT).
Variables (hashG1 : bytes -> G1) (penc1 : G1 -> bytes) (penc1u : G1 -> bytes) (penc2u : G2 -> bytes) (enc : F -> bytes).
Variables (xof : blog -> bytes) (wide : bytes -> F) (drbg : bytes -> F * F).

(** pkg/core/curves/bls12381_curve.go:484-506 SumOfProducts: nil for a nil point or scalar, nil for different
    lengths (native/bls12381/g1.go:983-985), otherwise the sum (see C42 for the algorithm) *)
Fixpoint all_pts (ps : seq (option G1)) : option (seq G1) :=
  match ps with
  | [::] => Some [::]
  | None :: _ => None
  | Some p :: r => omap (cons p) (all_pts r)
  end.
Fixpoint lincomb (ps : seq G1) (ks : seq F) : G1 :=
  match ps, ks with
  | p :: ps', k :: ks' => k *: p + lincomb ps' ks'
  | _, _ => 0
  end.
Definition sop (ps : seq (option G1)) (ks : seq F) : option G1 :=
  match all_pts ps with
  | None => None
  | Some l => if (size l == size ks)%N then Some (lincomb l ks) else None
  end.

(** message_generators.go:30-35 *)
Record gens := Gens { h0 : G1; glen : nat; gstate : bytes }.
(** the four bytes of an int, big-endian *)
Definition be4 (n : nat) : bytes := [:: (n %/ 2 ^ 24 %% 256)%N; (n %/ 2 ^ 16 %% 256)%N; (n %/ 2 ^ 8 %% 256)%N; (n %% 256)%N].
(** message_generators.go:38-58 Init *)
Definition gens_init (w : G2) (length : int) : outcome gens :=
  match length with
  | Negz _ => Err
  | Posz n =>
    let state := copy_into 192 (penc2u w) ++ nseq 5 0%N ++ be4 n in
    Ok (Gens (hashG1 state) n state)
  end.
(** message_generators.go:60-77 Get.  The index is written to [state], a copy of the array; the hash is
    taken of msgg.state, the original. *)
Definition gens_get (g : gens) (i : int) : option G1 :=
  match i with
  | Negz _ => Some (h0 g)
  | Posz n =>
    if (n == 0)%N then Some (h0 g)
    else if (glen g < n)%N then None
    else let state := take 193 (gstate g) ++ be4 n ++ drop 197 (gstate g) in
         Some (hashG1 (let _ := state in gstate g))
  end.

(** secret_key.go:144-159 computeB; a nil sum makes the type assertion panic *)
Definition compute_b (s : F) (msgs : seq F) (g : gens) : outcome G1 :=
  deref (sop (Some g1 :: gens_get g 0 :: [seq gens_get g (Posz i.+1) | i <- iota 0 (size msgs)])
             (1 :: s :: msgs)).

(** secret_key.go:161-168 addDeterministicNonceData: the bytes written *)
Definition nonce_data (g : gens) (msgs : seq F) : bytes :=
  flatten [seq (if gens_get g (Posz i) is Some P then penc1u P else [::]) | i <- iota 0 (glen g).+1]
  ++ flatten [seq enc m | m <- msgs].

(** signature.go:20-23 (and blind_signature.go:24-27) *)
Record sig := Sig { sa : G1; se : F; ss : F }.

(** secret_key.go:107-134 Sign *)
Definition sign (sk : F) (g : gens) (msgs : seq F) : outcome sig :=
  if (glen g < size msgs)%N then Err else
  if (size msgs < 1)%N then Err else
  if sk == 0 then Err else
  let: (ee, s) := drbg (enc sk ++ nonce_data g msgs) in
  do b <- compute_b s msgs g;
  if ee + sk == 0 then Err else
  Ok (Sig ((ee + sk)^-1 *: b) ee s).

(** secret_key.go:137-141 PublicKey *)
Definition public_key (sk : F) : G2 := sk *: g2.

(** public_key.go:44-73 Verify *)
Definition verify (pk : G2) (sg : sig) (g : gens) (msgs : seq F) : outcome unit :=
  if (glen g < size msgs)%N then Err else
  if (size msgs < 1)%N then Err else
  if pk == 0 then Err else
  if sa sg == 0 then Err else
  let a := se sg *: g2 + pk in
  do b <- compute_b (ss sg) msgs g;
  if multi_pairing e [:: (sa sg, a); (- b, g2)] == 0 then Ok tt else Err.

(* ------------------------------------------------------ committed proofs *)
(** common/proof_committed_builder.go:16: limit = 65535 *)
Definition climit : nat := (2 ^ 16).-1.
(** common/proof_committed_builder.go:22-26 *)
Record builder := Builder { pb_points : seq (option G1); pb_scalars : seq F }.
Definition new_builder : builder := Builder [::] [::].
(** proof_committed_builder.go:48-55 Commit, 38-45 CommitRandom *)
Definition commit (b : builder) (p : option G1) (k : F) : outcome builder :=
  if (climit < size (pb_points b))%N then Err
  else Ok (Builder (rcons (pb_points b) p) (rcons (pb_scalars b) k)).
(** proof_committed_builder.go:67-73 GetChallengeContribution: nil (no bytes) for a nil sum *)
Definition contribution (b : builder) : bytes :=
  if sop (pb_points b) (pb_scalars b) is Some c then penc1 c else [::].
(** proof_committed_builder.go:76-86 GenerateProof *)
Definition gen_proof (b : builder) (c : F) (secrets : seq F) : outcome (seq F) :=
  if (size secrets != size (pb_scalars b))%N then Err
  else Ok [seq p.1 * c + p.2 | p <- zip secrets (pb_scalars b)].

(* ------------------------------------------------------ blind signatures *)
(** blind_signature_context.go:29-36 *)
Record bctx := BCtx { bc_com : G1; bc_chal : F; bc_proofs : seq F }.

(** blind_signature_context.go:59-70: the loop over the map; [rnd] are the successive blinding scalars *)
Fixpoint blind_loop (g : gens) (msgs : seq (int * F)) (rnd : nat -> F) (k : nat) (b : builder) (pts : seq (option G1)) (secs : seq F)
  : outcome (builder * seq (option G1) * seq F) :=
  match msgs with
  | [::] => Ok (b, pts, secs)
  | (i, m) :: rest =>
    if (match i with Posz n => (glen g < n)%N | Negz _ => true end) then Err else
    let pt := gens_get g (i + 1) in
    do b' <- commit b pt (rnd k);
    blind_loop g rest rnd k.+1 b' (rcons pts pt) (rcons secs m)
  end.

(** blind_signature_context.go:88-93 and 179-184 *)
Definition blind_challenge (rand_com : bytes) (com : G1) (nonce : F) : F :=
  wide (xof [:: BStart; BApp LRandCommit rand_com; BApp LBlindCommit (penc1 com); BApp LNonce (enc nonce); BExt LBlindChal 64]).

(** blind_signature_context.go:45-106 NewBlindSignatureContext (arguments non-nil); [blinding] and [rlast]
    are the last two draws *)
Definition new_blind (msgs : seq (int * F)) (g : gens) (nonce : F) (rnd : nat -> F) (blinding rlast : F)
  : outcome (bctx * F) :=
  do (b0, pts0, secs0) <- blind_loop g msgs rnd 0 new_builder [::] [::];
  let secs := rcons secs0 blinding in
  let pts := rcons pts0 (gens_get g 0) in
  do b <- commit b0 (gens_get g 0) rlast;
  do com <- deref (sop pts secs);
  let c := blind_challenge (contribution b) com nonce in
  do proofs <- gen_proof b c secs;
  Ok (BCtx com c proofs, blinding).

(** blind_signature_context.go:160-193 Verify; a nil commitment panics in ToAffineCompressed *)
Definition blind_verify (ctx : bctx) (known : seq int) (g : gens) (nonce : F) : outcome unit :=
  if has (fun i => match i with Posz n => (glen g < n)%N | Negz _ => false end) known then Err else
  let pts := [seq gens_get g (Posz i.+1) | i <- iota 0 (glen g) & Posz i \notin known] in
  do com <- deref (sop (pts ++ [:: gens_get g 0; Some (bc_com ctx)]) (rcons (bc_proofs ctx) (- bc_chal ctx)));
  let c := blind_challenge (penc1 com) (bc_com ctx) nonce in
  if c != bc_chal ctx then Err else Ok tt.

(** sort.Ints on the keys (blind_signature_context.go:213) *)
Definition sort_ints : seq int -> seq int := sort (fun i j : int => (i <= j)%R).

(** blind_signature_context.go:199-255 ToBlindSignature (arguments non-nil) *)
Definition to_blind (ctx : bctx) (msgs : seq (int * F)) (sk : F) (g : gens) (nonce : F) : outcome sig :=
  if sk == 0 then Err else
  if has (fun p => match p.1 with Posz n => (glen g < n)%N | Negz _ => false end) msgs then Err else
  let tv := sort_ints (map fst msgs) in
  let smsgs := [seq odflt 0 (zassoc i msgs) | i <- tv] in
  do _ <- blind_verify ctx tv g nonce;
  let: (ee, s) := drbg (enc sk ++ nonce_data g smsgs) in
  if ee + sk == 0 then Err else
  do b <- deref (sop (Some (bc_com ctx) :: Some g1 :: gens_get g 0 :: [seq gens_get g (p.1 + 1) | p <- msgs])
                     (1 :: 1 :: s :: map snd msgs));
  Ok (Sig ((ee + sk)^-1 *: b) ee s).

(** blind_signature.go:73-79 ToUnblinded *)
Definition to_unblinded (sg : sig) (blinder : F) : sig := Sig (sa sg) (se sg) (ss sg + blinder).

(* ------------------------------------------------------ proof of knowledge *)
(** common/proof_message.go: a message with its blinding; [None]: revealed *)
Record pmsg := PMsg { pm_msg : F; pm_blind : option F }.
(** pok_signature.go:23-35 *)
Record pok := Pok { pk_aPrime : G1; pk_aBar : G1; pk_d : G1; pk_proof1 : builder; pk_proof2 : builder; pk_secs1 : seq F; pk_secs2 : seq F }.

(** pok_signature.go:111-119: the loop over the messages, [i] the index *)
Fixpoint pok_loop (g : gens) (i : nat) (msgs : seq pmsg) (b : builder) (secs : seq F) : outcome (builder * seq F) :=
  match msgs with
  | [::] => Ok (b, secs)
  | m :: rest =>
    match pm_blind m with
    | None => pok_loop g i.+1 rest b secs
    | Some k => do b' <- commit b (gens_get g (Posz i.+1)) k;
                pok_loop g i.+1 rest b' (rcons secs (pm_msg m))
    end
  end.

(** pok_signature.go:38-130 NewPokSignature; [r1], [r2] are non-zero draws, [q1..q4] the blindings of the
    four CommitRandom calls *)
Definition new_pok (sg : sig) (g : gens) (msgs : seq pmsg) (r1 r2 q1 q2 q3 q4 : F) : outcome pok :=
  if (size msgs != glen g)%N then Err else
  if r1 == 0 then Err else
  let r3 := r1^-1 in
  do b <- compute_b (ss sg) (map pm_msg msgs) g;
  let aPrime := r1 *: sa sg in
  let aBar := r1 *: b - se sg *: aPrime in
  do d <- deref (sop [:: Some b; Some (h0 g)] [:: r1; r2]);
  let sPrime := ss sg + r2 * r3 in
  do p1 <- commit new_builder (Some aPrime) q1;
  do p1' <- commit p1 (Some (h0 g)) q2;
  do p2 <- commit new_builder (Some (- d)) q3;
  do p2' <- commit p2 (Some (h0 g)) q4;
  do (p2'', secs2) <- pok_loop g 0 msgs p2' [:: r3; sPrime];
  Ok (Pok aPrime aBar d p1' p2'' [:: se sg; r2] secs2).

(** pok_signature.go:134-140 GetChallengeContribution *)
Definition pok_contribution (p : pok) : blog :=
  [:: BApp LAPrime (penc1 (pk_aPrime p)); BApp LABar (penc1 (pk_aBar p)); BApp LD (penc1 (pk_d p));
      BApp LProof1 (contribution (pk_proof1 p)); BApp LProof2 (contribution (pk_proof2 p))].

(** pok_signature_proof.go:22-25 *)
Record pokproof := PokProof { pp_aPrime : G1; pp_aBar : G1; pp_d : G1; pp_1 : seq F; pp_2 : seq F }.
(** pok_signature.go:143-159 GenerateProof *)
Definition pok_generate (p : pok) (c : F) : outcome pokproof :=
  do x1 <- gen_proof (pk_proof1 p) c (pk_secs1 p);
  do x2 <- gen_proof (pk_proof2 p) c (pk_secs2 p);
  Ok (PokProof (pk_aPrime p) (pk_aBar p) (pk_d p) x1 x2).

(** pok_signature_proof.go:171-179: the responses of the hidden messages, taken in order from index j;
    a short proof2 panics *)
Fixpoint take_resp (n : nat) (l : seq F) : outcome (seq F) :=
  match n, l with
  | 0%N, _ => Ok [::]
  | _.+1, [::] => Panic
  | n'.+1, x :: l' => do r <- take_resp n' l'; Ok (x :: r)
  end.

(** pok_signature_proof.go:127-183 GetChallengeContribution: the operations appended.  More revealed messages
    than generators make the capacity of line 156 smaller than its length, a panic; a nil sum panics when used *)
Definition vcontribution (p : pokproof) (g : gens) (revealed : seq (int * F)) (c : F) : outcome blog :=
  do p10 <- deref (ohead (pp_1 p));
  do p11 <- deref (ohead (drop 1 (pp_1 p)));
  do com1 <- deref (sop [:: Some (pp_aBar p - pp_d p); Some (pp_aPrime p); Some (h0 g)] [:: c; p10; p11]);
  do r <- deref (sop (Some g1 :: [seq gens_get g (m.1 + 1) | m <- revealed]) (1 :: map snd revealed));
  if (glen g < size revealed)%N then Panic else
  do p20 <- deref (ohead (pp_2 p));
  do p21 <- deref (ohead (drop 1 (pp_2 p)));
  let hidden := [seq i <- iota 0 (glen g) | ~~ isSome (zassoc (Posz i) revealed)] in
  do resp <- take_resp (size hidden) (drop 2 (pp_2 p));
  do com2 <- deref (sop (Some r :: Some (- pp_d p) :: Some (h0 g) :: [seq gens_get g (Posz i.+1) | i <- hidden])
                        (c :: p20 :: p21 :: resp));
  Ok [:: BApp LAPrime (penc1 (pp_aPrime p)); BApp LABar (penc1 (pp_aBar p)); BApp LD (penc1 (pp_d p));
         BApp LProof1 (penc1 com1); BApp LProof2 (penc1 com2)].

(** pok_signature_proof.go:189-194 VerifySigPok *)
Definition verify_sig_pok (p : pokproof) (pk : G2) : bool :=
  [&& pk != 0, pp_aPrime p != 0, pp_aBar p != 0 & multi_pairing e [:: (pp_aPrime p, pk); (pp_aBar p, - g2)] == 0].

(** the challenge extracted from a transcript after the nonce is appended (pok_signature_proof.go:206-208;
    the prover computes it the same way, pok_signature_proof_test.go) *)
Definition pok_challenge (t : blog) (nonce : F) : F :=
  wide (xof (t ++ [:: BApp LNonce (enc nonce); BExt LSpk 64])).

(** pok_signature_proof.go:197-213 Verify on the transcript [t] *)
Definition pok_verify (p : pokproof) (revealed : seq (int * F)) (pk : G2) (g : gens) (nonce c : F) (t : blog) : outcome bool :=
  do ops <- vcontribution p g revealed c;
  let vc := pok_challenge (t ++ ops) nonce in
  Ok (verify_sig_pok p pk && (c == vc)).
End Bbs.
