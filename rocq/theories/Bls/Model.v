(** BLS signatures: pkg/signatures/bls/bls_sig.

    usual_bls*.go (keys in G1, signatures in G2) and tiny_bls*.go (keys in G2, signatures in G1) are the same
    code with the two source groups exchanged; one model covers both.  Keys live in [PK] with generator [gp],
    signatures in [SG], and [e s p] is the pairing of a signature-side point with a key-side point.  Every
    citation gives the usual file first and the tiny one second.  The differences between the two files are
    the argument [vt] of the functions concerned (true = tiny).
    A point the code handles may lie outside the prime-order subgroup: [Off i].  The subgroup check rejects
    those; where the code pairs one without a check the verdict is the arbitrary [off_check].
    [hashpt msg dst] is the hash to the signature group; [penc] the compressed encoding of a key.
    A nil slice or pointer is [None].  Engine (pairings.go:31-76): AddPair skips pairs with an identity, which
    contributes the neutral element, and Check compares the product of the pairings with one. *)
From mathcomp Require Import all_ssreflect all_algebra.
From Verif Require Import Lib.Res Lib.Bytes Sharing.Model.
Set Implicit Arguments.
Unset Strict Implicit.
Unset Printing Implicit Defensive.
Import GRing.Theory.
Local Open Scope ring_scope.

(** a curve point: in the prime-order subgroup, or outside *)
Inductive cpt (G : Type) := In of G | Off of nat.
Arguments Off {G} _.

(** allRowsUnique; lib.go:41-51.  [seen] is the key set of the map; a nil row has the key "" like an empty one. *)
Fixpoint all_rows_unique_from (seen : seq bytes) (data : seq bytes) : bool :=
  match data with
  | [::] => true
  | row :: r => if row \in seen then false else all_rows_unique_from (row :: seen) r
  end.
Definition all_rows_unique (data : seq bytes) : bool := all_rows_unique_from [::] data.

(** string(nil) and Hash(nil) treat a nil slice as an empty one *)
Definition msg_bytes (m : option bytes) : bytes := odflt [::] m.

Section Bls.
Variables (F : fieldType) (PK SG GT : lmodType F) (gp : PK) (e : SG -> PK -> GT).
Variables (hashpt : bytes -> bytes -> SG) (penc : cpt PK -> bytes).
Variable off_check : nat -> SG -> SG -> bool.
Variables (enc : F -> bytes) (dec : bytes -> option F).
Notation pkey := (cpt PK).
Notation sigt := (cpt SG).

(** IsIdentity: a point outside the subgroup is not the identity *)
Definition is_identity (G : lmodType F) (p : cpt G) : bool := if p is In x then x == 0 else false.

(** GetPublicKey; usual_bls_sig.go:157-164, tiny_bls_sig.go:157-163.  [sk] is the *SecretKey receiver. *)
Definition get_public_key (sk : option F) : outcome pkey :=
  do k <- deref sk;
  let result := k *: gp in
  if result == 0 then Err else Ok (In result).

(** createSignature; usual_bls_sig.go:174-187, tiny_bls_sig.go:173-186 *)
Definition create_signature (sk : option F) (message : option bytes) (dst : bytes) : outcome sigt :=
  do k <- deref sk;
  match message with
  | None => Err
  | Some m => if k == 0 then Err else Ok (In (k *: hashpt m dst))
  end.

(** verifySignature; usual_bls_sig.go:191-208, tiny_bls_sig.go:190-207.  The engine's product is
    e(H(m), pk) e(s, -g) (in the tiny version its inverse). *)
Definition verify_signature (pk : option pkey) (message : option bytes) (signature : option sigt) (dst : bytes)
  : outcome bool :=
  do p <- deref pk;
  match signature, message with
  | Some s, Some m =>
      if is_identity p then Err
      else match s with
           | Off _ => Err
           | In sv =>
               if sv == 0 then Err
               else match p with
                    | In pv => Ok (e (hashpt m dst) pv + e sv (- gp) == 0)
                    | Off i => Ok (off_check i (hashpt m dst) sv)
                    end
           end
  | _, _ => Err
  end.

(** the loops of aggregatePublicKeys (usual_bls_sig.go:211-226, tiny_bls_sig.go:210-225) and
    aggregateSignatures (usual_bls_sig.go:229-244, tiny_bls_sig.go:228-243) *)
Fixpoint sum_points (G : lmodType F) (acc : G) (l : seq (option (cpt G))) : outcome (cpt G) :=
  match l with
  | [::] => Ok (In acc)
  | None :: _ => Err
  | Some (Off _) :: _ => Err
  | Some (In x) :: r => sum_points (acc + x) r
  end.
Definition aggregate_points (G : lmodType F) (l : seq (option (cpt G))) : outcome (cpt G) :=
  if (size l < 1)%N then Err else sum_points 0 l.
Definition aggregate_public_keys (pks : seq (option pkey)) : outcome pkey := aggregate_points pks.
Definition aggregate_signatures (sigs : seq (option sigt)) : outcome sigt := aggregate_points sigs.

(** the loop over the keys in coreAggregateVerify; usual_bls_sig.go:117-127, tiny_bls_sig.go:117-127 *)
Fixpoint agg_pairs (pks : seq (option pkey)) (msgs : seq bytes) (dst : bytes) (acc : GT) : outcome GT :=
  match pks, msgs with
  | [::], _ => Ok acc
  | None :: _, _ => Err
  | Some p :: pr, m :: mr =>
      match p with
      | Off _ => Err
      | In pv => if pv == 0 then Err else agg_pairs pr mr dst (acc + e (hashpt m dst) pv)
      end
  | Some p :: _, [::] => if is_identity p then Err else if p is Off _ then Err else Panic
  end.

(** coreAggregateVerify / aggregateVerify; usual_bls_sig.go:94-130, tiny_bls_sig.go:94-130 *)
Definition core_aggregate_verify (sig : sigt) (pks : seq (option pkey)) (msgs : seq bytes) (dst : bytes)
  : outcome bool :=
  if (size pks < 1)%N then Err
  else if (size msgs < 1)%N then Err
  else if size pks != size msgs then Err
  else match sig with
       | Off _ => Err
       | In s => do acc <- agg_pairs pks msgs dst 0; Ok (acc + e s (- gp) == 0)
       end.

(** createProofOfPossession; usual_bls_sig.go:257-271, tiny_bls_sig.go:256-270 *)
Definition create_pop (sk : option F) (popdst : bytes) : outcome sigt :=
  do pk <- get_public_key sk;
  create_signature sk (Some (penc pk)) popdst.

(** ProofOfPossession.verify; usual_bls_sig.go:300-309, tiny_bls_sig.go:299-308.  [pop] is the receiver. *)
Definition pop_verify (pk : option pkey) (pop : option sigt) (popdst : bytes) : outcome bool :=
  do s <- deref pop;
  match pk with
  | None => Err
  | Some p => verify_signature (Some p) (Some (penc p)) (Some s) popdst
  end.

(** ** The three schemes *)

(** SigBasic.Sign, SigPop.Sign; usual_bls.go:131-133, 337-339, tiny_bls.go:131-133, 332-334 *)
Definition basic_sign (sk : option F) (msg : option bytes) (dst : bytes) : outcome sigt := create_signature sk msg dst.

(** SigBasic.Verify, SigPop.Verify; usual_bls.go:146-148, 354-356, tiny_bls.go:146-148, 349-351 *)
Definition basic_verify (pk : option pkey) (msg : option bytes) (sig : option sigt) (dst : bytes) : outcome bool :=
  verify_signature pk msg sig dst.

(** SigBasic.AggregateVerify, SigPop.AggregateVerify; usual_bls.go:155-164, 363-372, tiny_bls.go:155-164, 358-367 *)
Definition basic_aggregate_verify (pks : seq (option pkey)) (msgs : seq (option bytes)) (sigs : seq (option sigt))
  (dst : bytes) : outcome bool :=
  if ~~ all_rows_unique (map msg_bytes msgs) then Err
  else
    do asig <- aggregate_signatures sigs;
    core_aggregate_verify asig pks (map msg_bytes msgs) dst.

(** SigAug.Sign; usual_bls.go:209-224; SigAugVt.Sign, tiny_bls.go:209-220, has no check of the message *)
Definition aug_sign (vt : bool) (sk : option F) (msg : option bytes) (dst : bytes) : outcome sigt :=
  if ~~ vt && (size (msg_bytes msg) == 0%N) then Err
  else
    do pk <- get_public_key sk;
    create_signature sk (Some (penc pk ++ msg_bytes msg)) dst.

(** SigAug.Verify; usual_bls.go:248-255, tiny_bls.go:243-250.  MarshalBinary of a nil key panics. *)
Definition aug_verify (pk : option pkey) (msg : option bytes) (sig : option sigt) (dst : bytes) : outcome bool :=
  do p <- deref pk;
  verify_signature (Some p) (Some (penc p ++ msg_bytes msg)) sig dst.

(** the loop of SigAug.AggregateVerify building data; usual_bls.go:265-272, tiny_bls.go:260-267 *)
Fixpoint aug_data (pks : seq (option pkey)) (msgs : seq bytes) : outcome (seq bytes) :=
  match pks, msgs with
  | pk :: pr, m :: mr => do p <- deref pk; do r <- aug_data pr mr; Ok ((penc p ++ m) :: r)
  | _, _ => Ok [::]
  end.

(** SigAug.AggregateVerify; usual_bls.go:261-278, tiny_bls.go:256-273 *)
Definition aug_aggregate_verify (pks : seq (option pkey)) (msgs : seq (option bytes)) (sigs : seq (option sigt))
  (dst : bytes) : outcome bool :=
  if size pks != size msgs then Err
  else
    do data <- aug_data pks (map msg_bytes msgs);
    do asig <- aggregate_signatures sigs;
    core_aggregate_verify asig pks data dst.

(** SigPop.AggregateSignatures and AggregatePublicKeys; usual_bls.go:377-393, tiny_bls.go:372-388 *)
Definition multi_sig (sigs : seq (option sigt)) : outcome sigt := aggregate_signatures sigs.
Definition multi_pk (pks : seq (option pkey)) : outcome pkey := aggregate_public_keys pks.

(** SigPop.VerifyMultiSignature; usual_bls.go:399-403, tiny_bls.go:394-398.  sig.value is read first. *)
Definition verify_multi (pk : option pkey) (msg : option bytes) (sig : option sigt) (dst : bytes) : outcome bool :=
  do s <- deref sig;
  do p <- deref pk;
  verify_signature (Some p) msg (Some s) dst.

(** SigPop.FastAggregateVerify; usual_bls.go:408-414, tiny_bls.go:403-409 *)
Definition fast_aggregate_verify (pks : seq (option pkey)) (msg : option bytes) (asig : option sigt) (dst : bytes)
  : outcome bool :=
  do apk <- aggregate_public_keys pks;
  verify_signature (Some apk) msg asig dst.

(** SigPop.FastAggregateVerifyConstituent; usual_bls.go:420-428, tiny_bls.go:414-420 *)
Definition fast_aggregate_verify_constituent (pks : seq (option pkey)) (msg : option bytes)
  (sigs : seq (option sigt)) (dst : bytes) : outcome bool :=
  do asig <- aggregate_signatures sigs;
  fast_aggregate_verify pks msg (Some asig) dst.

(** SigPop.PopProve and PopVerify; usual_bls.go:435-446, tiny_bls.go:427-438 *)
Definition pop_prove (sk : option F) (popdst : bytes) : outcome sigt := create_pop sk popdst.

(** NewSigPopWithDst; usual_bls.go:303-308, tiny_bls.go:298-303 *)
Definition new_pop_with_dst (sigdst popdst : bytes) : outcome (bytes * bytes) :=
  if sigdst == popdst then Err else Ok (sigdst, popdst).

(** ** Threshold signatures *)

(** SecretKeyShare; lib.go:129-132 *)
Record key_share := KeyShare { ks_id : nat; ks_val : bytes }.

(** thresholdizeSecretKey; lib.go:162-208.  [byte(s.Id)] is the identifier modulo 256.  [rnd] is what the
    sharing draws from crypto/rand. *)
Definition thresholdize (sk : option F) (t n : nat) (rnd : nat -> F) : outcome (seq key_share) :=
  match sk with
  | None => Err
  | Some k =>
      if (n < t)%N then Err
      else if t == 0%N then Err
      else if (n <= 1)%N then Err
      else if (255 < n)%N || (255 < t)%N then Err
      else
        do sss <- new_shamir t n (Some tt);
        do shares <- split enc sss k rnd;
        if size shares != n then Err
        else Ok [seq KeyShare (sh_id s %% 256)%N (sh_val s) | s <- shares]
  end.

(** PartialSignature; usual_bls_sig.go:396-399, tiny_bls_sig.go:395-398 *)
Record partial := Partial { pa_id : nat; pa_sig : sigt }.

(** partialSign; usual_bls_sig.go:403-420, tiny_bls_sig.go:402-419.  [dec] is the byte reversal, the copy into
    32 bytes and SetBytes. *)
Definition partial_sign (sks : option key_share) (message : bytes) (dst : bytes) : outcome partial :=
  do ks <- deref sks;
  if size message == 0%N then Err
  else match dec (ks_val ks) with
       | None => Err
       | Some s => Ok (Partial (ks_id ks) (In (s *: hashpt message dst)))
       end.

(** SigAug.PartialSign; usual_bls.go:227-238; SigAugVt.PartialSign, tiny_bls.go:223-233.  The tiny version checks
    the message too.  MarshalBinary of a nil key panics. *)
Definition aug_partial_sign (sks : option key_share) (pk : option pkey) (msg dst : bytes) : outcome partial :=
  if size msg == 0%N then Err
  else do p <- deref pk; partial_sign sks (penc p ++ msg) dst.

(** splitXY; usual_bls_sig.go:471-492, tiny_bls_sig.go:469-490.  [dup] is the key set of the map. *)
Fixpoint split_xy (dup : seq nat) (partials : seq (option partial)) : outcome (seq F * seq SG) :=
  match partials with
  | [::] => Ok ([::], [::])
  | None :: _ => Err
  | Some sp :: r =>
      if pa_id sp \in dup then Err
      else match pa_sig sp with
           | Off _ => Err
           | In y => do rest <- split_xy (pa_id sp :: dup) r; Ok ((pa_id sp)%:R :: rest.1, y :: rest.2)
           end
  end.

(** the inner loop of combineSigs: the Lagrange basis at 0 for index [i]; usual_bls_sig.go:444-460,
    tiny_bls_sig.go:442-458 *)
Definition basis_at0 (xs : seq F) (i : nat) : outcome F :=
  foldl (fun acc j =>
           do basis <- acc;
           if i == j then Ok basis
           else
             let num := - nth 0 xs j in
             let den := nth 0 xs i - nth 0 xs j in
             if den == 0 then Err else Ok (basis * (num * den^-1)))
        (Ok 1) (iota 0 (size xs)).

(** combineSigs; usual_bls_sig.go:423-468, tiny_bls_sig.go:422-466 *)
Definition combine_sigs (partials : seq (option partial)) : outcome sigt :=
  if (size partials < 2)%N then Err
  else if (255 < size partials)%N then Err
  else
    do xy <- split_xy [::] partials;
    do sig <- foldl (fun acc i =>
                do s <- acc;
                do basis <- basis_at0 xy.1 i;
                Ok (s + basis *: nth 0 xy.2 i))
              (Ok 0) (iota 0 (size xy.1));
    Ok (In sig).

End Bls.
Arguments In {G} _.

(** ** Key encodings *)

(** SecretKeyShare.MarshalBinary; lib.go:135-141: the slice blob[:l] and the index blob[l] panic when the value
    is too long *)
Definition share_marshal (ks : key_share) : outcome bytes :=
  let l := size (ks_val ks) in
  if (32 < l)%N then Panic
  else Ok (ks_val ks ++ [:: ks_id ks] ++ nseq (32 - l) 0%N).

(** SecretKeyShare.UnmarshalBinary; lib.go:144-158 *)
Definition share_unmarshal (data : bytes) : outcome key_share :=
  if size data != 33%N then Err
  else if data == nseq 33 0%N then Err
  else Ok (KeyShare (nth 0%N data 32) (take 32 data)).

Section Keys.
(** the order of the scalar field; the field value of a key is a number below it *)
Variables (q : nat) (hkdf : bytes -> bytes).

(** SecretKey.MarshalBinary; lib.go:102-105 *)
Definition sk_marshal (v : nat) : bytes := rev (le_bytes 32 v).

(** SecretKey.UnmarshalBinary; lib.go:110-126; Field.SetBytes (native/field.go) accepts values below the order *)
Definition sk_unmarshal (data : bytes) : outcome nat :=
  if size data != 32%N then Err
  else if data == nseq 32 0%N then Err
  else
    let v := le_val (copy_into 32 (rev data)) in
    if (v < q)%N then Ok v else Err.

(** SecretKey.Generate; lib.go:68-99.  [ikm] is the caller's slice: its first [n] bytes with [spare] bytes of
    capacity behind them.  [append(ikm, 0)] writes into the spare capacity when there is any.  [hkdf] gives the 48
    bytes of output for the extended key material (salt and info are constants).  The result is the key and the
    spare bytes afterwards. *)
Definition generate (ikm spare : bytes) : outcome (nat * bytes) :=
  if (size ikm < 32)%N then Err
  else
    let spare' := if spare is _ :: r then 0%N :: r else [::] in
    let okm := hkdf (rcons ikm 0%N) in
    let wide := rev okm ++ nseq 16 0%N in
    Ok ((le_val wide %% q)%N, spare').
End Keys.
