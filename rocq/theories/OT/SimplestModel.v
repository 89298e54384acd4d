(** Model of pkg/ot/base/simplest/ot.go and util.go: the verified "simplest" random oblivious transfer.

    Scalars are a field [F], points an [F]-module [G] with base point [g]; [penc]/[pdec] are
    ToAffineCompressed / FromAffineCompressed; [hash] is SHA3-256; [ext1]/[ext2] are the two byte strings
    the Merlin transcript, seeded with the session id, yields under the labels "sender schnorr proof" and
    "random oracle salts" (in that order, so each is a function of the session id). *)
From mathcomp Require Import all_ssreflect all_algebra.
From Verif Require Import Lib.Res Lib.Bytes Core.HashModel Schnorr.Model.
Set Implicit Arguments. Unset Strict Implicit. Unset Printing Implicit Defensive.
Import GRing.Theory.
Local Open Scope ring_scope.

(** util.go:27-30 ExtractBitFromByteVector; the index is in range at every call *)
Definition extract_bit (v : bytes) (i : nat) : bool := Nat.testbit (nth 0%N v (i %/ 8)) (i %% 8).

Section Simplest.
Variables (F : fieldType) (G : lmodType F) (g : G) (penc : G -> bytes) (pdec : bytes -> option G)
  (enc : F -> bytes) (dec : bytes -> option F) (hash : bytes -> bytes) (ext1 ext2 : bytes -> bytes).

(** ot.go:84-104; the output keys are pairs (Rho^0, Rho^1) *)
Record sender := Sender { s_batch : nat; s_sid : bytes; s_sk : F; s_pk : G; s_keys : seq (bytes * bytes) }.
(** ot.go:107-124 *)
Record receiver := Receiver { r_batch : nat; r_sid : bytes; r_packed : bytes; r_bits : seq bool;
  r_B : G; r_keys : seq bytes; r_chal : seq bytes }.

(** ot.go:130-142 NewSender *)
Definition new_sender (batch : nat) (sid : bytes) : outcome sender :=
  if (batch %% 8 != 0)%N then Err else Ok (Sender batch sid 0 0 [::]).
(** ot.go:146-171 NewReceiver; [rnd] is what crypto/rand wrote; util.go:17-23 initChoice *)
Definition new_receiver (batch : nat) (sid rnd : bytes) : outcome receiver :=
  if (batch %% 8 != 0)%N then Err else
  Ok (Receiver batch sid rnd [seq extract_bit rnd i | i <- iota 0 batch] 0 [::] [::]).

(** ot.go:176-191 Round1ComputeAndZkpToPublicKey with secret key [b] and Schnorr nonce [k] *)
Definition round1 (s : sender) (b k : F) : outcome (sender * proof G) :=
  do pf <- prove penc dec hash g (ext1 (s_sid s)) b k;
  Ok (Sender (s_batch s) (s_sid s) b (b *: g) (s_keys s), pf).

(** the pad: SHA3 of salt || byte(i) || point (ot.go:220-231 and 268-280) *)
Definition pad (salt : bytes) (i : nat) (P : G) : bytes := hash (salt ++ [:: (i %% 256)%N] ++ penc P).

(** ot.go:195-235 Round2VerifySchnorrAndPadTransfer with the scalars [a i] *)
Definition round2 (r : receiver) (pf : option (proof G)) (a : nat -> F) : outcome (receiver * seq bytes) :=
  do pf <- deref pf;
  do _ <- verify penc enc hash g (ext1 (r_sid r)) pf;
  let B := pf_stmt pf in
  let salt := ext2 (r_sid r) in
  let masked i := if nth false (r_bits r) i then penc (a i *: g + B) else penc (a i *: g) in
  let keys := [seq pad salt i (a i *: B) | i <- iota 0 (r_batch r)] in
  Ok (Receiver (r_batch r) (r_sid r) (r_packed r) (r_bits r) B keys (r_chal r),
      [seq masked i | i <- iota 0 (r_batch r)]).

(** all points are decoded before use (ot.go:247-251) *)
Fixpoint decode_all (ms : seq bytes) : option (seq G) :=
  match ms with
  | [::] => Some [::]
  | m :: ms' => match pdec m, decode_all ms' with Some p, Some ps => Some (p :: ps) | _, _ => None end
  end.
Definition hash2 (b : bytes) : bytes := hash (hash b).

(** ot.go:240-294 Round3PadTransfer; indexing a short list panics *)
Definition round3 (s : sender) (ms : seq bytes) : outcome (sender * seq bytes) :=
  match decode_all ms with
  | None => Err
  | Some ps =>
    if (size ps < s_batch s)%N then Panic else
    let salt := ext2 (s_sid s) in
    let negB := - s_pk s in
    let key i := (pad salt i (s_sk s *: nth 0 ps i), pad salt i (s_sk s *: (nth 0 ps i + negB))) in
    let keys := [seq key i | i <- iota 0 (s_batch s)] in
    Ok (Sender (s_batch s) (s_sid s) (s_sk s) (s_pk s) keys,
        [seq bxor (hash2 k.1) (hash2 k.2) | k <- keys])
  end.

(** ot.go:298-313 Round4RespondToChallenge *)
Definition round4 (r : receiver) (chal : seq bytes) : outcome (receiver * seq bytes) :=
  let r' := Receiver (r_batch r) (r_sid r) (r_packed r) (r_bits r) (r_B r) (r_keys r) chal in
  if (size chal < r_batch r)%N || (size (r_keys r) < r_batch r)%N then Panic else
  let resp i := let h := hash2 (nth [::] (r_keys r) i) in
    if nth false (r_bits r) i then bxor (nth [::] chal i) h else h in
  Ok (r', [seq resp i | i <- iota 0 (r_batch r)]).

(** ot.go:319-334 Round5Verify: the loop over the batch stops at the first mismatch *)
Fixpoint round5_loop (keys : seq (bytes * bytes)) (resp : seq bytes) : outcome (seq (bytes * bytes)) :=
  match keys with
  | [::] => Ok [::]
  | k :: keys' =>
    match resp with
    | [::] => Panic
    | p :: resp' =>
      if hash (hash k.1) != p then Err else
      do o <- round5_loop keys' resp'; Ok ((hash k.1, hash k.2) :: o)
    end
  end.
Definition round5 (s : sender) (resp : seq bytes) : outcome (seq (bytes * bytes)) :=
  if (size (s_keys s) < s_batch s)%N then Panic else round5_loop (take (s_batch s) (s_keys s)) resp.

(** ot.go:344-361 Round6Verify *)
Fixpoint round6_loop (keys : seq bytes) (bits : seq bool) (chal : seq bytes) (ops : seq (bytes * bytes)) :
  outcome unit :=
  match keys, bits with
  | k :: keys', w :: bits' =>
    match ops, chal with
    | [::], _ => Panic
    | o :: ops', chal =>
      if hash k != (if w then o.2 else o.1) then Err else
      match chal with
      | [::] => Panic
      | x :: chal' => if bxor (hash o.1) (hash o.2) != x then Err else round6_loop keys' bits' chal' ops'
      end
    end
  | _, _ => Ok tt
  end.
Definition round6 (r : receiver) (ops : seq (bytes * bytes)) : outcome unit :=
  if (size (r_keys r) < r_batch r)%N then Panic else
  round6_loop (take (r_batch r) (r_keys r)) (r_bits r) (r_chal r) ops.

(** ot.go:375-390 Encrypt, 394-407 Decrypt *)
Definition ot_encrypt (s : sender) (ms : seq (bytes * bytes)) : outcome (seq (bytes * bytes)) :=
  if (size ms != size (s_keys s))%N then Err else
  Ok [seq (bxor p.1.1 p.2.1, bxor p.1.2 p.2.2) | p <- zip (s_keys s) ms].
Definition ot_decrypt (r : receiver) (cs : seq (bytes * bytes)) : outcome (seq bytes) :=
  if (size cs != size (r_keys r))%N then Err else
  Ok [seq bxor p.1.1 (if p.1.2 then p.2.2 else p.2.1) | p <- zip (zip (r_keys r) (r_bits r)) cs].

(** the messages of an honest run, in protocol order *)
Definition honest_run (batch : nat) (sid rnd : bytes) (b k : F) (a : nat -> F) :
  outcome (sender * receiver) :=
  do s0 <- new_sender batch sid;
  do r0 <- new_receiver batch sid rnd;
  do sp <- round1 s0 b k;
  do rm <- round2 r0 (Some sp.2) a;
  do sc <- round3 sp.1 rm.2;
  do rr <- round4 rm.1 sc.2;
  do ops <- round5 sc.1 rr.2;
  do _ <- round6 rr.1 ops;
  Ok (sc.1, rr.1).
End Simplest.
