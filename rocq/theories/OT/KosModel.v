(** Model of pkg/ot/extension/kos/kos.go: the KOS correlated OT extension.

    The sizes Kappa/8, L/8 and lPrime/8 (kos.go:24-52) are the parameters [kb], [lb] and [eb]; the Go constants
    are in [Kos] below.  [mul] is binaryFieldMul; [hash] is SHA3-256; [shake sid x n] the first n bytes of
    cSHAKE256 customised by the session id on input x (kos.go:222-231); [dec]/[enc] are Scalar.SetBytes and
    Scalar.Bytes.  Byte matrices are lists of rows. *)
From mathcomp Require Import all_ssreflect all_algebra.
From Verif Require Import Lib.Res Lib.Bytes Core.HashModel OT.GfModel OT.SimplestModel.
Set Implicit Arguments. Unset Strict Implicit. Unset Printing Implicit Defensive.
Import GRing.Theory.
Local Open Scope ring_scope.

(** kos.go:168-170 convertBitToBitmask, then the & with each byte *)
Definition bitmask (b : bool) : nat := if b then 255%N else 0%N.
Definition bmask (b : bool) (x : bytes) : bytes := [seq Nat.land (bitmask b) y | y <- x].

(** big-endian uint16 (kos.go:247-248) *)
Definition be16 (j : nat) : bytes := [:: (j %/ 256 %% 256)%N; (j %% 256)%N].

(** the byte with bit k equal to [f k] (the or of the shifted bits, kos.go:189-197) *)
Definition pack8 (f : nat -> bool) : nat :=
  foldl (fun acc k => Nat.lor acc (Nat.shiftl (nat_of_bool (f k)) k)) 0%N (iota 0 8).

Section Kos.
Variables (F : fieldType) (enc : F -> bytes) (dec : bytes -> option F)
  (hash : bytes -> bytes) (shake : bytes -> bytes -> nat -> bytes)
  (mul : bytes -> bytes -> bytes) (kb lb eb : nat).

(** kos.go:178-203 transposeBooleanMatrix; the four nested loops write each output bit once, so the output
    is given entry by entry *)
Definition transpose (M : seq bytes) : seq bytes :=
  [seq [seq pack8 (fun k => extract_bit (nth [::] M (8 * rb + k)%N) c) | rb <- iota 0 kb] | c <- iota 0 (8 * eb)].

(** chi_j = hash(j || hash(U)) (kos.go:244-256, 312-323) *)
Definition chi (U : seq bytes) (j : nat) : bytes := hash (be16 j ++ hash (flatten U)).

(** xor of the strings x j, accumulated in a zero-initialised array *)
Definition xorsum (x : nat -> bytes) (s : seq nat) : bytes := foldl (fun acc j => bxor acc (x j)) (nseq kb 0%N) s.

(** the receiver's state (kos.go:54-67): the seed OT keys, the extended choices, psi, the session id *)
Record receiver := Receiver { kr_seeds : seq (bytes * bytes); kr_w : bytes; kr_psi : seq bytes; kr_sid : bytes;
  kr_shares : seq (seq F) }.
Definition new_receiver (seeds : seq (bytes * bytes)) : receiver := Receiver seeds [::] [::] [::] [::].
(** the sender's state (kos.go:69-76): the seed OT choice bits, their packed form, the keys *)
Record sender := Sender { ks_bits : seq bool; ks_packed : bytes; ks_keys : seq bytes; ks_shares : seq (seq F) }.
(** kos.go:153-157 *)
Record round1_out := Round1Out { k1_U : seq bytes; k1_W : bytes; k1_V : bytes }.

(** kos.go:207-270 Round1Initialize; [rnd] is what crypto/rand produced ([None]: it failed) *)
Definition round1 (r : receiver) (sid choice : bytes) (rnd : option bytes) : outcome (receiver * round1_out) :=
  match rnd with
  | None => Err
  | Some ext =>
    let w := choice ++ ext in
    if (size (kr_seeds r) < 8 * kb)%N then Panic else
    let v0 i := shake sid (nth ([::], [::]) (kr_seeds r) i).1 eb in
    let v1 i := shake sid (nth ([::], [::]) (kr_seeds r) i).2 eb in
    let U := [seq bxor (bxor (v0 i) (v1 i)) w | i <- iota 0 (8 * kb)] in
    let psi := transpose [seq v0 i | i <- iota 0 (8 * kb)] in
    let W := xorsum (fun j => bmask (extract_bit w j) (chi U j)) (iota 0 (8 * eb)) in
    let V := xorsum (fun j => mul (nth [::] psi j) (chi U j)) (iota 0 (8 * eb)) in
    Ok (Receiver (kr_seeds r) w psi sid (kr_shares r), Round1Out U W V)
  end.

(** the k-th scalar of the column shake(j || x) (kos.go:337-357, 363-379, 395-412) *)
Definition col (sid : bytes) (j : nat) (x : bytes) (k : nat) : option F :=
  dec (take 32 (drop (k * 32)%N (shake sid (be16 j ++ x) 64))).
Definition colo (sid : bytes) (j : nat) (x : bytes) (k : nat) : outcome F :=
  match col sid j x k with Some a => Ok a | None => Err end.

(** one iteration of the loop kos.go:335-384: the shares of slot j, then the values tau *)
Definition slot2 (sid : bytes) (nabla zeta : bytes) (input : seq (seq F)) (j : nat) : outcome (seq F * seq F) :=
  do a0 <- colo sid j zeta 0;
  do a1 <- colo sid j zeta 1;
  do b0 <- colo sid j (bxor zeta nabla) 0;
  do b1 <- colo sid j (bxor zeta nabla) 1;
  Ok ([:: a0; a1], [:: b0 - a0 + nth 0 (nth [::] input j) 0; b1 - a1 + nth 0 (nth [::] input j) 1]).

Fixpoint mapo (A B : Type) (f : A -> outcome B) (s : seq A) : outcome (seq B) :=
  match s with
  | [::] => Ok [::]
  | x :: s' => do y <- f x; do ys <- mapo f s'; Ok (y :: ys)
  end.

(** the rows z_i (kos.go:279-304) and the consistency check (kos.go:305-332) *)
Definition zeta_of (s : sender) (sid : bytes) (m : round1_out) : seq bytes :=
  transpose [seq bxor (shake sid (nth [::] (ks_keys s) i) eb) (bmask (nth false (ks_bits s) i) (nth [::] (k1_U m) i))
            | i <- iota 0 (8 * kb)].
Definition check2 (s : sender) (zeta : seq bytes) (m : round1_out) : bool :=
  xorsum (fun j => mul (nth [::] zeta j) (chi (k1_U m) j)) (iota 0 (8 * eb))
  == bxor (k1_V m) (mul (ks_packed s) (k1_W m)).

(** kos.go:277-386 Round2Transfer *)
Definition round2 (s : sender) (sid : bytes) (input : seq (seq F)) (m : round1_out) : outcome (sender * seq (seq F)) :=
  if (size (ks_bits s) < 8 * kb)%N || (size (ks_keys s) < 8 * kb)%N || (size (ks_packed s) < kb)%N then Panic else
  let zeta := zeta_of s sid m in
  if ~~ check2 s zeta m then Err else
  do slots <- mapo (fun j => slot2 sid (ks_packed s) (nth [::] zeta j) input j) (iota 0 (8 * lb));
  Ok (Sender (ks_bits s) (ks_packed s) (ks_keys s) [seq x.1 | x <- slots], [seq x.2 | x <- slots]).

(** one entry of kos.go:405-425: negate, add tau under the choice bit by copying encodings, decode again *)
Definition slot3k (r : receiver) (tau : seq (seq F)) (j k : nat) : outcome F :=
  do x <- colo (kr_sid r) j (nth [::] (kr_psi r) j) k;
  let w0 := enc (- x) in
  let w1 := enc (- x + nth 0 (nth [::] tau j) k) in
  match dec (if extract_bit (kr_w r) j then w1 else w0) with Some y => Ok y | None => Err end.

(** kos.go:389-427 Round3Transfer *)
Definition round3 (r : receiver) (tau : seq (seq F)) : outcome receiver :=
  do shares <- mapo (fun j => do x0 <- slot3k r tau j 0; do x1 <- slot3k r tau j 1; Ok [:: x0; x1]) (iota 0 (8 * lb));
  Ok (Receiver (kr_seeds r) (kr_w r) (kr_psi r) (kr_sid r) shares).
End Kos.

(** kos.go:24-52: Kappa = 256, L = 672, lPrime = 1008 *)
Definition KappaBytes : nat := 32.
Definition COtBlockSizeBytes : nat := 84.
Definition ExtBytes : nat := 126.
