(** NEM's Ed25519 with Keccak-512: pkg/signatures/schnorr/nem/ed25519_keccak.go.

    Points are elements of an abelian group [G] (Ed25519 has cofactor 8, so [G] is not a module over the scalar
    field); a scalar of filippo.io/edwards25519 is its canonical value, a [nat] below the order [l].  The library
    operations the code calls are modelled by their documented meaning: ScalarBaseMult and
    VarTimeDoubleScalarBaseMult are the group operations, Bytes/SetBytes the codec [penc]/[pdec]. *)
From mathcomp Require Import all_ssreflect all_algebra.
From Verif Require Import Lib.Res Lib.Bytes Mina.BitModel.
Set Implicit Arguments.
Unset Strict Implicit.
Unset Printing Implicit Defensive.
Import GRing.Theory.
Local Open Scope ring_scope.

(** the number encoded little endian by [b], modulo [l] (reduced digit by digit) *)
Fixpoint le_mod (l : nat) (b : bytes) : nat :=
  if b is x :: b' then ((x + 256 * le_mod l b') %% l)%N else (0 %% l)%N.

Section Nem.
Variables (G : zmodType) (g : G) (l : nat).
Variables (keccak : bytes -> bytes) (penc : G -> bytes) (pdec : bytes -> option G).

(** Scalar.SetBytesWithClamping of a 32-byte string (edwards25519 v1.0.0-rc.1: clamp, then reduce);
    called at ed25519_keccak.go:145 and 185 *)
Definition clamp (b : bytes) : nat :=
  let b0 := set_nth 0%N b 0 (band (nth 0%N b 0) 248) in
  le_mod l (set_nth 0%N b0 31 (bor (band (nth 0%N b0 31) 63) 64)).

(** the secret scalar derived from a seed: clamp of the first half of Keccak512(reverse(seed));
    ed25519_keccak.go:138-151, 177-187; internal/point.go:21-29 *)
Definition secret (seed : bytes) : nat := clamp (take 32 (keccak (rev seed))).

(** newKeyFromSeed / NewKeyFromSeed; ed25519_keccak.go:123-157 *)
Definition new_key (seed : bytes) : outcome bytes :=
  if size seed != 32%N then Err else
  Ok (copy_into 32 seed ++ copy_into 32 (penc (g *+ secret seed))).

(** GenerateKey; ed25519_keccak.go:99-117; [rand] is what io.ReadFull(rand, seed) returned, [None] an error *)
Definition generate_key (rand : option bytes) : outcome (bytes * bytes) :=
  if rand is Some seed then do k <- new_key seed; Ok (copy_into 32 (drop 32 k), k) else Err.

(** PrivateKey.Public; ed25519_keccak.go:57-61: priv[32:] panics below 32 bytes *)
Definition public (priv : bytes) : outcome bytes :=
  if (size priv < 32)%N then Panic else Ok (copy_into 32 (drop 32 priv)).

(** PrivateKey.Seed; ed25519_keccak.go:75-79 *)
Definition seed_of (priv : bytes) : outcome bytes :=
  if (size priv < 32)%N then Panic else Ok (copy_into 32 (take 32 priv)).

(** sign / Sign; ed25519_keccak.go:161-251 *)
Definition sign (priv msg : bytes) : outcome bytes :=
  if size priv != 64%N then Err else
  let seed := take 32 priv in
  let digest := keccak (rev seed) in
  let sc := clamp (take 32 digest) in
  let r := le_mod l (keccak (drop 32 digest ++ msg)) in
  let rb := penc (g *+ r) in
  let h := le_mod l (keccak (rb ++ drop 32 priv ++ msg)) in
  let s := ((h * sc + r) %% l)%N in
  Ok (copy_into 32 rb ++ copy_into 32 (le_bytes 32 s)).

(** PrivateKey.Sign; ed25519_keccak.go:86-95; [hashed] says whether opts.HashFunc() is not 0 *)
Definition signer_sign (priv msg : bytes) (hashed : bool) : outcome bytes :=
  if hashed then Err else sign priv msg.

(** Verify; ed25519_keccak.go:256-320; SetCanonicalBytes refuses values of at least [l] *)
Definition verify (pk msg sig : bytes) : outcome bool :=
  if size pk != 32%N then Err else
  if (size sig != 64%N) || (band (nth 0%N sig 63) 224 != 0%N) then Err else
  let rb := take 32 sig in
  let sb := drop 32 sig in
  if pdec pk is Some A then
    let h := le_mod l (keccak (rb ++ pk ++ msg)) in
    if (le_val sb < l)%N then Ok (rb == penc ((- A) *+ h + g *+ le_val sb)) else Err
  else Err.
End Nem.
