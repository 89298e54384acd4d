(** Model of pkg/ted25519/ted25519 (threshold Ed25519 over pkg/sharing/v1).

    Scalars are ['F_p] for the prime order [p]; points are an ['F_p]-module [G] (only points of the
    prime-order subgroup are modelled, Ed25519 points with a torsion component are not).  [penc]/[pdec]
    are the 32-byte point encoding; [hash64] is SHA-512, a function from byte strings to byte strings. *)
From mathcomp Require Import all_ssreflect all_algebra.
From Verif Require Import Lib.Res Lib.Bytes SharingV1.Model.
Set Implicit Arguments.
Unset Strict Implicit.
Unset Printing Implicit Defensive.
Import GRing.Theory.
Local Open Scope ring_scope.

Section Ted.
Variable p : nat.
Variables (G : lmodType 'F_p) (g : G) (penc : G -> bytes) (pdec : bytes -> option G).
Variable hash64 : bytes -> bytes.

(** pkg/core/curves/ed25519_curve.go:247-256 and 286-288 SetBytes/SetBytesCanonical: 32 bytes,
    little-endian, below the order *)
Definition set_canonical (b : bytes) : outcome 'F_p :=
  if (size b == 32)%N && (le_val b < p)%N then Ok (le_val b)%:R else Err.
(** ed25519_curve.go:261-267 SetBytesWide: 64 bytes little-endian, reduced *)
Definition set_wide (b : bytes) : outcome 'F_p :=
  if (size b == 64)%N then Ok (le_val b)%:R else Err.
(** ed25519_curve.go:273-279 SetBytesClamping (RFC 8032 5.1.5), reduced *)
Definition clamp (b : bytes) : bytes :=
  set_nth 0%N (set_nth 0%N b 0 (Nat.land (nth 0%N b 0) 248))
    31 (Nat.lor (Nat.land (nth 0%N b 31) 63) 64).
Definition set_clamping (b : bytes) : outcome 'F_p :=
  if (size b == 32)%N then Ok (le_val (clamp b))%:R else Err.
(** Scalar.Bytes: 32 bytes little-endian *)
Definition sbytes (s : 'F_p) : bytes := le_bytes 32 (val s).
(** Element.Bytes (curves/field.go:238-240): shortest big-endian *)
Definition ebytes (s : 'F_p) : bytes := be_bytes (val s).
(** Field.ElementFromBytes: panics when the value is not below the modulus *)
Definition element_from_bytes (b : bytes) : outcome 'F_p := new_element p (be_val b).

(** ext.go:33-39 ExpandSeed *)
Definition expand_seed (seed : bytes) : bytes :=
  let d := hash64 seed in
  let d := set_nth 0%N d 0 (Nat.land (nth 0%N d 0) 248) in
  let d := set_nth 0%N d 31 (Nat.land (nth 0%N d 31) 127) in
  let d := set_nth 0%N d 31 (Nat.lor (nth 0%N d 31) 64) in
  take 32 d.

(** ed25519.go:104-142 NewKeyFromSeed: seed || public key *)
Definition new_key_from_seed (seed : bytes) : outcome bytes :=
  if (size seed != 32)%N then Err
  else do h <- set_clamping (copy_into 32 (expand_seed seed));
       Ok (seed ++ penc (h *: g)).

(** keygen.go:82-113 generateSharableKey for the random seed [seed] *)
Definition generate_sharable_key (seed : bytes) : outcome (bytes * bytes) :=
  do priv <- new_key_from_seed seed;
  let pub := copy_into 32 (drop 32 priv) in
  let reduced : 'F_p := (be_val (rev (expand_seed (take 32 priv))))%:R in
  Ok (pub, ebytes reduced).

(** keygen.go:146-176 split: shares and the commitments c_i * G *)
Fixpoint commit_all (cs : seq 'F_p) : outcome (seq G) :=
  match cs with
  | [::] => Ok [::]
  | c :: r => do s <- set_canonical (copy_into 32 (rev (ebytes c)));
              do rest <- commit_all r; Ok (s *: g :: rest)
  end.
Definition split_ted (t n : nat) (secret : bytes) (rnd : nat -> 'F_p)
  : outcome (seq G * seq (share1 p)) :=
  do sh <- new_shamir1 t n;
  do r <- get_shares_and_poly sh secret rnd;
  do vs <- commit_all r.2;
  Ok (vs, r.1).

(** keygen.go:116-131 GenerateSharedKey *)
Definition generate_shared_key (t n : nat) (seed : bytes) (rnd : nat -> 'F_p)
  : outcome (bytes * seq (share1 p) * seq G) :=
  do k <- generate_sharable_key seed;
  do r <- split_ted t n k.2 rnd;
  Ok (k.1, r.2, r.1).

(** keygen.go:198-240 VerifyVSS.  The running power [i] is written by [copy(iBytes[:], i.Bytes()[:])]:
    big-endian bytes at the start of a buffer that is then read little-endian. *)
Fixpoint vss_loop (x i : 'F_p) (rhs : G) (cs : seq G) : outcome G :=
  match cs with
  | [::] => Ok rhs
  | c :: r =>
    let i' := i * x in
    do s <- set_canonical (copy_into 32 (ebytes i'));
    vss_loop x i' (rhs + s *: c) r
  end.
Definition verify_vss (t : nat) (sh : share1 p) (commitments : seq G) : outcome bool :=
  if (size commitments < t)%N then Err
  else
    do x <- new_element p (s1_id sh);
    match commitments with
    | [::] => Panic
    | c0 :: cs =>
      do rhs <- vss_loop x 1 c0 cs;
      do v <- set_canonical (copy_into 32 (rev (ebytes (s1_val sh))));
      Ok (v *: g == rhs)
    end.

(** ext.go:58-123 ThresholdSign; the key and nonce shares are little-endian *)
Definition threshold_sign (key pub msg nonce noncePub : bytes) : outcome bytes :=
  if (size key == 0)%N || (32 < size key)%N then Panic
  else if (size nonce == 0)%N || (32 < size nonce)%N then Panic
  else
    let k := copy_into 32 key in
    let n := copy_into 32 nonce in
    match set_wide (hash64 (noncePub ++ pub ++ msg)), set_canonical k, set_canonical n with
    | Ok c, Ok x, Ok r =>
      let s := c * x + r in
      (* make([]byte, 64); copy(signature, R); copy(signature[32:], s.Bytes()) *)
      Ok (take 32 (copy_into 64 noncePub) ++ sbytes s)
    | _, _, _ => Panic
    end.

(** partialsig.go:20-23 *)
Record partial_sig := PSig { ps_id : nat; ps_sig : bytes }.
(** partialsig.go:26-31 NewPartialSignature *)
Definition new_partial (id : nat) (s : bytes) : outcome partial_sig :=
  if (size s != 64)%N then Panic else Ok (PSig id s).
(** partialsig.go:48-55 TSign: the identifier is truncated to a byte *)
Definition tsign (msg : bytes) (key : share1 p) (pub : bytes) (nonce : share1 p) (noncePub : bytes)
  : outcome partial_sig :=
  do s <- threshold_sign (rev (ebytes (s1_val key))) pub msg (rev (ebytes (s1_val nonce))) noncePub;
  new_partial (s1_id key %% 256) s.

(** sigagg.go:20-62 Aggregate; PartialSignature.R/S are Sig[:32] and Sig[32:] *)
Fixpoint sig_shares (sigs : seq partial_sig) : outcome (seq (share1 p)) :=
  match sigs with
  | [::] => Ok [::]
  | s :: r => do v <- element_from_bytes (rev (drop 32 (ps_sig s)));
              do rest <- sig_shares r; Ok (Share1 (ps_id s) v :: rest)
  end.
Definition aggregate (t n : nat) (sigs : seq partial_sig) : outcome bytes :=
  match sigs with
  | [::] => Err
  | s0 :: rest =>
    let r0 := take 32 (ps_sig s0) in
    if ~~ all (fun s => take 32 (ps_sig s) == r0) rest then Err
    else
      do sh <- new_shamir1 t n;
      do shs <- sig_shares sigs;
      do s <- combine1 sh (map Some shs);
      Ok (copy_into 32 r0 ++ copy_into 32 (rev s))
  end.

(** ed25519.go:157-228 Sign *)
Definition sign (priv msg : bytes) : outcome bytes :=
  if (size priv != 64)%N then Err
  else
    let d1 := hash64 (take 32 priv) in
    let e := copy_into 32 d1 in
    let e := set_nth 0%N e 0 (Nat.land (nth 0%N e 0) 248) in
    let e := set_nth 0%N e 31 (Nat.land (nth 0%N e 31) 63) in
    let e := set_nth 0%N e 31 (Nat.lor (nth 0%N e 31) 64) in
    do r <- set_wide (hash64 (drop 32 d1 ++ msg));
    let R := penc (r *: g) in
    do k <- set_wide (hash64 (R ++ drop 32 priv ++ msg));
    do s <- set_clamping e;
    Ok (R ++ sbytes (k * s + r)).

(** ed25519.go:233-288 Verify *)
Definition verify (pub msg sig : bytes) : outcome bool :=
  if (size pub != 32)%N then Err
  else if (size sig != 64)%N || (Nat.land (nth 0%N sig 63) 224 != 0%N) then Err
  else
    match pdec pub with
    | None => Err
    | Some A =>
      do h <- set_wide (hash64 (take 32 sig ++ pub ++ msg));
      do s <- set_canonical (copy_into 32 (drop 32 sig));
      Ok (take 32 sig == penc (h *: (- A) + s *: g))
    end.

(** noncegen.go:47-52 NonceShare.Add through v1 ShamirShare.Add (shamir.go:43-49) *)
Definition nonce_add (a b : share1 p) : outcome (share1 p) :=
  if s1_id a != s1_id b then Panic
  else do v <- element_from_bytes (ebytes (s1_val a + s1_val b)); Ok (Share1 (s1_id a) v).
End Ted.
