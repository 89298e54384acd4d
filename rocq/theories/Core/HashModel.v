(** Model of pkg/core/commit.go, the octet-string and expansion functions of pkg/core/hash.go, and
    internal/hash.go.  Byte strings are [seq nat]; the underlying hash and KDF are parameters. *)
From mathcomp Require Import all_ssreflect.
From Verif Require Import Lib.Res Lib.Bytes.
Set Implicit Arguments. Unset Strict Implicit. Unset Printing Implicit Defensive.

(** byte-wise xor, hash.go:113-121 xor (the result has the length of the first operand) *)
Fixpoint bxor (a b : bytes) : bytes :=
  match a, b with
  | x :: a', y :: b' => Nat.lxor x y :: bxor a' b'
  | x :: a', [::] => x :: a'
  | [::], _ => [::]
  end.

Section Hmac.
(** [H] the hash function, [blk] its block size *)
Variables (H : bytes -> bytes) (blk : nat).

(** crypto/hmac for a key of at most [blk] bytes *)
Definition hmac (k m : bytes) : bytes :=
  let kp := k ++ nseq (blk - size k) 0 in
  H (bxor kp (nseq blk 92) ++ H (bxor kp (nseq blk 54) ++ m)).

(** commit.go:18-26: Witness; [wr] is the 32-byte nonce *)
Record witness := Witness { wmsg : bytes; wr : bytes }.

(** commit.go:60-81 Commit; [rnd] is what crypto/rand wrote, None if it failed or was short *)
Definition commit (msg : bytes) (rnd : option bytes) : outcome (bytes * witness) :=
  match rnd with
  | None => Err
  | Some r => if size r == 32 then Ok (hmac r msg, Witness msg r) else Err
  end.

(** commit.go:85-97 Open *)
Definition copen (c : bytes) (d : witness) : outcome bool :=
  if size c != 32 then Err else Ok (hmac (wr d) (wmsg d) == c).
End Hmac.

(** hash.go:78-87 I2OSP (the argument is the absolute value of [b]; n >= 0) *)
Definition i2osp (b n : nat) : bytes :=
  let os := be_bytes b in
  if size os < n then nseq (n - size os) 0 ++ os else take n os.

(** hash.go:89-91 OS2IP *)
Definition os2ip (os : bytes) : nat := be_val os.

Section Xmd.
Variables (H : bytes -> bytes) (hsize blk : nat).

(** hash.go:149-163: the slice b as the loop fills it; [blocks n] is b[1..n] *)
Fixpoint xmd_blocks (b0 dstp : bytes) (n : nat) : seq bytes :=
  match n with
  | 0 => [::]
  | n'.+1 =>
    let prev := xmd_blocks b0 dstp n' in
    rcons prev (if n' == 0 then H (b0 ++ i2osp 1 1 ++ dstp)
                else H (bxor b0 (last [::] prev) ++ i2osp n'.+1 1 ++ dstp))
  end.

(** hash.go:123-172 ExpandMessageXmd; ell is the integer ceiling of len/hsize (the code computes it in
    float64, exact for the lengths below 2^53); for ell = 0 the assignment to b[1] is out of range *)
Definition expand_xmd (msg dst : bytes) (len : nat) : outcome bytes :=
  let ell := (len + hsize.-1) %/ hsize in
  if 255 < ell then Err else
  let dstp := dst ++ i2osp (size dst) 1 in
  let zpad := i2osp 0 blk in
  let msgp := zpad ++ msg ++ i2osp len 2 ++ i2osp 0 1 ++ dstp in
  let b0 := H msgp in
  if ell == 0 then Panic else
  Ok (take len (flatten (xmd_blocks b0 dstp ell))).
End Xmd.

(** internal/hash.go:74-93 ByteSub, one loop iteration with borrow [m]: the byte is decremented by [m]
    modulo 256, s is computed by the sign bits of x and -x, the borrow continues iff s = 1 *)
Definition sgnbit (x : nat) : nat := if 128 <= x then 255 else 0.
Definition bs_step (x m : nat) : nat * nat :=
  let x1 := (x + 256 - m) %% 256 in
  let s1 := sgnbit x1 in
  let s2 := sgnbit ((256 - x1) %% 256) in
  let s := (Nat.lor s1 s2 + 1) %% 256 in
  (Nat.lor x1 ((256 - s) %% 256), Nat.land s m).
Fixpoint bs_loop (b : bytes) (m : nat) : bytes :=
  match b with
  | [::] => [::]
  | x :: b' => let '(y, m') := bs_step x m in y :: bs_loop b' m'
  end.
Definition byte_sub (b : bytes) : bytes := bs_loop b 1.

Section Kdf.
(** [kdf ikm]: the 32 bytes read from HKDF-SHA256 with zero salt and the fixed info string *)
Variable kdf : bytes -> bytes.

(** internal/hash.go:36-60 Hash: the loop over the values with state (f, okm) *)
Fixpoint fs_loop (vs : seq bytes) (f okm : bytes) : bytes :=
  match vs with
  | [::] => okm
  | v :: vs' => fs_loop vs' (byte_sub f) (kdf (f ++ v ++ okm))
  end.
(** a nil slice is None *)
Definition ihash (vs : seq (option bytes)) : outcome bytes :=
  if all isSome vs then Ok (fs_loop (pmap id vs) (nseq 32 255) (nseq 32 0)) else Err.

(** hash.go:247-272 FiatShamir over big.Ints, given as (negative?, absolute value); b.Bytes() is the
    minimal big-endian encoding of the absolute value *)
Definition fiat_shamir (vs : seq (option (bool * nat))) : outcome bytes :=
  ihash (map (omap (fun v => be_bytes v.2)) vs).
End Kdf.
