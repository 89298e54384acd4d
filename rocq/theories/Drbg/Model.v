(** HMAC deterministic random bit generator: pkg/signatures/common/hmacdrbg.go.
    Bytes are [nat]s.  HMAC over the generator's hash is an arbitrary function [hm key message]; the hash size
    [hsz] is what hasher().Size() returns.  An hmac.Hash is modelled by the concatenation of what was written. *)
From mathcomp Require Import all_ssreflect.
From Verif Require Import Lib.Res.
Set Implicit Arguments.
Unset Strict Implicit.
Unset Printing Implicit Defensive.

Definition bytes := seq nat.

Section Drbg.
Variables (hsz : nat) (hm : bytes -> bytes -> bytes).

(** HmacDrbg; hmacdrbg.go:17-21 (the hasher is the section's [hm]) *)
Record drbg := Drbg { d_k : bytes; d_v : bytes; d_count : nat }.

(** update; hmacdrbg.go:70-99.  A nil slice of seeds is [[::]]. *)
Definition update (d : drbg) (seeds : seq bytes) : drbg :=
  let k1 := hm (d_k d) (d_v d ++ [:: 0] ++ flatten seeds) in
  let v1 := hm k1 (d_v d) in
  if seeds is [::] then Drbg k1 v1 (d_count d)
  else
    let k2 := hm k1 (v1 ++ [:: 1] ++ flatten seeds) in
    let v2 := hm k2 v1 in
    Drbg k2 v2 (d_count d).

(** NewHmacDrbg; hmacdrbg.go:23-38 *)
Definition new_drbg (entropy nonce pers : bytes) : drbg :=
  let d := update (Drbg (nseq hsz 0) (nseq hsz 1) 0) [:: entropy; nonce; pers] in
  Drbg (d_k d) (d_v d) (d_count d).+1.

(** the inner loop "for j, b := range drbg.v { dst[i+j] = b }"; hmacdrbg.go:52-54.  Writing past the end of
    dst is the run-time panic.  What dst holds after a panic is not modelled. *)
Fixpoint write_at (dst : bytes) (i : nat) (v : bytes) : outcome bytes :=
  match v with
  | [::] => Ok dst
  | b :: v' => if i < size dst then write_at (set_nth 0 dst i b) i.+1 v' else Panic
  end.

(** the outer loop of Read; hmacdrbg.go:46-56.  [fuel] bounds the iterations: Read passes len(dst), enough as
    soon as the hash size is not zero (theorem C64_read_exact covers every such run). *)
Fixpoint read_loop (fuel : nat) (d : drbg) (dst : bytes) (i : nat) : outcome (drbg * bytes * nat) :=
  if i < size dst then
    match fuel with
    | 0 => Panic
    | fuel'.+1 =>
        let v := hm (d_k d) (d_v d) in
        do dst' <- write_at dst i v;
        read_loop fuel' (Drbg (d_k d) v (d_count d)) dst' (i + size v)
    end
  else Ok (d, dst, i).

(** Read; hmacdrbg.go:40-60.  Result: the generator afterwards, the filled dst and the returned n. *)
Definition read (d : drbg) (dst : bytes) : outcome (drbg * bytes * nat) :=
  if size dst == 0 then Ok (d, dst, 0)
  else
    do (d1, dst1, i) <- read_loop (size dst) d dst 0;
    let d2 := update d1 [::] in
    Ok (Drbg (d_k d2) (d_v d2) (d_count d2).+1, dst1, i).

(** Reseed; hmacdrbg.go:62-64 *)
Definition reseed (d : drbg) (entropy : bytes) : drbg := update d [:: entropy].

End Drbg.
