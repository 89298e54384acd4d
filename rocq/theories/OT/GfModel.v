(** Model of binaryFieldMul, pkg/ot/extension/kos/kos.go:78-133.  64-bit words are [N]. *)
From Coq Require Import NArith.
From mathcomp Require Import ssreflect ssrfun ssrbool eqtype ssrnat seq div.
From Verif Require Import Lib.Bytes.
Set Implicit Arguments. Unset Strict Implicit. Unset Printing Implicit Defensive.

Definition word : Type := N.
Definition w64 : N := N.shiftl 1 64.
(** uint64 left shift (the bits beyond 63 are lost) and right shift *)
Definition shl (w : word) (k : nat) : word := N.modulo (N.shiftl w (N.of_nat k)) w64.
Definition shr (w : word) (k : nat) : word := N.shiftr w (N.of_nat k).
Definition wnth (l : seq word) (i : nat) : word := nth N0 l i.
Definition wupd (l : seq word) (i : nat) (f : word -> word) : seq word := set_nth N0 l i (f (wnth l i)).

(** kos.go:91-94: condense the 32 bytes into words; word j gets the bytes 8j..8j+7 *)
Definition condense (A : bytes) (j : nat) : word :=
  foldl (fun acc i => N.lor acc (N.shiftl (N.of_nat (nth 0 A (8 * j + i))) (N.of_nat (8 * i)))) N0 (iota 0 8).

(** kos.go:102: mask = -(a[j] >> k & 1) *)
Definition mask (w : word) (k : nat) : word := if N.odd (shr w k) then N.pred w64 else N0.

(** kos.go:103-105: c[j+i] ^= b[i] & mask *)
Definition addrow (c b : seq word) (j : nat) (m : word) : seq word :=
  foldl (fun c i => wupd c (j + i) (fun x => N.lxor x (N.land (wnth b i) m))) c (iota 0 5).

(** kos.go:107-110: shift the 5-word vector left by one bit; each entry uses the old value of the one
    below it *)
Definition shift1 (b : seq word) : seq word :=
  [seq (if i == 0 then shl (wnth b 0) 1 else N.lor (shl (wnth b i) 1) (shr (wnth b i.-1) 63)) | i <- iota 0 5].

(** kos.go:95-111: the double loop *)
Definition mul_step (a : seq word) (st : seq word * seq word) (k : nat) : seq word * seq word :=
  let '(c, b) := st in
  (foldl (fun c j => addrow c b j (mask (wnth a j) k)) c (iota 0 4), shift1 b).
Definition mul_loop (a : seq word) (c b : seq word) : seq word :=
  (foldl (mul_step a) (c, b) (iota 0 64)).1.

(** kos.go:117-125: the reduction, i = 7, 6, 5, 4 *)
Definition red_step (c : seq word) (i : nat) : seq word :=
  let x := wnth c i in
  let c := wupd c (i - 4) (fun y => N.lxor y (shl x 10)) in
  let c := wupd c (i - 3) (fun y => N.lxor y (shr x 54)) in
  let c := wupd c (i - 4) (fun y => N.lxor y (shl x 5)) in
  let c := wupd c (i - 3) (fun y => N.lxor y (shr x 59)) in
  let c := wupd c (i - 4) (fun y => N.lxor y (shl x 2)) in
  let c := wupd c (i - 3) (fun y => N.lxor y (shr x 62)) in
  wupd c (i - 4) (fun y => N.lxor y x).
Definition reduce (c : seq word) : seq word := foldl red_step c [:: 7; 6; 5; 4].

(** kos.go:126-130: the bytes of the low four words *)
Definition tobytes (c : seq word) : bytes :=
  [seq N.to_nat (N.modulo (shr (wnth c (i %/ 8)) (8 * (i %% 8))) 256) | i <- iota 0 32].

Definition binary_field_mul (A B : bytes) : bytes :=
  let a := [seq condense A j | j <- iota 0 4] in
  let b := rcons [seq condense B j | j <- iota 0 4] N0 in
  tobytes (reduce (mul_loop a (nseq 8 N0) b)).
