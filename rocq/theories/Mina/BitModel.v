(** The bit vector of pkg/signatures/schnorr/mina/bitvector.go.

    A Go byte is a [nat] below 256, [data []byte] a [bytes].  Indices are [nat]: a negative Go index
    fails [indexAssert] exactly like one that is too large.  The conversion uint32(length) is taken to be
    exact (vectors of fewer than 2^32 bits). *)
From Coq Require Import PeanoNat.
From mathcomp Require Import all_ssreflect.
From Verif Require Import Lib.Res Lib.Bytes.
Set Implicit Arguments.
Unset Strict Implicit.
Unset Printing Implicit Defensive.

(** Go operators on byte: [|], [&], [^x], [<<], [>>]; used throughout bitvector.go:65-226 *)
Definition bor (x y : nat) : nat := Nat.lor x y.
Definition band (x y : nat) : nat := Nat.land x y.
Definition bnot (x : nat) : nat := 255 - x.
Definition bshl (x k : nat) : nat := (x * 2 ^ k) %% 256.
Definition bshr (x k : nat) : nat := x %/ 2 ^ k.

(** BitVector; bitvector.go:35-38 *)
Record bitvec := BV { bv_data : bytes; bv_len : nat }.

(** NewBitVector; bitvector.go:42-47 *)
Definition bv_new (data : bytes) (length : nat) : bitvec := BV data length.

(** shiftLower; bitvector.go:64-73; returns the shifted slice and the bit shifted out of byte 0.
    The Go loop runs from the last byte down to the first, as this recursion does. *)
Fixpoint shift_lower (bit : nat) (b : bytes) : bytes * nat :=
  match b with
  | [::] => ([::], bit)
  | x :: b' =>
      let: (r, carry) := shift_lower bit b' in
      (bor (bshr x 1) (bshl carry 7) :: r, band x 1)
  end.

(** shiftHigher; bitvector.go:79-87 *)
Fixpoint shift_higher (bit : nat) (b : bytes) : bytes * nat :=
  match b with
  | [::] => ([::], bit)
  | x :: b' =>
      let: (r, out) := shift_higher (bshr (band x 128) 7) b' in
      (bor (bshl x 1) bit :: r, out)
  end.

(** bytesLength; bitvector.go:90-94 (for length 0: (-1 >> 3) + 1 = 0) *)
Definition bytes_length (length : nat) : nat :=
  if length is n.+1 then (n %/ 8).+1 else 0.

(** growing by one byte; bitvector.go:108-110, 166-168 *)
Definition grow (data : bytes) (length : nat) : bytes :=
  if size data < bytes_length length then rcons data 0 else data.

(** the new value of one byte in Append and Set; bitvector.go:115-122, 148-156 *)
Definition put_bit (bit old off : nat) : nat :=
  if bit == 1 then bor old (bshl 1 off) else band old (bnot (bshl 1 off)).

(** reading data[i]; a Go index out of range panics *)
Definition at_byte (data : bytes) (i : nat) : outcome nat :=
  if i < size data then Ok (nth 0 data i) else Panic.

(** Append; bitvector.go:104-125 *)
Definition bv_append (bit : nat) (v : bitvec) : outcome bitvec :=
  let index := bv_len v in
  let data := grow (bv_data v) index.+1 in
  do old <- at_byte data (index %/ 8);
  Ok (BV (set_nth 0 data (index %/ 8) (put_bit bit old (index %% 8))) index.+1).

(** indexAssert; bitvector.go:97-101 *)
Definition index_assert (i : nat) (v : bitvec) : outcome unit :=
  if i < bv_len v then Ok tt else Panic.

(** Element; bitvector.go:129-136 *)
Definition bv_element (v : bitvec) (i : nat) : outcome nat :=
  do _ <- index_assert i v;
  do b <- at_byte (bv_data v) (i %/ 8);
  Ok (band (bshr b (i %% 8)) 1).

(** Set; bitvector.go:140-157 *)
Definition bv_set (bit index : nat) (v : bitvec) : outcome bitvec :=
  do _ <- index_assert index v;
  do old <- at_byte (bv_data v) (index %/ 8);
  Ok (BV (set_nth 0 (bv_data v) (index %/ 8) (put_bit bit old (index %% 8))) (bv_len v)).

(** the byte Insert rewrites; bitvector.go:172-187 *)
Definition insert_byte (bit old off : nat) : nat :=
  let ins := if bit == 1 then bshl 1 off else 0 in
  let bottom := bshl 1 off - 1 in
  let top := bshl (band old (bnot bottom)) 1 in
  bor (bor ins (band old bottom)) top.

(** Insert; bitvector.go:162-193 *)
Definition bv_insert (bit index : nat) (v : bitvec) : outcome bitvec :=
  do _ <- index_assert index v;
  let length := (bv_len v).+1 in
  let data := grow (bv_data v) length in
  let bi := index %/ 8 in
  do old <- at_byte data bi;
  let leftover := bshr (band old 128) 7 in
  Ok (BV (take bi data ++ insert_byte bit old (index %% 8) :: (shift_higher leftover (drop bi.+1 data)).1) length).

(** the byte Delete rewrites; bitvector.go:213-221.  [1 << (byteOffset+1)] is a byte shift, 0 for offset 7,
    and 0 - 1 wraps to 255. *)
Definition delete_byte (bit old off : nat) : nat :=
  let bottom := bshl 1 off - 1 in
  let topmask := bnot ((bshl 1 off.+1 + 255) %% 256) in
  let newtop := bor (bshr (band old topmask) 1) (bshl bit 7) in
  bor (band bottom old) newtop.

(** Delete; bitvector.go:198-232 *)
Definition bv_delete (index : nat) (v : bitvec) : outcome bitvec :=
  do _ <- index_assert index v;
  let length := (bv_len v).-1 in
  let bi := index %/ 8 in
  do old <- at_byte (bv_data v) bi;
  let: (rest, bit) := shift_lower 0 (drop bi.+1 (bv_data v)) in
  let data := take bi (bv_data v) ++ delete_byte bit old (index %% 8) :: rest in
  Ok (BV (if bytes_length length < size data then take (bytes_length length) data else data) length).
