(** Bit-level facts about single bytes, and the abstraction of a bit vector as a list of booleans. *)
From Coq Require Import PeanoNat.
From mathcomp Require Import all_ssreflect zify.
From Verif Require Import Lib.Res Lib.Bytes Mina.BitModel.
Set Implicit Arguments.
Unset Strict Implicit.
Unset Printing Implicit Defensive.

(** bit [i] of a byte string, least significant bit of byte 0 first *)
Definition tbit (x j : nat) : bool := odd (x %/ 2 ^ j).
Definition dbit (data : bytes) (i : nat) : bool := tbit (nth 0 data (i %/ 8)) (i %% 8).
(** the list of booleans a vector stands for *)
Definition bv_bits (v : bitvec) : seq bool := mkseq (dbit (bv_data v)) (bv_len v).
(** bytes are bytes and there are enough of them *)
Definition bv_wf (v : bitvec) : bool := is_bytes (bv_data v) && (bv_len v <= 8 * size (bv_data v)).

(** ** Facts about single bytes, checked on all 256 values and 8 offsets *)
Lemma byte_all (P : nat -> nat -> nat -> bool) :
  all (fun x => all (fun o => all (P x o) (iota 0 8)) (iota 0 8)) (iota 0 256) ->
  forall x o j, x < 256 -> o < 8 -> j < 8 -> P x o j.
Proof.
move=> /allP H x o j hx ho hj.
have /H /allP H1 : x \in iota 0 256 by rewrite mem_iota.
have /H1 /allP H2 : o \in iota 0 8 by rewrite mem_iota.
by apply: H2; rewrite mem_iota.
Qed.

Lemma byte_all2 (P : nat -> nat -> bool) :
  all (fun x => all (P x) (iota 0 8)) (iota 0 256) -> forall x o, x < 256 -> o < 8 -> P x o.
Proof.
move=> /allP H x o hx ho.
have /H /allP H1 : x \in iota 0 256 by rewrite mem_iota.
by apply: H1; rewrite mem_iota.
Qed.

Lemma byte_all1 (P : nat -> bool) : all P (iota 0 256) -> forall x, x < 256 -> P x.
Proof. by move=> /allP H x hx; apply: H; rewrite mem_iota. Qed.

Ltac byte3 P := apply/eqP; refine (@byte_all P _ _ _ _ _ _ _); [vm_compute; reflexivity|assumption..].
Ltac byte2 P := refine (@byte_all2 P _ _ _ _ _); [vm_compute; reflexivity|assumption..].
Ltac byte1 P := refine (@byte_all1 P _ _ _); [vm_compute; reflexivity|assumption].

Lemma put_bitE b x o j : x < 256 -> o < 8 -> j < 8 ->
  tbit (put_bit b x o) j = if j == o then b == 1 else tbit x j.
Proof.
move=> hx ho hj; rewrite /put_bit; case: (b == 1).
- byte3 (fun x o j => tbit (bor x (bshl 1 o)) j == (if j == o then true else tbit x j)).
- byte3 (fun x o j => tbit (band x (bnot (bshl 1 o))) j == (if j == o then false else tbit x j)).
Qed.

Lemma put_bit_byte b x o : x < 256 -> o < 8 -> put_bit b x o < 256.
Proof.
move=> hx ho; rewrite /put_bit; case: (b == 1).
- byte2 (fun x o => bor x (bshl 1 o) < 256).
- byte2 (fun x o => band x (bnot (bshl 1 o)) < 256).
Qed.

Lemma insert_byte1 (b : nat) x o : insert_byte b x o = insert_byte (b == 1) x o.
Proof. by rewrite /insert_byte; case: (b == 1). Qed.

Lemma insert_byteE b x o j : x < 256 -> o < 8 -> j < 8 ->
  tbit (insert_byte b x o) j = if j < o then tbit x j else if j == o then b == 1 else tbit x j.-1.
Proof.
move=> hx ho hj; rewrite insert_byte1; case: (b == 1).
- byte3 (fun x o j => tbit (insert_byte true x o) j == (if j < o then tbit x j else if j == o then true else tbit x j.-1)).
- byte3 (fun x o j => tbit (insert_byte false x o) j == (if j < o then tbit x j else if j == o then false else tbit x j.-1)).
Qed.

Lemma insert_byte_byte b x o : x < 256 -> o < 8 -> insert_byte b x o < 256.
Proof.
move=> hx ho; rewrite insert_byte1; case: (b == 1).
- byte2 (fun x o => insert_byte true x o < 256).
- byte2 (fun x o => insert_byte false x o < 256).
Qed.

Lemma top_bit x : x < 256 -> bshr (band x 128) 7 = tbit x 7.
Proof. by move=> hx; apply/eqP; byte1 (fun x => bshr (band x 128) 7 == tbit x 7). Qed.

Lemma low_bit x : x < 256 -> band x 1 = tbit x 0.
Proof. by move=> hx; apply/eqP; byte1 (fun x => band x 1 == tbit x 0). Qed.

Lemma elt_byte x o : x < 256 -> o < 8 -> band (bshr x o) 1 = tbit x o.
Proof. by move=> hx ho; apply/eqP; byte2 (fun x o => band (bshr x o) 1 == tbit x o). Qed.

Lemma high_byteE (b : bool) x j : x < 256 -> j < 8 ->
  (tbit (bor (bshl x 1) b) j = if j is j'.+1 then tbit x j' else b) /\ bor (bshl x 1) b < 256.
Proof.
move=> hx hj; split; last first.
  by case: b; [byte1 (fun x => bor (bshl x 1) true < 256)|byte1 (fun x => bor (bshl x 1) false < 256)].
apply/eqP; case: b.
- by byte2 (fun x j => tbit (bor (bshl x 1) true) j == if j is j'.+1 then tbit x j' else true).
- by byte2 (fun x j => tbit (bor (bshl x 1) false) j == if j is j'.+1 then tbit x j' else false).
Qed.

Lemma low_byteE (b : bool) x j : x < 256 -> j < 8 ->
  (tbit (bor (bshr x 1) (bshl b 7)) j = if j == 7 then b else tbit x j.+1) /\ bor (bshr x 1) (bshl b 7) < 256.
Proof.
move=> hx hj; split; last first.
  by case: b; [byte1 (fun x => bor (bshr x 1) (bshl true 7) < 256)|byte1 (fun x => bor (bshr x 1) (bshl false 7) < 256)].
apply/eqP; case: b.
- by byte2 (fun x j => tbit (bor (bshr x 1) (bshl true 7)) j == if j == 7 then true else tbit x j.+1).
- by byte2 (fun x j => tbit (bor (bshr x 1) (bshl false 7)) j == if j == 7 then false else tbit x j.+1).
Qed.

Lemma delete_byteE (b : bool) x o j : x < 256 -> o < 8 -> j < 8 ->
  tbit (delete_byte b x o) j = if j < o then tbit x j else if j == 7 then b else tbit x j.+1.
Proof.
move=> hx ho hj; case: b.
- byte3 (fun x o j => tbit (delete_byte true x o) j ==
     (if j < o then tbit x j else if j == 7 then true else tbit x j.+1)).
- byte3 (fun x o j => tbit (delete_byte false x o) j ==
     (if j < o then tbit x j else if j == 7 then false else tbit x j.+1)).
Qed.

Lemma delete_byte_byte (b : bool) x o : x < 256 -> o < 8 -> delete_byte b x o < 256.
Proof.
move=> hx ho; case: b.
- byte2 (fun x o => delete_byte true x o < 256).
- byte2 (fun x o => delete_byte false x o < 256).
Qed.

