(** Byte strings as lists of naturals, and big-endian integers. *)
From mathcomp Require Import all_ssreflect zify.
Set Implicit Arguments.
Unset Strict Implicit.
Unset Printing Implicit Defensive.

Definition bytes := seq nat.
Definition is_bytes (b : bytes) : bool := all (fun x => x < 256) b.

(** big.Int.SetBytes: the big-endian value *)
Definition be_val (b : bytes) : nat := foldl (fun acc x => acc * 256 + x) 0 b.

(** big.Int.Bytes: the shortest big-endian representation (0 gives the empty string); [fuel] bounds
    the number of bytes *)
Fixpoint be_bytes_fuel (fuel n : nat) : bytes :=
  if fuel is f.+1 then
    if n == 0 then [::] else rcons (be_bytes_fuel f (n %/ 256)) (n %% 256)
  else [::].
Definition be_bytes (n : nat) : bytes := be_bytes_fuel n n.

(** drop leading zero bytes *)
Fixpoint strip0 (b : bytes) : bytes :=
  if b is 0 :: r then strip0 r else b.

Lemma be_val_rcons b x : be_val (rcons b x) = be_val b * 256 + x.
Proof. by rewrite /be_val -cats1 foldl_cat. Qed.

Lemma be_val_cons x b : be_val (x :: b) = x * 256 ^ size b + be_val b.
Proof.
elim/last_ind: b => [|b y IH]; first by rewrite expn0 muln1 addn0 /be_val /=.
by rewrite -rcons_cons !be_val_rcons IH size_rcons expnSr; lia.
Qed.

Lemma be_val_lt b : is_bytes b -> be_val b < 256 ^ size b.
Proof.
elim/last_ind: b => [//|b x IH]; rewrite /is_bytes all_rcons => /andP[hx /IH h].
by rewrite be_val_rcons size_rcons expnSr; lia.
Qed.

Lemma be_bytes_fuelE f n : n <= f -> be_val (be_bytes_fuel f n) = n.
Proof.
elim: f n => [|f IH] n /=; first by case: n.
move=> h; case: eqP => [->//|n0].
rewrite be_val_rcons IH; first by rewrite -divn_eq.
by lia.
Qed.

Lemma be_bytesK n : be_val (be_bytes n) = n.
Proof. exact: be_bytes_fuelE. Qed.

Lemma strip0_val b : be_val (strip0 b) = be_val b.
Proof. by elim: b => [//|[|x] b IH] //=; rewrite be_val_cons mul0n. Qed.

Lemma be_val_strip_pos b : strip0 b <> [::] -> 0 < be_val b.
Proof.
elim: b => [//|[|x] b IH] /= h; first by rewrite be_val_cons mul0n IH.
have : 0 < 256 ^ size b by rewrite expn_gt0.
by rewrite be_val_cons mulSn; lia.
Qed.

Lemma be_bytes_fuel_strip f b : is_bytes b -> be_val b <= f -> be_bytes_fuel f (be_val b) = strip0 b.
Proof.
elim: f b => [|f IH] b hb hf /=.
  case E: (strip0 b) => [//|x r]; have := @be_val_strip_pos b; rewrite E => /(_ ltac:(by [])).
  by lia.
case: eqP => [e|ne].
  case E: (strip0 b) => [//|x r]; have := @be_val_strip_pos b; rewrite E => /(_ ltac:(by [])).
  by lia.
case/lastP: b hb hf ne => [//|b x] hb hf ne.
move: hb; rewrite /is_bytes all_rcons => /andP[hx hb].
rewrite be_val_rcons in hf ne *.
have -> : (be_val b * 256 + x) %/ 256 = be_val b by lia.
have -> : (be_val b * 256 + x) %% 256 = x by lia.
rewrite IH //; last by lia.
case E: (strip0 b) => [|y r].
  have e0 : be_val b = 0 by rewrite -strip0_val E.
  have bz : b = nseq (size b) 0.
    by elim: (b) E => [//|[|z] c IH'] //= /IH' {1}->.
  rewrite bz; elim: (size b) => [|k IHk] //=.
  by case: (x) ne; [rewrite e0 | move=> *].
elim: (b) E => [//|[|z] c IH'] //= [-> ->] //.
Qed.

Lemma be_bytes_strip b : is_bytes b -> be_bytes (be_val b) = strip0 b.
Proof. by move=> h; apply: be_bytes_fuel_strip. Qed.

(** little-endian integers *)
Definition le_val (b : bytes) : nat := be_val (rev b).
(** [k] bytes little-endian *)
Fixpoint le_bytes (k n : nat) : bytes :=
  if k is k'.+1 then n %% 256 :: le_bytes k' (n %/ 256) else [::].

Lemma le_val_cons x b : le_val (x :: b) = x + 256 * le_val b.
Proof. by rewrite /le_val rev_cons be_val_rcons; lia. Qed.

Lemma le_val_nil : le_val [::] = 0.
Proof. by []. Qed.

Lemma size_le_bytes k n : size (le_bytes k n) = k.
Proof. by elim: k n => //= k IH n; rewrite IH. Qed.

Lemma is_bytes_le k n : is_bytes (le_bytes k n).
Proof. by rewrite /is_bytes; elim: k n => //= k IH n; rewrite IH ltn_mod. Qed.

Lemma le_bytesK k n : n < 256 ^ k -> le_val (le_bytes k n) = n.
Proof.
elim: k n => [|k IH] n; first by rewrite expn0; case: n.
rewrite expnS => h /=; rewrite le_val_cons IH; first by lia.
by rewrite ltn_divLR // mulnC.
Qed.

Lemma le_val_lt b : is_bytes b -> le_val b < 256 ^ size b.
Proof. by move=> h; rewrite /le_val -size_rev be_val_lt // /is_bytes all_rev. Qed.

Lemma le_valK b : is_bytes b -> le_bytes (size b) (le_val b) = b.
Proof.
elim: b => [//|x b IH] /= /andP[hx /IH e]; rewrite le_val_cons.
have -> : (x + 256 * le_val b) %% 256 = x by lia.
have -> : (x + 256 * le_val b) %/ 256 = le_val b by lia.
by rewrite e.
Qed.

Lemma le_val_pad b k : le_val (b ++ nseq k 0) = le_val b.
Proof.
elim: b => [|x b IH] /=; last by rewrite !le_val_cons IH.
by elim: k => //= k IH; rewrite le_val_cons IH.
Qed.

Lemma is_bytes_be n : is_bytes (be_bytes n).
Proof.
rewrite /be_bytes; move: {1}n => f; elim: f n => //= f IH n.
by case: eqP => // _; rewrite /is_bytes all_rcons ltn_mod; apply: IH.
Qed.

Lemma size_be_bytes n k : n < 256 ^ k -> size (be_bytes n) <= k.
Proof.
rewrite /be_bytes; move: {2}n => f; elim: f n k => //= f IH n k h.
case: eqP => // n0; rewrite size_rcons.
case: k h => [|k] h; first by rewrite expn0 in h; lia.
by rewrite ltnS IH // ltn_divLR // -expnSr.
Qed.

Lemma be_bytes_nil n : (size (be_bytes n) == 0) = (n == 0).
Proof. by case: n => [//|n]; rewrite /be_bytes /= size_rcons. Qed.

(** Go: var buf [k]byte; copy(buf[:], b) *)
Definition copy_into (k : nat) (b : bytes) : bytes := take k (b ++ nseq k 0).

Lemma size_copy_into k b : size (copy_into k b) = k.
Proof. by rewrite /copy_into size_take size_cat size_nseq; case: ltnP; lia. Qed.

Lemma copy_intoE k b : size b <= k -> copy_into k b = b ++ nseq (k - size b) 0.
Proof.
move=> h; rewrite /copy_into take_cat; case: ltnP => h'; first by lia.
by congr cat; rewrite take_nseq //; lia.
Qed.

Lemma le_val_copy k b : size b <= k -> le_val (copy_into k b) = le_val b.
Proof. by move=> h; rewrite copy_intoE // le_val_pad. Qed.
