(** C42, C43: scalar multiplication and multi-scalar multiplication. *)
From Coq Require Import ZArith.
From mathcomp Require Import all_ssreflect all_algebra.
From Verif Require Import Lib.Res Lib.Bytes Lib.Inst Curves.MsmModel Curves.MsmProofs.
Set Implicit Arguments.
Unset Strict Implicit.
Unset Printing Implicit Defensive.
Import GRing.Theory.
Local Open Scope ring_scope.
Local Delimit Scope Z_scope with Z.

Lemma pmapS (A : Type) (s : seq A) : pmap id [seq Some x | x <- s] = s.
Proof. by elim: s => //= x s ->. Qed.

Lemma allS (A : Type) (s : seq A) : all isSome [seq Some x | x <- s].
Proof. by elim: s. Qed.

Section Props.
Variables (G : zmodType) (P : Type) (pid : P) (padd : P -> P -> P) (pdbl : P -> P).
Variables (wf : P -> Prop) (phi : P -> G).
(** the point type stands for the group [G]: Identity, Add and Double compute the group's operations *)
Hypothesis R : represents pid padd pdbl wf phi.

(** C43: Mul returns the k-fold sum of the point, where k is the number its 32 little-endian bytes stand for *)
Theorem C43_mul (p : P) (bs : bytes) : wf p -> is_bytes bs -> size bs = 32%N ->
  wf (mul pid padd pdbl p bs) /\ phi (mul pid padd pdbl p bs) = phi p *+ le_val bs.
Proof. exact: mulE. Qed.

(** ... in particular for the encoding of any scalar below 2^256 *)
Theorem C43_mul_scalar (p : P) (k : nat) : wf p -> (k < 256 ^ 32)%N ->
  phi (mul pid padd pdbl p (le_bytes 32 k)) = phi p *+ k.
Proof.
move=> hp hk; have [_ ->] := C43_mul hp (is_bytes_le 32 k) (size_le_bytes 32 k).
by rewrite le_bytesK.
Qed.

(** C42: the native windowed algorithm (K256, P256, BLS12-381) *)
Theorem C42_native (ps : seq P) (ss : seq bytes) :
  every wf ps -> all is_bytes ss -> all (fun s => size s == 32%N) ss -> size ps = size ss ->
  exists2 r, sum_native pid padd pdbl ps ss = Ok r
    & wf r /\ phi r = \sum_(i < size ps) phi (nth pid ps i) *+ le_val (nth [::] ss i).
Proof. exact: sum_nativeE. Qed.

(** Pippenger's algorithm (BLS12-377): every integer scalar counts modulo 2^258 *)
Theorem C42_pippenger (ps : seq P) (ks : seq Z) :
  ps <> [::] -> every wf ps -> size ps = size ks ->
  exists2 r, pippenger pid padd pdbl ps ks = Ok (Some r)
    & wf r /\ phi r = \sum_(i < size ps) phi (nth pid ps i) *+ Z.to_nat (nth Z0 ks i mod 2 ^ 258)%Z.
Proof.
move=> hn hp hs; have [r h1 h2] := pippenger_pallasE R hp hs; exists r => //.
by rewrite /pippenger (introT eqP hs) h1; case: (ps) hn.
Qed.

(** ... so it is the sum of products for reduced scalars *)
Theorem C42_pippenger_reduced (ps : seq P) (ks : seq Z) :
  ps <> [::] -> every wf ps -> size ps = size ks ->
  (forall k, List.In k ks -> (0 <= k < 2 ^ 258)%Z) ->
  exists2 r, pippenger pid padd pdbl ps ks = Ok (Some r)
    & phi r = \sum_(i < size ps) phi (nth pid ps i) *+ Z.to_nat (nth Z0 ks i).
Proof.
move=> hn hp hs hk; have [r h1 [h2 h3]] := C42_pippenger hn hp hs; exists r => //.
rewrite h3; apply: eq_bigr => i _; congr (_ *+ Z.to_nat _); apply: Z.mod_small; apply: hk.
have : (i < size ks)%N by rewrite -hs.
elim: (ks) (nat_of_ord i) => [|k l IH] [|j] //= h; first by left.
by right; apply: IH.
Qed.

Theorem C42_pallas (ps : seq P) (ks : seq Z) :
  every wf ps -> size ps = size ks ->
  exists2 r, pallas_sum pid padd pdbl [seq Some p | p <- ps] [seq Some k | k <- ks] = Some (Some r)
    & wf r /\ phi r = \sum_(i < size ps) phi (nth pid ps i) *+ Z.to_nat (nth Z0 ks i mod 2 ^ 258)%Z.
Proof.
move=> hp hs; have [r h1 h2] := pippenger_pallasE R hp hs; exists r => //.
by rewrite /pallas_sum !allS !pmapS h1.
Qed.

(** lists of different lengths: an error, a nil result -- and for Pallas a non-nil point holding a nil pointer *)
Theorem C42_length_mismatch_refuted (ps : seq P) (ss : seq bytes) (ks : seq Z) :
  (size ps <> size ss -> sum_native pid padd pdbl ps ss = Err /\
     k256_sum pid padd pdbl [seq Some p | p <- ps] [seq Some s | s <- ss] = None) /\
  (size ps <> size ks -> pippenger pid padd pdbl ps ks = Ok None /\
     pallas_sum pid padd pdbl [seq Some p | p <- ps] [seq Some k | k <- ks] = Some None).
Proof.
split=> /eqP h; split.
- by rewrite /sum_native h.
- by rewrite /k256_sum !allS !pmapS /sum_native h.
- by rewrite /pippenger h.
by rewrite /pallas_sum !allS !pmapS /pippenger_pallas h.
Qed.

(** the empty sum: the identity, except that the generic Pippenger indexes points[0] *)
Theorem C42_empty :
  [/\ exists2 r, sum_native pid padd pdbl [::] [::] = Ok r & phi r = 0,
      exists2 r, pallas_sum pid padd pdbl [::] [::] = Some (Some r) & phi r = 0
    & pippenger pid padd pdbl [::] [::] = Panic].
Proof.
split=> //.
  have [//|//|//|//|r h1 [_ h2]] := @C42_native [::] [::].
  by exists r => //; rewrite h2 big_ord0.
have [//|//|r h1 [_ h2]] := @C42_pallas [::] [::].
by exists r => //; rewrite h2 big_ord0.
Qed.

(** a point or scalar of another curve never yields a point *)
Theorem C42_foreign (ps : seq (option P)) (ss : seq (option bytes)) (ks : seq (option Z)) :
  (~~ (all isSome ps && all isSome ss) -> k256_sum pid padd pdbl ps ss = None) /\
  (~~ (all isSome ps && all isSome ks) ->
     pallas_sum pid padd pdbl ps ks = if all isSome ps then Some None else None).
Proof.
split=> h; first by rewrite /k256_sum (negbTE h).
by move: h; rewrite /pallas_sum; case: (all _ ps) => //= /negbTE ->.
Qed.

End Props.

Print Assumptions C43_mul.
Print Assumptions C43_mul_scalar.
Print Assumptions C42_native.
Print Assumptions C42_pippenger.
Print Assumptions C42_pippenger_reduced.
Print Assumptions C42_pallas.
Print Assumptions C42_length_mismatch_refuted.
Print Assumptions C42_empty.
Print Assumptions C42_foreign.

(** a concrete representation with several representatives per element: fractions x/z over F257 *)
Definition fr_add (p q : F257 * F257) := (p.1 * q.2 + q.1 * p.2, p.2 * q.2).
Definition fr_dbl (p : F257 * F257) := (p.1 + p.1, p.2).
Definition fr_wf (p : F257 * F257) : Prop := p.2 != 0.
Definition fr_phi (p : F257 * F257) : F257 := p.1 / p.2.

Lemma fr_represents : represents (0, 1) fr_add fr_dbl fr_wf fr_phi.
Proof.
split; first by split; [exact: oner_neq0 | rewrite /fr_phi mul0r].
  move=> p q hp hq; split; first by rewrite /fr_wf mulf_neq0.
  by rewrite /fr_phi /fr_add /= addf_div.
by move=> p hp; split=> //; rewrite /fr_phi /fr_dbl /= mulrDl mulr2n.
Qed.

Example C43_hyps :
  fr_phi (mul (0, 1) fr_add fr_dbl (3%:R, 2%:R) (le_bytes 32 1000)) = (3%:R / 2%:R) *+ 1000.
Proof.
apply: (C43_mul_scalar fr_represents); first by rewrite /fr_wf (natr257 2 0).
by apply: (@leq_trans (256 ^ 2)%N) => //; rewrite leq_exp2l.
Qed.

Example C42_hyps :
  (exists2 r, sum_native (0, 1) fr_add fr_dbl [:: (3%:R, 2%:R); (1, 5%:R)] [:: le_bytes 32 77; le_bytes 32 9] = Ok r
     & fr_phi r = (3%:R / 2%:R) *+ 77 + (1 / 5%:R) *+ 9) /\
  (exists2 r, pippenger (0, 1) fr_add fr_dbl [:: (3%:R, 2%:R); (1, 5%:R)] [:: 77%Z; 9%Z] = Ok (Some r)
     & fr_phi r = (3%:R / 2%:R) *+ 77 + (1 / 5%:R) *+ 9).
Proof.
have hw : every fr_wf [:: (3%:R, 2%:R); (1, 5%:R)] by rewrite /= /fr_wf (natr257 2 0) (natr257 5 0).
split.
  have [|||r h1 [_ h2]] := @C42_native _ _ _ _ _ _ _ fr_represents _ [:: le_bytes 32 77; le_bytes 32 9] hw => //.
  by exists r => //; rewrite h2 !big_ord_recl big_ord0 addr0.
have [|||r h1 h2] := @C42_pippenger_reduced _ _ _ _ _ _ _ fr_represents _ [:: 77%Z; 9%Z] _ hw => //.
  by move=> k /= [<-|[<-|]].
by exists r => //; rewrite h2 !big_ord_recl big_ord0 addr0.
Qed.
