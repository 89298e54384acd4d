(** C60: what aggregation of BLS signatures and public keys returns, for any list of points. *)
From Coq Require Import Permutation.
From mathcomp Require Import all_ssreflect all_algebra.
From Verif Require Import Lib.Res Lib.Bytes Lib.Pairing Bls.Model.
Set Implicit Arguments.
Unset Strict Implicit.
Unset Printing Implicit Defensive.
Import GRing.Theory.
Local Open Scope ring_scope.

Section Agg.
Variables (F : fieldType) (PK SG : lmodType F).

(** the subgroup element of a non-nil entry inside the subgroup *)
Definition inside (G : lmodType F) (p : option (cpt G)) : option G := if p is Some (In x) then Some x else None.
(** every entry is present and in the subgroup *)
Definition all_inside (G : lmodType F) (l : seq (option (cpt G))) : bool := all (fun p => isSome (inside p)) l.
(** the sum of the entries *)
Definition total (G : lmodType F) (l : seq (option (cpt G))) : G := \sum_(p <- l) odflt 0 (inside p).

Lemma sum_points_gen (G : lmodType F) (l : seq (option (cpt G))) acc :
  sum_points acc l = if all_inside l then Ok (In (acc + total l)) else Err.
Proof.
elim: l acc => [|[[x|n]|] l IH] acc //=; first by rewrite /total big_nil addr0.
by rewrite IH /total big_cons /= addrA.
Qed.

(** Aggregation refuses an empty list and any list with a nil entry or a point outside the subgroup; otherwise the
    result is the sum of all the entries. *)
Theorem C60_aggregate_exact :
  (forall l : seq (option (cpt SG)),
     aggregate_signatures l = if (0 < size l)%N && all_inside l then Ok (In (total l)) else Err) /\
  (forall l : seq (option (cpt PK)),
     aggregate_public_keys l = if (0 < size l)%N && all_inside l then Ok (In (total l)) else Err).
Proof.
by split; case=> // p l; rewrite /aggregate_signatures /aggregate_public_keys /aggregate_points sum_points_gen add0r.
Qed.

Lemma perm_inside (G : lmodType F) (l l' : seq (option (cpt G))) : Permutation l l' ->
  [/\ size l = size l', all_inside l = all_inside l' & total l = total l'].
Proof.
rewrite /all_inside /total; elim=> [|p m m' _ [h1 h2 h3]|p q m|m1 m2 m3 _ [-> -> ->] _ [-> -> ->]] //=.
  by rewrite h1 h2 !big_cons h3.
by rewrite !big_cons andbCA addrCA.
Qed.

(** The aggregate does not depend on the order of the entries *)
Theorem C60_aggregate_perm (l l' : seq (option (cpt SG))) :
  Permutation l l' -> aggregate_signatures l = aggregate_signatures l'.
Proof. by move=> /perm_inside [h1 h2 h3]; rewrite !(proj1 C60_aggregate_exact) h1 h2 h3. Qed.

(** A proof-of-possession scheme is built exactly from two different domain separation tags, which it keeps *)
Theorem C60_pop_tags (sigdst popdst : bytes) :
  (sigdst = popdst -> new_pop_with_dst sigdst popdst = Err) /\
  (sigdst <> popdst -> new_pop_with_dst sigdst popdst = Ok (sigdst, popdst)).
Proof. by rewrite /new_pop_with_dst; split=> [->|/eqP/negbTE ->] //; rewrite eqxx. Qed.
End Agg.

Print Assumptions C60_aggregate_exact.
Print Assumptions C60_aggregate_perm.
Print Assumptions C60_pop_tags.

Example C60_agg_case (x y : [fieldType of 'F_7]^o) :
  aggregate_signatures [:: Some (In x); Some (In y)] = Ok (In (x + y)) /\
  aggregate_signatures [:: Some (In x); Some (Off 3); Some (In y)] = Err.
Proof. by split=> //; rewrite /aggregate_signatures /aggregate_points /= add0r. Qed.
