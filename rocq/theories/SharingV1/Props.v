(** Property theorems for pkg/sharing/v1. *)
From mathcomp Require Import all_ssreflect all_algebra zify.
From Verif Require Import Lib.Res Lib.Bytes SharingV1.Model SharingV1.Proofs.
Set Implicit Arguments.
Unset Strict Implicit.
Unset Printing Implicit Defensive.
Import GRing.Theory.
Local Open Scope ring_scope.

(** C07: any >= t distinct shares of Split, in any order, combine to the secret bytes without their
    leading zeros (Combine returns the minimal big-endian encoding of the same integer). *)
Theorem C07_v1_reconstruct :
  forall p : nat, prime p ->
  forall t n s secret (rnd : nat -> 'F_p) shares,
  new_shamir1 t n = Ok s -> (n < p)%N -> (n < 2 ^ 32)%N -> is_bytes secret ->
  split1 s secret rnd = Ok shares ->
  forall sel, (forall sh, List.In sh sel -> List.In sh shares) ->
  uniq [seq s1_id sh | sh <- sel] -> (t <= size sel)%N ->
  combine1 s (map Some sel) = Ok (strip0 secret).
Proof. exact v1_reconstruct. Qed.
Print Assumptions C07_v1_reconstruct.

(** the result denotes the same integer as the secret *)
Theorem C07_v1_same_integer : forall b : bytes, be_val (strip0 b) = be_val b.
Proof. exact strip0_val. Qed.
Print Assumptions C07_v1_same_integer.

(** C07: shares after the first t are never read. *)
Theorem C07_v1_ignores_rest :
  forall (p : nat) s (l extra : seq (option (share1 p))),
  size l = s1_threshold s -> combine1 s (l ++ extra) = combine1 s l.
Proof. exact v1_ignores_rest. Qed.
Print Assumptions C07_v1_ignores_rest.

(** C07: a duplicate identifier among the first t shares is an error. *)
Theorem C07_v1_duplicate_err :
  forall p : nat, forall s (l : seq (share1 p)),
  (s1_limit s < p)%N -> (s1_threshold s <= size l)%N ->
  ~~ uniq [seq s1_id sh | sh <- take (s1_threshold s) l] ->
  combine1 s (map Some l) = Err.
Proof. exact v1_duplicate_err. Qed.
Print Assumptions C07_v1_duplicate_err.

(** C07: Feldman.Verify (v1) is exact. *)
Theorem C07_v1_feldman_exact :
  forall p : nat, forall (G : lmodType [fieldType of 'F_p]) (g : G) s
    (cs : seq [fieldType of 'F_p]) (sh : share1 p),
  (forall a : [fieldType of 'F_p], a *: g = 0 -> a = 0) ->
  (0 < s1_threshold s <= size cs)%N -> (s1_id sh < p)%N ->
  exists b, feldman_verify1 g s (Some sh) [seq c *: g | c <- cs] = Ok b /\
    (b <-> s1_val sh = (Poly cs).[(s1_id sh)%:R]).
Proof. exact v1_feldman_exact. Qed.
Print Assumptions C07_v1_feldman_exact.

Example C07_hyps :
  exists shares, [/\ prime 257, new_shamir1 2 3 = Ok (Shamir1 2 3), is_bytes [:: 0; 201]%N,
    split1 (Shamir1 2 3) [:: 0; 201]%N (fun _ => 9%:R : 'F_257) = Ok shares &
    let sel := [:: nth (Share1 0 0) shares 2; nth (Share1 0 0) shares 0] in
    (forall sh, List.In sh sel -> List.In sh shares) /\
    uniq [seq s1_id sh | sh <- sel]].
Proof.
eexists; split=> //.
by split=> [sh /= [<-|[<-|//]]|]; auto; vm_compute.
Qed.
