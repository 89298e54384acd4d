(** C58: what the two hashes of Camenisch-Shoup encryption cover. *)
From Coq Require Import ZArith Lia.
From mathcomp Require Import ssreflect ssrfun ssrbool eqtype ssrnat seq.
From Verif Require Import Lib.Res Lib.Bytes Core.ModModel Verenc.CsModel.
Set Implicit Arguments. Unset Strict Implicit. Unset Printing Implicit Defensive.
Local Open Scope Z_scope.

Definition nonneg (l : seq Z) : Prop := all (fun z => 0 <=? z) l.

Lemma zbytes_inj a b : 0 <= a -> 0 <= b -> zbytes a = zbytes b -> a = b.
Proof. move=> ha hb /(f_equal be_val); rewrite !be_bytesK; lia. Qed.

Lemma map_zbytes_inj l l' : nonneg l -> nonneg l' -> map zbytes l = map zbytes l' -> l = l'.
Proof.
rewrite /nonneg; elim: l l' => [|a l IH] [|b l'] //= /andP[/Z.leb_le ha hl] /andP[/Z.leb_le hb hl'] [e el].
by rewrite (zbytes_inj ha hb e) (IH l').
Qed.

Lemma cat_inj (A : Type) (a a' b b' : seq A) : size a = size a' -> a ++ b = a' ++ b' -> a = a' /\ b = b'.
Proof. by elim: a a' => [|x a IH] [|x' a'] //= [hs] [-> h]; have [-> ->] := IH _ hs h. Qed.

Section Bind.
Variable hash : seq bytes -> outcome Z.
(** no two inputs of the hash have the same digest *)
Hypothesis hash_inj : forall s s' z, hash s = Ok z -> hash s' = Ok z -> s = s'.

(** The hash stored in v covers u, every e and the domain *)
Theorem C58_group_hash_binding u e d u' e' d' z : 0 <= u -> 0 <= u' -> nonneg e -> nonneg e' ->
  group_hash hash (Some u) e (Some d) = Ok z -> group_hash hash (Some u') e' (Some d') = Ok z ->
  [/\ u = u', e = e' & d = d'].
Proof.
case: e e' => [|a e] [|a' e'] // hu hu' he he' h h'; have := hash_inj h h'; rewrite /= !cats1 => -[].
move=> /(zbytes_inj hu hu') -> e1 /rcons_inj [e2 e3]; split=> //.
by apply: map_zbytes_inj => //=; rewrite e1 e2.
Qed.

(** a hash is computed exactly when there is a u, at least one component and a (non-nil) domain *)
Theorem C58_group_hash_refuses u e d :
  (u = None \/ e = [::] \/ d = None) -> group_hash hash u e d = Err.
Proof. by case: u => [u|] //; case: e => [|a e] //; case: d => [d|] // [|[]]. Qed.

(** the public values of a key *)
Definition key_values (ek : ekey) : seq Z := [:: p_n (ek_group ek); p_g (ek_group ek); ek_y2 ek; ek_y3 ek] ++ ek_y1 ek.

Lemma fiat_shamirE ek nn u v e tu tv te : fiat_shamir hash ek (Some nn) u v e tu tv te =
  hash (map zbytes (key_values ek ++ [:: u] ++ e ++ [:: v; tu] ++ te ++ [:: tv]) ++ [:: nn]).
Proof. by rewrite /fiat_shamir /key_values -catA. Qed.

(** The challenge of the encryption proof covers the nonce, the key, the ciphertext and the commitments; the hash
    input has no length fields, so the number of components must be known (ek_y1 for the key, one commitment per
    component). *)
Theorem C58_challenge_binding ek nn u v e tu tv te ek' nn' u' v' e' tu' tv' te' z :
  size (ek_y1 ek) = size (ek_y1 ek') -> size e = size te -> size e' = size te' ->
  nonneg (key_values ek ++ [:: u] ++ e ++ [:: v; tu] ++ te ++ [:: tv]) ->
  nonneg (key_values ek' ++ [:: u'] ++ e' ++ [:: v'; tu'] ++ te' ++ [:: tv']) ->
  fiat_shamir hash ek (Some nn) u v e tu tv te = Ok z ->
  fiat_shamir hash ek' (Some nn') u' v' e' tu' tv' te' = Ok z ->
  [/\ nn = nn', key_values ek = key_values ek', (u, v, e) = (u', v', e') & (tu, tv, te) = (tu', tv', te')].
Proof.
move=> hk he he' p p'; rewrite !fiat_shamirE => h h'; have := hash_inj h h'; rewrite !(cats1 (map zbytes _)) => /rcons_inj E0.
have -> : nn = nn' := f_equal snd E0; have {E0} E := map_zbytes_inj p p' (f_equal fst E0).
have sk : size (key_values ek) = size (key_values ek') by rewrite !size_cat hk.
have [-> {E} [-> E]] := cat_inj sk E.
have se : size e = size e'.
  have := f_equal size E; rewrite !(size_cat, size_cat) /= !size_cat /= -he -he'; lia.
have [-> {E} [-> -> E]] := cat_inj se E.
have st : size te = size te' by rewrite -he -he'.
by have [-> [->]] := cat_inj st E.
Qed.

(** Without the agreed number of components the hash input is ambiguous: a key with one y1 more absorbs u *)
Theorem C58_challenge_lengths_refuted ek nn u v a tu tv e te :
  fiat_shamir hash ek (Some nn) u v (a :: e) tu tv te =
  fiat_shamir hash (EK (ek_y1 ek ++ [:: u]) (ek_y2 ek) (ek_y3 ek) (ek_group ek)) (Some nn) a v e tu tv te.
Proof. by rewrite /fiat_shamir /= -!catA. Qed.
End Bind.

Print Assumptions C58_group_hash_binding.
Print Assumptions C58_group_hash_refuses.
Print Assumptions C58_challenge_binding.
Print Assumptions C58_challenge_lengths_refuted.

(** an injective hash with results exists on the inputs of length one, and the values of a real key are non-negative *)
Example C58_bind_hyps : exists hash : seq bytes -> outcome Z,
  (forall s s' z, hash s = Ok z -> hash s' = Ok z -> s = s') /\ exists s z, hash s = Ok z.
Proof.
exists (fun s => if s is [:: [:: n]] then Ok (Z.of_nat n) else Err); split; last by exists [:: [:: 3%nat]], 3.
by case=> [|[|n []] []] // [|[|n' []] []] // z [<-] [/Nat2Z.inj ->].
Qed.
