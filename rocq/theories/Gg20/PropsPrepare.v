(** C36 (second part): the additive shares computed by PrepareToSign / NewSigner. *)
From mathcomp Require Import all_ssreflect all_algebra zify.
From Verif Require Import Lib.Res Lib.Bytes Lib.Lagrange Lib.Inst Core.HashModel Gennaro.Model Paillier.Model Paillier.Props
  Gg20.SignModel Gg20.SignProofs Gg20.PropsSign.
Set Implicit Arguments. Unset Strict Implicit. Unset Printing Implicit Defensive.
Import GRing.Theory.
Local Open Scope ring_scope.

Section S.
Variables (F : fieldType) (G : lmodType F) (g : G).
Hypothesis inj : {in gtn 256%N &, injective (fun n => n%:R : F)}.

Definition lam (S : seq nat) (i : nat) : F := \prod_(j <- S | j != i) (j%:R / (j%:R - i%:R)).

Lemma xmapE i : (i < 256)%N -> xmap F i = i%:R. Proof. by move=> h; rewrite /xmap modn_small. Qed.

Lemma lambdaE j ks acc : (j < 256)%N -> all (gtn 256%N) ks -> lambda j ks acc = Ok (acc * lam ks j).
Proof.
move=> hj; elim: ks acc => [|k ks IH] acc /=; first by rewrite /lam big_nil mulr1.
case/andP => hk hks; rewrite /lam big_cons; case: eqP => [_|/eqP ne] /=; first exact: IH.
rewrite !xmapE // subr_eq0; case: eqP => [/inj e|_]; first by move: ne; rewrite e ?eqxx.
by rewrite IH // -[in LHS]mulrA.
Qed.

Lemma additiveE ks l (P : nat -> G) : all (gtn 256%N) ks -> all (gtn 256%N) (map fst l) ->
  (forall j v, List.In (j, v) l -> v = Some (P j)) ->
  additive ks l = Ok [seq (j, (lam ks j, lam ks j *: P j)) | j <- map fst l].
Proof.
move=> hks; elim: l => [|[j v] l IH] //= /andP [hj hl] h.
rewrite (h j v (or_introl erefl)) lambdaE //= IH // => [|a b i]; last by apply: h; right.
by rewrite /= mul1r.
Qed.

Lemma assoc_map (V : Type) (f : nat -> V) (l : seq nat) j : assoc j [seq (i, f i) | i <- l] = if j \in l then Some (f j) else None.
Proof. by elim: l => //= a l IH; rewrite inE eq_sym; case: eqP => [->|]. Qed.

Lemma prepareE id value sk pk vf tr sh pks S (P : nat -> G) : uniq S -> all (gtn 256%N) S -> (1 < size S)%N -> id \in S ->
  perm_eq (map fst sh) S -> (forall j v, List.In (j, v) sh -> v = Some (P j)) ->
  (forall j, j \in S -> j != id -> exists N, assoc j pks = Some N) ->
  prepare id value sk pk vf tr sh pks =
    Ok (Conf id sk (lam S id * value) [seq (j, lam S j *: P j) | j <- map fst sh] pks [seq j <- map fst sh | j != id] tr pk vf).
Proof.
move=> uS hS s2 iS pe hP hpk; rewrite /prepare -(size_map fst) (perm_size pe) ltnNge s2 /=.
have hk : all (gtn 256%N) (map fst sh) by rewrite (perm_all _ pe).
have -> : has (fun p => ~~ isSome p.2) sh = false.
  apply/negbTE; rewrite -all_predC; elim: sh hP {pe hk} => //= [[j v]] l IH h.
  by rewrite (h j v (or_introl erefl)) /=; apply: IH => a b i; apply: h; right.
rewrite (additiveE hk hk hP); cbn [bind]; rewrite assoc_map (perm_mem pe) iS.
have -> : has (fun j => (j != id) && ~~ isSome (assoc j pks)) (map fst sh) = false.
  apply/negbTE/hasPn => j; rewrite (perm_mem pe) => jS; case: eqP => //= /eqP ne.
  by have [N ->] := hpk _ jS ne.
congr Ok; have L j : lam (map fst sh) j = lam S j by apply: perm_big.
by rewrite L -!map_comp; congr (Conf _ _ _ _ _ _ _ _ _); apply: eq_map => j; rewrite /= L.
Qed.
End S.

(** PrepareToSign.  For every secret-sharing polynomial p of degree below the number of signers, signers with
    distinct ids below 256 who have the Shamir shares p(i), the public shares p(j) G of all of them (in any map
    order) and all the Paillier keys: it succeeds for every one of them; the additive shares add up to p(0)
    and the new public shares are their multiples of G.  So the hypotheses of C36_sign_correct hold with the
    secret p(0). *)
Theorem C36_prepare_signers : forall (F : fieldType) (G : lmodType F) (g : G),
  {in gtn 256%N &, injective (fun n => n%:R : F)} ->
  forall (p : {poly F}) S N (sk : nat -> secret_key) vf tr (sh : nat -> seq (nat * option G)) (pks : nat -> seq (nat * nat)),
  uniq S -> all (gtn 256%N) S -> (1 < size S)%N -> (size p <= size S)%N ->
  (forall i, i \in S -> [/\ perm_eq (map fst (sh i)) S,
      forall j v, List.In (j, v) (sh i) -> v = Some (p.[j%:R] *: g),
      exists p1 p2, [/\ good_primes p1 p2, N i = (p1 * p2)%N & new_secret_key p1 p2 = Ok (sk i)] &
      forall j, j \in S -> j != i -> assoc j (pks i) = Some (N j)]) ->
  exists C, signers g S C N p.[0] /\ forall i, i \in S ->
    [/\ prepare i p.[i%:R] (sk i) (p.[0] *: g) vf tr (sh i) (pks i) = Ok (C i),
        (forall j, j \in S -> assoc j (c_pub (C i)) = Some (c_w (C j) *: g)), c_verify (C i) = vf & c_trusted (C i) = tr].
Proof.
move=> F G g inj p S N sk vf tr sh pks uS hS s2 sp h.
pose C i := Conf i (sk i) (lam F S i * p.[i%:R]) [seq (j, lam F S j *: (p.[j%:R] *: g)) | j <- map fst (sh i)] (pks i)
   [seq j <- map fst (sh i) | j != i] tr (p.[0] *: g) vf.
have hs i : i \in S -> (i < 256)%N by move/(allP hS).
exists C; split.
  split=> //.
    rewrite (@lagrange_seq F S (fun n => n%:R)) //; last by move=> i j /hs hi /hs hj; apply: inj.
    by apply: eq_bigr => i _; rewrite mulrC.
  move=> i iS; have [pe hP hN hpk] := h _ iS; split=> // j.
  by rewrite mem_filter (perm_mem pe) andbC.
move=> i iS; have [pe hP hN hpk] := h _ iS; split=> //.
  by apply: prepareE => // j jS ne; exists (N j); apply: hpk.
by move=> j jS; rewrite assoc_map (perm_mem pe) jS scalerA.
Qed.
Print Assumptions C36_prepare_signers.

(** NewSigner: from the public shares of all participants it selects the chosen cosigners; the callback it
    installs accepts every signature. *)
Theorem C37_new_signer : forall (F : fieldType) (G : lmodType F) id value sk pk tr (sh : seq (nat * option G)) pks cos c,
  new_signer id value sk pk tr sh pks cos = Ok c ->
  (forall P h sg, c_verify c P h sg = true) /\ c_id c = id /\ (forall j, (j \in c_cosigners c) = (j \in cos) && (j != id)).
Proof.
move=> F G id value sk pk tr sh pks cos c; rewrite /new_signer /prepare; case: ifP => // _; case: ifP => // _.
move=> e; binv e add ea e1; move: e1; case: (assoc id add) => [[la ?]|] //; case: ifP => // _ [<-] /=; split=> //; split=> // j.
by rewrite mem_filter keys_map mem_undup andbC.
Qed.
Print Assumptions C37_new_signer.
