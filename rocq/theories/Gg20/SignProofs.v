(** Proofs about Gg20/SignModel.v *)
From mathcomp Require Import all_ssreflect all_algebra zify.
From Verif Require Import Lib.Res Lib.Bytes Core.HashModel Core.HashProofs Gennaro.Model Paillier.Model Paillier.Proofs Paillier.Props
  Gg20.SignModel.
Set Implicit Arguments. Unset Strict Implicit. Unset Printing Implicit Defensive.
Import GRing.Theory.
Local Open Scope ring_scope.

Lemma bindE A B (x : outcome A) (f : A -> outcome B) b : bind x f = Ok b -> exists a, x = Ok a /\ f a = Ok b.
Proof. exact: bind_ok. Qed.

Lemma derefE A (x : option A) a : deref x = Ok a -> x = Some a.
Proof. by case: x => //= b [->]. Qed.

Ltac binv H a e h := let H' := fresh in move: (bindE H) => [a [e h]]; clear H.
Ltac binv2 H a b e h := let H' := fresh in move: (bindE H) => [[a b] [e h]]; clear H.

Section S.
Variables (F : fieldType) (G : lmodType F) (g : G) (q : nat) (val : F -> nat) (xc : G -> nat) (yodd : G -> bool)
  (penc : G -> bytes) (pdec : bytes -> option G) (H : bytes -> bytes) (blk : nat) (zk : Type) (Z : zkf F G zk).
Hypotheses (valK : forall c, (val c)%:R = c) (val_nat : forall n, val n%:R = (n %% q)%N) (q0 : (0 < q)%N).
Hypothesis pdecK : forall P, pdec (penc P) = Some P.

(* ------------------------------------------------------------ MtA *)
(** what Finalize returns for an answer computed by the response function *)
Lemma mta_exact p1 p2 sk id id' a b c1 X X' bt r rnd rs beta :
  good_primes p1 p2 -> new_secret_key p1 p2 = Ok sk -> coprime r (p1 * p2) ->
  decrypt sk (Some (Posz c1)) = Ok a ->
  respond val Z id (p1 * p2) b (Some (Posz c1)) X bt r rnd = Ok (rs, beta) ->
  finalize Z id' sk c1 X' rs =
    bind (z_v2 Z id' (sN sk) c1 (rs_c2 rs) X' (rs_proof rs))
      (fun _ => Ok (((a * val b + bt) %% (p1 * p2))%:R)) /\ beta = - bt%:R.
Proof.
move=> gp ek cr ea er; binv er cb ecb er1; binv er1 cB ecB er2; binv er2 c2 ec2 er3; binv er3 pi epi er4.
case: er4 => <- <-; split=> //; rewrite /finalize; cbn [rs_c2 rs_proof].
case: (z_v2 _ _ _ _ _ _ _) => [[]||]; cbn [bind]; [|by []|by []].
have hb : (val b < p1 * p2)%N.
  by move: ecb; rewrite /pmul /in_range; case: ltnP => //.
have [_ /(_ hb) [c [e1 e2]]] := C21_paillier_homomorphic_all gp ek (val b) ea ea.
move: ecb; rewrite e1 => -[ec].
have hbt : (bt < p1 * p2)%N by move: ecB; rewrite /encrypt /in_range; case: ltnP.
have hr : (0 < r < p1 * p2)%N.
  by move: ecB; rewrite /encrypt /in_range hbt /=; case: (ltnP r) => //= _; case: (r) => //=.
have [sk' [ek' [_ D]]] := C20_paillier_decrypt_encrypt gp.
move: ek'; rewrite ek => -[esk]; have [cB' [eB1 eB2]] := D bt r hbt hr cr.
move: eB1; rewrite ecB => -[eB]; rewrite -esk -eB in eB2; rewrite ec in e2.
have [[c' [e3 e4]] _] := C21_paillier_homomorphic_all gp ek 0 e2 eB2.
move: ec2; rewrite e3 => -[ec2]; rewrite -ec2 e4; cbn [bind].
by rewrite modnDml mulnC.
Qed.

Lemma mta_sum p1 p2 sk id id' (a b : F) c1 X X' bt r rnd rs beta alpha :
  good_primes p1 p2 -> new_secret_key p1 p2 = Ok sk -> coprime r (p1 * p2) ->
  decrypt sk (Some (Posz c1)) = Ok (val a) -> (val a * val b + bt < p1 * p2)%N ->
  respond val Z id (p1 * p2) b (Some (Posz c1)) X bt r rnd = Ok (rs, beta) ->
  finalize Z id' sk c1 X' rs = Ok alpha -> alpha + beta = a * b.
Proof.
move=> gp ek cr ea lt er; have [-> ->] := mta_exact id' X' gp ek cr ea er.
move=> h; binv h u eu h'; case: h' => <-; rewrite modn_small // natrD natrM !valK; exact: addrK.
Qed.

(* ------------------------------------------------------------ maps and loops *)
Lemma In_keys (V : Type) (l : seq (nat * V)) j : j \in map fst l -> exists v, List.In (j, v) l.
Proof.
elim: l => [|[k v] l IH] //=; rewrite inE => /orP [/eqP ->|/IH [v' h]]; first by exists v; left.
by exists v'; right.
Qed.
Lemma keys_In (V : Type) (l : seq (nat * V)) j v : List.In (j, v) l -> j \in map fst l.
Proof. by elim: l => [|[k w] l IH] //= [[-> _]|/IH h]; rewrite inE ?eqxx // h orbT. Qed.
Lemma assoc_keys (V : Type) (l : seq (nat * V)) j v : assoc j l = Some v -> List.In (j, v) l.
Proof. by elim: l => [|[k w] l IH] //=; case: eqP => [-> [->]|_ /IH h]; [left|right]. Qed.
Lemma assoc_In (V : Type) (l : seq (nat * V)) j v : uniq (map fst l) -> List.In (j, v) l -> assoc j l = Some v.
Proof.
elim: l => [|[k w] l IH] //= /andP [h u] [[-> ->]|i]; first by rewrite eqxx.
case: eqP => [e|_]; last exact: IH.
by move: h; rewrite e (keys_In i).
Qed.

Lemma vsm_ok (c : conf G) s rd keys : verify_state_map c s rd keys = Ok tt <->
  [/\ s_round s = rd, forall j, j \in keys -> j != c_id c -> j \in c_cosigners c &
      forall j, j \in c_cosigners c -> j != c_id c -> j \in keys].
Proof.
rewrite /verify_state_map; case: eqP => [->|ne] /=; last by split=> // -[].
case: hasP => [[j j1 /andP [j2 j3]]|n1]; first by split=> // -[_ /(_ _ j1 j2) h]; rewrite h in j3.
case: hasP => [[j j1 /andP [j2 j3]]|n2]; first by split=> // -[_ _ /(_ _ j1 j2) h]; rewrite h in j3.
split=> // _; split=> // j j1 j2.
  by apply/negP => /negP j3; apply: n1; exists j => //; rewrite j2.
by apply/negP => /negP j3; apply: n2; exists j => //; rewrite j2.
Qed.

Lemma sum_loopE i l (acc r : F) (f : nat -> F) :
  (forall j v, List.In (j, v) l -> j != i -> v = Some (Some (f j))) ->
  sum_loop i l acc = Ok r <-> r = acc + \sum_(j <- map fst l | j != i) f j.
Proof.
elim: l acc => [|[j v] l IH] acc h /=.
  by rewrite big_nil addr0; split=> [[->]|->].
rewrite big_cons; case: eqP => [e|/eqP ne] /=; first by apply: IH => ? ? ? ; apply: h; right.
rewrite (h j v (or_introl erefl) ne) addrA; apply: IH => ? ? ?; apply: h; by right.
Qed.

Lemma loop5E i Cj l R0 R (f : nat -> G) :
  (forall j v w, List.In (j, v) l -> j != i -> v = Some (Some w) -> wmsg w = penc (f j)) ->
  loop5 pdec H blk i Cj l R0 = Ok R -> R = R0 + \sum_(j <- map fst l | j != i) f j.
Proof.
elim: l R0 => [|[j v] l IH] R0 h /=; first by rewrite big_nil addr0 => -[].
have h' : forall j v w, List.In (j, v) l -> j != i -> v = Some (Some w) -> wmsg w = penc (f j).
  by move=> ? ? ? ?; apply: h; right.
rewrite big_cons; case: v h => [d|] // h; case: eqP => [e|/eqP ne] /=; first exact: IH.
case: d h => [w|] //= h e; binv e ok eo e'; case: ok eo e' => //= _.
rewrite (h j (Some (Some w)) w (or_introl erefl) ne erefl) pdecK => /IH -> //.
by rewrite addrA.
Qed.

(** what the loop of round 2 stores and sends *)
Definition entry2 (c : conf G) (x : r1st F) B (dr : nat -> draw2) (acc : r2st F) (out : seq (nat * p2p2 zk)) j (m : bcast1 zk) : Prop :=
  exists N r2 r3 beta vu,
  [/\ assoc j (c_pks c) = Some N,
     respond val Z j N (s_gamma x) (b1_ctxt m) None (d_bt (dr j)) (d_br (dr j)) (d_bz (dr j)) = Ok (r2, beta) &
     respond val Z j N (c_w c) (b1_ctxt m) (Some B) (d_wt (dr j)) (d_wr (dr j)) (d_wz (dr j)) = Ok (r3, vu)] /\
  [/\ assoc j (s_beta acc) = Some beta, assoc j (s_vu acc) = Some vu, assoc j (s_cj acc) = Some (b1_ctxt m),
     assoc j (s_Cj acc) = Some (b1_C m) & assoc j out = Some (P2p2 r2 r3)].

Lemma loop2E c x B p2p dr l acc out acc' out' :
  uniq (map fst l) -> loop2 val Z c x B p2p l dr acc out = (acc', Ok out') ->
  [/\ forall j, j \notin map fst l -> [/\ assoc j (s_beta acc') = assoc j (s_beta acc), assoc j (s_vu acc') = assoc j (s_vu acc),
        assoc j (s_cj acc') = assoc j (s_cj acc), assoc j (s_Cj acc') = assoc j (s_Cj acc) & assoc j out' = assoc j out] &
      forall j m, List.In (j, Some m) l -> j != c_id c -> entry2 c x B dr acc' out' j m].
Proof.
elim: l acc out => [|[j v] l IH] acc out //=; first by move=> _ [<- <-].
case/andP => h u; case: v => [m|]; last first.
  case/(IH _ _ u) => h1 h2; split; first by move=> k; rewrite inE negb_or => /andP [_ /h1].
  by move=> k m [[]//|i]; exact: h2.
case: eqP => [e|/eqP ne].
  case/(IH _ _ u) => h1 h2; split; first by move=> k; rewrite inE negb_or => /andP [_ /h1].
  by move=> k m' [[<- _]|i]; [rewrite e eqxx|exact: h2].
case E: (bind _ _) => [[[[r2 r3] beta] vu]||] //.
case/(IH _ _ u) => h1 h2; split.
  move=> k; rewrite inE negb_or => /andP [/negbTE nk /h1] /=; by rewrite eq_sym nk.
move=> k m' [[<- <-]|i]; last exact: h2.
move=> _; binv E N eN E1; binv E1 pf epf E2; binv E2 u1 ev E3; binv2 E3 a2 b2 e3 E4; binv2 E4 a3 b3 e4 E5.
case: E5 => ? ? ? ?; subst a2 a3 b2 b3; exists N, r2, r3, beta, vu; split; first by split=> //; exact: derefE eN.
by have [-> -> -> -> ->] := h1 j h; rewrite /= eqxx.
Qed.

Definition ok0 (o : outcome F) : F := if o is Ok a then a else 0.

Lemma loop3E c x s2 l d0 sg0 d sg (f : nat -> option (p2p2 zk)) :
  (forall j v, List.In (j, v) l -> j != c_id c -> v = f j) ->
  loop3 Z c x s2 l d0 sg0 = Ok (d, sg) ->
  exists al mu be vu : nat -> F,
  [/\ forall j, j \in map fst l -> j != c_id c ->
      exists m B, [/\ f j = Some m, finalize Z (c_id c) (c_sk c) (s_ci x) None (pr2 m) = Ok (al j),
        finalize Z (c_id c) (c_sk c) (s_ci x) (Some B) (pr3 m) = Ok (mu j),
        assoc j (s_beta s2) = Some (be j) & assoc j (s_vu s2) = Some (vu j)],
     d = d0 + \sum_(j <- map fst l | j != c_id c) (al j + be j) &
     sg = sg0 + \sum_(j <- map fst l | j != c_id c) (mu j + vu j)].
Proof.
move=> h e.
pose al j := ok0 (if f j is Some m then finalize Z (c_id c) (c_sk c) (s_ci x) None (pr2 m) else Err).
pose mu j := ok0 (if f j is Some m then if assoc j (c_pub c) is Some B then finalize Z (c_id c) (c_sk c) (s_ci x) (Some B) (pr3 m) else Err else Err).
exists al, mu, (fun j => odflt 0 (assoc j (s_beta s2))), (fun j => odflt 0 (assoc j (s_vu s2))).
elim: l d0 sg0 h e => [|[j v] l IH] d0 sg0 h /=; first by case=> <- <-; rewrite !big_nil !addr0.
have h' : forall j v, List.In (j, v) l -> j != c_id c -> v = f j by move=> ? ? ?; apply: h; right.
rewrite !big_cons; case: eqP => [e|/eqP ne] /=.
  case/(IH _ _ h') => h1 h2; split=> // k; rewrite inE => /orP [/eqP ->|]; last exact: h1.
  by rewrite e eqxx.
have := h j v (or_introl erefl) ne; case: v {h} => [m|] // ef.
move=> e; binv e a ea e1; binv e1 B eB e2; binv e2 b eb e3.
have {}eB := derefE eB.
case ebe: (assoc j (s_beta s2)) e3 => [be|] // e3.
case evu: (assoc j (s_vu s2)) e3 => [vu|] // e3.
case: (IH _ _ h' e3) => h1 -> ->; split.
- move=> k; rewrite inE => /orP [/eqP -> _|]; last exact: h1.
  by exists m, B; rewrite /al /mu -ef ea eB eb ebe evu; split.
- by rewrite /al -ef ea /= !addrA.
- by rewrite /mu -ef eB eb /= !addrA.
Qed.

Lemma loop6E c cj R p2p l V0 V (f : nat -> bcast5 G zk) :
  (forall j v, List.In (j, v) l -> j != c_id c -> v = Some (f j)) ->
  loop6 Z c cj R p2p l V0 = Ok V -> V = V0 + \sum_(j <- map fst l | j != c_id c) b5_Rbar (f j).
Proof.
elim: l V0 => [|[j v] l IH] V0 h /=; first by case=> <-; rewrite big_nil addr0.
have h' : forall j v, List.In (j, v) l -> j != c_id c -> v = Some (f j) by move=> ? ? ?; apply: h; right.
rewrite big_cons; case: eqP => [e|/eqP ne] /=; first exact: IH.
rewrite (h j v (or_introl erefl) ne) /= => e; binv e N eN e1; binv e1 pf epf e2; binv e2 u eu e3.
by rewrite (IH _ h' e3) addrA.
Qed.

Lemma big_keys (V : zmodType) (S K cs : seq nat) i (f : nat -> V) : uniq S -> uniq K ->
  (forall j, (j \in cs) = (j \in S) && (j != i)) ->
  (forall j, j \in K -> j != i -> j \in cs) -> (forall j, j \in cs -> j != i -> j \in K) ->
  \sum_(j <- K | j != i) f j = \sum_(j <- S | j != i) f j.
Proof.
move=> uS uK hc h1 h2; rewrite -!(big_filter _ (fun j => j != i)); apply: perm_big; apply: uniq_perm.
- exact: filter_uniq. - exact: filter_uniq.
move=> j; rewrite !mem_filter; case: eqP => //= /eqP ne; apply/idP/idP => h.
  by move: (h1 _ h ne); rewrite hc => /andP [].
by apply: h2 => //; rewrite hc h.
Qed.

End S.
