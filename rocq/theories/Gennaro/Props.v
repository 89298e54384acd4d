(** Property theorems for pkg/dkg/gennaro. *)
From mathcomp Require Import all_ssreflect all_algebra.
From Verif Require Import Lib.Res Lib.Inst Sharing.Model Sharing.Spec Gennaro.Model Gennaro.Spec Gennaro.Proofs.
Set Implicit Arguments.
Unset Strict Implicit.
Unset Printing Implicit Defensive.
Import GRing.Theory.
Local Open Scope ring_scope.

(** C08: n honest participants, any polynomials and any map iteration orders [o2 o2' o3]: every round
    succeeds, all obtain the key G * (sum of the secrets), and participant i's share is f(i) for one
    polynomial f with at most t coefficients and f(0) = sum of the secrets.  [secret i] is the argument
    of Round1 (nil means: drawn from the reader). *)
Theorem C08_gennaro_agreement :
  forall (F : fieldType) (G : lmodType F) (g h : G)
    (n t : nat) (sec fresh : nat -> F) (secret : nat -> option (option F)) (rnd : nat -> nat -> F)
    (oth o2 o2' o3 : nat -> seq nat),
  (2 <= t)%N -> (t <= n)%N -> h != 0 -> g != 0 ->
  (forall i, secret i = Some (Some (sec i)) \/ (secret i = None /\ fresh i = sec i)) ->
  (forall i, (1 <= i <= n)%N -> sec i != 0) ->
  (forall i, (1 <= i <= n)%N -> rnd i 0%N != 0) ->
  \sum_(1 <= i < n.+1) sec i != 0 ->
  (forall i, (1 <= i <= n)%N -> [/\ covers n i (oth i) /\ i \notin oth i, covers n i (o2 i),
     covers n i (o2' i) & covers n i (o3 i)]) ->
  exists (p0 p1 p2 p3 : nat -> part G) (bc1 : nat -> seq G) (sd1 : nat -> seq (nat * packet F))
    (bc2 : nat -> seq G) (f : {poly F}),
  [/\ forall i, (1 <= i <= n)%N ->
      [/\ new_participant i t (Some h) true (oth i) = Ok (p0 i),
          round1 g (p0 i) (secret i) (fresh i) (rnd i) = (p1 i, Ok (bc1 i, sd1 i)),
          round2 g (p1 i) [seq (j, bc1 j) | j <- o2 i]
            (pmap (fun j => omap (pair j) (assoc i (sd1 j))) (o2' i)) = (p2 i, Ok (bc2 i)) &
          round3 g (p2 i) [seq (j, bc2 j) | j <- o3 i] = (p3 i, Ok (f.[0] *: g, Share i f.[i%:R]))],
      (size f <= t)%N & f.[0] = \sum_(1 <= i < n.+1) sec i].
Proof.
move=> F G g h n t sec fresh secret rnd oth o2 o2' o3 H1 H2 H3 H4 H5 H6 H7 H8 H9.
have [p0 [p1 [p2 [p3 [bc1 [sd1 [bc2 [f [W [K1 K2 K3 _ _]]]]]]]]]] :=
  @honest_run F G g h n t sec fresh secret rnd oth o2 o2' o3 H1 H2 H3 H4 H5 H6 H7 H8 H9.
exists p0, p1, p2, p3, bc1, sd1, bc2, f; split=> // i hi.
by have [] := K1 i hi.
Qed.
Print Assumptions C08_gennaro_agreement.

Example C08_hyps : exists (sec : nat -> F257) (rnd : nat -> nat -> F257) (oth : nat -> seq nat),
  [/\ g257 != 0, forall i, (1 <= i <= 3)%N -> sec i != 0, forall i, (1 <= i <= 3)%N -> rnd i 0%N != 0,
      \sum_(1 <= i < 4) sec i != 0 &
      forall i, (1 <= i <= 3)%N -> covers 3 i (oth i) /\ i \notin oth i].
Proof.
exists (fun=> 5%:R), (fun _ _ => 7%:R), (fun i => [seq j <- [:: 3; 1; 2]%N | j != i]); split=> //.
  by rewrite !big_cons big_nil.
move=> i hi; split; last by rewrite mem_filter eqxx.
split; first by rewrite filter_uniq.
by move=> j nj; rewrite mem_filter nj !inE; move: j {nj} => [|[|[|[|j]]]].
Qed.

(** C09 is false of the code: in an honest run (any n >= t >= 2, any curve whose order does not divide
    1..n) in which everybody deals the same constant polynomial, every public share W_j that Round4
    publishes differs from G * share_j.  (All participants do publish the same W_j.) *)
Theorem C09_gennaro_public_shares_refuted :
  forall (F : fieldType) (G : lmodType F) (g h : G) (n t : nat) (oth o2 o2' o3 : nat -> seq nat),
  (2 <= t)%N -> (t <= n)%N -> h != 0 -> g != 0 ->
  (forall i, (1 <= i <= n)%N -> (i%:R : F) != 0) ->
  (forall i, (1 <= i <= n)%N -> [/\ covers n i (oth i) /\ i \notin oth i, covers n i (o2 i),
     covers n i (o2' i) & covers n i (o3 i)]) ->
  exists (secret : nat -> F) (rnd : nat -> nat -> F)
    (p0 p1 p2 p3 : nat -> part G) (bc1 : nat -> seq G) (sd1 : nat -> seq (nat * packet F))
    (bc2 : nat -> seq G) (vk : G) (x : nat -> F) (W : nat -> G),
  (forall i, (1 <= i <= n)%N ->
      [/\ new_participant i t (Some h) true (oth i) = Ok (p0 i),
          round1 g (p0 i) (Some (Some (secret i))) 0 (rnd i) = (p1 i, Ok (bc1 i, sd1 i)),
          round2 g (p1 i) [seq (j, bc1 j) | j <- o2 i]
            (pmap (fun j => omap (pair j) (assoc i (sd1 j))) (o2' i)) = (p2 i, Ok (bc2 i)),
          round3 g (p2 i) [seq (j, bc2 j) | j <- o3 i] = (p3 i, Ok (vk, Share i (x i))) &
          round4 (p3 i) = Ok [seq (j, W j) | j <- i :: oth i]]) /\
  forall j, (1 <= j <= n)%N -> W j <> x j *: g.
Proof.
move=> F G g h n t oth o2 o2' o3 t2 tn h0 g0 hn hord.
pose sec := fun _ : nat => 1 : F; pose rnd := fun _ k : nat => if k == 0%N then 1 else 0 : F.
have n0 : (1 <= n <= n)%N by rewrite leqnn andbT (leq_trans _ tn) // (leq_trans _ t2).
have [||||p0 [p1 [p2 [p3 [bc1 [sd1 [bc2 [f [W [K1 K2 K3 K4 K5]]]]]]]]]] :=
  @honest_run F G g h n t sec (fun=> 0) (fun=> Some (Some 1)) rnd oth o2 o2' o3 t2 tn h0 g0 _ _ _ _ hord.
- by left.
- by move=> *; apply: oner_neq0.
- by move=> *; apply: oner_neq0.
- by rewrite big_const_nat iter_addr_0 subn1 /=; apply: hn.
exists sec, rnd, p0, p1, p2, p3, bc1, sd1, bc2, (f.[0] *: g), (fun i => f.[i%:R]), W.
by split; last exact: (wj_wrong t2 tn g0 hn K4 K5).
Qed.
Print Assumptions C09_gennaro_public_shares_refuted.

Example C09_hyps : (forall i, (1 <= i <= 3)%N -> (i%:R : F257) != 0) /\ (g257 != 0) /\
  forall i, (1 <= i <= 3)%N -> covers 3 i [seq j <- [:: 3; 1; 2]%N | j != i].
Proof.
split; first by move=> [|[|[|[|i]]]].
split; first by vm_compute.
move=> i hi; split; first by rewrite filter_uniq.
by move=> j nj; rewrite mem_filter nj !inE; move: j {nj} => [|[|[|[|j]]]].
Qed.

(** C11 (Gennaro): whatever the state and the messages, if Round2 succeeds then the share from every
    sender e.1 in the broadcast set satisfies the Pedersen equation at the identifier written in the
    share, and the signing key is the sum of the own share and those shares. *)
Theorem C11_gennaro_round2_checks :
  forall (F : fieldType) (G : lmodType F) (g : G) (dp dp' : part G) bcast p2p out,
  round2 g dp bcast p2p = (dp', Ok out) ->
  exists r own sk (x : nat -> share F),
   [/\ pt_ped dp = Some r, ohead (drop (pt_id dp).-1 (pr_sshares r)) = Some own,
     pt_sk dp' = Some sk, pt_round dp = 2%N /\ pt_round dp' = 3%N &
     sk = sh_val own + \sum_(e <- bcast | e.1 != pt_id dp) sh_val (x e.1)] /\
   (forall e, e \in bcast -> e.1 != pt_id dp ->
     exists b, [/\ assoc e.1 p2p = Some (Packet (Some (x e.1)) (Some b)), (pt_t dp <= size e.2)%N &
       sh_val (x e.1) *: g + sh_val b *: pt_h dp = committed_at e.2 (sh_id (x e.1))%:R]).
Proof. exact round2_ok. Qed.
Print Assumptions C11_gennaro_round2_checks.

(** Round3 likewise checks the Feldman equation of every share it stored in round 2, and the key it
    returns is the sum of the commitments to the constant terms and is not the identity. *)
Theorem C11_gennaro_round3_checks :
  forall (F : fieldType) (G : lmodType F) (g : G) (dp dp' : part G) bcast pk sh,
  round3 g dp bcast = (dp', Ok (pk, sh)) ->
  exists r sk,
   [/\ pt_ped dp = Some r, pt_sk dp = Some sk /\ sh = Share (pt_id dp) sk,
     pt_round dp = 3%N /\ pt_round dp' = 4%N, pk != 0 &
     pk = nth 0 (pr_verifiers r) 0 + \sum_(e <- bcast | e.1 != pt_id dp) nth 0 e.2 0] /\
   (forall e, e \in bcast -> e.1 != pt_id dp ->
     exists d s, [/\ assoc e.1 (pt_others dp) = Some d, pd_share d = Some s, (pt_t dp <= size e.2)%N &
       sh_val s *: g = committed_at e.2 (sh_id s)%:R]).
Proof. exact round3_ok. Qed.
Print Assumptions C11_gennaro_round3_checks.

(** The identifier in the share is not compared with the receiver's: participant 2 of 2 sends its own
    evaluation b(2) to participant 1, who accepts it in rounds 2 and 3 and ends with the right public
    key and a share that is not (a+b)(1). *)
Theorem C11_gennaro_wrong_point_accepted_refuted :
  forall (F : fieldType) (G : lmodType F) (g h : G) (a0 a1 r0 r1 b0 b1 s0 s1 : F),
  base_ok g -> h != 0 -> a0 != 0 -> r0 != 0 -> a0 + b0 != 0 -> b1 != 0 ->
  exists p0 p1 bc1 sd1 p2 bc2 p3 sk,
    [/\ new_participant 1 2 (Some h) true [:: 2%N] = Ok p0,
        round1 g p0 (Some (Some a0)) 0 (fun k => nth 0 [:: r0; a1; r1] k) = (p1, Ok (bc1, sd1)),
        round2 g p1 [:: (2%N, [:: b0 *: g + s0 *: h; b1 *: g + s1 *: h])]
          [:: (2%N, Packet (Some (Share 2 (b0 + b1 * 2%:R))) (Some (Share 2 (s0 + s1 * 2%:R))))] =
          (p2, Ok bc2),
        round3 g p2 [:: (2%N, [:: b0 *: g; b1 *: g])] = (p3, Ok ((a0 + b0) *: g, Share 1 sk)) &
        sk <> (a0 + a1 * 1%:R) + (b0 + b1 * 1%:R)].
Proof. exact wrong_id_accepted. Qed.
Print Assumptions C11_gennaro_wrong_point_accepted_refuted.

Example C11_gennaro_hyps : base_ok g257 /\ exists a0 r0 b0 b1 : F257,
  [/\ a0 != 0, r0 != 0, a0 + b0 != 0 & b1 != 0].
Proof. by split; [exact: base257 | exists 3%:R, 4%:R, 5%:R, 6%:R; split; vm_compute]. Qed.
