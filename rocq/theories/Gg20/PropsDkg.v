(** Theorems about the GG20 distributed key generation (Gg20/DkgModel.v). *)
From mathcomp Require Import all_ssreflect all_algebra zify.
From Verif Require Import Lib.Res Lib.Bytes Lib.Lagrange Lib.Inst Core.HashModel Gennaro.Model Paillier.Model
  SharingV1.Model SharingV1.Proofs Gg20.SignProofs Gg20.PropsSign Gg20.DkgModel Gg20.DkgProofs.
Set Implicit Arguments. Unset Strict Implicit. Unset Printing Implicit Defensive.
Import GRing.Theory.
Local Open Scope ring_scope.

(** Everything that happens in one execution, indexed by the participant *)
Record dexec (p : nat) (G : lmodType 'F_p) (aux psf : Type) := Dexec {
  e_d : nat -> ddraw p aux; e_s1 : nat -> dst G aux; e_b1 : nat -> dbcast1 aux;
  e_in2 : nat -> seq (nat * option (dbcast1 aux)); e_s2 : nat -> dst G aux; e_w : nat -> option witness;
  e_o2 : nat -> seq (nat * share1 p);
  e_d3 : nat -> seq (nat * option witness); e_x3 : nat -> seq (nat * option (share1 p));
  e_s3 : nat -> dst G aux; e_pf : nat -> psf; e_in4 : nat -> seq (nat * psf); e_res : nat -> dresult G aux }.

Section Dkg.
Variables (p : nat) (G : lmodType 'F_p) (g : G) (fs : nat) (penc : G -> bytes) (pdec : bytes -> option G)
  (H : bytes -> bytes) (blk : nat) (aux psf : Type) (auxv : aux -> outcome unit)
  (psfp : secret_key -> nat -> G -> outcome psf) (psfv : nat -> nat -> G -> psf -> outcome unit).

(** n participants with ids 1..n run the four rounds, each passing on what the others sent it: the broadcasts of
    round 1, the opened commitment and the share of round 2; in any order of the maps. *)
Definition dkg_run (t n : nat) (T : dexec G aux psf) : Prop := forall i, i \in iota 1 n ->
  [/\ dround1 g penc H blk (dst0 G aux) t n (e_d T i) = (e_s1 T i, Ok (e_b1 T i)),
      dround2 auxv i (e_s1 T i) (e_in2 T i) = (e_s2 T i, Ok (e_w T i, e_o2 T i)),
      dround3 g fs pdec H blk psfp i (e_s2 T i) (e_d3 T i) (e_x3 T i) = (e_s3 T i, Ok (e_pf T i)) &
      dround4 psfv i (e_s3 T i) (e_in4 T i) = Ok (e_res T i)] /\
  [/\ from_others i (e_b1 T) (e_in2 T i),
      perm_eq (i :: [seq j <- map fst (e_d3 T i) | j != i]) (iota 1 n),
      (forall j w, List.In (j, w) (e_d3 T i) -> j != i -> w = e_w T j) &
      uniq (map fst (e_x3 T i)) /\ (forall j x, List.In (j, x) (e_x3 T i) -> j != i -> x = assoc i (e_o2 T j))].

(** the sum of the polynomials drawn by the participants *)
Definition joint (t n : nat) (T : dexec G aux psf) : {poly 'F_p} := \sum_(j <- iota 1 n) Poly (coefs t (e_d T j)).

Hypotheses (pp : prime p) (pencs : forall P, size (penc P) = (fs * 2)%N) (pdecK : forall P, pdec (penc P) = Some P)
  (fs0 : (0 < fs)%N).

Lemma nth_vers t (d : ddraw p aux) k : nth 0 (vers g t d) k = (coefs t d)`_k *: g.
Proof.
rewrite /vers; case: (ltnP k (size (coefs t d))) => h; first by rewrite (nth_map 0).
by rewrite !nth_default ?size_map // scale0r.
Qed.

Lemma dkg_round3 t n T i : (n < p)%N -> dkg_run t n T -> i \in iota 1 n ->
  [/\ (2 <= t <= n)%N, ds_round (e_s3 T i) = 4%N & ds_Y (e_s3 T i) = Some ((joint t n T).[0] *: g)] /\
  ds_Xi (e_s3 T i) = Some (joint t n T).[i%:R] /\
  ds_pub (e_s3 T i) = [seq public_share [seq (joint t n T)`_k *: g | k <- iota 0 t] j.+1 | j <- iota 0 n].
Proof.
move=> np hr iS.
have r1 j : j \in iota 1 n -> exists r, (2 <= t <= n)%N /\ e_s1 T j = state1 g penc (dst0 G aux) t n (e_d T j) r.
  by move=> /hr [[h _ _ _] _]; have [r [[? _ _] [_ _ ? _]]] := dround1E pp np h; exists r.
have r2 j : j \in iota 1 n -> [/\ e_w T j = ds_D (e_s1 T j), exists o, e_s2 T j = set_other (e_s1 T j) 3 o &
    forall id x, List.In (id, x) (e_o2 T j) -> exists k, id = k.+1 /\ sget (ds_X (e_s1 T j)) k = Some x].
  by move=> /hr [[_ h _ _] _]; have [_ ? _ ? ?] := dround2E h.
have [_ [_ hperm hw [ux hx]]] := hr _ iS.
have [[_ _ hr3 _] _] := hr _ iS.
have [k [x0 [vs [xi [[e3 ei ex eloop] [htn _ _ _ ->]]]]]] := dround3E pp fs0 hr3.
have [ri [tn es1]] := r1 _ iS; have [_ [o es2] _] := r2 _ iS.
have {ex} ex : x0 = mk1 (coefs t (e_d T i)) k.
  move: ex; rewrite es2 es1 /= /sget; set l := map _ _.
  have kn : (k < n)%N by move: iS; rewrite mem_iota ei; lia.
  by rewrite (nth_map x0) ?size_map ?size_iota // (nth_map 0%N) ?size_iota // nth_iota // add0n => -[].
have [exi [V [evs [eV hV]]]] := dloop3E eloop.
have mem j : j \in map fst (e_d3 T i) -> j != i -> j \in iota 1 n.
  by move=> h ne; rewrite -(perm_mem hperm) inE mem_filter h ne orbT.
(* shares *)
have shE j : j \in map fst (e_d3 T i) -> j != i -> (exists s, assoc j (e_x3 T i) = Some (Some s)) ->
    shval (e_x3 T i) j = (Poly (coefs t (e_d T j))).[i%:R].
  move=> h ne [s es]; have jS := mem _ h ne.
  have := hx _ _ (assoc_keys es) ne; rewrite /shval es => ea.
  have [_ _ ho] := r2 _ jS; have [k' [ek]] := ho _ _ (assoc_keys (esym ea)).
  have [rj [_ ->]] := r1 _ jS; rewrite /= /sget.
  have kn : (k' < n)%N by move: iS; rewrite mem_iota ek; lia.
  by rewrite (nth_map s) ?size_map ?size_iota // (nth_map 0%N) ?size_iota // nth_iota // add0n => -[<-] /=; rewrite ek.
have exs j : j \in map fst (e_d3 T i) -> j != i -> exists s, assoc j (e_x3 T i) = Some (Some s).
  move: eloop; clear; move: (s1_val x0) [:: (i, ds_V (e_s2 T i))]; elim: (e_d3 T i) => [//|[m w] d IH] a l.
  rewrite dloop3_cons /= inE; case: (m =P i) => [em|_] h.
    by case/orP => [/eqP ->|]; [rewrite em eqxx|apply: IH h].
  move: h; case E: step3 => [[v y]| |] // h /orP [/eqP -> _|]; last exact: IH h.
  by have [_ [? _]] := step3E E.
have xiE : xi = (joint t n T).[i%:R].
  rewrite exi ex /= -ei /joint horner_sum -(perm_big _ hperm) big_cons /=; congr (_ + _).
  rewrite big_filter -(big_map fst (fun j => j != i) (shval (e_x3 T i))) !(big_seq_cond (fun j => j != i)).
  by apply: eq_bigr => j /andP [hj ne]; apply: shE => //; apply: exs.
have sumE m : (m < t)%N -> sumV vs m = (joint t n T)`_m *: g.
  move=> mt; have cf j : (Poly (coefs t (e_d T j)))`_m = (coefs t (e_d T j))`_m by rewrite coef_Poly.
  rewrite evs /sumV big_cat /= big_seq1 addrC /joint coef_sum scaler_suml -(perm_big _ hperm) big_cons /=.
  congr (_ + _); first by rewrite es2 es1 /= nth_vers cf.
  have -> : \sum_(kv <- V) nth 0 kv.2 m = \sum_(j <- map fst V) (Poly (coefs t (e_d T j)))`_m *: g.
    rewrite big_map; elim: V hV {eV evs} => [|[j v] V IH] hV; first by rewrite !big_nil.
    rewrite !big_cons IH => [|j' v' h]; last by apply: hV; right.
    congr (_ + _); have [ne [w [iw eu]]] := hV j v (or_introl erefl).
    have hj : j \in map fst (e_d3 T i) by apply: keys_In iw.
    have jS := mem _ hj ne; have [ew _ _] := r2 _ jS; have [rj [_ es]] := r1 _ jS.
    have := hw _ _ iw ne; rewrite ew es /= => -[ewj].
    have := @unmarshal_ok p G fs penc pdec pencs pdecK fs0 (vers g t (e_d T j)).
    rewrite size_map size_coefs; last lia.
    move: eu; rewrite ewj /= es2 es1 /= => -> [->].
    by rewrite nth_vers cf.
  rewrite eV; apply: perm_big; rewrite perm_rev; exact: perm_refl.
split; first split=> //.
  by cbn [ds_Y]; rewrite sumE ?horner_coef0 //; lia.
split; first by cbn [ds_Xi]; rewrite xiE.
cbn [ds_pub]; rewrite es2 es1; cbn [set_other state1 ds_n ds_t].
congr (map _ _).
have -> : [seq sumV vs i0 | i0 <- iota 0 t] = [seq (joint t n T)`_k0 *: g | k0 <- iota 0 t]; last by [].
by apply/eq_in_map => m; rewrite mem_iota => h; apply: sumE; lia.
Qed.

Lemma size_joint t n T : (0 < t)%N -> (size (joint t n T) <= t)%N.
Proof.
move=> t0; apply: (leq_trans (size_sum _ _ _)); apply/bigmax_leqP_seq => j _ _.
by rewrite (leq_trans (size_Poly _)) // size_coefs.
Qed.

(** C39: when every participant finishes, all results hold the public key G*s, s the sum of the secrets drawn in
    round 1; the signing shares are the values at the ids of one polynomial of degree below t with constant term
    s, and any t of them determine s. *)
Theorem C39_dkg_correct : forall t n T, (n < p)%N -> dkg_run t n T ->
  let s := \sum_(j <- iota 1 n) dr_u (e_d T j) in
  exists P : {poly 'F_p}, [/\ (size P <= t)%N, P.[0] = s,
    forall i, i \in iota 1 n -> dr_Y (e_res T i) = Some (s *: g) /\ dr_Xi (e_res T i) = Some P.[i%:R] &
    forall S, uniq S -> {subset S <= iota 1 n} -> (t <= size S)%N ->
      s = \sum_(i <- S) P.[i%:R] * \prod_(j <- S | j != i) (j%:R / (j%:R - i%:R))].
Proof.
move=> t n T np hr s; exists (joint t n T).
have P0 : (joint t n T).[0] = s.
  by rewrite /joint horner_sum; apply: eq_bigr => j _; rewrite horner_coef0 coef_Poly.
have res i : i \in iota 1 n -> (0 < t)%N /\ dr_Y (e_res T i) = Some (s *: g) /\ dr_Xi (e_res T i) = Some (joint t n T).[i%:R].
  move=> iS; have [[tn _ eY] [eX _]] := dkg_round3 np hr iS.
  have [[_ _ _ h] _] := hr _ iS.
  move: h; rewrite /dround4; case: ifP => // _; case: ifP => // _; case: ifP => // _.
  case: dloop4 => // _ [<-]; cbn [dr_Y dr_Xi]; rewrite eY eX P0; split=> //; lia.
case: (posnP n) => n0.
  split=> //; [by rewrite /joint n0 big_nil size_poly0|by move=> i; rewrite n0|].
  move=> S _ sub _; case: S sub => [|i S] sub; first by rewrite /s n0 !big_nil.
  by have := sub i (mem_head _ _); rewrite n0.
have [t0 _] := res 1%N ltac:(by rewrite mem_iota; lia).
split=> //; first exact: size_joint.
  by move=> i /res [].
move=> S uS sub tS; rewrite -P0; apply: (@lagrange_seq _ S (fun i => i%:R)) => //.
  move=> i j /sub; rewrite mem_iota => hi /sub; rewrite mem_iota => hj; apply: (natr_inj pp); lia.
exact: leq_trans (size_joint _ _ t0) tS.
Qed.

(** C39 finding: the public share published for participant j is
    G*s + sum_(k<t) (j(k+1)) G*a_k instead of sum_(k<t) j^k G*a_k. *)
Theorem C39_public_shares : forall t n T i, (n < p)%N -> dkg_run t n T -> i \in iota 1 n ->
  exists P : {poly 'F_p}, (size P <= t)%N /\ (forall j, j \in iota 1 n -> dr_Xi (e_res T j) = Some P.[j%:R]) /\
  size (dr_pub (e_res T i)) = n /\ forall j, (j < n)%N ->
    nth 0 (dr_pub (e_res T i)) j = (P`_0 + \sum_(k < t) ((j.+1 * k.+1)%N)%:R * P`_k) *: g.
Proof.
move=> t n T i np hr iS; exists (joint t n T); have [[tn _ _] [_ eP]] := dkg_round3 np hr iS.
have res j : j \in iota 1 n -> dr_Xi (e_res T j) = Some (joint t n T).[j%:R] /\ dr_pub (e_res T j) = ds_pub (e_s3 T j).
  move=> jS; have [_ [eX _]] := dkg_round3 np hr jS; have [[_ _ _ h] _] := hr _ jS.
  move: h; rewrite /dround4; case: ifP => // _; case: ifP => // _; case: ifP => // _.
  by case: dloop4 => // _ [<-]; cbn [dr_pub dr_Xi]; rewrite eX.
split; first by apply: size_joint; lia.
split; first by move=> j /res [].
have [_ ->] := res _ iS; rewrite eP size_map size_iota; split=> // j jn.
rewrite (nth_map 0%N) ?size_iota // nth_iota // add0n public_shareE size_map size_iota.
rewrite scalerDl; congr (_ + _); first by rewrite (nth_map 0%N) ?size_iota ?nth_iota //; lia.
rewrite scaler_suml; apply: eq_bigr => k _.
by rewrite (nth_map 0%N) ?size_iota // nth_iota // add0n scalerA.
Qed.

(** C39 finding: for t = 2 a published public share equals G*share_j only if the joint polynomial vanishes at 1,
    that is only if participant 1's signing share is zero. *)
Theorem C39_public_shares_refuted : forall n T i j, (n < p)%N -> (forall a : 'F_p, a *: g = 0 -> a = 0) ->
  dkg_run 2 n T -> i \in iota 1 n -> j \in iota 1 n -> forall xj, dr_Xi (e_res T j) = Some xj ->
  (nth 0 (dr_pub (e_res T i)) j.-1 = xj *: g <-> dr_Xi (e_res T 1) = Some 0).
Proof.
move=> n T i j np hg hr iS jS xj; have [P [sP [hX [_ hp]]]] := C39_public_shares np hr iS.
have j1 : (j.-1 < n)%N by move: jS; rewrite mem_iota; lia.
have j0 : j.-1.+1 = j by move: jS; rewrite mem_iota; lia.
have n1 : 1%N \in iota 1 n by move: jS; rewrite !mem_iota; lia.
rewrite (hX _ jS) (hX _ n1) (hp _ j1) j0 => -[<-].
have hP x : P.[x] = P`_0 + P`_1 * x by rewrite (horner_coef_wide _ sP) !big_ord_recr big_ord0 /= add0r expr0 mulr1 expr1.
rewrite !big_ord_recr big_ord0 /= add0r muln1 !hP mulr1.
have hj : (j%:R : 'F_p) != 0.
  apply/eqP => /(congr1 val); rewrite val_natr //; first by move: jS; rewrite mem_iota /=; lia.
  by move: jS; rewrite mem_iota; lia.
have d : (P`_0 + (j%:R * P`_0 + (j * 2)%:R * P`_1)) - (P`_0 + P`_1 * j%:R) = j%:R * (P`_0 + P`_1).
  rewrite natrM mulr2n mulrDr (mulrC P`_1) mulr1 mulrDl mulrDr opprD addrACA subrr add0r addrA -addrA.
  by rewrite -!addrA subrr addr0.
split=> [/eqP|h]; last have e : P`_0 + P`_1 = 0 := congr1 (odflt 1) h.
  rewrite -subr_eq0 -scalerBl d => /eqP /hg /eqP; rewrite mulf_eq0 (negbTE hj) => /eqP e; by rewrite e.
by apply/eqP; rewrite -subr_eq0 -scalerBl d e mulr0 scale0r.
Qed.
End Dkg.
Print Assumptions C39_dkg_correct.
Print Assumptions C39_public_shares.
Print Assumptions C39_public_shares_refuted.
