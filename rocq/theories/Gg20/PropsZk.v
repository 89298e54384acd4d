(** Theorems about the GG20 zero-knowledge proofs (Gg20/ZkModel.v): exactly which proofs the verifiers
    accept from a prover that follows the formulas, and what the checks do not bound. *)
From Coq Require Import ZArith Lia.
From mathcomp Require Import ssreflect ssrfun ssrbool eqtype ssrnat seq ssralg.
From Verif Require Import Lib.Res Core.ModModel Gg20.ZkModel Gg20.ZkProofs.
Set Implicit Arguments. Unset Strict Implicit. Unset Printing Implicit Defensive.
Local Open Scope Z_scope.

(** Spec: the Paillier ciphertext of the plaintext m in [0, N) with nonce r *)
Definition paillier_ct (N m r : Z) : Z := ((N + 1) ^ m * r ^ N) mod (N * N).
(** Spec: usable auxiliary parameters *)
Definition good_params (dp : dparams) : Prop :=
  1 < dN dp /\ Z.gcd (dH1 dp) (dN dp) = 1 /\ Z.gcd (dH2 dp) (dN dp) = 1.

Lemma ct_cg N m r A : 1 < N -> 0 <= m -> (A - m) mod N = 0 ->
  paillier_ct N m r =[N * N] (1 + A * N) * r ^ N.
Proof.
move=> hN hm hA; rewrite /paillier_ct; rewrite -> cg_mod.
have h2 : 1 < N * N by nia.
have [xi [hx _]] := big_exp_unit h2 (gcd_np1 hN).
rewrite -(@P_nonneg _ xi) //; rewrite -> (np1_pow m hx).
have := Z_div_mod_eq_full (A - m) N; rewrite hA Z.add_0_r => e.
have -> : 1 + A * N = 1 + m * N + ((A - m) / N) * (N * N) by nia.
by rewrite -> (cg_add_mul (N * N) (1 + m * N)).
Qed.

Lemma ped1 R beta e N : 1 < N -> 0 <= e ->
  pedersen R beta e 1 N = Ok ((R ^ e mod N * (beta mod N)) mod N).
Proof.
move=> hN he; rewrite /pedersen /core_exp !big_exp_nonneg // Z.pow_1_r /bind core_mulE //; lia.
Qed.

(** C41: a prover that runs the range-1 computation with any integer A congruent to the plaintext (whatever
    its size or sign) is accepted exactly when e*A + alpha <= q^3 *)
Theorem C41_range1_verdict : forall fs cp N dp A m C R rp,
  (forall l, 0 <= fs l) -> 1 < N -> good_params dp -> Z.gcd R N = 1 ->
  0 <= m -> (A - m) mod N = 0 -> C = paillier_ct N m R ->
  exists pi, gen_proof1 fs cp N dp A C R rp = Ok pi /\
    p1s1 pi = p1e pi * A + r1alpha rp /\ 0 <= p1e pi /\
    verify1 fs cp N dp C pi = if p1e pi * A + r1alpha rp >? cq cp ^ 3 then Err else Ok tt.
Proof.
move=> fs cp N dp A m C R [alpha beta gamma rho] hfs hN [hn [h1 h2]] hR hm hA ->.
have hC := ct_cg R hN hm hA; move: (paillier_ct N m R) hC => C' hC {hA}.
have [xi [yi [_ [_ E]]]] := pedersenE hn h1 h2.
rewrite /gen_proof1; cbn [r1alpha r1beta r1gamma r1rho]; rewrite incE // !E; cbn [bind].
set z := (_ mod dN dp); set u := (_ mod (N * N)); set w := (_ mod dN dp); set e := fs _.
have he : 0 <= e by exact: hfs.
rewrite ped1 //; cbn [bind]; set s := (_ mod N)%Z.
eexists; split; first by []; cbn [p1s1 p1e]; split; first by []; split; first by [].
rewrite /verify1; cbn [p1s1 p1e p1s p1s2 p1z]; rewrite /schnorr.
case: ifP => // _; rewrite /s (c_hatE _ alpha hN hR he hC) incE //; cbn [bind].
rewrite (@h_hatE dp A rho alpha gamma e z) //; last by rewrite E.
by rewrite E; cbn [bind]; rewrite -/u -/w -/e ct_eqE.
Qed.
Print Assumptions C41_range1_verdict.

(** the same computation is what Prove runs, after checking 0 <= A < q and 0 <= R < N *)
Theorem C41_range1_prove : forall fs cp N dp A C R rp,
  prove1 fs cp N dp A C R rp =
  if (0 <=? A) && (A <? cq cp) && ((0 <=? R) && (R <? N)) then gen_proof1 fs cp N dp A C R rp else Err.
Proof.
move=> fs cp N dp A C R rp; rewrite /prove1 /core_in.
by case: (0 <=? A); case: (A <? cq cp); case: (0 <=? R); case: (R <? N).
Qed.
Print Assumptions C41_range1_prove.

(** C41 finding: the proof bounds nothing.  For every plaintext m in [0, N), however large, the prover that
    uses A = m - N is accepted for every nonce and every draw alpha <= q^3. *)
Theorem C41_range1_bounds_nothing_refuted : forall fs cp N dp m R rp,
  (forall l, 0 <= fs l) -> 1 < N -> good_params dp -> Z.gcd R N = 1 ->
  0 <= m < N -> r1alpha rp <= cq cp ^ 3 ->
  exists pi, gen_proof1 fs cp N dp (m - N) (paillier_ct N m R) R rp = Ok pi /\
    verify1 fs cp N dp (paillier_ct N m R) pi = Ok tt.
Proof.
move=> fs cp N dp m R rp hfs hN hp hR hm ha.
have hA : (m - N - m) mod N = 0 by rewrite (_ : m - N - m = (-1) * N) ?Z.mod_mul; lia.
have [pi [e [_ [h0 v]]]] := C41_range1_verdict cp rp hfs hN hp hR (proj1 hm) hA erefl.
exists pi; split=> //; rewrite v Z.gtb_ltb.
by case: Z.ltb_spec => //; nia.
Qed.
Print Assumptions C41_range1_bounds_nothing_refuted.

(** C41: the range-2 proof (with [wc] = Some X: with the check X = x*G) is accepted exactly when
    e*x + alpha <= q^3 and e*y + gamma <= q^7 *)
Theorem C41_range2_verdict : forall fs (G : zmodType) (g : G) px py cp N dp x y m c1 l c2 r wc rp,
  (forall l, 0 <= fs l) -> 1 < N -> good_params dp -> Z.gcd r N = 1 -> Z.gcd c1 N = 1 ->
  cq cp <> 0 -> smul (cq cp) g = 0%R -> (if wc is Some X then X = smul x g else True) ->
  big_exp c1 x (Some (N * N)) = Some l ->
  0 <= m -> (y - m) mod N = 0 -> c2 = (l * paillier_ct N m r) mod (N * N) ->
  exists pi, gen_proof2 fs g px py cp N dp x y r c1 c2 wc rp = Ok pi /\ 0 <= p2e pi /\
    verify2 fs g px py cp N dp c1 c2 wc pi =
      if p2e pi * x + r2alpha rp >? cq cp ^ 3 then Err else
      if p2e pi * y + r2gamma rp >? cq cp ^ 7 then Err else Ok tt.
Proof.
move=> fs G g px py cp N dp x y m c1 l c2 r wc [alpha beta gamma rho rhoT sigma tau] hfs hN [hn [h1 h2]] hr hc1.
move=> hq hg hX hl hm hy ->.
have hC : (l * paillier_ct N m r) mod (N * N) =[N * N] l * ((1 + y * N) * r ^ N).
  by rewrite -> cg_mod, (ct_cg r hN hm hy).
move: (_ mod (N * N)) hC => c2' hC {hm hy}.
have [xi [yi [_ [_ E]]]] := pedersenE hn h1 h2.
rewrite /gen_proof2; cbn [r2alpha r2beta r2gamma r2rho r2rhoTick r2sigma r2tau]; rewrite !E /core_exp; cbn [bind].
have eX : forall e0, omap (fun X => (X, u_hat (cq cp) g X (e0 * x + alpha) e0)) wc = omap (fun X => (X, smul alpha g)) wc.
  by move=> e0; case: wc hX => //= X ->; rewrite u_hatE.
have [a [b [ea [eb _]]]] := v_hat2E beta alpha gamma hN hr hc1 (hfs [::]) hl hC.
rewrite ea eb; cbn [bind]; rewrite core_mulE; last nia; cbn [bind].
set z := (_ mod dN dp); set zt := (_ mod dN dp); set t := (_ mod dN dp); set v := (_ mod (N * N)).
set w := (_ mod dN dp); set e := fs2 _ _ _ _ _ _ _ _ _ _ _ _ _ _.
have he : 0 <= e by exact: hfs.
rewrite ped1 //; cbn [bind]; set s := (_ mod N)%Z.
eexists; split; first by []; cbn [p2e]; split; first by [].
rewrite /verify2; cbn [p2s1 p2e p2s p2s2 p2z p2t p2t1 p2t2]; rewrite /schnorr.
case: ifP => // _; case: ifP => // _.
rewrite (@h_hatE dp x rho alpha rhoT e z) //; last by rewrite E.
rewrite E; cbn [bind].
have [a' [b' [ea' [eb' ->]]]] := v_hat2E beta alpha gamma hN hr hc1 he hl hC.
move: ea' eb'; rewrite ea eb => -[<-] [<-]; rewrite core_mulE; last nia; cbn [bind].
rewrite (@h_hatE dp y sigma gamma tau e t) //; last by rewrite E.
rewrite E; cbn [bind].
by rewrite eX -/zt -/v -/w -/e ct_eqE.
Qed.
Print Assumptions C41_range2_verdict.

(** C41 finding: neither the multiplier nor the mask is bounded below.  For every mask m in [0, N), the
    prover that uses y = m - N (and any x <= 0) is accepted. *)
Theorem C41_range2_bounds_nothing_refuted : forall fs (G : zmodType) (g : G) px py cp N dp x m c1 l r wc rp,
  (forall l, 0 <= fs l) -> 1 < N -> good_params dp -> Z.gcd r N = 1 -> Z.gcd c1 N = 1 ->
  cq cp <> 0 -> smul (cq cp) g = 0%R -> (if wc is Some X then X = smul x g else True) ->
  big_exp c1 x (Some (N * N)) = Some l -> x <= 0 -> 0 <= m < N ->
  r2alpha rp <= cq cp ^ 3 -> r2gamma rp <= cq cp ^ 7 ->
  let c2 := (l * paillier_ct N m r) mod (N * N) in
  exists pi, gen_proof2 fs g px py cp N dp x (m - N) r c1 c2 wc rp = Ok pi /\
    verify2 fs g px py cp N dp c1 c2 wc pi = Ok tt.
Proof.
move=> fs G g px py cp N dp x m c1 l r wc rp hfs hN hp hr hc1 hq hg hX hl hx hm ha hga c2.
have hy : (m - N - m) mod N = 0 by rewrite (_ : m - N - m = (-1) * N) ?Z.mod_mul; lia.
have [pi [e [h0 v]]] := C41_range2_verdict px py rp hfs hN hp hr hc1 hq hg hX hl (proj1 hm) hy erefl.
exists pi; split=> //; rewrite v !Z.gtb_ltb.
by case: Z.ltb_spec => [?|_]; [nia|case: Z.ltb_spec => // ?; nia].
Qed.
Print Assumptions C41_range2_bounds_nothing_refuted.

(** C41: the consistency proof of round 5 (PDL) is accepted exactly when e*x + alpha <= q^3, for every
    integer x congruent to the plaintext modulo N and with X = x*R *)
Theorem C41_pdl_verdict : forall fs (G : zmodType) px py cp N dp x m C r (X R : G) rp,
  (forall l, 0 <= fs l) -> 1 < N -> good_params dp -> Z.gcd r N = 1 ->
  cq cp <> 0 -> smul (cq cp) R = 0%R -> X = smul x R ->
  0 <= m -> (x - m) mod N = 0 -> C = paillier_ct N m r ->
  exists pi, pdl_prove fs px py cp N dp x r C X R rp = Ok pi /\ 0 <= p1e pi /\
    pdl_verify fs px py cp N dp C X R pi =
      if p1e pi * x + r1alpha rp >? cq cp ^ 3 then Err else Ok tt.
Proof.
move=> fs G px py cp N dp x m C r X R [alpha beta gamma rho] hfs hN [hn [h1 h2]] hr hq hR -> hm hx ->.
have hC := ct_cg r hN hm hx; move: (paillier_ct N m r) hC => C' hC {hx}.
have [xi [yi [_ [_ E]]]] := pedersenE hn h1 h2.
rewrite /pdl_prove; cbn [r1alpha r1beta r1gamma r1rho]; rewrite incE // !E; cbn [bind].
set z := (_ mod dN dp); set u := (_ mod (N * N)); set w := (_ mod dN dp); set e := pdl_fs _ _ _ _ _ _ _ _ _ _ _ _ _.
have he : 0 <= e by exact: hfs.
rewrite ped1 //; cbn [bind]; set s := (_ mod N)%Z.
eexists; split; first by []; cbn [p1e]; split; first by [].
rewrite /pdl_verify; cbn [p1s1 p1e p1s p1s2 p1z]; rewrite /schnorr.
case: ifP => // _; rewrite /s (c_hatE _ alpha hN hr he hC) incE //; cbn [bind].
rewrite (@h_hatE dp x rho alpha gamma e z) //; last by rewrite E.
by rewrite E u_hatE //; cbn [bind]; rewrite -/u -/w -/e ct_eqE.
Qed.
Print Assumptions C41_pdl_verdict.

(** a concrete case: N = 15, auxiliary modulus 21, a hash that returns 5; the group of integers modulo 7 *)
Example C41_hyps :
  let fs := fun _ : seq Z => 5 in let cp := CParams 1 2 7 in let dp := DParams 21 4 16 in
  (forall l, 0 <= fs l) /\ 1 < 15 /\ good_params dp /\ Z.gcd 2 15 = 1 /\ (3 - 3) mod 15 = 0 /\
  cq cp <> 0 /\ big_exp 4 2 (Some 225) = Some 16 /\
  (exists pi, prove1 fs cp 15 dp 3 (paillier_ct 15 3 2) 2 (Rand1 10 7 8 9) = Ok pi /\
     verify1 fs cp 15 dp (paillier_ct 15 3 2) pi = Ok tt /\ p1s1 pi = 25) /\
  (exists pi, gen_proof1 fs cp 15 dp (14 - 15) (paillier_ct 15 14 2) 2 (Rand1 10 7 8 9) = Ok pi /\
     verify1 fs cp 15 dp (paillier_ct 15 14 2) pi = Ok tt /\ p1s1 pi = 5) /\
  (exists pi, prove1 fs cp 15 dp 3 (paillier_ct 15 3 2) 2 (Rand1 340 7 8 9) = Ok pi /\
     verify1 fs cp 15 dp (paillier_ct 15 3 2) pi = Err).
Proof.
split; first by []; split; first by []; split; first by vm_compute.
split; first by []; split; first by []; split; first by []; split; first by vm_compute.
split; first by exists (Range1 1 5 14 25 53); split; [vm_compute|split; vm_compute].
split; first by exists (Range1 16 5 14 5 53); split; [vm_compute|split; vm_compute].
by exists (Range1 1 5 14 355 53); split; [vm_compute|vm_compute].
Qed.

(* ------------------------------------------------------------ composite discrete logarithm proofs *)

Lemma cdl_loop_ok h1 h2 N e us ss i n : (n <= size us)%nat -> (n <= size ss)%nat -> 
  (forall k, (k < n)%nat -> 0 <= nth 0 ss k /\ (h1 ^ nth 0 ss k) mod N =
      (nth 0 us k * (h2 ^ bitZ e (i + k) mod N)) mod N) ->
  cdl_loop h1 h2 N e us ss i n = Ok tt.
Proof.
elim: n us ss i => [|n IH] [|u us] [|s ss] i //= hu hs h.
have := h 0%nat isT; rewrite /= addn0 => -[s0 e0].
have b0 : 0 <= bitZ e i by rewrite /bitZ; case: ifP.
change (match big_exp h1 s (Some N), big_exp h2 (bitZ e i) (Some N) with
  | Some l, Some r => if l =? (u * r) mod N then cdl_loop h1 h2 N e us ss i.+1 n else Err
  | _, _ => Panic end = Ok tt).
rewrite !big_exp_nonneg // -e0 Z.eqb_refl.
by apply: IH => // k hk; have := h k.+1 hk; rewrite /= addnS.
Qed.

(** C69: for h2 = h1^x mod N with h1 of order dividing pq, the honest proof is accepted, for every number
    of repetitions *)
Theorem C69_cdl_complete : forall fs cp ell pq h1 x N alphas,
  1024 <= Z.log2 N + 1 -> 0 < pq -> 0 <= x -> (h1 ^ pq) mod N = 1 mod N ->
  (ell <= size alphas)%nat -> (forall i, 0 <= nth 0 alphas i) ->
  let h2 := (h1 ^ x) mod N in
  exists pi, cdl_prove fs ell cp pq h1 h2 x N alphas = Ok pi /\ cdl_verify fs ell cp h1 h2 N pi = Ok tt.
Proof.
move=> fs cp ell pq h1 x N alphas hN hpq hx hord hsz ha h2.
eexists; split; first by [].
have hsu : size [seq (h1 ^ a) mod N | a <- take ell alphas] = ell by rewrite size_map size_take_min; apply/minn_idPl.
rewrite /cdl_verify; cbn [fst snd]; case: Z.ltb_spec => [?|_]; first lia.
rewrite hsu ltnn take_oversize ?hsu //; set e := fs _.
apply: cdl_loop_ok => [||k hk]; rewrite ?hsu ?size_map ?size_iota //.
rewrite (nth_map 0%nat) ?size_iota // nth_iota // add0n.
rewrite (nth_map 0) ?size_take_min ?(minn_idPl hsz) // nth_take //.
have ak : 0 <= nth 0 alphas k by [].
have b0 : 0 <= bitZ e k by rewrite /bitZ; case: ifP.
have := Z.mod_pos_bound (nth 0 alphas k + bitZ e k * x) pq hpq.
set y := nth 0 alphas k + _; move=> hy; split; first lia.
apply: cgE; rewrite -> (cg_mod N (h1 ^ nth 0 alphas k)), (cg_mod N (h2 ^ bitZ e k)).
have h : h1 ^ (y mod pq) =[N] h1 ^ y.
  have y0 : 0 <= y by rewrite /y; nia.
  have d0 : 0 <= y / pq by apply: Z.div_pos.
  have d1 : 0 <= pq * (y / pq) by apply: Z.mul_nonneg_nonneg; lia.
  rewrite {2}(Z_div_mod_eq_full y pq) Z.pow_add_r //; last lia.
  have h0 : h1 ^ pq =[N] 1 by split.
  rewrite Z.pow_mul_r; try lia.
  by rewrite -> h0; rewrite Z.pow_1_l // Z.mul_1_l.
rewrite -> h; rewrite /y Z.pow_add_r //; last nia.
have h' : h2 =[N] h1 ^ x by exact: cg_mod.
by rewrite -> h'; rewrite -Z.pow_mul_r // (Z.mul_comm x).
Qed.
Print Assumptions C69_cdl_complete.

(** C69 finding: with H1 = H2 = 0 or H1 = H2 = 1 the constant proof is accepted for every modulus of at least
    1024 bits, whatever its factorisation and whatever the hash returns *)
Theorem C69_cdl_degenerate_refuted : forall fs cp ell N h, 1024 <= Z.log2 N + 1 -> h = 0 \/ h = 1 ->
  cdl_verify fs ell cp h h N (nseq ell h, nseq ell 1) = Ok tt.
Proof.
move=> fs cp ell N h hN hh; rewrite /cdl_verify; cbn [fst snd].
case: Z.ltb_spec => [?|_]; first lia.
rewrite size_nseq ltnn; apply: cdl_loop_ok => [||k hk]; rewrite ?size_nseq // !nth_nseq hk; split=> //.
by apply: cgE; rewrite -> !cg_mod; apply: cg_eq; case: hh => ->; rewrite /bitZ; case: Z.testbit.
Qed.
Print Assumptions C69_cdl_degenerate_refuted.

(** C69 finding: the length of the responses is not checked; a proof with fewer responses makes the
    verifier panic (here with H1 = H2 = 1, for every shorter length) *)
Theorem C69_cdl_short_panics : forall fs cp ell N k, 1024 <= Z.log2 N + 1 -> (k < ell)%nat ->
  cdl_verify fs ell cp 1 1 N (nseq ell 1, nseq k 1) = Panic.
Proof.
move=> fs cp ell N k hN hk; rewrite /cdl_verify; cbn [fst snd].
case: Z.ltb_spec => [?|_]; first lia.
rewrite size_nseq ltnn; set e := fs _; move: (e) 0%nat => {}e i; elim: k ell i hk => [|k IH] [|ell] i //= hk.
have b0 : 0 <= bitZ e i by rewrite /bitZ; case: ifP.
change (match big_exp 1 1 (Some N), big_exp 1 (bitZ e i) (Some N) with
  | Some l, Some r => if l =? (1 * r) mod N then cdl_loop 1 1 N e (nseq ell 1) (nseq k 1) i.+1 ell else Err
  | _, _ => Panic end = Panic).
rewrite !big_exp_nonneg // Z.mul_1_l Zmod_mod !Z.pow_1_l // Z.eqb_refl; exact: IH.
Qed.
Print Assumptions C69_cdl_short_panics.

(** a concrete modulus meeting the hypotheses: 2 has order 1024 modulo N = 2^1024 - 1 *)
Example C69_hyps : let N := 2 ^ 1024 - 1 in
  1024 <= Z.log2 N + 1 /\ (2 ^ 1024) mod N = 1 mod N /\ 0 < 1024.
Proof. by split; [vm_compute|split; [vm_compute|]]. Qed.
