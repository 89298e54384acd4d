(** C79: the legacy BLS12-381 G1 curve multiplies by the byte-reversed scalar. *)
From Coq Require Import ZArith.
From mathcomp Require Import all_ssreflect all_algebra zify.
From Verif Require Import Lib.Res Lib.Bytes SharingV1.Model SharingV1.Proofs SharingV1.BlsModel.
Set Implicit Arguments.
Unset Strict Implicit.
Unset Printing Implicit Defensive.
Import GRing.Theory.
Local Open Scope ring_scope.
Delimit Scope Z_scope with Zs.

(** ** Specification
    A scalar is written as its big-endian byte string [b] without leading zero byte. *)
Definition minimal (b : bytes) : bool := is_bytes b && (strip0 b == b).

Lemma minimal_be b : minimal b -> be_bytes (be_val b) = b.
Proof. by case/andP=> h /eqP e; rewrite be_bytes_strip. Qed.

Lemma be_minimal n : minimal (be_bytes n).
Proof.
rewrite /minimal is_bytes_be /=.
by have := be_bytes_strip (is_bytes_be n); rewrite be_bytesK => <-.
Qed.

Section P.
Variables (p : nat) (G : lmodType 'F_p).
Hypothesis pp : prime p.
Hypothesis p32 : (p < 256 ^ 32)%N.

Lemma be_short n : (n < p)%N -> (size (be_bytes n) <= 32)%N.
Proof. by move=> h; apply: size_be_bytes; apply: ltn_trans p32. Qed.

Lemma fq_short b : (size b <= 32)%N ->
  fq_set_bytes p b = if (le_val b < p)%N then Some (le_val b)%:R else None.
Proof. by move=> h; rewrite /fq_set_bytes le_val_copy. Qed.

Lemma base_ok (g : G) k : ec_scalar_base_mult g k = Ok (k%:R *: g).
Proof.
have kp : (k %% p < p)%N by rewrite ltn_mod prime_gt0.
rewrite /ec_scalar_base_mult /g1_scalar_base_mult fq_short ?size_rev ?be_short //.
rewrite /le_val revK be_bytesK kp /=; congr (Ok (_ *: g)).
by apply: val_inj; rewrite /= !val_Fp_nat // modn_mod.
Qed.

Lemma mult_ok (P : G) k b : minimal b -> be_val b = (k %% p)%N ->
  ec_scalar_mult P k = if (le_val b < p)%N then Ok ((le_val b)%:R *: P) else Panic.
Proof.
move=> mb e.
have kp : (k %% p < p)%N by rewrite ltn_mod prime_gt0.
have eb : be_bytes (k %% p) = b by rewrite -e minimal_be.
rewrite /ec_scalar_mult /g1_scalar_mult eb fq_short; last by rewrite -eb be_short.
by case: ifP.
Qed.

Lemma Fp_nat_inj m n : (m < p)%N -> (n < p)%N -> (m%:R : 'F_p) = n%:R -> m = n.
Proof. by move=> hm hn /(congr1 val); rewrite /= !val_Fp_nat // !modn_small. Qed.

Lemma pal_iff b : is_bytes b -> (le_val b == be_val b) = (rev b == b).
Proof.
move=> hb; apply/eqP/eqP => [e|e]; last by rewrite /le_val e.
have hr : is_bytes (rev b) by rewrite /is_bytes all_rev.
have e' : le_val (rev b) = le_val b by rewrite {1}/le_val revK.
by rewrite -(le_valK hr) e' size_rev le_valK.
Qed.

Lemma mult_right_iff (P : G) k : P != 0 ->
  (ec_scalar_mult P k = Ok (k%:R *: P)) <-> rev (be_bytes (k %% p)) = be_bytes (k %% p).
Proof.
move=> P0; set b := be_bytes _.
have kp : (k %% p < p)%N by rewrite ltn_mod prime_gt0.
have bv : be_val b = (k %% p)%N by rewrite be_bytesK.
have mb : minimal b := be_minimal _.
have hb : is_bytes b by case/andP: mb.
rewrite (mult_ok P mb bv); split=> [|/eqP pb].
  case: ifP => // lp [] /eqP.
  rewrite -subr_eq0 -scalerBl scaler_eq0 (negbTE P0) orbF subr_eq0 => /eqP e.
  apply/eqP; rewrite -pal_iff // bv; apply/eqP.
  apply: Fp_nat_inj => //; rewrite e.
  by apply: val_inj; rewrite /= !val_Fp_nat // modn_mod.
move: pb; rewrite -pal_iff // bv => /eqP ->; rewrite kp; congr (Ok (_ *: P)).
by apply: val_inj; rewrite /= !val_Fp_nat // modn_mod.
Qed.

Lemma small_pal n : (n < 256)%N -> rev (be_bytes n) = be_bytes n.
Proof.
by move=> h; have := @size_be_bytes n 1 h; case: (be_bytes n) => [|a [|]].
Qed.

Lemma valueN n : (n < p)%N -> value (n%:R : 'F_p) = n.
Proof. by move=> h; rewrite /value /= val_Fp_nat // modn_small. Qed.

(** the multiplier used in place of [k] *)
Definition swapped (n : nat) : nat := le_val (be_bytes n).

Lemma multE (P : G) (a : 'F_p) :
  ec_scalar_mult P (value a) =
  if (swapped (value a) < p)%N then Ok ((swapped (value a))%:R *: P) else Panic.
Proof.
apply: (mult_ok P (be_minimal _)); rewrite be_bytesK modn_small //.
by apply: leq_trans (ltn_ord a) _; rewrite Fp_cast.
Qed.

Lemma commit_evalE (x : 'F_p) (cs : seq 'F_p) (g : G) (i r : 'F_p) :
  (forall j, (j < size cs)%N -> (swapped (value (i * x ^+ j.+1 : 'F_p)%R) < p)%N) ->
  bls_commit_eval x i (r *: g) [seq c *: g | c <- cs] =
  Ok ((r + \sum_(j < size cs) (swapped (value (i * x ^+ j.+1 : 'F_p)))%:R * cs`_j) *: g).
Proof.
elim: cs i r => [|c cs IH] i r h /=; first by rewrite big_ord0 addr0.
have h0 := h 0%N isT; rewrite expr1 in h0.
rewrite multE h0 /= scalerA -scalerDl IH; last first.
  by move=> j hj; rewrite -mulrA -exprS; exact: (h j.+1 hj).
congr (Ok (_ *: g)); rewrite big_ord_recl expr1 /= -addrA; congr (_ + (_ + _)).
by apply: eq_bigr => j _; rewrite -mulrA -exprS.
Qed.

Lemma verifyE (g : G) s (c0 : 'F_p) (cs : seq 'F_p) (sh : share1 p) :
  (forall a : 'F_p, a *: g = 0 -> a = 0) ->
  (s1_threshold s <= size (c0 :: cs))%N -> (s1_id sh < p)%N ->
  (forall j, (j < size cs)%N -> (swapped (value ((s1_id sh)%:R ^+ j.+1 : 'F_p)%R) < p)%N) ->
  bls_feldman_verify g s (Some sh) [seq c *: g | c <- c0 :: cs] =
  Ok (s1_val sh == c0 + \sum_(j < size cs) (swapped (value ((s1_id sh)%:R ^+ j.+1 : 'F_p)))%:R * cs`_j).
Proof.
move=> hg ts idp h; rewrite /bls_feldman_verify size_map ltnNge ts /= /new_element idp /=.
rewrite commit_evalE /=; last by move=> j hj; rewrite mul1r h.
rewrite base_ok /= natr_Zp /value; congr Ok.
under eq_bigr do rewrite mul1r.
apply/eqP/eqP => [/eqP|-> //].
by rewrite -subr_eq0 -scalerBl => /eqP/hg/eqP; rewrite subr_eq0 => /eqP.
Qed.

End P.

(** ** C79 *)

(** NewScalarBaseMult is right for every integer. *)
Theorem C79_base_mult :
  forall (p : nat) (G : lmodType 'F_p) (g : G) k, prime p -> (p < 256 ^ 32)%N ->
  ec_scalar_base_mult g k = Ok (k%:R *: g).
Proof. by move=> p G g k pp p32; exact: base_ok. Qed.
Print Assumptions C79_base_mult.

(** EcPoint.ScalarMult multiplies by the scalar whose bytes are reversed; when that reversal is not
    below the order the call panics. *)
Theorem C79_scalar_mult_reversed :
  forall (p : nat) (G : lmodType 'F_p) (P : G) k (b : bytes), prime p -> (p < 256 ^ 32)%N ->
  is_bytes b -> strip0 b = b -> be_val b = (k %% p)%N ->
  ec_scalar_mult P k = if (be_val (rev b) < p)%N then Ok ((be_val (rev b))%:R *: P) else Panic.
Proof.
move=> p G P k b pp p32 hb sb e; rewrite (mult_ok pp p32 P (b := b)) //.
by rewrite /minimal hb sb eqxx.
Qed.
Print Assumptions C79_scalar_mult_reversed.

(** On a point other than the identity it is right exactly for palindromes. *)
Theorem C79_scalar_mult_right_iff :
  forall (p : nat) (G : lmodType 'F_p) (P : G) k, prime p -> (p < 256 ^ 32)%N -> P != 0 ->
  (ec_scalar_mult P k = Ok (k%:R *: P)) <-> rev (be_bytes (k %% p)) = be_bytes (k %% p).
Proof. by move=> p G P k pp p32; exact: mult_right_iff. Qed.
Print Assumptions C79_scalar_mult_right_iff.

(** in particular for scalars of one byte; 256 acts as 1 *)
Theorem C79_scalar_mult_refuted :
  forall (p : nat) (G : lmodType 'F_p) (P : G), prime p -> (257 < p < 256 ^ 32)%N ->
  (forall k, (k < 256)%N -> ec_scalar_mult P k = Ok (k%:R *: P)) /\
  ec_scalar_mult P 256 = Ok P /\
  (P != 0 -> ec_scalar_mult P 256 <> Ok (256%:R *: P)).
Proof.
move=> p G P pp /andP[p257 p32]; have b256 : be_bytes 256 = [:: 1; 0]%N by [].
have m256 : (256 %% p = 256)%N by rewrite modn_small // ltnW // ltnW.
split; first move=> k hk; last split.
- have mk : (k %% p = k)%N by rewrite modn_small //; apply: ltn_trans hk (ltn_trans _ p257).
  have mb := be_minimal k; rewrite (mult_ok pp p32 P mb); last by rewrite be_bytesK mk.
  have -> : le_val (be_bytes k) = k by rewrite /le_val small_pal ?be_bytesK.
  by rewrite (ltn_trans hk) // (ltn_trans _ p257).
- rewrite (@mult_ok p G pp p32 P 256 [:: 1; 0]%N isT (Logic.eq_sym m256)).
  have -> : le_val [:: 1; 0]%N = 1%N by [].
  by rewrite prime_gt1 // scale1r.
- by move=> P0 /(mult_right_iff pp p32 _ P0); rewrite m256 b256.
Qed.
Print Assumptions C79_scalar_mult_refuted.

(** a multiplication that panics: the order only has to lie between 256^31 + 255 and 255 * 256^31 *)
Theorem C79_scalar_mult_panics :
  forall (p : nat) (G : lmodType 'F_p) (P : G), prime p ->
  (256 ^ 31 + 255 < p)%N -> (p <= 255 * 256 ^ 31)%N ->
  ec_scalar_mult P (256 ^ 31 + 255) = Panic.
Proof.
move=> p G P pp; rewrite -[(256 ^ 31)%N]/(256 ^ size (nseq 30 0%N ++ [:: 1%N]))%N.
set z := nseq 30 0%N; move: (erefl z); rewrite {2}/z.
have -> : size (z ++ [:: 1%N]) = (size z).+1 by rewrite size_cat addn1.
have ez : size z = 30%N by [].
have mz : minimal (1%N :: z ++ [:: 255%N]) by [].
have pz a c : rev (a :: z ++ [:: c]) = c :: z ++ [:: a] by [].
have vz a : be_val (z ++ [:: a]) = a by [].
clearbody z => _; move: ez; move ez: (size z) => n en.
have szc c : size (z ++ [:: c]) = n.+1 by rewrite size_cat addn1 ez.
have bz a c : be_val (a :: z ++ [:: c]) = (a * 256 ^ n.+1 + c)%N.
  by rewrite be_val_cons szc vz.
move=> h1 h2.
have p32 : (p < 256 ^ 32)%N.
  have -> : (256 ^ 32 = 256 ^ n.+2)%N by rewrite en.
  apply: (leq_ltn_trans h2); rewrite (expnS 256 n.+1).
  by rewrite ltn_pmul2r // expn_gt0.
rewrite (@mult_ok p G pp p32 P _ _ mz); last by rewrite bz mul1n modn_small.
rewrite ifF //; apply/negbTE; rewrite -leqNgt; apply: (leq_trans h2).
by rewrite /le_val pz bz leq_addr.
Qed.
Print Assumptions C79_scalar_mult_panics.

(** Feldman.Verify over this curve: exact when every power of the identifier used is a one-byte
    number, ... *)
Theorem C79_feldman_small :
  forall (p : nat) (G : lmodType 'F_p) (g : G) s (cs : seq 'F_p) (sh : share1 p),
  prime p -> (256 < p < 256 ^ 32)%N -> (forall a : 'F_p, a *: g = 0 -> a = 0) ->
  (0 < s1_threshold s <= size cs)%N -> (0 < s1_id sh)%N ->
  (s1_id sh ^ (size cs).-1 < 256)%N -> (s1_id sh < p)%N ->
  exists b, bls_feldman_verify g s (Some sh) [seq c *: g | c <- cs] = Ok b /\
    (b <-> s1_val sh = (Poly cs).[(s1_id sh)%:R]).
Proof.
move=> p G g s cs sh pp /andP[p256 p32] hg /andP[t0 ts] id0 hs idp.
case: cs ts hs => [|c0 cs] ts hs; first by rewrite leqNgt t0 in ts.
have sm : forall j, (j < size cs)%N -> (s1_id sh ^ j.+1 < 256)%N.
  move=> j hj; apply: leq_ltn_trans hs; rewrite /= leq_pexp2l //.
have vl : forall j, (j < size cs)%N -> value ((s1_id sh)%:R ^+ j.+1 : 'F_p) = (s1_id sh ^ j.+1)%N.
  move=> j hj; rewrite -natrX /value /= val_Fp_nat // modn_small //.
  exact: ltn_trans (sm j hj) p256.
have sw : forall j, (j < size cs)%N -> swapped (value ((s1_id sh)%:R ^+ j.+1 : 'F_p)) = (s1_id sh ^ j.+1)%N.
  by move=> j hj; rewrite vl // /swapped /le_val small_pal ?be_bytesK ?sm.
rewrite verifyE //; last by move=> j hj; rewrite sw // (ltn_trans (sm j hj)).
eexists; split; first reflexivity.
have -> : (Poly (c0 :: cs)).[(s1_id sh)%:R] =
  c0 + \sum_(j < size cs) (swapped (value ((s1_id sh)%:R ^+ j.+1 : 'F_p)))%:R * cs`_j.
  rewrite (@horner_coef_wide _ (size (c0 :: cs))) ?size_Poly //.
  under eq_bigr do rewrite coef_Poly.
  rewrite big_ord_recl expr0 mulr1 /=; congr (_ + _); apply: eq_bigr => j _.
  by rewrite sw // natrX mulrC.
by split=> [/eqP|->].
Qed.
Print Assumptions C79_feldman_small.

(** ... and wrong from identifier 16 and threshold 3 on: the honest share is rejected and another value
    is accepted, for every polynomial of degree two. *)
Theorem C79_feldman_refuted :
  forall (p : nat) (G : lmodType 'F_p) (g : G) limit (c0 c1 c2 : 'F_p),
  prime p -> (257 < p < 256 ^ 32)%N -> (forall a : 'F_p, a *: g = 0 -> a = 0) -> c2 <> 0 ->
  let verify v := bls_feldman_verify g (Shamir1 3 limit) (Some (Share1 16 v))
                    [:: c0 *: g; c1 *: g; c2 *: g] in
  verify (c0 + c1 * 16%:R + c2 * 16%:R ^+ 2) = Ok false /\
  verify (c0 + c1 * 16%:R + c2) = Ok true /\
  (Poly [:: c0; c1; c2]).[16%:R] = c0 + c1 * 16%:R + c2 * 16%:R ^+ 2.
Proof.
move=> p G g limit c0 c1 c2 pp /andP[p257 p32] hg c20 verify.
have v1 : value (16%:R ^+ 1 : 'F_p) = 16%N.
  by rewrite expr1 valueN // (ltn_trans _ p257).
have v2 : value (16%:R ^+ 2 : 'F_p) = 256%N.
  by rewrite -natrX valueN // (ltn_trans _ p257).
have s1 : swapped 16 = 16%N by [].
have s2 : swapped 256 = 1%N by [].
have V : forall v, verify v = Ok (v == c0 + (c1 * 16%:R + c2)).
  move=> v; rewrite /verify (@verifyE p G pp p32 g (Shamir1 3 limit) c0 [:: c1; c2] (Share1 16 v)) //.
  - by congr (Ok (_ == _ + _)); rewrite !big_ord_recl big_ord0 v1 v2 s1 s2 /= addr0 mul1r mulrC.
  - by rewrite /= (ltn_trans _ p257).
  - by case=> [|[|//]] _; rewrite ?v1 ?v2 ?s1 ?s2 (ltn_trans _ p257).
split; last split.
- rewrite V; congr Ok; apply/negbTE; rewrite addrA.
  apply/negP=> /eqP/addrI/eqP; rewrite -subr_eq0 -{2}[c2]mulr1 -mulrBr mulf_eq0 => /orP[/eqP //|].
  rewrite subr_eq0 => /eqP/(congr1 (@value p)); rewrite v2.
  by rewrite -[1]/(1%:R) valueN ?prime_gt1.
- by rewrite V addrA eqxx.
- have X (x a b c : 'F_p) : (c * x + b) * x + a = a + b * x + c * x ^+ 2.
    by rewrite mulrDl -mulrA -expr2 addrC [in RHS]addrAC addrA.
  by rewrite /= !horner_cons horner0 mul0r add0r X.
Qed.
Print Assumptions C79_feldman_refuted.

(** the hypotheses hold for a non-trivial instance *)
Lemma lt32 n : (n < 256 ^ 2)%N -> (n < 256 ^ 32)%N.
Proof. by move=> h; apply: (leq_trans h); rewrite leq_exp2l. Qed.

Lemma base_free p (a : 'F_p) : a *: (1 : ('F_p)^o) = 0 -> a = 0.
Proof. by rewrite /GRing.scale /= mulr1. Qed.

Example C79_hyps :
  [/\ prime 263, (257 < 263 < 256 ^ 32)%N,
     (forall a : 'F_263, a *: (1 : ('F_263)^o) = 0 -> a = 0) & (2%:R : 'F_263) <> 0].
Proof.
split; [by vm_compute | | |].
- by apply/andP; split; [|apply: lt32; vm_compute].
- exact: base_free.
- by move=> /(congr1 val); vm_compute.
Qed.

(** the scalar and bounds of [C79_scalar_mult_panics] at the order of BLS12-381 *)
Lemma of_nat_exp (n : nat) : Z.of_nat (256 ^ n)%N = (256 ^ Z.of_nat n)%Zs.
Proof.
elim: n => [//|n IH]; rewrite expnS Nat2Z.inj_mul IH (Nat2Z.inj_succ n) Z.pow_succ_r //.
exact: Nat2Z.is_nonneg.
Qed.

Example C79_panics_hyps : forall q : nat,
  Z.of_nat q = 0x73eda753299d7d483339d80809a1d80553bda402fffe5bfeffffffff00000001%Zs ->
  (256 ^ 31 + 255 < q)%N /\ (q <= 255 * 256 ^ 31)%N.
Proof.
move=> q hq.
suff H : forall m : nat, Z.of_nat m = (256 ^ 31)%Zs -> (m + 255 < q)%N /\ (q <= 255 * m)%N.
  have e31 : Z.of_nat 31 = 31%Zs by [].
  by have := of_nat_exp 31; rewrite e31; apply: H.
move=> m e; set k := 255%N; have ek : Z.of_nat k = 255%Zs by [].
clearbody k; split; [apply/ltP; apply: (Nat2Z.inj_lt _ _).2 | apply/leP; apply: (Nat2Z.inj_le _ _).2].
- by rewrite Nat2Z.inj_add e hq ek.
- by rewrite Nat2Z.inj_mul e hq ek; vm_compute.
Qed.
