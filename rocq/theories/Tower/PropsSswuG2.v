(** C86: the map stage of hashing to BLS12-381 G2. *)
From Coq Require Import NArith Nnat ZArith.
From mathcomp Require Import all_ssreflect all_algebra all_fingroup all_solvable all_field.
From Verif Require Import Tower.TowerModel Tower.TowerProofs Tower.Literals Tower.PropsTower.
From Verif Require Import Curves.SswuConst Curves.SswuIso Curves.PropsSswu Tower.SswuG2Model Tower.SswuG2Proofs.
Set Implicit Arguments.
Unset Strict Implicit.
Unset Printing Implicit Defensive.
Import GRing.Theory.
Delimit Scope N_scope with Ns.
Delimit Scope Z_scope with Zs.
Local Open Scope ring_scope.

(** the curve y^2 = x^3 + 240 i x + 1012 (1 + i) of RFC 9380 8.8.2, 3-isogenous to G2 *)
Definition on_g2' (F : fieldType) (x y : fp2 F) : Prop :=
  mul2 y y = add2 (add2 (mul2 x (mul2 x x)) (mul2 (Fp2 0 240%:R) x)) (Fp2 1012%:R 1012%:R).

(** the sign of an element of fp2, RFC 9380 4.1: that of the first half, or of the second if the first is 0 *)
Definition rfc_sgn0 (F : fieldType) (sgn : F -> bool) (f : fp2 F) : bool :=
  if A2 f == 0 then sgn (B2 f) else sgn (A2 f).
Lemma sgn2E (F : fieldType) (sgn : F -> bool) (f : fp2 F) : sgn2 sgn f = rfc_sgn0 sgn f.
Proof. by rewrite /sgn2 /rfc_sgn0; case: (A2 f == 0); rewrite !(andbT, andbF, orbF, orFb). Qed.

Lemma char_gen (F : finFieldType) (P : N) : N.of_nat #|F| = P -> prime #|F| -> #|F| \in [char F].
Proof.
move=> h pF; have := fzP0 h; rewrite /fz -h Nat2N.id => e.
by rewrite inE pF /= e.
Qed.
Section Consts.
Variable F : finFieldType.
Hypothesis hF : N.of_nat #|F| = p_bls.
Definition c1N : N := ((p_bls - 3) / 4)%Ns.
Definition k5N : N := 0x186417302d5a65347a88b0f999ab2b504614aa5e2eebdeb1a014c40bceb7d2306c12a6d436befcf94d39c9db7b263cd4%Ns.
Definition k5i : N := 0x52988b9c078047901d648c21ece6b49fad536e2751d735f49f361dd4cb6d9723b845087eea9a347c27713a80f8492b%Ns.
Definition kmN : N := 0x13181842ca17af71fa859ea69bbe95010cd265727cea1d461302d063cde4daf394fbae00f5abedf71daee17fcdac3b8a%Ns.
Definition kmi : N := 0xea7988f401d75b1a2d7e7ec9e1df48af7fc2310ffa1824eea5117785d36943c9ce48dc1568618e5255789714816ab86%Ns.
Definition bi : N := 0xcf9f4f4a0bd8c1df15e7ef27a1e6d450865040a70699d56e95ff3bb12e169a030b26a3e153346d45a899e9bd37a44b9%Ns.
Definition z0N : N := (p_bls - 2)%Ns.
Definition z1N : N := (p_bls - 1)%Ns.
Definition m0N : N := 0x83c12791abdd5d2fe2f284f0cc6e5aa9b8c2d3f6f3f792302cf75e62bfc4df1d6834443da498888725d8cccccccb1c3%Ns.
Definition m1N : N := 0x11c4ff711ec210c74cec7f673684c72cc8eb1e458445999c64615cbacab4a8324828bbbad70a777747a173333332f8e8%Ns.
Lemma card_gen (P c : N) : N.of_nat #|F| = P -> (c * 4 + 3 =? P)%Ns -> (N.to_nat c * 4 + 3 = #|F|)%N.
Proof.
by move=> h /N.eqb_eq e; apply: Nat2N.inj; rewrite h -e -plusE -multE Nat2N.inj_add Nat2N.inj_mul N2Nat.id.
Qed.
Lemma c1_chk : (c1N * 4 + 3 =? p_bls)%Ns. Proof. by vm_compute. Qed.
Lemma card_c1 : (N.to_nat c1N * 4 + 3 = #|F|)%N. Proof. exact (card_gen hF c1_chk). Qed.
Lemma noi (a : F) : a * a <> -1. Proof. exact (m1_nonsq hF card_c1). Qed.
Lemma mv (l : seq N) (w : N) : ((limbs l * g1_ri) mod p_bls =? w mod p_bls)%Ns -> m384 F l = fz F w.
Proof. exact (mont_val hF g1_hr). Qed.
Lemma hA0 : ((limbs lA0 * g1_ri) mod p_bls =? 0 mod p_bls)%Ns. Proof. by vm_compute. Qed.
Lemma hA1 : ((limbs lA1 * g1_ri) mod p_bls =? 240 mod p_bls)%Ns. Proof. by vm_compute. Qed.
Lemma hB0 : ((limbs lB0 * g1_ri) mod p_bls =? 1012 mod p_bls)%Ns. Proof. by vm_compute. Qed.
Lemma hB1 : ((limbs lB1 * g1_ri) mod p_bls =? 1012 mod p_bls)%Ns. Proof. by vm_compute. Qed.
Lemma hZ0 : ((limbs lZ0 * g1_ri) mod p_bls =? z0N mod p_bls)%Ns. Proof. by vm_compute. Qed.
Lemma hZ1 : ((limbs lZ1 * g1_ri) mod p_bls =? z1N mod p_bls)%Ns. Proof. by vm_compute. Qed.
Lemma hM0 : ((limbs lM0 * g1_ri) mod p_bls =? m0N mod p_bls)%Ns. Proof. by vm_compute. Qed.
Lemma hM1 : ((limbs lM1 * g1_ri) mod p_bls =? m1N mod p_bls)%Ns. Proof. by vm_compute. Qed.
Lemma fz_chk (a b : N) : (a mod p_bls =? b mod p_bls)%Ns -> fz F a = fz F b.
Proof. by move=> /N.eqb_eq h; exact (fz_eqm hF h). Qed.
Lemma one_nz (a b : N) : ((a * b) mod p_bls =? 1 mod p_bls)%Ns -> fz F a <> 0.
Proof. by move=> h; apply: (@inv_nz _ _ (fz F b)); rewrite -fzM; exact (fz_chk h). Qed.
Lemma k5nz : ((k5N * k5i) mod p_bls =? 1 mod p_bls)%Ns. Proof. by vm_compute. Qed.
Lemma kmnz : ((kmN * kmi) mod p_bls =? 1 mod p_bls)%Ns. Proof. by vm_compute. Qed.
Lemma bnz : ((1012 * bi) mod p_bls =? 1 mod p_bls)%Ns. Proof. by vm_compute. Qed.
Lemma zn : ((z0N * z0N + z1N * z1N + k5N * k5N) mod p_bls =? 0 mod p_bls)%Ns. Proof. by vm_compute. Qed.
Lemma mn : ((m0N * m0N + m1N * m1N + kmN * kmN) mod p_bls =? 0 mod p_bls)%Ns. Proof. by vm_compute. Qed.
Lemma am0 : ((240 * m0N + 1012) mod p_bls =? 0 mod p_bls)%Ns. Proof. by vm_compute. Qed.
Lemma am1 : ((240 * m1N) mod p_bls =? 1012 mod p_bls)%Ns. Proof. by vm_compute. Qed.
Lemma nrm_chk (a b k : N) : ((a * a + b * b + k * k) mod p_bls =? 0 mod p_bls)%Ns ->
  nrm (Fp2 (fz F a) (fz F b)) = - (fz F k * fz F k).
Proof.
move=> h; rewrite /nrm [A2 _]/= [B2 _]/=; apply/eqP; rewrite -addr_eq0 -!fzM -!fzD; apply/eqP; exact (fz_chk h).
Qed.
Definition litsV : sswuG2 F := SswuG2 (Fp2 (fz F 0%Ns) (fz F 240%Ns)) (Fp2 (fz F 1012%Ns) (fz F 1012%Ns)) (Fp2 (fz F z0N) (fz F z1N))
  (Fp2 (m384 F lZi0) (m384 F lZi1)) (Fp2 (fz F m0N) (fz F m1N)).
Lemma lits : g2_sswu F = litsV.
Proof.
rewrite /g2_sswu (mv hA0) (mv hA1) (mv hB0) ?(mv hB1) (mv hZ0) (mv hZ1) (mv hM0) (mv hM1); exact (erefl _).
Qed.
Lemma am_gen (a b m0 m1 : N) : ((a * m0 + b) mod p_bls =? 0 mod p_bls)%Ns -> ((a * m1) mod p_bls =? b mod p_bls)%Ns ->
  add2 (mul2 (Fp2 (fz F 0%Ns) (fz F a)) (Fp2 (fz F m0) (fz F m1))) (Fp2 (fz F b) (fz F b)) = zero2 F.
Proof.
move=> h0 h1; rewrite mul2E /add2 /zero2 [A2 _]/= [B2 _]/=; have -> : fz F 0%Ns = 0 by [].
rewrite /= !mul0r sub0r add0r; congr Fp2; last first.
  by rewrite -fzM -fzD; exact (fz_chk h0).
by rewrite -fzM (fz_chk h1) addNr.
Qed.
Lemma two_mods (n : nat) : N.of_nat n = p_bls -> Z.of_nat n = modulusZ.
Proof.
have e : Z.of_N p_bls = modulusZ by vm_compute.
by move=> h; rewrite -nat_N_Z h; exact e.
Qed.
Hypothesis pF : prime #|F|.
Lemma hsq (a : fp2 F) : ((sqrtNew a).2 = true <-> exists b, mul2 b b = a) /\
  ((sqrtNew a).2 = true -> mul2 (sqrtNew a).1 (sqrtNew a).1 = a) /\ ((sqrtNew a).2 = false -> (sqrtNew a).1 = zero2 F).
Proof.
have hp := char_gen hF pF.
exact (C76_sqrt (two_mods hF) hp (@expf_card F) (zero2 F) a).
Qed.
End Consts.

(** Every input but zero is mapped onto the published curve, and the second coordinate has the sign of the
    input. *)
Theorem C86_map (F : finFieldType) (sgn : F -> bool) (u : fp2 F) :
  N.of_nat #|F| = p_bls -> prime #|F| -> (forall y, y <> 0 -> sgn (- y) = ~~ sgn y) -> u <> zero2 F ->
  let: (x, y) := sswu sgn (g2_sswu F) u in
  on_g2' x y /\ (y <> zero2 F -> rfc_sgn0 sgn y = rfc_sgn0 sgn u).
Proof.
move=> hF pF hs u0; case E: (sswu sgn (g2_sswu F) u) => [x y]; rewrite (lits hF) in E.
have [h1 h2] := map_okE (card_c1 hF) (noi hF) (hsq hF pF) (am_gen hF am0 am1 : add2 (mul2 (gA (litsV F)) (gMbDivA (litsV F))) (gB (litsV F)) = zero2 F)
  (one_nz hF k5nz) (nrm_chk hF zn : nrm (gZ (litsV F)) = _) hs u0 E.
split; last by rewrite -!sgn2E; exact h2.
rewrite /on_g2' h1 dist2 [mul2 (mul2 x x) x]r22; exact (erefl _).
Qed.
Print Assumptions C86_map.

(** Finding: zero is mapped to (0, 0), which is not on the curve. *)
Theorem C86_zero_refuted (F : finFieldType) (sgn : F -> bool) :
  N.of_nat #|F| = p_bls -> prime #|F| ->
  sswu sgn (g2_sswu F) (zero2 F) = (zero2 F, zero2 F) /\ ~ on_g2' (zero2 F) (zero2 F).
Proof.
move=> hF pF; split.
  rewrite (lits hF); exact (map_zero (noi hF) (hsq hF pF)
  (p := litsV F) (am_gen hF am0 am1) sgn (one_nz hF kmnz) (nrm_chk hF mn)).
rewrite /on_g2' !r25 !r26 !r27 => h; apply: (one_nz hF bnz); exact (Logic.eq_sym (f_equal (@A2 F) h)).
Qed.
Print Assumptions C86_zero_refuted.

(** the hypotheses hold of the integers modulo the prime, with the parity as the sign *)
Example C86_field : prime (N.to_nat p_bls) -> odd (N.to_nat p_bls) ->
  let F := [finFieldType of 'F_(N.to_nat p_bls)] in
  [/\ N.of_nat #|F| = p_bls, prime #|F|, (forall y : 'F_(N.to_nat p_bls), y <> 0 -> odd (- y : 'F_(N.to_nat p_bls)) = ~~ odd y) &
      one2 F <> zero2 F].
Proof.
move: p_bls => p hp ho F; case: (C84_field hp ho) => h1 h2; split; [exact h1| |exact h2|].
  by rewrite /F card_Fp.
by move=> h; have /eqP := f_equal (@A2 F) h; rewrite oner_eq0.
Qed.
