(** The literals of the tower: FrobeniusMap's constants, Sqrt's exponents and the curve parameter,
    transcribed limb by limb and checked against the modulus. *)
From Coq Require Import ZArith Lia List.
From mathcomp Require Import all_ssreflect all_algebra.
From Coq Require Import Ring_theory Field InitialRing.
From Verif Require Import Lib.FieldTac Tower.TowerModel Tower.TowerProofs Tower.GtProofs Tower.FrobProofs.
Set Implicit Arguments.
Unset Strict Implicit.
Unset Printing Implicit Defensive.
Import GRing.Theory.
Delimit Scope Z_scope with Zs.

(** six little-endian 64-bit limbs *)
Definition limbsZ (l : seq Z) : Z := foldr (fun x acc => (x + 2 ^ 64 * acc)%Zs) 0%Zs l.

(** fp.go 23-30 (modulus) *)
Definition modulusZ : Z := limbsZ
  [:: 0xb9feffffffffaaab; 0x1eabfffeb153ffff; 0x6730d2a0f6b0f624; 0x64774b84f38512bf;
      0x4b1ba7b6434bacd7; 0x1a0111ea397fe69a]%Zs.
(** fp6.go 199-209: pm1Div3.B *)
Definition c1_limbs : seq Z :=
  [:: 0xcd03c9e48671f071; 0x5dab22461fcda5d2; 0x587042afd3851b95; 0x8eb60ebe01bacb9e;
      0x03f97d6e83d050d2; 0x18f0206554638741]%Zs.
(** fp6.go 210-220: p2m2Div3.A *)
Definition c2_limbs : seq Z :=
  [:: 0x890dc9e4867545c3; 0x2af322533285a5d5; 0x50880866309b7e2c; 0xa20d1b8c7e881024;
      0x14e4f04fe2db9068; 0x14e56d3f1564853a]%Zs.
(** fp12.go 180-197: up1epm1div6.A *)
Definition gA_limbs : seq Z :=
  [:: 0x07089552b319d465; 0xc6695f92b50a8313; 0x97e83cccd117228f; 0xa35baecab2dc29ee;
      0x1ce393ea5daace4d; 0x08f2220fb0fb66eb]%Zs.
Definition gB_limbs : seq Z :=
  [:: 0xb2f66aad4ce5d646; 0x5842a06bfc497cec; 0xcf4895d42599d394; 0xc11b9cba40a8e8d0;
      0x2e3813cbe5a0de89; 0x110eefda88847faf]%Zs.
(** fp2.go 225-232: the exponent of a1 *)
Definition e1_limbs : seq Z :=
  [:: 0xee7fbfffffffeaaa; 0x07aaffffac54ffff; 0xd9cc34a83dac3d89; 0xd91dd2e13ce144af;
      0x92c6e9ed90d2eb35; 0x0680447a8e5ff9a6]%Zs.
(** fp2.go 267-274: the exponent of 1 + alpha *)
Definition e2_limbs : seq Z :=
  [:: 0xdcff7fffffffd555; 0x0f55ffff58a9ffff; 0xb39869507b587b12; 0xb23ba5c279c2895f;
      0x258dd3db21a5d66b; 0x0d0088f51cbff34d]%Zs.
(** fp2.go 253-263: the Montgomery form of -1 *)
Definition m1_limbs : seq Z :=
  [:: 0x43f5fffffffcaaae; 0x32b7fff2ed47fffd; 0x07e83a49a2e99d69; 0xeca8f3318332bb7a;
      0xef148d1ea0f4c069; 0x040ab3263eff0206]%Zs.
(** bls12381.go 13 *)
Definition paramX : Z := 0xd201000000010000%Zs.

(** the bits of a 64-bit word, most significant first: [(w >> j) & 1] for j from 63 down to 0 *)
Definition wordBits (w : Z) : seq bool := [seq Z.odd (Z.shiftr w (Z.of_nat j)) | j <- rev (iota 0 64)].
(** fp2.go 336-337: limbs from the last to the first *)
Definition limbBits (l : seq Z) : seq bool := flatten [seq wordBits w | w <- rev l].
Definition xbits : seq bool := wordBits paramX.

Definition bitsZ (bs : seq bool) : Z := foldl (fun n (b : bool) => 2 * n + Z.b2z b)%Zs 0%Zs bs.
Lemma bitsZE bs : Z.of_nat (bitsVal bs) = bitsZ bs.
Proof.
have e k (b : bool) : Z.of_nat (k.*2 + b) = (2 * Z.of_nat k + Z.b2z b)%Zs.
  rewrite -addnn -!plusE !Nat2Z.inj_add.
  have -> : Z.of_nat b = Z.b2z b by case: b.
  lia.
rewrite /bitsVal /bitsZ -[in RHS](Nat2Z.inj_0) .
elim: bs 0%N => [//|b bs IH] n; rewrite [LHS]/= IH e; exact: erefl.
Qed.
Lemma e1Z : (4 * bitsZ (limbBits e1_limbs) + 3 = modulusZ)%Zs. Proof. by vm_compute. Qed.
Lemma e2Z : (2 * bitsZ (limbBits e2_limbs) + 1 = modulusZ)%Zs. Proof. by vm_compute. Qed.
Lemma xbitsZ : bitsZ xbits = paramX. Proof. by vm_compute. Qed.

Section Lit.
Variable F : fieldType.
Add Field F_field : (f_fth F).
Local Open Scope ring_scope.
Definition phi : Z -> F := gen_phiZ (f0 F) (f1 F) (@fadd F) (@fmul F) (@fopp F).
Lemma phi_morph : ring_morph (f0 F) (f1 F) (@fadd F) (@fmul F) (@fsub F) (@fopp F) (@eq F)
   0%Zs 1%Zs Z.add Z.mul Z.sub Z.opp Zeq_bool phi.
Proof.
apply: gen_phiZ_morph.
- split; [by move=> x|by move=> x y ->|by move=> x y z -> ->].
- by split; [move=> x y -> a b ->|move=> x y -> a b ->|move=> x y ->].
- exact: f_rth.
Qed.
Lemma phiD a b : phi (a + b)%Zs = phi a + phi b. Proof. exact: (morph_add phi_morph). Qed.
Lemma phiM a b : phi (a * b)%Zs = phi a * phi b. Proof. exact: (morph_mul phi_morph). Qed.
Lemma phiB a b : phi (a - b)%Zs = phi a - phi b. Proof. exact: (morph_sub phi_morph). Qed.
Lemma phiN a : phi (- a)%Zs = - phi a. Proof. exact: (morph_opp phi_morph). Qed.
Lemma phi0 : phi 0%Zs = 0. Proof. by []. Qed.
Lemma phi1 : phi 1%Zs = 1. Proof. by []. Qed.
Lemma phi_nat n : phi (Z.of_nat n) = n%:R.
Proof. by elim: n => [//|n IH]; rewrite Nat2Z.inj_succ -Z.add_1_l phiD IH phi1 mulrS. Qed.

(** the value a literal of six limbs stands for: limbs times R^-1, R = 2^384 (fp.go's Montgomery form) *)
Definition lit (l : seq Z) : F := phi (limbsZ l) / phi (2 ^ 384)%Zs.
(** FrobeniusMap's constants *)
Definition c1F : fp2 F := Fp2 0 (lit c1_limbs).
Definition c2F : fp2 F := Fp2 (lit c2_limbs) 0.
Definition gF : fp2 F := Fp2 (lit gA_limbs) (lit gB_limbs).

Hypothesis hchar : phi modulusZ = 0.
Lemma phi_mod a b : ((a - b) mod modulusZ = 0)%Zs -> phi a = phi b.
Proof.
move=> h; have e := Z_div_mod_eq_full (a - b) modulusZ; rewrite h Z.add_0_r in e.
have {e} -> : a = (modulusZ * ((a - b) / modulusZ) + b)%Zs by lia.
by rewrite phiD phiM hchar mul0r add0r.
Qed.
Lemma two_neq0 : phi 2%Zs != 0.
Proof.
apply/eqP => h; have : phi (modulusZ - 2 * (modulusZ / 2))%Zs = 0 by rewrite phiB phiM h hchar mul0r subr0.
have -> : (modulusZ - 2 * (modulusZ / 2) = 1)%Zs by vm_compute.
by rewrite phi1 => /eqP; rewrite oner_eq0.
Qed.
Lemma phiX n : phi (2 ^ Z.of_nat n)%Zs = phi 2%Zs ^+ n.
Proof.
elim: n => [//|n IH]; rewrite Nat2Z.inj_succ Z.pow_succ_r; last exact: Nat2Z.is_nonneg.
by rewrite phiM IH exprS.
Qed.
Lemma R_neq0 : phi (2 ^ 384)%Zs != 0.
Proof. by rewrite (phiX 384) expf_neq0 // two_neq0. Qed.

Lemma divE (a b r : F) : r != 0 -> a = b * r -> a / (r * r) = b / r.
Proof. by move=> hr ->; rewrite -mulf_div divff // mulr1. Qed.

Lemma consts_ok : frob_consts c1F c2F gF.
Proof.
have hR := R_neq0.
have hm a b : phi a / phi (2 ^ 384)%Zs * (phi b / phi (2 ^ 384)%Zs) = phi (a * b)%Zs / (phi (2 ^ 384)%Zs * phi (2 ^ 384)%Zs).
  by rewrite mulf_div phiM.
have red a b : ((a - b * 2 ^ 384) mod modulusZ = 0)%Zs -> phi a / (phi (2 ^ 384)%Zs * phi (2 ^ 384)%Zs) = phi b / phi (2 ^ 384)%Zs.
  by move=> h; apply: divE => //; rewrite -phiM; apply: phi_mod.
have g2 : mul2 gF gF = c1F.
  rewrite mul2E /gF /c1F /lit; cbn [A2 B2]; rewrite !hm -mulrBl -mulrDl -phiB -phiD; congr Fp2.
    have -> : 0 = phi 0%Zs / phi (2 ^ 384)%Zs by rewrite phi0 mul0r.
    by apply: red; vm_compute.
  by apply: red; vm_compute.
have c12 : mul2 c1F c1F = c2F.
  rewrite mul2E /c1F /c2F /lit; cbn [A2 B2]; rewrite !hm !mul0r !mulr0 addr0 sub0r -mulNr -phiN; congr Fp2.
  by apply: red; vm_compute.
split=> //.
  have e : lit c1_limbs * lit c2_limbs = -1.
    rewrite /lit hm.
    have -> : -1 = phi (- 2 ^ 384)%Zs / phi (2 ^ 384)%Zs by rewrite phiN mulNr divff.
    by apply: red; vm_compute.
  rewrite !mul2E /c1F /c2F /xi /conj2; cbn [A2 B2].
  rewrite !mul0r !mulr0 subrr add0r !mulr1 sub0r add0r.
  by rewrite e opprK.
rewrite !mul2E /gF /conj2 /sub2 /one2; cbn [A2 B2].
set a := lit gA_limbs; set b := lit gB_limbs.
have -> : a * - b + b * a = 0 by rewrite mulrN [b * a]mulrC addNr.
rewrite !mulr0 !mul0r !subr0 addr0 mulrN opprK; congr Fp2.
have e : a * a + b * b = phi (limbsZ gA_limbs * limbsZ gA_limbs + limbsZ gB_limbs * limbsZ gB_limbs)%Zs / (phi (2 ^ 384)%Zs * phi (2 ^ 384)%Zs).
  by rewrite /a /b /lit !hm -mulrDl -phiD.
pose zv := 0x110f184e51c5f5947222a47bf7b5c04d5c13cc6f1ca47210ec08ff1232bda8ec100ddb891865a2cecfb361b798dba3a%Zs.
have ez : a * a + b * b = phi zv / phi (2 ^ 384)%Zs by rewrite e; apply: red; vm_compute.
rewrite ez hm.
have -> : phi zv / phi (2 ^ 384)%Zs - 1 = phi (zv - 2 ^ 384)%Zs / phi (2 ^ 384)%Zs.
  by rewrite phiB mulrBl divff.
by apply: red; vm_compute.
Qed.
End Lit.
