(** The BLS12-381 base field and its quadratic extension meet the hypotheses of the codec proofs. *)
From Coq Require Import ZArith.
From mathcomp Require Import all_ssreflect all_algebra all_field zify.
From Coq Require Import Ring_theory Field.
From Verif Require Import Lib.FieldTac Lib.Res Lib.Bytes Tower.TowerModel Tower.TowerProofs Tower.FrobProofs Tower.SqrtProofs
  Tower.Literals Tower.PropsTower Tower.CodecModel Tower.CodecProofs.
Set Implicit Arguments.
Unset Strict Implicit.
Unset Printing Implicit Defensive.
Import GRing.Theory.
Local Open Scope ring_scope.
Delimit Scope Z_scope with Zs.

Lemma of_nat_exp (n : nat) : Z.of_nat (256 ^ n)%N = (256 ^ Z.of_nat n)%Zs.
Proof.
elim: n => [//|n IH]; rewrite expnS Nat2Z.inj_mul IH (Nat2Z.inj_succ n) Z.pow_succ_r //.
exact: Nat2Z.is_nonneg.
Qed.

Lemma halfZ : (2 * limbsZ half_limbs = modulusZ + 1)%Zs. Proof. by vm_compute. Qed.
Lemma sqrtZ : (4 * bitsZ (limbBits sqrt_limbs) = modulusZ + 1)%Zs. Proof. by vm_compute. Qed.

Section Alg.
Variable K : fieldType.
Add Field K_field : (f_fth K).
Lemma alg1 (a c d e : K) : (a * a + c * c) * d = a * (a * d - c * e) + c * (a * e + c * d).
Proof. by f_fold K; ring. Qed.
Lemma alg2 (a c d e : K) : (a * a + c * c) * e = a * (a * e + c * d) - c * (a * d - c * e).
Proof. by f_fold K; ring. Qed.
End Alg.

Section Inst.
Variables p half : nat.
Hypothesis hZ : Z.of_nat p = modulusZ.
Hypothesis pp : prime p.
Hypothesis hhalf : Z.of_nat half = limbsZ half_limbs.
Local Notation F := [fieldType of 'F_p].

Lemma half2 : (2 * half = p + 1)%N.
Proof.
have := halfZ; rewrite -hhalf -hZ => h.
by apply: Nat2Z.inj; rewrite -multE -plusE Nat2Z.inj_mul Nat2Z.inj_add.
Qed.

Lemma sqrt4 : (4 * bitsVal (limbBits sqrt_limbs) = p + 1)%N.
Proof.
have := sqrtZ; rewrite -bitsZE -hZ; move: (bitsVal _) => n h.
by apply: Nat2Z.inj; rewrite -multE -plusE Nat2Z.inj_mul Nat2Z.inj_add.
Qed.

Lemma p_bound : (p <= 32 * 256 ^ 47)%N.
Proof.
suff H : forall m : nat, Z.of_nat m = (256 ^ 47)%Zs -> (p <= 32 * m)%N.
  have e47 : Z.of_nat 47 = 47%Zs by [].
  by have := of_nat_exp 47; rewrite e47; apply: H.
move=> m e; set k := 32%N; have ek : Z.of_nat k = 32%Zs by [].
clearbody k; apply/leP; apply: (Nat2Z.inj_le _ _).2.
by rewrite Nat2Z.inj_mul e hZ ek; vm_compute.
Qed.

Lemma p48 : (p < 256 ^ 48)%N.
Proof.
apply: (leq_ltn_trans p_bound); rewrite (expnS 256 47) ltn_pmul2r // expn_gt0.
Qed.

Lemma val_lt (a : 'F_p) : (val a < p)%N.
Proof. by apply: leq_trans (ltn_ord a) _; rewrite Fp_cast. Qed.

Lemma val_nat n : (n < p)%N -> val (n%:R : 'F_p) = n.
Proof. by move=> h; rewrite /= val_Fp_nat // modn_small. Qed.

Lemma enc1S (x : F) : size (enc1 x) = 48%N.
Proof. by rewrite /enc1 size_rev size_le_bytes. Qed.
Lemma enc1B (x : F) : is_bytes (enc1 x).
Proof. rewrite /is_bytes /enc1 all_rev; exact: (is_bytes_le 48 (val x)). Qed.
Lemma enc1V (x : F) : be_val (enc1 x) = val x.
Proof. by rewrite -[be_val _]/(le_val _) le_bytesK // (ltn_trans (val_lt x)) // p48. Qed.
Lemma enc1H (x : F) : (head 0%N (enc1 x) < 32)%N.
Proof.
have := enc1V x; have := enc1S x; case: (enc1 x) => // h r [sr] /=.
rewrite be_val_cons sr => e.
have hlt : (h * 256 ^ 47 < 32 * 256 ^ 47)%N.
  apply: leq_trans p_bound; apply: leq_ltn_trans (val_lt x).
  by rewrite -[val x]/(nat_of_ord x) -e; apply: leq_addr.
by move: hlt; rewrite ltn_pmul2r // expn_gt0.
Qed.

Lemma be_val_inj s t : size s = size t -> is_bytes s -> is_bytes t -> be_val s = be_val t -> s = t.
Proof.
move=> sz hs ht e; apply: (can_inj revK).
have hs' : is_bytes (rev s) by rewrite /is_bytes all_rev.
have ht' : is_bytes (rev t) by rewrite /is_bytes all_rev.
by rewrite -(le_valK hs') -(le_valK ht') !size_rev sz /le_val !revK e.
Qed.

Lemma dec1P s (x : F) : size s = 48%N -> is_bytes s -> dec1 p s = Some x <-> s = enc1 x.
Proof.
move=> sS sB; rewrite /dec1 /fp_set_bytes /le_val revK; split.
  case: ifP => // h [<-]; apply: be_val_inj; rewrite ?enc1S ?enc1B //.
  by rewrite enc1V val_nat.
by move=> ->; rewrite enc1V val_lt natr_Zp.
Qed.

Lemma enc2S (x : fp2 F) : size (enc2 x) = 96%N.
Proof. by rewrite /enc2 size_cat !enc1S. Qed.
Lemma enc2B (x : fp2 F) : is_bytes (enc2 x).
Proof. by rewrite /enc2 bytes_cat !enc1B. Qed.
Lemma enc2H (x : fp2 F) : (head 0%N (enc2 x) < 32)%N.
Proof.
rewrite /enc2; have := enc1H (B2 x); have := enc1S (B2 x); by case: (enc1 (B2 x)).
Qed.
Lemma dec2P s (x : fp2 F) : size s = 96%N -> is_bytes s -> dec2 p s = Some x <-> s = enc2 x.
Proof.
move=> sS sB.
have s1 : size (take 48 s) = 48%N by rewrite size_takel // sS.
have s2 : size (drop 48 s) = 48%N by rewrite size_drop sS.
have [b1 b2] : is_bytes (take 48 s) /\ is_bytes (drop 48 s).
  by move: sB; rewrite -{1}(cat_take_drop 48 s) bytes_cat => /andP[].
rewrite /dec2; split.
  case d1 : (dec1 _ (take _ _)) => [u|] //; case d2 : (dec1 _ (drop _ _)) => [v|] // [<-].
  rewrite /enc2; cbn [A2 B2].
  by rewrite -((dec1P _ s1 b1).1 d1) -((dec1P _ s2 b2).1 d2) cat_take_drop.
move=> e; have t1 : take 48 s = enc1 (B2 x) by rewrite e /enc2 take_size_cat ?enc1S.
have t2 : drop 48 s = enc1 (A2 x) by rewrite e /enc2 drop_size_cat ?enc1S.
by rewrite ((dec1P _ s1 b1).2 t1) ((dec1P _ s2 b2).2 t2); case: (x).
Qed.

(** signs *)
Lemma valN (a : F) : a != 0 -> val (- a) = (p - val a)%N.
Proof.
move=> a0; have va : (0 < val a)%N.
  by rewrite lt0n; apply: contraNneq a0 => e; apply/eqP; apply: val_inj.
have h := val_lt a.
have -> : - a = (p - val a)%:R.
  apply/eqP; rewrite eq_sym -addr_eq0 -{2}(natr_Zp a) -natrD subnK ?(ltnW h) //.
  by have := char_Fp pp; rewrite inE => /andP[].
rewrite val_nat //; move: (val a) va h => n va h; lia.
Qed.
Lemma lex1E (a : F) : lex1 half a = (val (- a) < val a)%N.
Proof.
rewrite /lex1; have h2 := half2; have [->|a0] := eqVneq a 0.
  by rewrite oppr0 ltnn; apply/negbTE; rewrite -ltnNge /=; lia.
rewrite valN //; have h := val_lt a; apply/idP/idP; lia.
Qed.
Lemma lex10 : lex1 half (0 : F) = false.
Proof. by rewrite lex1E oppr0 ltnn. Qed.
Lemma lex1N (a : F) : a <> 0 -> lex1 half (- a) = ~~ lex1 half a.
Proof.
move=> /eqP a0; rewrite !lex1E opprK -leqNgt [in RHS]leq_eqVlt.
case: eqP => // e; exfalso.
have {}e : val a = (p - val a)%N by rewrite -valN // e.
have o : odd p.
  have := half2; rewrite addn1 => e2; have : ~~ odd p.+1 by rewrite -e2 mul2n odd_double.
  by rewrite /= negbK.
have := val_lt a; move: (val a) e => n e h.
have ep : p = (2 * n)%N by lia.
by move: o; rewrite ep mul2n odd_double.
Qed.
Lemma lex20 : lex2 half (zero2 F) = false.
Proof. by rewrite /lex2; cbn [A2 B2 zero2]; rewrite lex10 andbF. Qed.
Lemma lex2N (x : fp2 F) : x <> zero2 F -> lex2 half (neg2 x) = ~~ lex2 half x.
Proof.
case: x => a c hx; rewrite /lex2 /neg2; cbn [A2 B2]; rewrite oppr_eq0.
have [c0|/eqP c0] := eqVneq c 0.
  have a0 : a <> 0 by move=> a0; apply: hx; rewrite a0 c0.
  by rewrite c0 oppr0 lex10 !orFb ?eqxx !andTb lex1N.
by rewrite !andFb !orbF lex1N.
Qed.

(** square roots *)
Lemma fermat (a : F) : a ^+ p = a.
Proof. by have := expf_card a; rewrite card_Fp. Qed.
Lemma pow1E (a : F) bs : pow1 a bs = a ^+ bitsVal bs.
Proof.
rewrite /pow1 /bitsVal -[in LHS](expr0 a).
elim: bs 0%N => [//|b bs IH] n /=; rewrite -IH; congr foldl; rewrite -addnn.
by case: b; rewrite ?addn0 ?addn1 ?exprSr exprD.
Qed.
Lemma sqrt1K (a : F) : (sqrt1 a).2 = true -> (sqrt1 a).1 * (sqrt1 a).1 = a.
Proof. by rewrite /sqrt1; move: (pow1 _ _) => z /=; case: eqP. Qed.
Lemma sqrt1P (a : F) : (sqrt1 a).2 = true <-> exists r, r * r = a.
Proof.
split=> [h|[r <-]]; first by exists (sqrt1 a).1; apply: sqrt1K.
rewrite /sqrt1 pow1E; cbv zeta; cbn [snd]; apply/eqP.
move: sqrt4; move: (bitsVal _) => n sqrt4.
rewrite -!expr2 -!exprM (_ : (2 * (n * 2) = p + 1)%N); last by lia.
by rewrite addn1 exprS fermat expr2.
Qed.
Lemma root1 (x y : F) : x * x = y * y -> x = y \/ x = - y.
Proof. by rewrite -!expr2 => /eqP; rewrite eqf_sqr => /orP[/eqP ->|/eqP ->]; [left|right]. Qed.

Lemma p34 : exists k, p = (4 * k + 3)%N.
Proof. exact (ex_intro _ _ (exp1N hZ)). Qed.

Lemma nosq (a : F) : a * a <> -1.
Proof.
move=> h; have [k e] := p34.
have a0 : a != 0 by apply/eqP => z; move: h; rewrite z mul0r => /eqP; rewrite eq_sym oppr_eq0 oner_eq0.
have h1 : a ^+ (4 * k + 2) = 1.
  by apply: (mulfI a0); rewrite -exprS mulr1 -addnS -[X in _ ^+ X]e fermat.
have : a ^+ (4 * k + 2) = -1.
  rewrite (_ : (4 * k + 2 = 2 * (2 * k).+1)%N); last by lia.
  by rewrite exprM expr2 h exprS exprM expr2 mulrNN mulr1 expr1n mulr1.
rewrite h1 => /eqP; rewrite -subr_eq0 opprK -(natrD _ 1 1) => /eqP z2.
have := val_nat (n := 2); rewrite z2 => z3.
have p2 : (2 < p)%N by rewrite e; move: (prime_gt1 pp); rewrite e; lia.
by have := z3 p2.
Qed.

Lemma norm_eq0 (a c : F) : a * a + c * c = 0 -> a = 0 /\ c = 0.
Proof.
move=> h; have [c0|c0] := eqVneq c 0.
  by move: h; rewrite c0 mulr0 addr0 => /eqP; rewrite mulf_eq0 orbb => /eqP.
exfalso; apply: (@nosq (a / c)).
have -> : a / c * (a / c) = (a * a) / (c * c) by rewrite invfM mulrACA.
have -> : a * a = - (c * c) by apply/eqP; rewrite -addr_eq0 h.
by rewrite mulNr divff // mulf_neq0.
Qed.

Lemma dom2 (u v : fp2 F) : mul2 u v = zero2 F -> u = zero2 F \/ v = zero2 F.
Proof.
case: u => a c; case: v => d e h.
have [h1 h2] : a * d - c * e = 0 /\ a * e + c * d = 0.
  move: h; rewrite mul2E /zero2; cbn [A2 B2] => h.
  by split; [apply: (f_equal (@A2 F) h) | apply: (f_equal (@B2 F) h)].
have N1 : (a * a + c * c) * d = 0 by rewrite (alg1 a c d e) h1 h2 !mulr0 addr0.
have N2 : (a * a + c * c) * e = 0 by rewrite (alg2 a c d e) h1 h2 !mulr0 subr0.
have [n0|n0] := eqVneq (a * a + c * c) 0.
  by left; have [-> ->] := norm_eq0 n0.
right; move/eqP: N1; rewrite mulf_eq0 (negbTE n0) => /eqP ->.
by move/eqP: N2; rewrite mulf_eq0 (negbTE n0) => /eqP ->.
Qed.

Lemma root2 (x y : fp2 F) : mul2 x x = mul2 y y -> x = y \/ x = neg2 y.
Proof.
move=> h.
have Z : mul2 (x - y : fp2 F) (x + y : fp2 F) = zero2 F.
  rewrite -[mul2 _ _]/((x - y : fp2 F) * (x + y : fp2 F)) -subr_sqr !expr2.
  by rewrite -[x * x]/(mul2 x x) h subrr.
case: (dom2 Z) => e; [left | right].
- by apply/eqP; rewrite -subr_eq0 e.
- by apply/eqP; rewrite -[neg2 y]/(- y : fp2 F) -addr_eq0 e.
Qed.

Lemma sqrtE2P (a : fp2 F) : (sqrtE2 a).2 = true <-> exists r : fp2 F, r * r = a.
Proof. by case: (C76_sqrt hZ (char_Fp pp) fermat a a). Qed.
Lemma sqrtE2K (a : fp2 F) : (sqrtE2 a).2 = true -> (sqrtE2 a).1 * (sqrtE2 a).1 = a.
Proof. by case: (C76_sqrt hZ (char_Fp pp) fermat a a) => _ []. Qed.
End Inst.
