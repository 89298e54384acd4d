(** C76: the BLS12-381 extension tower. *)
From Coq Require Import ZArith.
From mathcomp Require Import all_ssreflect all_algebra all_field.
From Coq Require Import Ring_theory Field.
From Verif Require Import Lib.FieldTac Tower.TowerModel Tower.TowerProofs Tower.GtProofs Tower.FrobProofs
  Tower.SqrtProofs Tower.Literals.
Set Implicit Arguments.
Unset Strict Implicit.
Unset Printing Implicit Defensive.
Import GRing.Theory.
Local Open Scope ring_scope.
Delimit Scope Z_scope with Zs.

(** Each level of the tower is a commutative ring under the code's Add, Mul, Sub, Neg; it is generated
    over the level below by one element satisfying the defining relation; every shortcut (Square, Double,
    MulByNonResidue, the sparse products) equals the plain product. *)
Theorem C76_fp2 (F : fieldType) :
  let u : fp2 F := Fp2 0 1 in let emb (a : F) : fp2 F := Fp2 a 0 in
  [/\ ring_theory (zero2 F) (one2 F) (@add2 F) (@mul2 F) (@sub2 F) (@neg2 F) eq,
      mul2 u u = neg2 (one2 F),
      forall a b, mul2 (emb a) (emb b) = emb (a * b) /\ add2 (emb a) (emb b) = emb (a + b),
      forall x : fp2 F, x = add2 (emb (A2 x)) (mul2 (emb (B2 x)) u) &
      forall x : fp2 F, [/\ square2 x = mul2 x x, double2 x = add2 x x,
        mulNR2 x = mul2 x (add2 (one2 F) u), (forall b, mul0_2 x b = mul2 x (emb b)) &
        conj2 x = sub2 (emb (A2 x)) (mul2 (emb (B2 x)) u)]].
Proof.
move=> u emb; split.
- exact: rth2.
- by rewrite mul2E /= !mul0r mulr0 mul1r sub0r addr0 /neg2 /= oppr0.
- by move=> a b; rewrite mul2E /add2 /= !mulr0 !mul0r subr0 !addr0.
- by move=> [a b]; rewrite mul2E /add2 /= !mulr0 !mul0r mulr1 subr0 !addr0 add0r.
- move=> x; split.
  + exact: square2E.
  + exact: double2E.
  + by rewrite mulNR2E /xi /add2 /= addr0 add0r.
  + by case: x => a b c; rewrite mul2E /mul0_2 /= !mulr0 subr0 add0r.
  + by case: x => a b; rewrite /conj2 mul2E /sub2 /= !mulr0 mul0r mulr1 subrr subr0 addr0 sub0r.
Qed.
Print Assumptions C76_fp2.

Theorem C76_fp6 (F : fieldType) :
  let v : fp6 F := Fp6 (zero2 F) (one2 F) (zero2 F) in
  let emb (a : fp2 F) : fp6 F := Fp6 a (zero2 F) (zero2 F) in
  [/\ ring_theory (zero6 F) (one6 F) (@add6 F) (@mul6 F) (@sub6 F) (@neg6 F) eq,
      mul6 v (mul6 v v) = emb (Fp2 1 1),
      forall a b, mul6 (emb a) (emb b) = emb (mul2 a b) /\ add6 (emb a) (emb b) = emb (add2 a b),
      forall x : fp6 F, x = add6 (emb (A6 x)) (add6 (mul6 (emb (B6 x)) v) (mul6 (emb (C6 x)) (mul6 v v))) &
      forall x : fp6 F, [/\ square6 x = mul6 x x, double6 x = add6 x x, mulNR6 x = mul6 x v,
        (forall b, mulByB x b = mul6 x (mul6 (emb b) v)) &
        (forall a b, mulByAB x a b = mul6 x (add6 (emb a) (mul6 (emb b) v)))]].
Proof.
have h0 (t : fp2 F) : mul2 (zero2 F) t = zero2 F by apply/equal2P; rewrite mul2E /equal2 /= !mul0r subr0 addr0 !eqxx.
have h0' (t : fp2 F) : mul2 t (zero2 F) = zero2 F by apply/equal2P; rewrite mul2E /equal2 /= !mulr0 subr0 addr0 !eqxx.
have h1 (t : fp2 F) : mul2 t (one2 F) = t by case: t => a b; rewrite mul2E /= !mulr0 !mulr1 subr0 add0r.
have h1' (t : fp2 F) : mul2 (one2 F) t = t by case: t => a b; rewrite mul2E /= !mul0r !mul1r subr0 addr0.
have z0 (t : fp2 F) : add2 (zero2 F) t = t by case: t => a b; rewrite /add2 /= !add0r.
have z0' (t : fp2 F) : add2 t (zero2 F) = t by case: t => a b; rewrite /add2 /= !addr0.
move=> v emb; split.
- exact: rth6.
- by rewrite /v /emb !mul6E; cbn [A6 B6 C6]; rewrite !(h0, h0', h1, h1', z0, z0').
- by move=> a b; rewrite /emb mul6E /add6; cbn [A6 B6 C6]; rewrite !(h0, h0', z0, z0').
- by move=> [a b c]; rewrite /v /emb !mul6E /add6; cbn [A6 B6 C6]; rewrite !(h0, h0', h1, h1', z0, z0').
- move=> x; split=> //.
  + exact: square6E.
  + exact: mulNR6E.
  + move=> b; rewrite mulByBE; congr mul6.
    by rewrite /v /emb !mul6E; cbn [A6 B6 C6]; rewrite !(h0, h0', h1, h1', z0, z0').
  + move=> a b; rewrite mulByABE; congr mul6.
    by rewrite /v /emb !mul6E /add6; cbn [A6 B6 C6]; rewrite !(h0, h0', h1, h1', z0, z0').
Qed.
Print Assumptions C76_fp6.

Theorem C76_fp12 (F : fieldType) :
  let w : fp12 F := Fp12 (zero6 F) (one6 F) in
  let emb (a : fp6 F) : fp12 F := Fp12 a (zero6 F) in
  [/\ ring_theory (zero12 F) (one12 F) (@add12 F) (@mul12 F) (@sub12 F) (@neg12 F) eq,
      mul12 w w = emb (Fp6 (zero2 F) (one2 F) (zero2 F)),
      forall a b, mul12 (emb a) (emb b) = emb (mul6 a b) /\ add12 (emb a) (emb b) = emb (add6 a b),
      forall x : fp12 F, x = add12 (emb (A12 x)) (mul12 (emb (B12 x)) w) &
      forall x : fp12 F, [/\ square12 x = mul12 x x,
        (forall a b d, mulByABD x a b d =
           mul12 x (add12 (emb (Fp6 a b (zero2 F))) (mul12 (emb (Fp6 (zero2 F) d (zero2 F))) w))) &
        conj12 x = sub12 (emb (A12 x)) (mul12 (emb (B12 x)) w)]].
Proof.
have R := rth6 F.
have z0 (t : fp6 F) : add6 (zero6 F) t = t by exact: (Radd_0_l R).
have z0' (t : fp6 F) : add6 t (zero6 F) = t by rewrite (Radd_comm R) z0.
have h1' (t : fp6 F) : mul6 (one6 F) t = t by exact: (Rmul_1_l R).
have h1 (t : fp6 F) : mul6 t (one6 F) = t by rewrite (Rmul_comm R) h1'.
have h0 (t : fp6 F) : mul6 (zero6 F) t = zero6 F.
  rewrite -[LHS]z0' -{2}(Ropp_def R (mul6 (zero6 F) t)) (Radd_assoc R) -(Rdistr_l R) z0.
  exact: (Ropp_def R).
have h0' (t : fp6 F) : mul6 t (zero6 F) = zero6 F by rewrite (Rmul_comm R) h0.
have hs (t : fp6 F) : sub6 t (zero6 F) = t.
  rewrite (Rsub_def R) -{2}[t]z0' -{2}(Ropp_def R (zero6 F)) z0 //.
have hn (t : fp6 F) : sub6 (zero6 F) t = neg6 t by rewrite (Rsub_def R) z0.
move=> w emb; split.
- exact: rth12.
- rewrite /w /emb mul12E; cbn [A12 B12]; rewrite !(h0, h0', h1, h1', z0, z0'); by [].
- by move=> a b; rewrite /emb mul12E /add12; cbn [A12 B12]; rewrite !(h0, h0', z0, z0').
- by move=> [a b]; rewrite /w /emb mul12E /add12; cbn [A12 B12]; rewrite !(h0, h0', h1, h1', z0, z0').
- move=> x; split.
  + exact: square12E.
  + move=> a b d; rewrite mulByABDE; congr mul12.
    by rewrite /w /emb mul12E /add12; cbn [A12 B12]; rewrite !(h0, h0', h1, h1', z0, z0').
  + by case: x => a b; rewrite /w /emb mul12E /sub12 /conj12; cbn [A12 B12]; rewrite !(h0, h0', h1, h1', z0, z0', hs, hn).
Qed.
Print Assumptions C76_fp12.

(** Invert returns an inverse with flag 1 for every nonzero element, and leaves the receiver [f]
    untouched with flag 0 at zero; for the three levels the needed facts about the base field are: -1 is
    no square, 1+u is no cube in fp2, 2 is no square. *)
Theorem C76_invert (F : fieldType) :
  (forall a : F, a * a <> -1) ->
  [/\ forall f x : fp2 F, x <> zero2 F -> exists y, invert2 f x = (y, true) /\ mul2 x y = one2 F,
      forall f : fp2 F, invert2 f (zero2 F) = (f, false) &
  (forall x : fp2 F, mul2 x (mul2 x x) <> Fp2 1 1) ->
  [/\ forall f x : fp6 F, x <> zero6 F -> exists y, invert6 f x = (y, true) /\ mul6 x y = one6 F,
      forall f : fp6 F, invert6 f (zero6 F) = (f, false) &
  (forall a : F, a * a <> 1 + 1) ->
  (forall f x : fp12 F, x <> zero12 F -> exists y, invert12 f x = (y, true) /\ mul12 x y = one12 F) /\
  (forall f : fp12 F, invert12 f (zero12 F) = (f, false))]].
Proof.
move=> hI; split.
- by move=> f x hx; apply: invert2_ok.
- exact: invert2_zero.
move=> hc.
have n60 : norm6 (zero6 F) = zero2 F by rewrite /norm6 /xi !mul2E /add2 /sub2 /zero2 /= !(mul0r, mulr0, subr0, addr0).
split.
- move=> f x hx; apply: invert6_ok => // h; exact: hx (norm6_eq0 hI hc h).
- by move=> f; apply: invert6_zero.
move=> h2; split.
- move=> f x hx; apply: invert12_ok => // h; exact: hx (norm12_eq0 hI hc h2 h).
- move=> f; apply: invert12_zero; rewrite -n60; congr norm6.
  rewrite /norm12 !mul6E /vv; apply/equal6P.
  by rewrite /equal6 /equal2 /sub6 /= !(mul0r, mulr0, subr0, addr0, add0r, eqxx, oppr0, mulr1).
Qed.
Print Assumptions C76_invert.

(** Finding: IsOne of fp6 (and so of fp12 and Gt) never looks at the v^2 coefficient. *)
Theorem C76_isone_refuted (F : fieldType) :
  (forall x : fp12 F, isOne12 x = true <->
     exists c : fp2 F, x = Fp12 (Fp6 (one2 F) (zero2 F) c) (zero6 F)) /\
  (exists x : fp12 F, isOne12 x = true /\ x <> one12 F /\ equal12 x (one12 F) = false).
Proof.
split.
  move=> x; split.
    case: x => [[a b c] d] /andP [/andP [/andP [/isOne2P /= -> /isZero2P /= ->] _] /isZero6P /= ->].
    by exists c.
  by move=> [c ->]; rewrite /isOne12 /isOne6 /isOne2 /isZero6 /isZero2 /= !eqxx.
exists (Fp12 (Fp6 (one2 F) (zero2 F) (one2 F)) (zero6 F)).
have hne : Fp12 (Fp6 (one2 F) (zero2 F) (one2 F)) (zero6 F) <> one12 F.
  by move=> /(congr1 (fun x => A2 (C6 (A12 x)))) /= /eqP; rewrite oner_eq0.
split; first by rewrite /isOne12 /isOne6 /isOne2 /isZero6 /isZero2 /= !eqxx.
by split=> //; apply/negP => /equal12P.
Qed.
Print Assumptions C76_isone_refuted.

(** Equal and IsZero are exact. *)
Theorem C76_equal (F : fieldType) (x y : fp12 F) :
  (equal12 x y = true <-> x = y) /\ (isZero12 x = true <-> x = zero12 F).
Proof.
split; first by split=> [/equal12P|->] //; apply/equal12P.
by split=> [/isZero12P|->] //; apply/isZero12P.
Qed.
Print Assumptions C76_equal.

(** Finding: CNeg with choice 0 leaves the receiver as it was instead of copying its argument. *)
Theorem C76_cneg_refuted (F : fieldType) (f a : fp2 F) :
  cneg2 f a true = neg2 a /\ cneg2 f a false = f /\
  (exists f a : fp2 F, cneg2 f a false <> a).
Proof.
split=> //; split=> //; exists (zero2 F), (one2 F) => /(congr1 (@A2 F)) /= /eqP.
by rewrite eq_sym oner_eq0.
Qed.
Print Assumptions C76_cneg_refuted.

(** The square root: over the prime field of the modulus (or any field of that characteristic in which
    a^p = a) the code's literal exponents find a root of exactly the squares; otherwise the flag is 0 and
    the receiver is unchanged. *)
Lemma linN (m b c d : nat) : Z.of_nat m = (Z.of_nat c * Z.of_nat b + Z.of_nat d)%Zs -> m = (c * b + d)%N.
Proof. by move=> h; apply: Nat2Z.inj; rewrite h -plusE -multE Nat2Z.inj_add Nat2Z.inj_mul. Qed.
Lemma exp1N (p : nat) : Z.of_nat p = modulusZ -> p = (4 * bitsVal (limbBits e1_limbs) + 3)%N.
Proof.
move=> hp; exact (linN (c := 4) (d := 3) (eq_trans hp (Logic.eq_sym
  (eq_trans (f_equal (fun z => (4 * z + 3)%Zs) (bitsZE (limbBits e1_limbs))) e1Z)))).
Qed.
Lemma exp2N : bitsVal (limbBits e2_limbs) = (2 * bitsVal (limbBits e1_limbs) + 1)%N.
Proof.
have e : (bitsZ (limbBits e2_limbs) = 2 * bitsZ (limbBits e1_limbs) + 1)%Zs by vm_compute.
exact (linN (c := 2) (d := 1) (eq_trans (bitsZE _) (eq_trans e (Logic.eq_sym
  (f_equal (fun z => (2 * z + 1)%Zs) (bitsZE (limbBits e1_limbs))))))).
Qed.
Theorem C76_sqrt (F : fieldType) (p : nat) :
  Z.of_nat p = modulusZ -> p \in [char F] -> (forall a : F, a ^+ p = a) ->
  forall f a : fp2 F,
  let r := sqrt2 (limbBits e1_limbs) (limbBits e2_limbs) f a in
  (r.2 = true <-> exists b, mul2 b b = a) /\ (r.2 = true -> mul2 r.1 r.1 = a) /\ (r.2 = false -> r.1 = f).
Proof.
move=> hZ hp hf f a r.
have hpp : p.-nat p by apply: pnat_id; apply: charf_prime hp.
have hs : r.2 = true -> mul2 r.1 r.1 = a.
  by move=> h; apply: (@sqrt2_sound F (limbBits e1_limbs) (limbBits e2_limbs) f); rewrite -/r -h; case: (r).
split; last by split=> // h; apply: sqrt2_flag.
split=> [h|[b hb]]; first by exists r.1; apply: hs.
case: (sqrt2_complete hp hpp hf (exp1N hZ) erefl exp2N f b) => s [hs1 _].
by rewrite /r -hb [mul2 b b]/(b * b) hs1.
Qed.
Print Assumptions C76_sqrt.

(** With the literals of the source, FrobeniusMap is a ring endomorphism of fp12 that conjugates fp2
    (hence fixes fp) and whose sixth power is the conjugation; on fp2 it is x -> x^p. *)
Theorem C76_frobenius (F : fieldType) (p : nat) :
  Z.of_nat p = modulusZ -> p%:R = 0 :> F ->
  let frob := frob12 (c1F F) (c2F F) (gF F) in
  [/\ forall x y, frob (mul12 x y) = mul12 (frob x) (frob y),
      forall x y, frob (add12 x y) = add12 (frob x) (frob y),
      frob (one12 F) = one12 F,
      forall a : fp2 F, frob (Fp12 (Fp6 a (zero2 F) (zero2 F)) (zero6 F)) =
                        Fp12 (Fp6 (conj2 a) (zero2 F) (zero2 F)) (zero6 F) &
      (forall x, frob (frob (frob (frob (frob (frob x))))) = conj12 x) /\
      ((p \in [char F]) -> (forall a : F, a ^+ p = a) ->
         forall x : fp2 F, conj2 x = iter p (mul2 x) (one2 F))].
Proof.
move=> hZ hm frob.
have hchar : phi F modulusZ = 0 by rewrite -hZ phi_nat.
have hc := consts_ok hchar.
split.
- exact: (frob12M hc).
- exact: frob12D.
- exact: frob121.
- move=> a; rewrite /frob /frob12 /frob6 /frob2; cbn [A6 B6 C6 A12 B12 zero6].
  have h0 (t : fp2 F) : mul2 (zero2 F) t = zero2 F by apply/equal2P; rewrite mul2E /equal2 /= !mul0r subr0 addr0 !eqxx.
  have z0 (t : fp2 F) : add2 t (zero2 F) = t by case: t => c d; rewrite /add2 /= !addr0.
  have h0' (t : fp2 F) : mul2 t (zero2 F) = zero2 F by apply/equal2P; rewrite mul2E /equal2 /= !mulr0 subr0 addr0 !eqxx.
  rewrite conj20 !h0; congr Fp12.
  by rewrite mul6E; cbn [A6 B6 C6]; rewrite !(h0, h0', z0).
split; first exact: (frob6E hc).
move=> hp hf x.
have hpp : p.-nat p by apply: pnat_id; apply: charf_prime hp.
rewrite -(pow_conj hp hpp hf (exp1N hZ) x).
by elim: (p) => [//|n IH]; rewrite exprS iterS -IH.
Qed.
Print Assumptions C76_frobenius.

(** The prime field of the modulus meets these hypotheses when the modulus is prime. *)
Example C76_hyps (p : nat) : Z.of_nat p = modulusZ -> prime p ->
  [/\ p \in [char 'F_p], (forall a : 'F_p, a ^+ p = a) & p%:R = 0 :> 'F_p].
Proof.
move=> _ hp; have h := char_Fp hp; split=> //.
- move=> a; have := expf_card a; by rewrite card_Fp.
- by move: h; rewrite inE => /andP [_ /eqP].
Qed.
(** and F_19 meets those of C76_invert *)
Example C76_invert_hyps :
  [/\ (forall a : 'F_19, a * a <> -1), (forall x : fp2 [fieldType of 'F_19], mul2 x (mul2 x x) <> Fp2 1 1) &
      (forall a : 'F_19, a * a <> 1 + 1)].
Proof.
have all1 : all (fun n : nat => (n%:R * n%:R != -1 :> 'F_19) && (n%:R * n%:R != 1 + 1 :> 'F_19)) (iota 0 19) by vm_compute.
have all2 : all (fun n : nat => all (fun m : nat =>
   let x : fp2 [fieldType of 'F_19] := Fp2 n%:R m%:R in ~~ equal2 (mul2 x (mul2 x x)) (Fp2 1 1)) (iota 0 19)) (iota 0 19) by vm_compute.
have ex (a : 'F_19) : exists2 n : nat, n \in iota 0 19 & a = n%:R.
  exists (nat_of_ord a); last by rewrite natr_Zp.
  by rewrite mem_iota; exact: (ltn_ord a).
split.
- by move=> a; case: (ex a) => n hn ->; have /andP [/eqP] := allP all1 n hn.
- move=> [a b]; case: (ex a) => n hn ->; case: (ex b) => m hm -> e.
  by have := allP (allP all2 n hn) m hm; rewrite /= => /negP; apply; apply/equal2P.
- by move=> a; case: (ex a) => n hn ->; have /andP [_ /eqP] := allP all1 n hn.
Qed.
