(** Constants of the hash-to-curve maps, as numbers, and their images in a field. *)
From Coq Require Import NArith Nnat.
From mathcomp Require Import all_ssreflect all_algebra all_fingroup all_solvable all_field.
From Coq Require Import Ring_theory Field.
From Verif Require Import Lib.FieldTac Curves.SswuModel Curves.SswuProofs.
Set Implicit Arguments.
Unset Strict Implicit.
Unset Printing Implicit Defensive.
Import GRing.Theory.
Delimit Scope N_scope with Ns.
Local Open Scope ring_scope.

(** a number as an element of a ring *)
Definition fz (R : ringType) (n : N) : R := (N.to_nat n)%:R.
(** the number held by little-endian 64-bit limbs *)
Definition limbs (l : seq N) : N := foldr (fun x acc => (x + 18446744073709551616 * acc)%Ns) 0%Ns l.
(** the element whose Montgomery form, for radix [r], is [n] *)
Definition mont (F : fieldType) (r n : N) : F := fz F n / fz F r.

Section Fz.
Variable F : finFieldType.
Variable P : N.
Hypothesis cardF : N.of_nat #|F| = P.
Local Notation z := (fz F).
Lemma fzD a b : z (a + b)%Ns = z a + z b.
Proof. by rewrite /fz N2Nat.inj_add plusE natrD. Qed.
Lemma fzM a b : z (a * b)%Ns = z a * z b.
Proof. by rewrite /fz N2Nat.inj_mul multE natrM. Qed.
Lemma fz1 : z 1%Ns = 1. Proof. by []. Qed.
Lemma fzP0 : z P = 0.
Proof.
rewrite -cardF /fz Nat2N.id.
have := @expg_cardG [finGroupType of F for +%R] [set: F] (1 : F) (in_setT _).
by rewrite cardsT FinRing.zmodXgE.
Qed.
Lemma fz_mod a : z (a mod P)%Ns = z a.
Proof.
case: (N.eq_dec P 0%Ns) => [->|hP]; first by case: a.
by rewrite {2}(N.div_mod a P hP) fzD fzM fzP0 mul0r add0r.
Qed.
Lemma fz_eqm a b : (a mod P)%Ns = (b mod P)%Ns -> z a = z b.
Proof. by move=> h; rewrite -(fz_mod a) h fz_mod. Qed.

(** arithmetic facts about the constants of one map: [ri] is the inverse of the radix, [ai], [zi] those of A
    and Z, [w] the square root needed for the exceptional inputs *)
Definition chk (r ri c1 c2 A B Z ai zi w : N) : bool :=
  let m x := ((x * ri) mod P)%Ns in
  let d := (m Z * m A)%Ns in
  [&& (c1 * 4 + 3 =? P)%Ns, ((r * ri) mod P =? 1 mod P)%Ns, ((m c2 * m c2 + m Z * m Z * m Z) mod P =? 0 mod P)%Ns,
      ((m A * ai) mod P =? 1 mod P)%Ns, ((m Z * zi) mod P =? 1 mod P)%Ns &
      ((w * w * (d * d * d)) mod P =?
       ((m B * m B + d * d * m A) * m B + d * d * d * m B) mod P)%Ns].
Lemma montE r ri x : ((r * ri) mod P)%Ns = (1 mod P)%Ns -> mont F r x = z ((x * ri) mod P)%Ns.
Proof.
move=> h; have hr : z r * z ri = 1 by rewrite -fzM (fz_eqm h).
rewrite fz_mod fzM /mont; congr (_ * _).
have r0 : z r != 0 by apply/eqP => e; move/eqP: hr; rewrite e mul0r eq_sym oner_eq0.
by apply: (mulfI r0); rewrite hr divff.
Qed.
Lemma inv_nz a b : a * b = 1 -> a <> 0 :> F.
Proof. by move=> h e; move/eqP: h; rewrite e mul0r eq_sym oner_eq0. Qed.

(** a SswuParams value (native/osswu.go:5-7) from its limbs; C1 is a plain exponent *)
Definition mk_sswu r c1 c2 A B Z : sswu F := Sswu (N.to_nat c1) (mont F r c2) (mont F r A) (mont F r B) (mont F r Z).
Lemma chk_ok r ri c1 c2 A B Z ai zi w : chk r ri c1 c2 A B Z ai zi w -> sswu_ok (mk_sswu r c1 c2 A B Z).
Proof.
case/and5P => /N.eqb_eq h1 /N.eqb_eq h2 /N.eqb_eq h3 /N.eqb_eq h4 /andP [/N.eqb_eq h5 /N.eqb_eq h6].
have mE x := montE x h2.
have hA : mont F r A <> 0.
  by rewrite mE; apply: (@inv_nz _ (z ai)); rewrite -fzM (fz_eqm h4).
have hZ : mont F r Z <> 0.
  by rewrite mE; apply: (@inv_nz _ (z zi)); rewrite -fzM (fz_eqm h5).
split=> //; rewrite ?[s_C1 _]/= ?[s_C2 _]/= ?[s_Z _]/= ?[s_A _]/= ?[s_B _]/=.
- apply: Nat2N.inj; rewrite cardF -h1 -plusE -multE Nat2N.inj_add Nat2N.inj_mul N2Nat.id //.
- apply/eqP; rewrite -subr_eq0 opprK !mE.
  by rewrite expr2 exprS expr2 mulrA -!fzM -fzD (fz_eqm h3).
- exists (z w); have d0 : mont F r Z * mont F r A <> 0.
    by move/eqP; rewrite mulf_eq0 => /orP [] /eqP.
  rewrite (curve_div d0 (erefl _)).
  have hD : mont F r Z * mont F r A * (mont F r Z * mont F r A) * (mont F r Z * mont F r A) != 0.
    by move/eqP: d0; move: (mont F r Z * mont F r A) => d d0; exact: (mulf_neq0 (mulf_neq0 d0 d0) d0).
  apply: (mulIf hD); rewrite mulfVK //; rewrite !mE expr2.
  by rewrite -!fzM -!fzD -!fzM -!fzD; apply: fz_eqm.
Qed.
End Fz.
