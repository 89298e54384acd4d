(** Algebra of the tower: each level is a commutative ring under the code's Add/Mul/Sub/Neg. *)
From mathcomp Require Import all_ssreflect all_algebra.
From Coq Require Import Ring_theory Field.
From Verif Require Import Lib.FieldTac Tower.TowerModel.
Set Implicit Arguments.
Unset Strict Implicit.
Unset Printing Implicit Defensive.
Import GRing.Theory.
Local Open Scope ring_scope.

Section L2.
Variable F : fieldType.
Add Field F_field : (f_fth F).
Local Notation fp2 := (fp2 F).

Ltac d2 := repeat match goal with x : TowerModel.fp2 _ |- _ => destruct x end.
Ltac r2 := d2; rewrite /mul2 /add2 /sub2 /neg2 /mulNR2 /square2 /double2 /conj2 /one2 /zero2 /mul0_2 /=;
  congr Fp2; f_fold F; ring.

Lemma rth2 : ring_theory (zero2 F) (one2 F) (@add2 F) (@mul2 F) (@sub2 F) (@neg2 F) (@eq fp2).
Proof. by split; intros; r2. Qed.

Definition xi : fp2 := Fp2 1 1.
Lemma mulNR2E (x : fp2) : mulNR2 x = mul2 x xi.  Proof. rewrite /xi; r2. Qed.
Lemma square2E (x : fp2) : square2 x = mul2 x x.  Proof. r2. Qed.
Lemma double2E (x : fp2) : double2 x = add2 x x.  Proof. r2. Qed.
Lemma conj2M (x y : fp2) : conj2 (mul2 x y) = mul2 (conj2 x) (conj2 y). Proof. r2. Qed.
Lemma conj2D (x y : fp2) : conj2 (add2 x y) = add2 (conj2 x) (conj2 y). Proof. r2. Qed.
Lemma conj2B (x y : fp2) : conj2 (sub2 x y) = sub2 (conj2 x) (conj2 y). Proof. r2. Qed.
Lemma conj2N (x : fp2) : conj2 (neg2 x) = neg2 (conj2 x). Proof. r2. Qed.
Lemma conj2K (x : fp2) : conj2 (conj2 x) = x. Proof. r2. Qed.
Lemma conj21 : conj2 (one2 F) = one2 F. Proof. r2. Qed.
Lemma conj20 : conj2 (zero2 F) = zero2 F. Proof. r2. Qed.
Lemma mul2E (x y : fp2) : mul2 x y = Fp2 (A2 x * A2 y - B2 x * B2 y) (A2 x * B2 y + B2 x * A2 y).
Proof. r2. Qed.
Lemma equal2P (x y : fp2) : reflect (x = y) (equal2 x y).
Proof.
apply: (iffP andP) => [[/eqP h1 /eqP h2]|->]; last by [].
by case: x y h1 h2 => [a b] [c d] /= -> ->.
Qed.
Lemma isZero2P (x : fp2) : reflect (x = zero2 F) (isZero2 x).
Proof. exact: (equal2P x (zero2 F)). Qed.
Lemma isOne2P (x : fp2) : reflect (x = one2 F) (isOne2 x).
Proof. exact: (equal2P x (one2 F)). Qed.

(** a^2 + b^2 = 0 only at zero: -1 is not a square *)
Definition noI := forall a : F, a * a <> -1.
Lemma norm0 (h : noI) (x : fp2) : A2 x * A2 x + B2 x * B2 x = 0 -> x = zero2 F.
Proof.
case: x => a b /= e.
case: (altP (b =P 0)) => [hb|hb].
  move: e; rewrite hb mul0r addr0 => /eqP; rewrite mulf_eq0 orbb => /eqP ->; by [].
case: (h (a / b)).
have -> : a / b * (a / b) = (a * a + b * b) / (b * b) - 1 by f_fold F; field; f_side.
by rewrite e mul0r add0r.
Qed.

Lemma invert2_ok (h : noI) (f x : fp2) :
  x <> zero2 F -> exists y, invert2 f x = (y, true) /\ mul2 x y = one2 F.
Proof.
move=> hx; rewrite /invert2 /fpInvert.
have hn : A2 x * A2 x + B2 x * B2 x != 0 by apply/eqP => e; exact: hx (norm0 h e).
rewrite (negbTE hn) /=; eexists; split; first by [].
move: hn; case: x hx => a b _ /= hn; rewrite /mul2 /one2 /=.
by congr Fp2; f_fold F; field; f_side.
Qed.
Lemma invert2_zero (f : fp2) : invert2 f (zero2 F) = (f, false).
Proof. by rewrite /invert2 /fpInvert /= !mulr0 addr0 eqxx /=; case: f. Qed.
End L2.

Section L6.
Variable F : fieldType.
Add Ring fp2_ring : (rth2 F).
Local Notation fp6 := (fp6 F).
Ltac d6 := repeat match goal with x : TowerModel.fp6 _ |- _ => destruct x end.
Ltac r6 := d6; rewrite /mul6 /add6 /sub6 /neg6 /mulNR6 /square6 /double6 /one6 /zero6 /mulByB /mulByAB /=;
  rewrite ?mulNR2E ?square2E ?double2E;
  congr Fp6; ring.
Lemma rth6 : ring_theory (zero6 F) (one6 F) (@add6 F) (@mul6 F) (@sub6 F) (@neg6 F) (@eq fp6).
Proof. by split; intros; r6. Qed.

Definition vv : fp6 := Fp6 (zero2 F) (one2 F) (zero2 F).
Definition emb2 (x : fp2 F) : fp6 := Fp6 x (zero2 F) (zero2 F).
Lemma mulNR6E (x : fp6) : mulNR6 x = mul6 x vv. Proof. rewrite /vv; r6. Qed.
Lemma square6E (x : fp6) : square6 x = mul6 x x. Proof. r6. Qed.
Lemma mulByBE (x : fp6) b : mulByB x b = mul6 x (Fp6 (zero2 F) b (zero2 F)). Proof. r6. Qed.
Lemma mulByABE (x : fp6) a b : mulByAB x a b = mul6 x (Fp6 a b (zero2 F)). Proof. r6. Qed.
Lemma equal6P (x y : fp6) : reflect (x = y) (equal6 x y).
Proof.
apply: (iffP idP) => [/andP [/andP [/equal2P h1 /equal2P h2] /equal2P h3]|->].
  by case: x y h1 h2 h3 => [a b c] [a' b' c'] /= -> -> ->.
by rewrite /equal6; apply/andP; split; first (apply/andP; split); apply/equal2P.
Qed.
Lemma isZero6P (x : fp6) : reflect (x = zero6 F) (isZero6 x).
Proof. exact: (equal6P x (zero6 F)). Qed.
Lemma mul6E (x y : fp6) : mul6 x y =
  Fp6 (add2 (mul2 (A6 x) (A6 y)) (mul2 (xi F) (add2 (mul2 (B6 x) (C6 y)) (mul2 (C6 x) (B6 y)))))
      (add2 (add2 (mul2 (A6 x) (B6 y)) (mul2 (B6 x) (A6 y))) (mul2 (xi F) (mul2 (C6 x) (C6 y))))
      (add2 (add2 (mul2 (A6 x) (C6 y)) (mul2 (B6 x) (B6 y))) (mul2 (C6 x) (A6 y))).
Proof. r6. Qed.

(** the norm of fp6 over fp2, as Invert computes it *)
Definition norm6 (x : fp6) : fp2 F :=
  let a := A6 x in let b := B6 x in let c := C6 x in
  let a' := sub2 (mul2 a a) (mul2 (mul2 b c) (xi F)) in
  let b' := sub2 (mul2 (mul2 c c) (xi F)) (mul2 a b) in
  let c' := sub2 (mul2 b b) (mul2 a c) in
  add2 (mul2 (add2 (mul2 b c') (mul2 c b')) (xi F)) (mul2 a a').
Lemma invert6_ok (h : noI F) (f x : fp6) :
  norm6 x <> zero2 F -> exists y, invert6 f x = (y, true) /\ mul6 x y = one6 F.
Proof.
move=> hx; rewrite /invert6 !mulNR2E !square2E -/(norm6 x).
set t0 := mul2 (A6 x) _.
case: (invert2_ok h t0 hx) => t [-> ht] /=.
eexists; split; first by [].
rewrite mul6E /one6 /=.
move: ht; rewrite /norm6; case: x hx t0 => a b c _ _ /= ht.
congr Fp6; [rewrite -ht | |]; ring.
Qed.
Lemma invert6_zero (f x : fp6) : norm6 x = zero2 F -> invert6 f x = (f, false).
Proof.
move=> hx; rewrite /invert6 !mulNR2E !square2E -/(norm6 x) hx invert2_zero /=; by case: f.
Qed.
End L6.

Section L12.
Variable F : fieldType.
Add Ring fp6_ring : (rth6 F).
Local Notation fp12 := (fp12 F).
Ltac d12 := repeat match goal with x : TowerModel.fp12 _ |- _ => destruct x end.
Ltac r12 := d12; rewrite /mul12 /add12 /sub12 /neg12 /square12 /conj12 /one12 /zero12 /double6 /=;
  rewrite ?mulNR6E;
  congr Fp12; ring.
Lemma rth12 : ring_theory (zero12 F) (one12 F) (@add12 F) (@mul12 F) (@sub12 F) (@neg12 F) (@eq fp12).
Proof. by split; intros; r12. Qed.
Lemma square12E (x : fp12) : square12 x = mul12 x x. Proof. r12. Qed.
Lemma conj12M (x y : fp12) : conj12 (mul12 x y) = mul12 (conj12 x) (conj12 y). Proof. r12. Qed.
Lemma conj12K (x : fp12) : conj12 (conj12 x) = x. Proof. r12. Qed.
Lemma conj12D (x y : fp12) : conj12 (add12 x y) = add12 (conj12 x) (conj12 y). Proof. r12. Qed.
Lemma conj121 : conj12 (one12 F) = one12 F. Proof. r12. Qed.
Definition ww : fp12 := Fp12 (zero6 F) (one6 F).
Definition emb6 (x : fp6 F) : fp12 := Fp12 x (zero6 F).
Lemma mul12E (x y : fp12) : mul12 x y =
  Fp12 (add6 (mul6 (A12 x) (A12 y)) (mul6 (vv F) (mul6 (B12 x) (B12 y))))
       (add6 (mul6 (A12 x) (B12 y)) (mul6 (B12 x) (A12 y))).
Proof. r12. Qed.
Lemma mulByABDE (x : fp12) a b d :
  mulByABD x a b d = mul12 x (Fp12 (Fp6 a b (zero2 F)) (Fp6 (zero2 F) d (zero2 F))).
Proof.
rewrite mul12E /mulByABD mulNR6E !mulByABE !mulByBE /=.
have -> : Fp6 a (add2 b d) (zero2 F) = add6 (Fp6 a b (zero2 F)) (Fp6 (zero2 F) d (zero2 F)).
  rewrite /add6 /=; congr Fp6; last by rewrite /add2 /zero2 /= addr0.
  by case: a => a1 a2; rewrite /add2 /zero2 /= !addr0.
by congr Fp12; ring.
Qed.
Lemma equal12P (x y : fp12) : reflect (x = y) (equal12 x y).
Proof.
apply: (iffP andP) => [[/equal6P h1 /equal6P h2]|->]; last by split; apply/equal6P.
by case: x y h1 h2 => [a b] [c d] /= -> ->.
Qed.
Lemma isZero12P (x : fp12) : reflect (x = zero12 F) (isZero12 x).
Proof. exact: (equal12P x (zero12 F)). Qed.

Definition norm12 (x : fp12) : fp6 F :=
  sub6 (mul6 (A12 x) (A12 x)) (mul6 (mul6 (B12 x) (B12 x)) (vv F)).
Lemma invert12_ok (h : noI F) (f x : fp12) :
  norm6 (norm12 x) <> zero2 F -> exists y, invert12 f x = (y, true) /\ mul12 x y = one12 F.
Proof.
move=> hx; rewrite /invert12 mulNR6E !square6E -/(norm12 x).
case: (invert6_ok h (zero6 F) hx) => t [-> ht] /=.
eexists; split; first by [].
rewrite mul12E /=; move: ht; rewrite /norm12; case: x hx => a b _ /= ht.
by rewrite /one12; congr Fp12; [rewrite -ht|]; ring.
Qed.
Lemma invert12_zero (f x : fp12) : norm6 (norm12 x) = zero2 F -> invert12 f x = (f, false).
Proof.
move=> hx; rewrite /invert12 mulNR6E !square6E -/(norm12 x) (invert6_zero _ hx) /=; by case: f.
Qed.
Lemma conj_norm (x : fp12) : mul12 x (conj12 x) = emb6 (norm12 x).
Proof. rewrite mul12E /norm12 /emb6 /=; case: x => a b /=; congr Fp12; ring. Qed.
End L12.
