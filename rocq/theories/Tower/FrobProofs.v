(** Frobenius, the cyclotomic subgroup and the final exponentiation. *)
From mathcomp Require Import all_ssreflect all_algebra.
From Coq Require Import Ring_theory Field.
From Verif Require Import Lib.FieldTac Tower.TowerModel Tower.TowerProofs Tower.GtProofs.
Set Implicit Arguments.
Unset Strict Implicit.
Unset Printing Implicit Defensive.
Import GRing.Theory.
Local Open Scope ring_scope.

(** What the three literals of FrobeniusMap must satisfy: [g] is the factor of w, [c1 = g^2] that of
    v, [c2 = g^4] that of v^2, [c1^3 (1+u) = 1-u], and the norm z of [g] is a primitive sixth root of
    unity. *)
Definition frob_consts (F : fieldType) (c1 c2 g : fp2 F) : Prop :=
  [/\ mul2 g g = c1, mul2 c1 c1 = c2, mul2 (mul2 c1 c2) (xi F) = conj2 (xi F) &
      mul2 (mul2 g (conj2 g)) (mul2 g (conj2 g)) = sub2 (mul2 g (conj2 g)) (one2 F)].

Section Frob.
Variable F : fieldType.
Variables (c1 c2 g : fp2 F).
Hypothesis hc : frob_consts c1 c2 g.
Add Ring fp2_ring : (rth2 F).
Add Ring fp6_ring : (rth6 F).
Local Notation frob6 := (frob6 c1 c2).
Local Notation frob := (frob12 c1 c2 g).
Local Notation z := (mul2 g (conj2 g)).

Lemma cxi : conj2 (xi F) = mul2 (mul2 (mul2 g g) (mul2 (mul2 g g) (mul2 g g))) (xi F).
Proof. by case: hc => -> -> -> _. Qed.
Lemma c1E : c1 = mul2 g g. Proof. by case: hc. Qed.
Lemma c2E : c2 = mul2 (mul2 g g) (mul2 g g). Proof. by case: hc => -> ->. Qed.
Lemma zz : mul2 z z = sub2 z (one2 F). Proof. by case: hc. Qed.
Lemma cz : conj2 z = z. Proof. rewrite conj2M conj2K; ring. Qed.

Lemma frob6M (x y : fp6 F) : frob6 (mul6 x y) = mul6 (frob6 x) (frob6 y).
Proof.
rewrite /TowerModel.frob6 /frob2 !mul6E /= !(conj2M, conj2D) cxi c1E c2E.
congr Fp6; ring.
Qed.
Lemma frob6D (x y : fp6 F) : frob6 (add6 x y) = add6 (frob6 x) (frob6 y).
Proof. rewrite /TowerModel.frob6 /frob2 /add6 /= !conj2D; congr Fp6; ring. Qed.
Lemma frob12M (x y : fp12 F) : frob (mul12 x y) = mul12 (frob x) (frob y).
Proof.
rewrite /frob12 !mul12E /= !frob6D !frob6M.
have -> : frob6 (vv F) = mul6 (vv F) (emb2 (mul2 g g)).
  rewrite /TowerModel.frob6 mul6E /vv /emb2 /frob2 /= conj20 conj21 c1E; congr Fp6; ring.
have e (t : fp2 F) (x6 : fp6 F) : mul6 x6 (Fp6 t (zero2 F) (zero2 F)) = Fp6 (mul2 (A6 x6) t) (mul2 (B6 x6) t) (mul2 (C6 x6) t).
  rewrite mul6E /=; congr Fp6; ring.
rewrite !e; set a := frob6 _; set b := frob6 _; set a' := frob6 _; set b' := frob6 _.
rewrite !mul6E /add6 /emb2 /vv /=; congr Fp12; congr Fp6; ring.
Qed.
Lemma frob12D (x y : fp12 F) : frob (add12 x y) = add12 (frob x) (frob y).
Proof.
rewrite /frob12 /add12 /= !frob6D; congr Fp12; rewrite !mul6E /add6 /=; congr Fp6; ring.
Qed.
Lemma frob121 : frob (one12 F) = one12 F.
Proof.
have e1 : frob6 (one6 F) = one6 F.
  rewrite /TowerModel.frob6 /frob2 /one6 -/(zero2 F) -/(one2 F) [A6 _]/= [B6 _]/= [C6 _]/= conj20 conj21.
  have e (t : fp2 F) : mul2 (zero2 F) t = zero2 F by ring.
  by rewrite !e.
have e0 : frob6 (zero6 F) = zero6 F.
  rewrite /TowerModel.frob6 /frob2 /zero6 [A6 _]/= [B6 _]/= [C6 _]/= conj20.
  have e (t : fp2 F) : mul2 (zero2 F) t = zero2 F by ring.
  by rewrite !e.
have e (t : fp6 F) : mul6 (zero6 F) t = zero6 F by ring.
by rewrite /frob12 /one12 [A12 _]/= [B12 _]/= e1 e0 e.
Qed.

(** the square of Frobenius multiplies the coefficient of w^i by z^i *)
Definition sg (x : fp12 F) : fp12 F :=
  let z2 := mul2 z z in let z4 := mul2 z2 z2 in
  Fp12 (Fp6 (A6 (A12 x)) (mul2 z2 (B6 (A12 x))) (mul2 z4 (C6 (A12 x))))
       (Fp6 (mul2 z (A6 (B12 x))) (mul2 (mul2 z z2) (B6 (B12 x))) (mul2 (mul2 z z4) (C6 (B12 x)))).
Lemma frob2E (x : fp12 F) : frob (frob x) = sg x.
Proof.
have e (t : fp2 F) (x6 : fp6 F) : mul6 x6 (Fp6 t (zero2 F) (zero2 F)) = Fp6 (mul2 (A6 x6) t) (mul2 (B6 x6) t) (mul2 (C6 x6) t).
  rewrite mul6E /=; congr Fp6; ring.
case: x => [[a b c] [d f h]].
rewrite /frob12 /TowerModel.frob6 !e /sg ![A12 _]/= ![B12 _]/= ![A6 _]/= ![B6 _]/= ![C6 _]/=.
rewrite /frob2 c1E c2E !(conj2M, conj2K).
by congr Fp12; congr Fp6; ring.
Qed.
Lemma z3 : mul2 z (mul2 z z) = neg2 (one2 F).
Proof.
have -> : mul2 z (mul2 z z) = add2 (mul2 z z) (sub2 (neg2 z) (mul2 z (sub2 (sub2 z (one2 F)) (mul2 z z)))) by ring.
by rewrite zz; ring.
Qed.
Lemma frob6E (x : fp12 F) : frob (frob (frob (frob (frob (frob x))))) = conj12 x.
Proof.
rewrite !frob2E /sg /conj12 /neg6; case: x => [[a b c] [d e f]] /=.
move: z3; set t := z => h3.
by congr Fp12; congr Fp6; ring [h3].
Qed.
Lemma sg3 (x : fp12 F) : sg (sg (sg x)) = conj12 x.
Proof. by rewrite -!frob2E frob6E. Qed.
Lemma sgM (x y : fp12 F) : sg (mul12 x y) = mul12 (sg x) (sg y).
Proof. by rewrite -!frob2E !frob12M. Qed.
Lemma sg1 : sg (one12 F) = one12 F.
Proof. by rewrite -!frob2E !frob121. Qed.
Lemma frob_conj (x : fp12 F) : frob (conj12 x) = conj12 (frob x).
Proof. by rewrite -!frob6E. Qed.
Lemma sg_conj (x : fp12 F) : sg (conj12 x) = conj12 (sg x).
Proof. by rewrite -!frob2E !frob_conj. Qed.

(** the cyclotomic subgroup: x^(p^4) x = x^(p^2) *)
Definition cyc (x : fp12 F) : Prop := mul12 x (frob (frob (frob (frob x)))) = frob (frob x).

Lemma lin (t1 t2 k l r : fp2 F) : l = r -> sub2 t1 t2 = mul2 k (sub2 l r) -> t1 = t2.
Proof.
move=> -> e; have -> : t1 = add2 (sub2 t1 t2) t2 by ring.
rewrite e; ring.
Qed.
Lemma cyclotomicSquareE (x : fp12 F) : cyc x -> cyclotomicSquare x = mul12 x x.
Proof.
rewrite /cyc !frob2E /sg; case: x => [[a b c] [d e f]].
move: zz; set t := z; move: t => t ht /=.
rewrite !mul12E !mul6E /add6 /vv ![A12 _]/= ![B12 _]/= ![A6 _]/= ![B6 _]/= ![C6 _]/= => E.
have e1 := congr1 (fun x => A6 (A12 x)) E; have e2 := congr1 (fun x => B6 (A12 x)) E.
have e3 := congr1 (fun x => C6 (A12 x)) E; have e4 := congr1 (fun x => A6 (B12 x)) E.
have e5 := congr1 (fun x => B6 (B12 x)) E; have e6 := congr1 (fun x => C6 (B12 x)) E.
clear E; cbn [A6 B6 C6 A12 B12] in e1, e2, e3, e4, e5, e6.
rewrite /cyclotomicSquare /fp4Square; cbn [A6 B6 C6 A12 B12 fst snd]; rewrite !mulNR2E !double2E !square2E.
pose i := sub2 (one2 F) t. pose two := add2 (one2 F) (one2 F).
congr Fp12; congr Fp6.
- apply: (lin (k := two) e1); rewrite /two; ring [ht].
- apply: (lin (k := mul2 two (mul2 i i)) e2); rewrite /two /i; ring [ht].
- apply: (lin (k := mul2 two (mul2 (mul2 i i) (mul2 i i))) e3); rewrite /two /i; ring [ht].
- apply: (lin (k := neg2 (mul2 two i)) e4); rewrite /two /i; ring [ht].
- apply: (lin (k := neg2 (mul2 two (mul2 i (mul2 i i)))) e5); rewrite /two /i; ring [ht].
- apply: (lin (k := neg2 (mul2 two (mul2 i (mul2 (mul2 i i) (mul2 i i))))) e6); rewrite /two /i; ring [ht].
Qed.

Add Ring fp12_ring : (rth12 F).
Lemma cycM (x y : fp12 F) : cyc x -> cyc y -> cyc (mul12 x y).
Proof.
rewrite /cyc !frob12M => hx hy.
set p := frob (frob (frob (frob x))) in hx *; set q := frob (frob (frob (frob y))) in hy *.
rewrite -[in RHS]hx -[in RHS]hy; ring.
Qed.
Lemma cyc1 : cyc (one12 F).
Proof. rewrite /cyc !frob121; ring. Qed.
Lemma cyc_frob (x : fp12 F) : cyc x -> cyc (frob x).
Proof. by rewrite /cyc => h; rewrite -frob12M h. Qed.
Lemma cyc_conj (x : fp12 F) : cyc x -> cyc (conj12 x).
Proof. by move=> h; rewrite -frob6E; do 6! apply: cyc_frob. Qed.
Lemma cyc_sq (x : fp12 F) : cyc x -> cyc (cyclotomicSquare x).
Proof. by move=> h; rewrite cyclotomicSquareE //; apply: cycM. Qed.

(** powers, by repeated multiplication *)
Definition pow12 (x : fp12 F) (n : nat) : fp12 F := iter n (mul12 x) (one12 F).
Lemma pow12S x n : pow12 x n.+1 = mul12 x (pow12 x n). Proof. by []. Qed.
Lemma pow120 x : pow12 x 0 = one12 F. Proof. by []. Qed.
Lemma pow12D x n m : pow12 x (n + m) = mul12 (pow12 x n) (pow12 x m).
Proof. by elim: n => [|n IH]; [rewrite add0n pow120; ring|rewrite addSn !pow12S IH; ring]. Qed.
Lemma pow12M x y n : pow12 (mul12 x y) n = mul12 (pow12 x n) (pow12 y n).
Proof. elim: n => [|n IH]; [rewrite !pow120; ring|rewrite !pow12S IH; ring]. Qed.
Lemma pow121 n : pow12 (one12 F) n = one12 F.
Proof. elim: n => [//|n IH]; rewrite pow12S IH; ring. Qed.
Lemma cyc_pow x n : cyc x -> cyc (pow12 x n).
Proof. by move=> h; elim: n => [|n IH]; [exact: cyc1|exact: cycM]. Qed.
Lemma conj_pow x n : conj12 (pow12 x n) = pow12 (conj12 x) n.
Proof. by elim: n => [|n IH]; [exact: conj121|rewrite !pow12S conj12M IH]. Qed.
Lemma frob_pow x n : frob (pow12 x n) = pow12 (frob x) n.
Proof. by elim: n => [|n IH]; [exact: frob121|rewrite !pow12S frob12M IH]. Qed.

Definition bitsVal (bs : seq bool) : nat := foldl (fun n (b : bool) => n.*2 + b)%N 0%N bs.
Lemma cyclotomicExpE (bs : seq bool) (a : fp12 F) :
  cyc a -> cyclotomicExp bs a = conj12 (pow12 a (bitsVal bs)).
Proof.
move=> ha; rewrite /cyclotomicExp; congr conj12.
suff H : forall n (s : fp12 F * bool), s.1 = pow12 a n -> (s.2 = false -> n = 0%N) ->
   (foldl (cycloStep a) s bs).1 = pow12 a (foldl (fun n (b : bool) => n.*2 + b)%N n bs) by exact: H.
elim: bs => [//|b bs IH] n [t fo] /= ht hn; apply: IH.
- case: fo hn => hn; rewrite /cycloStep.
    rewrite /= cyclotomicSquareE; last by rewrite ht; apply: cyc_pow.
    rewrite ht -addnn; case: b; rewrite ?addn0 ?addn1 ?pow12S pow12D //; ring.
  rewrite /= ht (hn erefl); case: b => //; rewrite ?add0n ?pow12S ?pow120; ring.
- case: fo hn => //= hn; case: b => //= _; by rewrite (hn erefl).
Qed.

Lemma cyc_unitary (x y : fp12 F) : cyc x -> mul12 x y = one12 F -> mul12 x (conj12 x) = one12 F.
Proof.
rewrite /cyc !frob2E => h hy.
have h2 : mul12 (sg x) (conj12 x) = sg (sg x) by rewrite -[in RHS]h sgM sg3.
have hs : mul12 (sg x) (sg y) = one12 F by rewrite -sgM hy sg1.
have e : mul12 (sg x) (mul12 x (conj12 x)) = sg x.
  rewrite -[RHS]h -h2; ring.
have -> : mul12 x (conj12 x) = mul12 (mul12 (sg x) (sg y)) (mul12 x (conj12 x)) by rewrite hs; ring.
have -> : mul12 (mul12 (sg x) (sg y)) (mul12 x (conj12 x)) = mul12 (sg y) (mul12 (sg x) (mul12 x (conj12 x))) by ring.
rewrite e -hs; ring.
Qed.

(** the easy part lands in the cyclotomic subgroup *)
Lemma easy_cyc (b : fp12 F) : mul12 b (conj12 b) = one12 F -> cyc (mul12 (frob (frob b)) b).
Proof.
move=> h; rewrite /cyc !frob2E !sgM sg3.
have -> : mul12 (mul12 (sg b) b) (mul12 (conj12 b) (sg (sg b))) =
  mul12 (mul12 (sg b) (mul12 b (conj12 b))) (sg (sg b)) by ring.
rewrite h; ring.
Qed.
End Frob.

(** C' = 0 is not tested by IsOne, but a unitary element with A = 1 + c v^2 and B = 0 has c = 0 *)
Section IsOne.
Variable F : fieldType.
Add Ring fp2_ring1 : (rth2 F).
Hypothesis hI : noI F.
Lemma isOne_unitary (x : fp12 F) : mul12 x (conj12 x) = one12 F -> isOne12 x = equal12 x (one12 F).
Proof.
move=> h; apply/idP/idP; last by move=> /equal12P ->; rewrite /isOne12 /isOne6 /isOne2 /isZero6 /isZero2 /= !eqxx.
case: x h => [[a b c] d] h /andP [/andP [/andP [/isOne2P /= ha /isZero2P /= hb] _] /isZero6P /= hd].
move: h; rewrite {}ha {}hb {}hd => h.
have e := congr1 (fun x => B6 (A12 x)) h.
suff hc0 : c = zero2 F by rewrite hc0; apply/equal12P.
have : mul2 (mul2 c c) (xi F) = zero2 F.
  move: e; rewrite mul12E /conj12 /neg6 /zero6 !mul6E; cbn [A6 B6 C6 A12 B12 add6 one12 one6 vv] => e.
  rewrite -[RHS]e; ring.
move=> /(mul2_eq0 hI) [/(mul2_eq0 hI) [//|//]|]. 
by move=> /(congr1 (@A2 F)) /= /eqP; rewrite oner_eq0.
Qed.
End IsOne.
