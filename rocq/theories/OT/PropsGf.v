(** C29: the multiplication used by the correlated OT extension is the one of GF(2^256). *)
From Coq Require Import PeanoNat NArith.
From mathcomp Require Import all_ssreflect all_algebra all_field zify.
From Verif Require Import Lib.Bytes Core.HashModel Core.HashProofs OT.GfModel OT.GfProofs.
Set Implicit Arguments. Unset Strict Implicit. Unset Printing Implicit Defensive.
Import GRing.Theory Pdiv.Field.
Local Open Scope ring_scope.

(** 32-byte strings *)
Definition word256 (A : bytes) : Prop := is_bytes A /\ size A = 32%N.

(** The result is the product of the two polynomials modulo X^256 + X^10 + X^5 + X^2 + 1. *)
Theorem C29_gf_mul_product : forall A B, word256 A -> word256 B ->
  word256 (binary_field_mul A B) /\
  polyof (binary_field_mul A B) = (polyof A * polyof B) %% ('X^256 + 'X^10 + 'X^5 + 'X^2 + 1).
Proof. by move=> A B [hA sA] [hB sB]; have [h1 h2 h3] := binary_field_mul_ok hA hB sA sB; split; [split|exact: h3]. Qed.
Print Assumptions C29_gf_mul_product.

Lemma polyof_inj A B : word256 A -> word256 B -> polyof A = polyof B -> A = B.
Proof.
move=> [hA sA] [hB sB] e; apply: (@eq_from_nth _ 0%N) => [|i hi]; first by rewrite sA sB.
have bA : (nth 0 A i < 256)%N by apply: (allP hA); apply: mem_nth.
have bB : (nth 0 B i < 256)%N by apply: (allP hB); apply: mem_nth; rewrite sB -sA.
apply: Nnat.Nat2N.inj; apply: N.bits_inj => k; rewrite -(Nnat.N2Nat.id k).
case: (ltnP (N.to_nat k) 8) => hk; last by rewrite !testbit_byte.
have := congr1 (fun p : {poly K} => p`_(i * 8 + N.to_nat k)) e.
by rewrite !polyof_coef divnMDl // modnMDl divn_small // modn_small // addn0 => /eqP; rewrite boolF => /eqP.
Qed.

Lemma testbit_nat a n : N.testbit (N.of_nat a) (N.of_nat n) = PeanoNat.Nat.testbit a n.
Proof.
elim: n a => [|n IH] a.
  rewrite N.bit0_odd PeanoNat.Nat.bit0_odd; case: (PeanoNat.Nat.Even_or_Odd a) => -[b ->].
    rewrite Nnat.Nat2N.inj_mul N.odd_mul PeanoNat.Nat.odd_mul //.
  by rewrite Nnat.Nat2N.inj_add Nnat.Nat2N.inj_mul N.add_comm N.odd_add_mul_2 PeanoNat.Nat.add_comm PeanoNat.Nat.odd_add_mul_2.
by rewrite Nnat.Nat2N.inj_succ N.testbit_succ_r_div2; [rewrite -Nnat.Nat2N.inj_div2 IH | lia].
Qed.

Lemma bxor_nth a b i : size a = size b ->
  N.of_nat (nth 0%N (bxor a b) i) = N.lxor (N.of_nat (nth 0%N a i)) (N.of_nat (nth 0%N b i)).
Proof.
elim: a b i => [|x a IH] [|y b] [|i] //= => [_|[e]]; last exact: IH.
apply: N.bits_inj => k; rewrite -(Nnat.N2Nat.id k) N.lxor_spec !testbit_nat.
exact: PeanoNat.Nat.lxor_spec.
Qed.

Lemma word_bxor a b : word256 a -> word256 b -> word256 (bxor a b).
Proof.
move=> [ha sa] [hb sb]; split; last by rewrite size_bxor.
apply/(all_nthP 0%N) => i; rewrite size_bxor => hi.
have e := @bxor_nth a b i (etrans sa (esym sb)).
have bA : (nth 0 a i < 256)%N by apply: (allP ha); apply: mem_nth.
have bB : (nth 0 b i < 256)%N by apply: (allP hb); apply: mem_nth; rewrite sb -sa.
suff : (N.of_nat (nth 0%N (bxor a b) i) < 2 ^ 8)%num by change (2 ^ 8)%num with 256%num; lia.
case: (N.eq_dec (N.of_nat (nth 0%N (bxor a b) i)) 0) => [->|nz]; first by lia.
apply N.log2_lt_pow2; first by lia.
case: (N.lt_ge_cases (N.log2 (N.of_nat (nth 0%N (bxor a b) i))) 8) => // hl.
have := N.bit_log2 _ nz; rewrite {1}e N.lxor_spec.
by rewrite -(Nnat.N2Nat.id (N.log2 _)) !testbit_byte //; lia.
Qed.

Lemma polyof_bxor a b : size a = size b -> polyof (bxor a b) = polyof a + polyof b.
Proof.
move=> e; apply/polyP => i; rewrite coefD !polyof_coef bxor_nth // N.lxor_spec -boolF_add.
by case: N.testbit; case: N.testbit.
Qed.

(** It is commutative, associative and distributes over xor (which is what the consistency check of the
    extension relies on); the string 1,0,...,0 is its unit. *)
Definition one256 : bytes := 1%N :: nseq 31 0%N.

Lemma word_one : word256 one256. Proof. by []. Qed.
Lemma polyof_one : polyof one256 = 1.
Proof.
apply/polyP => i; rewrite polyof_coef coef1; case: i => [|i] //.
rewrite [_.+1 == 0%N]/=; case: (ltnP i.+1 8) => h; last first.
  have [m ->] : exists m, (i.+1 %/ 8 = m.+1)%N by exists (i.+1 %/ 8).-1; rewrite prednK // divn_gt0.
  by rewrite -[nth 0%N _ m.+1]/(nth 0%N (nseq 31 0%N) m) nth_nseq; case: ifP; rewrite N.bits_0.
by rewrite divn_small // modn_small // [nth _ _ _]/= testbit_nat; case: i h => [|[|[|[|[|[|[|]]]]]]].
Qed.

Theorem C29_gf_mul_ring : forall A B C, word256 A -> word256 B -> word256 C ->
  [/\ binary_field_mul A B = binary_field_mul B A,
      binary_field_mul A (binary_field_mul B C) = binary_field_mul (binary_field_mul A B) C,
      binary_field_mul A (bxor B C) = bxor (binary_field_mul A B) (binary_field_mul A C),
      binary_field_mul (bxor A B) C = bxor (binary_field_mul A C) (binary_field_mul B C) &
      binary_field_mul one256 A = A].
Proof.
have M0 := C29_gf_mul_product; move: binary_field_mul M0 => mul; rewrite -/fpoly.
move: fpoly size_fpoly => f sf M.
move=> A B C hA hB hC.
have [wAB pAB] := M _ _ hA hB; have [wBA pBA] := M _ _ hB hA; have [wBC pBC] := M _ _ hB hC.
have [wAC pAC] := M _ _ hA hC; have [w1A p1A] := M _ _ word_one hA.
have [wAxB wBxC] := (word_bxor hA hB, word_bxor hB hC).
have [wl pl] := M _ _ hA wBC; have [wr pr] := M _ _ wAB hC.
have [wd pd] := M _ _ hA wBxC; have [we pe] := M _ _ wAxB hC.
have sz X Y : word256 X -> word256 Y -> size X = size Y by move=> [_ ->] [_ ->].
split; apply: polyof_inj; try exact: word_bxor; try by [].
- by rewrite pAB pBA mulrC.
- by rewrite pl pr pBC pAB modp_mul [in RHS]mulrC modp_mul [polyof C * _]mulrC mulrA.
- by rewrite pd (polyof_bxor (sz _ _ hB hC)) (polyof_bxor (sz _ _ wAB wAC)) pAB pAC mulrDr modpD.
- by rewrite pe (polyof_bxor (sz _ _ hA hB)) (polyof_bxor (sz _ _ wAC wBC)) pAC pBC mulrDl modpD.
rewrite p1A polyof_one mul1r modp_small //.
rewrite sf ltnS (leq_trans (size_poly _ _)) //; by case: hA => _ ->.
Qed.
Print Assumptions C29_gf_mul_ring.

(** The modulus is irreducible, so the structure really is a field: no two non-zero strings multiply to zero
    and every non-zero string has an inverse.  The proof is Rabin's criterion; its two computations are
    done on binary numbers. *)
Definition X256 : bytes := 2%N :: nseq 31 0%N.
Lemma word_X : word256 X256. Proof. by []. Qed.

(** polynomials over the two-element field as binary numbers: squaring, product, one reduction step *)
Fixpoint psq (p : positive) : positive :=
  match p with xH => xH | xO p' => xO (xO (psq p')) | xI p' => xI (xO (psq p')) end.
Definition nsq (w : N) : N := match w with N0 => N0 | Npos p => Npos (psq p) end.
Fixpoint pmul (p : positive) (b : N) : N :=
  match p with xH => b | xO p' => N.double (pmul p' b) | xI p' => N.lxor b (N.double (pmul p' b)) end.
Definition nred (w : N) : N :=
  let hi := N.shiftr w 256 in
  N.lxor (N.lxor w (N.shiftl hi 256)) (N.lxor (N.lxor hi (N.shiftl hi 2)) (N.lxor (N.shiftl hi 5) (N.shiftl hi 10))).
Definition nsqn (n : nat) : N := iter n (fun w => nred (nred (nsq w))) 2%num.

Lemma PP_double w : PP (N.double w) = 'X * PP w.
Proof. by rewrite -['X]expr1 -(PP_shiftl w 1); case: w. Qed.
Lemma PP_one : PP 1%num = 1.
Proof. by apply/polyP => i; rewrite PP_coef coef1; case: i => [|i] //=. Qed.
Lemma PP_X : PP 2%num = 'X.
Proof. by rewrite -[2%num]/(N.double 1) PP_double PP_one mulr1. Qed.
Lemma PP_xI p : PP (Npos (xI p)) = 1 + 'X * PP (Npos p).
Proof.
have -> : Npos (xI p) = N.lxor 1 (N.double (Npos p)) by [].
by rewrite PP_lxor PP_one PP_double.
Qed.
Lemma PP_xO p : PP (Npos (xO p)) = 'X * PP (Npos p).
Proof. by rewrite -[Npos (xO p)]/(N.double (Npos p)) PP_double. Qed.

Lemma PP_nsq w : PP (nsq w) = PP w ^+ 2.
Proof.
case: w => [|p]; first by rewrite PP0 expr0n.
elim: p => [p IH|p IH|]; last by rewrite PP_one expr1n.
  rewrite -[nsq _]/(Npos (xI (xO (psq p)))) !PP_xI PP_xO IH sqrrD expr1n mul1r -mulr_natl mulrA.
  have -> : (2%:R : {poly K}) = 0 by rewrite -(char2 1).
  by rewrite !mul0r addr0 exprMn_comm ?mulrA //; exact: mulrC.
by rewrite -[nsq _]/(Npos (xO (xO (psq p)))) !PP_xO IH exprMn_comm ?mulrA //; exact: mulrC.
Qed.

Lemma PP_pmul p b : PP (pmul p b) = PP (Npos p) * PP b.
Proof.
elim: p => [p IH|p IH|]; rewrite /= ?PP_one ?mul1r //.
  by rewrite PP_lxor PP_double IH PP_xI mulrDl mul1r mulrA.
by rewrite PP_double IH PP_xO mulrA.
Qed.

Lemma PP_nred w : PP (nred w) %% fpoly = PP w %% fpoly.
Proof.
rewrite /nred; set hi := N.shiftr w 256; rewrite !PP_lxor.
have sh k : PP (N.shiftl hi (N.of_nat k)) = 'X^k * PP hi by exact: PP_shiftl.
rewrite (sh 256%N) (sh 2%N) (sh 5%N) (sh 10%N).
have -> : PP w + 'X^256 * PP hi + (PP hi + 'X^2 * PP hi + ('X^5 * PP hi + 'X^10 * PP hi)) = PP w + PP hi * fpoly.
  have R (h a b c d : {poly K}) : a + (h + b + (c + d)) = a + d + c + b + h.
    by rewrite -!(addrA a) (addrC (d + c + b)) (addrC (d + c)) (addrC d c) -!addrA.
  by rewrite -addrA R /fpoly !mulrDr mulr1 ![PP hi * _]mulrC.
by rewrite modpD modp_mull addr0.
Qed.

Lemma PP_nsqn n : PP (nsqn n) %% fpoly = 'X^(2 ^ n) %% fpoly.
Proof.
elim: n => [|n IH]; first by rewrite PP_X expn0 expr1.
rewrite /nsqn iterS -/(nsqn n) !PP_nred PP_nsq expnSr exprM.
by rewrite expr2 -modp_mul mulrC -modp_mul [in LHS]mulrC IH modp_mul mulrC modp_mul -expr2.
Qed.

Definition VN : N := 29768706438871434101518067085406475415216880333802163819005322367630306899209.
Lemma nsqn_256 : nsqn 256 = 2%num. Proof. by vm_cast_no_check (erefl 2%num). Qed.
Lemma inv_128 : nred (nred (match N.lxor (nsqn 128) 2 with Npos p => pmul p VN | N0 => N0 end)) = 1%num.
Proof. by vm_cast_no_check (erefl 1%num). Qed.

Lemma bezout_gen S : nred (nred (match N.lxor S 2 with Npos p => pmul p VN | N0 => N0 end)) = 1%num ->
  ((PP S + 'X) * PP VN) %% fpoly = 1.
Proof.
move=> e; have := congr1 (fun w => PP w %% fpoly) e; rewrite !PP_nred PP_one.
have -> : PP (match N.lxor S 2 with Npos p => pmul p VN | N0 => N0 end) = PP (N.lxor S 2) * PP VN.
  by case: N.lxor => [|p]; rewrite ?PP_pmul // PP0 mul0r.
rewrite PP_lxor PP_X => ->; rewrite modp_small // size_fpoly size_poly1; exact: isT.
Qed.
Lemma bezout_mod (f P S V : {poly K}) : S %% f = P -> ((S + 'X) * V) %% f = 1 -> ((P + 'X) * V) %% f = 1.
Proof.
by move=> <- <-; rewrite [in LHS]mulrC -modp_mul modpD modp_mod -modpD modp_mul mulrC.
Qed.
Lemma bezout128 : (('X^(2 ^ 128) %% fpoly + 'X) * PP VN) %% fpoly = 1.
Proof. exact: (@bezout_mod fpoly ('X^(2 ^ 128) %% fpoly) (PP (nsqn 128)) (PP VN) (PP_nsqn 128) (@bezout_gen (nsqn 128) inv_128)). Qed.
Lemma frob_gen n : nsqn n = 2%num -> 'X^(2 ^ n) %% fpoly = 'X.
Proof.
by move=> e; rewrite -PP_nsqn e PP_X modp_small // size_fpoly size_polyX; exact: isT.
Qed.
Lemma frob256 : 'X^(2 ^ 256) %% fpoly = 'X.
Proof. exact: (@frob_gen 256 nsqn_256). Qed.

Section Rabin.
Variables (L : fieldType) (phi : {rmorphism K -> L}).
Notation ev p z := ((map_poly phi p).[z]).

Lemma ev_mod p q z : ev q z = 0 -> ev (p %% q) z = ev p z.
Proof. by move=> h; rewrite {2}(divp_eq p q) rmorphD rmorphM hornerD hornerM h mulr0 add0r. Qed.

Lemma ev_Xn n z : ev 'X^n z = z ^+ n.
Proof. by rewrite map_polyXn hornerXn. Qed.

Lemma charL : 2%N \in [char L].
Proof.
apply/andP; split=> //; have -> : (2%:R : L) = phi 2%:R by rewrite rmorph_nat.
by rewrite (_ : 2%:R = 0) ?rmorph0 //; apply/eqP.
Qed.

Lemma ev_frob p z n : ev p z = 0 -> ev p (z ^+ (2 ^ n)) = 0.
Proof.
move=> h; elim: n => [|n IH]; first by rewrite expn0 expr1.
rewrite expnSr exprM -(Frobenius_autE charL).
have -> : map_poly phi p = map_poly (Frobenius_aut charL) (map_poly phi p).
  apply/polyP => i; rewrite !coef_map /= Frobenius_autE -rmorphX; congr (phi _).
  by move: (p`_i) => c; case: c => -[|[|]] // ?; apply/eqP.
by rewrite horner_map IH rmorph0.
Qed.

Lemma frob_inj z w n : z ^+ (2 ^ n) = w ^+ (2 ^ n) :> L -> z = w.
Proof.
elim: n => [|n IH]; first by rewrite expn0 !expr1.
rewrite expnSr !exprM => e; apply: IH.
by apply: (fmorph_inj [rmorphism of Frobenius_aut charL]); rewrite /= !Frobenius_autE.
Qed.

Lemma frob_mul z a k : z ^+ (2 ^ a) = z :> L -> z ^+ (2 ^ (k * a)) = z.
Proof. by move=> h; elim: k => [|k IH]; rewrite ?mul0n ?expn0 ?expr1 // mulSn expnD exprM h. Qed.

Lemma frob_gcd z a b : (0 < a)%N -> z ^+ (2 ^ a) = z :> L -> z ^+ (2 ^ b) = z -> z ^+ (2 ^ gcdn a b) = z.
Proof.
move=> ha h1 h2; case: (egcdnP b ha) => u v e _.
have := frob_mul u h1; rewrite e expnD exprM (frob_mul v h2) //.
Qed.

Lemma root_orbit q z : q %| fpoly -> ev q z = 0 -> (256 <= (size q).-1)%N.
Proof.
move=> hq hz.
have hf : ev fpoly z = 0 by move: hq => /dvdpP[r ->]; rewrite rmorphM hornerM hz mulr0.
have z256 : z ^+ (2 ^ 256) = z.
  by rewrite -ev_Xn -(ev_mod _ hf) frob256 map_polyX hornerX.
have z128 : z ^+ (2 ^ 128) != z.
  apply/eqP => e; have := congr1 (fun p => ev p z) bezout128.
  rewrite ev_mod // rmorphM rmorphD hornerM hornerD rmorph1 hornerC.
  rewrite ev_mod // ev_Xn e /= map_polyX hornerX addrr_char2 ?charL // mul0r => /esym/eqP.
  by rewrite oner_eq0.
have q0 : map_poly phi q != 0.
  rewrite map_poly_eq0; apply: contraTneq hq => ->; rewrite dvd0p -size_poly_eq0 size_fpoly //.
have := @max_poly_roots _ (map_poly phi q) [seq z ^+ (2 ^ i) | i <- iota 0 256] q0.
rewrite size_map_poly size_map size_iota => H.
have : (256 < size q)%N.
  apply: H; first by apply/allP => x /mapP[i _ ->]; apply/eqP; apply: ev_frob.
  rewrite map_inj_in_uniq ?iota_uniq // => i j; rewrite !mem_iota /= => hi hj.
  wlog: i j hi hj / (i <= j)%N => [W|hij].
    by case: (leqP i j) => h e; [apply: W | apply: esym; apply: W => //; exact: ltnW].
  move=> e; apply/eqP; move: hij; rewrite leq_eqVlt => /orP[//|hij].
  have d0 : (0 < j - i)%N by rewrite subn_gt0.
  have ed : z ^+ (2 ^ (j - i)) = z.
    apply: (@frob_inj _ _ i); rewrite -exprM -expnD (subnK (ltnW hij)); exact: esym e.
  have g := frob_gcd d0 ed z256.
  have g128 : (gcdn (j - i) 256 %| 128)%N.
    have : (gcdn (j - i) 256 %| 2 ^ 8)%N by apply: dvdn_gcdr.
    case/(dvdn_pfactor _ _ (isT : prime 2)) => m hm em; rewrite em.
    rewrite -[128%N]/(2 ^ 7)%N; apply: dvdn_exp2l.
    move: hm; rewrite leq_eqVlt ltnS => /orP[/eqP m8|//].
    have : (gcdn (j - i) 256 <= j - i)%N by apply: dvdn_leq => //; apply: dvdn_gcdl.
    rewrite em m8 => h; have : (256 <= j - i)%N by exact: h.
    by move=> h2; have := leq_ltn_trans (leq_subr i j) hj; rewrite ltnNge h2.
  case/dvdnP: g128 => k ek.
  by move: (frob_mul k g); rewrite -ek => e128; rewrite e128 eqxx in z128.
by case: (size q).
Qed.
End Rabin.

Lemma fpoly_irr : irreducible_poly fpoly.
Proof.
split; first by rewrite size_fpoly.
move=> q q1 hq.
have f0 : fpoly != 0 by rewrite -size_poly_eq0 size_fpoly.
have q0 : q != 0 by apply: contraTneq hq => ->; rewrite dvd0p.
have [L [phi _]] := countable_algebraic_closure [countFieldType of K].
have [z hz] : exists z, root (map_poly phi q) z by apply/closed_rootP; rewrite size_map_poly.
have := @root_orbit L phi q z hq (eqP hz).
have := dvdp_leq f0 hq; rewrite size_fpoly => h1 h2.
rewrite -(dvdp_size_eqp hq) size_fpoly.
by move: h1 h2 q0; rewrite -size_poly_gt0; case: (size q) => // n; rewrite eqSS eqn_leq ltnS => -> ->.
Qed.

Definition zero256 : bytes := nseq 32 0%N.
Lemma polyof_zero : polyof zero256 = 0.
Proof. by apply/polyP => i; rewrite polyof_coef coef0 nth_nseq; case: ifP; rewrite N.bits_0. Qed.

Lemma word_zero : word256 zero256. Proof. by []. Qed.
Lemma bxor_self m : word256 m -> bxor m m = zero256.
Proof.
move=> h; apply: polyof_inj; [exact: word_bxor | exact: word_zero |].
by rewrite polyof_bxor // polyof_zero char2.
Qed.

Theorem C29_gf_mul_field :
  irreducible_poly ('X^256 + 'X^10 + 'X^5 + 'X^2 + 1 : {poly 'F_2}) /\
  (forall A B, word256 A -> word256 B -> binary_field_mul A B = zero256 -> A = zero256 \/ B = zero256) /\
  (forall A B C, word256 A -> word256 B -> word256 C -> A <> zero256 ->
     binary_field_mul A B = binary_field_mul A C -> B = C).
Proof.
have I : irreducible_poly ('X^256 + 'X^10 + 'X^5 + 'X^2 + 1 : {poly 'F_2}) by exact: fpoly_irr.
have sm A : word256 A -> fpoly %| polyof A -> A = zero256.
  move=> hA hd; apply: polyof_inj => //; rewrite polyof_zero; apply/eqP.
  apply: contraTT hd => nz; apply/negP => /(dvdp_leq nz); rewrite size_fpoly leqNgt ltnS.
  by rewrite (leq_trans (size_poly _ _)) //; case: hA => _ ->.
have Z A B : word256 A -> word256 B -> binary_field_mul A B = zero256 -> A = zero256 \/ B = zero256.
  move=> hA hB e; have [_] := C29_gf_mul_product hA hB; rewrite e polyof_zero -/fpoly => /esym/eqP hd.
  case: (boolP (fpoly %| polyof A)) => h; first by left; exact: (sm _ hA h).
  have cop : coprimep fpoly (polyof A).
    apply: contraR h => h; rewrite -(eqp_dvdl _ (apply_irredp I h (dvdp_gcdl _ _))); exact: dvdp_gcdr.
  right; apply: (sm _ hB); rewrite -(Gauss_dvdpr _ cop); exact: hd.
split; [exact: I | split; [exact: Z |]]; move=> A B C hA hB hC nz e.
have [_ _ D _ _] := C29_gf_mul_ring hA hB hC.
have [wm _] := C29_gf_mul_product hA hC.
have : bxor (binary_field_mul A B) (binary_field_mul A C) = zero256 by rewrite e; exact: bxor_self.
rewrite -D => E0; case: (Z _ _ hA (word_bxor hB hC) E0) => [h|ez]; first by case: (nz h).
apply: (polyof_inj hB hC); have := congr1 polyof ez; rewrite polyof_zero polyof_bxor; last first.
  by case: hB hC => _ -> [_ ->].
by move=> h; rewrite -[LHS]addr0 -(char2 (polyof C)) addrA h add0r.
Qed.
Print Assumptions C29_gf_mul_field.

(** non-vacuity *)
Example C29_hyps : word256 X256 /\ X256 <> zero256 /\ binary_field_mul one256 X256 = X256.
Proof.
split; [exact: word_X | split; [discriminate |]].
by have [_ _ _ _ h] := C29_gf_mul_ring word_X word_X word_X; exact: h.
Qed.
