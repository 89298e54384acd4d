(** C83: scalar arithmetic on big integers. *)
From mathcomp Require Import all_ssreflect all_algebra cyclic.
From Verif Require Import Lib.Res Lib.Bytes Curves.EcPointModel Curves.PropsEcPoint SharingV1.EdModel
  SharingV1.PropsEd Curves.EcScalarModel.
Set Implicit Arguments.
Unset Strict Implicit.
Unset Printing Implicit Defensive.
Import GRing.Theory Num.Theory Order.TTheory.
Local Open Scope ring_scope.

(** the call returns the representative in [0,n) of v *)
Definition returns (n : nat) (o : outcome int) (v : int) : Prop :=
  exists r, [/\ o = Ok r, 0 <= r < Posz n & (r = v %[mod Posz n])%Z].
(** the call returns q in [0,n) with q y = x modulo n *)
Definition quotient (n : nat) (o : outcome int) (x y : int) : Prop :=
  exists q, [/\ o = Ok q, 0 <= q < Posz n & (q * y = x %[mod Posz n])%Z].

Section P.
Variable n : nat.
Hypothesis n0 : (0 < n)%N.
Local Notation N := (Posz n).
Lemma N0 : N != 0. Proof. by case: (n) n0. Qed.
Lemma mod_range x : 0 <= big_mod n x < N.
Proof. by rewrite /big_mod modz_ge0 ?N0 // ltz_pmod. Qed.
Lemma retE x v : (x = v %[mod N])%Z -> returns n (Ok (big_mod n x)) v.
Proof. by move=> h; exists (big_mod n x); split=> //; [exact: mod_range|rewrite /big_mod modz_mod]. Qed.
Lemma quoE q x y : (q * y = x %[mod N])%Z -> quotient n (Ok (big_mod n q)) x y.
Proof. by move=> h; exists (big_mod n q); split=> //; [exact: mod_range|rewrite /big_mod modzMml]. Qed.
Lemma modB a b : ((a %% N)%Z - (b %% N)%Z = a - b %[mod N])%Z.
Proof. by rewrite -modzDm -modzNm !modz_mod modzNm modzDm. Qed.
Lemma invE y t : mod_inverse n y = Some t -> (t * y = 1 %[mod N])%Z.
Proof.
rewrite /mod_inverse; case: ifP => // hc [<-]; rewrite /big_mod modzMml.
case: egcdzP => u v huv _ /=; move: hc; rewrite /coprimez => /eqP hc.
by rewrite hc in huv; rewrite -huv addrC modzMDl.
Qed.
Lemma mod_mod x : (big_mod n x = x %[mod N])%Z.
Proof. exact: modz_mod. Qed.
Hypothesis pn : prime n.
Lemma copE y : coprimez y N = ~~ (N %| y)%Z.
Proof. by rewrite coprimezE dvdzE absz_nat coprime_sym prime_coprime. Qed.
Lemma dvd_mod y : (N %| big_mod n y)%Z = (N %| y)%Z.
Proof. by rewrite /big_mod; apply/dvdz_mod0P/dvdz_mod0P; rewrite modz_mod. Qed.
End P.

(** secp256k1 and P-256: for all integers, the results are the representatives in [0,n) of sum, difference,
    negative and product, and Div gives the quotient; Div by a multiple of the order panics. *)
Theorem C83_weierstrass (n : nat) (x y : int) : prime n ->
  [/\ returns n (w_add n x y) (x + y), returns n (w_sub n x y) (x - y),
      returns n (w_neg n x) (- x), returns n (w_mul n x y) (x * y) &
      if (Posz n %| y)%Z then w_div n x y = Panic else quotient n (w_div n x y) x y].
Proof.
move=> pn; have n0 := prime_gt0 pn; split; try exact: retE.
  by apply: retE => //; rewrite -[in RHS](add0r (- x)) -modzDml modzz.
rewrite /w_div /mod_inverse copE //; case hy: (Posz n %| y)%Z => //=.
have hi := @invE n y (big_mod n (egcdz y (Posz n)).1); rewrite /mod_inverse copE // hy in hi.
apply: quoE => //; rewrite -mulrA -modzMmr (hi erefl) modzMmr mulr1; reflexivity.
Qed.
Print Assumptions C83_weierstrass.

(** BLS12-381: the same, except that Div by a multiple of the order returns the dividend. *)
Theorem C83_bls (n : nat) (x y : int) : prime n ->
  [/\ returns n (b_add n x y) (x + y), returns n (b_sub n x y) (x - y),
      returns n (b_neg n x) (- x), returns n (b_mul n x y) (x * y) &
      if (Posz n %| y)%Z then returns n (b_div n x y) x else quotient n (b_div n x y) x y].
Proof.
move=> pn; have n0 := prime_gt0 pn; split.
- by apply: retE => //; rewrite /big_mod modzDm.
- by apply: retE => //; rewrite /big_mod modB.
- by apply: retE => //; rewrite /big_mod modzNm.
- by apply: retE => //; rewrite /big_mod modzMm.
rewrite /b_div /b_invert /mod_inverse copE // dvd_mod //; case hy: (Posz n %| y)%Z => /=; first exact: retE.
have hi := @invE n (big_mod n y) (big_mod n (egcdz (big_mod n y) (Posz n)).1).
rewrite /mod_inverse copE // dvd_mod // hy in hi.
apply: quoE => //; rewrite -mulrA -modzMmr -[in X in (_ * X)%R]modzMmr -/(big_mod n y) (hi erefl) modzMmr mulr1.
exact: mod_mod.
Qed.
Print Assumptions C83_bls.

Lemma e_readE n x : e_read n x =
  if (`|x| %% 256 ^ 32 < n)%N then Ok (Posz (`|x| %% 256 ^ 32)) else Panic.
Proof.
rewrite /e_read /big2scalar copy_rev; last exact: is_bytes_be.
by rewrite be_bytesK; case: ifP.
Qed.
Lemma e_read_small n x : (n <= 256 ^ 32)%N -> 0 <= x < Posz n -> e_read n x = Ok x.
Proof.
move=> hn /andP [x0 xn]; rewrite e_readE.
have h : (`|x| < n)%N by rewrite -ltz_nat gez0_abs.
have -> : (`|x| %% 256 ^ 32 = `|x|)%N by apply: modn_small; apply: leq_trans h hn.
by rewrite h gez0_abs.
Qed.
Lemma fermatE n v : prime n -> ~~ (n %| v)%N -> (v ^ (n - 2) * v = 1 %[mod n])%N.
Proof.
move=> pn hv; rewrite -expnSr.
have hn : (n - 2).+1 = totient n by rewrite totient_prime //; case: n pn {hv} => [|[|m]] // _; rewrite subn2.
by rewrite hn; apply: Euler_exp_totient; rewrite coprime_sym prime_coprime.
Qed.
Lemma PoszX v k : (Posz v) ^+ k = Posz (v ^ k)%N.
Proof. by elim: k => [//|k IH]; rewrite exprS IH expnS PoszM. Qed.

(** Ed25519, for arguments in [0,n): the same, except that Div by zero returns zero. *)
Theorem C83_ed25519 (n : nat) (x y : int) : prime n -> (n <= 256 ^ 32)%N ->
  0 <= x < Posz n -> 0 <= y < Posz n ->
  [/\ returns n (e_add n x y) (x + y), returns n (e_sub n x y) (x - y),
      returns n (e_neg n x) (- x), returns n (e_mul n x y) (x * y) &
      if y == 0 then (2 < n)%N -> returns n (e_div n x y) 0 else quotient n (e_div n x y) x y].
Proof.
move=> pn hn hx hy; have n0 := prime_gt0 pn.
have rx := e_read_small hn hx; have ry := e_read_small hn hy.
split; try by rewrite /e_add /e_sub /e_neg /e_mul rx ?ry; apply: retE.
rewrite /e_div rx ry [bind _ _]/=; case: eqP => [->|ny].
  move=> n2; have -> : (n - 2 = (n - 3).+1)%N by case: (n) n2 => [|[|[|m]]] // _; rewrite !subSS !subn0.
  by rewrite exprS mul0r {1 2}/big_mod mod0z mulr0; exact: (@retE n n0 0 0 erefl).
apply: quoE => //; rewrite -mulrA -modzMmr /big_mod modzMml modzMmr.
move: hy ny ry {hx rx} => /andP [y0 yn]; case: y y0 yn => // v _ vn ny _.
have hv : ~~ (n %| v)%N by rewrite gtnNdvd // lt0n; apply/eqP => h; apply: ny; rewrite h.
by rewrite PoszX -PoszM -modzMmr modz_nat (fermatE pn hv) -modz_nat modzMmr mulr1.
Qed.
Print Assumptions C83_ed25519.

(** Finding: outside [0,n) the Ed25519 methods do not reduce. They read the absolute value modulo 2^256 and
    panic when that is not below the order: a negative argument counts as its absolute value, 2^256
    counts as zero and n itself panics, although IsValid accepts every negative number. *)
Theorem C83_ed25519_refuted (n : nat) (x y : int) : (1 < n)%N -> (n < 256 ^ 32)%N ->
  [/\ e_read n x = if (`|x| %% 256 ^ 32 < n)%N then Ok (Posz (`|x| %% 256 ^ 32)) else Panic,
      [/\ e_add n (- x) y = e_add n x y, e_mul n (- x) y = e_mul n x y & e_neg n (- x) = e_neg n x],
      (x < 0 -> e_valid n x = true),
      e_add n (Posz (256 ^ 32)) y = e_add n 0 y &
      e_add n (Posz n) y = Panic].
Proof.
move=> n1 hn; split.
- exact: e_readE.
- by rewrite /e_add /e_mul /e_neg /e_read abszN.
- by move=> x0; apply: lt_trans x0 _; rewrite ltz_nat; apply: ltn_trans n1.
- rewrite /e_add !e_readE absz_nat absz0; move: (256 ^ 32)%N => M; by rewrite modnn mod0n.
- rewrite /e_add e_readE absz_nat; move: hn; move: (256 ^ 32)%N => M hn; by rewrite modn_small // ltnn.
Qed.
Print Assumptions C83_ed25519_refuted.

(** IsValid is membership in [0,n) for the first three curves; Bytes is the 32-byte big-endian form of such
    a number. *)
Theorem C83_valid (n : nat) (x : int) : (1 < n)%N -> (n <= 256 ^ 32)%N ->
  [/\ w_valid n x = (0 <= x < Posz n), b_valid n x = (0 <= x < Posz n), e_valid n x = (x < Posz n) &
      0 <= x < Posz n -> exists s,
        [/\ w_bytes x = Ok s, b_bytes x = Ok s, e_bytes n x = Ok s, size s = 32%N & Posz (be_val s) = x]].
Proof.
move=> n1 hn; split=> //.
- by rewrite /w_valid -leNgt.
- rewrite /b_valid /big_mod; apply/eqP/idP => [<-|h]; last exact: modz_small.
  by rewrite modz_ge0 ?ltz_pmod //; case: (n) n1.
- move=> hx; case/andP: (hx) => x0 xn.
  have h : (`|x| < n)%N by rewrite -ltz_nat gez0_abs.
  have fx : fits 32 x by apply: leq_trans h hn.
  have [s [hs zs bs vs]] := fillP fx; exists s; split=> //; last by rewrite vs gez0_abs.
  rewrite /e_bytes e_read_small // [bind _ _]/=; congr Ok.
  rewrite -vs -[s in RHS]revK -(le_valK (b := rev s)); last by rewrite /is_bytes all_rev.
  by rewrite size_rev zs /le_val revK.
Qed.
Print Assumptions C83_valid.
(** the three behaviours on division by zero differ *)
Theorem C83_div_zero_refuted (n : nat) : prime n -> (2 < n)%N -> (n <= 256 ^ 32)%N ->
  [/\ w_div n 1 0 = Panic, b_div n 1 0 = Ok 1 & e_div n 1 0 = Ok 0].
Proof.
move=> pn n2 hn; have h1 : 0 <= (1 : int) < Posz n by rewrite /= ltz_nat; apply: ltn_trans n2.
have h0 : 0 <= (0 : int) < Posz n by rewrite /= ltz_nat; apply: ltn_trans n2.
have uniq r v : 0 <= v < Posz n -> returns n (Ok r) v -> r = v.
  by move=> hv [r' [[->] hr]]; rewrite !modz_small.
split.
- by have [_ _ _ _] := C83_weierstrass 1 0 pn; rewrite dvdz0.
- have [_ _ _ _] := C83_bls 1 0 pn; rewrite dvdz0 => -[r [-> hr e]].
  by congr Ok; apply: uniq => //; exists r.
- have [_ _ _ _] := C83_ed25519 pn hn h1 h0; move=> /(_ n2) [r [-> hr e]].
  by congr Ok; apply: uniq => //; exists r.
Qed.
Print Assumptions C83_div_zero_refuted.
Example C83_hyps : [/\ prime 13, (2 < 13)%N, (13 <= 256 ^ 32)%N & quotient 13 (w_div 13 5 3%:Z) 5 3].
Proof.
have h : (13 <= 256 ^ 32)%N by apply: (leq_trans (n := 256 ^ 1)%N); [|exact: leq_pexp2l].
have [_ _ _ _ hq] := @C83_weierstrass 13 5 3%:Z isT.
by split; [| |exact: h|exact: hq].
Qed.
