From mathcomp Require Import all_ssreflect all_algebra all_fingroup cyclic zify.
From Verif Require Import Lib.Res Lib.Bytes Paillier.Model.
Set Implicit Arguments. Unset Strict Implicit. Unset Printing Implicit Defensive.

Lemma modn_eqM a b c d m : a = b %[mod m] -> c = d %[mod m] -> a * c = b * d %[mod m].
Proof. by move=> e1 e2; rewrite -modnMml e1 modnMml -modnMmr e2 modnMmr. Qed.

Lemma binom_mod k N e : (1 + k * N) ^ e = 1 + e * k * N %[mod N * N].
Proof.
elim: e => [|e IH]; first by rewrite expn0 !mul0n addn0.
rewrite expnS -modnMmr IH modnMmr.
have -> : (1 + k * N) * (1 + e * k * N) = (1 + e.+1 * k * N) + (k * e * k) * (N * N) by nia.
by rewrite addnC modnMDl.
Qed.

Lemma lcm_gcd x y : 0 < x -> lcm_ x y = lcmn x y.
Proof.
move=> x0; have g0 : 0 < gcdn x y by rewrite gcdn_gt0 x0.
by rewrite /lcm_ (negbTE (lt0n_neq0 g0)) /lcmn divn_mulAC // dvdn_gcdl.
Qed.

Lemma mod_invP g n i : 0 < g -> mod_inv g n = Some i -> g * i = 1 %[mod n].
Proof.
move=> g0; rewrite /mod_inv; case: ifP => // c [<-].
case: egcdnP => // km kn e _; rewrite /= modnMmr mulnC e.
by move: c; rewrite /coprime => /eqP ->; rewrite modnMDl.
Qed.

Section Key.
Variables p q : nat.
Hypotheses (pp : prime p) (pq : prime q) (npq : p != q).
Let N := p * q.
Hypothesis cN : coprime N (p.-1 * q.-1).

Let p1 : 1 < p. Proof. exact: prime_gt1. Qed.
Let q1 : 1 < q. Proof. exact: prime_gt1. Qed.
Lemma N_gt1 : 1 < N. Proof. rewrite /N; nia. Qed.
Let N1 := N_gt1.
Lemma cpq : coprime p q. Proof. by rewrite prime_coprime // dvdn_prime2. Qed.
Let lam := lcm_ p.-1 q.-1.
Lemma lamE : lam = lcmn p.-1 q.-1. Proof. by apply: lcm_gcd; lia. Qed.
Lemma lam_gt0 : 0 < lam. Proof. by rewrite lamE lcmn_gt0; lia. Qed.
Lemma lam_dvd : lam %| p.-1 * q.-1.
Proof. by rewrite lamE dvdn_lcm dvdn_mulr // dvdn_mull. Qed.
Lemma coprime_lam : coprime N lam.
Proof. exact: coprime_dvdr lam_dvd cN. Qed.

Lemma fermat r s k : prime s -> coprime r s -> s.-1 %| k -> r ^ k = 1 %[mod s].
Proof.
move=> ps c /dvdnP [j ->]; rewrite mulnC expnM -modnXm -(totient_prime ps) Euler_exp_totient //.
by rewrite modnXm exp1n.
Qed.

Lemma unit_lam r : coprime r N -> r ^ lam = 1 %[mod N].
Proof.
rewrite coprimeMr => /andP [cp cq]; apply/eqP; rewrite chinese_remainder ?cpq //.
by apply/andP; split; apply/eqP; apply: fermat => //; rewrite lamE ?dvdn_lcml ?dvdn_lcmr.
Qed.

Lemma mod1_form x : x = 1 %[mod N] -> exists k, x = 1 + k * N.
Proof. by rewrite (modn_small N1) => e; exists (x %/ N); rewrite {1}(divn_eq x N) e addnC. Qed.

Lemma unit_lamN r : coprime r N -> r ^ (lam * N) = 1 %[mod N * N].
Proof.
move/unit_lam/mod1_form => [k e]; rewrite expnM e binom_mod.
have -> : N * k * N = k * (N * N) by rewrite mulnAC mulnC.
by rewrite addnC modnMDl.
Qed.

(** a ciphertext of m: what encryption and the homomorphic operations produce *)
Definition enc_of (c m : nat) := exists2 r, coprime r N & c = (N + 1) ^ m * r ^ N %[mod N * N].

Lemma enc_lam c m : enc_of c m -> c ^ lam = 1 + (m * lam %% N) * N %[mod N * N].
Proof.
case=> r cr e; rewrite -modnXm e modnXm expnMn -!expnM [N * lam]mulnC.
rewrite -modnMmr unit_lamN // modnMmr muln1 addnC -{1}(mul1n N) binom_mod muln1.
have {1}-> := divn_eq (m * lam) N.
have -> : (m * lam %/ N * N + m * lam %% N) * N = m * lam %/ N * (N * N) + m * lam %% N * N by nia.
by rewrite addnCA modnMDl.
Qed.

Lemma small_form a : a < N -> 1 + a * N < N * N.
Proof. by move=> h; have := N1; nia. Qed.

Lemma l_of x a : a < N -> x = 1 + a * N %[mod N * N] -> l_fun N (N * N) (x %% (N * N)) = Ok a.
Proof.
move=> ha e; rewrite /l_fun e (modn_small (small_form ha)).
have -> : (N == 0) = false by apply/negbTE; rewrite -lt0n ltnW.
by rewrite addnC modnMDl (modn_small N1) eqxx addnC small_form //= addKn mulnK // ltnW.
Qed.

Lemma mulk_inj u a b : u * a = 1 %[mod N] -> b * u * a = b %[mod N].
Proof. by move=> e; rewrite -mulnA -modnMmr e modnMmr muln1. Qed.

Lemma new_key_ok : exists u, new_secret_key p q = Ok (SecretKey N (N * N) lam (p.-1 * q.-1) u) /\
  lam * u = 1 %[mod N].
Proof.
rewrite /new_secret_key -/N -/lam.
have e : (N + 1) ^ lam = 1 + (lam %% N) * N %[mod N * N].
  have h : enc_of (N + 1) 1 by exists 1; rewrite ?coprime1n // expn1 exp1n muln1.
  by rewrite (enc_lam h) mul1n.
rewrite (l_of _ e) ?ltn_mod 1?ltnW //=.
have cl : coprime (lam %% N) N by rewrite coprime_modl coprime_sym coprime_lam.
have l0 : 0 < lam %% N.
  rewrite lt0n; apply/negP => /eqP h; move: cl; rewrite h /coprime gcd0n; have := N1; lia.
case E: mod_inv => [i|]; last by move: E; rewrite /mod_inv cl.
by exists i; split=> //; rewrite -modnMml (mod_invP l0 E).
Qed.

Lemma decrypt_enc sk c m : new_secret_key p q = Ok sk -> c < N * N -> enc_of c m ->
  decrypt sk (Some (Posz c)) = Ok (m %% N).
Proof.
have [u [-> hu]] := new_key_ok => -[<-] hc h; rewrite /decrypt /= hc /=.
rewrite (l_of _ (enc_lam h)) ?ltn_mod 1?ltnW //=.
by rewrite modnMml (mulk_inj _ hu).
Qed.

Lemma encrypt_enc m r : m < N -> 0 < r < N -> coprime r N ->
  exists2 c, encrypt N (Some (Posz m)) (Some (Posz r)) = Ok c & c < N * N /\ enc_of c m.
Proof.
move=> hm hr cr; rewrite /encrypt /= hm; case/andP: hr => r0 ->.
rewrite (negbTE (lt0n_neq0 r0)); cbn [negb].
have NN : 0 < N * N by rewrite muln_gt0 (ltnW N1).
eexists; first by []; split; first by rewrite ltn_mod.
by exists r => //; rewrite modn_mod modnMml modnMmr.
Qed.

Lemma enc_mul c d m m' : enc_of c m -> enc_of d m' -> enc_of (c * d %% (N * N)) (m + m').
Proof.
case=> r cr e [s cs e']; exists (r * s); first by rewrite coprimeMl cr.
rewrite modn_mod (modn_eqM e e') expnD expnMn; congr modn; rewrite !mulnA; congr muln.
by rewrite -!mulnA; congr muln; rewrite mulnC.
Qed.

Lemma enc_exp c m k : enc_of c m -> enc_of (c ^ k %% (N * N)) (k * m).
Proof.
case=> r cr e; exists (r ^ k); first exact: coprimeXl.
by rewrite modn_mod -modnXm e modnXm expnMn -!expnM [m * k]mulnC [N * k]mulnC.
Qed.

Lemma decrypt_ok sk c : new_secret_key p q = Ok sk -> 
  is_ok (decrypt sk (Some (Posz c))) = (c < N * N) && coprime c N.
Proof.
have [u [-> hu]] := new_key_ok => -[<-]; rewrite /decrypt /=.
case: ltnP => // hc /=.
case: (boolP (coprime c N)) => cc.
  have e := unit_lam cc; have [k ek] := mod1_form e.
  have : c ^ lam = 1 + (k %% N) * N %[mod N * N].
    rewrite ek {1}(divn_eq k N) mulnDl -mulnA addnCA modnMDl //.
  by move/l_of => ->; rewrite ?ltn_mod 1?ltnW.
rewrite /l_fun; case: eqP => // _; case: eqP => //= e; exfalso.
move/negP: cc; apply; have e2 : c ^ lam %% N = 1.
  by rewrite -e modn_dvdm // dvdn_mulr.
have : coprime (c ^ lam) N by rewrite -coprime_modl e2 coprime1n.
by rewrite coprime_pexpl // lam_gt0.
Qed.

Lemma pow_dvd1 x s e : prime s -> 0 < e -> s.-1 %| e.-1 -> x ^ e = x %[mod s].
Proof.
move=> ps e0 d; case: (boolP (coprime x s)) => c.
  by rewrite -(prednK e0) expnS -modnMmr (fermat ps c d) modnMmr muln1.
have dx : s %| x by move: c; rewrite coprime_sym prime_coprime // negbK.
have : s %| x ^ e by apply: dvdn_exp.
by move: dx; rewrite /dvdn => /eqP -> /eqP ->.
Qed.

Lemma tot_gt1 : 1 < p.-1 * q.-1.
Proof. by move/eqP: npq => h; have := p1; have := q1; nia. Qed.

Lemma psf_exp M x : mod_inv N (p.-1 * q.-1) = Some M -> (x ^ M) ^ N = x %[mod N].
Proof.
move/(mod_invP (ltnW N1)) => e; rewrite -expnM mulnC.
rewrite (modn_small tot_gt1) in e.
have h := divn_eq (N * M) (p.-1 * q.-1); rewrite e in h.
have e0 : 0 < N * M by rewrite h addn1.
have ep : (N * M).-1 = (N * M) %/ (p.-1 * q.-1) * (p.-1 * q.-1) by rewrite {1}h addn1.
have dp : p.-1 %| (N * M).-1 by rewrite ep dvdn_mull // dvdn_mulr.
have dq : q.-1 %| (N * M).-1 by rewrite ep dvdn_mull // dvdn_mull.
apply/eqP; rewrite chinese_remainder ?cpq //; apply/andP.
by split; apply/eqP; [exact: (pow_dvd1 x pp e0 dp) | exact: (pow_dvd1 x pq e0 dq)].
Qed.
End Key.

Lemma exp_modE y e N : exp_mod (Posz y) e N = y ^ e %% N.
Proof. rewrite /exp_mod; have -> : (Posz y ^+ e)%R = Posz (y ^ e); last by rewrite modz_nat.
by elim: e => [|e IH]; rewrite ?GRing.expr0 ?expn0 // GRing.exprS expnS IH PoszM. Qed.

Lemma psf_loop_ok N (ys : seq nat) xs :
  all2 (fun y x => y ^ N %% N == x) ys xs -> psf_loop N (map (Some \o Posz) ys) xs = Ok tt.
Proof. by elim: xs ys => [|x xs IH] [|y ys] //= /andP [/eqP <- h]; rewrite exp_modE eqxx /= IH. Qed.

Lemma psf_loop_exact N proof xs :
  psf_loop N proof xs = Ok tt ->
  size xs <= size proof /\ forall j, j < size xs -> exists y, nth None proof j = Some y /\ exp_mod y N N = nth 0 xs j.
Proof.
elim: xs proof => [|x xs IH] proof; first by move=> _; split.
case: proof => [|[y|] proof] //=.
case: eqP => //= e /IH [hs h]; split=> // -[|j] hj /=; first by exists y.
exact: h.
Qed.

Lemma psf_loop_short N proof xs : all isSome proof -> size proof < size xs ->
  (forall j, j < size proof -> exists y, nth None proof j = Some y /\ exp_mod y N N = nth 0 xs j) ->
  psf_loop N proof xs = Panic.
Proof.
elim: xs proof => [|x xs IH] [|[y|] proof] //= a s h.
have [z [[<-] e]] := h 0 isT; rewrite e /= eqxx /=; apply: IH => // j hj.
exact: (h j.+1 hj).
Qed.
