(** The isogeny stage: polynomial arithmetic on number lists, and the fact that Map lands on the target curve. *)
From Coq Require Import NArith Nnat.
From mathcomp Require Import all_ssreflect all_algebra all_fingroup all_solvable all_field.
From Coq Require Import Ring_theory Field.
From Verif Require Import Lib.FieldTac Curves.SswuModel Curves.SswuProofs Curves.SswuConst.
Set Implicit Arguments.
Unset Strict Implicit.
Unset Printing Implicit Defensive.
Import GRing.Theory.
Delimit Scope N_scope with Ns.
Local Open Scope ring_scope.

Section Alg.
Variable K : fieldType.
Add Field K_field3 : (f_fth K).
Lemma cub_alg (a b x : K) : b + x * (a + x * (0 + x * (1 + x * 0))) = x ^+ 3 + a * x + b.
Proof. by f_fold K; ring. Qed.
Lemma iso_alg (g y xn xd yn yd : K) : xd <> 0 -> yd <> 0 -> y * y = g ->
  g * (yn * yn * (xd * (xd * xd))) = (xn * (xn * xn) + 7%:R * (xd * (xd * xd))) * (yd * yd) ->
  (yn * yd^-1 * y) ^+ 2 = (xn * xd^-1) ^+ 3 + 7%:R.
Proof.
move=> hx hy <-; move: (7%:R : K) => b h.
have e : (yn * yd^-1 * y) ^+ 2 = (y * y * (yn * yn * (xd * (xd * xd)))) * ((yd * yd) * (xd * (xd * xd)))^-1.
  by f_fold K; field.
by rewrite e h; f_fold K; field.
Qed.
End Alg.

Section Horner.
Variable F : fieldType.
Definition hev (l : seq F) (x : F) : F := foldr (fun c acc => c + x * acc) 0 l.
Lemma isoKE_gen (x : F) (k : nat) (acc : F) (ks : seq F) (o : F) : (size ks <= k)%N ->
  foldl (fun out xk => out + xk.1 * xk.2) o (zip (powers x acc k) ks) = o + acc * hev ks x.
Proof.
elim: ks k acc o => [|c ks IH] [|k] acc o //= h; first by rewrite mulr0 addr0.
  by rewrite mulr0 addr0.
by rewrite IH // mulrDr addrA !mulrA.
Qed.
Lemma isoKE x k ks : (size ks <= k)%N -> isoK (powers x 1 k) ks = hev ks x.
Proof. by move=> h; rewrite /isoK isoKE_gen // add0r mul1r. Qed.
End Horner.

Section Iso.
Variable F : finFieldType.
Variable P : N.
Hypothesis cardF : N.of_nat #|F| = P.
Local Notation z := (fz F).
Fixpoint padd (a b : seq N) : seq N :=
  match a, b with
  | [::], _ => b
  | _, [::] => a
  | x :: a', y :: b' => ((x + y) mod P)%Ns :: padd a' b'
  end.
Fixpoint pmul (a b : seq N) : seq N :=
  if a is x :: a' then padd [seq ((x * y) mod P)%Ns | y <- b] (0%Ns :: pmul a' b) else [::].
Definition ev (l : seq N) (x : F) : F := hev [seq z c | c <- l] x.
Lemma ev_add a b x : ev (padd a b) x = ev a x + ev b x.
Proof.
elim: a b => [|c a IH] [|d b]; rewrite /ev /= ?add0r ?addr0 // -/(ev _ _) IH (fz_mod cardF) fzD mulrDr.
by rewrite !addrA; congr (_ + _); rewrite addrAC.
Qed.
Lemma ev_scale c b x : ev [seq ((c * y) mod P)%Ns | y <- b] x = z c * ev b x.
Proof.
elim: b => [|d b IH]; rewrite /ev /= ?mulr0 // -/(ev _ _) IH (fz_mod cardF) fzM mulrDr.
by congr (_ + _); rewrite mulrCA.
Qed.
Lemma ev_mul a b x : ev (pmul a b) x = ev a x * ev b x.
Proof.
elim: a => [|c a IH]; first by rewrite /ev /= mul0r.
rewrite [pmul _ _]/= ev_add ev_scale.
have -> : ev (0%Ns :: pmul a b) x = x * ev (pmul a b) x by rewrite /ev /= add0r.
by rewrite IH {3}/ev /= -/(ev a x) mulrDl mulrA.
Qed.
Definition peq (a b : seq N) : bool := (size a == size b) && all2 N.eqb a b.
Lemma peqP a b : peq a b -> a = b.
Proof.
case/andP => _; elim: a b => [|x a IH] [|y b] //= /andP [/N.eqb_eq -> /IH ->] //.
Qed.

Definition chkiso (r ri A B : N) (xn xd yn yd : seq N) (s wn wi c1 : N) : bool :=
  let m x := ((x * ri) mod P)%Ns in
  let xn := map m xn in let xd := map m xd in let yn := map m yn in let yd := map m yd in
  let xd3 := pmul xd (pmul xd xd) in
  let x0 := (P - s)%Ns in
  [&& (c1 * 4 + 3 =? P)%Ns, ((r * ri) mod P =? 1 mod P)%Ns,
      peq (pmul [:: m B; m A; 0%Ns; 1%Ns] (pmul (pmul yn yn) xd3))
          (pmul (padd (pmul xn (pmul xn xn)) (pmul [:: 7%Ns] xd3)) (pmul yd yd)),
      peq xd (pmul [:: s; 1%Ns] [:: s; 1%Ns]) && peq yd (pmul [:: s; 1%Ns] (pmul [:: s; 1%Ns] [:: s; 1%Ns])) &
      [&& ((s + x0) mod P =? 0 mod P)%Ns, ((wn * wi) mod P =? 1 mod P)%Ns &
          ((wn * wn + (x0 * x0 * x0 + m A * x0 + m B)) mod P =? 0 mod P)%Ns]].

(** an IsogenyParams value (native/isogeny.go:4-9) from its limbs *)
Definition mk_iso r xn xd yn yd : iso F :=
  Iso [seq mont F r c | c <- xn] [seq mont F r c | c <- xd] [seq mont F r c | c <- yn] [seq mont F r c | c <- yd].

Lemma m1_nonsq c1 (a : F) : (c1 * 4 + 3 = #|F|)%N -> a * a <> -1.
Proof.
move=> hc h; have a0 : a <> 0 by move=> e; move/eqP: h; rewrite e mul0r eq_sym oppr_eq0 oner_eq0.
have := sqr_half hc a0; rewrite h addn1 exprS mulnC exprM sqrrN !expr1n mulr1 => e.
have e2 : 1 + 1 = 0 :> F by rewrite -{1}e addNr.
have := fzP0 cardF; rewrite -cardF -hc /fz Nat2N.id natrD natrM.
rewrite (_ : 4%:R = (1 + 1) * (1 + 1) :> F); last by rewrite -mulr2n -natrM.
rewrite e2 !mulr0 add0r (_ : 3%:R = 1 + (1 + 1) :> F); last by rewrite -mulr2n -mulrS.
by rewrite e2 addr0 => /eqP; rewrite oner_eq0.
Qed.

Local Opaque pmul padd.
Lemma chkiso_ok r ri A B xn xd yn yd s wn wi c1 (x y : F) : chkiso r ri A B xn xd yn yd s wn wi c1 ->
  y ^+ 2 = x ^+ 3 + mont F r A * x + mont F r B ->
  let: (x', y') := isoMap (mk_iso r xn xd yn yd) x y in y' ^+ 2 = x' ^+ 3 + 7%:R.
Proof.
case/and5P => /N.eqb_eq h1 /N.eqb_eq h2 /peqP h3 /andP [/peqP h4 /peqP h5] /and3P [/N.eqb_eq h6 /N.eqb_eq h7 /N.eqb_eq h8] hy.
have mE c : mont F r c = z ((c * ri) mod P)%Ns by apply: montE.
have hc : (N.to_nat c1 * 4 + 3 = #|F|)%N.
  by apply: Nat2N.inj; rewrite cardF -h1 -plusE -multE Nat2N.inj_add Nat2N.inj_mul N2Nat.id.
set m := (fun c => ((c * ri) mod P)%Ns) in h3 h4 h5 h8.
have mapE l : [seq mont F r c | c <- l] = [seq z c | c <- map m l].
  by rewrite -map_comp; apply: eq_map => c; rewrite /= mE.
rewrite /isoMap /mk_iso [i_xnum _]/= [i_xden _]/= [i_ynum _]/= [i_yden _]/=.
rewrite !isoKE ?leq_maxl ?leq_maxr //; try by rewrite !leq_max leqnn ?orbT.
rewrite !mapE -!/(ev _ x).
have evs : ev [:: s; 1%Ns] x = z s + x by rewrite /ev /= mulr0 addr0 fz1 mulr1.
have xdE : ev (map m xd) x = (z s + x) * (z s + x) by rewrite h4 ev_mul evs.
have ydE : ev (map m yd) x = (z s + x) * ((z s + x) * (z s + x)) by rewrite h5 !ev_mul evs.
have sx : z s + x <> 0.
  move=> e0; have x0 : z (P - s)%Ns = x.
    have : z s + z (P - s)%Ns = 0 by rewrite -fzD (fz_eqm cardF h6).
    by rewrite -e0 => /addrI.
  have wz : z wn * z wi = 1 by rewrite -fzM (fz_eqm cardF h7).
  have : z wn * z wn + y ^+ 2 = 0.
    rewrite hy -x0 exprS expr2 mulrA !mE -/(m A) -/(m B).
    by rewrite -!fzM -!fzD (fz_eqm cardF h8).
  move/eqP; rewrite addrC addr_eq0 expr2 => /eqP e.
  apply: (m1_nonsq (a := y * z wi) hc).
  by rewrite mulrACA e mulNr mulrACA wz mulr1.
have xd0 : ev (map m xd) x <> 0 by rewrite xdE => /eqP; rewrite mulf_eq0 orbb => /eqP.
have yd0 : ev (map m yd) x <> 0 by rewrite ydE => /eqP; rewrite !mulf_eq0 !orbb => /eqP.
rewrite /finv; move/eqP/negPf: (xd0) => ->; move/eqP/negPf: (yd0) => ->; rewrite /select.
apply: (iso_alg xd0 yd0 (esym (expr2 y))).
have := congr1 (fun l => ev l x) h3; rewrite !ev_mul !ev_add !ev_mul.
have -> : ev [:: m B; m A; 0%Ns; 1%Ns] x = y ^+ 2.
  by rewrite hy !mE; exact: cub_alg.
rewrite ev_scale !ev_mul.
have -> : ev [:: 0%Ns] x = 0 by rewrite /ev /= mulr0 addr0.
by rewrite addr0.
Qed.
End Iso.
