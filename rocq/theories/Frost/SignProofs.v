From mathcomp Require Import all_ssreflect all_algebra zify.
From Coq Require Import Field.
From Verif Require Import Lib.Res Lib.FieldTac Lib.LmodTac Sharing.Model Sharing.Spec Sharing.Proofs
  Gennaro.Model Gennaro.Proofs Frost.SignModel.
Set Implicit Arguments.
Unset Strict Implicit.
Unset Printing Implicit Defensive.
Import GRing.Theory.
Local Open Scope ring_scope.

Section P.
Variables (F : fieldType) (G : lmodType F) (g : G).
Variables (Hash : seq nat -> F) (penc : G -> seq nat) (isneg : G -> bool).
Variable (derive : seq nat -> G -> G -> option F).
Add Field F_field : (f_fth F).

Section Honest.
Variables (S : seq nat) (f : {poly F}) (msg : seq nat) (d e : nat -> F).
Variables (ks o2 o3 : nat -> seq nat).
Hypotheses (S0 : (0 < size S)%N) (uS : uniq S) (szf : (size f <= size S)%N).
Hypothesis inj : {in S &, injective (fun i : nat => i%:R : F)}.
Hypotheses (m0 : (0 < size msg)%N) (gok : base_ok g).
Hypothesis nonces : forall i, i \in S -> d i != 0 /\ e i != 0.
Hypothesis ks_ok : forall i, i \in S -> perm_eq (ks i) S.
Hypothesis o2_ok : forall i, i \in S -> perm_eq (o2 i) S.
Hypothesis o3_ok : forall i, i \in S -> perm_eq (o3 i) S.

Definition lam (i : nat) : F := (\prod_(j <- S | j != i) (j%:R : F)) / \prod_(j <- S | j != i) (j%:R - i%:R).

Lemma lcE i : i \in S -> lagrange_coeffs F (ks i) = Ok [seq (j, lam j) | j <- ks i].
Proof.
move=> hi; rewrite /lagrange_coeffs lagrange_loopE //.
- congr Ok; apply: eq_map => j; rewrite /lam; congr (_, _ / _); exact: perm_big (ks_ok hi).
- by rewrite (perm_uniq (ks_ok hi)).
- by move=> a b; rewrite !(perm_mem (ks_ok hi)); apply: inj.
Qed.

Lemma lam_sum : \sum_(j <- S) lam j * f.[j%:R] = f.[0].
Proof.
have pS : perm_eq S (undup S) by rewrite undup_id.
have [ws [H1 H2 H3]] := lagrange_coeffs_correct pS inj.
move: H1; rewrite /lagrange_coeffs lagrange_loopE // => -[ew].
by rewrite -(H3 f szf) -ew big_map.
Qed.

Definition comms := flatten [seq (j %% 256)%N :: penc (d j *: g) ++ penc (e j *: g) | j <- S].
Definition rr j := Hash ((j %% 256)%N :: msg ++ comms).
Definition Rj j := rr j *: (e j *: g) + d j *: g.
Definition Rtot := \sum_(j <- S) Rj j.

Definition in2 js := [seq (j, (d j *: g, e j *: g)) | j <- js].

Lemma concatE js l : {subset l <= js} ->
  concat_comms penc (in2 js) l =
  Ok (flatten [seq (j %% 256)%N :: penc (d j *: g) ++ penc (e j *: g) | j <- l]).
Proof.
elim: l => [//|j l IH] hs /=; rewrite assoc_fun hs ?mem_head //= IH //=; last first.
  by move=> k hk; apply: hs; rewrite inE hk orbT.
by rewrite catA.
Qed.

Lemma r_loopE (s : signer G) js l ri Rs R : {subset S <= js} -> sg_cosigners s = S ->
  r_loop Hash penc s msg (in2 js) (in2 l) ri Rs R =
  Ok (if sg_id s \in l then Some (rr (sg_id s)) else ri,
      [seq (j, Rj j) | j <- rev l] ++ Rs, R + \sum_(j <- l) Rj j).
Proof.
move=> hs hc; elim: l ri Rs R => [|j l IH] ri Rs R /=.
  by rewrite big_nil addr0.
rewrite /blob hc concatE //= IH -/comms -/(rr j) -/(Rj j) big_cons -addrA inE rev_cons map_rcons cat_rcons.
by case: (sg_id s =P j) => [->|_] //=; case: ifP.
Qed.

Lemma all_someE (A : Type) (h : nat -> A) l : all_some [seq (j, Some (h j)) | j <- l] = Some [seq (j, h j) | j <- l].
Proof. by elim: l => [//|j l IH] /=; rewrite IH. Qed.

Definition s0 i : signer G := Signer f.[i%:R] (f.[i%:R] *: g) (f.[0] *: g) i (size S) 1
  [seq (j, lam j) | j <- ks i] S None None None [::] None [::] None.
Definition s1 i : signer G := Signer f.[i%:R] (f.[i%:R] *: g) (f.[0] *: g) i (size S) 2
  [seq (j, lam j) | j <- ks i] S (Some (d i)) (Some (e i)) None [::] None [::] None.
Variable c : F.
Definition sgn : F := if isneg Rtot then -1 else 1.
Definition s2 i : signer G := Signer f.[i%:R] (f.[i%:R] *: g) (f.[0] *: g) i (size S) 3
  [seq (j, lam j) | j <- ks i] S (Some 0) (Some 0) (Some (in2 (o2 i))) msg (Some c)
  [seq (j, Rj j) | j <- rev (o2 i)] (Some Rtot).
Definition s3 i : signer G := Signer f.[i%:R] (f.[i%:R] *: g) (f.[0] *: g) i (size S) 4
  [seq (j, lam j) | j <- ks i] S (Some 0) (Some 0) (Some (in2 (o2 i))) msg (Some c)
  [seq (j, Rj j) | j <- rev (o2 i)] (Some Rtot).
Definition zz i := lam i * f.[i%:R] * c + sgn * (e i * rr i + d i).
Definition ztot := \sum_(j <- S) zz j.

Lemma new_signerE i : i \in S ->
  new_signer f.[i%:R] (f.[i%:R] *: g) (f.[0] *: g) i (size S) [seq (j, lam j) | j <- ks i] S = Ok (s0 i).
Proof.
move=> hi; have hsz := perm_size (ks_ok hi).
rewrite /new_signer size_map hsz; have -> : (size S == 0)%N = false by lia.
rewrite /= ltnn eqxx /=; have -> : all (fun id => if assoc id [seq (j, lam j) | j <- ks i] is Some _ then true else false) S.
  by apply/allP => j hj; rewrite assoc_fun (perm_mem (ks_ok hi)) hj.
by [].
Qed.

Lemma sign_round1E i : sign_round1 g (s0 i) (d i) (e i) = (s1 i, Ok (d i *: g, e i *: g)).
Proof. by []. Qed.

Lemma gnz x : x != 0 -> (x *: g == 0) = false.
Proof. by move=> x0; apply/eqP => /gok /eqP; apply/negP. Qed.

Hypothesis cE : derive msg (f.[0] *: g) Rtot = Some c.

Lemma sign_round2E i : i \in S ->
  sign_round2 Hash penc isneg derive (s1 i) msg [seq (j, Some (d j *: g, e j *: g)) | j <- o2 i] =
  (s2 i, Ok (zz i, f.[i%:R] *: g)).
Proof.
move=> hi; rewrite /sign_round2 [sg_d _]/= [sg_e _]/=.
have [d0 e0] := nonces hi; rewrite (negbTE d0) (negbTE e0) [orb _ _]/=.
have -> : (size msg == 0)%N = false by lia.
rewrite [sg_round _]/= size_map (perm_size (o2_ok hi)) eqxx [negb _]/=.
rewrite all_someE -/(in2 (o2 i)).
have -> : has (fun x : nat * (G * G) => (x.2.1 == 0) || (x.2.2 == 0)) (in2 (o2 i)) = false.
  apply/negbTE/hasPn => x /mapP [j hj ->] /=; rewrite (perm_mem (o2_ok hi)) in hj.
  by have [dj ej] := nonces hj; rewrite !gnz.
rewrite r_loopE //; last by move=> j; rewrite (perm_mem (o2_ok hi)).
rewrite [sg_id _]/= (perm_mem (o2_ok hi)) hi add0r (perm_big _ (o2_ok hi)) -/Rtot cats0 [sg_vk _]/= cE.
rewrite [sg_lcoeffs _]/= assoc_fun (perm_mem (ks_ok hi)) hi.
rewrite [sg_t _]/= eqxx [negb _]/=.
congr (_, Ok (_, _)); rewrite /zz /sgn /=; case: ifP => _; f_fold F; ring.
Qed.

Lemma z_loopE i l z : i \in S -> {subset l <= S} ->
  z_loop g (s2 i) c (isneg Rtot) [seq (j, (zz j, f.[j%:R] *: g)) | j <- l] z = inl (z + \sum_(j <- l) zz j).
Proof.
move=> hi; elim: l z => [|j l IH] z hl; first by rewrite big_nil addr0.
have hj : j \in S by apply: hl; rewrite mem_head.
rewrite map_cons /z_loop -/(z_loop _ _ _ _).
rewrite [sg_lcoeffs _]/= assoc_fun (perm_mem (ks_ok hi)) hj [sg_Rs _]/= assoc_fun mem_rev (perm_mem (o2_ok hi)) hj.
have -> : (zz j *: g != (c * lam j) *: (f.[j%:R] *: g) + (if isneg Rtot then - Rj j else Rj j)) = false.
  apply/negbTE; rewrite negbK; apply/eqP; rewrite /zz /sgn /Rj; case: ifP => _; lm_reduce F G; ring.
rewrite IH ?big_cons ?addrA // => k hk; apply: hl; by rewrite inE hk orbT.
Qed.

Lemma ztotE : ztot *: g + - c *: (f.[0] *: g) = sgn *: Rtot.
Proof.
have -> : ztot = c * f.[0] + sgn * \sum_(j <- S) (e j * rr j + d j).
  rewrite /ztot /zz big_split /= -lam_sum mulr_sumr mulr_sumr; congr (_ + _).
  by apply: eq_bigr => j _; rewrite mulrC.
have -> : Rtot = (\sum_(j <- S) (e j * rr j + d j)) *: g.
  rewrite /Rtot scaler_suml; apply: eq_bigr => j _; rewrite /Rj; lm_reduce F G; ring.
by set x := \sum_(j <- S) _; lm_reduce F G; ring.
Qed.

Lemma sign_round3_neg i : isneg Rtot -> derive msg (f.[0] *: g) (- Rtot) <> Some c -> i \in S ->
  sign_round3 g isneg derive (s2 i) (Some [seq (j, Some (zz j, f.[j%:R] *: g)) | j <- o3 i]) =
  (s2 i, Failed G).
Proof.
move=> hneg hc hi; rewrite /sign_round3 [sg_d _]/= [sg_e _]/= eqxx [orb _ _]/= [sg_msg _]/=.
have -> : (size msg == 0)%N = false by lia.
rewrite all_someE [sg_comms _]/= !size_map (perm_size (o2_ok hi)) (perm_size (o3_ok hi)) eqxx /=.
rewrite z_loopE //; last by move=> j; rewrite (perm_mem (o3_ok hi)).
rewrite add0r (perm_big _ (o3_ok hi)) -/ztot ztotE {1}/sgn hneg scaleN1r.
case: derive hc => [c'|] hc; rewrite ?eqxx //=; case: eqP => // e'; by rewrite e' in hc.
Qed.

Hypothesis cE' : derive msg (f.[0] *: g) (sgn *: Rtot) = Some c.

Lemma verifyE : frost_verify g derive (f.[0] *: g) msg ztot c = Ok true.
Proof.
rewrite /frost_verify; have -> : (size msg == 0)%N = false by lia.
by rewrite ztotE cE' eqxx.
Qed.

Lemma sign_round3E i : i \in S ->
  sign_round3 g isneg derive (s2 i) (Some [seq (j, Some (zz j, f.[j%:R] *: g)) | j <- o3 i]) =
  (s3 i, Signed Rtot ztot c msg).
Proof.
move=> hi; rewrite /sign_round3 [sg_d _]/= [sg_e _]/= eqxx [orb _ _]/= [sg_msg _]/=.
have -> : (size msg == 0)%N = false by lia.
rewrite all_someE [sg_comms _]/= !size_map (perm_size (o2_ok hi)) (perm_size (o3_ok hi)) eqxx /=.
rewrite z_loopE //; last by move=> j; rewrite (perm_mem (o3_ok hi)).
by rewrite add0r (perm_big _ (o3_ok hi)) -/ztot ztotE cE' !eqxx.
Qed.
End Honest.

(* --- arbitrary inputs --- *)
Lemma z_loop_ok (s : signer G) c neg l z z' : z_loop g s c neg l z = inl z' ->
  z' = z + \sum_(x <- l) x.2.1 /\
  forall x, x \in l -> exists L R, [/\ assoc x.1 (sg_lcoeffs s) = Some L, assoc x.1 (sg_Rs s) = Some R &
    x.2.1 *: g = (if neg then - R else R) + (c * L) *: x.2.2].
Proof.
elim: l z => [|[id [zj vkj]] l IH] z /=; first by move=> [<-]; rewrite big_nil addr0.
case L: assoc => [Lj|] //; case R: assoc => [Rj|]; last by case: ifP.
case: eqP => //= e /IH [-> H]; split; first by rewrite big_cons addrA.
move=> x; rewrite inE => /orP [/eqP ->|]; last exact: H.
by exists Lj, Rj; split=> //=; rewrite e addrC.
Qed.

Lemma z_loop_err (s : signer G) c neg l z r : z_loop g s c neg l z = inr r ->
  if r is Signed _ _ _ _ then False else True.
Proof.
elim: l z => [|[id [zj vkj]] l IH] z //=.
case: assoc => [L|]; last by move=> [<-].
case: assoc => [R|]; last by case: ifP => _ [<-].
by case: ifP => _; [move=> [<-] | apply: IH].
Qed.

Lemma sign_round3_ok (s s' : signer G) inp R z c m :
  sign_round3 g isneg derive s inp = (s', Signed R z c m) ->
  [/\ frost_verify g derive (sg_vk s) m z c = Ok true, sg_round s = 3%N, sg_round s' = 4%N &
    m = sg_msg s] /\
  exists input,
  [/\ inp = Some [seq (x.1, Some x.2) | x <- input], size input = sg_t s, z = \sum_(x <- input) x.2.1,
      sg_c s = Some c /\ sg_R s = Some R &
      forall x, x \in input -> exists L Rj,
      [/\ assoc x.1 (sg_lcoeffs s) = Some L, assoc x.1 (sg_Rs s) = Some Rj &
      x.2.1 *: g = (if isneg R then - Rj else Rj) + (c * L) *: x.2.2]].
Proof.
rewrite /sign_round3; case: sg_d => [d|] //; case: sg_e => [e|] //; case: ifP => // _.
case: ifP => // m0; case: inp => [in0|] //; case A: all_some => [input|] //; case: ifP => // _.
case: eqP => //= r3; case: eqP => //= sz; case: sg_R => [R0|] //; case: sg_c => [c0|] //.
case Z: z_loop => [z0|e0]; last first.
  by have := z_loop_err Z => + [_ ee]; rewrite ee.
case D: derive => [tc|] //; case: eqP => //= ec [<- <- <- <- <-].
have [ez H] := z_loop_ok Z; split.
  by rewrite /frost_verify m0 D ec eqxx.
exists input; split=> //; last by rewrite ez add0r.
move: A; elim: in0 (input) => [|[j [a|]] l IH] inp //=; first by move=> [<-].
by case E: all_some => [l'|] //= [<-] /=; congr Some; congr cons; have [] := IH _ E.
Qed.

(* any partial signature passes the per-participant check with a suitable claimed key share *)
Lemma bad_partial_unblamed (s : signer G) c neg id L R zj rest z :
  assoc id (sg_lcoeffs s) = Some L -> assoc id (sg_Rs s) = Some R -> c * L != 0 ->
  exists vkj, z_loop g s c neg ((id, (zj, vkj)) :: rest) z = z_loop g s c neg rest (z + zj).
Proof.
move=> hL hR nz; exists ((c * L)^-1 *: (zj *: g - (if neg then - R else R))) => /=.
by rewrite hL hR scalerA divff // scale1r subrK eqxx.
Qed.

(* --- call sequences --- *)
Inductive call := Call1 of F & F | Call2 of seq nat & seq (nat * option (G * G))
  | Call3 of option (seq (nat * option (F * G))).
Inductive ret := Ret1 of outcome (G * G) | Ret2 of outcome (F * G) | Ret3 of res3 G.
Definition api (s : signer G) (a : call) : signer G * ret :=
  match a with
  | Call1 d e => let r := sign_round1 g s d e in (r.1, Ret1 r.2)
  | Call2 m i => let r := sign_round2 Hash penc isneg derive s m i in (r.1, Ret2 r.2)
  | Call3 i => let r := sign_round3 g isneg derive s i in (r.1, Ret3 r.2)
  end.
Fixpoint run (s : signer G) (l : seq call) : signer G * seq ret :=
  match l with
  | [::] => (s, [::])
  | a :: r => let '(s', x) := api s a in let '(s'', xs) := run s' r in (s'', x :: xs)
  end.
Definition is1 (r : ret) := if r is Ret1 (Ok _) then true else false.
Definition is2 (r : ret) := if r is Ret2 (Ok _) then true else false.
Definition is3 (r : ret) := if r is Ret3 (Signed _ _ _ _) then true else false.

(* what each call can do *)
Lemma sign_round2_cases (s : signer G) m i :
  let '(s', r) := sign_round2 Hash penc isneg derive s m i in
  if is_ok r then [/\ sg_round s = 2%N, sg_round s' = 3%N, sg_d s' = Some 0 & sg_e s' = Some 0]
  else sg_round s' = sg_round s.
Proof.
rewrite /sign_round2; case: sg_d => [d|] //; case: sg_e => [e|] //; case: ifP => // _; case: ifP => // _.
case: eqP => //= r2; case: eqP => //= _; case: all_some => [inp|] //; case: ifP => // _.
case: r_loop => [[[ri Rs] R]||] //; case: derive => [c|] //; case: assoc => [L|] //.
by case: ri.
Qed.

Lemma sign_round3_cases (s : signer G) i :
  let '(s', r) := sign_round3 g isneg derive s i in
  if r is Signed _ _ _ _ then sg_round s = 3%N /\ sg_round s' = 4%N else s' = s.
Proof.
rewrite /sign_round3; case Ed: sg_d => [d|] //; case Ee: sg_e => [e|] //; case: ifP => // _.
case: ifP => // m0; case: i => [in0|] //; case A: all_some => [input|] //; case: ifP => // _.
case: eqP => //= r3; case: eqP => //= sz; case: sg_R => [R0|] //; case: sg_c => [c0|] //.
case Z: z_loop => [z0|e0]; last first.
  by have := z_loop_err Z; case: (e0).
by case D: derive => [tc|] //; case: eqP.
Qed.

Lemma run_rounds (s : signer G) l : let '(s', rs) := run s l in
  (count is1 rs + (1 < sg_round s) <= 1)%N /\
  (count is2 rs + (2 < sg_round s) <= 1)%N /\
  (count is3 rs + (3 < sg_round s) <= 1)%N.
Proof.
elim: l s => [|a l IH] s /=; first by rewrite !add0n; do !split; case: ltnP.
case: a => [d e|m i|i] /=.
- have := IH (sign_round1 g s d e).1; case: run => s' rs /=.
  by rewrite /sign_round1; case: eqP => [->|] //=; lia.
- have := IH (sign_round2 Hash penc isneg derive s m i).1; case: run => s' rs /=.
  have := sign_round2_cases s m i; case: sign_round2 => s1 [o||] //=; try by move=> ->.
  by move=> [-> -> _ _]; lia.
- have := IH (sign_round3 g isneg derive s i).1; case: run => s' rs /=.
  have := sign_round3_cases s i; case: sign_round3 => s1 [R z c m|j||] //=; try by move=> ->.
  by move=> [-> ->]; lia.
Qed.

(* the value released by SignRound2 *)
Definition partial_form (sk : F) (lc : seq (nat * F)) (id : nat) (d e z : F) : Prop :=
  exists L r c sgn : F, [/\ assoc id lc = Some L, sgn = 1 \/ sgn = -1 &
    z = L * sk * c + sgn * (e * r + d)].

Definition same_key (s s' : signer G) : Prop :=
  [/\ sg_sk s' = sg_sk s, sg_lcoeffs s' = sg_lcoeffs s & sg_id s' = sg_id s].

Lemma sign_round2_value (s : signer G) m i (d e sgn : F) : sgn = 1 \/ sgn = -1 ->
  sg_d s = Some (sgn * d) -> sg_e s = Some (sgn * e) ->
  let '(s', r) := sign_round2 Hash penc isneg derive s m i in
  same_key s s' /\
  if r is Ok (z, _) then partial_form (sg_sk s) (sg_lcoeffs s) (sg_id s) d e z
  else exists sgn', [/\ sgn' = 1 \/ sgn' = -1, sg_d s' = Some (sgn' * d) & sg_e s' = Some (sgn' * e)].
Proof.
move=> hs hd he; rewrite /sign_round2 hd he.
do 4!(case: ifP => [_|_]; first by split; [|exists sgn]).
case: all_some => [inp|]; last by split; [|exists sgn].
case: ifP => [_|_]; first by split; [|exists sgn].
case: r_loop => [[[ri Rs] R]||]; try by split; [|exists sgn].
case: derive => [c|]; last by split; [|exists sgn].
case L: assoc => [Li|]; last by split; [|exists sgn].
pose sgn' := if isneg R then - sgn else sgn.
have hs' : sgn' = 1 \/ sgn' = -1.
  by rewrite /sgn'; case: ifP => _ //; case: hs => ->; [right | left; rewrite opprK].
have ee : (if isneg R then - (sgn * e) else sgn * e) = sgn' * e.
  by rewrite /sgn'; case: ifP; rewrite ?mulNr.
have ed : (if isneg R then - (sgn * d) else sgn * d) = sgn' * d.
  by rewrite /sgn'; case: ifP; rewrite ?mulNr.
rewrite ee ed; case: ri => [ri|]; last by split; [|exists sgn'].
split=> //; exists Li, ri, c, sgn'; split=> //.
by f_fold F; ring.
Qed.

Lemma sign_round1_key (s : signer G) d e : same_key s (sign_round1 g s d e).1.
Proof. by rewrite /sign_round1; case: eqP. Qed.

Lemma sign_round3_key (s : signer G) i : same_key s (sign_round3 g isneg derive s i).1 /\
  sg_d (sign_round3 g isneg derive s i).1 = sg_d s /\ sg_e (sign_round3 g isneg derive s i).1 = sg_e s.
Proof.
rewrite /sign_round3; case Ed: sg_d => [d|] //; case Ee: sg_e => [e|] //; case: ifP => // _.
case: ifP => // m0; case: i => [in0|] //; case A: all_some => [input|] //; case: ifP => // _.
case: eqP => //= r3; case: eqP => //= sz; case: sg_R => [R0|] //; case: sg_c => [c0|] //.
case Z: z_loop => [z0|e0] //.
by case D: derive => [tc|] //; case: eqP.
Qed.

Lemma run_no2 (s : signer G) l : (2 < sg_round s)%N -> ~~ has is2 (run s l).2.
Proof.
move=> h; have := run_rounds s l; case: run => s' rs [_ [h2 _]] /=.
by rewrite has_count; move: h2; rewrite h; lia.
Qed.

Lemma In_has (T : Type) (q : pred T) x (l : seq T) : List.In x l -> q x -> has q l.
Proof. by elim: l => [//|y l IH] /= [->|/IH h] hq; rewrite ?hq // h ?orbT. Qed.

Lemma run_value2 (s : signer G) l (d e sgn : F) : sgn = 1 \/ sgn = -1 ->
  sg_round s = 2%N -> sg_d s = Some (sgn * d) -> sg_e s = Some (sgn * e) ->
  forall z vk, List.In (Ret2 (Ok (z, vk))) (run s l).2 ->
  partial_form (sg_sk s) (sg_lcoeffs s) (sg_id s) d e z.
Proof.
elim: l s sgn => [//|a l IH] s sgn hs hr hd he z vk /=.
case: a => [d' e'|m i|i] /=.
- have -> : sign_round1 g s d' e' = (s, Err) by rewrite /sign_round1 hr.
  rewrite /=; case R: (run s l) => [s' rs] /= [//|h].
  by apply: (IH s sgn hs hr hd he z vk); rewrite R.
- have := sign_round2_cases s m i; have := sign_round2_value m i hs hd he.
  case E: sign_round2 => [s1 r] /= [[k1 k2 k3] H1] H2.
  case R: (run s1 l) => [s' rs] /= [[er]|h]; first by rewrite er in H1.
  have no2 : is_ok r = false.
    apply/negbTE/negP => okr; rewrite okr in H2; case: H2 => _ r3 _ _.
    have := @run_no2 s1 l; rewrite R r3 /= => /(_ isT) /negP [].
    exact: (In_has h).
  rewrite no2 in H2; rewrite -k1 -k2 -k3.
  have [sgn' [h1 h2 h3]] : exists sgn' : F, [/\ sgn' = 1 \/ sgn' = -1, sg_d s1 = Some (sgn' * d) & sg_e s1 = Some (sgn' * e)].
    by case: r no2 {E H2} H1.
  by apply: (IH s1 sgn' h1 _ h2 h3 z vk); rewrite ?R // H2.
- have [[k1 k2 k3] [k4 k5]] := sign_round3_key s i.
  have := sign_round3_cases s i.
  case E: sign_round3 k1 k2 k3 k4 k5 => [s1 r] /= k1 k2 k3 k4 k5 H.
  case R: (run s1 l) => [s' rs] /= [//|h].
  have hr1 : sg_round s1 = 2%N by case: r H {E} => [a b c0 d0 [e1 _]|?||] //; [rewrite e1 in hr|move=> ->|move=> ->|move=> ->].
  by rewrite -k1 -k2 -k3; apply: (IH s1 sgn hs hr1 _ _ z vk); rewrite ?R ?k4 ?k5.
Qed.

Lemma run_value1 (s : signer G) l : sg_round s = 1%N -> sg_d s = None ->
  forall z vk, List.In (Ret2 (Ok (z, vk))) (run s l).2 ->
  exists l1 d e l2, [/\ l = l1 ++ Call1 d e :: l2, ~~ has is1 (run s l1).2,
    ~~ has is2 (run s l1).2 & partial_form (sg_sk s) (sg_lcoeffs s) (sg_id s) d e z].
Proof.
elim: l s => [//|a l IH] s hr hd z vk /=.
have hn : forall s1 r, api s a = (s1, r) -> ~~ is1 r -> ~~ is2 r -> same_key s s1 ->
  sg_round s1 = 1%N -> sg_d s1 = None -> (forall o, r <> Ret2 (Ok o)) ->
  List.In (Ret2 (Ok (z, vk))) (let '(s', x) := api s a in let '(s'', xs) := run s' l in (s'', x :: xs)).2 ->
  exists l1 d e l2, [/\ a :: l = l1 ++ Call1 d e :: l2, ~~ has is1 (run s l1).2,
    ~~ has is2 (run s l1).2 & partial_form (sg_sk s) (sg_lcoeffs s) (sg_id s) d e z].
  move=> s1 r ea n1 n2 [k1 k2 k3] r1 d1 nr; rewrite ea; case R: (run s1 l) => [s' rs] /= [er|h].
    by case: (nr (z, vk)).
  have [|||l1 [d [e [l2 [h1 h2 h3 h4]]]]] := IH s1 _ _ z vk => //; try by rewrite R.
  exists (a :: l1), d, e, l2; rewrite h1 /= ea; case R1: (run s1 l1) h2 h3 => [s1' rs1] /= h2 h3.
  by rewrite (negbTE n1) (negbTE n2) /= -k1 -k2 -k3.
case: a hn => [d' e'|m i|i] hn.
- rewrite /= /sign_round1 hr /=; set s1 := Signer _ _ _ _ _ _ _ _ _ _ _ _ _ _ _.
  case R: (run s1 l) => [s' rs] /= [//|h].
  exists [::], d', e', l; split=> //.
  have -> : partial_form (sg_sk s) (sg_lcoeffs s) (sg_id s) d' e' z = partial_form (sg_sk s1) (sg_lcoeffs s1) (sg_id s1) d' e' z by [].
  by apply: (@run_value2 s1 l d' e' 1 _ _ _ _ z vk); rewrite ?mul1r ?R //; left.
- have e2 : sign_round2 Hash penc isneg derive s m i = (s, Err) by rewrite /sign_round2 hd.
  by apply: (hn s (Ret2 Err)) => //=; rewrite e2.
- have e3 : sign_round3 g isneg derive s i = (s, Panicked G) by rewrite /sign_round3 hd.
  by apply: (hn s (Ret3 (Panicked G))) => //=; rewrite e3.
Qed.
End P.
