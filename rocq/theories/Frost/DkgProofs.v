From Coq Require Import ZArith Field.
From mathcomp Require Import all_ssreflect all_algebra zify.
From Verif Require Import Lib.Res Lib.FieldTac Lib.LmodTac Sharing.Model Sharing.Spec Sharing.Proofs
  Gennaro.Model Gennaro.Spec Gennaro.Covers Gennaro.Proofs Frost.DkgModel.
Set Implicit Arguments.
Unset Strict Implicit.
Unset Printing Implicit Defensive.
Import GRing.Theory.
Local Open Scope ring_scope.

Section P.
Variables (F : fieldType) (G : lmodType F) (g : G).
Variables (B : Type) (enc : F -> B) (dec : B -> option F) (codec : codec_ok enc dec).
Variables (Hash : seq nat -> F) (penc : G -> seq nat).
Add Field F_field : (f_fth F).
Notation mks := (@mk_share F B enc).
Notation share := (share B).

Lemma drop_mks (n : nat) cs id : (0 < id <= n)%N ->
  ohead (drop id.-1 [seq mks cs i | i <- iota 0 n]) = Some (mks cs id.-1).
Proof.
move=> hid; rewrite -map_drop drop_iota.
by have -> : (n - id.-1 = (n - id).+1)%N by lia.
Qed.

Lemma p2p_sendsE n cs ids : (forall id, id \in ids -> (0 < id <= n)%N) ->
  p2p_sends [seq mks cs i | i <- iota 0 n] ids = Ok [seq (id, mks cs id.-1) | id <- ids].
Proof.
elim: ids => [//|id ids IH] hids.
have hid := hids id (mem_head _ _).
rewrite [p2p_sends _ _]/= drop_mks // IH; last by move=> j hj; apply: hids; rewrite inE hj orbT.
by case: id hid {hids} => [|id].
Qed.

Section Net.
Variables (n t : nat) (ctx : seq nat) (sec : nat -> F) (secret : nat -> option (option F)).
Variables (rnd : nat -> nat -> F) (oth o2 o2' : nat -> seq nat).
Hypotheses (t2 : (2 <= t)%N) (tn : (t <= n)%N) (n255 : (n <= 255)%N) (gok : base_ok g).
Hypothesis secretE : forall i, secret i = Some (Some (sec i)) \/ (secret i = None /\ rnd i 0%N = sec i).
Definition ac i := sec i :: mkseq (fun k => rnd i (2 + k)%N) t.-1.
Definition chal i := Hash (pok_msg penc i (ctx_byte ctx) (sec i *: g) (rnd i 1%N *: g)).
Hypothesis coef0 : forall i, (1 <= i <= n)%N -> forall a, a \in ac i -> a != 0.
Hypothesis chal0 : forall i, (1 <= i <= n)%N -> chal i != 0.
Hypothesis share0 : forall i j, (1 <= i <= n)%N -> (1 <= j <= n)%N -> i != j -> (Poly (ac j)).[i%:R] != 0.
Hypothesis oth_ok : forall i, (1 <= i <= n)%N -> covers n i (oth i) /\ i \notin oth i.
Hypothesis o2_ok : forall i, (1 <= i <= n)%N -> covers n i (o2 i).
Hypothesis o2'_ok : forall i, (1 <= i <= n)%N -> covers n i (o2' i) /\ i \notin o2' i.

Let t0 : (0 < t)%N. Proof. exact: leq_trans t2. Qed.

Lemma sec0 i : (1 <= i <= n)%N -> sec i != 0.
Proof. by move/coef0; apply; rewrite mem_head. Qed.

Lemma g_neq0 : g != 0.
Proof.
apply/eqP => e; have := gok (a := 1); rewrite e scaler0 => /(_ erefl) /eqP.
by rewrite oner_eq0.
Qed.

Definition com i := [seq c *: g | c <- ac i].
Definition shs i := [seq mks (ac i) k | k <- iota 0 n].
Definition p0 i : dkg G B :=
  Dkg 1 (oth i) i None None None (Shamir t n) [::] [::] (ctx_byte ctx).
Definition p1 i : dkg G B :=
  Dkg 2 (oth i) i None None None (Shamir t n) (com i) (shs i) (ctx_byte ctx).
Definition bc i := Bcast1 (com i) (sec i * chal i + rnd i 1%N) (chal i).
Definition sd i := [seq (id, mks (ac i) id.-1) | id <- oth i].
Definition joint : {poly F} := \sum_(1 <= j < n.+1) Poly (ac j).
Definition p2 i : dkg G B :=
  Dkg 3 (oth i) i (Some joint.[i%:R]) (Some (joint.[0] *: g)) (Some (joint.[i%:R] *: g))
    (Shamir t n) (com i) (shs i) (ctx_byte ctx).

Lemma new_dkgE i : (1 <= i <= n)%N -> new_dkg G B i t ctx (Some tt) (oth i) = Ok (p0 i).
Proof.
move=> hi; have [hc ni] := oth_ok hi; rewrite /new_dkg.
have hs : (size (oth i)).+1 = n by apply: covers_size ni.
have -> : (size (oth i) == 0)%N = false by apply/eqP => e; move: hs tn t2; rewrite e; lia.
rewrite hs /new_shamir ltnNge tn /= ltnNge t2 /= ltnNge n255 /=.
by rewrite undup_id //; case: hc.
Qed.

Lemma round1E i : (1 <= i <= n)%N ->
  round1 g enc Hash penc (p0 i) (secret i) (rnd i) = (p1 i, Ok (bc i, sd i)).
Proof.
move=> hi; have [hc ni] := oth_ok hi; rewrite /round1 /=.
have hs : (size (oth i)).+1 = n by apply: covers_size ni.
rewrite hs ltnn ltnNge tn /=.
have -> : match secret i with
   | Some (Some s) => if s == 0 then Err else Ok s
   | Some None => Err
   | None => Ok (rnd i 0%N) end = Ok (sec i).
  by case: (secretE i) => [->|[-> ->]] //; rewrite (negbTE (sec0 hi)).
rewrite /feldman_split (negbTE (sec0 hi)) get_poly_and_sharesE //= -/(ac i).
rewrite p2p_sendsE // => j hj.
have nj : j != i by apply: contra ni => /eqP e; rewrite -{1}e.
by rewrite -(hc.2 _ nj).
Qed.

Definition inbox i js := pmap (fun j => omap (pair j) (assoc i (sd j))) js.

Lemma mem_oth i j : (1 <= i <= n)%N -> (1 <= j <= n)%N -> i != j -> i \in oth j.
Proof. by move=> hi hj nj; have [hc _] := oth_ok hj; rewrite (hc.2 _ nj). Qed.

Lemma inboxE i js : (1 <= i <= n)%N -> (forall j, j \in js -> (1 <= j <= n)%N && (j != i)) ->
  inbox i js = [seq (j, mks (ac j) i.-1) | j <- js].
Proof.
move=> hi; elim: js => [//|j js IH] hjs; rewrite /inbox /=.
have /andP [hj nj] := hjs j (mem_head _ _).
rewrite /sd assoc_fun mem_oth // 1?eq_sym //= -/(inbox i js) IH // => k hk.
by apply: hjs; rewrite inE hk orbT.
Qed.

Lemma inbox2E i : (1 <= i <= n)%N -> inbox i (o2' i) = [seq (j, mks (ac j) i.-1) | j <- o2' i].
Proof.
move=> hi; have [hc ni] := o2'_ok hi; apply: inboxE => // j hj.
have nj : j != i by apply: contra ni => /eqP e; rewrite -{1}e.
by rewrite -(hc.2 _ nj) hj.
Qed.

Lemma assoc_inbox i j : (1 <= i <= n)%N -> (1 <= j <= n)%N -> j != i ->
  assoc j (inbox i (o2' i)) = Some (mks (ac j) i.-1).
Proof.
move=> hi hj nj; have [hc ni] := o2'_ok hi.
by rewrite inbox2E // assoc_fun (hc.2 _ nj) hj.
Qed.

Lemma com_ok i : (1 <= i <= n)%N -> has (fun c => c == 0) (com i) = false.
Proof.
move=> hi; apply/negbTE/hasPn => x /mapP [a ha ->].
apply/eqP => /gok /eqP; exact/negP/(coef0 hi ha).
Qed.

Lemma check_senderE i j : (1 <= i <= n)%N -> (j == i) || (1 <= j <= n)%N ->
  check_sender g dec Hash penc (p1 i) (inbox i (o2' i)) (j, bc j) = Ok tt.
Proof.
move=> hi hj; rewrite /check_sender /=; case: eqP hj => //= /eqP nj hj.
have s0 := sec0 hj.
have -> : (sec j *: g == 0) = false.
  by apply/eqP => /gok /eqP; apply/negP.
have -> : (- chal j *: (sec j *: g) == 0) = false.
  rewrite scaler_eq0 oppr_eq0 (negbTE (chal0 hj)) /=.
  by apply/eqP => /gok /eqP; apply/negP.
rewrite /=; have -> : (sec j * chal j + rnd j 1%N) *: g + - chal j *: (sec j *: g) = rnd j 1%N *: g.
  by lm_reduce F G; ring.
rewrite -/(chal j) eqxx /= assoc_inbox //= /validate /= codec.
have i0 : (0 < i)%N by case/andP: hi.
rewrite prednK // (negbTE (share0 hi hj _)) 1?eq_sym //=.
have := commit_eval_poly i%:R g (ac j) => /= ->.
by rewrite eqxx.
Qed.

Lemma check_allE i js : (1 <= i <= n)%N -> (forall j, j \in js -> (j == i) || (1 <= j <= n)%N) ->
  check_all g dec Hash penc (p1 i) (inbox i (o2' i)) [seq (j, bc j) | j <- js] = Ok tt.
Proof.
move=> hi; elim: js => [//|j js IH] hjs.
rewrite map_cons /check_all -/(check_all _ _ _ _ _ _) check_senderE ?hjs ?mem_head //=.
by apply: IH => k hk; apply: hjs; rewrite inE hk orbT.
Qed.

Lemma sum_skE i js x : (1 <= i <= n)%N -> (forall j, j \in js -> (j == i) || (1 <= j <= n)%N) ->
  sum_sk dec i (inbox i (o2' i)) x [seq (j, bc j) | j <- js] =
  Ok (x + \sum_(j <- js | j != i) (Poly (ac j)).[i%:R]).
Proof.
move=> hi; elim: js x => [|j js IH] x hjs; first by rewrite big_nil addr0.
rewrite big_cons /=; have := hjs j (mem_head _ _); case: eqP => /= [_ _|/eqP nj hj].
  by apply: IH => k hk; apply: hjs; rewrite inE hk orbT.
rewrite assoc_inbox // codec prednK; last by case/andP: hi.
by rewrite IH ?addrA // => k hk; apply: hjs; rewrite inE hk orbT.
Qed.

Lemma sum_vkE i js x : sum_vk i x [seq (j, bc j) | j <- js] = Ok (x + \sum_(j <- js | j != i) sec j *: g).
Proof.
elim: js x => [|j js IH] x; first by rewrite big_nil addr0.
by rewrite big_cons /=; case: eqP => /= _; rewrite IH // addrA.
Qed.

Lemma joint_eval x : joint.[x] = \sum_(1 <= j < n.+1) (Poly (ac j)).[x].
Proof. by rewrite horner_sum. Qed.

Lemma joint0 : joint.[0] = \sum_(1 <= j < n.+1) sec j.
Proof. by rewrite joint_eval; apply: eq_bigr => j _; rewrite Poly0. Qed.

Lemma joint_size : (size joint <= t)%N.
Proof.
apply: (big_ind (fun p : {poly F} => (size p <= t)%N)); first by rewrite size_poly0.
  by move=> p q hp' hq; apply: leq_trans (size_add _ _) _; rewrite geq_max hp' hq.
by move=> j _; apply: leq_trans (size_Poly _) _; rewrite /= size_mkseq prednK.
Qed.

Definition p2g i js : dkg G B :=
  let sk := (Poly (ac i)).[i%:R] + \sum_(j <- js | j != i) (Poly (ac j)).[i%:R] in
  Dkg 3 (oth i) i (Some sk) (Some ((sec i + \sum_(j <- js | j != i) sec j) *: g)) (Some (sk *: g))
    (Shamir t n) (com i) (shs i) (ctx_byte ctx).

Lemma round2G i js : (1 <= i <= n)%N ->
  (forall j, j \in js -> (j == i) || (1 <= j <= n)%N) -> (t.-1 <= size js <= n)%N ->
  round2 g dec Hash penc (p1 i) [seq (j, bc j) | j <- js] (inbox i (o2' i)) =
  (p2g i js, Ok (odflt 0 (dk_vk (p2g i js)), odflt 0 (dk_vkshare (p2g i js)))).
Proof.
move=> hi hmem hs; have [hc ni] := o2'_ok hi.
have hs2 : (size (inbox i (o2' i))).+1 = n by rewrite inbox2E // size_map; apply: covers_size ni.
rewrite /round2 [dk_round _]/= [threshold _]/= [limit _]/= /= size_map.
have -> : (size (inbox i (o2' i)) == 0)%N = false by apply/eqP => e; move: hs2 t2 tn; rewrite e; lia.
have -> : ((n < size js) || (size js < t.-1))%N = false by apply/negbTE; move: hs t2 tn; lia.
have -> : ((n.-1 < size (inbox i (o2' i))) || (size (inbox i (o2' i)) < t.-1))%N = false.
  by apply/negbTE; move: hs2 t2 tn; lia.
have -> : has (fun e : nat * bcast1 G => b_ci e.2 == 0) [seq (j, bc j) | j <- js] = false.
  rewrite has_map; apply/negbTE/hasPn => j hj /=; apply: chal0.
  by have := hmem _ hj; case: eqP => [->|].
have -> : has (fun e : nat * bcast1 G => has (fun c => c == 0) (b_verifiers e.2)) [seq (j, bc j) | j <- js] = false.
  rewrite has_map; apply/negbTE/hasPn => j hj; rewrite -[preim _ _ _]/(has _ (com j)) com_ok //.
  by have := hmem _ hj; case: eqP => [->|].
rewrite check_allE // [bind _ _]/=.
have -> : (i == 0)%N = false by apply/negbTE; case/andP: hi; case: (i).
rewrite drop_mks // [bind _ _]/= codec sum_skE // prednK; last by case/andP: hi.
by rewrite [bind _ _]/= sum_vkE /= -scaler_suml -scalerDl.
Qed.

Lemma round2E i : (1 <= i <= n)%N ->
  round2 g dec Hash penc (p1 i) [seq (j, bc j) | j <- o2 i] (inbox i (o2' i)) =
  (p2 i, Ok (joint.[0] *: g, joint.[i%:R] *: g)).
Proof.
move=> hi; have hs := covers_size_le hi (o2_ok hi).
rewrite round2G //; last by case/andP: hs => h1 ->; rewrite andbT (leq_trans _ h1) // -!subn1 leq_sub2r.
  rewrite /p2g (covers_sum (fun j => (Poly (ac j)).[i%:R]) hi (o2_ok hi)).
  by rewrite (covers_sum sec hi (o2_ok hi)) -joint_eval -joint0.
by move=> j hj; case: eqP => //= /eqP nj; rewrite -((o2_ok hi).2 _ nj).
Qed.
End Net.

(* --- acceptance --- *)
Definition pok_ok (ctx : nat) (e : nat * bcast1 G) : Prop :=
  exists A0 rest, b_verifiers e.2 = A0 :: rest /\
    b_ci e.2 = Hash (pok_msg penc e.1 ctx A0 (b_wi e.2 *: g - b_ci e.2 *: A0)).

Lemma check_all_ok (dp : dkg G B) p2p l : check_all g dec Hash penc dp p2p l = Ok tt ->
  forall e, List.In e l -> e.1 != dk_id dp ->
  pok_ok (dk_ctx dp) e /\
  exists s v, [/\ assoc e.1 p2p = Some s, sh_id s <> 0%N, dec (sh_val s) = Some v &
    v *: g = committed_at (b_verifiers e.2) (sh_id s)%:R].
Proof.
elim: l => [//|e0 l IH] /=; case C: check_sender => [[]||] //= /IH {}IH e [<-|] //; last exact: IH.
move=> ne; move: C; rewrite /check_sender; case: e0 ne => id b /= /negbTE ->.
case V: (b_verifiers b) => [//|A0 rest]; case: ifP => // _; case: eqP => //= e1.
case E: assoc => [s|] //=; rewrite /validate; case: eqP => //= s0.
case D: (dec _) => [v|] //=; case: eqP => //= v0; case: eqP => // e2 _; split.
  by exists A0, rest; rewrite V /= -{1}e1 scaleNr.
by exists s, v; split=> //; rewrite -commit_eval_at.
Qed.

Lemma sum_sk_ok id p2p x (l : seq (nat * bcast1 G)) r : sum_sk dec id p2p x l = Ok r ->
  r = x + \sum_(e <- l | e.1 != id) (if assoc e.1 p2p is Some s then odflt 0 (dec (sh_val s)) else 0).
Proof.
elim: l x => [|[j b] l IH] x /=; first by move=> [<-]; rewrite big_nil addr0.
rewrite big_cons /=; case: eqP => [_|_] /=; first exact: IH.
case E: assoc => [s|] //; case D: (dec _) => [v|] // /IH ->.
by rewrite addrA /= ?D.
Qed.

Lemma sum_vk_ok id (x : G) (l : seq (nat * bcast1 G)) r : sum_vk id x l = Ok r ->
  r = x + \sum_(e <- l | e.1 != id) nth 0 (b_verifiers e.2) 0.
Proof.
elim: l x => [|[j b] l IH] x /=; first by move=> [<-]; rewrite big_nil addr0.
rewrite big_cons /=; case: eqP => [_|_] /=; first exact: IH.
by case: b_verifiers => // A0 rest /IH ->; rewrite addrA.
Qed.

Lemma round2_ok (dp dp' : dkg G B) bcast p2p vk vks :
  round2 g dec Hash penc dp bcast p2p = (dp', Ok (vk, vks)) ->
  exists own sk0 sk vk0,
  [/\ ohead (drop (dk_id dp).-1 (dk_shares dp)) = Some own /\ dec (sh_val own) = Some sk0,
      ohead (dk_verifiers dp) = Some vk0,
      dk_sk dp' = Some sk /\ vks = sk *: g,
      sk = sk0 + \sum_(e <- bcast | e.1 != dk_id dp)
                  (if assoc e.1 p2p is Some s then odflt 0 (dec (sh_val s)) else 0) &
      vk = vk0 + \sum_(e <- bcast | e.1 != dk_id dp) nth 0 (b_verifiers e.2) 0] /\
  (forall e, List.In e bcast -> e.1 != dk_id dp ->
    pok_ok (dk_ctx dp) e /\
    exists s v, [/\ assoc e.1 p2p = Some s, sh_id s <> 0%N, dec (sh_val s) = Some v &
      v *: g = committed_at (b_verifiers e.2) (sh_id s)%:R]).
Proof.
rewrite /round2; do 6!case: ifP => // _.
case C: check_all => [[]||] //=; case: ifP => // _; case O: ohead => [own|] //=.
case D: (dec _) => [sk0|] //=; case V: ohead => [vk0|] //=.
case S: sum_sk => [sk||] //=; case K: sum_vk => [vk'||] //= [<- <- <-].
exists own, sk0, sk, vk0; split; last exact: check_all_ok C.
by split=> //=; [apply: sum_sk_ok S | apply: sum_vk_ok K].
Qed.

(* special soundness *)
Lemma pok_extract (A0 : G) (w w' c c' : F) :
  w *: g - c *: A0 = w' *: g - c' *: A0 -> c <> c' -> A0 = ((w - w') / (c - c')) *: g.
Proof.
move=> e ne; have nz : c - c' != 0 by rewrite subr_eq0; apply/eqP.
apply: (scalerI nz); rewrite scalerA mulrCA divff // mulr1 scalerBl.
apply/eqP; rewrite -subr_eq0; apply/eqP.
have : (w *: g - c *: A0) - (w' *: g - c' *: A0) = 0 by rewrite e subrr.
move/eqP; rewrite -oppr_eq0 => /eqP <-; lm_reduce F G; ring.
Qed.

(* wrong identifier accepted: n = t = 2 *)
Lemma wrong_id_accepted (ctx : seq nat) (a0 a1 k1 b0 b1 k2 : F) :
  base_ok g -> a0 != 0 -> b0 != 0 -> b1 != 0 -> b0 + b1 * 2%:R != 0 ->
  let c2 := Hash (pok_msg penc 2 (ctx_byte ctx) (b0 *: g) (k2 *: g)) in
  c2 != 0 ->
  exists p0 p1 bc1 sd1 p2 sk,
    [/\ new_dkg G B 1 2 ctx (Some tt) [:: 2%N] = Ok p0,
        round1 g enc Hash penc p0 (Some (Some a0)) (fun k => nth 0 [:: 0; k1; a1] k) = (p1, Ok (bc1, sd1)),
        round2 g dec Hash penc p1 [:: (2%N, Bcast1 [:: b0 *: g; b1 *: g] (b0 * c2 + k2) c2)]
          [:: (2%N, Share 2 (enc (b0 + b1 * 2%:R)))] = (p2, Ok ((a0 + b0) *: g, sk *: g)),
        dk_sk p2 = Some sk &
        sk <> (a0 + a1 * 1%:R) + (b0 + b1 * 1%:R)].
Proof.
move=> gok ha hb hb1 hb2 c2 hc.
have nz x : x != 0 -> (x *: g == 0) = false by move=> x0; apply/eqP => /gok /eqP; apply/negP.
do 6!eexists; split.
- by rewrite /new_dkg.
- by rewrite /round1 /= (negbTE ha) /feldman_split /= (negbTE ha) /=; reflexivity.
- rewrite /round2 /= (negbTE hc) !nz //= scaler_eq0 oppr_eq0 (negbTE hc) nz //=.
  have -> : (b0 * c2 + k2) *: g + - c2 *: (b0 *: g) = k2 *: g by lm_reduce F G; ring.
  rewrite -/c2 eqxx /= /validate /= codec (negbTE hb2) /=.
  set x := _ == _; have -> : x = true by apply/eqP; lm_reduce F G; ring.
  by rewrite /= !codec /= -[a0 *: g + _]scalerDl; reflexivity.
- by [].
move=> /= e; move/eqP: hb1; apply.
have -> : b1 = (0 * 1 + a1) * 1 + a0 + (b0 + b1 * 2%:R) - (a0 + a1 * 1%:R + (b0 + b1 * 1%:R)).
  by f_fold F; ring.
by rewrite -e; f_fold F; ring.
Qed.
End P.

(* contexts that are not numbers all become byte 0 *)
Lemma ctx_nonnumeric c s : ((c < 48)%N || (57 < c)%N) && (c != 43%N) && (c != 45%N) ->
  ctx_byte (c :: s) = 0%N.
Proof.
move=> /andP [/andP [h1 h2] h3]; rewrite /ctx_byte /atoi.
have -> : match c with 45%N => (true, s) | 43%N => (false, s) | _ => (false, c :: s) end = (false, c :: s).
  by move: c h1 h2 h3; do 46!case=> //.
by rewrite /= h1.
Qed.
