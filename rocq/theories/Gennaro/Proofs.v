From mathcomp Require Import all_ssreflect all_algebra zify.
From Coq Require Import Field.
From Verif Require Import Lib.Res Lib.FieldTac Lib.LmodTac Sharing.Model Sharing.Spec Sharing.Proofs Gennaro.Model Gennaro.Spec Gennaro.Covers.
Set Implicit Arguments.
Unset Strict Implicit.
Unset Printing Implicit Defensive.
Import GRing.Theory.
Local Open Scope ring_scope.

Section P.
Variables (F : fieldType) (G : lmodType F) (g h : G).
Add Field F_field : (f_fth F).

Notation share := (share F).
Notation id_ := (fun x : F => x).
Notation mks := (@mk_share F F id_).

Definition coefs (t : nat) (s : F) (rnd : nat -> F) : seq F := s :: mkseq rnd t.-1.

Lemma size_coefs t s rnd : (0 < t)%N -> size (coefs t s rnd) = t.
Proof. by move=> t0; rewrite /= size_mkseq prednK. Qed.

Lemma get_sharesE t n s rnd : (0 < t)%N -> s != 0 ->
  get_shares t n s rnd = Ok ([seq mks (coefs t s rnd) i | i <- iota 0 n], coefs t s rnd).
Proof.
move=> t0 s0; rewrite /get_shares (negbTE s0) /poly_init /coefs.
by case: t t0 => // t _; rewrite /= make_sharesE.
Qed.

Lemma drop_iota (m k : nat) : drop k (iota 0 m) = iota k (m - k).
Proof.
case: (leqP k m) => [km|mk].
  have -> : m = (k + (m - k))%N by lia.
  by rewrite iotaD drop_size_cat ?size_iota // add0n; congr iota; lia.
have -> : (m - k = 0)%N by lia.
by rewrite drop_oversize // size_iota ltnW.
Qed.

Lemma honest_nth n cs id : (0 < id <= n)%N ->
  ohead (drop id.-1 [seq mks cs i | i <- iota 0 n]) = Some (mks cs id.-1).
Proof.
move=> hid; rewrite -map_drop drop_iota.
by have -> : (n - id.-1 = (n - id).+1)%N by lia.
Qed.

Section One.
Variables (t n : nat) (s : F) (rnd : nat -> F).
Hypotheses (t0 : (0 < t)%N) (s0 : s != 0) (b0 : rnd 0%N != 0).

Definition acoefs := coefs t s (fun k => rnd (1 + k)%N).
Definition bcoefs := coefs t (rnd 0%N) (fun k => rnd (t + k)%N).

Definition honest_ped : ped_result G :=
  PedResult [seq mks bcoefs i | i <- iota 0 n] [seq mks acoefs i | i <- iota 0 n]
    [seq p.1 *: g + p.2 *: h | p <- zip acoefs bcoefs] [seq c *: g | c <- acoefs].

Lemma ped_splitE : ped_split g t n h s rnd = Ok honest_ped.
Proof. by rewrite /ped_split get_sharesE //= get_sharesE. Qed.

Definition pkt (id : nat) : packet F := Packet (Some (mks acoefs id.-1)) (Some (mks bcoefs id.-1)).

Lemma mk_packetsE ids : (forall id, id \in ids -> (0 < id <= n)%N) ->
  mk_packets honest_ped ids = Ok [seq (id, pkt id) | id <- ids].
Proof.
elim: ids => [//|id ids IH] hids /=.
have hid := hids id (mem_head _ _).
rewrite size_map size_iota; have -> : ((id == 0) || (n < id) = false)%N by lia.
rewrite IH /=; last by move=> j hj; apply: hids; rewrite inE hj orbT.
by rewrite !honest_nth.
Qed.

Lemma ped_verify_honest id : (0 < id)%N ->
  ped_verify g t h (Some (mks acoefs id.-1)) (Some (mks bcoefs id.-1)) (pr_bverifiers honest_ped) = Ok true.
Proof.
move=> id0; rewrite /ped_verify size_map size_zip !size_coefs // minnn ltnn /= prednK //.
congr Ok; apply/eqP; apply/esym.
have -> : [seq p.1 *: g + p.2 *: h | p <-
    zip (mkseq (fun k => rnd k.+1) t.-1) (mkseq (fun k => rnd (t + k)%N) t.-1)] =
  [seq p.1 + p.2 | p <- zip [seq c *: g | c <- mkseq (fun k => rnd k.+1) t.-1]
                           [seq c *: h | c <- mkseq (fun k => rnd (t + k)%N) t.-1]].
  elim: (mkseq (fun k => rnd k.+1) t.-1) (mkseq (fun k => rnd (t + k)%N) t.-1) => [|a l IH] [|b l'] //=.
  by rewrite IH.
rewrite commit_evalD ?size_map ?size_mkseq //.
have := commit_eval_poly id%:R g acoefs => /= ->.
by have := commit_eval_poly id%:R h bcoefs => /= ->.
Qed.

Lemma fel_verify_honest id : (0 < id)%N ->
  fel_verify g t (Some (mks acoefs id.-1)) (pr_verifiers honest_ped) = Ok true.
Proof.
move=> id0; rewrite /fel_verify size_map size_coefs // ltnn /= prednK //.
congr Ok; apply/eqP; apply/esym.
by have := commit_eval_poly id%:R g acoefs => /= ->.
Qed.
End One.

(* --- maps --- *)
Lemma assoc_map (V W : Type) (f : nat -> V -> W) j (m : seq (nat * V)) :
  assoc j [seq (kv.1, f kv.1 kv.2) | kv <- m] = omap (f j) (assoc j m).
Proof. by elim: m => [//|[k v] m IH] /=; case: eqP => [->|]. Qed.

Lemma assoc_fun (V : Type) (f : nat -> V) j ids :
  assoc j [seq (i, f i) | i <- ids] = if j \in ids then Some (f j) else None.
Proof.
elim: ids => [//|i ids IH] /=; rewrite inE eq_sym; case: eqP => [->|_] //=.
Qed.

Lemma upd_shareE id s (m : seq (nat * pdata G)) :
  upd_share id s m = [seq (kv.1, if kv.1 == id then PData s (pd_verifiers kv.2) else kv.2) | kv <- m].
Proof. by apply: eq_map => -[k v] /=; case: eqP. Qed.

Lemma upd_verifiersE id vs (m : seq (nat * pdata G)) :
  upd_verifiers id vs m =
  [seq (kv.1, if kv.1 == id then PData (pd_share kv.2) (Some vs) else kv.2) | kv <- m].
Proof. by apply: eq_map => -[k v] /=; case: eqP. Qed.

Lemma round2_loopE (dp : part G) p2p sk l (x : nat -> share) (pk : nat -> packet F) :
  (forall e, e \in l -> e.1 != pt_id dp ->
     [/\ assoc e.1 p2p = Some (pk e.1), pk_secret (pk e.1) = Some (x e.1),
         ped_verify g (pt_t dp) (pt_h dp) (pk_secret (pk e.1)) (pk_blind (pk e.1)) e.2 = Ok true &
         e.1 \in map fst (pt_others dp)]) ->
  round2_loop g dp p2p sk l =
  (set_others
    [seq (kv.1, if (kv.1 != pt_id dp) && (kv.1 \in map fst l)
                then PData (Some (x kv.1)) (pd_verifiers kv.2) else kv.2) | kv <- pt_others dp] dp,
   Ok (sk + \sum_(e <- l | e.1 != pt_id dp) sh_val (x e.1))).
Proof.
elim: l dp sk => [|[id bvs] l IH] dp sk hl /=.
  rewrite big_nil addr0; case: dp hl => ? ? ? ? ? o ? ? ? /= _; congr (Part _ _ _ _ _ _ _ _ _, _).
  by rewrite -[LHS]map_id; apply: eq_map => -[k v] /=; rewrite andbF.
rewrite big_cons /=; case: eqP => [e|/eqP ne] /=.
  rewrite IH; last first.
    by move=> e' he' ne'; apply: hl => //; rewrite inE he' orbT.
  congr (set_others _ _, _); apply: eq_map => -[k v] /=.
  by rewrite inE; case: (k =P pt_id dp) => //= /eqP nk; rewrite e (negbTE nk).
have [h1 h2 h3 h4] := hl (id, bvs) (mem_head _ _) ne.
rewrite /= in h1 h2 h3 h4; rewrite h1 h3.
have [d hd] : exists d, assoc id (pt_others dp) = Some d.
  elim: (pt_others dp) h4 => [//|[k v] m IHm] /=; rewrite inE eq_sym.
  by case: eqP => [_ _|_ /= /IHm //]; exists v.
rewrite hd h2 IH; last first.
  move=> e' he' ne'; have [] := hl e' _ ne'; first by rewrite inE he' orbT.
  move=> H1 H2 H3 H4; split=> //=.
  by rewrite upd_shareE -map_comp (eq_map (f2 := fst)) //.
rewrite /= upd_shareE -map_comp addrA; congr (_, _).
case: dp {IH hl hd h3 h4} ne => ? ? ? ? ? o ? ? ? /= ne; congr (Part _ _ _ _ _ _ _ _ _).
apply: eq_map => -[k v] /=; rewrite inE; case: (k =P id) => [->|_] //=.
  by rewrite ne /=; case: ifP.
Qed.

Lemma round3_loopE (dp : part G) pk l (x : nat -> share) (vsf : nat -> seq G) (v0 : nat -> G) :
  (forall e, e \in l -> e.1 != pt_id dp ->
     [/\ exists v, assoc e.1 (pt_others dp) = Some (PData (Some (x e.1)) v),
         fel_verify g (pt_t dp) (Some (x e.1)) e.2 = Ok true, e.2 = vsf e.1 &
         ohead e.2 = Some (v0 e.1)]) ->
  round3_loop g dp pk l =
  (set_others [seq (kv.1, if (kv.1 != pt_id dp) && (kv.1 \in map fst l)
                then PData (pd_share kv.2) (Some (vsf kv.1)) else kv.2) | kv <- pt_others dp] dp,
   Ok (pk + \sum_(e <- l | e.1 != pt_id dp) v0 e.1)).
Proof.
elim: l dp pk => [|[id vs] l IH] dp pk hl /=.
  rewrite big_nil addr0; case: dp hl => ? ? ? ? ? o ? ? ? /= _; congr (Part _ _ _ _ _ _ _ _ _, _).
  by rewrite -[LHS]map_id; apply: eq_map => -[k v] /=; rewrite andbF.
rewrite big_cons /=; case: eqP => [e|/eqP ne] /=.
  rewrite IH; last first.
    by move=> e' he' ne'; apply: hl => //; rewrite inE he' orbT.
  congr (set_others _ _, _); apply: eq_map => -[k v] /=.
  by rewrite inE; case: (k =P pt_id dp) => //= /eqP nk; rewrite e (negbTE nk).
have [[v h1] h2 h4 h3] := hl (id, vs) (mem_head _ _) ne.
rewrite /= in h1 h2 h3 h4; rewrite h1 h2; case: vs h2 h3 h4 hl => [//|w vs] h2 [ew] h4 hl.
rewrite IH; last first.
  move=> e' he' ne'; have [] := hl e' _ ne'; first by rewrite inE he' orbT.
  move=> [v' K1] K2 K3 K4; split=> //=; rewrite upd_verifiersE (assoc_map (fun k d => if k == id then PData (pd_share d) (Some (w :: vs)) else d)) K1.
  by case: eqP => _ /=; eexists.
rewrite /= upd_verifiersE -map_comp ew addrA; congr (_, _).
case: dp {IH hl h1 h2} ne => ? ? ? ? ? o ? ? ? /= ne; congr (Part _ _ _ _ _ _ _ _ _).
apply: eq_map => -[k v'] /=; rewrite inE; case: (k =P id) => [->|_] //=.
  by rewrite ne -h4 -ew; case: ifP.
Qed.


(* --- honest network --- *)
Section Net.
Variables (n t : nat) (sec fresh : nat -> F) (secret : nat -> option (option F)) (rnd : nat -> nat -> F).
Variables (oth o2 o2' o3 : nat -> seq nat).
Hypotheses (t2 : (2 <= t)%N) (tn : (t <= n)%N) (h0 : h != 0) (g0 : g != 0).
Hypothesis secretE : forall i, secret i = Some (Some (sec i)) \/ (secret i = None /\ fresh i = sec i).
Hypothesis sec0 : forall i, (1 <= i <= n)%N -> sec i != 0.
Hypothesis rnd0 : forall i, (1 <= i <= n)%N -> rnd i 0%N != 0.
Hypothesis sum0 : \sum_(1 <= i < n.+1) sec i != 0.

Notation covers := (covers n).

Hypothesis oth_ok : forall i, (1 <= i <= n)%N -> covers i (oth i) /\ i \notin oth i.
Hypothesis o2_ok : forall i, (1 <= i <= n)%N -> covers i (o2 i).
Hypothesis o2'_ok : forall i, (1 <= i <= n)%N -> covers i (o2' i).
Hypothesis o3_ok : forall i, (1 <= i <= n)%N -> covers i (o3 i).

Let t0 : (0 < t)%N. Proof. by apply: leq_trans t2. Qed.
Let n2 : (2 <= n)%N. Proof. by apply: leq_trans tn. Qed.

Definition ac i := acoefs t (sec i) (rnd i).
Definition hp i := honest_ped t n (sec i) (rnd i).

Definition p0 i := Part 1 i t n h [seq (j, PData None None : pdata G) | j <- oth i] None None None.
Definition bc1 i := pr_bverifiers (hp i).
Definition snd1 i := [seq (j, pkt t (sec i) (rnd i) j) | j <- oth i].
Definition p1 i := set_round 2 (set_ped (Some (hp i)) (p0 i)).
Definition x2 i j := mks (ac j) i.-1.
Definition totsk i := \sum_(1 <= j < n.+1) (Poly (ac j)).[i%:R].
Definition others2 i := [seq (j, PData (Some (x2 i j)) None : pdata G) | j <- oth i].
Definition p2 i := set_sk (Some (totsk i)) (set_round 3 (set_others (others2 i) (p1 i))).
Definition bc2 i := pr_verifiers (hp i).
Definition tot := \sum_(1 <= j < n.+1) sec j.
Definition others3 i := [seq (j, PData (Some (x2 i j)) (Some (bc2 j)) : pdata G) | j <- oth i].
Definition p3 i := set_round 4 (set_vk (Some (tot *: g)) (set_others (others3 i) (p2 i))).

Definition inbox (snd : nat -> seq (nat * packet F)) i js :=
  pmap (fun j => omap (pair j) (assoc i (snd j))) js.

Lemma new_participantE i : (1 <= i <= n)%N -> new_participant i t (Some h) true (oth i) = Ok (p0 i).
Proof.
move=> hi; have [hc ni] := oth_ok hi; rewrite /new_participant (covers_nil n2 hi hc).
have hs := covers_size hi hc ni.
have -> : valid_ids (rcons (oth i) i).
  apply/allP => j; rewrite size_rcons hs mem_iota mem_rcons inE; case: eqP => //= /eqP nj hj.
  by rewrite (hc.2 _ nj); lia.
by rewrite /= hs ltnNge tn /= ltnNge t2 /= (negbTE h0).
Qed.

Lemma round1E i : (1 <= i <= n)%N ->
  round1 g (p0 i) (secret i) (fresh i) (rnd i) = (p1 i, Ok (bc1 i, snd1 i)).
Proof.
move=> hi; rewrite /round1 /=.
have -> : match secret i with
   | Some (Some s) => if s == 0 then Err else Ok s
   | Some None => Err
   | None => Ok (fresh i) end = Ok (sec i).
  by case: (secretE i) => [->|[-> ->]] //; rewrite (negbTE (sec0 hi)).
rewrite ped_splitE ?sec0 ?rnd0 // -/(hp i).
have -> : [seq j.1 | j <- [seq (j, PData None None : pdata G) | j <- oth i]] = oth i.
  by rewrite -map_comp map_id.
rewrite mk_packetsE ?sec0 ?rnd0 // => j hj; have [hc ni] := oth_ok hi.
have nj : j != i by apply: contra ni => /eqP e; rewrite -{1}e.
by rewrite -(hc.2 _ nj).
Qed.

Lemma assoc_inbox i js j : (1 <= i <= n)%N ->
  j \in js -> (1 <= j <= n)%N -> i != j -> assoc j (inbox snd1 i js) = Some (pkt t (sec j) (rnd j) i).
Proof.
move=> hi; elim: js => [//|k js IH]; rewrite inE /= => hj h1 ne.
case: (k =P j) => [->|nk].
  have [hc _] := oth_ok h1.
  by rewrite /snd1 assoc_fun (hc.2 _ ne) hi /= eqxx.
case/orP: hj => [/eqP e|hj]; first by case: nk.
by case: (assoc i _) => [p|] /=; last exact: IH; case: eqP => // _; apply: IH.
Qed.

Lemma snd1_nil i l : (1 <= i <= n)%N -> covers i l -> (size (inbox snd1 i l) == 0)%N = false.
Proof.
move=> hi hc.
pose j := if i == 1%N then 2%N else 1%N.
have nj : j != i by rewrite /j; case: (i =P 1%N) => [->|/eqP] //; rewrite eq_sym.
have hj : (1 <= j <= n)%N by rewrite /j; case: ifP => _; lia.
have := @assoc_inbox i l j hi; rewrite (hc.2 _ nj) hj eq_sym nj => /(_ isT isT isT).
by case: inbox.
Qed.

Lemma mem_oth i j : (1 <= i <= n)%N -> (1 <= j <= n)%N -> j != i -> j \in oth i.
Proof. by move=> hi hj nj; have [hc _] := oth_ok hi; rewrite (hc.2 _ nj). Qed.

Lemma round2E i : (1 <= i <= n)%N ->
  round2 g (p1 i) [seq (j, bc1 j) | j <- o2 i] (inbox snd1 i (o2' i)) = (p2 i, Ok (bc2 i)).
Proof.
move=> hi; rewrite /round2 /= size_map (covers_nil n2 hi (o2_ok hi)) (snd1_nil hi (o2'_ok hi)) /=.
rewrite honest_nth //.
rewrite (@round2_loopE _ _ _ _ (x2 i) (fun j => pkt t (sec j) (rnd j) i)) /=; last first.
  move=> e /mapP [j hj ->] /= nj.
  have hj1 : (1 <= j <= n)%N by rewrite -((o2_ok hi).2 _ nj).
  split=> //.
  - by rewrite assoc_inbox //; [rewrite ((o2'_ok hi).2 _ nj)|rewrite eq_sym].
  - by rewrite ped_verify_honest ?sec0 ?rnd0 //; case/andP: hi.
  - by rewrite -map_comp map_id; apply: mem_oth.
rewrite /p2; congr (set_sk (Some _) (set_round _ (set_others _ _)), _).
  rewrite big_map /totsk -(covers_sum _ hi (o2_ok hi)) /= prednK //; last by case/andP: hi.
rewrite /others2 -map_comp; apply/eq_in_map => j hj /=.
have [hc ni] := oth_ok hi; have nj : j != i by apply: contra ni => /eqP e; rewrite -{1}e.
by rewrite nj -map_comp map_id ((o2_ok hi).2 _ nj) -(hc.2 _ nj) hj.
Qed.

Lemma round3E i : (1 <= i <= n)%N ->
  round3 g (p2 i) [seq (j, bc2 j) | j <- o3 i] = (p3 i, Ok (tot *: g, Share i (totsk i))).
Proof.
move=> hi; rewrite /round3 /= size_map (covers_nil n2 hi (o3_ok hi)) /=.
rewrite (@round3_loopE _ _ _ (x2 i) bc2 (fun j => sec j *: g)) /=; last first.
  move=> e /mapP [j hj ->] /= nj.
  have hj1 : (1 <= j <= n)%N by rewrite -((o3_ok hi).2 _ nj).
  split=> //.
  - by exists None; rewrite /others2 assoc_fun mem_oth.
  - by rewrite fel_verify_honest ?sec0 ?rnd0 //; case/andP: hi.
have -> : sec i *: g + \sum_(e <- [seq (j, bc2 j) | j <- o3 i] | e.1 != i) sec e.1 *: g = tot *: g.
  by rewrite big_map (covers_sum (fun j => sec j *: g) hi (o3_ok hi)) scaler_suml.
rewrite scaler_eq0 (negbTE g0) orbF (negbTE sum0); congr (_, _).
rewrite /p3; congr (set_round _ (set_vk _ (set_others _ _))).
rewrite /others3 /others2 -map_comp; apply/eq_in_map => j hj /=.
have [hc ni] := oth_ok hi; have nj : j != i by apply: contra ni => /eqP e; rewrite -{1}e.
by rewrite nj -map_comp map_id ((o3_ok hi).2 _ nj) -(hc.2 _ nj) hj.
Qed.

Definition joint : {poly F} := \sum_(1 <= j < n.+1) Poly (ac j).

Lemma joint_size : (size joint <= t)%N.
Proof.
apply: (big_ind (fun p : {poly F} => (size p <= t)%N)); first by rewrite size_poly0.
  by move=> p q hp' hq; apply: leq_trans (size_add _ _) _; rewrite geq_max hp' hq.
by move=> j _; apply: leq_trans (size_Poly _) _; rewrite size_coefs.
Qed.

Lemma joint_eval x : joint.[x] = \sum_(1 <= j < n.+1) (Poly (ac j)).[x].
Proof. by rewrite horner_sum. Qed.

Lemma joint0 : joint.[0] = tot.
Proof. by rewrite joint_eval; apply: eq_bigr => j _; rewrite Poly0. Qed.

Lemma w_loopE j k m (v : seq G) w : (k + m = size v)%N ->
  w_loop j k m v w = Ok (w + \sum_(0 <= l < m) (j%:R * (k + l).+1%:R) *: nth 0 v (k + l)).
Proof.
elim: m k w => [|m IH] k w e /=; first by rewrite big_geq ?addr0.
have hk : (k < size v)%N by rewrite -e addnS ltnS leq_addr.
have -> : ohead (drop k v) = Some (nth 0 v k) by rewrite (drop_nth 0).
rewrite IH; last by rewrite addSnnS.
rewrite big_nat_recl // addn0 addrA; congr Ok; congr (_ + _).
by apply: eq_bigr => l _; rewrite addnS addSn.
Qed.

Definition wj j : G := tot *: g + \sum_(0 <= l < t) (j%:R * (l.+1)%:R) *: ((nth 0 (ac j) l) *: g).

Lemma round4E i : (1 <= i <= n)%N ->
  round4 (p3 i) = Ok [seq (j, wj j) | j <- i :: oth i].
Proof.
move=> hi; have sz j : size (pr_verifiers (hp j)) = t by rewrite size_map size_coefs.
have wE j : w_loop j 0 t (bc2 j) (tot *: g) = Ok (wj j).
  rewrite w_loopE; last by rewrite add0n sz.
  congr (Ok (_ + _)); apply: eq_big_nat => l /andP [_ hl].
  by rewrite !add0n (nth_map 0) ?size_coefs.
have -> : round4 (p3 i) = round4_loop (tot *: g) (size (pr_verifiers (hp i)))
   ((i, Some (bc2 i)) :: [seq (kv.1, pd_verifiers kv.2) | kv <- others3 i]) by [].
rewrite sz /others3 -map_comp.
have -> : (i, Some (bc2 i)) :: [seq ((fun kv : nat * pdata G => (kv.1, pd_verifiers kv.2)) \o
   (fun j => (j, PData (Some (x2 i j)) (Some (bc2 j))))) j | j <- oth i] =
   [seq (j, Some (bc2 j)) | j <- i :: oth i] by [].
by elim: (i :: oth i) => [//|j js IH]; rewrite map_cons /round4_loop -/(@round4_loop F G) wE /= IH.
Qed.
End Net.

(* --- acceptance by a receiver facing arbitrary messages --- *)
Lemma commit_eval_at x (c0 : G) cs : commit_eval x 1 c0 cs = committed_at (c0 :: cs) x.
Proof.
rewrite commit_evalE /committed_at /= big_ord_recl /= expr0 scale1r; congr (_ + _).
by apply: eq_bigr => j _; rewrite mul1r.
Qed.

Lemma ped_verify_ok t os ob vs : ped_verify g t h os ob vs = Ok true ->
  exists s b, [/\ os = Some s, ob = Some b, (t <= size vs)%N &
    sh_val s *: g + sh_val b *: h = committed_at vs (sh_id s)%:R].
Proof.
rewrite /ped_verify; case: ltnP => // le; case: os => //= s; case: vs le => //= c0 cs le.
by case: ob => //= b [/eqP e]; exists s, b; rewrite e commit_eval_at.
Qed.

Lemma fel_verify_ok t os vs : fel_verify g t os vs = Ok true ->
  exists s, [/\ os = Some s, (t <= size vs)%N & sh_val s *: g = committed_at vs (sh_id s)%:R].
Proof.
rewrite /fel_verify; case: ltnP => // le; case: os => //= s; case: vs le => //= c0 cs le.
by move=> [/eqP e]; exists s; rewrite e commit_eval_at.
Qed.

Lemma round2_loop_ok (dp dp' : part G) p2p sk0 sk l : pt_h dp = h ->
  round2_loop g dp p2p sk0 l = (dp', Ok sk) ->
  (exists o, dp' = set_others o dp) /\
  exists x : nat -> share,
   (forall e, e \in l -> e.1 != pt_id dp ->
     exists b, [/\ assoc e.1 p2p = Some (Packet (Some (x e.1)) (Some b)), (pt_t dp <= size e.2)%N &
       sh_val (x e.1) *: g + sh_val b *: h = committed_at e.2 (sh_id (x e.1))%:R]) /\
   sk = sk0 + \sum_(e <- l | e.1 != pt_id dp) sh_val (x e.1).
Proof.
move=> eh; pose x j := if assoc j p2p is Some (Packet (Some s) _) then s else Share 0 0.
move=> H; suff [Ho [He Hs]] : (exists o, dp' = set_others o dp) /\ 
   (forall e, e \in l -> e.1 != pt_id dp ->
     exists b, [/\ assoc e.1 p2p = Some (Packet (Some (x e.1)) (Some b)), (pt_t dp <= size e.2)%N &
       sh_val (x e.1) *: g + sh_val b *: h = committed_at e.2 (sh_id (x e.1))%:R]) /\
   sk = sk0 + \sum_(e <- l | e.1 != pt_id dp) sh_val (x e.1) by split=> //; exists x.
elim: l dp sk0 H eh => [|[id bvs] l IH] dp sk0 /=.
  move=> [<- <-] _; rewrite big_nil addr0; split=> //; exists (pt_others dp); by case: dp.
rewrite big_cons /=; case: eqP => [e|/eqP ne] /= H eh.
  have [Ho [He Hs]] := IH _ _ H eh; split=> //; split=> // e'; rewrite inE => /orP [/eqP -> /=|]; last exact: He.
  by rewrite e eqxx.
case E: (assoc id p2p) H => [pk|] //.
case V: ped_verify => [[]||] //; rewrite eh in V.
have [s [b [e1 e2 le e3]]] := ped_verify_ok V.
rewrite e1; case: assoc => [_|] // H.
have [[o Ho] [He Hs]] := IH _ _ H eh.
have xs : x id = s by rewrite /x E; case: (pk) e1 => ? ? /= ->.
split; first by exists o; rewrite Ho.
split; last by rewrite Hs xs addrA.
move=> e'; rewrite inE => /orP [/eqP -> /= _|]; last exact: He.
by exists b; rewrite E xs; split=> //; case: (pk) e1 e2 => ? ? /= -> ->.
Qed.


Lemma round3_loop_ok (dp dp' : part G) pk0 pk l :
  round3_loop g dp pk0 l = (dp', Ok pk) ->
  (exists o, dp' = set_others o dp) /\
  (forall e, e \in l -> e.1 != pt_id dp ->
     exists d s, [/\ assoc e.1 (pt_others dp) = Some d, pd_share d = Some s, (pt_t dp <= size e.2)%N &
       sh_val s *: g = committed_at e.2 (sh_id s)%:R]) /\
   pk = pk0 + \sum_(e <- l | e.1 != pt_id dp) nth 0 e.2 0.
Proof.
elim: l dp pk0 => [|[id vs] l IH] dp pk0 /=.
  move=> [<- <-]; rewrite big_nil addr0; split=> //; exists (pt_others dp); by case: dp.
rewrite big_cons /=; case: eqP => [e|/eqP ne] /= H.
  have [Ho [He Hs]] := IH _ _ H; split=> //; split=> // e'; rewrite inE => /orP [/eqP -> /=|]; last exact: He.
  by rewrite e eqxx.
case E: (assoc id _) H => [d|] //.
case V: fel_verify => [[]||] //.
have [s [e1 le e3]] := fel_verify_ok V.
case: vs le e3 V => [//|v0 vs] le e3 V H.
have [[o Ho] [He Hs]] := IH _ _ H.
split; first by exists o; rewrite Ho.
split; last by rewrite Hs addrA.
move=> e'; rewrite inE => /orP [/eqP -> /= _|]; first by exists d, s.
move=> he' ne'; have [d' [s' [H1 H2 H3 H4]]] := He _ he' ne'.
rewrite /= upd_verifiersE in H1.
rewrite (assoc_map (fun k d => if k == id then PData (pd_share d) (Some (v0 :: vs)) else d)) in H1.
case A: (assoc e'.1 _) H1 => [d0|] //= [ed].
by exists d0, s'; split=> //; rewrite -H2 -ed; case: ifP.
Qed.
End P.

Section P2.
Variables (F : fieldType) (G : lmodType F) (g : G).
Add Field F_field2 : (f_fth F).
Notation share := (share F).

Lemma round2_ok (dp dp' : part G) bcast p2p out :
  round2 g dp bcast p2p = (dp', Ok out) ->
  exists r own sk (x : nat -> share),
   [/\ pt_ped dp = Some r, ohead (drop (pt_id dp).-1 (pr_sshares r)) = Some own,
     pt_sk dp' = Some sk, pt_round dp = 2%N /\ pt_round dp' = 3%N &
     sk = sh_val own + \sum_(e <- bcast | e.1 != pt_id dp) sh_val (x e.1)] /\
   (forall e, e \in bcast -> e.1 != pt_id dp ->
     exists b, [/\ assoc e.1 p2p = Some (Packet (Some (x e.1)) (Some b)), (pt_t dp <= size e.2)%N &
       sh_val (x e.1) *: g + sh_val b *: pt_h dp = committed_at e.2 (sh_id (x e.1))%:R]).
Proof.
rewrite /round2; case: eqP => //= e2; case: ifP => // _; case: pt_ped => // r.
case E: ohead => [own|] //; case L: round2_loop => [dp1 [sk||]] // [<- _].
have [[o ->] [x [H1 H2]]] := round2_loop_ok erefl L.
by exists r, own, sk, x.
Qed.

Lemma round3_ok (dp dp' : part G) bcast pk sh :
  round3 g dp bcast = (dp', Ok (pk, sh)) ->
  exists r sk,
   [/\ pt_ped dp = Some r, pt_sk dp = Some sk /\ sh = Share (pt_id dp) sk,
     pt_round dp = 3%N /\ pt_round dp' = 4%N, pk != 0 &
     pk = nth 0 (pr_verifiers r) 0 + \sum_(e <- bcast | e.1 != pt_id dp) nth 0 e.2 0] /\
   (forall e, e \in bcast -> e.1 != pt_id dp ->
     exists d s, [/\ assoc e.1 (pt_others dp) = Some d, pd_share d = Some s, (pt_t dp <= size e.2)%N &
       sh_val s *: g = committed_at e.2 (sh_id s)%:R]).
Proof.
rewrite /round3; case: eqP => //= e3; case: ifP => // _; case: pt_ped => // r.
case E: pr_verifiers => [//|v0 vs]; case L: round3_loop => [dp1 [pk'||]] //.
have [[o ->] [H1 H2]] := round3_loop_ok L.
case: eqP => // /eqP pk0; rewrite /=; case K: pt_sk => [sk|] // [<- <- <-].
by exists r, sk; rewrite E.
Qed.

(* C11: a share evaluated at another identifier is accepted *)
Lemma wrong_id_accepted (h : G) (a0 a1 r0 r1 b0 b1 s0 s1 : F) :
  base_ok g -> h != 0 -> a0 != 0 -> r0 != 0 -> a0 + b0 != 0 -> b1 != 0 ->
  exists p0 p1 bc1 sd1 p2 bc2 p3 sk,
    [/\ new_participant 1 2 (Some h) true [:: 2%N] = Ok p0,
        round1 g p0 (Some (Some a0)) 0 (fun k => nth 0 [:: r0; a1; r1] k) = (p1, Ok (bc1, sd1)),
        round2 g p1 [:: (2%N, [:: b0 *: g + s0 *: h; b1 *: g + s1 *: h])]
          [:: (2%N, Packet (Some (Share 2 (b0 + b1 * 2%:R))) (Some (Share 2 (s0 + s1 * 2%:R))))] =
          (p2, Ok bc2),
        round3 g p2 [:: (2%N, [:: b0 *: g; b1 *: g])] = (p3, Ok ((a0 + b0) *: g, Share 1 sk)) &
        sk <> (a0 + a1 * 1%:R) + (b0 + b1 * 1%:R)].
Proof.
move=> bo hh ha hr hab hb1.
have g0 : g != 0 by apply: contra hb1 => /eqP e; apply/eqP/bo; rewrite e scaler0.
do 8!eexists; split.
- by rewrite /new_participant /= (negbTE hh).
- rewrite /round1 /= (negbTE ha) /= /ped_split /get_shares (negbTE ha) /= (negbTE hr) /=; reflexivity.
- rewrite /round2 /= /ped_verify /=.
  set x := _ == _; have -> : x = true.
    by apply/eqP; lm_reduce F G; ring.
  reflexivity.
- rewrite /round3 /= /fel_verify /=.
  set x := _ == _; have -> : x = true.
    by apply/eqP; lm_reduce F G; ring.
  by rewrite /= -scalerDl scaler_eq0 (negbTE g0) orbF (negbTE hab); reflexivity.
move=> e; move/eqP: hb1; apply.
have -> : b1 = (0 * 1 + a1) * 1 + a0 + (b0 + b1 * 2%:R) - (a0 + a1 * 1%:R + (b0 + b1 * 1%:R)).
  by f_fold F; ring.
by rewrite -e; f_fold F; ring.
Qed.
End P2.

Section P3.
Variables (F : fieldType) (G : lmodType F) (g h : G).

(* an honest run, and what it yields *)
Lemma honest_run (n t : nat) (sec fresh : nat -> F) (secret : nat -> option (option F))
  (rnd : nat -> nat -> F) (oth o2 o2' o3 : nat -> seq nat) :
  (2 <= t)%N -> (t <= n)%N -> h != 0 -> g != 0 ->
  (forall i, secret i = Some (Some (sec i)) \/ (secret i = None /\ fresh i = sec i)) ->
  (forall i, (1 <= i <= n)%N -> sec i != 0) ->
  (forall i, (1 <= i <= n)%N -> rnd i 0%N != 0) ->
  \sum_(1 <= i < n.+1) sec i != 0 ->
  (forall i, (1 <= i <= n)%N -> [/\ covers n i (oth i) /\ i \notin oth i, covers n i (o2 i),
     covers n i (o2' i) & covers n i (o3 i)]) ->
  exists (p0 p1 p2 p3 : nat -> part G) (bc1 : nat -> seq G) (sd1 : nat -> seq (nat * packet F))
    (bc2 : nat -> seq G) (f : {poly F}) (W : nat -> G),
  [/\ forall i, (1 <= i <= n)%N ->
      [/\ new_participant i t (Some h) true (oth i) = Ok (p0 i),
          round1 g (p0 i) (secret i) (fresh i) (rnd i) = (p1 i, Ok (bc1 i, sd1 i)),
          round2 g (p1 i) [seq (j, bc1 j) | j <- o2 i]
            (pmap (fun j => omap (pair j) (assoc i (sd1 j))) (o2' i)) = (p2 i, Ok (bc2 i)),
          round3 g (p2 i) [seq (j, bc2 j) | j <- o3 i] = (p3 i, Ok (f.[0] *: g, Share i f.[i%:R])) &
          round4 (p3 i) = Ok [seq (j, W j) | j <- i :: oth i]],
      (size f <= t)%N, f.[0] = \sum_(1 <= i < n.+1) sec i,
      f = \sum_(1 <= j < n.+1) Poly (sec j :: mkseq (fun k => rnd j (1 + k)%N) t.-1) &
      forall j, W j = f.[0] *: g +
        \sum_(0 <= l < t) (j%:R * (l.+1)%:R) *:
           (nth 0 (sec j :: mkseq (fun k => rnd j (1 + k)%N) t.-1) l *: g)].
Proof.
move=> t2 tn h0 g0 hsec sec0 rnd0 sum0 hord.
have c1 i : (1 <= i <= n)%N -> covers n i (oth i) /\ i \notin oth i by move/hord => [].
have c2 i : (1 <= i <= n)%N -> covers n i (o2 i) by move/hord => [].
have c3 i : (1 <= i <= n)%N -> covers n i (o2' i) by move/hord => [].
have c4 i : (1 <= i <= n)%N -> covers n i (o3 i) by move/hord => [].
exists (p0 h n t oth), (p1 g h n t sec rnd oth), (p2 g h n t sec rnd oth), (p3 g h n t sec rnd oth).
exists (bc1 g h n t sec rnd), (snd1 t sec rnd oth), (bc2 g h n t sec rnd), (joint n t sec rnd), (wj g n t sec rnd).
have t0 : (0 < t)%N by apply: leq_trans t2.
split=> //.
- move=> i hi; split.
  + by apply: (@new_participantE F G g h n t sec oth).
  + by apply: round1E.
  + by apply: round2E.
  + by rewrite joint0 joint_eval; apply: round3E.
  + by apply: round4E.
- by apply: joint_size.
- by apply: joint0.
- by move=> j; rewrite /wj joint0.
Qed.

Lemma wj_wrong (n t : nat) : (2 <= t)%N -> (t <= n)%N -> g != 0 ->
  (forall i, (1 <= i <= n)%N -> (i%:R : F) != 0) ->
  forall (f : {poly F}) (W : nat -> G),
  let sec := fun _ : nat => 1 : F in let rnd := fun _ k : nat => if k == 0%N then 1 else 0 : F in
  f = \sum_(1 <= j < n.+1) Poly (sec j :: mkseq (fun k => rnd j (1 + k)%N) t.-1) ->
  (forall j, W j = f.[0] *: g +
        \sum_(0 <= l < t) (j%:R * (l.+1)%:R) *:
           (nth 0 (sec j :: mkseq (fun k => rnd j (1 + k)%N) t.-1) l *: g)) ->
  forall j, (1 <= j <= n)%N -> W j <> f.[j%:R] *: g.
Proof.
move=> t2 tn g0 hn f W sec rnd ef eW j hj e.
have z : forall m, Poly (mkseq (fun k => rnd j (1 + k)%N) m) = 0.
  move=> m; apply/polyP => k; rewrite coef_Poly coef0.
  by case: (ltnP k m) => lk; [rewrite nth_mkseq | rewrite nth_default ?size_mkseq].
have ev x : f.[x] = n%:R.
  rewrite ef horner_sum (eq_bigr (fun=> 1)); last first.
    by move=> k _; rewrite /= horner_cons z horner0 mul0r add0r.
  by rewrite big_const_nat iter_addr_0 subn1.
move: e; rewrite eW !ev (_ : t = t.-1.+1); last by lia.
rewrite big_nat_recl //= [X in _ + (_ + X)]big1_seq; last first.
  move=> l; rewrite /= mem_index_iota => hl; rewrite nth_mkseq; last by lia.
  by rewrite /= scale0r scaler0.
rewrite addr0 -[RHS]addr0 => /addrI /eqP; rewrite mulr1 !scaler_eq0 (negbTE (hn j hj)) /=.
by rewrite (negbTE (oner_neq0 F)) (negbTE g0).
Qed.
End P3.
