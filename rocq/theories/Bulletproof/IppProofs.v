(** Lemmas on the inner product proof. *)
From Coq Require Import PeanoNat Field.
From mathcomp Require Import all_ssreflect all_algebra.
From Verif Require Import Lib.Res Lib.Bytes Lib.FieldTac Lib.LmodTac Bulletproof.Model.
Set Implicit Arguments.
Unset Strict Implicit.
Unset Printing Implicit Defensive.
Import GRing.Theory.
Local Open Scope ring_scope.

Section Ipp.
Variables (F : fieldType) (G : lmodType F).
Variables (puenc : G -> bytes) (xof : tlog -> bytes) (wide : bytes -> F).
Add Field F_field : (f_fth F).

(* ------------------------------------------------- sums of products *)
Definition dotp (a b : seq F) : F := \sum_(i < size a) a`_i * b`_i.
Definition gsum (g : seq G) (a : seq F) : G := \sum_(i < size a) a`_i *: g`_i.

Lemma dotp_cons x a y b : dotp (x :: a) (y :: b) = x * y + dotp a b.
Proof. by rewrite /dotp big_ord_recl. Qed.
Lemma gsum_cons p g x a : gsum (p :: g) (x :: a) = x *: p + gsum g a.
Proof. by rewrite /gsum big_ord_recl. Qed.
Lemma gsum_nil g : gsum g [::] = 0. Proof. by rewrite /gsum big_ord0. Qed.
Lemma dotp_nil b : dotp [::] b = 0. Proof. by rewrite /dotp big_ord0. Qed.

Lemma innerE a b : size a = size b -> (0 < size a)%N -> inner a b = Ok (dotp a b).
Proof.
move=> h0 hp; rewrite /inner -h0 eqxx /= ltnNge hp /=; congr Ok.
rewrite -[RHS]add0r; move: (0 : F) => s0; clear hp; elim: a b h0 s0 => [|x a IH] [|y b] //= => [_|[h]] s0.
  by rewrite dotp_nil addr0.
by rewrite IH // dotp_cons addrCA addrA.
Qed.
Lemma inner_ok a b c : inner a b = Ok c -> [/\ size a = size b, (0 < size a)%N & c = dotp a b].
Proof.
rewrite /inner; case: eqP => //= h; case: ltnP => // hp E; split=> //.
by have := innerE h hp; rewrite /inner h eqxx /= -h ltnNge hp /= E => -[].
Qed.
Lemma sopE (g : seq G) a : size g = size a -> sop g a = Ok (gsum g a).
Proof.
move=> h; rewrite /sop h eqxx /=; congr Ok; rewrite -[RHS]add0r; move: (0 : G) => s0.
elim: g a h s0 => [|p g IH] [|x a] //= => [_|[h]] s0; first by rewrite gsum_nil addr0.
by rewrite IH // gsum_cons addrA.
Qed.
Lemma sop_ok (g : seq G) a p : sop g a = Ok p -> size g = size a /\ p = gsum g a.
Proof. by rewrite /sop; case: eqP => //= h E; split=> //; have := sopE h; rewrite /sop h eqxx /= E => -[]. Qed.

Lemma dotp_cat a1 a2 b1 b2 : size a1 = size b1 -> dotp (a1 ++ a2) (b1 ++ b2) = dotp a1 b1 + dotp a2 b2.
Proof. by elim: a1 b1 => [|x a IH] [|y b] //= => [_|[h]]; rewrite ?dotp_nil ?add0r // !dotp_cons IH // addrA. Qed.
Lemma gsum_cat (g1 g2 : seq G) a1 a2 : size g1 = size a1 -> gsum (g1 ++ g2) (a1 ++ a2) = gsum g1 a1 + gsum g2 a2.
Proof. by elim: g1 a1 => [|x a IH] [|y b] //= => [_|[h]]; rewrite ?gsum_nil ?add0r // !gsum_cons IH // addrA. Qed.

Lemma size_smulp x (g : seq G) : size (smulp x g) = size g. Proof. exact: size_map. Qed.
Lemma size_smuls x (a : seq F) : size (smuls x a) = size a. Proof. exact: size_map. Qed.
Lemma nth_smulp x (g : seq G) i : (smulp x g)`_i = x *: g`_i.
Proof.
case: (ltnP i (size g)) => h; first by rewrite (nth_map 0).
by rewrite !nth_default ?size_map // scaler0.
Qed.
Lemma nth_smuls x (a : seq F) i : (smuls x a)`_i = a`_i * x.
Proof.
case: (ltnP i (size a)) => h; first by rewrite (nth_map 0).
by rewrite !nth_default ?size_map // mul0r.
Qed.
Lemma addpE (g h : seq G) : size g = size h -> exists2 r, addp g h = Ok r & size r = size g /\ forall i, r`_i = g`_i + h`_i.
Proof.
move=> e; rewrite /addp e eqxx; eexists; first reflexivity; rewrite size_map size1_zip ?e //; split=> // i.
case: (ltnP i (size h)) => hi; first by rewrite (nth_map (0, 0)) ?size1_zip ?e // nth_zip.
by rewrite !nth_default ?size_map ?size1_zip ?e // addr0.
Qed.
Lemma addsE (g h : seq F) : size g = size h -> exists2 r, adds g h = Ok r & size r = size g /\ forall i, r`_i = g`_i + h`_i.
Proof.
move=> e; rewrite /adds e eqxx; eexists; first reflexivity; rewrite size_map size1_zip ?e //; split=> // i.
case: (ltnP i (size h)) => hi; first by rewrite (nth_map (0, 0)) ?size1_zip ?e // nth_zip.
by rewrite !nth_default ?size_map ?size1_zip ?e // addr0.
Qed.
Lemma subsE (g h : seq F) : size g = size h -> exists2 r, subs g h = Ok r & size r = size g /\ forall i, r`_i = g`_i - h`_i.
Proof.
move=> e; rewrite /subs e eqxx; eexists; first reflexivity; rewrite size_map size1_zip ?e //; split=> // i.
case: (ltnP i (size h)) => hi; first by rewrite (nth_map (0, 0)) ?size1_zip ?e // nth_zip.
by rewrite !nth_default ?size_map ?size1_zip ?e // subr0.
Qed.
Lemma mulsE (g h : seq F) : size g = size h -> exists2 r, muls g h = Ok r & size r = size g /\ forall i, r`_i = g`_i * h`_i.
Proof.
move=> e; rewrite /muls e eqxx; eexists; first reflexivity; rewrite size_map size1_zip ?e //; split=> // i.
case: (ltnP i (size h)) => hi; first by rewrite (nth_map (0, 0)) ?size1_zip ?e // nth_zip.
by rewrite !nth_default ?size_map ?size1_zip ?e // mulr0.
Qed.
Lemma adds_ok (g h : seq F) r : adds g h = Ok r -> [/\ size g = size h, size r = size g & forall i, r`_i = g`_i + h`_i].
Proof. move=> E; have e : size g = size h by move: E; rewrite /adds; case: eqP. by case: (addsE e) => r'; rewrite E => -[<-] []. Qed.
Lemma subs_ok (g h : seq F) r : subs g h = Ok r -> [/\ size g = size h, size r = size g & forall i, r`_i = g`_i - h`_i].
Proof. move=> E; have e : size g = size h by move: E; rewrite /subs; case: eqP. by case: (subsE e) => r'; rewrite E => -[<-] []. Qed.
Lemma muls_ok (g h : seq F) r : muls g h = Ok r -> [/\ size g = size h, size r = size g & forall i, r`_i = g`_i * h`_i].
Proof. move=> E; have e : size g = size h by move: E; rewrite /muls; case: eqP. by case: (mulsE e) => r'; rewrite E => -[<-] []. Qed.
Lemma addp_ok (g h : seq G) r : addp g h = Ok r -> [/\ size g = size h, size r = size g & forall i, r`_i = g`_i + h`_i].
Proof. move=> E; have e : size g = size h by move: E; rewrite /addp; case: eqP. by case: (addpE e) => r'; rewrite E => -[<-] []. Qed.

(** combinations of vectors *)
Lemma gsum_lin (g1 g2 r : seq G) x y a : (forall i, r`_i = x *: g1`_i + y *: g2`_i) -> gsum r a = x *: gsum g1 a + y *: gsum g2 a.
Proof.
move=> h; rewrite /gsum !scaler_sumr -big_split; apply: eq_bigr => i _; rewrite h scalerDr !scalerA.
by rewrite ![_ * a`_i]mulrC.
Qed.
Lemma gsum_linr (g : seq G) x y a1 a2 r : size r = size a1 -> size r = size a2 -> (forall i, r`_i = a1`_i * x + a2`_i * y) ->
  gsum g r = x *: gsum g a1 + y *: gsum g a2.
Proof.
move=> h1 h2 h; rewrite /gsum -h1 -h2 !scaler_sumr -big_split; apply: eq_bigr => i _; rewrite h scalerDl !scalerA.
by rewrite ![_ * x]mulrC ![_ * y]mulrC.
Qed.

(* ------------------------------------------------- the vector s *)
Fixpoint svec (xs : seq F) : seq F :=
  if xs is x :: r then [seq x^-1 * s | s <- svec r] ++ [seq x * s | s <- svec r] else [:: 1].
Lemma size_svec xs : size (svec xs) = (2 ^ size xs)%N.
Proof. by elim: xs => //= x r IH; rewrite size_cat !size_map IH expnS mul2n addnn. Qed.

Lemma mod_bit i k : (i %% 2 ^ k.+1 = ((i %/ 2 ^ k) %% 2) * 2 ^ k + i %% 2 ^ k)%N.
Proof.
set b := ((i %/ 2 ^ k) %% 2)%N; set r := (i %% 2 ^ k)%N.
have hi : (i = ((i %/ 2 ^ k) %/ 2) * 2 ^ k.+1 + (b * 2 ^ k + r))%N.
  by rewrite {1}(divn_eq i (2 ^ k)) {1}(divn_eq (i %/ 2 ^ k) 2) mulnDl expnS -mulnA addnA.
rewrite {1}hi modnMDl modn_small //.
have hb : (b <= 1)%N by rewrite -ltnS ltn_pmod.
have hr : (r < 2 ^ k)%N by rewrite ltn_pmod // expn_gt0.
rewrite expnS mul2n -addnn; apply: (@leq_ltn_trans (2 ^ k + r)); last by rewrite ltn_add2l.
by rewrite leq_add2r -[X in (_ <= X)%N]mul1n leq_mul2r hb orbT.
Qed.

Lemma nth_svec_cons x r i : (svec (x :: r))`_(i %% 2 ^ (size r).+1) =
  (if ((i %/ 2 ^ size r) %% 2 == 1)%N then x else x^-1) * (svec r)`_(i %% 2 ^ size r).
Proof.
rewrite mod_bit /= nth_cat size_map size_svec.
have hr : (i %% 2 ^ size r < 2 ^ size r)%N by rewrite ltn_pmod // expn_gt0.
have hb : ((i %/ 2 ^ size r) %% 2 < 2)%N by rewrite ltn_pmod.
case: eqP => [->|h]; first by rewrite mul1n ltnNge leq_addr /= addKn (nth_map 0) ?size_svec.
have -> : ((i %/ 2 ^ size r) %% 2 = 0)%N by move: hb h; case: (_ %% 2)%N => [|[|]].
by rewrite mul0n add0n hr (nth_map 0) ?size_svec.
Qed.

Lemma gets1_ok xs i si : all (fun x => x != 0) xs -> gets1 xs i si = Ok (si * (svec xs)`_(i %% 2 ^ size xs)).
Proof.
elim: xs si => [|x r IH] si; first by rewrite /= modn1 mulr1.
move=> /andP[hx hr]; rewrite nth_svec_cons /=; case: ifP => _; first by rewrite IH // mulrA.
by rewrite /invert (negbTE hx) /= IH // mulrA.
Qed.
Lemma gets_from_ok xs idx : all (fun x => x != 0) xs ->
  gets_from xs idx = Ok [seq (svec xs)`_(i %% 2 ^ size xs) | i <- idx].
Proof. by move=> h; elim: idx => //= i r IH; rewrite gets1_ok //= IH /= mul1r. Qed.
Lemma gets_ok xs : all (fun x => x != 0) xs -> gets xs (2 ^ size xs) = Ok (svec xs).
Proof.
move=> h; rewrite /gets gets_from_ok //; congr Ok; apply: (@eq_from_nth _ 0); first by rewrite size_map size_iota size_svec.
by move=> i; rewrite size_map size_iota => hi; rewrite (nth_map 0%N) ?size_iota // nth_iota // add0n modn_small.
Qed.
Lemma gets_err (xs : seq F) : has (fun x => x == 0) xs -> gets xs (2 ^ size xs) = Err.
Proof.
move=> h; rewrite /gets; have -> : (2 ^ size xs = (2 ^ size xs).-1.+1)%N by rewrite prednK // expn_gt0.
rewrite /=; suff -> : forall si, gets1 xs 0 si = Err by [].
elim: xs h => //= x r IH /orP[/eqP -> si|h si]; rewrite div0n /=; first by rewrite /invert eqxx.
by rewrite /invert; case: eqP => //= _; apply: IH.
Qed.

(** the entries of svec by blocks *)
Lemma nth_svec_cat pre rest q j : (j < 2 ^ size rest)%N -> (q < 2 ^ size pre)%N ->
  (svec (pre ++ rest))`_(q * 2 ^ size rest + j) = (svec pre)`_q * (svec rest)`_j.
Proof.
move=> hj; elim: pre q => [|x pre IH] q.
  by rewrite expn0 ltnS leqn0 => /eqP ->; rewrite mul0n add0n mul1r.
move=> hq; rewrite /= !nth_cat !size_map !size_svec size_cat.
have hk : (0 < 2 ^ size rest)%N by rewrite expn_gt0.
case: (ltnP q (2 ^ size pre)) => h.
- have -> : (q * 2 ^ size rest + j < 2 ^ (size pre + size rest))%N.
    by rewrite expnD; apply: (@leq_trans (q.+1 * 2 ^ size rest)%N); rewrite ?leq_mul2r ?h ?orbT // mulSn addnC ltn_add2r.
  have hb : (q * 2 ^ size rest + j < size (svec (pre ++ rest)))%N.
    by rewrite size_svec size_cat expnD; apply: (@leq_trans (q.+1 * 2 ^ size rest)%N); rewrite ?leq_mul2r ?h ?orbT // mulSn addnC ltn_add2r.
  by rewrite (nth_map 0) // IH // (nth_map 0) ?size_svec // mulrA.
- have hlt : (2 ^ (size pre + size rest) <= q * 2 ^ size rest + j)%N.
    by rewrite expnD; apply: (@leq_trans (q * 2 ^ size rest)%N); rewrite ?leq_addr // leq_mul2r h orbT.
  rewrite ltnNge hlt /=.
  have -> : (q * 2 ^ size rest + j - 2 ^ (size pre + size rest) = (q - 2 ^ size pre) * 2 ^ size rest + j)%N.
    by rewrite expnD mulnBl addnBAC // leq_mul2r h orbT.
  have hq' : (q - 2 ^ size pre < 2 ^ size pre)%N.
    by rewrite ltn_subLR // addnn -mul2n -expnS.
  have hb : ((q - 2 ^ size pre) * 2 ^ size rest + j < size (svec (pre ++ rest)))%N.
    by rewrite size_svec size_cat expnD; apply: (@leq_trans ((q - 2 ^ size pre).+1 * 2 ^ size rest)%N); rewrite ?leq_mul2r ?hq' ?orbT // mulSn addnC ltn_add2r.
  by rewrite (nth_map 0) // IH // (nth_map 0) ?size_svec // mulrA.
Qed.

Definition good (f : nat -> F) (ss : seq (option F)) j := nth None ss j = Some (f j).
Lemma getsn_inner_ok f n half x2 idx ss : size ss = n ->
  (forall i, i \in idx -> [/\ good f ss i, (i + half < n)%N & f (i + half)%N = f i * x2]) ->
  exists2 ss', getsn_inner n half x2 idx ss = Ok ss' &
   [/\ size ss' = n, forall j, good f ss j -> good f ss' j & forall i, i \in idx -> good f ss' (i + half)].
Proof.
elim: idx ss => [|i r IH] ss hs h /=; first by exists ss.
have [hg hn hf] := h i (mem_head _ _); rewrite {1}hg /= hn.
set ss1 := set_nth _ _ _ _.
have keep : forall j, good f ss j -> good f ss1 j.
  by move=> j hj; rewrite /good nth_set_nth /=; case: eqP => [->|_ //]; rewrite -hf.
have [|j hj|ss' -> [h1 h2 h3]] := IH ss1.
- by rewrite size_set_nth hs; apply/maxn_idPr.
- by have [a b c] := h j (mem_behead (s := i :: r) hj); split=> //; apply: keep.
exists ss' => //; split=> // [j hj|j]; first by apply/h2/keep.
rewrite inE => /orP[/eqP -> |]; last exact: h3.
by apply: h2; rewrite /good nth_set_nth /= eqxx -hf.
Qed.

Lemma getsn_outer_ok xs n pre rest ss : xs = pre ++ rest -> n = (2 ^ size xs)%N -> all (fun x => x != 0) xs -> size ss = n ->
  (forall q, (q < 2 ^ size pre)%N -> good (fun i => (svec xs)`_i) ss (q * 2 ^ size rest)) ->
  exists2 ss', getsn_outer n rest ss = Ok ss' & size ss' = n /\ forall q, (q < n)%N -> good (fun i => (svec xs)`_i) ss' q.
Proof.
elim: rest pre ss => [|x r IH] pre ss hx hn hnz hs hg.
  exists ss => //; split=> // q hq; have := hg q; rewrite muln1; apply.
  by move: hq; rewrite hn hx cats0.
rewrite /=; set step := (2 ^ (size r).+1)%N.
have hstep : (0 < step)%N by rewrite expn_gt0.
have hn2 : n = (2 ^ size pre * step)%N by rewrite hn hx size_cat expnD.
have -> : ((n + step - 1) %/ step = 2 ^ size pre)%N.
  rewrite -addnBA // hn2 divnMDl // divn_small ?addn0 //.
  by rewrite ltn_subLR // addnC addn1.
have hx0 : x != 0 by move: hnz; rewrite hx all_cat => /andP[_ /andP[]].
have [i /mapP[t]|ss' -> [h1 h2 h3]] := @getsn_inner_ok (fun i => (svec xs)`_i) n (2 ^ size r) (x * x)
   [seq (t * step)%N | t <- iota 0 (2 ^ size pre)] ss hs.
- rewrite mem_iota /= add0n => ht ->; split; first exact: hg.
  + rewrite hn2; apply: (@leq_trans (t.+1 * step)); last by rewrite leq_mul2r ht orbT.
    by rewrite mulSn addnC ltn_add2r /step ltn_exp2l.
  + rewrite hx /step -[in (2 ^ (size r).+1)%N]/(size (x :: r)) nth_svec_cat //; last by rewrite ltn_exp2l.
    rewrite -[(t * _)%N]addn0 nth_svec_cat ?expn_gt0 // -mulrA; congr (_ * _).
    rewrite /= !nth_cat !size_map size_svec ltnn subnn expn_gt0 /=.
    rewrite !(nth_map 0) ?size_svec ?expn_gt0 // -mulrA [_ * (x * x)]mulrC !mulrA; congr (_ * _).
    by rewrite mulVf // mul1r.
cbn [bind]; have [|q hq|ss'' -> h] := IH (rcons pre x) ss' _ hn hnz h1; [by rewrite cat_rcons| |by exists ss''].
rewrite size_rcons in hq.
have [[q' b] /= hqq hb] : exists2 p : nat * nat, q = (p.1 * 2 + p.2)%N & (p.2 < 2)%N.
  by exists (q %/ 2, q %% 2)%N; rewrite /= ?ltn_pmod // -divn_eq.
have hq' : (q' < 2 ^ size pre)%N.
  by rewrite -(ltn_pmul2r (isT : (0 < 2)%N)) [X in (_ < X)%N]mulnC -expnS; apply: leq_ltn_trans hq; rewrite hqq leq_addr.
move: hqq hb; case: b => [|[|//]] -> _.
- by rewrite addn0 -mulnA -expnS; apply/h2/hg.
- rewrite mulnDl mul1n -mulnA -expnS; apply: h3; apply/mapP; exists q' => //.
  by rewrite mem_iota.
Qed.
Lemma all_set_ok (f : nat -> F) ss k : (forall j, (j < size ss)%N -> nth None ss j = Some (f (k + j)%N)) ->
  all_set ss = Ok [seq f i | i <- iota k (size ss)].
Proof.
elim: ss k => //= o r IH k h; have := h 0%N isT; rewrite /= addn0 => ->; cbn [deref bind].
by rewrite (IH k.+1) // => j hj; have := h j.+1 hj; rewrite /= addSnnS.
Qed.
Lemma svec0 xs : (svec xs)`_0 = (foldr *%R 1 xs)^-1.
Proof.
elim: xs => [|x r IH] /=; first by rewrite invr1.
by rewrite nth_cat size_map size_svec expn_gt0 /= (nth_map 0) ?size_svec ?expn_gt0 // IH invfM.
Qed.
Lemma foldl_mul (xs : seq F) s : foldl *%R s xs = s * foldr *%R 1 xs.
Proof. by elim: xs s => [|x r IH] s /=; rewrite ?mulr1 // IH mulrA. Qed.
Lemma prod_neq0 (xs : seq F) : all (fun x => x != 0) xs = (foldr *%R 1 xs != 0).
Proof. by elim: xs => [|x r IH] /=; rewrite ?oner_eq0 // mulf_eq0 negb_or IH. Qed.
Lemma gets_new_ok xs : all (fun x => x != 0) xs -> gets_new xs (2 ^ size xs) = Ok (svec xs).
Proof.
move=> hnz; rewrite /gets_new; case E : (2 ^ size xs)%N => [|n']; first by move/eqP: E; rewrite expn_eq0.
rewrite foldl_mul mul1r /invert (negbTE (_ : foldr _ _ _ != 0)) -?prod_neq0 // -svec0; cbn [bind]; rewrite -E.
have [|q|ss' -> [h1 h2]] := @getsn_outer_ok xs (2 ^ size xs) [::] xs (set_nth None (nseq (2 ^ size xs) None) 0 (Some (svec xs)`_0)) erefl erefl hnz.
- by rewrite size_set_nth size_nseq; apply/maxn_idPr; rewrite expn_gt0.
- by rewrite expn0 ltnS leqn0 => /eqP ->; rewrite mul0n /good nth_set_nth.
cbn [bind]; rewrite (@all_set_ok (fun i => (svec xs)`_i) ss' 0) ?h1 //.
congr Ok; apply: (@eq_from_nth _ 0); first by rewrite size_map size_iota size_svec.
by move=> i; rewrite size_map size_iota => hi; rewrite (nth_map 0%N) ?size_iota // nth_iota.
Qed.
Lemma gets_new_err (xs : seq F) n : (0 < n)%N -> has (fun x => x == 0) xs -> gets_new xs n = Err.
Proof.
case: n => // n _ h; rewrite /gets_new foldl_mul mul1r /invert.
by rewrite -[_ == 0]negbK -prod_neq0 (_ : all _ _ = false) //; apply/negbTE; rewrite -has_predC; apply: sub_has h => x /=; rewrite negbK.
Qed.

Lemma inverts_ok (xs : seq F) : all (fun x => x != 0) xs -> inverts xs = Ok [seq x^-1 | x <- xs].
Proof. by elim: xs => //= x r IH /andP[hx hr]; rewrite /invert (negbTE hx) /= IH. Qed.
Lemma svec_neq0 (xs : seq F) : all (fun x => x != 0) xs -> all (fun x => x != 0) (svec xs).
Proof.
elim: xs => //= [|x r IH]; first by rewrite oner_eq0.
move=> /andP[hx /IH h]; rewrite all_cat !all_map; apply/andP; split; apply/allP => s hs /=;
  by rewrite mulf_eq0 negb_or ?invr_eq0 hx (allP h s hs).
Qed.
Definition isvec xs := [seq s^-1 | s <- svec xs].

(* ------------------------------------------------- the recursion *)
(** the points added by the verifier to P *)
Fixpoint lr_sum (Ls Rs : seq G) (xs : seq F) : G :=
  match Ls, Rs, xs with
  | l :: Ls', r :: Rs', x :: xs' => (x * x) *: l + (x * x)^-1 *: r + lr_sum Ls' Rs' xs'
  | _, _, _ => 0
  end.
Lemma rhs_ok Ls Rs xs P : size Rs = size Ls -> size xs = size Ls -> all (fun x => x != 0) xs ->
  rhs_loop Ls Rs xs P = Ok (P + lr_sum Ls Rs xs).
Proof.
elim: Ls Rs xs P => [|l Ls IH] [|r Rs] [|x xs] P //= => [_ _ _|[h1] [h2] /andP[hx h]]; first by rewrite addr0.
by rewrite /invert mulf_eq0 orbb (negbTE hx) /= IH // !addrA.
Qed.
Lemma getxs_size tr Ls Rs xs tr' : getxs puenc xof wide tr Ls Rs = Ok (xs, tr') -> size xs = size Ls.
Proof.
elim: Ls Rs tr xs => [|l Ls IH] [|r Rs] tr xs //=; [by case=> <-|by case=> <-|].
case E: (getxs _ _ _ _ _ _) => [[ys t]||] //= [<- ht] /=; rewrite ht in E; by rewrite (IH _ _ _ E).
Qed.

Definition statement (g h : seq G) (u : G) (a b : seq F) : G := gsum g a + gsum h b + dotp a b *: u.

Lemma split_ok (A : Type) (s lo hi : seq A) : split s = Ok (lo, hi) -> [/\ s = lo ++ hi, size lo = size hi & (0 < size lo)%N].
Proof.
rewrite /split; case: ltnP => // h; case: ifP => // hod [<- <-].
have e : size s = ((size s)./2 + (size s)./2)%N by rewrite addnn -[LHS]odd_double_half hod.
have hle : ((size s)./2 <= size s)%N by rewrite {2}e leq_addr.
have h2 : (0 < (size s)./2)%N by rewrite lt0n; apply/eqP => h0; move: h; rewrite e h0.
by rewrite cat_take_drop size_takel // size_drop; split=> //; rewrite {2}e addnK.
Qed.
Lemma split_cat (A : Type) (lo hi : seq A) : size lo = size hi -> (0 < size lo)%N -> split (lo ++ hi) = Ok (lo, hi).
Proof.
move=> e h; rewrite /split size_cat -e ltnNge addn_gt0 h /= addnn odd_double doubleK take_size_cat // drop_size_cat //.
Qed.

Lemma gsum_svec (gLo gHi g' : seq G) x xs : size gLo = size gHi -> size gLo = (2 ^ size xs)%N ->
  (forall i, g'`_i = x^-1 *: gLo`_i + x *: gHi`_i) -> gsum (gLo ++ gHi) (svec (x :: xs)) = gsum g' (svec xs).
Proof.
move=> h1 h2 h; rewrite /= gsum_cat ?size_map ?size_svec // (gsum_lin _ h); congr (_ + _);
  rewrite /gsum size_map scaler_sumr; apply: eq_bigr => i _; by rewrite (nth_map 0) // scalerA.
Qed.
Lemma gsum_isvec (gLo gHi g' : seq G) x xs : size gLo = size gHi -> size gLo = (2 ^ size xs)%N ->
  (forall i, g'`_i = x *: gLo`_i + x^-1 *: gHi`_i) -> gsum (gLo ++ gHi) (isvec (x :: xs)) = gsum g' (isvec xs).
Proof.
move=> h1 h2 h; rewrite /isvec /= map_cat gsum_cat ?size_map ?size_svec // (gsum_lin _ h); congr (_ + _);
  rewrite /gsum !size_map scaler_sumr; apply: eq_bigr => i _; by rewrite !(nth_map 0) ?size_map // invfM ?invrK scalerA.
Qed.

Lemma prove_rec_ok fuel a b g h u Ls Rs tr pf tr' :
  prove_rec puenc xof wide fuel a b g h u Ls Rs tr = Ok (pf, tr') ->
  exists Ls' Rs' xs, [/\ [/\ size a = (2 ^ size Ls')%N, size b = size a, size g = size a & size h = size a],
    [/\ ip_L pf = Ls ++ Ls', ip_R pf = Rs ++ Rs' & size Rs' = size Ls'],
    getxs puenc xof wide tr Ls' Rs' = Ok (xs, tr'), all (fun x => x != 0) xs &
    ip_a pf *: gsum g (svec xs) + ip_b pf *: gsum h (isvec xs) + (ip_a pf * ip_b pf) *: u =
    statement g h u a b + lr_sum Ls' Rs' xs].
Proof.
elim: fuel a b g h Ls Rs tr => [|f IH] a b g h Ls Rs tr /=; case: eqP => //= hab; case: eqP => //= hgh; case: eqP => //= hag;
  case: eqP => //= ha1.
- move=> [<- <-]; exists [::], [::], [::]; rewrite /= expn0 !cats0; split=> //; first by rewrite -hab -hgh -hag ha1.
  case: a b g h hab hgh hag ha1 => [|x [|]] // [|y [|]] // [|p [|]] // [|q [|]] // _ _ _ _ /=.
  by rewrite /statement /isvec /= !gsum_cons !gsum_nil dotp_cons dotp_nil !addr0 invr1 !scale1r.
- move=> [<- <-]; exists [::], [::], [::]; rewrite /= expn0 !cats0; split=> //; first by rewrite -hab -hgh -hag ha1.
  case: a b g h hab hgh hag ha1 => [|x [|]] // [|y [|]] // [|p [|]] // [|q [|]] // _ _ _ _ /=.
  by rewrite /statement /isvec /= !gsum_cons !gsum_nil dotp_cons dotp_nil !addr0 invr1 !scale1r.
case Ea : (split a) => [[aLo aHi]||] //; cbn [bind]; have [ea sa pa] := split_ok Ea.
case Eb : (split b) => [[bLo bHi]||] //; cbn [bind]; have [eb sb pb] := split_ok Eb.
case Eg : (split g) => [[gLo gHi]||] //; cbn [bind]; have [eg sg pg] := split_ok Eg.
case Eh : (split h) => [[hLo hHi]||] //; cbn [bind]; have [eh sh ph] := split_ok Eh.
have half : forall (A B : Type) (s1 s2 : seq A) (t1 t2 : seq B), size s1 = size s2 -> size t1 = size t2 -> size (s1 ++ s2) = size (t1 ++ t2) -> size s1 = size t1.
  by move=> A B s1 s2 t1 t2 e1 e2; rewrite !size_cat -e1 -e2 !addnn => /double_inj.
have hLoab : size aLo = size bLo by apply: half sa sb _; rewrite -ea -eb.
have hLoag : size aLo = size gLo by apply: half sa sg _; rewrite -ea -eg.
have hLogh : size gLo = size hLo by apply: half sg sh _; rewrite -eg -eh.
rewrite !innerE; try by rewrite -?sa -?sb ?hLoab // -?hLoab.
cbn [bind]; rewrite !sopE; try by rewrite -?sa -?sb -?sg -?sh -?hLoab -?hLogh -?hLoag // ?hLogh.
cbn [bind]; set capL := _ + _ *: u; set capR := gsum gLo aHi + _ + _.
set tr1 := rcons (rcons (rcons tr _) _) _; set x := wide (xof tr1).
have Ex : ipp_calcx puenc xof wide capL capR tr = (x, tr1) by [].
clearbody x; clearbody tr1; rewrite /invert; case: (eqVneq x 0) => // hx; cbn [bind].
have [|g' -> [sg' ng']] := @addpE (smulp x^-1 gLo) (smulp x gHi); first by rewrite !size_smulp.
have [|h' -> [sh' nh']] := @addpE (smulp x hLo) (smulp x^-1 hHi); first by rewrite !size_smulp.
have [|a' -> [sa' na']] := @addsE (smuls x aLo) (smuls x^-1 aHi); first by rewrite !size_smuls.
have [|b' -> [sb' nb']] := @addsE (smuls x^-1 bLo) (smuls x bHi); first by rewrite !size_smuls.
cbn [bind] => /IH [Ls' [Rs' [xs [[h1 h2 h3 h4] [h5 h6 h7] h8 h9 h10]]]].
rewrite size_smulp in sg' sh'; rewrite size_smuls in sa' sb'; rewrite size_smulp in sh'; rewrite size_smuls in sb'.
exists (capL :: Ls'), (capR :: Rs'), (x :: xs); split.
- by split; rewrite -?hab -?hgh -?hag // ea size_cat -sa -sa' h1 /= expnS mul2n addnn.
- by rewrite h5 h6 !cat_rcons /= h7.
- by cbn [getxs]; rewrite Ex h8.
- by rewrite /= hx.
have sxs := getxs_size h8.
rewrite eg eh (@gsum_svec gLo gHi g') ?(@gsum_isvec hLo hHi h') ?sxs //; first last.
- by move=> i; rewrite ng' !nth_smulp.
- by rewrite -h1 sa' hLoag.
- by move=> i; rewrite nh' !nth_smulp.
- by rewrite -h1 sa' hLoag.
rewrite h10 [lr_sum (_ :: _) _ _]/= addrA; congr (_ + _).
have ng1 : forall i, g'`_i = x^-1 *: gLo`_i + x *: gHi`_i by move=> i; rewrite ng' !nth_smulp.
have nh1 : forall i, h'`_i = x *: hLo`_i + x^-1 *: hHi`_i by move=> i; rewrite nh' !nth_smulp.
have na1 : forall i, a'`_i = aLo`_i * x + aHi`_i * x^-1 by move=> i; rewrite na' !nth_smuls.
have nb1 : forall i, b'`_i = bLo`_i * x^-1 + bHi`_i * x by move=> i; rewrite nb' !nth_smuls.
have hdot : dotp a' b' = dotp aLo bLo + dotp aHi bHi + x * x * dotp aLo bHi + (x * x)^-1 * dotp aHi bLo.
  rewrite /dotp sa' -sa !mulr_sumr -!big_split; apply: eq_bigr => i _ /=; rewrite na1 nb1.
  by move: (aLo`_i) (aHi`_i) (bLo`_i) (bHi`_i) => ? ? ? ?; f_fold F; field; f_side.
rewrite /statement (gsum_lin _ ng1) (gsum_lin _ nh1).
rewrite (gsum_linr gLo _ _ na1) ?(gsum_linr gHi _ _ na1) ?(gsum_linr hLo _ _ nb1) ?(gsum_linr hHi _ _ nb1) ?sa' ?sb' //.
rewrite ea eb !gsum_cat ?dotp_cat // -?hLogh -?hLoag // ?hdot /capL /capR.
move: (gsum gLo aLo) (gsum gLo aHi) (gsum gHi aLo) (gsum gHi aHi) (gsum hLo bLo) (gsum hLo bHi) (gsum hHi bLo) (gsum hHi bHi).
move: (dotp aLo bLo) (dotp aHi bHi) (dotp aLo bHi) (dotp aHi bLo) => d1 d2 d3 d4 p1 p2 p3 p4 p5 p6 p7 p8.
lm_reduce F G; field; f_side.
Qed.
End Ipp.
