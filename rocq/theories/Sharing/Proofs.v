From mathcomp Require Import all_ssreflect all_algebra.
From Coq Require Import Field.
From Verif Require Import Lib.Res Lib.FieldTac Lib.LmodTac Lib.Lagrange Sharing.Model Sharing.Spec.
Set Implicit Arguments.
Unset Strict Implicit.
Unset Printing Implicit Defensive.
Import GRing.Theory.
Local Open Scope ring_scope.

Section P.
Variables (F : fieldType) (G : lmodType F) (g : G).
Variables (B : Type) (enc : F -> B) (dec : B -> option F).
Hypothesis codec : codec_ok enc dec.
Add Field F_field : (f_fth F).

Lemma foldl_horner (x : F) cs c :
  foldl (fun out ci => out * x + ci) c (rev cs) = (Poly (rcons cs c)).[x].
Proof.
rewrite horner_Poly; elim: cs c => [|a cs IH] c /=; first by rewrite mul0r add0r.
by rewrite rev_cons -cats1 foldl_cat /= IH.
Qed.

Lemma evaluateE (cs : seq F) x : cs != [::] -> evaluate cs x = Ok (Poly cs).[x].
Proof.
case/lastP: cs => [//|cs c] _; rewrite /evaluate rev_rcons.
by rewrite foldl_horner.
Qed.

Definition mk_share (cs : seq F) (i : nat) := Share i.+1 (enc (Poly cs).[(i.+1)%:R]).

Lemma make_sharesE cs idx : cs != [::] ->
  make_shares enc cs idx = Ok [seq mk_share cs i | i <- idx].
Proof.
move=> hcs; elim: idx => [//|i r IH] /=.
by rewrite /make_share evaluateE //= IH.
Qed.

Lemma get_poly_and_sharesE s secret rnd : (0 < threshold s)%N ->
  get_poly_and_shares enc s secret rnd =
  let cs := secret :: mkseq rnd (threshold s).-1 in
  Ok ([seq mk_share cs i | i <- iota 0 (limit s)], cs).
Proof. by rewrite /get_poly_and_shares /poly_init; case: (threshold s) => // t _ /=; rewrite make_sharesE. Qed.

Lemma splitE s secret rnd : (0 < threshold s)%N -> secret != 0 ->
  split enc s secret rnd =
  Ok [seq mk_share (secret :: mkseq rnd (threshold s).-1) i | i <- iota 0 (limit s)].
Proof. by move=> ht hs; rewrite /split (negbTE hs) get_poly_and_sharesE. Qed.

(* ---- the validation loop ---- *)
Definition valid_share (s : share B) : bool :=
  (sh_id s != 0%N) && (if dec (sh_val s) is Some v then v != 0 else false).

Lemma validateE s : validate dec s = if valid_share s then Ok tt else Err.
Proof.
rewrite /validate /valid_share; case: eqP => //= _.
by case: (dec _) => // v; case: eqP.
Qed.

Definition sv (s : share B) : F := odflt 0 (dec (sh_val s)).

Lemma collectE lim dups ss :
  collect dec lim dups (map Some ss) =
  if [&& all valid_share ss, all (fun s => sh_id s <= lim)%N ss,
         uniq [seq sh_id s | s <- ss] & all (fun s => sh_id s \notin dups) ss]
  then Ok ([seq (sh_id s)%:R | s <- ss], map sv ss) else Err.
Proof.
elim: ss dups => [//|s ss IH] dups /=.
rewrite validateE; case: (valid_share s) => //=.
case: (ltnP lim (sh_id s)) => /= hle; first by rewrite andbF.
case: (sh_id s \in dups) => /=; first by rewrite !andbF.
rewrite IH /=; case: (all valid_share ss) => //=.
case: (all _ ss) => //=.
rewrite (_ : all (fun s0 => sh_id s0 \notin sh_id s :: dups) ss =
  (sh_id s \notin [seq sh_id s0 | s0 <- ss]) && all (fun s0 => sh_id s0 \notin dups) ss).
  by case: (_ \notin _); case: (uniq _); case: (all _ ss).
elim: ss {IH} => [//|a l IH] /=; rewrite IH !inE !negb_or eq_sym -!andbA.
by case: (_ != _) => //=; rewrite andbCA.
Qed.

(* ---- interpolation ---- *)
Lemma foldl_prod_if (T : eqType) (i : T) (h : T -> F) c r :
  foldl (fun acc j => if i == j then acc else acc * h j) c r
  = c * \prod_(j <- r | j != i) h j.
Proof.
elim: r c => [|j r IH] c /=; first by rewrite big_nil mulr1.
by rewrite IH big_cons eq_sym; case: eqP => //= _; rewrite mulrA.
Qed.

Lemma lag_numE (xs : seq F) i : lag_num xs i = \prod_(j < size xs | (j : nat) != i) nth 0 xs j.
Proof.
rewrite /lag_num (foldl_prod_if i (fun j => nth 0 xs j)) mul1r.
by rewrite -[iota _ _](_ : index_iota 0 (size xs) = _) ?big_mkord // /index_iota subn0.
Qed.

Lemma lag_denE (xs : seq F) i :
  lag_den xs i = \prod_(j < size xs | (j : nat) != i) (nth 0 xs j - nth 0 xs i).
Proof.
rewrite /lag_den (foldl_prod_if i (fun j => nth 0 xs j - nth 0 xs i)) mul1r.
by rewrite -[iota _ _](_ : index_iota 0 (size xs) = _) ?big_mkord // /index_iota subn0.
Qed.

Lemma lag_den_neq0 (xs : seq F) i : uniq xs -> (i < size xs)%N -> lag_den xs i != 0.
Proof.
move=> u hi; rewrite lag_denE; apply/prodf_neq0 => j nj; rewrite subr_eq0; apply: contra nj => /eqP e.
by rewrite -(nth_uniq 0 (ltn_ord j) hi u) e.
Qed.

Lemma foldl_outcome (M : zmodType) (bad : nat -> bool) (h : nat -> M) r c :
  (forall i, i \in r -> ~~ bad i) ->
  foldl (fun acc i => do res <- acc; if bad i then Err else Ok (res + h i)) (Ok c) r
  = Ok (c + \sum_(i <- r) h i).
Proof.
elim: r c => [|i r IH] c hb /=; first by rewrite big_nil addr0.
rewrite (negbTE (hb i (mem_head _ _))) IH ?big_cons ?addrA // => j hj.
by apply: hb; rewrite inE hj orbT.
Qed.

Lemma interpolateE (xs ys : seq F) : uniq xs ->
  interpolate xs ys = Ok (\sum_(i < size xs) nth 0 ys i * (lag_num xs i / lag_den xs i)).
Proof.
move=> u; rewrite /interpolate (@foldl_outcome _ _ (fun i => nth 0 ys i * (lag_num xs i / lag_den xs i))).
  by rewrite add0r -[iota _ _](_ : index_iota 0 (size xs) = _) ?big_mkord // /index_iota subn0.
by move=> i; rewrite mem_iota => /= hi; apply: lag_den_neq0.
Qed.

Lemma interpolate_pointE (xs : seq F) (ys : seq G) : uniq xs ->
  interpolate_point xs ys = Ok (\sum_(i < size xs) (lag_num xs i / lag_den xs i) *: nth 0 ys i).
Proof.
move=> u; rewrite /interpolate_point (@foldl_outcome _ _ (fun i => (lag_num xs i / lag_den xs i) *: nth 0 ys i)).
  by rewrite add0r -[iota _ _](_ : index_iota 0 (size xs) = _) ?big_mkord // /index_iota subn0.
by move=> i; rewrite mem_iota => /= hi; apply: lag_den_neq0.
Qed.

Lemma lagrange_sum (xs : seq F) (f : {poly F}) : uniq xs -> (size f <= size xs)%N ->
  \sum_(i < size xs) f.[nth 0 xs i] * (lag_num xs i / lag_den xs i) = f.[0].
Proof.
move=> u sf.
have xinj : injective (fun i : 'I_(size xs) => nth 0 xs i).
  by move=> i j /eqP; rewrite nth_uniq // => /eqP/val_inj.
rewrite (lagrange_at0 xinj sf); apply: eq_bigr => i _.
by rewrite lag_numE lag_denE.
Qed.

Lemma interpolate_poly (xs : seq F) (f : {poly F}) : uniq xs -> (size f <= size xs)%N ->
  interpolate xs [seq f.[x] | x <- xs] = Ok f.[0].
Proof.
move=> u sf; rewrite interpolateE //; congr Ok.
rewrite -(lagrange_sum u sf); apply: eq_bigr => i _.
by rewrite (nth_map 0).
Qed.

Lemma interpolate_point_poly (xs : seq F) (f : {poly F}) : uniq xs -> (size f <= size xs)%N ->
  interpolate_point xs [seq f.[x] *: g | x <- xs] = Ok (f.[0] *: g).
Proof.
move=> u sf; rewrite interpolate_pointE //; congr Ok.
rewrite -(lagrange_sum u sf) scaler_suml; apply: eq_bigr => i _.
by rewrite (nth_map 0) // scalerA mulrC.
Qed.

Lemma Poly0 (a : F) cs : (Poly (a :: cs)).[0] = a.
Proof. by rewrite horner_Poly /= mulr0 add0r. Qed.

Lemma uniq_ids (hF : big_field F) (ids : seq nat) :
  uniq ids -> all (fun i => i <= 255)%N ids -> uniq [seq (i%:R : F) | i <- ids].
Proof.
move=> u /allP h; rewrite map_inj_in_uniq // => i j hi hj.
exact: (big_field_inj hF (h _ hi) (h _ hj)).
Qed.

Lemma new_shamirE t n c s : new_shamir t n c = Ok s ->
  [/\ s = Shamir t n, (2 <= t)%N, (t <= n)%N & (n <= 255)%N].
Proof.
rewrite /new_shamir; case: ltnP => // tn; case: ltnP => // t2; case: ltnP => // n255.
by case: c => // _ [<-].
Qed.

Definition zero_valued (s : share B) : bool :=
  if dec (sh_val s) is Some v then v == 0 else false.

(* shares dealt for coefficient list cs *)
Definition dealt (cs : seq F) (n : nat) (s : share B) : Prop :=
  exists2 i, (i < n)%N & s = mk_share cs i.

Lemma In_mk cs n s : List.In s [seq mk_share cs i | i <- iota 0 n] <-> dealt cs n s.
Proof.
have H : forall k m, List.In s [seq mk_share cs i | i <- iota k m] <->
   exists2 i, (k <= i < k + m)%N & s = mk_share cs i.
  move=> k m; elim: m k => [|m IH] k /=.
    by split=> // -[i]; rewrite addn0 => /andP[a b]; rewrite ltnNge a in b.
  rewrite IH; split.
    case=> [<-|[i /andP[a b] ->]]; first by exists k; rewrite // leqnn addnS ltnS leq_addr.
    by exists i => //; rewrite ltnW //= addnS -addSn.
  case=> i /andP[a b] ->; case: (ltngtP k i) a => // [lt _|-> _]; last by left.
  by right; exists i => //; rewrite lt addSn -addnS.
by rewrite H; split=> -[i h ->]; exists i.
Qed.

Lemma all_dealt cs n (sel : seq (share B)) (P : share B -> bool) :
  (forall s, List.In s sel -> dealt cs n s) ->
  (forall i, (i < n)%N -> P (mk_share cs i)) -> all P sel.
Proof.
elim: sel => [//|s sel IH] h hP /=; apply/andP; split.
  by case: (h s (or_introl erefl)) => i hi ->; apply: hP.
by apply: IH => // s' hs'; apply: h; right.
Qed.

Lemma dealt_vals cs n (sel : seq (share B)) :
  (forall s, List.In s sel -> dealt cs n s) ->
  map sv sel = [seq (Poly cs).[x] | x <- [seq (sh_id s)%:R | s <- sel]].
Proof.
elim: sel => [//|s sel IH] h /=; rewrite IH; last by move=> s' hs'; apply: h; right.
by case: (h s (or_introl erefl)) => i hi ->; rewrite /sv codec.
Qed.

Lemma valid_dealt cs n sel :
  (forall s, List.In s sel -> dealt cs n s) ->
  all valid_share sel = ~~ has zero_valued sel.
Proof.
elim: sel => [//|s sel IH] h /=; rewrite IH; last by move=> s' hs'; apply: h; right.
case: (h s (or_introl erefl)) => i hi ->.
by rewrite /valid_share /zero_valued /= codec negb_or.
Qed.

Section Recon.
Hypothesis hF : big_field F.
Variables (t n : nat) (cs : seq F).
Hypotheses (t2 : (2 <= t)%N) (tn : (t <= n)%N) (n255 : (n <= 255)%N).
Hypothesis (scs : (size cs <= t)%N).

Lemma collect_dealt sel :
  (forall s, List.In s sel -> dealt cs n s) -> uniq [seq sh_id s | s <- sel] ->
  collect dec n [::] (map Some sel) =
  if has zero_valued sel then Err
  else Ok ([seq (sh_id s)%:R | s <- sel], map sv sel).
Proof.
move=> h u; rewrite collectE (valid_dealt h) u /=.
have -> : all (fun s : share B => (sh_id s <= n)%N) sel by apply: (all_dealt h).
have -> : all (fun s : share B => sh_id s \notin [::]) sel by apply: (all_dealt h).
by case: (has _ _).
Qed.

Lemma uniq_sel sel :
  (forall s, List.In s sel -> dealt cs n s) -> uniq [seq sh_id s | s <- sel] ->
  uniq [seq ((sh_id s)%:R : F) | s <- sel].
Proof.
move=> h u; rewrite (map_comp (fun i : nat => i%:R) (@sh_id B)); apply: uniq_ids => //.
by rewrite all_map; apply: (all_dealt h) => i hi /=; apply: leq_trans hi n255.
Qed.

Lemma combine_dealt sel :
  (forall s, List.In s sel -> dealt cs n s) -> uniq [seq sh_id s | s <- sel] ->
  (t <= size sel)%N ->
  combine dec (Shamir t n) (map Some sel) =
  if has zero_valued sel then Err else Ok (Poly cs).[0].
Proof.
move=> h u ts; rewrite /combine size_map /= ltnNge ts /= collect_dealt //.
case: (has _ _) => //=; rewrite (dealt_vals h) interpolate_poly //.
  exact: uniq_sel.
by rewrite size_map; apply: leq_trans (size_Poly _) (leq_trans scs ts).
Qed.

Lemma combine_points_dealt sel :
  (forall s, List.In s sel -> dealt cs n s) -> uniq [seq sh_id s | s <- sel] ->
  (t <= size sel)%N ->
  combine_points g dec (Shamir t n) (map Some sel) =
  if has zero_valued sel then Err else Ok ((Poly cs).[0] *: g).
Proof.
move=> h u ts; rewrite /combine_points size_map /= ltnNge ts /= collect_dealt //.
case: (has _ _) => //=; rewrite (dealt_vals h) -map_comp interpolate_point_poly //.
  exact: uniq_sel.
by rewrite size_map; apply: leq_trans (size_Poly _) (leq_trans scs ts).
Qed.
End Recon.

Theorem shamir_reconstruct (hF : big_field F) t n c s secret rnd shares :
  new_shamir t n c = Ok s ->
  split enc s secret rnd = Ok shares ->
  forall sel : seq (share B),
  (forall sh, List.In sh sel -> List.In sh shares) ->
  uniq [seq sh_id sh | sh <- sel] -> (t <= size sel)%N ->
  combine dec s (map Some sel) =
    (if has (fun sh => if dec (sh_val sh) is Some v then v == 0 else false) sel
     then Err else Ok secret) /\
  combine_points g dec s (map Some sel) =
    (if has (fun sh => if dec (sh_val sh) is Some v then v == 0 else false) sel
     then Err else Ok (secret *: g)).
Proof.
move=> /new_shamirE[-> t2 tn n255]; rewrite /split; case: eqP => // /eqP s0.
rewrite get_poly_and_sharesE /=; last exact: leq_trans t2.
case=> <- sel hsel u ts.
set cs := secret :: _ in hsel.
have h : forall sh, List.In sh sel -> dealt cs n sh.
  by move=> sh /hsel /In_mk.
have scs : (size cs <= t)%N by rewrite /= size_mkseq prednK // (leq_trans _ t2).
rewrite (combine_dealt hF n255 scs h u ts) (combine_points_dealt hF n255 scs h u ts).
by rewrite Poly0.
Qed.

(* ---- secrecy ---- *)
Theorem shamir_secrecy (hF : big_field F) t n c s (obs : seq (nat * F)) secret :
  new_shamir t n c = Ok s -> secret != 0 ->
  size obs = t.-1 -> uniq [seq o.1 | o <- obs] ->
  (forall o, o \in obs -> (0 < o.1 <= n)%N) ->
  exists rnd : nat -> F,
    (exists2 shares, split enc s secret rnd = Ok shares &
       forall o, o \in obs -> List.In (Share o.1 (enc o.2)) shares) /\
    forall rnd' : nat -> F,
      (exists2 shares, split enc s secret rnd' = Ok shares &
         forall o, o \in obs -> List.In (Share o.1 (enc o.2)) shares) ->
      forall k, (k < t.-1)%N -> rnd' k = rnd k.
Proof.
move=> /new_shamirE[-> t2 tn n255] s0 so uo ho.
have t0 : (0 < t)%N by apply: leq_trans t2.
pose xs : seq F := 0 :: [seq (o.1)%:R | o <- obs].
pose ys : seq F := secret :: [seq o.2 | o <- obs].
have sxs : size xs = t by rewrite /= size_map so prednK.
have sys : size ys = t by rewrite /= size_map so prednK.
have uxs : uniq xs.
  have -> : xs = [seq (i%:R : F) | i <- 0%N :: [seq o.1 | o <- obs]] by rewrite /= -map_comp.
  apply: uniq_ids => //=.
    rewrite uo andbT; apply/mapP => -[o /ho]; case: (o) => -[|k] v //=.
  apply/allP => i /mapP[o /ho /andP[_ h] ->]; exact: leq_trans h n255.
pose x := fun i : 'I_t => nth 0 xs i.
have xinj : injective x.
  by move=> i j /eqP; rewrite /x nth_uniq ?sxs // => /eqP/val_inj.
pose f := linterp x (fun i => nth 0 ys i).
have sf : (size f <= t)%N by exact: size_linterp.
have fe : forall i, (i < t)%N -> f.[nth 0 xs i] = nth 0 ys i.
  by move=> i hi; apply: (linterp_eval xinj (fun i : 'I_t => nth 0 ys i) (Ordinal hi)).
have fobs : forall o, o \in obs -> f.[(o.1)%:R] = o.2.
  move=> o /(nthP (0%N, 0))[i hi <-]; have := fe i.+1.
  by rewrite /= !(nth_map (0%N, 0)) // => -> //; rewrite -ltn_predRL -so.
pose cs := mkseq (fun i => f`_i) t.
have fcs : Poly cs = f.
  apply/polyP => i; rewrite coef_Poly; case: (ltnP i t) => hi; first by rewrite nth_mkseq.
  by rewrite nth_default ?size_mkseq // nth_default // (leq_trans sf).
have f0 : f.[0] = secret by have := fe 0%N t0.
have splits : forall rnd', (exists2 shares, split enc (Shamir t n) secret rnd' = Ok shares &
    forall o, o \in obs -> List.In (Share o.1 (enc o.2)) shares) <->
    (forall o, o \in obs -> (Poly (secret :: mkseq rnd' t.-1)).[(o.1)%:R] = o.2).
  move=> rnd'; rewrite splitE //=; split.
    case=> _ [<-] h o /[dup] ho' /h /In_mk[i hi] [ei]; rewrite ei => /(congr1 dec).
    by rewrite !codec => -[].
  move=> h; eexists; first reflexivity.
  move=> o ho'; apply/In_mk; case/andP: (ho _ ho') => o1 o2.
  by exists o.1.-1; rewrite ?prednK // /mk_share prednK // h.
exists (fun k => f`_k.+1); split.
  apply/splits => o ho'; rewrite -(fobs _ ho') -fcs; congr (Poly _).[_].
  apply: (@eq_from_nth _ 0); first by rewrite /= !size_mkseq prednK.
  rewrite /= size_mkseq prednK // => -[|i] hi /=.
    by rewrite nth_mkseq // -f0 horner_coef0.
  by rewrite nth_mkseq ?ltn_predRL // fcs /cs nth_mkseq.
move=> rnd' /splits h k hk.
have e : Poly (secret :: mkseq rnd' t.-1) = f.
  apply: (poly_ext xinj) => //.
    by apply: leq_trans (size_Poly _) _; rewrite /= size_mkseq prednK.
  case=> -[|i] hi; rewrite /x /=; first by rewrite Poly0 f0.
  have hi' : (i < size obs)%N by rewrite so ltn_predRL.
  rewrite (nth_map (0%N, 0)) //; set o := nth _ _ _.
  have ho' : o \in obs by apply: mem_nth.
  by rewrite h // fobs.
by rewrite -e coef_Poly /= nth_mkseq.
Qed.

(* ---- validation ---- *)
Theorem combine_ok_iff (hF : big_field F) t n c s (l : seq (share B)) :
  new_shamir t n c = Ok s ->
  (is_ok (combine dec s (map Some l)) <->
   [/\ (t <= size l)%N,
       (forall sh, List.In sh l -> (1 <= sh_id sh <= n)%N),
       (forall sh, List.In sh l -> exists2 v, dec (sh_val sh) = Some v & v != 0)
     & uniq [seq sh_id sh | sh <- l]]) /\
  ~~ is_panic (combine dec s (map Some l)) /\
  is_ok (combine_points g dec s (map Some l)) = is_ok (combine dec s (map Some l)) /\
  ~~ is_panic (combine_points g dec s (map Some l)).
Proof.
move=> /new_shamirE[-> t2 tn n255].
rewrite /combine /combine_points size_map /= collectE.
have allP' : forall P : share B -> bool, all P l <-> forall sh, List.In sh l -> P sh.
  move=> P; elim: (l) => [//|a r IH] /=; split.
    by case/andP=> pa /IH h sh [<-|/h].
  by move=> h; rewrite h /=; [apply/IH => sh hs; apply: h; right | left].
case: ltnP => ts /=.
  split; last by [].
  by split=> // -[].
have -> : all (fun s0 : share B => sh_id s0 \notin [::]) l by apply/allP'.
rewrite andbT; case E: [&& _, _ & _] => /=.
  case/and3P: E => /allP' v /allP' li u.
  have ux : uniq [seq ((sh_id sh)%:R : F) | sh <- l].
    rewrite (map_comp (fun i : nat => i%:R) (@sh_id B)); apply: uniq_ids => //.
    by rewrite all_map; apply/allP' => sh /li /= h; apply: leq_trans h n255.
  rewrite interpolateE // interpolate_pointE //; split=> //; split=> // _; split=> //.
    by move=> sh hs; rewrite li // lt0n; case/andP: (v _ hs) => ->.
  by move=> sh hs; case/andP: (v _ hs) => _; case: (dec _) => // a a0; exists a.
split=> //; split=> // -[_ h1 h2 u]; move: E; rewrite u andbT => /negP[]; apply/andP; split.
  apply/allP' => sh hs; rewrite /valid_share; case: (h2 _ hs) => a -> ->.
  by rewrite -lt0n; case/andP: (h1 _ hs) => ->.
by apply/allP' => sh /h1/andP[].
Qed.

(* ---- Feldman ---- *)
Lemma commit_evalE (x i : F) rhs (ps : seq G) :
  commit_eval x i rhs ps = rhs + \sum_(j < size ps) (i * x ^+ j.+1) *: nth 0 ps j.
Proof.
elim: ps i rhs => [|p ps IH] i rhs /=; first by rewrite big_ord0 addr0.
rewrite IH big_ord_recl /= addrA expr1; congr (_ + _).
by apply: eq_bigr => j _; rewrite -mulrA -exprS.
Qed.

Lemma commit_eval_poly (x : F) (h : G) (cs : seq F) :
  match [seq c *: h | c <- cs] with
  | [::] => 0
  | p :: ps => commit_eval x 1 p ps
  end = (Poly cs).[x] *: h.
Proof.
rewrite [in RHS]horner_Poly; case: cs => [|c cs] /=; first by rewrite scale0r.
rewrite commit_evalE size_map -horner_Poly addrC scalerDl; congr (_ + _).
rewrite (horner_coef_wide _ (size_Poly cs)) mulr_suml scaler_suml.
apply: eq_bigr => j _; rewrite (nth_map 0) // coef_Poly mul1r scalerA.
by congr (_ *: _); rewrite mulrC exprSr mulrA.
Qed.

Theorem feldman_verify_iff (hg : base_ok g) (cs : seq F) (sh : share B) : cs != [::] ->
  (feldman_verify g dec [seq c *: g | c <- cs] (Some sh) = Ok tt <->
   [/\ sh_id sh <> 0%N, dec (sh_val sh) = Some (Poly cs).[(sh_id sh)%:R] &
       (Poly cs).[(sh_id sh)%:R] <> 0]).
Proof.
case: cs => [//|c cs] _.
have := commit_eval_poly (sh_id sh)%:R g (c :: cs) => /= ->.
rewrite /validate; case: eqP => [e|ne] /=; first by split=> // -[].
case: (dec _) => [v|] /=; last by split=> // -[].
case: eqP => [->|v0] /=; first by split=> // -[_ [<-]].
case: eqP => [/eqP e|e].
  split=> // _; split=> //.
    by congr Some; move: e; rewrite -subr_eq0 -scalerBl => /eqP/hg/eqP; rewrite subr_eq0 => /eqP.
  by move: e; rewrite -subr_eq0 -scalerBl => /eqP/hg/eqP; rewrite subr_eq0 => /eqP <-.
by split=> // -[_ [h] _]; case: e; rewrite h.
Qed.

Theorem feldman_split_verifies t n c s secret rnd comms shares :
  new_shamir t n c = Ok s -> feldman_split g enc s secret rnd = Ok (comms, shares) ->
  base_ok g ->
  forall sh, List.In sh shares ->
  feldman_verify g dec comms (Some sh) =
  if dec (sh_val sh) is Some v then if v == 0 then Err else Ok tt else Err.
Proof.
move=> /new_shamirE[-> t2 tn n255]; rewrite /feldman_split; case: eqP => // /eqP s0.
rewrite get_poly_and_sharesE /=; last exact: leq_trans t2.
case=> <- <- hg sh /In_mk[i hi ->] /=.
have := commit_eval_poly (i.+1)%:R g (secret :: mkseq rnd t.-1) => /= ->.
by rewrite /validate /= codec; case: eqP => //= _; rewrite eqxx.
Qed.

(* ---- Pedersen ---- *)
Lemma commit_evalD (x i : F) (a b : G) (ps qs : seq G) : size ps = size qs ->
  commit_eval x i (a + b) [seq p.1 + p.2 | p <- zip ps qs] =
  commit_eval x i a ps + commit_eval x i b qs.
Proof.
elim: ps qs i a b => [|p ps IH] [|q qs] //= i a b [sz].
rewrite -IH //; congr commit_eval; rewrite scalerDr -!addrA; congr (_ + _).
by rewrite addrCA.
Qed.

Theorem pedersen_split_verifies t n gen s secret rnd r :
  new_pedersen t n gen true = Ok s -> pedersen_split g enc s secret rnd = Ok r ->
  forall i, (i < n)%N ->
  exists sh bl, [/\ List.In sh (pr_secret_shares r), List.In bl (pr_blinding_shares r),
     sh_id sh = i.+1 /\ sh_id bl = i.+1 &
     pedersen_verify g dec (pr_pedersen r) (Some sh) (Some bl) =
       (if zero_valued sh || zero_valued bl then Err else Ok tt)].
Proof.
rewrite /new_pedersen; case: ltnP => // tn; case: ltnP => // t2; case: ltnP => // n255.
case: gen => //= h; case: eqP => // /eqP h0 [<-]; rewrite /pedersen_split /=.
have t0 : (0 < t)%N by apply: leq_trans t2.
rewrite !get_poly_and_sharesE //= => -[<-] i hi /=.
set cs := secret :: _; set ds := rnd 0%N :: _.
exists (mk_share cs i), (mk_share ds i); split=> //.
- by apply/In_mk; exists i.
- by apply/In_mk; exists i.
rewrite /pedersen_verify /= !validateE /valid_share /zero_valued /= !codec /=.
case: eqP => //= _; case: eqP => //= _.
have -> : [seq p.1 *: g + p.2 *: h | p <-
    zip (mkseq (fun k => rnd k.+1) t.-1) (mkseq (fun k => rnd (t + k)%N) t.-1)] =
  [seq p.1 + p.2 | p <- zip [seq c *: g | c <- mkseq (fun k => rnd k.+1) t.-1]
                           [seq c *: h | c <- mkseq (fun k => rnd (t + k)%N) t.-1]].
  elim: (mkseq (fun k => rnd k.+1) t.-1) (mkseq (fun k => rnd (t + k)%N) t.-1) => [|a l IH] [|b l'] //=.
  by rewrite IH.
rewrite commit_evalD ?size_map ?size_mkseq //.
have := commit_eval_poly (i.+1)%:R g cs => /= ->.
by have := commit_eval_poly (i.+1)%:R h ds => /= ->; rewrite eqxx.
Qed.

Theorem pedersen_binding (pv : pedersen_verifier G) s1 b1 s2 b2 :
  pedersen_verify g dec pv (Some s1) (Some b1) = Ok tt ->
  pedersen_verify g dec pv (Some s2) (Some b2) = Ok tt ->
  sh_id s1 = sh_id s2 ->
  exists v1 w1 v2 w2,
    [/\ dec (sh_val s1) = Some v1, dec (sh_val b1) = Some w1,
        dec (sh_val s2) = Some v2 & dec (sh_val b2) = Some w2] /\
    (v1 - v2) *: g = (w2 - w1) *: pv_gen pv.
Proof.
rewrite /pedersen_verify /= !validateE.
case V1: (valid_share s1) => //=; case W1: (valid_share b1) => //=.
case V2: (valid_share s2) => //=; case W2: (valid_share b2) => //=.
case: (pv_comm pv) => [//|c0 cs].
case: eqP => // e1 _; case: eqP => // e2 _ eid.
move: V1 V2 W1 W2; rewrite /valid_share.
case/andP=> _; case E1: (dec (sh_val s1)) => [v1|] // _.
case/andP=> _; case E2: (dec (sh_val s2)) => [v2|] // _.
case/andP=> _; case E3: (dec (sh_val b1)) => [w1|] // _.
case/andP=> _; case E4: (dec (sh_val b2)) => [w2|] // _.
exists v1, w1, v2, w2; split=> //.
move: e1 e2; rewrite E1 E2 E3 E4 /= eid => <- e.
apply/eqP; rewrite -subr_eq0; apply/eqP.
rewrite -[RHS](subrr (v2 *: g + w2 *: pv_gen pv)) {1}e; lm_reduce F G; ring.
Qed.

(** the blinding share's identifier is irrelevant *)
Theorem pedersen_blind_id_ignored (pv : pedersen_verifier G) s b k :
  sh_id b <> 0%N -> k <> 0%N ->
  pedersen_verify g dec pv (Some s) (Some (Share k (sh_val b))) =
  pedersen_verify g dec pv (Some s) (Some b).
Proof.
move=> hb hk; rewrite /pedersen_verify /= !validateE /valid_share /=.
by move/eqP: hb => ->; move/eqP: hk => ->.
Qed.

(* ---- LagrangeCoeffs ---- *)
Lemma lagrange_loopE (keys todo : seq nat) :
  uniq keys -> {subset todo <= keys} -> {in keys &, injective (fun i : nat => i%:R : F)} ->
  lagrange_loop F keys todo =
  Ok [seq (i, (\prod_(j <- keys | j != i) (j%:R : F)) / \prod_(j <- keys | j != i) (j%:R - i%:R)) | i <- todo].
Proof.
move=> u hs inj; elim: todo hs => [//|i r IH] hs /=.
rewrite /lagrange_coeff (foldl_prod_if i (fun j => j%:R)) (foldl_prod_if i (fun j => j%:R - i%:R)) !mul1r.
have ik : i \in keys by apply: hs; rewrite mem_head.
case: ifP => [|_] /=.
  rewrite prodf_seq_eq0 => /hasP[j jk /andP[nj]]; rewrite subr_eq0 => /eqP /inj.
  by move=> /(_ jk ik) e; rewrite e eqxx in nj.
by rewrite IH // => j hj; apply: hs; rewrite inE hj orbT.
Qed.

Theorem lagrange_coeffs_correct (ids keys : seq nat) :
  perm_eq keys (undup ids) ->
  {in ids &, injective (fun i : nat => i%:R : F)} ->
  exists ws : seq (nat * F),
    [/\ lagrange_coeffs F keys = Ok ws, map fst ws = keys &
     forall f : {poly F}, (size f <= size keys)%N -> \sum_(w <- ws) w.2 * f.[(w.1)%:R] = f.[0]].
Proof.
move=> pk inj.
have u : uniq keys by rewrite (perm_uniq pk) undup_uniq.
have injk : {in keys &, injective (fun i : nat => i%:R : F)}.
  by move=> i j; rewrite !(perm_mem pk) !mem_undup; apply: inj.
eexists; split; first exact: (lagrange_loopE u (fun i h => h) injk).
  by rewrite -map_comp map_id.
move=> f sf; rewrite big_map /=.
pose xs := [seq (i%:R : F) | i <- keys].
have ux : uniq xs by rewrite map_inj_in_uniq.
rewrite -(@lagrange_sum xs f ux) ?size_map //.
rewrite (big_nth 0%N) big_mkord; apply: eq_bigr => i _.
rewrite mulrC (nth_map 0%N) //; congr (_ * _).
rewrite lag_numE lag_denE size_map (nth_map 0%N) //.
rewrite (big_nth 0%N) big_mkord [X in _ / X](big_nth 0%N) big_mkord.
congr (_ / _).
  by apply: eq_big => [j|j _]; rewrite ?nth_uniq // (nth_map 0%N).
by apply: eq_big => [j|j _]; rewrite ?nth_uniq // (nth_map 0%N).
Qed.


Theorem split_total t n c s (secret : F) (rnd : nat -> F) :
  new_shamir t n c = Ok s -> secret != 0 ->
  exists2 shares, split enc s secret rnd = Ok shares &
    [seq sh_id sh | sh <- shares] = iota 1 n.
Proof.
move=> /new_shamirE[-> t2 tn n255] s0; rewrite splitE //; last exact: leq_trans t2.
eexists; first reflexivity.
by rewrite -map_comp /= -[1%N]addn0 iotaDl.
Qed.

Theorem new_pedersen_nil t n : (2 <= t)%N -> (t <= n)%N -> (n <= 255)%N ->
  new_pedersen t n (None : option G) true = Panic.
Proof. by rewrite /new_pedersen => t2 tn n255; rewrite ltnNge tn ltnNge t2 ltnNge n255. Qed.

(** Finding: an honest dealing can contain a share that Combine refuses. *)
Theorem shamir_zero_share (hF : big_field F) t n c s secret :
  new_shamir t n c = Ok s -> secret != 0 ->
  exists rnd shares,
    split enc s secret rnd = Ok shares /\ combine dec s (map Some shares) = Err.
Proof.
move=> /new_shamirE[-> t2 tn n255] s0.
pose rnd := fun k : nat => if k == 0%N then - secret else 0.
case: t t2 tn => [|[|t]] // _ tn; case: n tn n255 => [//|n] tn n255.
exists rnd; eexists; split; first by rewrite splitE.
rewrite /combine size_map size_map size_iota [threshold _]/= [limit _]/= ltnNge tn.
set cs := secret :: _; rewrite [iota _ _]/= [map _ (_ :: _)]/= [negb _]/=.
have hv : valid_share (mk_share cs 0) = false.
  have e : (Poly cs).[1] = 0.
    rewrite horner_Poly /= /mkseq /=.
    have -> : horner_rec [seq rnd i | i <- iota 1 t] 1 = 0.
      rewrite -(addn0 1%N) iotaDl -map_comp; elim: t {tn cs} 0%N => [//|t IH] k /=.
      by rewrite IH mul0r add0r.
    by rewrite /rnd eqxx mul0r add0r mulr1 addNr.
  rewrite /valid_share; change (sh_val (mk_share cs 0)) with (enc (Poly cs).[1]).
  by rewrite codec e eqxx andbF.
by rewrite /= validateE hv.
Qed.

End P.

Lemma new_shamir_ok t n c :
  is_ok (new_shamir t n c) = [&& (2 <= t)%N, (t <= n)%N, (n <= 255)%N & c != None].
Proof.
rewrite /new_shamir; case: ltnP => tn; first by rewrite andbF.
by case: ltnP => //= t2; case: ltnP => //= n255; case: c.
Qed.
