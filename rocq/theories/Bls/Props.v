(** Properties C60, C71 and C72: BLS signatures, threshold signatures, key encodings. *)
From mathcomp Require Import all_ssreflect all_algebra zify.
From Verif Require Import Lib.Res Lib.Bytes Lib.Pairing Lib.Inst Lib.FieldTac Lib.LmodTac.
From Verif Require Import Sharing.Model Sharing.Spec Sharing.Proofs Bls.Model.
From Coq Require Import Field.
Set Implicit Arguments.
Unset Strict Implicit.
Unset Printing Implicit Defensive.
Import GRing.Theory.
Local Open Scope ring_scope.

Lemma In_mem (T : eqType) (x : T) l : List.In x l <-> x \in l.
Proof.
elim: l => // y l IH; rewrite inE /= IH; split=> [[->|h]|/orP[/eqP ->|h]]; rewrite ?eqxx ?h ?orbT //; by [left|right].
Qed.
Lemma In_map (A B : Type) (f : A -> B) l y : List.In y (map f l) -> exists2 x, List.In x l & y = f x.
Proof. by elim: l => //= x l IH [<-|/IH[z hz ->]]; [exists x => //; left | exists z => //; right]. Qed.

Section Props.
Variables (F : fieldType) (PK SG GT : lmodType F) (gp : PK) (e : SG -> PK -> GT).
Hypothesis ok : pairing_ok e gp.
Variables (hashpt : bytes -> bytes -> SG) (penc : cpt PK -> bytes).
Variable off_check : nat -> SG -> SG -> bool.
Add Field F_field : (f_fth F).
Notation verify_signature := (verify_signature gp e hashpt off_check).
Notation create_signature := (create_signature hashpt).
Notation core_aggregate_verify := (core_aggregate_verify gp e hashpt).
Implicit Types (sk : F) (s : SG) (m dst : bytes).

(** the honest key pair of a secret key *)
Definition hpk sk : option (cpt PK) := Some (In (sk *: gp)).

Lemma pk_eq0 sk : (sk *: gp == 0) = (sk == 0).
Proof. by rewrite scaler_eq0 (negbTE (pr_gen ok)) orbF. Qed.

Lemma pair_eq sk s h : (e h (sk *: gp) + e s (- gp) == 0) = (s == sk *: h).
Proof.
rewrite (pr_Nr ok) subr_eq0 -[X in _ == e s X]scale1r (pr_shift ok) scale1r.
by rewrite eq_sym.
Qed.

(** C60: GetPublicKey and Verify: a key exists for every non-zero secret key, and Verify's verdict on any
    subgroup signature under it is exactly s = sk H(m), except that the identity signature is an error. *)
Theorem C60_public_key sk :
  get_public_key gp (Some sk) = if sk == 0 then Err else Ok (In (sk *: gp)).
Proof. by rewrite /get_public_key /= pk_eq0. Qed.

Theorem C60_verify_exact sk m s dst :
  basic_verify gp e hashpt off_check (hpk sk) (Some m) (Some (In s)) dst =
  if (sk == 0) || (s == 0) then Err else Ok (s == sk *: hashpt m dst).
Proof.
rewrite /basic_verify /Model.verify_signature /= pk_eq0 pair_eq.
by case: (eqVneq sk 0) => // _; case: (eqVneq s 0).
Qed.

(** C60: a nil message, a nil signature and a signature outside the subgroup are errors; a nil key panics *)
Theorem C60_verify_rejects (pk : cpt PK) m i dst :
  [/\ basic_verify gp e hashpt off_check (Some pk) (Some m) (Some (Off i)) dst = Err,
      (forall sg, basic_verify gp e hashpt off_check (Some pk) None sg dst = Err),
      (forall om, basic_verify gp e hashpt off_check (Some pk) om None dst = Err) &
      (forall om sg, basic_verify gp e hashpt off_check None om sg dst = Panic)].
Proof.
rewrite /basic_verify /Model.verify_signature; split=> //.
- by rewrite /=; case: ifP.
- by case.
Qed.

(** C60: Sign then Verify, in the basic and proof-of-possession schemes, whenever the message does not hash to
    the identity (in which case the signature is the identity and Verify reports an error). *)
Theorem C60_sign_verify sk m dst : sk != 0 ->
  exists2 s, basic_sign hashpt (Some sk) (Some m) dst = Ok s &
    basic_verify gp e hashpt off_check (hpk sk) (Some m) (Some s) dst =
    if hashpt m dst == 0 then Err else Ok true.
Proof.
move=> h; exists (In (sk *: hashpt m dst)).
  by rewrite /basic_sign /Model.create_signature /= (negbTE h).
by rewrite C60_verify_exact (negbTE h) scaler_eq0 (negbTE h) /= eqxx.
Qed.

(** C60: a signature is accepted for one message only: an accepted signature is the one Sign produces *)
Theorem C60_unique sk m (s : cpt SG) dst :
  basic_verify gp e hashpt off_check (hpk sk) (Some m) (Some s) dst = Ok true ->
  basic_sign hashpt (Some sk) (Some m) dst = Ok s.
Proof.
case: s => [s|i]; last by case: (C60_verify_rejects (In (sk *: gp)) m i dst) => ->.
rewrite C60_verify_exact /basic_sign /Model.create_signature /=.
by case: (eqVneq sk 0) => //= _; case: (eqVneq s 0) => //= _ [/eqP ->].
Qed.

(** C60: message augmentation.  Sign (of usual_bls.go) rejects the empty message although Verify accepts the
    signature which the tiny variant gives on it. *)
Theorem C60_aug_sign_verify vt sk (msg : option bytes) dst : sk != 0 ->
  match aug_sign gp hashpt penc vt (Some sk) msg dst with
  | Ok s => aug_verify gp e hashpt penc off_check (hpk sk) msg (Some s) dst =
              (if hashpt (penc (In (sk *: gp)) ++ msg_bytes msg) dst == 0 then Err else Ok true)
            /\ (vt \/ msg_bytes msg <> [::])
  | Err => vt = false /\ msg_bytes msg = [::]
  | Panic => False
  end.
Proof.
move=> h; rewrite /aug_sign; case: ifP => [/andP[/negbTE hv /eqP hm]|hvm].
  by split=> //; apply/size0nil.
rewrite C60_public_key (negbTE h) /Model.create_signature /= (negbTE h); split.
  rewrite /aug_verify /Model.verify_signature /= pk_eq0 (negbTE h) scaler_eq0 (negbTE h) /=.
  by case: ifP => // _; rewrite pair_eq eqxx.
by case: vt hvm => [_|/=]; [left | case: (msg_bytes msg) => // ? ? _; right].
Qed.

(** ** Aggregation *)
(** the signature an honest group of signers produces together *)
Definition agg_value (sks : seq F) (ms : seq bytes) dst : SG :=
  \sum_(x <- zip sks ms) x.1 *: hashpt x.2 dst.

Lemma agg_pairsE sks ms dst acc : size sks = size ms -> all (fun k => k != 0) sks ->
  agg_pairs e hashpt (map hpk sks) ms dst acc = Ok (acc + e (agg_value sks ms dst) gp).
Proof.
rewrite /agg_value; elim: sks ms acc => [|k l IH] [|m ms] acc //=.
  by rewrite big_nil (pr_0l ok) addr0.
case=> hs /andP[hk hl]; rewrite pk_eq0 (negbTE hk) IH // big_cons (pr_addl ok) (pr_scalel ok) (pr_scaler ok) /=.
by rewrite addrA.
Qed.

Lemma sum_pointsE (G : lmodType F) (acc : G) (l : seq G) :
  sum_points acc [seq Some (In x) | x <- l] = Ok (In (acc + \sum_(x <- l) x)).
Proof. by elim: l acc => [|x l IH] acc /=; rewrite ?big_nil ?addr0 // IH big_cons addrA. Qed.

Lemma aggregate_pointsE (G : lmodType F) (l : seq G) : l != [::] ->
  aggregate_points [seq Some (In x) | x <- l] = Ok (In (\sum_(x <- l) x)).
Proof. by case: l => // x l _; rewrite /aggregate_points size_map sum_pointsE add0r. Qed.

Lemma all_rows_from seen data : all_rows_unique_from seen data = uniq data && all (fun r => r \notin seen) data.
Proof.
elim: data seen => // r l IH seen /=; rewrite IH.
case: (boolP (r \in seen)) => hr /=; first by rewrite andbF.
have -> : all (fun x => x \notin r :: seen) l = (r \notin l) && all (fun x => x \notin seen) l.
  elim: l {IH} => // x l IHl /=; rewrite IHl !inE !negb_or eq_sym -!andbA.
  by case: (_ != _) => //=; case: (x \notin seen) => //=; rewrite andbF.
by case: (r \notin l); case: (uniq l).
Qed.

Lemma all_rowsE data : all_rows_unique data = uniq data.
Proof. by rewrite /all_rows_unique all_rows_from; case: (uniq data) => //=; elim: data. Qed.

Lemma core_aggE sks (ms : seq bytes) s dst : all (fun k => k != 0) sks -> sks != [::] ->
  core_aggregate_verify (In s) (map hpk sks) ms dst =
  if size sks == size ms then Ok (s == agg_value sks ms dst) else Err.
Proof.
move=> hk hs0; rewrite /Model.core_aggregate_verify size_map.
have -> : (size sks < 1)%N = false by case: sks hs0 {hk}.
case: eqP => [hs|_]; last by rewrite if_same.
have -> : (size ms < 1)%N = false by rewrite -hs; case: sks hs0 {hk hs}.
rewrite /= agg_pairsE //=; congr (Ok _).
by rewrite add0r -[in X in e _ X + _](scale1r gp) pair_eq scale1r.
Qed.

Lemma msg_map (ms : seq bytes) : map msg_bytes (map Some ms) = ms.
Proof. by elim: ms => //= m ms ->. Qed.

(** C60: the exact verdict of SigBasic/SigPop AggregateVerify on non-zero keys and subgroup signatures: distinct
    messages, one for each key, and the sum of the signatures is the sum of sk_i H(m_i).  The number of
    signatures need not be the number of keys. *)
Theorem C60_aggregate_exact sks (ms : seq bytes) (ss : seq SG) dst :
  all (fun k => k != 0) sks -> sks != [::] -> ss != [::] ->
  basic_aggregate_verify gp e hashpt (map hpk sks) (map Some ms) [seq Some (In x) | x <- ss] dst =
  if uniq ms && (size sks == size ms) then Ok (\sum_(x <- ss) x == agg_value sks ms dst) else Err.
Proof.
move=> hk hs0 hss; rewrite /basic_aggregate_verify msg_map all_rowsE.
case: (uniq ms) => //=; rewrite /aggregate_signatures aggregate_pointsE //=.
exact: core_aggE.
Qed.

(** C60: signatures made by Sign on distinct messages aggregate and verify *)
Theorem C60_aggregate_complete sks (ms : seq bytes) dst :
  all (fun k => k != 0) sks -> sks != [::] -> size sks = size ms -> uniq ms ->
  exists2 sigs, size sigs = size sks /\
      (forall i, (i < size sks)%N ->
         basic_sign hashpt (Some (nth 0 sks i)) (Some (nth [::] ms i)) dst = Ok (nth (Off 0) sigs i)) &
      basic_aggregate_verify gp e hashpt (map hpk sks) (map Some ms) (map Some sigs) dst = Ok true.
Proof.
move=> hk hs0 hs hu.
pose ss := [seq x.1 *: hashpt x.2 dst | x <- zip sks ms].
have hz : size ss = size sks by rewrite size_map size_zip hs minnn.
exists [seq In x | x <- ss]; first split; first by rewrite size_map.
  move=> i hi; rewrite /basic_sign /Model.create_signature /= (negbTE (all_nthP 0 hk i hi)).
  by rewrite (nth_map 0) ?hz // (nth_map (0, [::])) ?size_zip -?hs ?minnn // nth_zip.
rewrite -map_comp C60_aggregate_exact // ?hu ?hs ?eqxx //=; last by rewrite -size_eq0 hz size_eq0.
by rewrite /ss /agg_value big_map eqxx.
Qed.

(** C60: augmented aggregation: messages may repeat, each is bound to its key *)
Lemma aug_dataE sks (ms : seq bytes) : size sks = size ms ->
  aug_data penc (map hpk sks) ms = Ok [seq penc (In (x.1 *: gp)) ++ x.2 | x <- zip sks ms].
Proof. by elim: sks ms => [|k l IH] [|m ms] //= [hs]; rewrite IH. Qed.

Theorem C60_aug_aggregate_exact sks (ms : seq bytes) (ss : seq SG) dst :
  all (fun k => k != 0) sks -> sks != [::] -> ss != [::] -> size sks = size ms ->
  aug_aggregate_verify gp e hashpt penc (map hpk sks) (map Some ms) [seq Some (In x) | x <- ss] dst =
  Ok (\sum_(x <- ss) x == agg_value sks [seq penc (In (x.1 *: gp)) ++ x.2 | x <- zip sks ms] dst).
Proof.
move=> hk hs0 hss hs; rewrite /aug_aggregate_verify !size_map hs eqxx /= msg_map.
rewrite aug_dataE //= /aggregate_signatures aggregate_pointsE //=.
by rewrite core_aggE // size_map size_zip hs minnn eqxx.
Qed.

(** ** Proofs of possession and multi-signatures *)
Theorem C60_pop_complete sk popdst : sk != 0 ->
  exists2 s, pop_prove gp hashpt penc (Some sk) popdst = Ok s &
    pop_verify gp e hashpt penc off_check (hpk sk) (Some s) popdst =
    if hashpt (penc (In (sk *: gp))) popdst == 0 then Err else Ok true.
Proof.
move=> h; exists (In (sk *: hashpt (penc (In (sk *: gp))) popdst)).
  by rewrite /pop_prove /create_pop C60_public_key (negbTE h) /Model.create_signature /= (negbTE h).
have := C60_verify_exact sk (penc (In (sk *: gp))) (sk *: hashpt (penc (In (sk *: gp))) popdst) popdst.
rewrite /basic_verify /pop_verify /hpk; cbn [deref bind] => ->.
by rewrite (negbTE h) scaler_eq0 (negbTE h) eqxx.
Qed.

(** C60: FastAggregateVerify and multi-signatures: the exact verdict.  If the keys add up to zero, or the
    aggregated signature is the identity, the result is an error; otherwise it is s = (sum sk_i) H(m). *)
Theorem C60_fast_aggregate_exact sks m s dst : sks != [::] ->
  let r := if (\sum_(k <- sks) k == 0) || (s == 0) then Err else Ok (s == (\sum_(k <- sks) k) *: hashpt m dst) in
  fast_aggregate_verify gp e hashpt off_check (map hpk sks) (Some m) (Some (In s)) dst = r /\
  (do pk <- multi_pk (map hpk sks); verify_multi gp e hashpt off_check (Some pk) (Some m) (Some (In s)) dst) = r.
Proof.
move=> hs0 r.
have h : aggregate_public_keys (map hpk sks) = Ok (In ((\sum_(k <- sks) k) *: gp)).
  have -> : map hpk sks = [seq Some (In x) | x <- [seq k *: gp | k <- sks]] by rewrite -map_comp.
  by rewrite /aggregate_public_keys aggregate_pointsE ?big_map ?scaler_suml // -size_eq0 size_map size_eq0.
by rewrite /fast_aggregate_verify /multi_pk /verify_multi h; split; apply: C60_verify_exact.
Qed.

Theorem C60_multisig_complete sks m dst : sks != [::] -> all (fun k => k != 0) sks ->
  exists2 sigs, size sigs = size sks /\
      (forall i, (i < size sks)%N -> basic_sign hashpt (Some (nth 0 sks i)) (Some m) dst = Ok (nth (Off 0) sigs i)) &
      fast_aggregate_verify_constituent gp e hashpt off_check (map hpk sks) (Some m) (map Some sigs) dst =
      if (\sum_(k <- sks) k == 0) || (hashpt m dst == 0) then Err else Ok true.
Proof.
move=> hs0 hk; pose ss := [seq k *: hashpt m dst | k <- sks].
exists [seq In x | x <- ss]; first split; first by rewrite !size_map.
  move=> i hi; rewrite /basic_sign /Model.create_signature /= (negbTE (all_nthP 0 hk i hi)).
  by rewrite (nth_map 0) ?size_map // (nth_map 0).
rewrite /fast_aggregate_verify_constituent -map_comp /aggregate_signatures aggregate_pointsE.
  rewrite /= (C60_fast_aggregate_exact m _ dst hs0).1 /ss big_map -scaler_suml scaler_eq0 eqxx.
  by case: (_ == 0).
by rewrite -size_eq0 size_map size_eq0.
Qed.

(** C60: why proofs of possession are needed: without them, whoever publishes the key x G - pk makes a
    "joint" signature of pk's owner and themselves verify, knowing only x. *)
Theorem C60_rogue_key sk x m dst : x != 0 -> hashpt m dst != 0 ->
  fast_aggregate_verify gp e hashpt off_check [:: hpk sk; Some (In (x *: gp - sk *: gp))] (Some m)
    (Some (In (x *: hashpt m dst))) dst = Ok true.
Proof.
move=> hx hh; have -> : Some (In (x *: gp - sk *: gp)) = hpk (x - sk) by rewrite /hpk scalerBl.
rewrite (@C60_fast_aggregate_exact [:: sk; x - sk] m _ dst isT).1 !big_cons big_nil addr0.
have -> : sk + (x - sk) = x by rewrite addrC subrK.
by rewrite scaler_eq0 (negbTE hx) (negbTE hh) eqxx.
Qed.

(** ** C71: threshold signatures *)
Section Threshold.
Hypothesis hF : big_field F.
Variables (enc : F -> bytes) (dec : bytes -> option F).
Hypothesis codec : codec_ok enc dec.

Lemma basis_at0E (xs : seq F) i : uniq xs -> (i < size xs)%N ->
  basis_at0 xs i = Ok (lag_num xs i / lag_den xs i).
Proof.
move=> u hi; rewrite lag_numE lag_denE -prodf_div /basis_at0.
rewrite -(@big_mkord _ 1 _ (size xs) (fun j => j != i) (fun j => nth 0 xs j / (nth 0 xs j - nth 0 xs i))).
rewrite /index_iota subn0 -[X in _ = Ok X]mul1r.
have key l : forall c : F, all (fun j => (j < size xs)%N) l ->
  foldl (fun (acc : outcome F) j => do basis <- acc;
     if i == j then Ok basis else if nth 0 xs i - nth 0 xs j == 0 then Err
     else Ok (basis * (- nth 0 xs j / (nth 0 xs i - nth 0 xs j)))) (Ok c) l =
  Ok (c * \prod_(j <- l | j != i) (nth 0 xs j / (nth 0 xs j - nth 0 xs i))).
  elim: l => [|j l IH] c /=; first by rewrite big_nil mulr1.
  case/andP=> hj hl; rewrite big_cons eq_sym; case: (eqVneq j i) => hij /=; first exact: IH.
  have hd : nth 0 xs i - nth 0 xs j != 0 by rewrite subr_eq0 nth_uniq // eq_sym.
  rewrite (negbTE hd) IH //; have -> : - nth 0 xs j / (nth 0 xs i - nth 0 xs j) = nth 0 xs j / (nth 0 xs j - nth 0 xs i).
    by rewrite mulNr -mulrN -invrN opprB.
  by rewrite !mulrA.
by apply: key; apply/allP => j; rewrite mem_iota.
Qed.

Lemma split_xyE dup (l : seq (nat * SG)) :
  split_xy dup [seq Some (Partial x.1 (In x.2)) | x <- l] =
  if uniq (map fst l) && all (fun i => i \notin dup) (map fst l)
  then Ok ([seq (x.1)%:R | x <- l], map snd l) else Err.
Proof.
elim: l dup => // x l IH dup /=; case: (boolP (x.1 \in dup)) => h1 /=; first by rewrite andbF.
rewrite IH; have -> : all (fun i => i \notin x.1 :: dup) (map fst l) =
   (x.1 \notin map fst l) && all (fun i => i \notin dup) (map fst l).
  elim: l {IH} => // y l IHl /=; rewrite IHl !inE !negb_or eq_sym -!andbA.
  by case: (_ != _) => //=; case: (_ \notin dup) => //=; rewrite andbF.
by case: (uniq _); case: (_ \notin _); case: (all _ _).
Qed.

(** C71: the exact result of CombineSignatures on subgroup partials with byte identifiers *)
Theorem C71_combine_exact (l : seq (nat * SG)) : all (fun x => x.1 < 256)%N l ->
  combine_sigs [seq Some (Partial x.1 (In x.2)) | x <- l] =
  if (2 <= size l <= 255)%N && uniq (map fst l) then
    let xs := [seq (x.1)%:R | x <- l] in
    Ok (In (\sum_(i < size l) (lag_num xs i / lag_den xs i) *: nth 0 (map snd l) i))
  else Err.
Proof.
move=> hb; rewrite /combine_sigs size_map ltnNge; case: (2 <= size l)%N => //=.
rewrite ltnNge; case: (size l <= 255)%N => //=; rewrite split_xyE.
have -> : all (fun i => i \notin [::]) (map fst l) by elim: (map fst l).
rewrite andbT; case: (boolP (uniq _)) => //= u.
have ux : uniq [seq (x.1)%:R : F | x <- l].
  rewrite (map_comp (fun n => n%:R) fst) map_inj_in_uniq // => i j /mapP[x hx ->] /mapP[y hy ->] h.
  by apply: (big_field_inj hF) h; rewrite -ltnS; apply: (allP hb).
have h (xs : seq F) (ys : seq SG) c r : uniq xs -> (forall i, i \in r -> (i < size xs)%N) ->
  foldl (fun acc i => do s <- acc; do basis <- basis_at0 xs i; Ok (s + basis *: nth 0 ys i)) (Ok c) r =
  Ok (c + \sum_(i <- r) (lag_num xs i / lag_den xs i) *: nth 0 ys i).
  move=> uxs; elim: r c => [|i r IH] c hr /=; first by rewrite big_nil addr0.
  rewrite basis_at0E ?hr ?mem_head //= IH ?big_cons ?addrA // => j hj; apply: hr.
  by rewrite inE hj orbT.
rewrite h //= ?add0r; last by move=> i; rewrite mem_iota.
by rewrite size_map -[iota _ _](_ : index_iota 0 (size l) = _) ?big_mkord // /index_iota subn0.
Qed.

(** the partial signatures of a list of key shares *)
Definition partials_of m dst (sel : seq key_share) : outcome (seq (option (partial SG))) :=
  foldr (fun ks acc => do p <- partial_sign hashpt dec (Some ks) m dst; do r <- acc; Ok (Some p :: r)) (Ok [::]) sel.

Lemma partials_cons m dst ks l : partials_of m dst (ks :: l) =
  do p <- partial_sign hashpt dec (Some ks) m dst; do r <- partials_of m dst l; Ok (Some p :: r).
Proof. by []. Qed.

(** C71: for every threshold key, every non-empty message and every choice of t or more distinct shares: the
    partial signatures combine into exactly the signature Sign makes with the secret key. *)
Theorem C71_threshold_complete sk t n rnd shares (sel : seq key_share) m dst :
  thresholdize enc (Some sk) t n rnd = Ok shares ->
  (forall ks, List.In ks sel -> List.In ks shares) -> uniq (map ks_id sel) -> (t <= size sel)%N -> m <> [::] ->
  exists2 ps, partials_of m dst sel = Ok ps &
    combine_sigs ps = basic_sign hashpt (Some sk) (Some m) dst.
Proof.
rewrite /thresholdize; case: (ltnP n t) => // htn; case: (eqVneq t 0%N) => // ht0; case: (leqP n 1) => // hn1.
case: (boolP ((255 < n)%N || (255 < t)%N)) => //; rewrite negb_or -!leqNgt => /andP[hn255 _].
rewrite /new_shamir ltnNge htn /=; case: (ltnP t 2) => //= ht2; rewrite ltnNge hn255 /=.
case: (eqVneq sk 0) => [->|hk]; first by rewrite /Model.split eqxx.
rewrite splitE //=; last by rewrite (leq_trans _ ht2).
rewrite size_map size_iota eqxx /= => -[<-] hsel hu hts hm.
set cs := sk :: _ in hsel.
have hsel' ks : List.In ks sel -> exists2 i, (i < n)%N & ks = KeyShare i.+1 (enc (Poly cs).[(i.+1)%:R]).
  move=> /hsel; rewrite -map_comp => h; have [i hi ->] := In_map h; move/In_mem: hi; rewrite mem_iota /= => hi; exists i => //=.
  by rewrite modn_small // (leq_ltn_trans hi).
pose l := [seq (ks_id ks, (Poly cs).[(ks_id ks)%:R] *: hashpt m dst) | ks <- sel].
exists [seq Some (Partial x.1 (In x.2)) | x <- l].
  have hps ks : List.In ks sel ->
    partial_sign hashpt dec (Some ks) m dst = Ok (Partial (ks_id ks) (In ((Poly cs).[(ks_id ks)%:R] *: hashpt m dst))).
    move=> /hsel'[i _ ->]; have hm0 : (size m == 0%N) = false by case: (m) hm.
    by rewrite /partial_sign hm0 /deref /bind /ks_val codec.
  rewrite /l; elim: sel hps {hsel hsel' hu hts l} => // ks l IH hps.
  rewrite partials_cons hps; last by left.
  by rewrite IH // => k hk'; apply: hps; right.
have hids i : i \in map ks_id sel -> (0 < i <= 255)%N.
  by move=> /In_mem h; have [ks hks ->] := In_map h; have [j hj ->] := hsel' _ hks; rewrite /= (leq_trans hj).
have hfst : map fst l = map ks_id sel by rewrite /l -map_comp; apply: eq_map.
have hsz : size l = size sel by rewrite size_map.
have hcard : (size sel <= 255)%N.
  rewrite -(size_map ks_id) -(size_iota 1 255); apply: uniq_leq_size => // i /hids.
  by rewrite mem_iota.
rewrite C71_combine_exact ?hfst ?hu ?hsz ?hcard ?(leq_trans ht2 hts) /=; last first.
  by apply/allP => x /(map_f fst); rewrite hfst => /hids /andP[].
rewrite /basic_sign /Model.create_signature /= (negbTE hk); congr (Ok (In _)).
have hx : [seq (x.1)%:R : F | x <- l] = [seq (ks_id ks)%:R | ks <- sel] by rewrite /l -map_comp; apply: eq_map.
rewrite hx; set xs := [seq _ | ks <- sel].
have ux : uniq xs.
  rewrite /xs (map_comp (fun n => n%:R) ks_id) map_inj_in_uniq // => i j /hids /andP[_ h1] /hids /andP[_ h2].
  exact: (big_field_inj hF).
have hsx : size xs = size sel by rewrite size_map.
have hsc : (size (Poly cs) <= size xs)%N.
  by rewrite hsx; apply: leq_trans hts; apply: leq_trans (size_Poly _) _; rewrite /cs /= size_mkseq prednK // (leq_trans _ ht2).
have := lagrange_sum ux hsc; rewrite Poly0 => <-.
rewrite scaler_suml -hsx; apply: eq_bigr => i _.
rewrite /l -map_comp (nth_map (KeyShare 0 [::])) -?hsx //= scalerA mulrC; congr (_ * _ *: _).
by rewrite /xs (nth_map (KeyShare 0 [::])) -?hsx.
Qed.

(** C71: identifier 0 is not rejected: one partial signature with identifier 0 replaces the result *)
Theorem C71_identifier_zero_refuted (l1 l2 : seq (nat * SG)) s :
  all (fun x => x.1 < 256)%N (l1 ++ (0%N, s) :: l2) -> uniq (map fst (l1 ++ (0%N, s) :: l2)) ->
  (2 <= size (l1 ++ (0%N, s) :: l2) <= 255)%N ->
  combine_sigs [seq Some (Partial x.1 (In x.2)) | x <- l1 ++ (0%N, s) :: l2] = Ok (In s).
Proof.
move=> hb hu hs; rewrite C71_combine_exact // hs hu /=; congr (Ok (In _)).
set l := l1 ++ _ in hb hu hs *; set xs := [seq _ | x <- l].
have hi : (size l1 < size l)%N by rewrite /l size_cat /= -addSnnS leq_addr.
have ux : uniq xs.
  rewrite /xs (map_comp (fun n => n%:R) fst) map_inj_in_uniq // => i j /mapP[x hx ->] /mapP[y hy ->] h.
  by apply: (big_field_inj hF) h; rewrite -ltnS; apply: (allP hb).
have hsx : size xs = size l by rewrite size_map.
have hx0 : nth 0 xs (size l1) = 0.
  by rewrite /xs (nth_map (0%N, 0)) // /l nth_cat ltnn subnn.
rewrite (bigD1 (Ordinal hi)) //= big1 ?addr0 => [|i hne].
  have -> : lag_num xs (size l1) / lag_den xs (size l1) = 1.
    have hd : lag_den xs (size l1) != 0 by apply: lag_den_neq0 => //; rewrite hsx.
    rewrite -[RHS](divff hd); congr (_ / _); rewrite lag_numE lag_denE.
    by apply: eq_bigr => j _; rewrite hx0 subr0.
  by rewrite scale1r /l map_cat nth_cat size_map ltnn subnn.
rewrite lag_numE; have hi' : (size l1 < size xs)%N by rewrite hsx.
rewrite (bigD1 (Ordinal hi')) /= ?hx0 ?mul0r ?scale0r //.
by apply: contra hne => /eqP h; apply/eqP/val_inj.
Qed.

(** C71: fewer than t shares are combined without an error: whenever at least two partial signatures with
    distinct identifiers are given, CombineSignatures returns some signature. *)
Theorem C71_too_few_not_detected (l : seq (nat * SG)) : all (fun x => x.1 < 256)%N l ->
  (2 <= size l <= 255)%N -> uniq (map fst l) ->
  is_ok (combine_sigs [seq Some (Partial x.1 (In x.2)) | x <- l]).
Proof. by move=> h1 h2 h3; rewrite C71_combine_exact // h2 h3. Qed.

(** C71: fewer than two partials, a nil partial, a partial outside the subgroup and two equal identifiers are
    errors *)
Lemma split_xy_ok dup (ps : seq (option (partial SG))) :
  match split_xy dup ps with
  | Ok _ => [/\ all isSome ps, uniq (pmap (omap (@pa_id F SG)) ps),
                all (fun i => i \notin dup) (pmap (omap (@pa_id F SG)) ps) &
                all (fun p => if p is Some x then if pa_sig x is Off _ then false else true else true) ps]
  | Err => True
  | Panic => False
  end.
Proof.
elim: ps dup => // -[sp|] ps IH dup //=; case: ifP => // hd; case hs: (pa_sig sp) => [y|] //.
have := IH (pa_id sp :: dup); case: (split_xy _ ps) => //= _ [h1 h2 h3 h4]; split=> //; first rewrite h2 andbT.
  by apply/negP => h; have := allP h3 _ h; rewrite inE eqxx.
by apply/allP => i /(allP h3); rewrite inE negb_or => /andP[].
Qed.

Theorem C71_combine_rejects (ps : seq (option (partial SG))) :
  [\/ (size ps < 2)%N, (exists i, nth (Some (Partial 0 (In (0 : SG)))) ps i = None),
      (exists2 p, List.In (Some p) ps & exists i, pa_sig p = Off i) |
      (exists i j p q, [/\ (i < j)%N, nth None ps i = Some p, nth None ps j = Some q & pa_id p = pa_id q])] ->
  combine_sigs ps = Err.
Proof.
move=> h; rewrite /combine_sigs; case: (ltnP (size ps) 2) => // h2; case: ifP => // _.
have := split_xy_ok [::] ps; case: (split_xy [::] ps) => // xy [h3 h4 _ h5]; exfalso.
case: h => [|[i hi]|[p hp [i hi]]|[i [j [p [q [hij hi hj hpq]]]]]].
- by rewrite ltnNge h2.
- have hlt : (i < size ps)%N by rewrite ltnNge; apply/negP => /(nth_default (Some (Partial 0 (In (0 : SG))))); rewrite hi.
  by have := all_nthP (Some (Partial 0 (In (0 : SG)))) h3 i hlt; rewrite hi.
- by elim: ps hp h5 {h2 h3 h4} => //= x l IH [->|/IH hl] /andP[]; rewrite ?hi.
- elim: ps i j hij hi hj h3 h4 {h2 h5} => [|x l IH] [|i] [|j] //= hij.
    move=> -> hj /= h3 /andP[h4 _]; move/negP: h4; apply; rewrite hpq.
    elim: l j hj h3 {IH hij} => [|y l IH] [|j] //=; first by move=> -> _; rewrite inE eqxx.
    by case: y => //= y hj h3; rewrite inE (IH j) ?orbT.
  by move=> hi hj /andP[hx h3]; case: x hx => //= x _ /andP[_ h4]; apply: (IH i j).
Qed.

(** C71: the empty message: Sign signs it, no partial signature of it can be made *)
Theorem C71_empty_message_refuted sk ks dst : sk != 0 ->
  basic_sign hashpt (Some sk) (Some [::]) dst = Ok (In (sk *: hashpt [::] dst)) /\
  partial_sign hashpt dec (Some ks) [::] dst = Err.
Proof. by move=> h; rewrite /basic_sign /Model.create_signature /= (negbTE h). Qed.

(** C71: which parameters thresholdizeSecretKey accepts: 2 <= t <= n <= 255 and a non-zero key *)
Theorem C71_thresholdize_iff sk t n rnd :
  is_ok (thresholdize enc (Some sk) t n rnd) = [&& sk != 0, (2 <= t)%N, (t <= n)%N & (n <= 255)%N].
Proof.
rewrite /thresholdize; case: (ltnP n t) => htn /=; first by rewrite !andbF.
case: eqP => [->|ht0] /=; first by rewrite andbF.
case: (leqP n 1) => hn1 /=; first by rewrite [(2 <= t)%N](_ : _ = false) ?andbF //; lia.
case: (ltnP 255 n) => hn /=; first by rewrite !andbF.
rewrite ltnNge (leq_trans htn hn) /= /new_shamir ltnNge htn /=.
case: (ltnP t 2) => ht2 /=; first by rewrite andbF.
rewrite ltnNge hn /=; case: (eqVneq sk 0) => [->|hk] /=; first by rewrite /Model.split eqxx.
by rewrite splitE //= ?size_map ?size_iota ?eqxx // (leq_trans _ ht2).
Qed.
(** C71: the augmented scheme signs the encoding of the group key followed by the message, in partial
    signatures as in full ones, so C71_threshold_complete covers it *)
Theorem C71_aug_partial vt sk ks m dst : sk != 0 -> m <> [::] ->
  aug_partial_sign hashpt penc dec (Some ks) (hpk sk) m dst =
    partial_sign hashpt dec (Some ks) (penc (In (sk *: gp)) ++ m) dst /\
  aug_sign gp hashpt penc vt (Some sk) (Some m) dst =
    basic_sign hashpt (Some sk) (Some (penc (In (sk *: gp)) ++ m)) dst.
Proof.
move=> hk hm; have hm0 : (size m == 0%N) = false by case: (m) hm.
by rewrite /aug_partial_sign /aug_sign /= hm0 andbF C60_public_key (negbTE hk).
Qed.
End Threshold.
End Props.

(** ** C72: key encodings *)
Lemma all0_nseq (d : bytes) n : size d = n -> (d == nseq n 0%N) = (le_val d == 0%N).
Proof.
elim: d n => [|x d IH] [|n] //= [hs]; rewrite ?le_val_nil // le_val_cons eqseq_cons IH //.
by rewrite addn_eq0 muln_eq0.
Qed.

(** C72: a key share with a 32-byte value survives the round trip unless value and identifier are all zero *)
Theorem C72_share_roundtrip i v : size v = 32%N ->
  (do b <- share_marshal (KeyShare i v); share_unmarshal b) =
  if rcons v i == nseq 33 0%N then Err else Ok (KeyShare i v).
Proof.
move=> h; rewrite /share_marshal /= h /= /share_unmarshal cats1 size_rcons h /=.
by case: ifP => // _; rewrite nth_rcons h ltnn eqxx -cats1 take_size_cat.
Qed.

(** C72: UnmarshalBinary accepts exactly the 33-byte strings that are not all zero, and MarshalBinary gives them
    back *)
Theorem C72_share_unmarshal_iff data ks :
  share_unmarshal data = Ok ks <->
  [/\ size (ks_val ks) = 32%N, data = rcons (ks_val ks) (ks_id ks) & data <> nseq 33 0%N].
Proof.
rewrite /share_unmarshal; split.
  case: eqP => //= hs; case: eqP => //= h0 [<-] /=; split=> //; first by rewrite size_takel // hs.
  rewrite -[LHS](cat_take_drop 32 data) -cats1; congr (_ ++ _).
  by rewrite (drop_nth 0%N) ?hs // drop_oversize // hs.
case: ks => i v [/= hv -> h0]; rewrite size_rcons hv eqxx /=.
by case: eqP => //= _; rewrite nth_rcons hv ltnn eqxx -cats1 take_size_cat.
Qed.

(** C72: a share value of any other length is not handled: longer panics, shorter loses the identifier *)
Theorem C72_share_length_refuted i v :
  ((32 < size v)%N -> share_marshal (KeyShare i v) = Panic) /\
  ((size v < 32)%N -> forall ks, (do b <- share_marshal (KeyShare i v); share_unmarshal b) = Ok ks -> ks_id ks = 0%N).
Proof.
split=> h; first by rewrite /share_marshal /= h.
move=> ks; rewrite /share_marshal /= ltnNge (ltnW h) /= /share_unmarshal.
case: ifP => // _; case: ifP => // _ [<-] /=.
rewrite nth_cat ltnNge (ltnW h) /=; case hd: (32 - size v)%N => [|d]; first by move: hd; lia.
by have := nth_nseq 0%N d.+1 0%N d; rewrite if_same.
Qed.

Section Keys.
Variables (q : nat) (hkdf : bytes -> bytes).
Hypothesis hq : (q <= 256 ^ 32)%N.

(** C72: a secret key is decoded exactly from the 32-byte big-endian encoding of a number in 1..q-1 *)
Theorem C72_secret_key_iff data v : is_bytes data ->
  sk_unmarshal q data = Ok v <-> [/\ size data = 32%N, be_val data = v & (0 < v < q)%N].
Proof.
move=> hb; rewrite /sk_unmarshal; split.
  case: eqP => //= hs; case: eqP => //= h0; rewrite le_val_copy ?size_rev ?hs // /le_val revK.
  case: ltnP => // hv [<-]; split=> //; rewrite hv andbT lt0n; apply/eqP => hz; apply: h0; apply/eqP.
  have := all0_nseq (d := rev data) (n := 32); rewrite size_rev /le_val revK hz eqxx => /(_ hs) /eqP h.
  by rewrite -(revK data) h rev_nseq.
case=> hs <- /andP[h0 hv]; rewrite hs eqxx /= le_val_copy ?size_rev ?hs // /le_val revK hv.
by case: eqP => // hz; move: h0; rewrite hz.
Qed.

Theorem C72_secret_key_roundtrip v : (v < q)%N ->
  sk_unmarshal q (sk_marshal v) = if v == 0%N then Err else Ok v.
Proof.
move=> hv; have hb : is_bytes (sk_marshal v) by rewrite /is_bytes /sk_marshal all_rev; apply: (is_bytes_le 32 v).
have hs : size (sk_marshal v) = 32%N by rewrite size_rev size_le_bytes.
have hval : be_val (sk_marshal v) = v by have := le_bytesK (leq_trans hv hq); rewrite /le_val.
case: (eqVneq v 0%N) => h0; last by apply/C72_secret_key_iff; rewrite // lt0n h0.
case E: (sk_unmarshal q (sk_marshal v)) => [w| |] //.
  by move/(C72_secret_key_iff _ hb): E => [_ hw /andP[h1 _]]; move: h1; rewrite -hw hval h0.
by move: E; rewrite /sk_unmarshal; do 3 case: ifP => // _.
Qed.

(** C72: Generate needs 32 bytes; the key is the big-endian value of the HKDF output modulo q.  Findings: the key
    may be zero, and if the caller's slice has spare capacity the byte behind it is overwritten with 0. *)
Theorem C72_generate_exact ikm spare : size (hkdf (rcons ikm 0%N)) = 48%N ->
  generate q hkdf ikm spare =
  if (size ikm < 32)%N then Err
  else Ok ((be_val (hkdf (rcons ikm 0%N)) %% q)%N, if spare is _ :: r then 0%N :: r else [::]).
Proof.
by move=> h; rewrite /generate; case: ifP => // _; rewrite le_val_pad /le_val revK.
Qed.
End Keys.

Print Assumptions C60_public_key.
Print Assumptions C60_verify_exact.
Print Assumptions C60_verify_rejects.
Print Assumptions C60_sign_verify.
Print Assumptions C60_unique.
Print Assumptions C60_aug_sign_verify.
Print Assumptions C60_aggregate_exact.
Print Assumptions C60_aggregate_complete.
Print Assumptions C60_aug_aggregate_exact.
Print Assumptions C60_pop_complete.
Print Assumptions C60_fast_aggregate_exact.
Print Assumptions C60_multisig_complete.
Print Assumptions C60_rogue_key.
Print Assumptions C71_combine_exact.
Print Assumptions C71_threshold_complete.
Print Assumptions C71_identifier_zero_refuted.
Print Assumptions C71_too_few_not_detected.
Print Assumptions C71_combine_rejects.
Print Assumptions C71_empty_message_refuted.
Print Assumptions C71_thresholdize_iff.
Print Assumptions C71_aug_partial.
Print Assumptions C72_share_roundtrip.
Print Assumptions C72_share_unmarshal_iff.
Print Assumptions C72_share_length_refuted.
Print Assumptions C72_secret_key_iff.
Print Assumptions C72_secret_key_roundtrip.
Print Assumptions C72_generate_exact.

(** ** Non-vacuity: the instance over 'F_257 *)
Definition hash257 (m dst : bytes) : G257 := (1 + sumn m + 3 * sumn dst)%:R : F257.
Definition penc257 (p : cpt G257) : bytes := if p is In x then [:: nat_of_ord (x : F257)] else [::].
Definition enc1 (x : F257) : bytes := [:: nat_of_ord x].
Definition dec1 (b : bytes) : option F257 := if b is [:: n] then Some (n%:R) else None.
Lemma dec1K : codec_ok enc1 dec1.
Proof. by move=> x; rewrite /enc1 /dec1 natr_Zp. Qed.

Example C60_hyps : pairing_ok e257 g257. Proof. exact: pairing257. Qed.
Example C60_sign_5 :
  (do s <- basic_sign hash257 (Some (5%:R : F257)) (Some [:: 1; 2]%N) [:: 9]%N;
   basic_verify g257 e257 hash257 (fun _ _ _ => true) (hpk g257 (5%:R : F257)) (Some [:: 1; 2]%N) (Some s) [:: 9]%N) = Ok true.
Proof. by vm_compute. Qed.
Definition run_threshold (ids : seq nat) : outcome (cpt G257) :=
  do shares <- thresholdize enc1 (Some (7%:R : F257)) 3 5 (fun i => (i * i + 11)%:R);
  do ps <- partials_of hash257 dec1 [:: 4; 4]%N [:: 1]%N [seq nth (KeyShare 0 [::]) shares i | i <- ids];
  combine_sigs ps.
Example C71_hyps : big_field F257 /\ codec_ok enc1 dec1.
Proof. by split; [apply: F_p_big | apply: dec1K]. Qed.
Example C71_run :
  (if (run_threshold [:: 4; 0; 2]%N, basic_sign hash257 (Some (7%:R : F257)) (Some [:: 4; 4]%N) [:: 1]%N)
   is (Ok (In a), Ok (In b)) then (a : F257) == b else false).
Proof. by vm_compute. Qed.
(** two of three shares combine without an error, into another point *)
Example C71_too_few :
  (if (run_threshold [:: 4; 0]%N, basic_sign hash257 (Some (7%:R : F257)) (Some [:: 4; 4]%N) [:: 1]%N)
   is (Ok (In a), Ok (In b)) then (a : F257) != b else false).
Proof. by vm_compute. Qed.
Example C72_hyps : sk_unmarshal 1000 (rcons (nseq 30 0%N ++ [:: 1]%N) 44%N) = Ok 300%N.
Proof. by vm_compute. Qed.
