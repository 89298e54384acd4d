(** Properties C52, C53 and C54: the accumulator. *)
From mathcomp Require Import all_ssreflect all_algebra zify.
From Verif Require Import Lib.Res Lib.Bytes Lib.Pairing Lib.Inst Lib.FieldTac Lib.LmodTac Accum.Model Accum.Proofs.
From Coq Require Import Field.
Set Implicit Arguments.
Unset Strict Implicit.
Unset Printing Implicit Defensive.
Import GRing.Theory.
Local Open Scope ring_scope.

(** a history of the manager's calls *)
Inductive op (F : Type) := OAdd of F | ORemove of F | OAddElements of seq F | OUpdate of seq F & seq F.

Section Props.
Variables (F : fieldType) (G1 G2 GT : lmodType F) (g1 : G1) (g2 : G2) (e : G1 -> G2 -> GT).
Hypothesis ok : pairing_ok e g2.
Variables (penc : G1 -> bytes) (gtenc : GT -> bytes) (hashF : bytes -> F).
Local Arguments dad : simpl never.
Local Arguments evaluate : simpl never.
Add Field F_field : (f_fth F).
Notation pk := (public_key g2).
Notation wit_verify := (wit_verify g2 e).
Implicit Types (w : witness G1) (acc : G1) (sk y : F).

Lemma pk0 sk : (pk sk == 0) = (sk == 0).
Proof. by rewrite /public_key scaler_eq0 (negbTE (pr_gen ok)) orbF. Qed.

(** C52: Verify accepts exactly the witnesses with (y + alpha) C = V, none of C, y, the key and V zero *)
Theorem C52_verify_iff w sk acc : wit_verify w (pk sk) acc = Ok tt <->
  [/\ w_c w != 0, w_y w != 0, sk != 0, acc != 0 & (w_y w + sk) *: w_c w = acc].
Proof.
rewrite /Model.wit_verify pk0.
have h : (multi_pairing e [:: (w_c w, w_y w *: g2 + pk sk); (- acc, g2)] == 0) = ((w_y w + sk) *: w_c w == acc).
  rewrite /multi_pairing /= addr0 (pr_Nl ok) subr_eq0 /public_key -scalerDl.
  by rewrite -[X in _ == e _ X]scale1r (pr_shift ok) scale1r.
rewrite h; split.
- case: (eqVneq (w_c w) 0) => //= h1; case: (eqVneq (w_y w) 0) => //= h2; case: (eqVneq sk 0) => //= h3.
  by case: (eqVneq acc 0) => //= h4; case: eqP.
- by case=> h1 h2 h3 h4 ->; rewrite (negbTE h1) (negbTE h2) (negbTE h3) (negbTE h4) eqxx.
Qed.

(** C52: New succeeds exactly for a non-zero accumulator, key and element with y + alpha <> 0, and its
    witness verifies.  No membership is involved: the manager's New gives a valid witness for every y. *)
Theorem C52_new_verifies sk acc y :
  match wit_new y acc sk with
  | Ok w => w_y w = y /\ wit_verify w (pk sk) acc = Ok tt
  | Err => [\/ acc = 0, sk = 0, y = 0 | y + sk = 0]
  | Panic => False
  end.
Proof.
rewrite /wit_new /acc_remove /invert; case: (eqVneq acc 0) => h1; first by constructor 1.
case: (eqVneq sk 0) => h2; first by constructor 2.
case: (eqVneq y 0) => h3; first by constructor 3.
case: (eqVneq (y + sk) 0) => /= h4; first by constructor 4.
rewrite addr0; split=> //; apply/C52_verify_iff; split=> //=.
- by rewrite scaler_eq0 invr_eq0 (negbTE h4).
- by rewrite scalerA divff // scale1r.
Qed.

Definition run1 (sk : F) (acc : G1) (o : op F) : outcome G1 :=
  match o with
  | OAdd y => acc_add acc sk y
  | ORemove y => acc_remove acc sk y
  | OAddElements ys => Ok (add_elements acc sk ys)
  | OUpdate adds dels => do r <- acc_update acc sk adds dels; Ok r.1
  end.
Fixpoint run (sk : F) (acc : G1) (os : seq (op F)) : outcome G1 :=
  if os is o :: r then do acc' <- run1 sk acc o; run sk acc' r else Ok acc.
(** the members (with multiplicity) after a history: None if an element that is not a member is removed *)
Definition remove1 (m : option (seq F)) (y : F) : option (seq F) :=
  if m is Some l then if y \in l then Some (rem y l) else None else None.
Definition mem1 (m : seq F) (o : op F) : option (seq F) :=
  match o with
  | OAdd y => Some (y :: m)
  | ORemove y => remove1 (Some m) y
  | OAddElements ys => Some (ys ++ m)
  | OUpdate adds dels => foldl remove1 (Some (adds ++ m)) dels
  end.
Fixpoint members (m : seq F) (os : seq (op F)) : option (seq F) :=
  if os is o :: r then if mem1 m o is Some m' then members m' r else None else Some m.
Definition elements (o : op F) : seq F :=
  match o with OAdd y => [:: y] | ORemove y => [:: y] | OAddElements ys => ys | OUpdate adds dels => adds ++ dels end.

Lemma aprod_neq0 (l : seq F) sk : all (fun y => y + sk != 0) l -> aprod l sk != 0.
Proof. by elim: l => [|y l IH] /=; rewrite /aprod ?big_nil ?oner_eq0 // big_cons mulf_eq0 negb_or => /andP[-> /IH]. Qed.
Lemma aprod_rem (l : seq F) y sk : y \in l -> aprod l sk = (y + sk) * aprod (rem y l) sk.
Proof. by move=> h; rewrite /aprod (perm_big _ (perm_to_rem h)) big_cons. Qed.
Lemma foldl_remove (dels l l' : seq F) sk : foldl remove1 (Some l) dels = Some l' -> aprod l sk = aprod dels sk * aprod l' sk.
Proof.
elim: dels l => [|y d IH] l /=; first by case=> ->; rewrite {2}/aprod big_nil mul1r.
case: ifP => h; last by have -> : foldl remove1 None d = None by elim: d {IH}.
by move/IH; rewrite (aprod_rem _ h) => ->; rewrite /aprod big_cons mulrA.
Qed.
Lemma foldl_remove_all (P : pred F) (dels l l' : seq F) : foldl remove1 (Some l) dels = Some l' -> all P l -> all P l'.
Proof.
elim: dels l => [|y d IH] l /=; first by case=> ->.
case: ifP => h; last by have -> : foldl remove1 None d = None by elim: d {IH}.
by move/IH => IH1 ha; apply: IH1; apply/allP => z /mem_rem hz; exact: (allP ha z hz).
Qed.

(** C52: after any history of Add, Remove, AddElements and Update calls that removes only members, none of
    whose elements is -alpha, every call has succeeded and the accumulator is the product of (y + alpha) over
    the members, times the generator *)
Theorem C52_history sk os m : g1 != 0 ->
  all (fun o => all (fun y => y + sk != 0) (elements o)) os -> members [::] os = Some m ->
  run sk (acc_new g1) os = Ok ((\prod_(y <- m) (y + sk)) *: g1).
Proof.
move=> hg; rewrite /acc_new -/(aprod m sk).
have -> : run sk g1 os = run sk (aprod [::] sk *: g1) os by rewrite /aprod big_nil scale1r.
have : all (fun y => y + sk != 0) [::] by [].
elim: os [::] => [|o os IH] l hl /=; first by move=> _ [->].
case/andP => ho hos.
have hz : aprod l sk *: g1 != 0 by rewrite scaler_eq0 negb_or hg andbT aprod_neq0.
case: o ho => [y|y|ys|adds dels] /= ho.
- rewrite /acc_add (negbTE hz) /= => hm; rewrite scalerA.
  have -> : (y + sk) * aprod l sk = aprod (y :: l) sk by rewrite /aprod big_cons.
  by apply: IH => //=; rewrite hl andbT; case/andP: ho.
- case/andP: ho => hy _; case: ifP => // hin hm.
  rewrite /acc_remove (negbTE hz) /invert (negbTE hy) /= scalerA (aprod_rem _ hin) mulKf //.
  by apply: IH => //; apply/allP => z /mem_rem; exact: (allP hl z).
- move=> hm; rewrite /add_elements batch_additionsE scalerA.
  have -> : aprod ys sk * aprod l sk = aprod (ys ++ l) sk by rewrite /aprod big_cat.
  by apply: IH => //; rewrite all_cat ho hl.
- move: ho; rewrite all_cat => /andP[ha hd].
  case E: (foldl remove1 _ dels) => [l'|] // hm.
  have hd0 := aprod_neq0 hd.
  rewrite /acc_update (negbTE hz) /batch_deletions batch_additionsE /invert (negbTE hd0); cbn [bind].
  have [r -> _] := coefficients_ok adds hd0; cbn [bind fst].
  rewrite batch_additionsE scalerA mulrAC -mulrA [aprod l sk * _]mulrC.
  have := foldl_remove sk E; rewrite {1}/aprod big_cat /= -!/(aprod _ _) => h.
  have -> : aprod adds sk * ((aprod dels sk)^-1 * aprod l sk) = aprod l' sk.
    by rewrite mulrCA h mulKf.
  by apply: IH => //; apply: (foldl_remove_all E); rewrite all_cat ha hl.
Qed.

(* ------------------------------------------------------------- C53 *)
(** C53: the effect of one published batch on any witness whose element is not deleted: the defect of the
    witness equation is multiplied by dA(y)/dD(y) *)
Theorem C53_update_exact sk acc acc' adds dels coefs w :
  acc_update acc sk adds dels = Ok (acc', coefs) -> w_y w \notin dels -> (0 < size adds + size dels)%N ->
  exists2 w', batch_update w (Some adds) (Some dels) coefs = Ok w' &
    [/\ w_y w' = w_y w, size coefs = maxn (size adds) (size dels) &
    (\prod_(d <- dels) (d - w_y w)) *: ((w_y w + sk) *: w_c w' - acc') =
    (\prod_(a <- adds) (a - w_y w)) *: ((w_y w + sk) *: w_c w - acc)].
Proof.
rewrite /acc_update; case: (eqVneq acc 0) => // hacc; rewrite /batch_deletions !batch_additionsE /invert.
case: eqP => //= /eqP hd0; have [r -> [hs hr]] := coefficients_ok adds hd0; cbn [bind].
move=> [<- <-] hy hn; rewrite /batch_update /evaluate_delta !dadE; cbn [bind].
have hD : dprod dels (w_y w) != 0.
  rewrite /dprod; apply/negP; rewrite prodf_seq_eq0 => /hasP[d hd]; rewrite /= subr_eq0 => /eqP hdy.
  by case/negP: hy; rewrite -hdy.
rewrite /invert (negbTE hD); cbn [bind].
rewrite evaluate_ok ?size_map ?hs; last by move: (hn); clear; rewrite leq_max addn_gt0.
cbn [bind]; eexists; first reflexivity; split; [by []|by []|].
rewrite /= -/(dprod dels (w_y w)) -/(dprod adds (w_y w)) gev_map.
move: (hr (w_y w)) => {hr}; set y := w_y w; set dD := dprod dels y; set dA := dprod adds y; set q := pev r y => hq.
change (is_true (dD != 0)) in hD.
have -> : (y + sk) *: ((dA * dD^-1) *: w_c w + dD^-1 *: (q *: acc)) - (aprod adds sk * (aprod dels sk)^-1) *: acc
  = ((y + sk) * (dA / dD)) *: w_c w + (dD^-1 * ((y + sk) * q) - aprod adds sk / aprod dels sk) *: acc.
  by move: (w_c w) (dD) (aprod dels sk) hD hd0 => C d a hd ha; lm_reduce F G1; field; f_side.
rewrite hq; move: (w_c w) (dD) (aprod dels sk) (aprod adds sk) (dA) hD hd0 => C d a b dA' hd ha.
lm_reduce F G1; field; f_side.
Qed.

(** C53: a valid witness of an element that is not deleted stays valid *)
Theorem C53_update_valid sk acc acc' adds dels coefs w :
  acc_update acc sk adds dels = Ok (acc', coefs) -> w_y w \notin dels -> (0 < size adds + size dels)%N ->
  all (fun a => a + sk != 0) adds -> wit_verify w (pk sk) acc = Ok tt ->
  exists2 w', batch_update w (Some adds) (Some dels) coefs = Ok w' &
    w_y w' = w_y w /\ wit_verify w' (pk sk) acc' = Ok tt.
Proof.
move=> hu hy hn ha /C52_verify_iff [h1 h2 h3 h4 h5].
have [w' hw [hwy _ hwe]] := C53_update_exact hu hy hn; exists w' => //; split=> //.
have hD : \prod_(d <- dels) (d - w_y w) != 0.
  apply/negP; rewrite prodf_seq_eq0 => /hasP[d hd]; rewrite /= subr_eq0 => /eqP hdy.
  by case/negP: hy; rewrite -hdy.
move: hwe; rewrite h5 subrr scaler0 => /eqP; rewrite scaler_eq0 (negbTE hD) /= subr_eq0 => /eqP heq.
have hacc' : acc' != 0.
  move: hu; rewrite /acc_update (negbTE h4) /batch_deletions !batch_additionsE /invert; case: eqP => //= /eqP hd0.
  have [r -> _] := coefficients_ok adds hd0; cbn [bind] => -[<- _].
  by rewrite scaler_eq0 mulf_eq0 invr_eq0 (negbTE hd0) (negbTE h4) orbF (negbTE (aprod_neq0 ha)).
apply/C52_verify_iff; split; rewrite ?hwy //.
by apply: contraNneq hacc' => h; rewrite -heq h scaler0.
Qed.

(** C53: the update fails for a deleted element, whatever the coefficients *)
Theorem C53_deleted_fails adds dels coefs w : w_y w \in dels -> batch_update w adds (Some dels) coefs = Err.
Proof.
move=> hy; rewrite /batch_update /evaluate_delta dadE; cbn [bind]; rewrite /invert.
suff -> : dprod dels (w_y w) == 0 by [].
by rewrite /dprod prodf_seq_eq0; apply/hasP; exists (w_y w) => //=; rewrite subrr.
Qed.

(** C53: the update neither repairs nor breaks a witness of an element outside the batch *)
Theorem C53_update_iff sk acc acc' adds dels coefs w w' :
  acc_update acc sk adds dels = Ok (acc', coefs) -> w_y w \notin dels -> w_y w \notin adds -> (0 < size adds + size dels)%N ->
  batch_update w (Some adds) (Some dels) coefs = Ok w' ->
  (w_y w + sk) *: w_c w' = acc' <-> (w_y w + sk) *: w_c w = acc.
Proof.
move=> hu hy hy' hn hw; have [w1 hw1 [_ _ h]] := C53_update_exact hu hy hn; move: hw1; rewrite hw => -[hw1]; subst w1.
have nz : forall l : seq F, w_y w \notin l -> \prod_(d <- l) (d - w_y w) != 0.
  move=> l hl; apply/negP; rewrite prodf_seq_eq0 => /hasP[d hd]; rewrite /= subr_eq0 => /eqP hdy.
  by case/negP: hl; rewrite -hdy.
split=> hh; move: h; rewrite hh subrr scaler0.
- by move/esym/eqP; rewrite scaler_eq0 (negbTE (nz _ hy')) /= subr_eq0 => /eqP.
- by move/eqP; rewrite scaler_eq0 (negbTE (nz _ hy)) /= subr_eq0 => /eqP.
Qed.

(** C53 (finding): an Update with no additions and no deletions succeeds with no coefficients, and
    BatchUpdate on what it published panics *)
Theorem C53_empty_update_refuted sk acc w : acc != 0 ->
  acc_update acc sk [::] [::] = Ok (acc, [::]) /\ batch_update w (Some [::]) (Some [::]) [::] = Panic.
Proof.
move=> h; rewrite /acc_update (negbTE h) /batch_deletions /batch_additions /= /invert oner_eq0 /= invr1 mul1r scale1r; split=> //.
by rewrite /batch_update /evaluate_delta /= /invert oner_eq0.
Qed.
(** C53 (finding): an Update that got a nil slice publishes coefficients, and BatchUpdate with the same nil
    slice is an error *)
Theorem C53_nil_slice_refuted dels coefs w : batch_update w None dels coefs <> Err -> False.
Proof.
apply; rewrite /batch_update /evaluate_delta; case: dels => [dels|//]; rewrite dadE; cbn [bind].
by rewrite /invert; case: eqP.
Qed.

(** the sequence of single updates *)
Fixpoint seq_update w (A D : seq (option (seq F))) (C : seq (seq G1)) : outcome (witness G1) :=
  match A, D, C with
  | a :: A', d :: D', c :: C' => do w' <- batch_update w a d c; seq_update w' A' D' C'
  | _, _, _ => Ok w
  end.

Lemma eval_dads_ok y (AD : seq (seq F * seq F)) a d aa dd :
  eval_dads y [seq (Some x.1, Some x.2) | x <- AD] a d aa dd =
  Ok (a * \prod_(x <- AD) dprod x.1 y, d * \prod_(x <- AD) dprod x.2 y, aa ++ [seq dprod x.1 y | x <- AD], dd ++ [seq dprod x.2 y | x <- AD]).
Proof.
elim: AD a d aa dd => [|[p q] AD IH] a d aa dd; first by rewrite /= !big_nil !mulr1 !cats0.
by cbn [map eval_dads fst snd]; rewrite !big_cons !dadE; cbn [bind]; rewrite IH !mulrA !cat_rcons.
Qed.

Lemma foldl_prod (l : seq F) (ks : seq nat) a : foldl (fun x h => x * l`_h) a ks = a * \prod_(h <- ks) l`_h.
Proof. by elim: ks a => [|k ks IH] a /=; rewrite ?big_nil ?mulr1 // IH big_cons mulrA. Qed.

(** the sum of the weighted coefficient polynomials *)
Fixpoint omega (y : F) (aa dd : seq F) (C : seq (seq G1)) : G1 :=
  match aa, dd, C with
  | a :: aa', d :: dd', c :: C' => (\prod_(x <- aa') x) *: gev c y + d *: omega y aa' dd' C'
  | _, _, _ => 0
  end.
Lemma prod_drop (l : seq F) i : \prod_(k <- iota i (size l - i)) l`_k = \prod_(x <- drop i l) x.
Proof.
rewrite (big_nth 0) size_drop /index_iota subn0 -{1}(addn0 i) iotaDl big_map big_mkcond [RHS]big_mkcond.
by apply: eq_bigr => k _; rewrite nth_drop.
Qed.
Lemma eval_omega_ok y (C : seq (seq G1)) aa1 dd1 aa dd p : size aa = size C -> size dd = size C -> size aa1 = size dd1 ->
  gev (eval_omega C (size aa1 + size C) (size aa1) (aa1 ++ aa) (dd1 ++ dd) p) y =
  gev p y + (\prod_(x <- dd1) x) *: omega y aa dd C.
Proof.
elim: C aa1 dd1 aa dd p => [|c C IH] aa1 dd1 [|a aa] [|d dd] p //=; first by rewrite scaler0 addr0.
move=> [h1] [h2] h3; have := IH (rcons aa1 a) (rcons dd1 d) aa dd; rewrite !size_rcons !cat_rcons addSnnS => -> //; last by rewrite h3.
rewrite gev_add gev_mul !foldl_prod !mul1r -addrA; congr (_ + _).
rewrite [in iota 0 _]h3 -[X in iota _ X](_ : (size (aa1 ++ a :: aa) - (size aa1).+1 = _)%N); last by rewrite size_cat /= h1.
rewrite prod_drop -cat_rcons drop_size_cat ?size_rcons //.
have -> : \prod_(h <- iota 0 (size dd1)) (dd1 ++ d :: dd)`_h = \prod_(x <- dd1) x.
  rewrite [RHS](big_nth 0) /index_iota subn0; apply: eq_big_seq => k; rewrite mem_iota /= => hk.
  by rewrite nth_cat hk.
rewrite -cats1 big_cat big_seq1 /= scalerDr !scalerA; congr (_ *: _ + _); exact: mulrC.
Qed.
Lemma eval_omega_size (C : seq (seq G1)) n i aa dd p :
  (0 < size p)%N || has (fun c => 0 < size c)%N C -> (0 < size (eval_omega C n i aa dd p))%N.
Proof.
elim: C i p => [|c C IH] i p /=; first by rewrite orbF.
move=> h; apply: IH; rewrite ppoint_add_size size_map leq_max.
by move: h; case: (0 < size p)%N; case: (0 < size c)%N.
Qed.

(** C53: updating over a history of batches at once gives the same witness, or the same error, as applying
    the batches one by one, for arbitrary coefficients (at least one batch, none without coefficients) *)
Theorem C53_multi_update w (A D : seq (seq F)) (C : seq (seq G1)) :
  size A = size D -> size A = size C -> (0 < size A)%N -> all (fun c => 0 < size c)%N C ->
  multi_batch_update w (map Some A) (map Some D) C = seq_update w (map Some A) (map Some D) C.
Proof.
move=> hD hC hA hc; rewrite /multi_batch_update /evaluate_deltas !size_map hD -hC hD eqxx /=.
have -> : zip (map Some A) (map Some D) = [seq (Some x.1, Some x.2) | x <- zip A D].
  by elim: A D {hD hC hA} => [|a A IH] [|d D] //=; rewrite IH.
rewrite eval_dads_ok !mul1r !cat0s; cbn [bind].
have hA1 : [seq dprod x.1 (w_y w) | x <- zip A D] = [seq dprod x (w_y w) | x <- A].
  by rewrite -[in RHS](unzip1_zip (s := A) (t := D)) ?hD // /unzip1 -map_comp.
have hD1 : [seq dprod x.2 (w_y w) | x <- zip A D] = [seq dprod x (w_y w) | x <- D].
  by rewrite -[in RHS](unzip2_zip (s := A) (t := D)) ?hD // /unzip2 -map_comp.
rewrite hA1 hD1.
have -> : \prod_(x <- zip A D) dprod x.1 (w_y w) = \prod_(x <- A) dprod x (w_y w).
  by rewrite -(big_map (fun x => dprod x.1 (w_y w)) xpredT id) hA1 big_map.
have -> : \prod_(x <- zip A D) dprod x.2 (w_y w) = \prod_(x <- D) dprod x (w_y w).
  by rewrite -(big_map (fun x => dprod x.2 (w_y w)) xpredT id) hD1 big_map.
rewrite -hD hC.
have hom := @eval_omega_ok (w_y w) C [::] [::] [seq dprod x (w_y w) | x <- A] [seq dprod x (w_y w) | x <- D] [::].
rewrite /= !add0n !size_map -hC -hD in hom.
rewrite -hC evaluate_ok; last first.
  apply: eval_omega_size => /=; case: C hC hc {hom} => [|c C] /=; first by move: hA => + h; rewrite h.
  by move=> _ /andP[-> _].
rewrite hom // big_nil scale1r.
have -> : gev [::] (w_y w) = 0 :> G1 by rewrite /gev big_ord0.
rewrite add0r /invert {hom hA hA1 hD1}.
elim: A D C w hD hC hc => [|a A IH] [|d D] [|c C] w //= => [_ _ _|[hD] [hC] /andP[hc1 hc]].
  by rewrite !big_nil oner_eq0 /= invr1 mul1r scaler0 /apply_delta /= scale1r addr0; case: w.
rewrite !big_cons mulf_eq0 /batch_update /evaluate_delta !dadE; cbn [bind]; rewrite /invert.
case: eqP => //= /eqP hd; rewrite evaluate_ok //; cbn [bind].
set w1 := apply_delta _ _; have hw1 : w_y w1 = w_y w by [].
rewrite -(IH D C w1) //=; case: eqP => //= /eqP hD0; rewrite /apply_delta /=; congr (Ok (Wit _ _)).
rewrite big_map; move: (\prod_(x <- A) _) (\prod_(x <- D) _) hD0 (omega _ _ _ _) (dprod a _) (dprod d _) hd (gev c _) => PA PD hPD O' da dd hdd g'.
move: (w_c w) => C0; lm_reduce F G1; field; f_side.
Qed.

(** the published history of a manager: the accumulators and the coefficients of successive updates *)
Fixpoint history sk acc (A D : seq (seq F)) : outcome (G1 * seq (seq G1)) :=
  match A, D with
  | a :: A', d :: D' => do (acc', c) <- acc_update acc sk a d; do (last, C) <- history sk acc' A' D'; Ok (last, c :: C)
  | _, _ => Ok (acc, [::])
  end.
(** C53: a witness valid at the start of any history of updates that does not delete its element is valid at
    the end after one MultiBatchUpdate *)
Theorem C53_multi_history sk acc last w (A D : seq (seq F)) (C : seq (seq G1)) :
  history sk acc A D = Ok (last, C) -> size A = size D -> (0 < size A)%N ->
  all (fun p => 0 < size p.1 + size p.2)%N (zip A D) ->
  all (fun d => w_y w \notin d) D -> all (all (fun a => a + sk != 0)) A ->
  wit_verify w (pk sk) acc = Ok tt ->
  exists2 w', multi_batch_update w (map Some A) (map Some D) C = Ok w' & wit_verify w' (pk sk) last = Ok tt.
Proof.
move=> hh hs hA hn hd ha hv.
suff [hC [hcs [w' hw' hv']]] : size A = size C /\ all (fun c => 0 < size c)%N C /\
   exists2 w', seq_update w (map Some A) (map Some D) C = Ok w' & wit_verify w' (pk sk) last = Ok tt.
  by exists w' => //; rewrite C53_multi_update.
move: hh hs hn hd ha hv {hA}; elim: A D acc C w => [|a A IH] [|d D] acc C w //=.
  by move=> [<- <-] _ _ _ _ hv; split=> //; split=> //; exists w.
case hu : (acc_update acc sk a d) => [[acc' c]||] //=; case hh : (history sk acc' A D) => [[l C']||] //= [hl <-] [hs]; rewrite {}hl in hh.
case/andP => hn1 hn /andP[hd1 hd] /andP[ha1 ha] hv.
have [w1 hw1 [hy1 hv1]] := C53_update_valid hu hd1 hn1 ha1 hv.
have hsz : (0 < size c)%N.
  by have [_ _ [_ -> _]] := C53_update_exact hu hd1 hn1; rewrite leq_max -addn_gt0.
have [|h1 [h2 [w2 h3 h4]]] := IH D acc' C' w1 hh hs hn _ ha hv1; first by rewrite hy1.
split; first by rewrite h1.
by split; [rewrite /= hsz h2|exists w2 => //=; rewrite hw1].
Qed.

(* ------------------------------------------------------------- C54 *)
(** C54: completeness, exactly: for any witness, randomness and challenge, what the verifier recomputes from
    the prover's answer is what the prover committed to iff c ((y + alpha) C - V) = 0; in particular for
    every valid witness and every challenge *)
Theorem C54_proof_exact w acc pp sk sigma rho rY rS rR rDS rDR c :
  let: (s, f) := committing g2 e w acc pp (pk sk) sigma rho rY rS rR rDS rDR in
  finalize g2 e (gen_proof s f c) acc pp (pk sk) c = f <->
  c *: ((w_y w + sk) *: w_c w - acc) = 0.
Proof.
rewrite /committing /finalize /gen_proof /=.
set eC := _ *: pp_z pp + _.
have hRE : multi_pairing e [:: (schnorr rY (w_y w) c *: eC +
     (- (schnorr rDS (w_y w * sigma) c + schnorr rDR (w_y w * rho) c)) *: pp_z pp + (- c) *: acc, g2);
     (c *: eC + (- (schnorr rS sigma c + schnorr rR rho c)) *: pp_z pp, pk sk)]
  = e (c *: ((w_y w + sk) *: w_c w - acc)) g2 +
    multi_pairing e [:: (rY *: eC, g2); ((- (rDS + rDR)) *: pp_z pp, g2); ((- (rS + rR)) *: pp_z pp, pk sk)].
  rewrite /multi_pairing /= !addr0 /public_key !(pr_scaler ok) -!(pr_scalel ok) -!(pr_addl ok); congr (e _ _).
  by rewrite /eC /schnorr; move: (w_c w) (pp_z pp) => C Z; lm_reduce F G1; ring.
split.
- move=> [hre _ _ _ _]; move: hre; rewrite hRE => /eqP; rewrite -subr_eq0 addrK => /eqP; exact: (pr_inj ok).
- move=> h; rewrite hRE h (pr_0l ok) add0r /schnorr; congr Final;
  by move: (pp_x pp) (pp_y pp) => X Y; lm_reduce F G1; ring.
Qed.
Theorem C54_proof_complete w acc pp sk sigma rho rY rS rR rDS rDR :
  wit_verify w (pk sk) acc = Ok tt ->
  let: (s, f) := committing g2 e w acc pp (pk sk) sigma rho rY rS rR rDS rDR in
  let c := get_challenge penc gtenc hashF f in
  proof_verify g2 e penc gtenc hashF (gen_proof s f c) acc pp (pk sk) c.
Proof.
move=> /C52_verify_iff [_ _ _ _ h].
have := fun c => @C54_proof_exact w acc pp sk sigma rho rY rS rR rDS rDR c.
case E: (committing _ _ _ _ _ _ _ _ _ _ _ _ _) => [s f] hf; rewrite /proof_verify.
set c := get_challenge _ _ _ f; have [_ ->] := hf c; first by rewrite /c eqxx.
by rewrite h subrr scaler0.
Qed.

(** C54: special soundness: two answers with the same first message, recomputing to the same commitments for
    different challenges, give a C and y with (y + alpha) C = V *)
Theorem C54_special_soundness (p1 p2 : proof G1) acc pp sk c1 c2 :
  pp_x pp != 0 -> pp_y pp != 0 -> c1 != c2 ->
  finalize g2 e p1 acc pp (pk sk) c1 = finalize g2 e p2 acc pp (pk sk) c2 ->
  let y := (p_sY p1 - p_sY p2) / (c1 - c2) in
  let t := ((p_sS p1 - p_sS p2) + (p_sR p1 - p_sR p2)) / (c1 - c2) in
  (y + sk) *: (p_eC p1 - t *: pp_z pp) = acc.
Proof.
move=> hX hY hc; case: p1 => eC tS tR a1 b1 d1 f1 y1; case: p2 => eC2 tS2 tR2 a2 b2 d2 f2 y2 /=.
rewrite /finalize /= => -[<- <- <- hre hS hR hDS hDR].
set D := c1 - c2; have hD : D != 0 by rewrite subr_eq0.
have mv : forall (x y : G1), x = y -> x - y = 0 by move=> x y ->; rewrite subrr.
have ES : tS = ((a1 - a2) / D) *: pp_x pp.
  have -> : tS = D^-1 *: (D *: tS) by rewrite scalerA mulVf // scale1r.
  have -> : D *: tS = (a1 - a2) *: pp_x pp; last by rewrite scalerA mulrC.
  apply/eqP; rewrite -subr_eq0; apply/eqP; rewrite -[RHS]oppr0 -(mv _ _ hS) /D.
  by move: (pp_x pp) => X; lm_reduce F G1; ring.
have ER : tR = ((b1 - b2) / D) *: pp_y pp.
  have -> : tR = D^-1 *: (D *: tR) by rewrite scalerA mulVf // scale1r.
  have -> : D *: tR = (b1 - b2) *: pp_y pp; last by rewrite scalerA mulrC.
  apply/eqP; rewrite -subr_eq0; apply/eqP; rewrite -[RHS]oppr0 -(mv _ _ hR) /D.
  by move: (pp_y pp) => X; lm_reduce F G1; ring.
have EDS : d1 - d2 = (y1 - y2) * ((a1 - a2) / D).
  apply/eqP; rewrite -subr_eq0; suff : (d1 - d2 - (y1 - y2) * ((a1 - a2) / D)) *: pp_x pp == 0 by rewrite scaler_eq0 (negbTE hX) orbF.
  apply/eqP; rewrite -[RHS]oppr0 -(mv _ _ hDS) ES; move: (pp_x pp) ((a1 - a2) / D) => X k; lm_reduce F G1; ring.
have EDR : f1 - f2 = (y1 - y2) * ((b1 - b2) / D).
  apply/eqP; rewrite -subr_eq0; suff : (f1 - f2 - (y1 - y2) * ((b1 - b2) / D)) *: pp_y pp == 0 by rewrite scaler_eq0 (negbTE hY) orbF.
  apply/eqP; rewrite -[RHS]oppr0 -(mv _ _ hDR) ER; move: (pp_y pp) ((b1 - b2) / D) => X k; lm_reduce F G1; ring.
have hE : (y1 - y2) *: eC - (d1 - d2 + (f1 - f2)) *: pp_z pp - D *: acc + sk *: (D *: eC - ((a1 - a2) + (b1 - b2)) *: pp_z pp) = 0.
  apply: (pr_inj ok); move: hre; rewrite /multi_pairing /= !addr0 /public_key !(pr_scaler ok) -!(pr_scalel ok) -!(pr_addl ok).
  move/eqP; rewrite -subr_eq0 -(pr_Nl ok) -(pr_addl ok) => /eqP <-; congr (e _ _).
  by rewrite /D; move: (pp_z pp) => Z; lm_reduce F G1; ring.
rewrite EDS EDR in hE.
apply/eqP; rewrite -subr_eq0; suff : D *: (((y1 - y2) / D + sk) *: (eC - ((a1 - a2 + (b1 - b2)) / D) *: pp_z pp) - acc) == 0.
  by rewrite scaler_eq0 (negbTE hD).
apply/eqP; rewrite -[RHS]hE; move: (D) hD (pp_z pp) => D' hD' Z; lm_reduce F G1; field; f_side.
Qed.

(** C54 (finding): the proof accepts what witness verification refuses: the element zero *)
Theorem C54_zero_element_refuted (C : G1) pp sk sigma rho rY rS rR rDS rDR :
  let w := Wit C 0 in
  wit_verify w (pk sk) (sk *: C) = Err /\
  let: (s, f) := committing g2 e w (sk *: C) pp (pk sk) sigma rho rY rS rR rDS rDR in
  let c := get_challenge penc gtenc hashF f in
  proof_verify g2 e penc gtenc hashF (gen_proof s f c) (sk *: C) pp (pk sk) c.
Proof.
split; first by rewrite /Model.wit_verify /= eqxx orbT.
have := fun c => @C54_proof_exact (Wit C 0) (sk *: C) pp sk sigma rho rY rS rR rDS rDR c.
case E: (committing _ _ _ _ _ _ _ _ _ _ _ _ _) => [s f] hf; rewrite /proof_verify.
set c := get_challenge _ _ _ f; have [_ ->] := hf c; first by rewrite /c eqxx.
by rewrite /= add0r subrr scaler0.
Qed.
End Props.
Print Assumptions C52_verify_iff.
Print Assumptions C52_new_verifies.
Print Assumptions C52_history.
Print Assumptions C53_update_exact.
Print Assumptions C53_update_valid.
Print Assumptions C53_deleted_fails.
Print Assumptions C53_update_iff.
Print Assumptions C53_empty_update_refuted.
Print Assumptions C53_nil_slice_refuted.
Print Assumptions C53_multi_update.
Print Assumptions C53_multi_history.
Print Assumptions C54_proof_exact.
Print Assumptions C54_proof_complete.
Print Assumptions C54_special_soundness.
Print Assumptions C54_zero_element_refuted.

(* ------------------------------------------------------ the hypotheses are met *)
Section Examples.
Let okb (A : Type) (o : outcome A) : bool := if o is Ok _ then true else false.
Let os : seq (op F257) := [:: OAddElements [:: 3%:R; 4%:R]; OAdd 7%:R; ORemove 4%:R; OUpdate [:: 9%:R; 10%:R] [:: 7%:R]; OAdd 0].
Let sk : F257 := 5%:R.
(** a history that removes only members; 0 is a member *)
Example C52_hyps : [/\ all (fun o => all (fun y => y + sk != 0) (elements o)) os,
  members [::] os = Some [:: 0; 9%:R; 10%:R; 3%:R] & (g257 : G257) != 0].
Proof. by split; vm_compute. Qed.
Example C52_new_hyps : (if wit_new 9%:R (20%:R : G257) sk is Ok w then okb (wit_verify g257 e257 w (public_key g257 sk) 20%:R) else false)
  && ~~ okb (wit_new 0 (20%:R : G257) sk).
Proof. by vm_compute. Qed.

(** three updates, of which the first deletes 4 and the last only adds; the witness of 3 is updated over all
    three, that of 4 is refused *)
Let A : seq (seq F257) := [:: [:: 11%:R; 12%:R; 13%:R]; [::]; [:: 14%:R]].
Let D : seq (seq F257) := [:: [:: 4%:R]; [:: 7%:R; 12%:R]; [::]].
Let acc0 : G257 := with_elements (g257 : G257) sk [:: 3%:R; 4%:R; 7%:R].
Example C53_hyps :
  (if (do w <- wit_new 3%:R acc0 sk; do h <- history sk acc0 A D; do w' <- multi_batch_update w (map Some A) (map Some D) h.2; Ok (w, h, w')) is Ok (w, h, w')
   then [&& okb (wit_verify g257 e257 w (public_key g257 sk) acc0), okb (wit_verify g257 e257 w' (public_key g257 sk) h.1),
         ~~ okb (wit_verify g257 e257 w (public_key g257 sk) h.1), all (fun d => w_y w \notin d) D,
         all (all (fun a => a + sk != 0)) A, all (fun c => 0 < size c)%N h.2 &
         ~~ okb (multi_batch_update (Wit (1 : G257) 4%:R) (map Some A) (map Some D) h.2)]
   else false) && all (fun p => 0 < size p.1 + size p.2)%N (zip A D).
Proof. by vm_compute. Qed.
(** the hypotheses of C53_update_iff: an element outside the batch *)
Example C53_update_iff_hyps : (if acc_update acc0 sk [:: 11%:R] [:: 4%:R] is Ok (acc', c) then
  okb (batch_update (Wit (1 : G257) 3%:R) (Some [:: 11%:R]) (Some [:: 4%:R]) c) else false) && ((3%:R : F257) \notin [:: 11%:R; 4%:R]).
Proof. by vm_compute. Qed.
(** two answers to different challenges with the same recomputed commitments *)
Let pp : params G257 := Params (2%:R : G257) 3%:R 4%:R.
Example C54_hyps :
  let p c := let: (s, f) := committing g257 e257 (Wit (6%:R : G257) 2%:R) (42%:R : G257) pp (public_key g257 sk) 3%:R 4%:R 5%:R 6%:R 7%:R 8%:R 9%:R in gen_proof s f c in
  let f1 := finalize g257 e257 (p 1) (42%:R : G257) pp (public_key g257 sk) 1 in
  let f2 := finalize g257 e257 (p 2%:R) (42%:R : G257) pp (public_key g257 sk) 2%:R in
  [&& (f_acc f1 == f_acc f2), f_eC f1 == f_eC f2, f_tS f1 == f_tS f2, f_tR f1 == f_tR f2, f_RE f1 == f_RE f2, f_RS f1 == f_RS f2,
   f_RR f1 == f_RR f2, f_RDS f1 == f_RDS f2, f_RDR f1 == f_RDR f2, (1 : F257) != 2%:R, pp_x pp != 0 & pp_y pp != 0].
Proof. by vm_compute. Qed.
End Examples.
