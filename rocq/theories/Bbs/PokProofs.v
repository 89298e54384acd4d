(** Lemmas about the BBS+ proof of knowledge. *)
From mathcomp Require Import all_ssreflect all_algebra zify.
From Verif Require Import Lib.Res Lib.Bytes Lib.Pairing Lib.FieldTac Lib.LmodTac Bbs.Model Bbs.Proofs.
From Coq Require Import Field.
Set Implicit Arguments.
Unset Strict Implicit.
Unset Printing Implicit Defensive.
Import GRing.Theory.
Local Open Scope ring_scope.

Section P.
Variables (F : fieldType) (G1 G2 GT : lmodType F) (g1 : G1) (g2 : G2) (e : G1 -> G2 -> GT).
Hypothesis ok : pairing_ok e g2.
Variables (hashG1 : bytes -> G1) (penc1 : G1 -> bytes) (enc : F -> bytes).
Variables (xof : blog -> bytes) (wide : bytes -> F).
Add Field F_field : (f_fth F).

Notation gens := (gens G1).
Notation get := (gens_get hashG1).
Notation gen := (gen hashG1).
Local Arguments gens_get : simpl never.
Local Arguments commit : simpl never.
Local Notation pm0 := (PMsg 0 None).

(** the hidden messages with their positions *)
Definition hidden (i : nat) (msgs : seq (pmsg F)) : seq (nat * pmsg F) :=
  [seq x <- zip (iota i (size msgs)) msgs | isSome (pm_blind x.2)].
Definition shown (i : nat) (msgs : seq (pmsg F)) : seq (nat * pmsg F) :=
  [seq x <- zip (iota i (size msgs)) msgs | ~~ isSome (pm_blind x.2)].

Lemma pok_loop_ok (g : gens) i msgs b l secs : (i + size msgs <= glen g)%N -> bok b l ->
  (size l + size (hidden i msgs) <= climit.+1)%N ->
  exists2 b', pok_loop hashG1 g i msgs b secs = Ok (b', secs ++ [seq pm_msg x.2 | x <- hidden i msgs])
            & bok b' (l ++ [seq (gen g x.1.+1, odflt 0 (pm_blind x.2)) | x <- hidden i msgs]).
Proof.
elim: msgs i b l secs => [|[m [k|]] msgs IH] i b l secs /=.
- by move=> _ hb _; exists b; rewrite /= ?cats0.
- rewrite -addSnnS => hi hb hs; rewrite get_ok; last by apply: leq_trans hi; lia.
  have [|b1 -> hb1] := commit_ok (gen g i.+1) k hb; first by lia.
  have [||b' hl hb'] := IH i.+1 b1 _ (rcons secs m) _ hb1; [by []|by rewrite size_rcons /hidden; lia|].
  by exists b'; rewrite /= ?hl ?cat_rcons -?cat_rcons.
- rewrite -addSnnS => hi hb hs.
  exact: IH.
Qed.

(** the sum over all messages is the hidden part plus the shown part *)
Lemma sum_hidden_shown (V : zmodType) (f : nat * pmsg F -> V) i msgs :
  \sum_(x <- zip (iota i (size msgs)) msgs) f x = \sum_(x <- hidden i msgs) f x + \sum_(x <- shown i msgs) f x.
Proof. by rewrite /hidden /shown !big_filter (bigID (fun x => isSome (pm_blind x.2))). Qed.

Lemma zip_iota (A : Type) (x0 : A) (l : seq A) i : zip (iota i (size l)) l = [seq (j + i, nth x0 l j)%N | j <- iota 0 (size l)].
Proof.
elim: l i => //= x l IH i; rewrite add0n; congr (_ :: _).
rewrite IH (iotaDl 1 0) -map_comp; apply: eq_map => j /=; by rewrite add1n addSnnS.
Qed.

Lemma bcom_zip (g : gens) s msgs :
  bcom g1 hashG1 g s (map (@pm_msg F) msgs) =
  g1 + s *: h0 g + \sum_(x <- zip (iota 0 (size msgs)) msgs) pm_msg x.2 *: gen g x.1.+1.
Proof.
rewrite /bcom; congr (_ + _); rewrite (zip_iota pm0) big_map.
rewrite -(big_mkord xpredT (fun i => [seq pm_msg i | i <- msgs]`_i *: gen g i.+1)) /index_iota subn0 size_map.
by apply: eq_big_seq => i; rewrite mem_iota /= => hi; rewrite (nth_map pm0) // addn0.
Qed.

Lemma new_pok_ok (sg : sig G1) (g : gens) msgs r1 r2 q1 q2 q3 q4 :
  size msgs = glen g -> (glen g <= climit.-1)%N -> r1 != 0 ->
  let b := bcom g1 hashG1 g (ss sg) (map (@pm_msg F) msgs) in
  let aP := r1 *: sa sg in
  let d := r1 *: b + r2 *: h0 g in
  exists p1 p2,
    [/\ new_pok g1 hashG1 sg g msgs r1 r2 q1 q2 q3 q4 =
          Ok (Pok aP (r1 *: b - se sg *: aP) d p1 p2 [:: se sg; r2]
                (r1^-1 :: ss sg + r2 / r1 :: [seq pm_msg x.2 | x <- hidden 0 msgs])),
        bok p1 [:: (aP, q1); (h0 g, q2)] &
        bok p2 ((- d, q3) :: (h0 g, q4) :: [seq (gen g x.1.+1, odflt 0 (pm_blind x.2)) | x <- hidden 0 msgs])].
Proof.
move=> hs hl hr b aP d.
have hl0 : (0 < climit)%N by [].
have hl1 : (1 < climit)%N by [].
have [p0 c0 hp0] := commit_ok aP q1 (bok_new G1) (leq0n climit).
have hz : (size (rcons [::] (aP, q1)) <= climit)%N by [].
have [p1 c1 hp1] := commit_ok (h0 g) q2 hp0 hz.
have [p2 c2 hp2] := commit_ok (- d) q3 (bok_new G1) (leq0n climit).
have hz2 : (size (rcons [::] (- d, q3)) <= climit)%N by [].
have [p3 c3 hp3] := commit_ok (h0 g) q4 hp2 hz2.
have hi : (0 + size msgs <= glen g)%N by rewrite hs.
have hh : (size (hidden 0 msgs) <= glen g)%N.
  rewrite size_filter -hs; apply: leq_trans (count_size _ _) _; rewrite size_zip size_iota minnn; by [].
have [|p4 c4 hp4] := pok_loop_ok [:: r1^-1; ss sg + r2 / r1] hi hp3; first by rewrite /=; lia.
exists p1, p4; split=> //.
rewrite /new_pok hs eqxx (negbTE hr) compute_b_ok ?size_map ?hs // -/b.
cbn [bind negb].
rewrite (_ : sop [:: Some b; Some (h0 g)] [:: r1; r2] = Some d); last by rewrite /sop /= addr0.
cbn [bind deref]; rewrite -/aP c0; cbn [bind]; rewrite c1; cbn [bind]; rewrite c2; cbn [bind]; rewrite c3; cbn [bind].
by rewrite c4.
Qed.

Lemma take_resp_ok (l r : seq F) : take_resp (size l) (l ++ r) = Ok l.
Proof. by elim: l => //= x l ->. Qed.
Lemma take_resp_short n (l : seq F) : (size l < n)%N -> take_resp n l = Panic.
Proof. by elim: n l => [|n IH] [|x l] //= h; rewrite IH. Qed.
Lemma take_respE n (l r : seq F) : take_resp n l = Ok r -> r = take n l /\ size r = n.
Proof.
elim: n l r => [|n IH] [|x l] r //=; try by case=> <-.
by case E: (take_resp n l) => [r'||] //= [<-]; have [e1 e2] := IH _ _ E; rewrite /= e2 -e1.
Qed.

(** lookup of a revealed position *)
Lemma zassoc_isSome (l : seq (nat * F)) i : isSome (zassoc (Posz i) (zmap l)) = (i \in map fst l).
Proof.
elim: l => [|[j a] l IH] //=; rewrite in_cons eq_sym.
rewrite -IH; case: (eqVneq i j) => [->|h] /=; first by rewrite eqxx.
by rewrite eqz_nat (negbTE h).
Qed.

(** the part of the commitment the verifier computes from the revealed messages *)
Definition rcom (g : gens) (rev : seq (nat * F)) : G1 := g1 + \sum_(x <- rev) x.2 *: gen g x.1.+1.
Definition hidx (g : gens) (rev : seq (nat * F)) : seq nat := [seq i <- iota 0 (glen g) | i \notin map fst rev].

Lemma vcontrib_ok (g : gens) (rev : seq (nat * F)) aP aB d a1 a2 more b0 b1 resp rest c :
  all (fun x => x.1 < glen g)%N rev -> (size rev <= glen g)%N -> size resp = size (hidx g rev) ->
  vcontribution g1 hashG1 penc1 (PokProof aP aB d (a1 :: a2 :: more) (b0 :: b1 :: resp ++ rest)) g (zmap rev) c =
  Ok [:: BApp LAPrime (penc1 aP); BApp LABar (penc1 aB); BApp LD (penc1 d);
         BApp LProof1 (penc1 (c *: (aB - d) + a1 *: aP + a2 *: h0 g));
         BApp LProof2 (penc1 (c *: rcom g rev - b0 *: d + b1 *: h0 g +
                               lincomb [seq gen g i.+1 | i <- hidx g rev] resp))].
Proof.
move=> ha hs hr; rewrite /vcontribution; cbn [pp_1 pp_2 pp_aBar pp_d pp_aPrime ohead drop bind deref].
rewrite (_ : sop [:: Some (aB - d); _; _] _ = Some (c *: (aB - d) + a1 *: aP + a2 *: h0 g)); last first.
  by rewrite /sop /= addr0 addrA.
cbn [bind deref].
rewrite (_ : [seq gens_get hashG1 g (m.1 + 1) | m <- zmap rev] = map Some [seq gen g x.1.+1 | x <- rev]); last first.
  rewrite /zmap -!map_comp; apply/eq_in_map => x hx /=; rewrite -PoszD addn1 get_ok //; exact: (allP ha x hx).
rewrite -[Some g1 :: _]/(map Some (g1 :: [seq gen g x.1.+1 | x <- rev])) zmap_snd sop_some ?size_map //=; last first.
  by rewrite !size_map.
rewrite lincomb_map scale1r -/(rcom g rev) drop0.
rewrite ltnNge hs /=.
rewrite (@eq_filter _ _ (fun i => i \notin map fst rev)); last by move=> i; rewrite zassoc_isSome.
rewrite -/(hidx g rev) -hr take_resp_ok; cbn [bind].
rewrite map_get; last by apply/allP => i; rewrite mem_filter mem_iota => /andP[_].
rewrite (_ : [seq Some (gen g i.+1) | i <- hidx g rev] = map Some [seq gen g i.+1 | i <- hidx g rev]); last by rewrite -map_comp.
rewrite -[Some (rcom g rev) :: _]/(map Some (rcom g rev :: - d :: h0 g :: [seq gen g i.+1 | i <- hidx g rev])).
rewrite sop_some; last by rewrite /= size_map hr.
by cbn [deref bind lincomb]; rewrite scalerN !addrA.
Qed.

Lemma verify_sig_pok_iff sk aP aB d x1 x2 :
  verify_sig_pok g2 e (PokProof aP aB d x1 x2) (public_key g2 sk) =
  [&& sk != 0, aP != 0, aB != 0 & sk *: aP == aB].
Proof.
rewrite /verify_sig_pok /= (pk_eq0 ok) pair2; congr [&& _, _, _ & _].
by rewrite /public_key (pr_Nr ok) opprK -(scale1r g2) scalerA mulr1 (pr_shift ok) scale1r.
Qed.

(** the positions *)
Lemma shown_keys msgs (rev : seq (nat * F)) :
  perm_eq rev [seq (x.1, pm_msg x.2) | x <- shown 0 msgs] ->
  [seq i <- iota 0 (size msgs) | i \notin map fst rev] = map fst (hidden 0 msgs).
Proof.
move=> hp; rewrite /hidden (zip_iota pm0) filter_map -map_comp.
have hk : map fst rev =i [seq i <- iota 0 (size msgs) | ~~ isSome (pm_blind (nth pm0 msgs i))].
  move=> i; rewrite (perm_mem (perm_map fst hp)) /shown (zip_iota pm0) filter_map -!map_comp /=.
  rewrite (@eq_map _ _ _ id); last by move=> j; rewrite /= addn0.
  by rewrite map_id.
rewrite [RHS](@eq_map _ _ _ id) ?map_id; last by move=> j; rewrite /= addn0.
apply/eq_in_filter => i hi; by rewrite hk mem_filter hi andbT negbK.
Qed.
Lemma rev_bound msgs (rev : seq (nat * F)) :
  perm_eq rev [seq (x.1, pm_msg x.2) | x <- shown 0 msgs] ->
  all (fun x => x.1 < size msgs)%N rev /\ (size rev <= size msgs)%N.
Proof.
move=> hp; split.
- rewrite (perm_all _ hp) all_map /shown (zip_iota pm0) filter_map all_map; apply/allP => j.
  by rewrite mem_filter mem_iota /= addn0 => /andP[_].
- by rewrite (perm_size hp) size_map size_filter; apply: leq_trans (count_size _ _) _; rewrite size_zip size_iota minnn.
Qed.

Definition bsum (g : gens) (msgs : seq (pmsg F)) : G1 :=
  \sum_(x <- hidden 0 msgs) pm_msg x.2 *: gen g x.1.+1.

Lemma bcom_split (g : gens) s msgs (rev : seq (nat * F)) :
  perm_eq rev [seq (x.1, pm_msg x.2) | x <- shown 0 msgs] ->
  bcom g1 hashG1 g s (map (@pm_msg F) msgs) = rcom g rev + s *: h0 g + bsum g msgs.
Proof.
move=> hp; rewrite bcom_zip sum_hidden_shown /rcom /bsum (perm_big _ hp) big_map.
by rewrite addrA addrAC [X in X + _]addrAC.
Qed.
End P.
