(** Lemmas about the BBS+ model. *)
From mathcomp Require Import all_ssreflect all_algebra zify.
From Verif Require Import Lib.Res Lib.Bytes Lib.Pairing Lib.FieldTac Lib.LmodTac Bbs.Model.
From Coq Require Import Field.
Set Implicit Arguments.
Unset Strict Implicit.
Unset Printing Implicit Defensive.
Import GRing.Theory.
Local Open Scope ring_scope.

Section P.
Variables (F : fieldType) (G1 G2 GT : lmodType F) (g1 : G1) (g2 : G2) (e : G1 -> G2 -> GT).
Hypothesis ok : pairing_ok e g2.
Variables (hashG1 : bytes -> G1) (penc1 penc1u : G1 -> bytes) (penc2u : G2 -> bytes) (enc : F -> bytes).
Variables (xof : blog -> bytes) (wide : bytes -> F) (drbg : bytes -> F * F).
Add Field F_field : (f_fth F).

Notation gens := (gens G1).
Notation get := (gens_get hashG1).
Local Arguments gens_get : simpl never.
Local Arguments commit : simpl never.

Lemma all_pts_some (l : seq G1) : all_pts (map Some l) = Some l.
Proof. by elim: l => //= x l ->. Qed.

Lemma lincomb_zip (ps : seq G1) ks : lincomb ps ks = \sum_(x <- zip ps ks) x.2 *: x.1.
Proof.
elim: ps ks => [|p ps IH] [|k ks] //=; rewrite ?big_nil //.
by rewrite big_cons IH.
Qed.
Lemma lincomb_map (I : Type) (s : seq I) (f : I -> G1) (k : I -> F) :
  lincomb [seq f i | i <- s] [seq k i | i <- s] = \sum_(i <- s) k i *: f i.
Proof. by elim: s => [|i s IH] /=; rewrite ?big_nil // big_cons IH. Qed.
Lemma lincomb_cat (p1 p2 : seq G1) k1 k2 : size p1 = size k1 ->
  lincomb (p1 ++ p2) (k1 ++ k2) = lincomb p1 k1 + lincomb p2 k2.
Proof.
elim: p1 k1 => [|p p1 IH] [|k k1] //=; first by rewrite add0r.
by case=> h; rewrite IH // addrA.
Qed.

Lemma sop_some (l : seq G1) ks : size l = size ks -> sop (map Some l) ks = Some (lincomb l ks).
Proof. by move=> h; rewrite /sop all_pts_some h eqxx. Qed.

Lemma all_pts_size (ps : seq (option G1)) l : all_pts ps = Some l -> ps = map Some l.
Proof.
elim: ps l => [|[p|] ps IH] l /=; first by case=> <-.
- case E: (all_pts ps) => [r|] //= [<-] /=; by rewrite (IH r E).
- by [].
Qed.

Lemma all_pts_none (ps : seq (option G1)) : has (fun p => ~~ isSome p) ps -> all_pts ps = None.
Proof. by elim: ps => [|[p|] ps IH] //= /IH ->. Qed.

(** the generator at index i, when there is one *)
Definition gen (g : gens) (i : nat) : G1 := if (i == 0)%N then h0 g else hashG1 (gstate g).

Lemma get_ok (g : gens) i : (i <= glen g)%N -> get g (Posz i) = Some (gen g i).
Proof. by rewrite /gens_get /gen; case: eqP => // _; rewrite ltnNge => ->. Qed.
Lemma get_over (g : gens) i : (glen g < i)%N -> get g (Posz i) = None.
Proof. by rewrite /gens_get; case: eqP => [->|_ ->]. Qed.

Lemma gens_initE w n g : gens_init hashG1 penc2u w (Posz n) = Ok g ->
  glen g = n /\ forall i, gen g i = h0 g.
Proof. by rewrite /gens_init; case=> <- /=; split=> // i; rewrite /gen; case: eqP. Qed.

Lemma get_init w n (g : gens) i : gens_init hashG1 penc2u w (Posz n) = Ok g -> (i <= n)%N ->
  get g (Posz i) = Some (h0 g).
Proof. by move=> h; have [e1 e2] := gens_initE h; rewrite -e1 => /get_ok ->; rewrite e2. Qed.

(** the commitment to the messages, by position *)
Definition bcom (g : gens) (s : F) (msgs : seq F) : G1 :=
  g1 + s *: h0 g + \sum_(i < size msgs) msgs`_i *: gen g i.+1.

Lemma map_nth (A : Type) (x0 : A) (l : seq A) : [seq nth x0 l i | i <- iota 0 (size l)] = l.
Proof. by rewrite -{3}(mkseq_nth x0 l). Qed.

Lemma map_get (g : gens) s : all (fun i => i < glen g)%N s ->
  [seq get g (Posz i.+1) | i <- s] = [seq Some (gen g i.+1) | i <- s].
Proof. by move=> h; apply/eq_in_map => i hi; rewrite get_ok //; have := allP h i hi. Qed.

Lemma compute_b_ok (g : gens) s msgs : (size msgs <= glen g)%N ->
  compute_b g1 hashG1 s msgs g = Ok (bcom g s msgs).
Proof.
move=> h; rewrite /compute_b (@get_ok g 0) // map_get; last first.
  by apply/allP => i; rewrite mem_iota /= => hi; apply: leq_trans h.
rewrite (_ : [seq Some (gen g i.+1) | i <- iota 0 (size msgs)] =
             map Some [seq gen g i.+1 | i <- iota 0 (size msgs)]); last by rewrite -map_comp.
rewrite -[Some g1 :: _]/(map Some (g1 :: gen g 0 :: [seq gen g i.+1 | i <- iota 0 (size msgs)])).
rewrite sop_some /=; last by rewrite size_map size_iota.
rewrite /bcom scale1r; congr Ok; rewrite addrA; congr (_ + _).
rewrite -{2}(map_nth 0 msgs) lincomb_map.
by rewrite -(big_mkord xpredT (fun i => msgs`_i *: gen g i.+1)) /index_iota subn0.
Qed.

Lemma pair2 (A B : G1) (x y : G2) : (multi_pairing e [:: (A, x); (B, y)] == 0) = (e A x == - e B y).
Proof. by rewrite /multi_pairing /= addr0 addr_eq0. Qed.

Lemma pk_eq0 (sk : F) : (public_key g2 sk == 0) = (sk == 0).
Proof. by rewrite /public_key scaler_eq0 (negbTE (pr_gen ok)) orbF. Qed.

Lemma verify_iff sk (sg : sig G1) (g : gens) msgs :
  verify g1 g2 e hashG1 (public_key g2 sk) sg g msgs = Ok tt <->
  [/\ (0 < size msgs <= glen g)%N, sk != 0, sa sg != 0 & (se sg + sk) *: sa sg = bcom g (ss sg) msgs].
Proof.
rewrite /verify pk_eq0; split.
- case: ltnP => // h1; case: ltnP => // h2; case: eqP => // h3; case: eqP => // h4.
  rewrite compute_b_ok // [bind _ _]/= pair2.
  case: eqP => // h _; split=> //.
  move: h; rewrite /public_key -scalerDl -(scale1r g2) scalerA mulr1 (pr_Nl ok) opprK => /eqP.
  by rewrite (pr_shift ok) scale1r => /eqP.
- case=> /andP[h2 h1] h3 h4 h5.
  rewrite (ltnNge (glen g)) (ltnNge (size msgs)) h1 h2 /= (negbTE h3) (negbTE h4) compute_b_ok // [bind _ _]/= pair2.
  rewrite /public_key -scalerDl (pr_Nl ok) opprK.
  by rewrite -(scale1r g2) scalerA mulr1 (pr_shift ok) scale1r h5 eqxx.
Qed.

Lemma verify_or sk (sg : sig G1) (g : gens) msgs : (0 < size msgs <= glen g)%N -> sk != 0 ->
  (se sg + sk) *: sa sg = bcom g (ss sg) msgs ->
  verify g1 g2 e hashG1 (public_key g2 sk) sg g msgs = if sa sg == 0 then Err else Ok tt.
Proof.
move=> h1 h2 h3; case: (eqVneq (sa sg) 0) => [h0|hn]; last by apply/verify_iff.
case/andP: h1 => h1 h1'.
by rewrite /verify (ltnNge (glen g)) (ltnNge (size msgs)) h1 h1' /= pk_eq0 (negbTE h2) h0 eqxx.
Qed.

(* ------------------------------------------------------ builders *)
Definition bok (b : builder G1) (l : seq (G1 * F)) : Prop :=
  pb_points b = [seq Some x.1 | x <- l] /\ pb_scalars b = [seq x.2 | x <- l].

Lemma commit_ok b l (p : G1) k : bok b l -> (size l <= climit)%N ->
  exists2 b', commit b (Some p) k = Ok b' & bok b' (rcons l (p, k)).
Proof.
case=> h1 h2 hs; rewrite /commit h1 size_map ltnNge hs /=.
by eexists; first reflexivity; split; rewrite /= ?h1 ?h2 map_rcons.
Qed.

Lemma contribution_ok b l : bok b l -> contribution penc1 b = penc1 (\sum_(x <- l) x.2 *: x.1).
Proof.
case=> h1 h2; rewrite /contribution h1 h2 (_ : [seq Some x.1 | x <- l] = map Some (map fst l)); last by rewrite -map_comp.
by rewrite sop_some ?size_map // lincomb_map.
Qed.

Lemma gen_proof_ok b l c secs : bok b l -> size secs = size l ->
  gen_proof b c secs = Ok [seq x.1 * c + x.2.2 | x <- zip secs l].
Proof.
case=> h1 h2 h; rewrite /gen_proof h2 size_map h eqxx /=; congr Ok.
by elim: secs l h {h1 h2} => [|s secs IH] [|x l] //= [h]; rewrite IH.
Qed.

(** the equation of a committed proof *)
Lemma resp_eq (l : seq (G1 * F)) secs c : size secs = size l ->
  lincomb (map fst l) [seq x.1 * c + x.2.2 | x <- zip secs l]
  = c *: lincomb (map fst l) secs + \sum_(x <- l) x.2 *: x.1.
Proof.
elim: l secs => [|x l IH] [|s secs] //=; first by rewrite big_nil scaler0 addr0.
case=> h; rewrite big_cons IH // scalerDl scalerDr scalerA (mulrC s) -!addrA; congr (_ + _); exact: addrCA.
Qed.

(* ------------------------------------------------------ blind signatures *)
(** a map given by its non-negative keys *)
Definition zmap (A : Type) (l : seq (nat * A)) : seq (int * A) := [seq (Posz x.1, x.2) | x <- l].

Lemma zmap_fst (A : Type) (l : seq (nat * A)) : map fst (zmap l) = map Posz (map fst l).
Proof. by rewrite /zmap -!map_comp. Qed.
Lemma zmap_snd (A : Type) (l : seq (nat * A)) : map snd (zmap l) = map snd l.
Proof. by rewrite /zmap -map_comp; apply: eq_map. Qed.

Fixpoint with_rnd (hid : seq (nat * F)) (rnd : nat -> F) (k : nat) (g : gens) : seq (G1 * F) :=
  match hid with
  | [::] => [::]
  | x :: r => (gen g x.1.+1, rnd k) :: with_rnd r rnd k.+1 g
  end.
Lemma with_rnd_fst hid rnd k g : map fst (with_rnd hid rnd k g) = [seq gen g x.1.+1 | x <- hid].
Proof. by elim: hid k => //= x r IH k; rewrite IH. Qed.
Lemma with_rnd_size hid rnd k g : size (with_rnd hid rnd k g) = size hid.
Proof. by rewrite -(size_map fst) with_rnd_fst size_map. Qed.

Lemma blind_loop_ok (g : gens) hid rnd k b l pts secs :
  all (fun x => x.1 < glen g)%N hid -> bok b l -> (size l + size hid <= climit.+1)%N ->
  exists2 b', blind_loop hashG1 g (zmap hid) rnd k b pts secs =
                Ok (b', pts ++ [seq Some (gen g x.1.+1) | x <- hid], secs ++ map snd hid)
            & bok b' (l ++ with_rnd hid rnd k g).
Proof.
elim: hid k b l pts secs => [|[i m] hid IH] k b l pts secs /=.
  by move=> _ h _; exists b; rewrite ?cats0.
case/andP=> hi ha hb hs; rewrite ltnNge (ltnW hi) /= -PoszD addn1 get_ok //.
have [|b1 -> hb1] := commit_ok (gen g i.+1) (rnd k) hb; first by lia.
have [|b' hl hb'] := IH k.+1 b1 _ (rcons pts (Some (gen g i.+1))) (rcons secs m) ha hb1.
  by rewrite size_rcons; lia.
by exists b'; rewrite /= ?hl ?cat_rcons -?cat_rcons.
Qed.

Lemma bok_new : bok (new_builder G1) [::]. Proof. by []. Qed.

Definition hcom (g : gens) (hid : seq (nat * F)) (bl : F) : G1 :=
  \sum_(x <- hid) x.2 *: gen g x.1.+1 + bl *: h0 g.

Lemma new_blind_ok (g : gens) hid nonce rnd bl rl : all (fun x => x.1 < glen g)%N hid -> (size hid <= climit)%N ->
  let l := rcons (with_rnd hid rnd 0 g) (h0 g, rl) in
  let c := blind_challenge penc1 enc xof wide (penc1 (\sum_(x <- l) x.2 *: x.1)) (hcom g hid bl) nonce in
  new_blind hashG1 penc1 enc xof wide (zmap hid) g nonce rnd bl rl =
  Ok (BCtx (hcom g hid bl) c [seq x.1 * c + x.2.2 | x <- zip (rcons (map snd hid) bl) l], bl).
Proof.
move=> ha hs l c; rewrite /new_blind.
have [|b0 -> hb0] := blind_loop_ok rnd 0 [::] [::] ha bok_new; first by rewrite /= add0n; lia.
rewrite [bind (Ok _) _]/= (@get_ok g 0) //.
have hz : (size ([::] ++ with_rnd hid rnd 0 g) <= climit)%N by rewrite cat0s with_rnd_size.
have [b -> hb] := commit_ok (gen g 0) rl hb0 hz.
rewrite [bind (Ok _) _]/=.
rewrite (_ : rcons [seq Some (gen g x.1.+1) | x <- hid] (Some (gen g 0)) =
   map Some (rcons [seq gen g x.1.+1 | x <- hid] (h0 g))); last by rewrite map_rcons -map_comp.
rewrite sop_some ?size_rcons ?size_map // [bind (deref _) _]/=.
have -> : lincomb (rcons [seq gen g x.1.+1 | x <- hid] (h0 g)) (rcons (map snd hid) bl) = hcom g hid bl.
  by rewrite -!cats1 lincomb_cat ?size_map // lincomb_map /= addr0.
rewrite (contribution_ok hb).
have hsz : size (rcons (map snd hid) bl) = size l by rewrite !size_rcons size_map with_rnd_size.
rewrite (gen_proof_ok _ hb hsz) [bind _ _]/=.
by [].
Qed.

Lemma filter_notin_size (A : eqType) (s t u : seq A) : perm_eq (s ++ t) u -> uniq u ->
  perm_eq [seq i <- u | i \notin t] s.
Proof.
move=> h hu; have us : uniq (s ++ t) by rewrite (perm_uniq h).
move: us; rewrite cat_uniq => /and3P[us hh ut].
have := perm_filter (fun i => i \notin t) h; rewrite perm_sym.
rewrite filter_cat (_ : [seq i <- t | i \notin t] = [::]) ?cats0; last first.
  by apply/eqP; rewrite -[_ == _]negbK -has_filter; apply/negP => /hasP[x xt /negP].
rewrite (_ : [seq i <- s | i \notin t] = s) //; apply/all_filterP/allP => x xs.
by apply: contra hh => xt; apply/hasP; exists x.
Qed.

Lemma perm_filter_iota (s t : seq nat) n : perm_eq (s ++ t) (iota 0 n) ->
  perm_eq [seq i <- iota 0 n | i \notin t] s.
Proof. by move=> h; apply: (filter_notin_size h); apply: iota_uniq. Qed.

Lemma blind_verify_ok (g : gens) hid known nonce rnd bl rl ctx :
  all (fun x => x.1 < glen g)%N hid -> (size hid <= climit)%N ->
  all (fun i => i < glen g)%N known ->
  [seq gen g i.+1 | i <- iota 0 (glen g) & i \notin known] = [seq gen g x.1.+1 | x <- hid] ->
  new_blind hashG1 penc1 enc xof wide (zmap hid) g nonce rnd bl rl = Ok (ctx, bl) ->
  forall known', known' =i map Posz known ->
  blind_verify hashG1 penc1 enc xof wide ctx known' g nonce = Ok tt.
Proof.
move=> ha hs hk hp; rewrite new_blind_ok //; case=> <- known' hk'.
set l := rcons _ _; set c := blind_challenge _ _ _ _ _ _ _.
rewrite /blind_verify (_ : has _ known' = false); last first.
  apply/negP => /hasP[x]; rewrite hk' => /mapP[i hi ->].
  by rewrite ltnNge (ltnW (allP hk i hi)).
rewrite [in X in X ++ _](@eq_filter _ _ (fun i => i \notin known)); last first.
  by move=> i; rewrite hk' mem_map //; move=> a b [].
rewrite map_get; last by apply/allP => i; rewrite mem_filter mem_iota => /andP[_].
rewrite [X in X ++ _](_ : _ = map Some [seq gen g x.1.+1 | x <- hid]); last by rewrite -hp -map_comp.
rewrite (@get_ok g 0) // -[[:: _; _]]/(map Some [:: h0 g; hcom g hid bl]) -map_cat.
rewrite sop_some /=; last first.
  by rewrite size_rcons size_map size_cat !size_map /= size_zip !size_rcons size_map with_rnd_size minnn addn2.
rewrite -[[:: h0 g; _]]/([:: h0 g] ++ [:: hcom g hid bl]) catA -cats1 lincomb_cat; last first.
  by rewrite cats1 size_rcons !size_map size_zip !size_rcons size_map with_rnd_size minnn.
have hsz : size (rcons (map snd hid) bl) = size l by rewrite !size_rcons size_map with_rnd_size.
have hl : [seq gen g x.1.+1 | x <- hid] ++ [:: h0 g] = map fst l by rewrite map_rcons with_rnd_fst cats1.
rewrite hl resp_eq // -{1}hl -(cats1 (map snd hid)) lincomb_cat ?size_map // lincomb_map /= !addr0.
rewrite -/(hcom g hid bl) addrAC scaleNr subrr add0r.
by rewrite -/c eqxx.
Qed.

Lemma bcom_perm (g : gens) s msgs (l : seq (nat * F)) :
  perm_eq (map fst l) (iota 0 (size msgs)) -> all (fun x => msgs`_x.1 == x.2) l ->
  bcom g s msgs = g1 + s *: h0 g + \sum_(x <- l) x.2 *: gen g x.1.+1.
Proof.
move=> hp ha; rewrite /bcom; congr (_ + _).
rewrite -(big_mkord xpredT (fun i => msgs`_i *: gen g i.+1)) /index_iota subn0 -(perm_big _ hp) big_map.
by apply: eq_big_seq => x /(allP ha) /eqP ->.
Qed.

Lemma to_blind_ok (g : gens) (ctx : bctx G1) known sk nonce :
  sk != 0 -> all (fun x => x.1 < glen g)%N known ->
  blind_verify hashG1 penc1 enc xof wide ctx (sort_ints (map fst (zmap known))) g nonce = Ok tt ->
  let es := drbg (enc sk ++ nonce_data hashG1 penc1u enc g
                     [seq odflt 0 (zassoc i (zmap known)) | i <- sort_ints (map fst (zmap known))]) in
  to_blind g1 hashG1 penc1 penc1u enc xof wide drbg ctx (zmap known) sk g nonce =
  if es.1 + sk == 0 then Err else
  Ok (Sig ((es.1 + sk)^-1 *: (bc_com ctx + g1 + es.2 *: h0 g + \sum_(x <- known) x.2 *: gen g x.1.+1)) es.1 es.2).
Proof.
move=> hk ha hv es; rewrite /to_blind (negbTE hk).
rewrite (_ : has _ (zmap known) = false); last first.
  apply/negP => /hasP[x /mapP[y hy ->]] /=; rewrite ltnNge => /negP; apply; exact: ltnW (allP ha y hy).
rewrite hv [bind (Ok _) _]/= -/es; case: es => ee s /=; case: eqP => // he.
rewrite (@get_ok g 0) //.
rewrite (_ : [seq gens_get hashG1 g (p.1 + 1) | p <- zmap known] = map Some [seq gen g x.1.+1 | x <- known]); last first.
  rewrite /zmap -!map_comp; apply/eq_in_map => x hx /=; rewrite -PoszD addn1 get_ok //; exact: (allP ha x hx).
rewrite -[_ :: _]/(map Some (bc_com ctx :: g1 :: h0 g :: [seq gen g x.1.+1 | x <- known])) zmap_snd.
rewrite sop_some /= ?size_map // lincomb_map !scale1r !addrA; by [].
Qed.
End P.
