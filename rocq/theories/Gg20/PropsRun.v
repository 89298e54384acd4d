(** C36 (third part): honest executions exist, with verifiers that accept. *)
From mathcomp Require Import all_ssreflect all_algebra zify.
From Verif Require Import Lib.Res Lib.Bytes Lib.Inst Core.HashModel Core.HashProofs Gennaro.Model Paillier.Model Paillier.Proofs Paillier.Props
  Dkls.SignModel Dkls.PropsSign Gg20.SignModel Gg20.SignProofs Gg20.PropsSign Gg20.PropsPrepare.
Set Implicit Arguments. Unset Strict Implicit. Unset Printing Implicit Defensive.
Import GRing.Theory.
Local Open Scope ring_scope.

(** provers that succeed and verifiers that accept *)
Definition accepting (F : fieldType) (G : lmodType F) zk (Z : zkf F G zk) : Prop :=
  [/\ forall id N k c r rnd, is_ok (z_p1 Z id N k c r rnd),
      forall id N c p, z_v1 Z id N c p = Ok tt,
      forall id N b y r c1 c2 X rnd, is_ok (z_p2 Z id N b y r c1 c2 X rnd),
      forall id N c1 c2 X p, z_v2 Z id N c1 c2 X p = Ok tt &
  (forall id N k r c X R rnd, is_ok (z_ppdl Z id N k r c X R rnd)) /\ forall id N c X R p, z_vpdl Z id N c X R p = Ok tt].

Lemma isok A (o : outcome A) : is_ok o -> exists a, o = Ok a.
Proof. by case: o => // a _; exists a. Qed.

Section P.
Variables (F : fieldType) (G : lmodType F) (g : G) (q : nat) (val : F -> nat) (xc : G -> nat) (yodd : G -> bool)
  (penc : G -> bytes) (pdec : bytes -> option G) (H : bytes -> bytes) (blk : nat) (zk : Type) (Z : zkf F G zk).
Hypotheses (hs : scalars q val) (hp : points g xc yodd penc pdec) (hZ : accepting Z) (hH : forall b, size (H b) = 32%N).
Variables (tr : bool) (S : seq nat) (C : nat -> conf G) (N : nat -> nat) (x : F) (hash : bytes) (T : exec G zk) (z0 : zk).
Hypotheses (hS : signers g S C N x) (htr : forall i, i \in S -> c_trusted (C i) = tr) (hN : forall i j, i \in S -> j \in S -> exists B, assoc j (c_pub (C i)) = Some B).

Definition others i := [seq j <- S | j != i].
Let pZ i : seq (nat * zk) := [seq (j, z0) | j <- others i].

Lemma keys_pZ i : map fst (pZ i) = others i. Proof. exact: keys_map. Qed.
Lemma Cid' i : i \in S -> c_id (C i) = i. Proof. by case: hS => _ _ h /h []. Qed.
Lemma Ccos' i : i \in S -> forall j, (j \in c_cosigners (C i)) = (j \in S) && (j != i). Proof. by case: hS => _ _ h /h []. Qed.

Lemma vsm_others i s rd : i \in S -> s_round s = rd -> verify_state_map (C i) s rd (others i) = Ok tt.
Proof.
move=> iS e; apply/vsm_ok; split=> // j; rewrite mem_filter (Ccos' iS) => /andP [-> ->] //.
Qed.

Lemma prove_all_ok self l f : (forall id, is_ok (f id : outcome zk)) -> is_ok (prove_all self l f).
Proof.
move=> h; elim: l => //= a l IH; case: eqP => // _; have [p ->] := isok (h a); have [r ->] := isok IH; by [].
Qed.

Lemma p1 i k gm cr r rnd : i \in S -> size cr = 32%N -> (val k < N i)%N -> (0 < r < N i)%N ->
  is_ok (round1 g val penc H blk Z (C i) (st0 G) k gm (Some cr) r rnd).2.
Proof.
move=> iS h1 h2 h3; have [_ _ /(_ i iS) [_ _ _ [p1 [p2 [gp eN ek]]] _]] := hS.
have [sk' [ek' [eN' _]]] := C20_paillier_decrypt_encrypt gp; move: ek'; rewrite ek => -[esk].
rewrite /round1 /commit h1 eqxx esk eN' -eN; cbn [s_round st0 bind].
have [ct ->] : exists ct, encrypt (N i) (Some (Posz (val k))) (Some (Posz r)) = Ok ct.
  apply: isok; apply/(C22_paillier_input_checks (N i)).1; rewrite !ltz_nat h2; move: h3 => /andP [-> ->]; by split.
cbn [bind negb eqn eqb]; have [a1 _ _ _ _] := hZ.
case: (c_trusted (C i)); first by have [p ->] := isok (a1 1%N (N i) k ct r (rnd 1%N)).
by have [p ->] := isok (prove_all_ok (c_id (C i)) (c_cosigners (C i)) (fun id => a1 id (N i) k ct r (rnd id))).
Qed.

Lemma respond_ok p1 p2 sk id b a c1 X bt r rnd : good_primes p1 p2 -> new_secret_key p1 p2 = Ok sk ->
  decrypt sk (Some (Posz c1)) = Ok a -> (val b < p1 * p2)%N -> (bt < p1 * p2)%N -> (0 < r < p1 * p2)%N -> coprime r (p1 * p2) ->
  is_ok (respond val Z id (p1 * p2) b (Some (Posz c1)) X bt r rnd).
Proof.
move=> gp ek ea hb hbt hr cr; rewrite /respond.
have [_ /(_ hb) [c [-> e2]]] := C21_paillier_homomorphic_all gp ek (val b) ea ea; cbn [bind].
have [sk' [ek' [_ D]]] := C20_paillier_decrypt_encrypt gp; move: ek'; rewrite ek => -[esk].
have [cB [-> eB2]] := D bt r hbt hr cr; cbn [bind]; rewrite -esk in eB2.
have [[c' [-> e4]] _] := C21_paillier_homomorphic_all gp ek 0 e2 eB2; cbn [bind].
by have [_ _ a3 _ _] := hZ; have [p ->] := isok (a3 id (p1 * p2)%N b bt r (Some (Posz c1)) c' X rnd).
Qed.

Lemma b1_proof_ok i : stage1 g val penc H blk Z S C N T -> i \in S -> c_trusted (C i) -> exists p, b1_proof (x_b1 T i) = Some p.
Proof.
move=> h iS htr0; have [e _] := h _ iS; move: e; rewrite /round1; have -> : (s_round (st0 G) != 1%N) = false by [].
case E: (bind _ _) => [[[y b] p]||] // [e1 e2 e3].
binv2 E Ci Di eC E1; binv E1 ct ect E2; binv2 E2 pf pp ep E3; case: E3 => e4 e5 e6; rewrite -e2 -e5 /=.
by move: ep; rewrite htr0 => ep; binv ep p0 ep0 ep1; case: ep1 => <- _; exists p0.
Qed.

Lemma loop2_ok c x1 B p2p l dr acc out :
  (forall j m, List.In (j, Some m) l -> j != c_id c -> exists n pf r2 r3, [/\ assoc j (c_pks c) = Some n,
     (if c_trusted c then b1_proof m else assoc j p2p) = Some pf,
     respond val Z j n (s_gamma x1) (b1_ctxt m) None (d_bt (dr j)) (d_br (dr j)) (d_bz (dr j)) = Ok r2 &
     respond val Z j n (c_w c) (b1_ctxt m) (Some B) (d_wt (dr j)) (d_wr (dr j)) (d_wz (dr j)) = Ok r3]) ->
  is_ok (loop2 val Z c x1 B p2p l dr acc out).2.
Proof.
have [_ a2 _ _ _] := hZ.
elim: l acc out => [|[j [m|]] l IH] acc out //= h; last by apply: IH => ? ? ?; apply: h; right.
case: eqP => [_|/eqP ne]; first by apply: IH => ? ? ?; apply: h; right.
have [n [pf [[r2 b2] [[r3 b3] [-> e2 e3 e4]]]]] := h _ _ (or_introl erefl) ne.
rewrite e2 /= a2 /= e3 /= e4 /=; by apply: IH => ? ? ?; apply: h; right.
Qed.

Lemma In_map_others (V : Type) (f : nat -> V) i j v : List.In (j, v) [seq (m, f m) | m <- others i] -> [/\ j \in S, j != i & v = f j].
Proof.
move=> h; have := keys_In h; rewrite keys_map mem_filter => /andP [-> ->]; split=> //.
by elim: (others i) h => //= a l IH [[<- <-]|/IH].
Qed.

Lemma from_map (V : Type) (f : nat -> V) i : from_others i f [seq (m, Some (f m)) | m <- others i].
Proof.
split; first by rewrite keys_map filter_uniq //; case: hS.
by move=> j v h; have [_ _] := @In_map_others _ (fun m => Some (f m)) _ _ _ h.
Qed.

Definition draws_ok : Prop := forall i j, i \in S -> j \in S -> j != i ->
  [/\ [/\ coprime (d_br (x_dr T j i)) (N i), coprime (d_wr (x_dr T j i)) (N i),
         (val (x_k T i) * val (x_g T j) + d_bt (x_dr T j i) < N i)%N &
         (val (x_k T i) * val (c_w (C j)) + d_wt (x_dr T j i) < N i)%N],
      (0 < d_br (x_dr T j i) < N i)%N, (0 < d_wr (x_dr T j i) < N i)%N, (val (x_g T j) < N i)%N & (val (c_w (C j)) < N i)%N].
Hypotheses (hd : draws_ok) (hT1 : stage1 g val penc H blk Z S C N T).

Lemma p2 i : i \in S -> is_ok (round2 val Z (C i) (x_s1 T i) [seq (m, Some (x_b1 T m)) | m <- others i] (pZ i) (x_dr T i)).2.
Proof.
move=> iS; have [ct [D [e1 _ _ _]]] := r1 hS hT1 iS; rewrite /round2 keys_pZ keys_map.
have er : s_round (x_s1 T i) = 2%N by rewrite e1.
rewrite (vsm_others iS er); cbn [bind].
have -> : (if c_trusted (C i) then Ok tt else Ok tt) = Ok tt by case: ifP.
rewrite e1; cbn [bind s_1 deref]; have [B eB] := hN iS iS; rewrite (Cid' iS) eB; cbn [bind deref].
set L := loop2 _ _ _ _ _ _ _ _ _ _; suff : is_ok L.2 by case: L => acc [].
apply: loop2_ok => j m hin _; have [jS ne [->]] := @In_map_others _ (fun m => Some (x_b1 T m)) _ _ _ hin.
have [_ _ hC] := hS; have [_ _ _ [p1 [p2 [gp eN ek]]] _] := hC _ jS.
have [_ _ _ _ /(_ j jS ne) e2] := hC _ iS.
have ne' : i != j by rewrite eq_sym.
have [[k1 k2 k3 k4] k5 k6 k7 k8] := hd jS iS ne'.
have [ct2 [D2 [e7 _ ec ed]]] := r1 hS hT1 jS.
have [pf epf] : exists pf, (if c_trusted (C i) then b1_proof (x_b1 T j) else assoc j (pZ i)) = Some pf.
  move: (b1_proof_ok hT1 jS); rewrite (htr iS) (htr jS); case: (tr) => h; first exact: h.
  by exists z0; rewrite assoc_map mem_filter jS ne.
rewrite ec e2; rewrite eN in k1 k2 k3 k4 k5 k6 k7 k8 *.
have [r2' e3] := isok (respond_ok j None (d_bz (x_dr T i j)) gp ek ed k7 (leq_ltn_trans (leq_addl _ _) k3) k5 k1).
have [r3' e4] := isok (respond_ok j (Some B) (d_wz (x_dr T i j)) gp ek ed k8 (leq_ltn_trans (leq_addl _ _) k4) k6 k2).
by exists (p1 * p2)%N, pf, r2', r3'; split.
Qed.

Hypothesis hT2 : stage2 val Z S C N T.

Lemma loop3_ok c x1 s2 l d0 sg0 :
  (forall j v, List.In (j, v) l -> j != c_id c -> exists m B, [/\ v = Some m, assoc j (c_pub c) = Some B,
     is_ok (finalize Z (c_id c) (c_sk c) (s_ci x1) None (pr2 m)), is_ok (finalize Z (c_id c) (c_sk c) (s_ci x1) (Some B) (pr3 m)) &
     assoc j (s_beta s2) <> None /\ assoc j (s_vu s2) <> None]) -> is_ok (loop3 Z c x1 s2 l d0 sg0).
Proof.
elim: l d0 sg0 => [|[j v] l IH] d0 sg0 //= h.
case: eqP => [_|/eqP ne]; first by apply: IH => ? ? ?; apply: h; right.
have [m [B [-> eB f1 f2 [b1 b2]]]] := h _ _ (or_introl erefl) ne.
have [al ->] := isok f1; have [mu e2] := isok f2; rewrite /= eB /= e2 /=.
case: (assoc j (s_beta s2)) b1 => // be _; case: (assoc j (s_vu s2)) b2 => // vu _.
by apply: IH => ? ? ?; apply: h; right.
Qed.

Lemma p3 i : i \in S -> is_ok (round3 Z (C i) (x_s2 T i) [seq (m, assoc i (x_o2 T m)) | m <- others i]).2.
Proof.
move=> iS; have [x1 [B [e1 e2 en]]] := r2 hS hT1 hT2 iS; rewrite /round3 !keys_map.
have er : s_round (x_s2 T i) = 3%N by rewrite e2.
rewrite (vsm_others iS er); cbn [bind]; rewrite {1}e2; cbn [s_1 deref bind].
set L := loop3 _ _ _ _ _ _ _; suff : is_ok L by case: L => [[]||].
have [_ _ _ a4 _] := hZ.
apply: loop3_ok => j v hin _; have [jS ne ->] := @In_map_others _ (fun m => assoc i (x_o2 T m)) _ _ _ hin; have [Bj eBj] := hN iS jS; rewrite (Cid' iS).
have ne' : i != j by rewrite eq_sym.
have [_ _ hC] := hS; have [_ _ _ [p1 [p2 [gp eN ek]]] _] := hC _ iS.
have [x2 [B2 [e6 _ /(_ i iS ne') [N' [r2' [r3' [be' [vu' [[a1 a2 a3] [_ _ _ _ a6]]]]]]]]]] := r2 hS hT1 hT2 jS.
have [_ _ _ _ /(_ i iS ne')] := hC _ jS; rewrite a1 => -[eN']; subst N'.
have [[k1 k2 k3 k4] k5 k6 k7 k8] := hd iS jS ne.
have [ct [D [e7 _ ec ed]]] := r1 hS hT1 iS; move: e1; rewrite e7 => -[ex1].
rewrite ec eN in a2 a3; rewrite eN in k1 k2; exists (P2p2 r2' r3'), Bj; split=> //.
- have [+ _] := mta_exact i None gp ek k1 ed a2; by rewrite -ex1 a4 => ->.
- have [+ _] := mta_exact i (Some Bj) gp ek k2 ed a3; by rewrite -ex1 a4 => ->.
by have [? [? [? [? [? [_ [-> -> _ _ _]]]]]]] := en j jS ne.
Qed.

Hypothesis hT3 : stage3 Z S C T.

Lemma p4 i : i \in S -> is_ok (round4 (C i) (x_s3 T i) [seq (m, Some (Some (x_d T m))) | m <- others i]).2.
Proof.
move=> iS; have [y [e1 e2 e3 e4 _]] := r3' hs hS hT1 hT2 hT3 iS; rewrite /round4 !keys_map.
have er : s_round (x_s3 T i) = 4%N by rewrite e1.
rewrite (vsm_others iS er) e1; cbn [bind s_3 s_1 deref fst].
set L := sum_loop _ _ _; suff : is_ok L by case: L => [?||].
rewrite /L; move: (x_d T i); elim: (others i) => //= a l IH d; case: eqP => // _; exact: IH.
Qed.

Hypothesis hT4 : stage4 S C T.

Lemma commit_stored i : i \in S -> exists cr, size cr = 32%N /\ b1_C (x_b1 T i) = hmac H blk cr (penc (x_g T i *: g)) /\
  x_D T i = Witness (penc (x_g T i *: g)) cr.
Proof.
move=> iS; have [e _] := hT1 iS; move: e; rewrite /round1; have -> : (s_round (st0 G) != 1%N) = false by [].
case E: (bind _ _) => [[[y b] p]||] // [e1 e2 e3].
binv2 E Ci Di eC E1; binv E1 ct ect E2; binv2 E2 pf pp ep E3; case: E3 => e4 e5 e6.
have eD : x_D T i = Di.
  have [e _] := hT4 iS; move: e; rewrite /round4; case E: (bind _ _) => [[d D]||] // [_ e7]; subst D.
  binv E u ev E1; binv E1 ds ed E2; binv E2 xx exx E3; binv E3 d' ed' E4; case: E4 => _ <-.
  have := derefE exx; have [y' [e8 _ _ _ _]] := r3' hs hS hT1 hT2 hT3 iS; rewrite e8 => -[<-].
  have [x1 [B [e9 e10 _]]] := r2 hS hT1 hT2 iS.
  have [yy [sg [al [mu [be [vu [f1 f2 _ _ _]]]]]]] := r3 hs hS hT1 hT2 hT3 iS.
  by move: e8; rewrite f1 => -[<-]; move: f2; rewrite e10 => -[<-]; move: e9; rewrite -e1 => -[<-]; rewrite -e4.
move: eC; rewrite /commit; case: (x_cr T i) => // cr; case: eqP => // sc [e7 e8].
by exists cr; rewrite -e2 -e5 eD -e8 /= -e7.
Qed.

Lemma p5 i rnd : i \in S -> (\sum_(j <- S) x_k T j) * (\sum_(j <- S) x_g T j) != 0 ->
  is_ok (round5 g pdec H blk Z (C i) (x_s4 T i) [seq (m, Some (Some (x_D T m))) | m <- others i] rnd).2.
Proof.
move=> iS nz; have [y [e1 e2 e3 _]] := r4 hs hS hT1 hT2 hT3 hT4 iS; rewrite /round5 !keys_map.
have er : s_round (x_s4 T i) = 5%N by rewrite e1.
rewrite (vsm_others iS er) e1; cbn [bind s_3 s_1 s_delta s_2 deref fst].
set L := loop5 _ _ _ _ _ _ _; have [R0 ->] : exists R0, L = Ok R0.
  apply: isok; rewrite /L.
  have : {subset others i <= others i} by [].
  move: (s_gamma y *: g); elim: {1 3}(others i) => //= a l IH P hsub.
  case: eqP => [_|/eqP ne]; first by apply: IH => b bl; apply: hsub; rewrite inE bl orbT.
  have : a \in others i by apply: hsub; rewrite inE eqxx.
  rewrite mem_filter => /andP [ne' aS]; have [cr [sc [eC ->]]] := commit_stored aS.
  have [x1 [B [_ e5 /(_ a aS ne') [? [? [? [? [? [_ [_ _ _ -> _]]]]]]]]]] := r2 hS hT1 hT2 iS.
  cbn [odflt oapp wmsg deref bind].
  have -> : copen H blk (b1_C (x_b1 T a)) (Witness (penc (x_g T a *: g)) cr) = Ok true.
    by rewrite /copen eC /= /hmac hH /= eqxx.
  have [_ pK _ _] := hp; cbn [bind negb]; rewrite pK; apply: IH => b bl; apply: hsub; by rewrite inE bl orbT.
cbn [bind]; rewrite (negbTE nz).
have [_ _ _ _ [a1 _]] := hZ; set R := _ *: R0; set Rb := _ *: R.
rewrite (htr iS); case: (tr); first by have [p ->] := isok (a1 0%N (sN (c_sk (C i))) (s_k y) (s_ri y) (s_ci y) Rb R (rnd 0%N)).
by have [p ->] := isok (prove_all_ok (c_id (C i)) (c_cosigners (C i)) (fun id => a1 id (sN (c_sk (C i))) (s_k y) (s_ri y) (s_ci y) Rb R (rnd id))).
Qed.

Hypothesis hT5 : stage5 g pdec H blk Z S C T.

Lemma b5_proof_ok i : i \in S -> c_trusted (C i) -> exists p, b5_proof (x_b5 T i) = Some p.
Proof.
move=> iS t; have [e _] := hT5 iS; move: e; rewrite /round5.
case E: (bind _ _) => [[[[R Rb] pf] pp]||] // [_ <- _].
binv E u ev E1; binv E1 y ey E2; binv E2 R0 eR E3; binv E3 d ed E4; move: E4; case: ifP => // _ E4.
binv2 E4 pf' pp' ep E5; case: E5 => _ _ <- _; move: ep; rewrite t => ep; binv ep p0 ep0 ep1; case: ep1 => <- _; by exists p0.
Qed.

Lemma p6 i : i \in S -> (be_val hash < q)%N ->
  is_ok (round6 g q xc Z (C i) (x_s5 T i) hash [seq (m, Some (x_b5 T m)) | m <- others i] (pZ i)).2.
Proof.
move=> iS hq; have [y [d0 e1 e2 _]] := r5 hs hp hS hT1 hT2 hT3 hT4 hT5 iS; rewrite /round6 keys_pZ keys_map.
have er : s_round (x_s5 T i) = 6%N by rewrite e1.
rewrite (vsm_others iS er); cbn [bind].
have -> : (if c_trusted (C i) then Ok tt else Ok tt) = Ok tt by case: ifP.
rewrite e1; cbn [bind s_1 s_R s_3 s_2 deref fst snd].
set k := \sum_(j <- S) x_k T j in d0 e1 *.
have kn : k != 0 by move: d0; rewrite mulf_eq0 negb_or => /andP [].
set l := [seq _ | m <- others i]; set V0 := x_k T i *: _.
have E : loop6 Z (C i) (s_cj (s_2 (x_s2 T i))) (k^-1 *: g) (pZ i) l V0 = Ok (V0 + \sum_(j <- others i) b5_Rbar (x_b5 T j)).
  have [_ _ _ _ [_ a6]] := hZ.
  have : {subset others i <= others i} by [].
  rewrite /l; elim: {1 3 4}(others i) (V0) => [|a r IH] W hsub /=; first by rewrite big_nil addr0.
  have aO : a \in others i by apply: hsub; rewrite inE eqxx.
  move: (aO); rewrite mem_filter (Cid' iS) => /andP [ne' aS]; rewrite (negbTE ne').
  have [_ _ hC] := hS; have [_ _ _ _ /(_ a aS ne') ->] := hC _ iS; cbn [bind deref].
  have [pf ->] : exists pf, (if c_trusted (C i) then b5_proof (x_b5 T a) else assoc a (pZ i)) = Some pf.
    move: (b5_proof_ok aS); rewrite (htr iS) (htr aS); case: (tr) => h; first exact: h.
    by exists z0; rewrite assoc_map aO.
  rewrite /= a6 /= IH ?big_cons ?addrA // => b bl; apply: hsub; by rewrite inE bl orbT.
rewrite E; cbn [bind].
have -> : V0 + \sum_(j <- others i) b5_Rbar (x_b5 T j) = g.
  have -> : \sum_(j <- others i) b5_Rbar (x_b5 T j) = \sum_(j <- S | j != i) x_k T j *: (k^-1 *: g).
    rewrite big_filter big_seq_cond [RHS]big_seq_cond; apply: eq_bigr => j /andP [jS _].
    by have [? [_ _ _ ->]] := r5 hs hp hS hT1 hT2 hT3 hT4 hT5 jS.
  have [uS _ _] := hS.
  rewrite /V0 -scaler_suml -scalerDl.
  have -> : x_k T i + \sum_(j <- S | j != i) x_k T j = k by rewrite /k [RHS](bigD1_seq i).
  by rewrite scalerA mulfV // scale1r.
by rewrite eqxx /= leqNgt hq.
Qed.
End P.

(** Honest executions exist for every signing set as in C36_sign_correct with consistent public shares, all
    draws in range with masked products that fit, nonzero k and gamma sums and a hash below the order, if the
    provers succeed and the verifiers accept. *)
Theorem C36_runs_exist : forall (F : fieldType) (G : lmodType F) (g : G) q val xc yodd penc pdec H blk zk (Z : zkf F G zk) (z0 : zk),
  scalars q val -> points g xc yodd penc pdec -> accepting Z -> (forall b, size (H b) = 32%N) ->
  forall tr S C N x hash, signers g S C N x -> (forall i, i \in S -> c_trusted (C i) = tr) ->
  (forall i j, i \in S -> j \in S -> exists B, assoc j (c_pub (C i)) = Some B) ->
  forall (k gam : nat -> F) (cr : nat -> bytes) (r : nat -> nat) (dr : nat -> nat -> draw2),
  (\sum_(j <- S) k j) * (\sum_(j <- S) gam j) != 0 -> (be_val hash < q)%N ->
  (forall i, i \in S -> [/\ size (cr i) = 32%N, (val (k i) < N i)%N, (0 < r i < N i)%N & coprime (r i) (N i)]) ->
  (forall i j, i \in S -> j \in S -> j != i ->
    [/\ [/\ coprime (d_br (dr j i)) (N i), coprime (d_wr (dr j i)) (N i),
         (val (k i) * val (gam j) + d_bt (dr j i) < N i)%N & (val (k i) * val (c_w (C j)) + d_wt (dr j i) < N i)%N],
      (0 < d_br (dr j i) < N i)%N, (0 < d_wr (dr j i) < N i)%N, (val (gam j) < N i)%N & (val (c_w (C j)) < N i)%N]) ->
  exists T, [/\ honest_run g q val xc penc pdec H blk Z S C N hash T, x_k T = k, x_g T = gam &
    forall i, i \in S -> from_others i (Some \o x_si T) (x_in7 T i) /\
      (forall j, (j \in map fst (x_in7 T i)) = (j \in S) && (j != i))].
Proof.
move=> F G g q val xc yodd penc pdec H blk zk Z z0 hs hp hZ hH tr S C N x hash hS htr hN k gam cr r dr nz hq hr hd.
have [uS _ _] := hS.
pose rn := fun _ : nat => 0%N.
have fm (V : Type) (f : nat -> V) i : from_others i f [seq (m, Some (f m)) | m <- others S i].
  split; first by rewrite keys_map filter_uniq.
  by move=> j v h; have [_ _] := @In_map_others S _ (fun m => Some (f m)) _ _ _ h.
(* one outcome per signer gives functions *)
have okf (A B : Type) (dA : A) (dB : B) (p : nat -> A * outcome B) : (forall i, i \in S -> is_ok (p i).2) ->
    exists (a : nat -> A) (b : nat -> B), forall i, i \in S -> p i = (a i, Ok (b i)).
  move=> h; exists (fun i => (p i).1), (fun i => if (p i).2 is Ok b then b else dB) => i /h.
  by case: (p i) => a [].
pose mk s1 (b1 : nat -> bcast1 zk * seq (nat * zk)) s2 (o2 : nat -> seq (nat * p2p2 zk)) s3 (d : nat -> F) s4 (D : nat -> witness)
    s5 (b5 : nat -> bcast5 G zk * seq (nat * zk)) s6 (si : nat -> F) :=
  @Exec F G zk k gam (fun i => Some (cr i)) r (fun _ => rn) s1 (fun i => (b1 i).1) (fun i => (b1 i).2)
  (fun i => [seq (m, Some (b1 m).1) | m <- others S i]) (fun i => [seq (j, z0) | j <- others S i]) dr s2 o2
  (fun i => [seq (m, assoc i (o2 m)) | m <- others S i]) s3 d
  (fun i => [seq (m, Some (Some (d m))) | m <- others S i]) s4 D
  (fun i => [seq (m, Some (Some (D m))) | m <- others S i]) (fun _ => rn) s5 (fun i => (b5 i).1) (fun i => (b5 i).2)
  (fun i => [seq (m, Some (b5 m).1) | m <- others S i]) (fun i => [seq (j, z0) | j <- others S i]) s6 si
  (fun i => [seq (m, Some (Some (si m))) | m <- others S i]).
pose dS := fun _ : nat => st0 G.
pose dF := fun _ : nat => 0 : F.
pose dD := fun _ : nat => Witness [::] [::].
pose d2 := fun _ : nat => [::] : seq (nat * p2p2 zk).
pose d5 := fun _ : nat => (Bcast5 0 None, [::]) : bcast5 G zk * seq (nat * zk).
have [s1 [b1 e1]] := okf _ _ (st0 G) (Bcast1 [::] None None, [::])
  (fun i => round1 g val penc H blk Z (C i) (st0 G) (k i) (gam i) (Some (cr i)) (r i) rn)
  (fun i iS => let: And4 a1 a2 a3 a4 := hr i iS in @p1 F G g val penc H blk zk Z hZ S C N x hS i (k i) (gam i) (cr i) (r i) rn iS a1 a2 a3).
have h1 s2 o2 s3 d s4 D s5 b5 s6 si : stage1 g val penc H blk Z S C N (mk s1 b1 s2 o2 s3 d s4 D s5 b5 s6 si).
  move=> i iS; have [a1 a2 a3 a4] := hr _ iS; split; last exact: a4.
  rewrite /mk; cbn [x_k x_g x_cr x_r x_z1 x_s1 x_b1 x_q1]; rewrite (e1 i iS); by case: (b1 i).
have hdT s2 o2 s3 d s4 D s5 b5 s6 si : draws_ok val S C N (mk s1 b1 s2 o2 s3 d s4 D s5 b5 s6 si) by exact: hd.
have [s2 [o2 e2]] := okf _ _ (st0 G) [::] (fun i => round2 val Z (C i) (s1 i) _ _ (dr i))
  (fun i iS => p2 hZ z0 hS htr hN (hdT dS d2 dS dF dS dD dS d5 dS dF) (h1 dS d2 dS dF dS dD dS d5 dS dF) iS).
have h2 s3 d s4 D s5 b5 s6 si : stage2 val Z S C N (mk s1 b1 s2 o2 s3 d s4 D s5 b5 s6 si).
  move=> i iS; split; [exact: e2|exact: (fm _ (fun i => (b1 i).1))|by move=> j jS ne; have [[? ? ? ?] _ _ _ _] := hd _ _ iS jS ne].
have [s3 [d e3]] := okf _ _ (st0 G) 0 (fun i => round3 Z (C i) (s2 i) _)
  (fun i iS => p3 hZ hS hN (hdT s2 o2 dS dF dS dD dS d5 dS dF) (h1 s2 o2 dS dF dS dD dS d5 dS dF) (h2 dS dF dS dD dS d5 dS dF) iS).
have h3 s4 D s5 b5 s6 si : stage3 Z S C (mk s1 b1 s2 o2 s3 d s4 D s5 b5 s6 si).
  move=> i iS; split; first exact: e3; split; first by rewrite keys_map filter_uniq.
  by move=> j v h; have [_ _] := @In_map_others S _ (fun m => assoc i (o2 m)) _ _ _ h.
have [s4 [D e4]] := okf _ _ (st0 G) (Witness [::] [::]) (fun i => round4 (C i) (s3 i) _)
  (fun i iS => p4 hs hS (h1 s2 o2 s3 d dS dD dS d5 dS dF) (h2 s3 d dS dD dS d5 dS dF) (h3 dS dD dS d5 dS dF) iS).
have h4 s5 b5 s6 si : stage4 S C (mk s1 b1 s2 o2 s3 d s4 D s5 b5 s6 si).
  by move=> i iS; split; [exact: e4|exact: (fm _ (fun m => Some (d m)))].
have [s5 [b5 e5]] := okf _ _ (st0 G) (Bcast5 0 None, [::]) (fun i => round5 g pdec H blk Z (C i) (s4 i) _ rn)
  (fun i iS => p5 hs hp hZ hH hS htr (h1 s2 o2 s3 d s4 D dS d5 dS dF) (h2 s3 d s4 D dS d5 dS dF) (h3 s4 D dS d5 dS dF) (h4 dS d5 dS dF) rn iS nz).
have h5 s6 si : stage5 g pdec H blk Z S C (mk s1 b1 s2 o2 s3 d s4 D s5 b5 s6 si).
  move=> i iS; split; last exact: (fm _ (fun m => Some (D m))).
  by rewrite /mk; cbn [x_s4 x_in5 x_z5 x_s5 x_b5 x_q5]; rewrite (e5 i iS); case: (b5 i).
have [s6 [si e6]] := okf _ _ (st0 G) 0 (fun i => round6 g q xc Z (C i) (s5 i) hash _ _)
  (fun i iS => p6 hs hp hZ z0 hS htr (h1 s2 o2 s3 d s4 D s5 b5 dS dF) (h2 s3 d s4 D s5 b5 dS dF) (h3 s4 D s5 b5 dS dF) (h4 s5 b5 dS dF) (h5 dS dF) iS hq).
exists (mk s1 b1 s2 o2 s3 d s4 D s5 b5 s6 si); split=> //.
  split; [split; [exact: h1|exact: h2]|exact: h3|exact: h4|exact: h5|].
  by move=> i iS; split; [exact: e6|exact: (fm _ (fun i => (b5 i).1))].
move=> i iS; split; first exact: (fm _ (fun m => Some (si m))).
by move=> j; rewrite keys_map mem_filter andbC.
Qed.
Print Assumptions C36_runs_exist.

(** non-vacuity: two signers over F257 with Paillier moduli 17*19, sharing the secret 5 *)
Lemma scalars257 : scalars 257 (fun x : F257 => x : nat).
Proof. by split=> // [c|n]; [exact: natr_Zp | rewrite /F257 /= val_Fp_nat]. Qed.
Lemma points257 : points g257 xc257 yodd257 (fun P => [:: (P : F257) : nat]) (fun b => Some ((head 0%N b)%:R : F257)).
Proof.
have [_ _ _ _ [_ h1 h2]] := curve257; split=> //; first exact: base257.
by move=> P /=; congr Some; exact: natr_Zp.
Qed.
Definition zk257 : zkf F257 G257 unit :=
  Zkf (fun _ _ _ _ _ _ => Ok tt) (fun _ _ _ _ => Ok tt) (fun _ _ _ _ _ _ _ _ _ => Ok tt) (fun _ _ _ _ _ _ => Ok tt)
      (fun _ _ _ _ _ _ _ _ => Ok tt) (fun _ _ _ _ _ _ => Ok tt).
Lemma accepting257 : accepting zk257.
Proof. by split. Qed.
Lemma good1719 : good_primes 17 19. Proof. by vm_compute. Qed.

Lemma size_line (F : fieldType) (a b : F) : (size (a%:P + b *: 'X : {poly F})%R <= 2)%N.
Proof.
apply: leq_trans (size_add _ _) _; rewrite geq_max (leq_trans (size_polyC_leq1 _)) //.
by apply: leq_trans (size_scale_leq _ _) _; rewrite size_polyX.
Qed.
Lemma line0 (F : fieldType) (a b : F) : (a%:P + b *: 'X).[0] = a. Proof. by rewrite !hornerE. Qed.

Example C36_hyps : exists (p : {poly F257}) C T (S := [:: 1; 2]%N) (N := fun _ : nat => (17 * 19)%N),
  [/\ signers g257 S C N p.[0], p.[0] = 5%:R,
      honest_run g257 257 (fun x : F257 => x : nat) xc257 (fun P => [:: (P : F257) : nat]) (fun b => Some ((head 0%N b)%:R : F257))
        (fun _ => nseq 32 0%N) 64 zk257 S C N [:: 3%N] T,
      (forall i, i \in S -> forall P h sg, c_verify (C i) P h sg = true) &
      forall i, i \in S -> from_others i (Some \o x_si T) (x_in7 T i) /\
      (forall j, (j \in map fst (x_in7 T i)) = (j \in S) && (j != i))].
Proof.
pose p := (5%:R)%:P + 3%:R *: 'X : {poly F257}; exists p.
have [sk [esk _]] := C20_paillier_decrypt_encrypt good1719.
have inj : {in gtn 256%N &, injective (fun n => n%:R : F257)}.
  move=> a b ha hb e; have := natr257 a b; rewrite e eqxx.
  by rewrite (modn_small (leq_trans ha (leqnSn 256))) (modn_small (leq_trans hb (leqnSn 256))) => /esym/eqP.
have sp : (size p <= 2)%N.
  exact: size_line.
pose sh := [:: (1%N, Some (p.[1%:R] *: g257)); (2%N, Some (p.[2%:R] *: g257))].
pose N := fun _ : nat => (17 * 19)%N.
have [|C [hC hc]] := @C36_prepare_signers F257 G257 g257 inj p [:: 1; 2]%N N (fun _ => sk) (fun _ _ _ => true) false (fun _ => sh)
  (fun _ => [:: (1%N, (17 * 19)%N); (2%N, (17 * 19)%N)]) isT isT isT sp.
  move=> i _; split.
  - exact: perm_refl.
  - by move=> j v /= [[<- <-]|[[<- <-]|[]]].
  - by exists 17%N, 19%N; split; [exact: good1719|exact: erefl|exact: esk].
  by move=> j; rewrite !inE => /orP [/eqP ->|/eqP ->] _; exact: erefl.
have vl (x : F257) : ((x : nat) <= 256)%N by rewrite -ltnS; exact: val257.
have [||||||||T [hT _ _ h7]] := @C36_runs_exist F257 G257 g257 257 _ xc257 yodd257 _ _ (fun _ => nseq 32 0%N) 64 unit zk257 tt scalars257 points257
  _ _ false [:: 1; 2]%N C N p.[0] [:: 3%N] hC _ _ (fun _ => 1) (fun _ => 1) (fun _ => nseq 32 0%N) (fun _ => 1%N) (fun _ _ => Draw2 1 1 0 1 1 0).
- exact: accepting257.
- by move=> b; rewrite size_nseq.
- by move=> i /hc [].
- by move=> i j iS jS; have [_ /(_ j jS) e _ _] := hc _ iS; eexists; exact: e.
- by rewrite !big_cons !big_nil addr0 -(natrD _ 1 1) -natrM (natr257 4 0).
- exact: (isT : be_val [:: 3%N] < 257)%N.
- move=> i iS; split; [by rewrite size_nseq|exact: isT|exact: isT|exact: coprime1n].
- move=> i j iS jS ne; have h := vl (c_w (C j)).
  split; [split; [exact: coprime1n|exact: coprime1n|exact: isT|]|exact: isT|exact: isT|exact: isT|].
    by apply: (@leq_ltn_trans (1 * 256 + 1)%N); rewrite ?leq_add2r ?leq_mul2l.
  by apply: (leq_ltn_trans h).
exists C, T; split; [exact: hC|exact: line0|exact: hT| |exact: h7].
by move=> i iS P h sg; have [_ _ -> _] := hc _ iS.
Qed.

Example C35_hyps : exists sk c1 rs beta, [/\ new_secret_key 17 19 = Ok sk,
   decrypt sk (Some (Posz c1)) = Ok ((2%:R : F257) : nat),
   respond (fun x : F257 => x : nat) zk257 1 (17 * 19) (3%:R : F257) (Some (Posz c1)) None 5 1 0 = Ok (rs, beta) &
   ((2%:R : F257) * (3%:R : F257) + 5 < 17 * 19)%N].
Proof.
have [sk [esk [_ D]]] := C20_paillier_decrypt_encrypt good1719.
have [c1 [_ e1]] := D 2%N 1%N isT isT (coprime1n _).
have v2 : ((2%:R : F257) : nat) = 2%N by have [_ _ ->] := scalars257.
have v3 : ((3%:R : F257) : nat) = 3%N by have [_ _ ->] := scalars257.
have h3 : ((3%:R : F257) < 17 * 19)%N by rewrite v3.
have [[rs beta] e2] := isok (respond_ok accepting257 1 (val := fun x : F257 => x : nat) None 0 good1719 esk e1 h3
  (isT : 5 < 17 * 19)%N (isT : 0 < 1 < 17 * 19)%N (coprime1n _)).
exists sk, c1, rs, beta; split; [exact: esk|by rewrite v2|exact: e2|by rewrite v2 v3].
Qed.
