(** C35-C38: MtA and threshold signing of GG20. *)
From mathcomp Require Import all_ssreflect all_algebra zify.
From Verif Require Import Lib.Res Lib.Bytes Lib.Inst Core.HashModel Core.HashProofs Gennaro.Model Paillier.Model Paillier.Proofs Paillier.Props
  Dkls.SignModel Gg20.SignModel Gg20.SignProofs.
Set Implicit Arguments. Unset Strict Implicit. Unset Printing Implicit Defensive.
Import GRing.Theory.
Local Open Scope ring_scope.

(** scalars modulo q, written as integers below q *)
Definition scalars (F : fieldType) (q : nat) (val : F -> nat) : Prop :=
  [/\ (0 < q)%N, forall c, (val c)%:R = c & forall n, val n%:R = (n %% q)%N].
(** points: a base point of order q, a codec, opposite points have the same x and opposite parities *)
Definition points (F : fieldType) (G : lmodType F) (g : G) (xc : G -> nat) (yodd : G -> bool) (penc : G -> bytes)
  (pdec : bytes -> option G) : Prop :=
  [/\ forall a : F, a *: g = 0 -> a = 0, forall P, pdec (penc P) = Some P, forall P, xc (- P) = xc P &
      forall P, P <> 0 -> yodd (- P) = ~~ yodd P].

(** C35.  The MtA response to a ciphertext of [a] by a party holding [b], with mask [bt] and nonce coprime to
    N, sent back to the key owner: the owner's Finalize returns exactly what the proof check returns, and on
    acceptance the additive shares satisfy alpha + beta = a b mod q, provided the masked product fits the
    Paillier modulus.  Every proof system [Z], every signer id and both variants (with and without check). *)
Theorem C35_mta_correct : forall (F : fieldType) (G : lmodType F) q (val : F -> nat) zk (Z : zkf F G zk),
  scalars q val ->
  forall p1 p2 sk, good_primes p1 p2 -> new_secret_key p1 p2 = Ok sk ->
  forall (a b : F) c1 X bt r rnd id id' rs beta, coprime r (p1 * p2) ->
  decrypt sk (Some (Posz c1)) = Ok (val a) -> (val a * val b + bt < p1 * p2)%N ->
  respond val Z id (p1 * p2) b (Some (Posz c1)) X bt r rnd = Ok (rs, beta) ->
  exists alpha, alpha + beta = a * b /\
    finalize Z id' sk c1 X rs = bind (z_v2 Z id' (p1 * p2) c1 (rs_c2 rs) X (rs_proof rs)) (fun _ => Ok alpha).
Proof.
move=> F G q val zk Z [q0 vK vn] p1 p2 sk gp ek a b c1 X bt r rnd id id' rs beta cr ea lt er.
have [e1 e2] := mta_exact id' X gp ek cr ea er.
have [sk' [ek' [eN _]]] := C20_paillier_decrypt_encrypt gp.
move: ek'; rewrite ek => -[esk]; rewrite -esk in eN; rewrite eN in e1.
exists ((val a * val b + bt) %% (p1 * p2))%:R; split=> //.
by rewrite e2 modn_small // natrD natrM !vK addrK.
Qed.
Print Assumptions C35_mta_correct.

(** The proviso cannot be dropped: if the masked product wraps around once, the shares are off by N. *)
Theorem C35_mta_wraps : forall (F : fieldType) (G : lmodType F) q (val : F -> nat) zk (Z : zkf F G zk),
  scalars q val ->
  forall p1 p2 sk, good_primes p1 p2 -> new_secret_key p1 p2 = Ok sk ->
  forall (a b : F) c1 X bt r rnd id id' rs beta alpha, coprime r (p1 * p2) ->
  decrypt sk (Some (Posz c1)) = Ok (val a) -> (p1 * p2 <= val a * val b + bt < 2 * (p1 * p2))%N ->
  ~~ (q %| p1 * p2)%N ->
  respond val Z id (p1 * p2) b (Some (Posz c1)) X bt r rnd = Ok (rs, beta) ->
  finalize Z id' sk c1 X rs = Ok alpha ->
  alpha + beta = a * b - (p1 * p2)%:R /\ alpha + beta <> a * b.
Proof.
move=> F G q val zk Z [q0 vK vn] p1 p2 sk gp ek a b c1 X bt r rnd id id' rs beta alpha cr ea /andP [l1 l2] nq er.
have [-> ->] := mta_exact id' X gp ek cr ea er.
move=> h; binv h u eu h'; case: h' => <-.
have -> : ((val a * val b + bt) %% (p1 * p2) = val a * val b + bt - p1 * p2)%N.
  by rewrite -{1}(subnK l1) modnDr modn_small // ltn_subLR // addnn -mul2n.
rewrite natrB // natrD natrM !vK.
have -> : a * b + bt%:R - (p1 * p2)%:R - bt%:R = a * b - (p1 * p2)%:R :> F by rewrite addrAC addrK.
split=> // /eqP; rewrite subr_eq addrC -subr_eq subrr => /eqP e.
move/negP: nq; apply; rewrite /dvdn -vn -e -[0]/(0%:R) vn; apply/eqP; exact: mod0n.
Qed.
Print Assumptions C35_mta_wraps.

(* ------------------------------------------------------------ honest executions *)
(** The signers [S] with their configurations: [C i] belongs to signer i, knows exactly the others as
    cosigners, has the Paillier key of the modulus [N i] everyone has for i, an additive share of the secret
    [x], and the public key. *)
Definition signers (F : fieldType) (G : lmodType F) (g : G) (S : seq nat) (C : nat -> conf G) (N : nat -> nat) (x : F) : Prop :=
  [/\ uniq S, \sum_(i <- S) c_w (C i) = x &
  forall i, i \in S ->
    [/\ c_id (C i) = i, (forall j, (j \in c_cosigners (C i)) = (j \in S) && (j != i)), c_pk (C i) = x *: g,
        (exists p1 p2, [/\ good_primes p1 p2, N i = (p1 * p2)%N & new_secret_key p1 p2 = Ok (c_sk (C i))]) &
        forall j, j \in S -> j != i -> assoc j (c_pks (C i)) = Some (N j)]].

(** a map passed to a round of signer [i]: one entry per key, and what another signer j sent is [f j] *)
Definition from_others (V : Type) (i : nat) (f : nat -> V) (l : seq (nat * option V)) : Prop :=
  uniq (map fst l) /\ forall j v, List.In (j, v) l -> j != i -> v = Some (f j).

(** Everything that happens in one execution, indexed by the signer *)
Record exec (F : fieldType) (G : lmodType F) (zk : Type) := Exec {
  x_k : nat -> F; x_g : nat -> F; x_cr : nat -> option bytes; x_r : nat -> nat; x_z1 : nat -> nat -> nat;
  x_s1 : nat -> st G; x_b1 : nat -> bcast1 zk; x_q1 : nat -> seq (nat * zk);
  x_in2 : nat -> seq (nat * option (bcast1 zk)); x_p2 : nat -> seq (nat * zk); x_dr : nat -> nat -> draw2;
  x_s2 : nat -> st G; x_o2 : nat -> seq (nat * p2p2 zk);
  x_in3 : nat -> seq (nat * option (p2p2 zk)); x_s3 : nat -> st G; x_d : nat -> F;
  x_in4 : nat -> seq (nat * option (option F)); x_s4 : nat -> st G; x_D : nat -> witness;
  x_in5 : nat -> seq (nat * option (option witness)); x_z5 : nat -> nat -> nat;
  x_s5 : nat -> st G; x_b5 : nat -> bcast5 G zk; x_q5 : nat -> seq (nat * zk);
  x_in6 : nat -> seq (nat * option (bcast5 G zk)); x_p6 : nat -> seq (nat * zk); x_s6 : nat -> st G; x_si : nat -> F;
  x_in7 : nat -> seq (nat * option (option F)) }.

Lemma mask_sum (F : fieldType) (S : seq nat) (a b : nat -> F) (B : nat -> nat -> F) : uniq S ->
  \sum_(i <- S) (a i * b i + \sum_(j <- S | j != i) (a i * b j - B j i + B i j)) = (\sum_(i <- S) a i) * (\sum_(i <- S) b i).
Proof.
move=> uS.
have -> : \sum_(i <- S) (a i * b i + \sum_(j <- S | j != i) (a i * b j - B j i + B i j)) =
  \sum_(i <- S) (a i * (\sum_(j <- S) b j)) + (\sum_(i <- S) \sum_(j <- S | j != i) B i j - \sum_(i <- S) \sum_(j <- S | j != i) B j i).
  rewrite -sumrB -big_split /=; rewrite big_seq [RHS]big_seq; apply: eq_bigr => i iS.
  rewrite -sumrB (bigD1_seq i) //= mulrDr mulr_sumr -addrA; congr (_ + _).
  rewrite -big_split /=; apply: eq_bigr => j _; by rewrite -addrA [- _ + _]addrC.
have -> : \sum_(i <- S) \sum_(j <- S | j != i) B j i = \sum_(i <- S) \sum_(j <- S | j != i) B i j.
  rewrite (exchange_big_dep predT) //=; apply: eq_bigr => i _; apply: eq_bigl => j; by rewrite eq_sym.
by rewrite subrr addr0 mulr_suml.
Qed.

Section Run.
Variables (F : fieldType) (G : lmodType F) (g : G) (q : nat) (val : F -> nat) (xc : G -> nat) (yodd : G -> bool)
  (penc : G -> bytes) (pdec : bytes -> option G) (H : bytes -> bytes) (blk : nat) (zk : Type) (Z : zkf F G zk).

(** The rounds of every signer in [S] succeed, one stage per round, on what the others sent, in any map order,
    each signer with a state only it changes.  The proof maps x_p2, x_p6 are arbitrary.  Nonces are coprime to
    the moduli and the masked products fit. *)
Definition stage1 (S : seq nat) (C : nat -> conf G) (N : nat -> nat) (T : exec G zk) : Prop := forall i, i \in S ->
  round1 g val penc H blk Z (C i) (st0 G) (x_k T i) (x_g T i) (x_cr T i) (x_r T i) (x_z1 T i)
    = (x_s1 T i, Ok (x_b1 T i, x_q1 T i)) /\ coprime (x_r T i) (N i).
Definition stage2 (S : seq nat) (C : nat -> conf G) (N : nat -> nat) (T : exec G zk) : Prop := forall i, i \in S ->
  [/\ round2 val Z (C i) (x_s1 T i) (x_in2 T i) (x_p2 T i) (x_dr T i) = (x_s2 T i, Ok (x_o2 T i)),
      from_others i (x_b1 T) (x_in2 T i) &
      forall j, j \in S -> j != i ->
      [/\ coprime (d_br (x_dr T j i)) (N i), coprime (d_wr (x_dr T j i)) (N i),
         (val (x_k T i) * val (x_g T j) + d_bt (x_dr T j i) < N i)%N &
         (val (x_k T i) * val (c_w (C j)) + d_wt (x_dr T j i) < N i)%N]].
Definition stage3 (S : seq nat) (C : nat -> conf G) (T : exec G zk) : Prop := forall i, i \in S ->
  round3 Z (C i) (x_s2 T i) (x_in3 T i) = (x_s3 T i, Ok (x_d T i)) /\
  uniq (map fst (x_in3 T i)) /\ (forall j v, List.In (j, v) (x_in3 T i) -> j != i -> v = assoc i (x_o2 T j)).
Definition stage4 (S : seq nat) (C : nat -> conf G) (T : exec G zk) : Prop := forall i, i \in S ->
  round4 (C i) (x_s3 T i) (x_in4 T i) = (x_s4 T i, Ok (x_D T i)) /\ from_others i (Some \o x_d T) (x_in4 T i).
Definition stage5 (S : seq nat) (C : nat -> conf G) (T : exec G zk) : Prop := forall i, i \in S ->
  round5 g pdec H blk Z (C i) (x_s4 T i) (x_in5 T i) (x_z5 T i) = (x_s5 T i, Ok (x_b5 T i, x_q5 T i)) /\
  from_others i (Some \o x_D T) (x_in5 T i).
Definition stage6 (S : seq nat) (C : nat -> conf G) (hash : bytes) (T : exec G zk) : Prop := forall i, i \in S ->
  round6 g q xc Z (C i) (x_s5 T i) hash (x_in6 T i) (x_p6 T i) = (x_s6 T i, Ok (x_si T i)) /\
  from_others i (x_b5 T) (x_in6 T i).
Definition honest_run S C N hash T : Prop :=
  [/\ stage1 S C N T /\ stage2 S C N T, stage3 S C T, stage4 S C T, stage5 S C T & stage6 S C hash T].

Hypotheses (hs : scalars q val) (hp : points g xc yodd penc pdec).
Let q0 : (0 < q)%N. Proof. by case: hs. Qed.
Let valK c : (val c)%:R = c. Proof. by case: hs. Qed.
Let val_nat n : val n%:R = (n %% q)%N. Proof. by case: hs. Qed.
Let pdecK P : pdec (penc P) = Some P. Proof. by case: hp. Qed.

Variables (S : seq nat) (C : nat -> conf G) (N : nat -> nat) (x : F) (hash : bytes) (T : exec G zk).
Hypotheses (hS : signers g S C N x).
Hypothesis hT1 : stage1 S C N T.

Let uS : uniq S. Proof. by case: hS. Qed.
Let Cid i : i \in S -> c_id (C i) = i. Proof. by case: hS => _ _ h /h []. Qed.
Let Ccos i : i \in S -> forall j, (j \in c_cosigners (C i)) = (j \in S) && (j != i). Proof. by case: hS => _ _ h /h []. Qed.

Lemma r1 i : i \in S -> exists ctxt D, [/\ x_s1 T i = St 2 (Some (R1st (x_k T i) (x_g T i) D ctxt (x_r T i))) (R2st [::] [::] [::] [::]) None None None [::] None,
   wmsg D = penc (x_g T i *: g), b1_ctxt (x_b1 T i) = Some (Posz ctxt) & decrypt (c_sk (C i)) (Some (Posz ctxt)) = Ok (val (x_k T i))].
Proof.
move=> iS; have [e cr] := hT1 iS; move: e; rewrite /round1; have -> : (s_round (st0 G) != 1%N) = false by [].
case E: (bind _ _) => [[[y b] p]||] // [e1 e2 e3].
binv2 E Ci Di eC E1; binv E1 ct ect E2; binv2 E2 pf pp ep E3; case: E3 => e4 e5 e6.
have [_ _ h] := hS; have [_ _ _ [p1 [p2 [gp eN ek]]] _] := h _ iS.
have [sk' [ek' [esN D]]] := C20_paillier_decrypt_encrypt gp; move: ek'; rewrite ek => -[esk]; rewrite -esk in esN D.
exists ct, Di; split.
- by rewrite -e1 -e4. - by move: eC; rewrite /commit; case: (x_cr T i) => // ?; case: ifP => // _ [_ <-].
- by rewrite -e2 -e5.
rewrite esN -eN in ect; rewrite -eN in D.
have hm : (val (x_k T i) < N i)%N by move: ect; rewrite /encrypt /in_range; case: ltnP.
have hr : (0 < x_r T i < N i)%N.
  by move: ect; rewrite /encrypt /in_range hm /=; case: (ltnP (x_r T i)) => //= _; case: (x_r T i).
have [c [ec1 ec2]] := D _ _ hm hr cr; move: ec1; rewrite ect => -[->]; exact: ec2.
Qed.

Lemma vsm_keys i s rd K : i \in S -> verify_state_map (C i) s rd K = Ok tt -> uniq K ->
  forall (V : zmodType) (f : nat -> V), \sum_(j <- K | j != i) f j = \sum_(j <- S | j != i) f j.
Proof.
move=> iS /vsm_ok []; rewrite (Cid iS) => _ h1 h2 uK V f.
exact: (big_keys f uS uK (Ccos iS) h1 h2).
Qed.
Lemma vsm_mem i s rd K j : i \in S -> verify_state_map (C i) s rd K = Ok tt -> j \in S -> j != i -> j \in K.
Proof.
move=> iS /vsm_ok [_ _ h2] jS ne; apply: h2; first by rewrite (Ccos iS) jS ne.
by rewrite (Cid iS).
Qed.

Hypothesis hT2 : stage2 S C N T.
Lemma r2 i : i \in S -> exists x1 B, [/\ s_1 (x_s1 T i) = Some x1, x_s2 T i = St 3 (Some x1) (s_2 (x_s2 T i)) None None None [::] None &
  forall j, j \in S -> j != i -> entry2 val Z (C i) x1 B (x_dr T i) (s_2 (x_s2 T i)) (x_o2 T i) j (x_b1 T j)].
Proof.
move=> iS; have [e [ul hl] _] := hT2 iS; have [ct [D [e1 _ _ _]]] := r1 iS.
move: e; rewrite /round2 e1 /=; case E: (bind _ _) => [[x1 B]||] // e.
binv E u1 ev E1; binv E1 u2 e0 E2; clear e0; binv E2 B' eB E3; case: E3 => ex eB'; subst x1 B'.
move: e; case E: (loop2 _ _ _ _ _ _ _ _ _ _) => [acc [out||]] // [e2 e3].
exists (R1st (x_k T i) (x_g T i) D ct (x_r T i)), B; split=> //; first by rewrite -e2.
move=> j jS ne; rewrite -e2 -e3 /=; have [_ h] := loop2E ul E; case: u1 ev => ev.
have /In_keys [v iv] := vsm_mem iS ev jS ne.
by apply: h; rewrite ?(Cid iS) // -(hl _ _ iv ne).
Qed.

Hypothesis hT3 : stage3 S C T.
(** the shares of the products, indexed by the owner of the key and the responder *)
Lemma r3 i : i \in S -> exists y sg al mu be vu,
  [/\ x_s3 T i = St 4 (Some y) (s_2 (x_s2 T i)) (Some (x_d T i, sg)) None None [::] None,
      s_1 (x_s2 T i) = Some y,
      x_d T i = x_k T i * x_g T i + \sum_(j <- S | j != i) (al j + be j),
      sg = x_k T i * c_w (C i) + \sum_(j <- S | j != i) (mu j + vu j) &
      forall j, j \in S -> j != i ->
      [/\ assoc j (s_beta (s_2 (x_s2 T i))) = Some (be j), assoc j (s_vu (s_2 (x_s2 T i))) = Some (vu j),
          exists b, assoc i (s_beta (s_2 (x_s2 T j))) = Some b /\ al j + b = x_k T i * x_g T j &
          exists b, assoc i (s_vu (s_2 (x_s2 T j))) = Some b /\ mu j + b = x_k T i * c_w (C j)]].
Proof.
move=> iS; have [e [ul hl]] := hT3 iS; have [_ _ hd] := hT2 iS; have [x1 [B [e1 e2 en]]] := r2 iS.
have [ct [D [e3 _ ec ed]]] := r1 iS; move: e1; rewrite e3 => -[ex1].
move: e; rewrite /round3; case E: (bind _ _) => [[d sg]||] // [e4 e5]; binv E u1 ev E1; case: u1 ev => ev.
rewrite {1}e2 in E1; cbn [s_1 deref bind] in E1.
subst d.
have hl' : forall j v, List.In (j, v) (x_in3 T i) -> j != c_id (C i) -> v = assoc i (x_o2 T j).
  by move=> j v; rewrite (Cid iS); exact: hl.
have [al [mu [be [vu [h1 h2 h3]]]]] := loop3E hl' E1; rewrite (Cid iS) in h1 h2 h3.
rewrite !(vsm_keys iS ev ul) in h2 h3.
exists x1, sg, al, mu, be, vu; split.
- by rewrite -e4 e2. - by rewrite e2.
- by rewrite -ex1 in h2.
- by rewrite -ex1 in h3.
have [_ _ hC] := hS; have [_ _ _ [p1 [p2 [gp eN ek]]] _] := hC _ iS.
move=> j jS ne; have ne' : i != j by rewrite eq_sym.
have [m [B1 [em f1 f2 b1 b2]]] := h1 j (vsm_mem iS ev jS ne) ne.
have [x2 [B2 [e6 _ /(_ i iS ne') [N' [r2' [r3' [be' [vu' [[a1 a2 a3] [a4 a5 _ _ a6]]]]]]]]]] := r2 jS.
move: em; rewrite a6 => -[em]; subst m.
have [_ _ _ _ /(_ i iS ne')] := hC _ jS; rewrite a1 => -[eN']; subst N'.
have [k1 k2 k3 k4] := hd _ jS ne.
have [ct2 [D2 [e7 _ _ _]]] := r1 jS; move: e6; rewrite e7 => -[ex2].
rewrite ec eN in a2 a3; rewrite eN in k1 k2 k3 k4; rewrite -ex2 in a2; rewrite -ex1 in f1 f2.
split=> //.
  by exists be'; split=> //; exact: (mta_sum valK gp ek k1 ed k3 a2 f1).
by exists vu'; split=> //; exact: (mta_sum valK gp ek k2 ed k4 a3 f2).
Qed.

Let k := \sum_(i <- S) x_k T i.
Let gam := \sum_(i <- S) x_g T i.
Let Be i j : F := odflt 0 (assoc j (s_beta (s_2 (x_s2 T i)))).
Let Vu i j : F := odflt 0 (assoc j (s_vu (s_2 (x_s2 T i)))).
Let sg i := x_k T i * c_w (C i) + \sum_(j <- S | j != i) (x_k T i * c_w (C j) - Vu j i + Vu i j).

Lemma r3' i : i \in S -> exists y,
  [/\ x_s3 T i = St 4 (Some y) (s_2 (x_s2 T i)) (Some (x_d T i, sg i)) None None [::] None,
      s_k y = x_k T i, s_gamma y = x_g T i, wmsg (s_D y) = penc (x_g T i *: g) &
      x_d T i = x_k T i * x_g T i + \sum_(j <- S | j != i) (x_k T i * x_g T j - Be j i + Be i j)].
Proof.
move=> iS; have [y [sg' [al [mu [be [vu [e1 ey e2 e3 h]]]]]]] := r3 iS.
have [ct [D [e4 eD _ _]]] := r1 iS; have [x1 [B [e5 e6 _]]] := r2 iS.
move: e5; rewrite e4 => -[e5]; move: ey; rewrite e6 => -[e7]; rewrite -e7 -e5 in e1.
exists (R1st (x_k T i) (x_g T i) D ct (x_r T i)); split=> //; last first.
  rewrite {1}e2; congr (_ + _); rewrite big_seq_cond [RHS]big_seq_cond; apply: eq_bigr => j /andP [jS ne].
  have [h1 h2 [b [h3 h4]] _] := h _ jS ne; by rewrite /Be h1 h3 /= -h4 addrK.
rewrite e1; congr (St _ _ _ _ _ _ _ _); congr (Some (_, _)); rewrite e3 /sg; congr (_ + _).
rewrite big_seq_cond [RHS]big_seq_cond; apply: eq_bigr => j /andP [jS ne].
have [h1 h2 _ [b [h3 h4]]] := h _ jS ne; by rewrite /Vu h2 h3 /= -h4 addrK.
Qed.

Lemma sum_d : \sum_(i <- S) x_d T i = k * gam.
Proof.
rewrite /k /gam -(mask_sum (x_k T) (x_g T) Be uS) big_seq [RHS]big_seq; apply: eq_bigr => i iS.
by have [y [_ _ _ _ ->]] := r3' iS.
Qed.
Lemma sum_sg : \sum_(i <- S) sg i = k * x.
Proof. by have [_ <- _] := hS; rewrite /k -(mask_sum (x_k T) (fun i => c_w (C i)) Vu uS). Qed.

Hypothesis hT4 : stage4 S C T.
Lemma r4 i : i \in S -> exists y,
  [/\ x_s4 T i = St 5 (Some y) (s_2 (x_s2 T i)) (Some (x_d T i, sg i)) (Some (k * gam)) None [::] None,
      s_k y = x_k T i, s_gamma y = x_g T i & wmsg (x_D T i) = penc (x_g T i *: g)].
Proof.
move=> iS; have [y [e1 e2 e3 e4 _]] := r3' iS; have [e [ul hl]] := hT4 iS.
move: e; rewrite /round4 e1; case E: (bind _ _) => [[d D]||] // [e5 e6]; subst D.
binv E u1 ev E1; case: u1 ev => ev; cbn [s_3 s_1 deref bind fst] in E1; binv E1 d' ed E2; case: E2 => e7 e8.
exists y; split=> //; last by rewrite -e8.
rewrite -e5; congr (St _ _ _ _ _ _ _ _); congr Some; rewrite -e7.
move/(@sum_loopE F _ _ _ _ (x_d T)): ed => ->; last by move=> j v iv; rewrite (Cid iS) => ne; rewrite (hl _ _ iv ne).
by rewrite (Cid iS) (vsm_keys iS ev ul) -sum_d [RHS](bigD1_seq i).
Qed.

Hypothesis hT5 : stage5 S C T.
Lemma r5 i : i \in S -> exists y,
  [/\ k * gam != 0, x_s5 T i = St 6 (Some y) (s_2 (x_s2 T i)) (Some (x_d T i, sg i)) (Some (k * gam)) (Some (k^-1 *: g, x_k T i *: (k^-1 *: g))) [::] None,
      s_k y = x_k T i & b5_Rbar (x_b5 T i) = x_k T i *: (k^-1 *: g)].
Proof.
move=> iS; have [y [e1 e2 e3 _]] := r4 iS; have [e [ul hl]] := hT5 iS.
move: e; rewrite /round5 e1; case E: (bind _ _) => [[[[R Rb] pf] pp]||] // [e5 e6 e7].
binv E u1 ev E1; case: u1 ev => ev; cbn [s_delta s_2 s_1 deref bind fst] in E1; binv E1 R0 eR E2.
cbn [deref bind] in E2; move: E2; case: eqP => // /eqP d0 E2; binv2 E2 pf' pp' ep E3; case: E3 => a1 a2 a3 a4.
have hR : R = k^-1 *: g.
  have eR0 : R0 = gam *: g.
    have := @loop5E F G penc pdec H blk pdecK (c_id (C i)) _ (x_in5 T i) _ _ (fun j => x_g T j *: g) _ eR.
    rewrite (Cid iS) (vsm_keys iS ev ul) => ->; first by rewrite e3 /gam (bigD1_seq i) //= scalerDl scaler_suml.
    move=> j v w iv ne ew; have jS : j \in S.
      by move/vsm_ok: ev => [_ /(_ _ (keys_In iv)) h _]; move: h; rewrite (Cid iS) => /(_ ne); rewrite (Ccos iS) => /andP [].
    by move: (hl _ _ iv ne); rewrite ew => -[->]; have [y' [_ _ _]] := r4 jS.
  rewrite -a1 eR0 scalerA; congr (_ *: _); move: d0; rewrite mulf_eq0 negb_or => /andP [k0 g0].
  by rewrite invfM -mulrA mulVf ?mulr1.
exists y; split=> //; first by rewrite -e5 hR -a2 a1 hR e2.
by rewrite -e6 /= -a2 a1 hR e2.
Qed.

Hypothesis hT6 : stage6 S C hash T.
Lemma r6 i : i \in S ->
  [/\ x_s6 T i = St 7 (s_1 (x_s6 T i)) (s_2 (x_s2 T i)) (Some (x_d T i, sg i)) (Some (k * gam)) (Some (k^-1 *: g, x_k T i *: (k^-1 *: g))) hash (Some (x_si T i)),
      (be_val hash < q)%N & x_si T i = (be_val hash)%:R * x_k T i + (xc (k^-1 *: g))%:R * sg i].
Proof.
move=> iS; have [y [d0 e1 e2 _]] := r5 iS; have [e _] := hT6 iS.
move: e; rewrite /round6 e1; case E: (bind _ _) => [si||] // [e5 e6]; subst si.
binv E u1 ev E1; binv E1 u2 ev2 E2; cbn [s_1 s_2 s_3 s_R deref bind fst snd] in E2; binv E2 V eV E3.
move: E3; case: eqP => //= _; case: leqP => //= hq [esi]; rewrite -e5 -e2 esi; split=> //.
Qed.

Lemma sum_s : \sum_(i <- S) x_si T i = k * ((be_val hash)%:R + (xc (k^-1 *: g))%:R * x).
Proof.
have -> : \sum_(i <- S) x_si T i = \sum_(i <- S) ((be_val hash)%:R * x_k T i + (xc (k^-1 *: g))%:R * sg i).
  by rewrite big_seq [RHS]big_seq; apply: eq_bigr => i iS; have [_ _ ->] := r6 iS.
by rewrite big_split /= -!mulr_sumr sum_sg mulrDr [k * _%:R]mulrC [k * (_ * _)]mulrCA.
Qed.

Lemma out i : i \in S -> let sum := \sum_(i <- S) x_si T i in let s0 := val sum in let s1 := normalize_s q s0 in
  let sigma := (yodd (k^-1 *: g) (+) (s0 != s1), xc (k^-1 *: g), s1) in
  verify_state_map (C i) (x_s6 T i) 7 (map fst (x_in7 T i)) = Ok tt -> from_others i (Some \o x_si T) (x_in7 T i) ->
  sign_output q val xc yodd (C i) (x_s6 T i) (x_in7 T i) = if c_verify (C i) (c_pk (C i)) hash sigma then Ok sigma else Err.
Proof.
move=> iS sum s0 s1 sigma ev [ul hl]; have [e1 _ _] := r6 iS.
rewrite /sign_output ev e1; cbn [s_si s_R s_hash deref bind fst].
have -> : sum_loop (c_id (C i)) (x_in7 T i) (x_si T i) = Ok sum; last by [].
apply/(@sum_loopE F _ _ _ _ (x_si T)); first by move=> j v iv; rewrite (Cid iS) => ne; rewrite (hl _ _ iv ne).
by rewrite (Cid iS) (vsm_keys iS ev ul) /sum (bigD1_seq i).
Qed.

Lemma k_nz i : i \in S -> k != 0.
Proof. by move=> iS; have [y [d0 _ _ _]] := r5 iS; move: d0; rewrite mulf_eq0 negb_or => /andP []. Qed.
End Run.

(** C36.  In every execution of the six rounds by an honest signing set (any number of signers, any ids, any
    draws, any map order, any proof system), all signers hold the same R = k^-1 G, the shares s_i add up to
    k (m + r x), and SignOutput returns, unless the verify callback refuses it, the triple (v, r, s) where
    s is at most q/2; when x(R) is below the order and r, s are not zero this is a valid ECDSA signature of the
    hash under the public key and v is the parity of the y coordinate of the point the verifier recomputes. *)
Theorem C36_sign_correct : forall (F : fieldType) (G : lmodType F) (g : G) q val xc yodd penc pdec H blk zk (Z : zkf F G zk),
  scalars q val -> points g xc yodd penc pdec ->
  forall S C N x hash T, signers g S C N x -> honest_run g q val xc penc pdec H blk Z S C N hash T ->
  forall i, i \in S -> from_others i (Some \o x_si T) (x_in7 T i) ->
  map fst (x_in7 T i) =i S \/ (forall j, (j \in map fst (x_in7 T i)) = (j \in S) && (j != i)) ->
  let k := \sum_(j <- S) x_k T j in
  let r := xc (k^-1 *: g) in let e := be_val hash in
  exists v s, [/\ k != 0, (e < q)%N, (s <= q %/ 2)%N,
    s%:R = k * (e%:R + r%:R * x) \/ s%:R = - (k * (e%:R + r%:R * x)) &
    sign_output q val xc yodd (C i) (x_s6 T i) (x_in7 T i) =
      (if c_verify (C i) (x *: g) hash (v, r, s) then Ok (v, r, s) else Err) /\
    ((0 < r < q)%N -> s <> 0%N ->
      ecdsa_verify g q xc (x *: g) e r s /\
      v = yodd ((e%:R / s%:R) *: g + (r%:R / s%:R) *: (x *: g)))].
Proof.
move=> F G g q val xc yodd penc pdec H blk zk Z hs hp S C N x hash T hS [[hT1 hT2] hT3 hT4 hT5 hT6] i iS ho hk k r e.
have kn : k != 0 := k_nz hs hp hS hT1 hT2 hT3 hT4 hT5 iS.
have [es6 eq _] := r6 hs hp hS hT1 hT2 hT3 hT4 hT5 hT6 iS.
have [[q0 vK vn] [gok pK xN yN]] := (hs, hp).
have vlt c : (val c < q)%N by rewrite -[c]vK vn ltn_mod.
have q0F : (q%:R : F) = 0 by rewrite -[_%:R]vK vn modnn.
have [_ _ /(_ i iS) [ci cc cp _ _]] := hS.
have ev : verify_state_map (C i) (x_s6 T i) 7 (map fst (x_in7 T i)) = Ok tt.
  apply/vsm_ok; rewrite es6 ci; split=> // j; first by rewrite cc => jk ne; case: hk => h; move: jk; rewrite h ?ne ?andbT // => ->.
  by rewrite cc => /andP [jS ne] _; case: hk => ->; rewrite ?jS ?ne.
have := out hs hp hS hT1 hT2 hT3 hT4 hT5 hT6 iS ev ho; rewrite (sum_s hs hp hS hT1 hT2 hT3 hT4 hT5 hT6) -/k -/r -/e cp.
set sum := k * _; set s0 := val sum; set s1 := normalize_s q s0; set v := _ (+) _ => eo.
exists v, s1; split=> //.
- rewrite /s1 /normalize_s; case: ltnP => // h; rewrite leq_subLR.
  have := divn_eq q 2; have := @ltn_pmod q 2 isT; move: h; rewrite ltnS; lia.
- rewrite /s1 /normalize_s; case: ltnP => h; [right|left]; last exact: vK.
  by rewrite natrB ?(ltnW (vlt _)) // q0F sub0r vK.
split=> // hr s1n.
have kg : k^-1 *: g <> 0 by move/gok/eqP; rewrite invr_eq0 (negbTE kn).
have s1q : (0 < s1 < q)%N.
  rewrite lt0n; apply/andP; split; first exact/eqP.
  rewrite {1}/s1 /normalize_s; case: (ltnP (q %/ 2) s0) => h; last exact: (vlt sum).
  by rewrite ltn_subrL q0 andbT; apply: leq_ltn_trans h.
have pt (s' k' : F) : s' != 0 -> k' != 0 -> s' = k' * (e%:R + r%:R * x) ->
  ((e%:R / s') *: g + (r%:R / s') *: (x *: g)) = k'^-1 *: g.
  move=> s'n k'n e'; rewrite scalerA -scalerDl; congr (_ *: _).
  by rewrite [r%:R / s' * x]mulrAC -mulrDl; apply: (mulfI k'n); rewrite mulrA -e' !mulfV.
have s1F : (s1%:R : F) != 0.
  apply/eqP => z; move: (congr1 val z); rewrite vn -[0]/(0%:R) vn mod0n modn_small; last by case/andP: s1q.
  by move: s1n; case: (s1).
have pt1 : (e%:R / s1%:R) *: g + (r%:R / s1%:R) *: (x *: g) = (if (q %/ 2 < s0)%N then - (k^-1 *: g) else k^-1 *: g) :> G.
  move: s1F; rewrite /s1 /normalize_s; case: ltnP => h s1F.
    rewrite (pt _ (- k)) ?oppr_eq0 // ?invrN ?scaleNr //.
    by rewrite natrB ?(ltnW (vlt _)) // q0F sub0r vK mulNr.
  by rewrite (pt _ k) // vK.
split.
  rewrite /ecdsa_verify pt1 hr s1q /=; apply/andP; split; first by case: ifP => _; rewrite ?oppr_eq0; apply/eqP.
  have -> : xc (if (q %/ 2 < s0)%N then - (k^-1 *: g) else k^-1 *: g) = r by case: ifP => _; rewrite ?xN.
  by rewrite modn_small //; case/andP: hr.
rewrite pt1 /v /s1 /normalize_s; case: ltnP => h; last by rewrite eqxx addbF.
have -> : (s0 != q - s0)%N = true; last by rewrite yN // addbT.
apply/eqP => e0; have := divn_eq q 2; have := @ltn_pmod q 2 isT; have := vlt sum; rewrite -/s0; move: e0 h.
by clear; clearbody s0; lia.
Qed.
Print Assumptions C36_sign_correct.

(** C37.  A signer whose verify callback accepts everything (that is what NewSigner installs): after an honest
    run, SignOutput succeeds on every map of values from the cosigners, whatever they sent.  The returned s is
    the normalised sum; it verifies exactly if the point (s/s') R has the x coordinate r modulo q, s being the
    sum of the honest values. *)
Theorem C37_output_any_sum : forall (F : fieldType) (G : lmodType F) (g : G) q val xc yodd penc pdec H blk zk (Z : zkf F G zk),
  scalars q val -> points g xc yodd penc pdec ->
  forall S C N x hash T, signers g S C N x -> honest_run g q val xc penc pdec H blk Z S C N hash T ->
  forall i, i \in S -> (forall P h sg, c_verify (C i) P h sg = true) ->
  forall (f : nat -> F) l, from_others i (fun j => Some (f j)) l -> (forall j, (j \in map fst l) = (j \in S) && (j != i)) ->
  let k := \sum_(j <- S) x_k T j in
  let R := k^-1 *: g in let sum := x_si T i + \sum_(j <- S | j != i) f j in
  let s := \sum_(j <- S) x_si T j in
  exists v s', [/\ sign_output q val xc yodd (C i) (x_s6 T i) l = Ok (v, xc R, s'),
    s' = val sum \/ s' = (q - val sum)%N &
    s' <> 0%N -> ecdsa_verify g q xc (x *: g) (be_val hash) (xc R) s' =
      [&& (0 < xc R < q)%N, s != 0 & (xc ((s / sum) *: R) %% q == xc R)%N]].
Proof.
move=> F G g q val xc yodd penc pdec H blk zk Z hs hp S C N x hash T hS [[hT1 hT2] hT3 hT4 hT5 hT6] i iS hv f l [ul hl] hk k R sum s.
have kn : k != 0 := k_nz hs hp hS hT1 hT2 hT3 hT4 hT5 iS.
have [es6 eq _] := r6 hs hp hS hT1 hT2 hT3 hT4 hT5 hT6 iS.
have es : s = k * ((be_val hash)%:R + (xc R)%:R * x) := sum_s hs hp hS hT1 hT2 hT3 hT4 hT5 hT6.
have [[q0 vK vn] [gok pK xN yN]] := (hs, hp).
have vlt c : (val c < q)%N by rewrite -[c]vK vn ltn_mod.
have q0F : (q%:R : F) = 0 by rewrite -[_%:R]vK vn modnn.
have [_ _ /(_ i iS) [ci cc cp _ _]] := hS.
have ev : verify_state_map (C i) (x_s6 T i) 7 (map fst l) = Ok tt.
  apply/vsm_ok; rewrite es6 ci; split=> // j; rewrite cc; first by rewrite hk => /andP [-> ->].
  by move=> jj _; rewrite hk jj.
have el : sum_loop (c_id (C i)) l (x_si T i) = Ok sum.
  apply/(@sum_loopE F _ _ _ _ f); first by move=> j v iv; rewrite ci => ne; rewrite (hl _ _ iv ne).
  by rewrite ci (vsm_keys hS iS ev ul).
exists (yodd R (+) (val sum != normalize_s q (val sum))), (normalize_s q (val sum)); split.
- by rewrite /sign_output ev es6; cbn [s_si s_R s_hash deref bind fst]; rewrite el; cbn [bind]; rewrite hv.
- by rewrite /normalize_s; case: ltnP => _; [right|left].
move=> s1n; rewrite /ecdsa_verify.
have -> : (0 < normalize_s q (val sum) < q)%N.
  rewrite lt0n; apply/andP; split; first exact/eqP.
  rewrite /normalize_s; case: (ltnP (q %/ 2)) => h; last exact: vlt.
  by rewrite ltn_subrL q0 andbT; apply: leq_ltn_trans h.
have nz : sum != 0.
  apply/eqP => z; apply: s1n; rewrite z -[0]/(0%:R) vn mod0n /normalize_s; by case: ltnP.
have [t et] : exists t : bool, (normalize_s q (val sum))%:R = (if t then - sum else sum) :> F.
  rewrite /normalize_s; case: ltnP => h; [exists true|exists false; exact: vK].
  by rewrite natrB ?(ltnW (vlt _)) // q0F sub0r vK.
have -> : ((be_val hash)%:R / (normalize_s q (val sum))%:R) *: g + ((xc R)%:R / (normalize_s q (val sum))%:R) *: (x *: g)
  = (if t then - ((s / sum) *: R) else (s / sum) *: R) :> G.
  rewrite et scalerA [_ / _ * x]mulrAC -scalerDl -mulrDl.
  have -> : (be_val hash)%:R + (xc R)%:R * x = s / k by rewrite es mulrAC mulfV // mul1r.
  by rewrite /R scalerA; case: t {et}; rewrite ?invrN ?mulrN ?scaleNr; [congr (- _)|]; congr (_ *: _); rewrite mulrAC.
have -> : xc (if t then - ((s / sum) *: R) else (s / sum) *: R) = xc ((s / sum) *: R) by case: t {et}; rewrite ?xN.
congr (_ && _); rewrite /=.
have Rn : R != 0 by apply/eqP => /gok /eqP; rewrite invr_eq0 (negbTE kn).
have -> : ((if t then - ((s / sum) *: R) else (s / sum) *: R) != 0) = (s != 0); last by [].
have -> : ((if t then - ((s / sum) *: R) else (s / sum) *: R) == 0) = ((s / sum) *: R == 0) by case: t {et}; rewrite ?oppr_eq0.
by rewrite scaler_eq0 mulf_eq0 invr_eq0 (negbTE nz) (negbTE Rn) !orbF.
Qed.
Print Assumptions C37_output_any_sum.

Lemma keys_map (V : Type) (h : nat -> V) (l : seq nat) : map fst [seq (m, h m) | m <- l] = l.
Proof. by rewrite -map_comp -[RHS]map_id; exact: eq_map. Qed.

(** Finding: hence one cosigner can make an honest signer return, with success, an invalid signature: there
    is a value for [j] with which the output has s = 0. *)
Theorem C37_output_verified_refuted : forall (F : fieldType) (G : lmodType F) (g : G) q val xc yodd penc pdec H blk zk (Z : zkf F G zk),
  scalars q val -> points g xc yodd penc pdec ->
  forall S C N x hash T, signers g S C N x -> honest_run g q val xc penc pdec H blk Z S C N hash T ->
  forall i j, i \in S -> j \in S -> i != j -> (forall P h sg, c_verify (C i) P h sg = true) ->
  exists sj v r s, let l := [seq (m, Some (Some (if m == j then sj else x_si T m))) | m <- S & m != i] in
    sign_output q val xc yodd (C i) (x_s6 T i) l = Ok (v, r, s) /\
    ecdsa_verify g q xc (c_pk (C i)) (be_val hash) r s = false.
Proof.
move=> F G g q val xc yodd penc pdec H blk zk Z hs hp S C N x hash T hS hT i j iS jS ne hv.
have [[q0 vK vn] [gok pK xN yN]] := (hs, hp).
pose f0 sj m := if m == j then sj else x_si T m.
pose sj := - (x_si T i + \sum_(m <- S | m != i) f0 0 m).
have [uS _ hc] := hS; have [_ _ cp _ _] := hc _ iS.
have [||v [s' [e1 e2 _]]] := C37_output_any_sum hs hp hS hT iS hv (f := f0 sj) (l := [seq (m, Some (Some (f0 sj m))) | m <- S & m != i]).
- split; first by rewrite keys_map filter_uniq.
  by move=> m v; elim: [seq m <- S | m != i] => //= a l IH [[<- <-]|].
- by move=> m; rewrite keys_map mem_filter andbC.
exists sj, v, (xc ((\sum_(j0 <- S) x_k T j0)^-1 *: g)), s'; split; first exact: e1.
have z : x_si T i + \sum_(m <- S | m != i) f0 sj m = 0.
  have E t : \sum_(m <- S | m != i) f0 t m = t + \sum_(m <- [seq m <- S | m != i] | m != j) x_si T m.
    rewrite -big_filter (bigD1_seq j) ?filter_uniq ?mem_filter ?jS ?andbT //=; last by rewrite eq_sym.
    rewrite {1}/f0 eqxx; congr (_ + _); apply: eq_bigr => m /negbTE nm; by rewrite /f0 nm.
  by rewrite E /sj E add0r addrCA addNr.
have s0 : s' = 0%N \/ s' = q.
  by case: e2 => ->; rewrite z -[0]/(0%:R) vn mod0n ?subn0; [left|right].
by rewrite /ecdsa_verify; case: s0 => ->; rewrite ?ltnn ?andbF.
Qed.
Print Assumptions C37_output_verified_refuted.
