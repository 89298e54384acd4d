(** Property theorems for pkg/ted25519/frost. *)
From mathcomp Require Import all_ssreflect all_algebra.
From Verif Require Import Lib.Res Lib.Inst Sharing.Model Sharing.Spec Gennaro.Model
  Frost.SignModel Frost.SignProofs.
Set Implicit Arguments.
Unset Strict Implicit.
Unset Printing Implicit Defensive.
Import GRing.Theory.
Local Open Scope ring_scope.

(** C13: the signers of a set [S] of distinct ids holding shares of one polynomial [f] with at most
    |S| coefficients run the three rounds with any nonces, message and map iteration orders.  Let R be
    the sum of the R_j of the protocol.  If the challenge deriver gives c on R, and the same c on -R in
    the case R.IsNegative() (true of every deriver when IsNegative is constantly false as on ed25519,
    and of derivers that look at the x coordinate only), every signer obtains the same signature, and
    Verify accepts it under f(0)*G. *)
Theorem C13_frost_sign_correct :
  forall (F : fieldType) (G : lmodType F) (g : G) (Hash : seq nat -> F) (penc : G -> seq nat)
    (isneg : G -> bool) (derive : seq nat -> G -> G -> option F)
    (S : seq nat) (f : {poly F}) (msg : seq nat) (d e : nat -> F) (ks o2 o3 : nat -> seq nat),
  (0 < size S)%N -> uniq S -> (size f <= size S)%N ->
  {in S &, injective (fun i : nat => i%:R : F)} -> (0 < size msg)%N -> base_ok g ->
  (forall i, i \in S -> d i != 0 /\ e i != 0) ->
  (forall i, i \in S -> [/\ perm_eq (ks i) S, perm_eq (o2 i) S & perm_eq (o3 i) S]) ->
  let comms := flatten [seq (j %% 256)%N :: penc (d j *: g) ++ penc (e j *: g) | j <- S] in
  let R := \sum_(j <- S) (Hash ((j %% 256)%N :: msg ++ comms) *: (e j *: g) + d j *: g) in
  forall c, derive msg (f.[0] *: g) R = Some c ->
  (isneg R -> derive msg (f.[0] *: g) (- R) = Some c) ->
  exists (lc : nat -> seq (nat * F)) (s0 s1 s2 s3 : nat -> signer G) (z : nat -> F) (zsum : F),
  (forall i, i \in S ->
    [/\ lagrange_coeffs F (ks i) = Ok (lc i),
        new_signer f.[i%:R] (f.[i%:R] *: g) (f.[0] *: g) i (size S) (lc i) S = Ok (s0 i),
        sign_round1 g (s0 i) (d i) (e i) = (s1 i, Ok (d i *: g, e i *: g)),
        sign_round2 Hash penc isneg derive (s1 i) msg [seq (j, Some (d j *: g, e j *: g)) | j <- o2 i] =
          (s2 i, Ok (z i, f.[i%:R] *: g)) &
        sign_round3 g isneg derive (s2 i) (Some [seq (j, Some (z j, f.[j%:R] *: g)) | j <- o3 i]) =
          (s3 i, Signed R zsum c msg)]) /\
  frost_verify g derive (f.[0] *: g) msg zsum c = Ok true.
Proof.
move=> F G g Hash penc isneg derive S f msg d e ks o2 o3 S0 uS szf inj m0 gok hn ho comms R c hc hc'.
have h1 i : i \in S -> perm_eq (ks i) S by move/ho => [].
have h2 i : i \in S -> perm_eq (o2 i) S by move/ho => [].
have h3 i : i \in S -> perm_eq (o3 i) S by move/ho => [].
have hs : derive msg (f.[0] *: g) (sgn g Hash penc isneg S msg d e *: Rtot g Hash penc S msg d e) = Some c.
  by rewrite /sgn; case: ifP => // hneg; rewrite ?scaleN1r ?scale1r //; apply: hc'.
exists (fun i => [seq (j, lam F S j) | j <- ks i]), (s0 g S f ks), (s1 g S f d e ks),
  (s2 g Hash penc S f msg d e ks o2 c), (s3 g Hash penc S f msg d e ks o2 c),
  (zz g Hash penc isneg S f msg d e c), (ztot g Hash penc isneg S f msg d e c); split.
  move=> i hi; split.
  - by apply: lcE.
  - by apply: (@new_signerE _ _ _ _ _ msg).
  - exact: sign_round1E.
  - by apply: sign_round2E.
  - by apply: sign_round3E.
by apply: verifyE.
Qed.
Print Assumptions C13_frost_sign_correct.

Example C13_hyps : exists (S : seq nat) (f : {poly F257}) (d e : nat -> F257),
  [/\ (0 < size S)%N, uniq S, (size f <= size S)%N,
      {in S &, injective (fun i : nat => i%:R : F257)} & forall i, i \in S -> d i != 0 /\ e i != 0] /\
  base_ok g257 /\ (f.[0] = 7%:R /\ f.[1] != f.[0]).
Proof.
exists [:: 1; 3]%N, (Poly [:: 7%:R; 2%:R]), (fun i => i%:R), (fun _ => 9%:R).
split; first split=> //.
- exact: (leq_trans (size_Poly _)).
- move=> i j hi hj /eqP; rewrite natr257; move: hi hj.
  by rewrite !inE => /orP [] /eqP -> /orP [] /eqP ->.
- move=> i hi; rewrite -[0]/(0%:R) !natr257; move: hi.
  by rewrite !inE => /orP [] /eqP ->.
split; first exact: base257.
rewrite !horner_Poly /horner_rec mulr0 mulr1 !mul0r !add0r; split; first reflexivity.
by rewrite -natrD natr257.
Qed.

(** When IsNegative holds of R and the deriver gives a different challenge on -R, the honest run of C13
    fails for every signer: SignRound3 reports an invalid signature without naming anyone. *)
Theorem C13_frost_negative_R_fails :
  forall (F : fieldType) (G : lmodType F) (g : G) (Hash : seq nat -> F) (penc : G -> seq nat)
    (isneg : G -> bool) (derive : seq nat -> G -> G -> option F)
    (S : seq nat) (f : {poly F}) (msg : seq nat) (d e : nat -> F) (ks o2 o3 : nat -> seq nat),
  (0 < size S)%N -> uniq S -> (size f <= size S)%N ->
  {in S &, injective (fun i : nat => i%:R : F)} -> (0 < size msg)%N -> base_ok g ->
  (forall i, i \in S -> d i != 0 /\ e i != 0) ->
  (forall i, i \in S -> [/\ perm_eq (ks i) S, perm_eq (o2 i) S & perm_eq (o3 i) S]) ->
  let comms := flatten [seq (j %% 256)%N :: penc (d j *: g) ++ penc (e j *: g) | j <- S] in
  let R := \sum_(j <- S) (Hash ((j %% 256)%N :: msg ++ comms) *: (e j *: g) + d j *: g) in
  forall c, derive msg (f.[0] *: g) R = Some c ->
  isneg R -> derive msg (f.[0] *: g) (- R) <> Some c ->
  exists (lc : nat -> seq (nat * F)) (s0 s1 s2 : nat -> signer G) (z : nat -> F),
  forall i, i \in S ->
    [/\ lagrange_coeffs F (ks i) = Ok (lc i),
        new_signer f.[i%:R] (f.[i%:R] *: g) (f.[0] *: g) i (size S) (lc i) S = Ok (s0 i),
        sign_round1 g (s0 i) (d i) (e i) = (s1 i, Ok (d i *: g, e i *: g)),
        sign_round2 Hash penc isneg derive (s1 i) msg [seq (j, Some (d j *: g, e j *: g)) | j <- o2 i] =
          (s2 i, Ok (z i, f.[i%:R] *: g)) &
        sign_round3 g isneg derive (s2 i) (Some [seq (j, Some (z j, f.[j%:R] *: g)) | j <- o3 i]) =
          (s2 i, Failed G)].
Proof.
move=> F G g Hash penc isneg derive S f msg d e ks o2 o3 S0 uS szf inj m0 gok hn ho comms R c hc hneg hc'.
have h1 i : i \in S -> perm_eq (ks i) S by move/ho => [].
have h2 i : i \in S -> perm_eq (o2 i) S by move/ho => [].
have h3 i : i \in S -> perm_eq (o3 i) S by move/ho => [].
exists (fun i => [seq (j, lam F S j) | j <- ks i]), (s0 g S f ks), (s1 g S f d e ks),
  (s2 g Hash penc S f msg d e ks o2 c), (zz g Hash penc isneg S f msg d e c).
move=> i hi; split.
- by apply: lcE.
- by apply: (@new_signerE _ _ _ _ _ msg).
- exact: sign_round1E.
- by apply: sign_round2E.
- by apply: sign_round3_neg.
Qed.
Print Assumptions C13_frost_negative_R_fails.

(** C14: whatever was received, a signature returned by SignRound3 verifies under the signer's group
    key, it is the sum of the received partial signatures, and each of them passed the check against
    the key share sent along with it. *)
Theorem C14_frost_round3_sound :
  forall (F : fieldType) (G : lmodType F) (g : G) (isneg : G -> bool)
    (derive : seq nat -> G -> G -> option F) (s s' : signer G) inp R z c m,
  sign_round3 g isneg derive s inp = (s', Signed R z c m) ->
  [/\ frost_verify g derive (sg_vk s) m z c = Ok true, sg_round s = 3%N, sg_round s' = 4%N &
    m = sg_msg s] /\
  exists input,
  [/\ inp = Some [seq (x.1, Some x.2) | x <- input], size input = sg_t s, z = \sum_(x <- input) x.2.1,
      sg_c s = Some c /\ sg_R s = Some R &
      forall x, x \in input -> exists L Rj,
      [/\ assoc x.1 (sg_lcoeffs s) = Some L, assoc x.1 (sg_Rs s) = Some Rj &
      x.2.1 *: g = (if isneg R then - Rj else Rj) + (c * L) *: x.2.2]].
Proof. exact sign_round3_ok. Qed.
Print Assumptions C14_frost_round3_sound.

(** When SignRound3 names a participant, that participant's own entry is the one that failed: its partial
    signature does not fit its nonce commitment and the key share sent with it (or there is no such commitment). *)
Theorem C14_frost_blame :
  forall (F : fieldType) (G : lmodType F) (g : G) (isneg : G -> bool)
    (derive : seq nat -> G -> G -> option F) (s s' : signer G) inp id,
  sign_round3 g isneg derive s inp = (s', Blame G id) ->
  exists l zj vkj R c L, [/\ inp = Some l, (id, Some (zj, vkj)) \in l, sg_R s = Some R /\ sg_c s = Some c,
    assoc id (sg_lcoeffs s) = Some L & forall Rj, assoc id (sg_Rs s) = Some Rj ->
    zj *: g <> (c * L) *: vkj + (if isneg R then - Rj else Rj)].
Proof.
move=> F G g isneg derive s s' inp id; rewrite /sign_round3.
case: (sg_d s) (sg_e s) => // d [e|//]; case: ifP => // _; case: ifP => // _; case: inp => // in0.
case ea: (all_some in0) => [input|//]; case: ifP => // _; case: ifP => // _; case: ifP => // _.
case eR: (sg_R s) => [R|//]; case ec: (sg_c s) => [c|//].
case ez: (z_loop _ _ _ _ _ _) => [z|r]; first by case: (derive _ _ _) => // x; case: ifP.
move=> [_ er]; rewrite {}er in ez; exists in0.
have hin : forall x, x \in input -> (x.1, Some x.2) \in in0.
  elim: in0 input ea {ez} => [|[j [a|]] r' IH] input //=; first by case=> <-.
  case E: (all_some r') => [l'|] //= [<-] x; rewrite !inE => /orP[/eqP -> /=|h]; first by rewrite eqxx.
  by rewrite (IH _ E) // orbT.
elim: input (0 : F) ez hin {ea} => [|[j [zj vkj]] r' IH] z //=.
case eL: (assoc j _) => [L|//].
case eRj: (assoc j (sg_Rs s)) => [Rj|]; last first.
  case: (isneg R) => // -[ej] h; rewrite -ej; exists zj, vkj, R, c, L; split=> //; first by have := h (j, (zj, vkj)); rewrite inE eqxx; apply.
  by move=> Rj; rewrite eRj.
case: eqP => [_|hne] /=; last first.
  move=> [ej] h; rewrite -ej; exists zj, vkj, R, c, L; split=> //; first by have := h (j, (zj, vkj)); rewrite inE eqxx; apply.
  by move=> Rj'; rewrite eRj => -[<-].
by move=> ez h; apply: (IH _ ez) => x hx; apply: h; rewrite inE hx orbT.
Qed.
Print Assumptions C14_frost_blame.

(** The key share in the check is the one sent by the cosigner itself, so for any wrong partial
    signature [zj] there is a claimed key share with which the per-participant check passes: the error
    does not name the culprit. *)
Theorem C14_frost_culprit_not_identified_refuted :
  forall (F : fieldType) (G : lmodType F) (g : G) (s : signer G) c neg id L R zj rest z,
  assoc id (sg_lcoeffs s) = Some L -> assoc id (sg_Rs s) = Some R -> c * L != 0 ->
  exists vkj, z_loop g s c neg ((id, (zj, vkj)) :: rest) z = z_loop g s c neg rest (z + zj).
Proof. exact bad_partial_unblamed. Qed.
Print Assumptions C14_frost_culprit_not_identified_refuted.

(** C15: over any sequence of calls with any arguments on a new signer, SignRound1, SignRound2 and
    SignRound3 each succeed at most once... *)
Theorem C15_frost_rounds_once :
  forall (F : fieldType) (G : lmodType F) (g : G) (Hash : seq nat -> F) (penc : G -> seq nat)
    (isneg : G -> bool) (derive : seq nat -> G -> G -> option F)
    sk vkshare vk id t lc cos (s : signer G) (l : seq (call G)),
  new_signer sk vkshare vk id t lc cos = Ok s ->
  let rs := (run g Hash penc isneg derive s l).2 in
  [/\ (count (@is1 F G) rs <= 1)%N, (count (@is2 F G) rs <= 1)%N & (count (@is3 F G) rs <= 1)%N].
Proof.
move=> F G g Hash penc isneg derive sk vkshare vk id t lc cos s l hs.
have := run_rounds g Hash penc isneg derive s l; case: run => s' rs /=.
have -> : sg_round s = 1%N by move: hs; rewrite /new_signer; do 4!case: ifP => // _; move=> [<-].
by rewrite /= !addn0 => -[? []].
Qed.
Print Assumptions C15_frost_rounds_once.

(** ... the one partial signature released uses the nonces of the one successful SignRound1 (negated if
    R is negative), which came earlier... *)
Theorem C15_frost_nonce_single_use :
  forall (F : fieldType) (G : lmodType F) (g : G) (Hash : seq nat -> F) (penc : G -> seq nat)
    (isneg : G -> bool) (derive : seq nat -> G -> G -> option F)
    sk vkshare vk id t lc cos (s : signer G) (l : seq (call G)),
  new_signer sk vkshare vk id t lc cos = Ok s ->
  forall z vki, List.In (Ret2 (Ok (z, vki))) (run g Hash penc isneg derive s l).2 ->
  exists l1 d e l2,
  [/\ l = l1 ++ Call1 G d e :: l2, ~~ has (@is1 F G) (run g Hash penc isneg derive s l1).2,
      ~~ has (@is2 F G) (run g Hash penc isneg derive s l1).2 &
      exists L r c sgn : F, [/\ assoc id lc = Some L, sgn = 1 \/ sgn = -1 &
        z = L * sk * c + sgn * (e * r + d)]].
Proof.
move=> F G g Hash penc isneg derive sk vkshare vk id t lc cos s l hs.
have -> : s = Signer sk vkshare vk id t 1 lc cos None None None [::] None [::] None.
  by move: hs; rewrite /new_signer; do 4!case: ifP => // _; move=> [<-].
exact: run_value1.
Qed.
Print Assumptions C15_frost_nonce_single_use.

(** ... and after a successful SignRound2 the stored nonces are zero. *)
Theorem C15_frost_nonces_erased :
  forall (F : fieldType) (G : lmodType F) (Hash : seq nat -> F) (penc : G -> seq nat)
    (isneg : G -> bool) (derive : seq nat -> G -> G -> option F) (s s' : signer G) m i o,
  sign_round2 Hash penc isneg derive s m i = (s', Ok o) ->
  [/\ sg_round s = 2%N, sg_round s' = 3%N, sg_d s' = Some 0 & sg_e s' = Some 0].
Proof.
move=> F G Hash penc isneg derive s s' m i o h.
by have := sign_round2_cases Hash penc isneg derive s m i; rewrite h.
Qed.
Print Assumptions C15_frost_nonces_erased.

(** The hypotheses of C14 and C15 are met by an honest two-signer run over F_257. *)
Definition ex_hash2 (m : seq nat) : F257 := (foldr addn 0%N m)%:R.
Definition ex_penc2 (p : G257) : seq nat := [:: nat_of_ord (p : 'F_257)].
Definition ex_derive (m : seq nat) (vk r : G257) : option F257 := Some (ex_hash2 m + 3%:R).
Example C15_hyps :
  match new_signer (9%:R : F257) (9%:R : G257) (7%:R : G257) 1 2
          [:: (1%N, 2%:R); (2%N, -1)] [:: 1; 2]%N with
  | Ok s =>
    let r := run g257 ex_hash2 ex_penc2 (fun _ => false) ex_derive s
      [:: Call1 G257 (4%:R : F257) (5%:R : F257);
          Call2 [:: 65%N] [:: (1%N, Some (4%:R : G257, 5%:R : G257)); (2%N, Some (6%:R : G257, 8%:R : G257))];
          Call1 G257 (4%:R : F257) (5%:R : F257)] in
    (count (@is1 F257 G257) r.2 == 1%N) && (count (@is2 F257 G257) r.2 == 1%N)
  | _ => false
  end.
Proof. by vm_compute. Qed.
