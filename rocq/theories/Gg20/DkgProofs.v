(** Proofs about Gg20/DkgModel.v *)
From mathcomp Require Import all_ssreflect all_algebra zify.
From Verif Require Import Lib.Res Lib.Bytes Lib.Lagrange Core.HashModel Gennaro.Model Paillier.Model
  SharingV1.Model SharingV1.Proofs Gg20.SignProofs Gg20.DkgModel.
Set Implicit Arguments. Unset Strict Implicit. Unset Printing Implicit Defensive.
Import GRing.Theory.
Local Open Scope ring_scope.

Lemma sgetE (T : Type) (l : seq T) k d : (k < size l)%N -> sget l k = Some (nth d l k).
Proof. by move=> h; rewrite /sget (nth_map d). Qed.

Section P.
Variables (p : nat) (G : lmodType 'F_p) (g : G) (fs : nat) (penc : G -> bytes) (pdec : bytes -> option G)
  (H : bytes -> bytes) (blk : nat) (aux psf : Type) (auxv : aux -> outcome unit)
  (psfp : secret_key -> nat -> G -> outcome psf) (psfv : nat -> nat -> G -> psf -> outcome unit).
Hypothesis pp : prime p.
Hypothesis pencs : forall P, size (penc P) = (fs * 2)%N.
Hypothesis pdecK : forall P, pdec (penc P) = Some P.
Hypothesis fs0 : (0 < fs)%N.

Lemma Fp_lt (a : 'F_p) : (nat_of_ord a < p)%N.
Proof. by apply: leq_trans (ltn_ord a) _; rewrite (Fp_cast pp). Qed.

Definition coefs (t : nat) (d : ddraw p aux) : seq 'F_p := dr_u d :: mkseq (dr_poly d) t.-1.
Definition vers (t : nat) (d : ddraw p aux) : seq G := [seq c *: g | c <- coefs t d].
Definition vmsg (t : nat) (d : ddraw p aux) : bytes := flatten [seq penc v | v <- vers t d].

Definition state1 (s : dst G aux) (t n : nat) (d : ddraw p aux) (r : bytes) : dst G aux :=
  Dst 2 (Some (Witness (vmsg t d) r)) (Some (dr_sk d)) (vers t d) [seq mk1 (coefs t d) i | i <- iota 0 n] t n
    (ds_other s) (ds_Y s) (ds_Xi s) (ds_pub s).

Lemma size_coefs t d : (0 < t)%N -> size (coefs t d) = t.
Proof. by move=> h; rewrite /= size_mkseq prednK. Qed.

Lemma dround1E s t n d s' b : (n < p)%N -> dround1 g penc H blk s t n d = (s', Ok b) ->
  exists r, [/\ (2 <= t <= n)%N, ds_round s = 1%N & dr_u d != 0] /\
  [/\ dr_c d = Some r, size r = 32%N, s' = state1 s t n d r &
   b = Dbcast1 (hmac H blk r (vmsg t d)) (sN (dr_sk d)) (dr_aux d)].
Proof.
move=> np; rewrite /dround1; case: ltnP => // tn; case: eqP => // e1 /=.
rewrite /new_feldman ltnNge tn /=; case: ltnP => //= t2.
rewrite /feldman_split1 /get_shares_and_poly be_bytes_nil be_bytesK /new_element Fp_lt; case: (boolP (_ == 0%N)) => // u0.
cbn [negb bind].
case: t t2 tn => // t t2 tn /=.
rewrite natr_Zp make_shares1E //; last by move=> i; rewrite mem_iota /= add0n => hi; apply: leq_ltn_trans np.
cbn [bind fst snd]; case ec: (dr_c d) => [r|] //=; case: eqP => //= hr [<- <-]; exists r; split; split=> //.
Qed.

Lemma dround1_ok s t n d r : (n < p)%N -> (2 <= t <= n)%N -> ds_round s = 1%N -> dr_u d != 0 ->
  dr_c d = Some r -> size r = 32%N ->
  dround1 g penc H blk s t n d =
    (state1 s t n d r, Ok (Dbcast1 (hmac H blk r (vmsg t d)) (sN (dr_sk d)) (dr_aux d))).
Proof.
move=> np /andP [t2 tn] e1 u0 ec hr; rewrite /dround1 ltnNge tn e1 /= /new_feldman ltnNge tn /= ltnNge t2 /=.
rewrite /feldman_split1 /get_shares_and_poly be_bytes_nil be_bytesK /new_element Fp_lt.
have -> : (nat_of_ord (dr_u d) == 0%N) = false by apply/negbTE; rewrite -val_eqE in u0.
cbn [negb bind].
case: t t2 tn => // t t2 tn /=.
rewrite natr_Zp make_shares1E //; last by move=> i; rewrite mem_iota /= add0n => hi; apply: leq_ltn_trans np.
by cbn [bind fst snd]; rewrite ec /= hr.
Qed.

(** round 2 *)
Lemma dloop2E self (X : seq (share1 p)) params o out o' out' : dloop2 auxv self X params o out = (o', Ok out') ->
  map fst out' = rev [seq k <- map fst params | k != self] ++ map fst out /\
  (forall id x, List.In (id, x) out' -> List.In (id, x) out \/ (exists k, id = k.+1 /\ sget X k = Some x)).
Proof.
elim: params o out => [|[id m] l IH] o out /=; first by case=> _ <-; split=> //; left.
case: eqP => [_|ne] /=; first exact: IH.
case E: (bind _ _) => [[b x]| |] // h; have [e1 e2] := IH _ _ h; split.
  by rewrite e1 /= rev_cons cat_rcons.
move=> i y /e2 [/=|]; last by right.
case=> [[<- <-]|]; last by left.
move: E; case: m => //= b'; case: ifP => // _; case: (auxv _) => //= _; case: X e2 IH h => // x0 X _ _ _.
by case: (id) => [|k] //=; case e: sget => [x'|] //= [_ <-]; right; exists k.
Qed.

Definition odat t (d : ddraw p aux) r : odata aux := Odata (sN (dr_sk d)) (dr_aux d) (hmac H blk r (vmsg t d)).

Lemma dround2E self (s : dst G aux) params s' w out : dround2 auxv self s params = (s', Ok (w, out)) ->
  [/\ ds_round s = 2%N, w = ds_D s, map fst out = rev [seq k <- map fst params | k != self],
   exists o, s' = set_other s 3 o &
   forall id x, List.In (id, x) out -> exists k, id = k.+1 /\ sget (ds_X s) k = Some x].
Proof.
rewrite /dround2; case: eqP => // e; case: ifP => // _; case E: dloop2 => [o [out'| |]] //= [<- <- <-].
have [e1 e2] := dloop2E E; rewrite cats0 in e1; split=> //; first by exists o.
by move=> id x /e2 [].
Qed.

(** unmarshalling *)
Lemma dec_allE vs : dec_all pdec [seq penc v | v <- vs] = Ok vs.
Proof. by elim: vs => //= v vs IH; rewrite pdecK /= IH. Qed.
Lemma size_flat (vs : seq G) : size (flatten [seq penc v | v <- vs]) = (size vs * (fs * 2))%N.
Proof. by elim: vs => //= v vs IH; rewrite size_cat IH pencs mulSn. Qed.
Lemma chunks (vs : seq G) :
  [seq take (fs * 2) (drop (k * (fs * 2)) (flatten [seq penc v | v <- vs])) | k <- iota 0 (size vs)] = [seq penc v | v <- vs].
Proof.
elim: vs => //= v vs IH; rewrite mul0n drop0 take_size_cat ?pencs //; congr cons.
rewrite (iotaDl 1 0) -map_comp -[RHS]IH.
apply: eq_map => k /=.
by rewrite addnC mulnDl mul1n -drop_drop drop_size_cat ?pencs.
Qed.
Lemma unmarshal_ok (vs : seq G) :
  unmarshal_verifiers pdec (flatten [seq penc v | v <- vs]) (fs * 2) (size vs) = Ok vs.
Proof.
have f2 : (0 < fs * 2)%N by rewrite muln_gt0 fs0.
by rewrite /unmarshal_verifiers size_flat modnMl eqxx mulnK //= eqxx /= chunks dec_allE.
Qed.

(** what one iteration of the loop of round 3 computes *)
Definition step3 (f : shamir1) (other : seq (nat * odata aux)) (x : seq (nat * option (share1 p))) j w :
  outcome (seq G * 'F_p) :=
  (do o <- deref (assoc j other);
   do w <- deref w;
   do ok <- copen H blk (o_C o) w;
   if ~~ ok then Err else
   do v <- unmarshal_verifiers pdec (wmsg w) (fs * 2) (s1_threshold f);
   let xj := if assoc j x is Some o then o else None in
   do ok <- feldman_verify1 g f xj v;
   if ~~ ok then Err else
   do xj <- deref xj;
   Ok (v, s1_val xj)).
Local Notation loop3 := (dloop3 g fs pdec H blk).
Lemma dloop3_cons self f other x j w d xi vs :
  loop3 self f other x ((j, w) :: d) xi vs =
  if j == self then loop3 self f other x d xi vs else
  match step3 f other x j w with
  | Ok (v, y) => loop3 self f other x d (xi + y) ((j, v) :: vs)
  | Err => (xi, Err) | Panic => (xi, Panic) end.
Proof. by []. Qed.

Definition shval (x : seq (nat * option (share1 p))) j : 'F_p := if assoc j x is Some (Some s) then s1_val s else 0.

Lemma step3E f other x j w v y : step3 f other x j w = Ok (v, y) ->
  y = shval x j /\ (exists s, assoc j x = Some (Some s)) /\
  exists w', w = Some w' /\ unmarshal_verifiers pdec (wmsg w') (fs * 2) (s1_threshold f) = Ok v.
Proof.
rewrite /step3 => h; binv h o eo h1; binv h1 w' ew h2; binv h2 ok1 ec h3; case: ok1 ec h3 => //= ec h3.
binv h3 vs ev h4; binv h4 ok2 ef h5; case: ok2 ef h5 => //= ef h5; binv h5 xj ex1 h6; case: h6 => <- <-.
have ew' := derefE ew; have ex' := derefE ex1; move: ex'; rewrite /shval; case: (assoc j x) => [o'|] // ->.
by split=> //; split; [exists xj|exists w'].
Qed.

Lemma dloop3E self f (other : seq (nat * odata aux)) x d xi vs xi' vs' : loop3 self f other x d xi vs = (xi', Ok vs') ->
  xi' = xi + \sum_(kv <- d | kv.1 != self) shval x kv.1 /\
  exists V : seq (nat * seq G), vs' = V ++ vs /\ map fst V = rev [seq k <- map fst d | k != self] /\
    forall j v, List.In (j, v) V -> j != self /\ exists w, List.In (j, Some w) d /\
      unmarshal_verifiers pdec (wmsg w) (fs * 2) (s1_threshold f) = Ok v.
Proof.
elim: d xi vs => [|[j w] d IH] xi vs; first by case=> <- <-; rewrite big_nil addr0; split=> //; exists [::].
rewrite dloop3_cons big_cons /=; case: eqP => [_|/eqP ne] /=.
  move/IH => [e [V [e1 [e2 e3]]]]; split=> //; exists V; split=> //; split=> // i v /e3 [n0 [w' [i1 i2]]].
  by split=> //; exists w'; split=> //; right.
case E: step3 => [[v y]| |] //; move/IH => [e [V [e1 [e2 e3]]]].
have [ey [_ [w' [ew eu]]]] := step3E E; split; first by rewrite e ey addrA.
exists (rcons V (j, v)); rewrite cat_rcons; split=> //; split; first by rewrite map_rcons e2 rev_cons.
move=> i u; rewrite -cats1 => /(@List.in_app_or _ _ _ _) [/e3 [n0 [w'' [i1 i2]]]|[[<- <-]|//]].
  by split=> //; exists w''; split=> //; right.
by split=> //; exists w'; rewrite ew; split=> //; left.
Qed.

Local Notation round3 := (dround3 g fs pdec H blk psfp).
Definition sumV (vs : seq (nat * seq G)) j := \sum_(kv <- vs) nth 0 kv.2 j.
Lemma foldl_sumV (vs : seq (nat * seq G)) j a : foldl (fun a (kv : nat * seq G) => a + nth 0 kv.2 j) a vs = a + sumV vs j.
Proof. by rewrite /sumV; elim: vs a => [|kv vs IH] a /=; rewrite ?big_nil ?addr0 // IH big_cons addrA. Qed.

Lemma dround3E self (s : dst G aux) d x s' pf : round3 self s d x = (s', Ok pf) ->
  exists k x0 vs xi, [/\ ds_round s = 3%N, self = k.+1, sget (ds_X s) k = Some x0 &
    loop3 self (Shamir1 (ds_t s) (ds_n s)) (ds_other s) x d (s1_val x0) [:: (self, ds_V s)] = (xi, Ok vs)] /\
   [/\ (2 <= ds_t s <= ds_n s)%N, all (fun kv => ds_t s <= size kv.2)%N vs, sumV vs 0 != 0,
    (exists sk, ds_sk s = Some sk /\ psfp sk self (sumV vs 0) = Ok pf) &
    s' = Dst 4 (ds_D s) (ds_sk s) (ds_V s) (set_X s self xi) (ds_t s) (ds_n s) (ds_other s) (Some (sumV vs 0)) (Some xi)
           [seq public_share [seq sumV vs i | i <- iota 0 (ds_t s)] j.+1 | j <- iota 0 (ds_n s)]].
Proof.
rewrite /dround3; case: ifP => // _; case: eqP => // e3.
rewrite /new_feldman; case: ltnP => //= tn; case: ltnP => // t2.
case: self => // k; case ex: sget => [x0|] //; case E: dloop3 => [xi [vs| |]] //=.
rewrite /sum_verifiers; case: ifP => //= ha.
have -> : [seq foldl (fun a (kv : nat * seq G) => a + nth 0 kv.2 j) 0 vs | j <- iota 0 (ds_t s)] = [seq sumV vs i | i <- iota 0 (ds_t s)].
  by apply: eq_map => j; rewrite foldl_sumV add0r.
have -> : nth 0 [seq sumV vs i | i <- iota 0 (ds_t s)] 0 = sumV vs 0 by rewrite (nth_map 0%N) ?nth_iota ?size_iota //; lia.
case: eqP => // /eqP y0; case es: (ds_sk s) => [sk|] //=; case ep: psfp => [pf'| |] //= [<- <-].
exists k, x0, vs, xi; split; split=> //; try by rewrite t2 tn.
by exists sk.
Qed.

Lemma public_shareE (v : seq G) j :
  public_share v j = nth 0 v 0 + \sum_(k < size v) ((j * k.+1)%N)%:R *: nth 0 v k.
Proof.
rewrite /public_share -[\sum_(k < _) _](big_mkord xpredT (fun k => ((j * k.+1)%N)%:R *: nth 0 v k)) /index_iota subn0.
move: (nth 0 v 0); elim: (iota _ _) => [|k l IH] a; first by rewrite big_nil addr0.
by rewrite /= IH big_cons addrA.
Qed.
End P.
