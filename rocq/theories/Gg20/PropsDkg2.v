(** GG20 key generation: executions exist; shares for another recipient are accepted; a failed third round is not
    repeatable. *)
From mathcomp Require Import all_ssreflect all_algebra zify.
From Verif Require Import Lib.Res Lib.Bytes Lib.Lagrange Lib.Inst Core.HashModel Gennaro.Model Paillier.Model
  SharingV1.Model SharingV1.Proofs Gg20.SignProofs Gg20.PropsSign Gg20.PropsPrepare Gg20.DkgModel Gg20.DkgProofs Gg20.PropsDkg.
Set Implicit Arguments. Unset Strict Implicit. Unset Printing Implicit Defensive.
Import GRing.Theory.
Local Open Scope ring_scope.

Section Dkg.
Variables (p : nat) (G : lmodType 'F_p) (g : G) (fs : nat) (penc : G -> bytes) (pdec : bytes -> option G)
  (H : bytes -> bytes) (blk : nat) (aux psf : Type) (auxv : aux -> outcome unit)
  (psfp : secret_key -> nat -> G -> outcome psf) (psfv : nat -> nat -> G -> psf -> outcome unit).
Hypotheses (pp : prime p) (pencs : forall P, size (penc P) = (fs * 2)%N) (pdecK : forall P, pdec (penc P) = Some P)
  (fs0 : (0 < fs)%N) (hg : forall a : 'F_p, a *: g = 0 -> a = 0) (hH : forall x, size (H x) = 32%N).
Local Notation round3 := (dround3 g fs pdec H blk psfp).
Local Notation loop3 := (dloop3 g fs pdec H blk).
Local Notation stp3 := (step3 g fs pdec H blk).

(** an opened commitment to the coefficients of a polynomial and the value of this polynomial at the id written
    in the share pass the checks of round 3, whatever this id is *)
Lemma step3_ok t n (other : seq (nat * odata aux)) x j (d : ddraw p aux) r pk a m : (0 < t)%N -> (m < p)%N ->
  assoc j other = Some (Odata pk a (hmac H blk r (vmsg g penc t d))) ->
  assoc j x = Some (Some (Share1 m (Poly (coefs t d)).[m%:R])) ->
  stp3 (Shamir1 t n) other x j (Some (Witness (vmsg g penc t d) r)) = Ok (vers g t d, (Poly (coefs t d)).[m%:R]).
Proof.
move=> t0 mp eo ex; rewrite /step3 eo ex; cbn [deref bind]; rewrite /copen; cbn [o_C wr wmsg].
rewrite {1}/hmac hH eqxx; cbn [negb bind s1_threshold]; rewrite eqxx; cbn [negb].
have sz : size (vers g t d) = t by rewrite size_map size_coefs.
rewrite -{2}sz (unmarshal_ok pencs pdecK fs0); cbn [bind].
have [|b [-> hb]] := @v1_feldman_exact p G g (Shamir1 t n) (coefs t d) (Share1 m (Poly (coefs t d)).[m%:R]) hg _ mp.
  by rewrite size_coefs //= t0 leqnn.
by cbn [bind]; have -> : b by apply/hb.
Qed.

Lemma dloop3_ok self f (other : seq (nat * odata aux)) x d (vf : nat -> seq G) (yf : nat -> 'F_p) xi vs :
  (forall j w, List.In (j, w) d -> j != self -> stp3 f other x j w = Ok (vf j, yf j)) ->
  exists xi', loop3 self f other x d xi vs = (xi', Ok (rev [seq (j, vf j) | j <- map fst d & j != self] ++ vs)).
Proof.
elim: d xi vs => [|[j w] d IH] xi vs h; first by exists xi.
rewrite dloop3_cons /=; case: eqP => [_|/eqP ne] /=; first by apply: IH => i u hi; apply: h; right.
rewrite h //; last by left.
have [|xi' e] := IH (xi + yf j) ((j, vf j) :: vs); first by move=> i u hi; apply: h; right.
by exists xi'; rewrite rev_cons cat_rcons e.
Qed.

Lemma dround3_ok self (s : dst G aux) d x k x0 xi vs sk pf : d <> [::] -> x <> [::] -> ds_round s = 3%N ->
  (2 <= ds_t s <= ds_n s)%N -> self = k.+1 -> sget (ds_X s) k = Some x0 ->
  loop3 self (Shamir1 (ds_t s) (ds_n s)) (ds_other s) x d (s1_val x0) [:: (self, ds_V s)] = (xi, Ok vs) ->
  all (fun kv => ds_t s <= size kv.2)%N vs -> sumV vs 0 != 0 -> ds_sk s = Some sk -> psfp sk self (sumV vs 0) = Ok pf ->
  round3 self s d x = (Dst 4 (ds_D s) (ds_sk s) (ds_V s) (set_X s self xi) (ds_t s) (ds_n s) (ds_other s)
    (Some (sumV vs 0)) (Some xi)
    [seq public_share [seq sumV vs i | i <- iota 0 (ds_t s)] j.+1 | j <- iota 0 (ds_n s)], Ok pf).
Proof.
move=> d0 x0' e3 /andP [t2 tn] ek ex el ha hy es ep; rewrite /dround3 e3.
have -> : (size d == 0%N) = false by case: (d) d0.
have -> : (size x == 0%N) = false by case: (x) x0'.
rewrite /= /new_feldman ltnNge tn /= ltnNge t2 /= {1}ek ex el /= /sum_verifiers ha /=.
have -> : [seq foldl (fun a (kv : nat * seq G) => a + nth 0 kv.2 j) 0 vs | j <- iota 0 (ds_t s)] = [seq sumV vs i | i <- iota 0 (ds_t s)].
  by apply: eq_map => j; rewrite foldl_sumV add0r.
have -> : nth 0 [seq sumV vs i | i <- iota 0 (ds_t s)] 0 = sumV vs 0 by rewrite (nth_map 0%N) ?nth_iota ?size_iota //; lia.
by rewrite (negbTE hy) es /= ep.
Qed.

(** C39 finding: the id in a received share is not compared with the recipient's own id, and the openings need not
    cover all participants: in round 3 any participant accepts, from one other participant j alone, j's opening
    together with j's share for ANY id m, and adds it to its signing share. *)
Theorem C39_wrong_recipient_refuted : forall self (s : dst G aux) j (d : ddraw p aux) r pk a m k x0 sk pf,
  ds_round s = 3%N -> (2 <= ds_t s <= ds_n s)%N -> self = k.+1 -> sget (ds_X s) k = Some x0 ->
  (ds_t s <= size (ds_V s))%N -> ds_sk s = Some sk -> j != self -> (m < p)%N ->
  assoc j (ds_other s) = Some (Odata pk a (hmac H blk r (vmsg g penc (ds_t s) d))) ->
  dr_u d *: g + nth 0 (ds_V s) 0 != 0 -> (forall y, psfp sk self y = Ok pf) ->
  let share := Share1 m (Poly (coefs (ds_t s) d)).[m%:R] in
  exists s', round3 self s [:: (j, Some (Witness (vmsg g penc (ds_t s) d) r))] [:: (j, Some share)] = (s', Ok pf) /\
    ds_Xi s' = Some (s1_val x0 + (Poly (coefs (ds_t s) d)).[m%:R]).
Proof.
move=> self s j d r pk a m k x0 sk pf e3 tn ek ex hV es ne mp eo hy hp share.
have t0 : (0 < ds_t s)%N by lia.
have st := @step3_ok (ds_t s) (ds_n s) (ds_other s) [:: (j, Some share)] j d r pk a m t0 mp eo ltac:(by rewrite /= eqxx).
have el : loop3 self (Shamir1 (ds_t s) (ds_n s)) (ds_other s) [:: (j, Some share)]
    [:: (j, Some (Witness (vmsg g penc (ds_t s) d) r))] (s1_val x0) [:: (self, ds_V s)] =
    (s1_val x0 + (Poly (coefs (ds_t s) d)).[m%:R], Ok [:: (j, vers g (ds_t s) d); (self, ds_V s)]).
  by rewrite dloop3_cons (negbTE ne) st.
eexists; split; first apply: (dround3_ok _ _ e3 tn ek ex el _ _ es (hp _)) => //.
  have sz : size (vers g (ds_t s) d) = ds_t s by rewrite size_map size_coefs.
  by cbn [all snd]; rewrite sz leqnn hV.
  by rewrite /sumV !big_cons big_nil addr0 nth_vers.
by [].
Qed.

(** C40: whatever the outcome, DkgRound3 replaces the participant's stored own share by its sum with the shares of
    the entries of d processed before the call ended *)
Theorem C40_round3_effect : forall self (s : dst G aux) d x s' o, round3 self s d x = (s', o) ->
  exists d1 d2, d = d1 ++ d2 /\
  forall k x0, self = k.+1 -> sget (ds_X s) k = Some x0 ->
    sget (ds_X s') k = Some (Share1 (s1_id x0) (s1_val x0 + \sum_(kv <- d1 | kv.1 != self) shval x kv.1)) /\
    ds_other s' = ds_other s /\ ds_V s' = ds_V s.
Proof.
move=> self s d x s' o; rewrite /dround3.
have z : exists d1 d2, d = d1 ++ d2 /\ forall k x0, self = k.+1 -> sget (ds_X s) k = Some x0 ->
    sget (ds_X s) k = Some (Share1 (s1_id x0) (s1_val x0 + \sum_(kv <- d1 | kv.1 != self) shval x kv.1)) /\
    ds_other s = ds_other s /\ ds_V s = ds_V s.
  by exists [::], d; split=> // k [i v] _ ->; rewrite big_nil addr0.
case: ifP => _; first by case=> <- _; exact: z.
case: ifP => _; first by case=> <- _; exact: z.
case: new_feldman => [f| |]; try by case=> <- _; exact: z.
case ex: (match self with 0%N => None | k.+1 => _ end) => [x0|]; last by case=> <- _; exact: z.
have [k ek] : exists k, self = k.+1 by case: (self) ex => [|k] // _; exists k.
have exk : sget (ds_X s) k = Some x0 by move: ex; rewrite ek.
have L : forall d xi vs, exists d1 d2, d = d1 ++ d2 /\ (loop3 self f (ds_other s) x d xi vs).1 =
    xi + \sum_(kv <- d1 | kv.1 != self) shval x kv.1.
  elim=> [|[j w] dd IH] xi vs; first by exists [::], [::]; rewrite big_nil addr0.
  rewrite dloop3_cons; case: eqP => [e|/eqP ne].
    have [d1 [d2 [-> e2]]] := IH xi vs; exists ((j, w) :: d1), d2; split=> //; by rewrite e2 big_cons /= e eqxx.
  case E: step3 => [[v y]| |]; try by exists [::], ((j, w) :: dd); rewrite big_nil addr0.
  have [d1 [d2 [-> e2]]] := IH (xi + y) ((j, v) :: vs); exists ((j, w) :: d1), d2; split=> //.
  by rewrite e2 big_cons /= ne addrA; have [-> _] := step3E E.
have [d1 [d2 [ed e1]]] := L d (s1_val x0) [:: (self, ds_V s)]; rewrite {z}.
case El: dloop3 e1 => [xi r] /= e1 h; exists d1, d2; split=> // k' x0' ek' ex'.
have ekk : k' = k by move: ek'; rewrite ek => -[].
have {ex'} ex0 : x0' = x0 by move: ex'; rewrite ekk exk => -[].
have kx : (k < size (ds_X s))%N.
  by move: exk; rewrite /sget; case: ltnP => // hk; rewrite nth_default ?size_map.
have sx : sget (set_X s self xi) k = Some (Share1 (s1_id x0) xi).
  by rewrite /set_X ek /= exk (@sgetE _ _ k x0) ?size_set_nth ?leq_max ?ltnSn // nth_set_nth /= eqxx.
rewrite ekk ex0 -e1; move: h.
by case: (bind _ _) => [[[v y] pf]| |] [<- _]; cbn [ds_X ds_other ds_V].
Qed.

(** a share altered by one unit *)
Definition bad (x : seq (nat * option (share1 p))) (j : nat) : seq (nat * option (share1 p)) :=
  [seq (kv.1, if kv.1 == j then omap (fun s => Share1 (s1_id s) (s1_val s + 1)) kv.2 else kv.2) | kv <- x].

Lemma assoc_bad x j i : assoc i (bad x j) = if i == j then omap (omap (fun s => Share1 (s1_id s) (s1_val s + 1))) (assoc i x) else assoc i x.
Proof.
elim: x => [|[k v] x IH] /=; first by case: eqP.
case: (k =P i) => [->|_] //=; by case: eqP.
Qed.

Lemma step3_x f (other : seq (nat * odata aux)) x x' j w : assoc j x = assoc j x' -> stp3 f other x j w = stp3 f other x' j w.
Proof. by rewrite /step3 => ->. Qed.

Lemma step3_bad f (other : seq (nat * odata aux)) x j w v y : stp3 f other x j w = Ok (v, y) -> stp3 f other (bad x j) j w = Err.
Proof.
move=> h0; have [ey [[sh es] _]] := step3E h0; move: h0; rewrite /step3 assoc_bad eqxx es.
cbn [omap obind oapp deref].
case: (deref (assoc j other)) => //= o; case: (deref w) => //= w'; case: copen => //= -[] //=.
case: unmarshal_verifiers => //= vs; rewrite /feldman_verify1; case: ifP => //= _.
rewrite /new_element; case: ifP => //= _; case: vs => //= c0 cs; set rhs := commit_eval1 _ _ _ _.
case: eqP => //= e _; case: eqP => // e'.
have : (1 : 'F_p) *: g = 0.
  by apply: (@addrI _ (s1_val sh *: g)); rewrite addr0 -scalerDl e e'.
by move/hg/eqP; rewrite oner_eq0.
Qed.

(** C40 finding: take any call of DkgRound3 that would succeed, any participant j2 and any map order.  If the share
    of j2 first arrives altered, that call fails; repeating it with the correct inputs succeeds, returns the same
    proof and sets the same public key, but the signing share now contains twice the shares of every participant
    that precedes j2 in the iteration order. *)
Theorem C40_retry_refuted : forall self (s : dst G aux) d1 j2 w2 d2 x s' pf v,
  round3 self s (d1 ++ (j2, w2) :: d2) x = (s', Ok pf) -> ds_Xi s' = Some v ->
  self \notin map fst d1 -> j2 != self -> j2 \notin map fst d1 ->
  exists s1, round3 self s (d1 ++ (j2, w2) :: d2) (bad x j2) = (s1, Err) /\
  exists s2, round3 self s1 (d1 ++ (j2, w2) :: d2) x = (s2, Ok pf) /\ ds_Y s2 = ds_Y s' /\
    ds_Xi s2 = Some (v + \sum_(j <- map fst d1) shval x j).
Proof.
move=> self s d1 j2 w2 d2 x s' pf v h0 hv nd ne nj; set d := d1 ++ _ :: _ in h0 *.
have [k [x0 [vs [xi [[e3 ek ex el] [tn ha hy [sk [esk ep]] es]]]]]] := dround3E pp fs0 h0.
have d0 : d <> [::] by rewrite /d; case: (d1).
have x0' : x <> [::] by move: h0; rewrite /dround3; case: (x) => //; rewrite orbT.
have bx0 : bad x j2 <> [::] by case: (x) x0'.
set f := Shamir1 (ds_t s) (ds_n s) in el.
(* the failing call *)
have el1 : loop3 self f (ds_other s) (bad x j2) d (s1_val x0) [:: (self, ds_V s)] =
    (s1_val x0 + \sum_(j <- map fst d1) shval x j, Err).
  rewrite big_map; move: el; rewrite /d; move: (s1_val x0) [:: (self, ds_V s)]; rewrite {h0 d d0}.
  elim: d1 nd nj => [|[j w] dd IH].
    move=> _ _ a l; rewrite cat0s !dloop3_cons (negbTE ne) big_nil addr0.
    by case E: step3 => [[v2 y2]| |] // _; rewrite (step3_bad E).
  rewrite [map _ _]/= !inE !negb_or => /andP [ns nd] /andP [n2 nj] a l.
  have nj2 : (j == j2) = false by apply/negbTE; rewrite eq_sym.
  rewrite cat_cons !dloop3_cons [j == self]eq_sym (negbTE ns) big_cons.
  rewrite (@step3_x f (ds_other s) (bad x j2) x j w) ?assoc_bad ?nj2 //.
  by case E: step3 => [[v2 y2]| |] //; move/(IH nd nj) => ->; have [-> _] := step3E E; rewrite addrA.
set dl := \sum_(j <- _) _ in el1 *.
set s1 := Dst (ds_round s) (ds_D s) (ds_sk s) (ds_V s) (set_X s self (s1_val x0 + dl)) (ds_t s) (ds_n s) (ds_other s) (ds_Y s) (ds_Xi s) (ds_pub s).
exists s1; split.
  rewrite /dround3 e3.
  have -> : (size d == 0%N) = false by case: (d) d0.
  have -> : (size (bad x j2) == 0%N) = false by case: (bad x j2) bx0.
  case/andP: tn => t2 tn.
  by rewrite /= /new_feldman ltnNge tn /= ltnNge t2 /= {1}ek ex -/f el1 /= /s1 e3.
have kx : (k < size (ds_X s))%N.
  by move: ex; rewrite /sget; case: ltnP => // hk; rewrite nth_default ?size_map.
have sx : sget (ds_X s1) k = Some (Share1 (s1_id x0) (s1_val x0 + dl)).
  by rewrite /s1 /= /set_X ek /= ex (@sgetE _ _ k x0) ?size_set_nth ?leq_max ?ltnSn // nth_set_nth /= eqxx.
have sh : forall dd a b l, (loop3 self f (ds_other s) x dd (a + b) l) = ((loop3 self f (ds_other s) x dd a l).1 + b, (loop3 self f (ds_other s) x dd a l).2).
  elim=> [|[j w] dd IH] a b l //; rewrite !dloop3_cons; case: eqP => _; first exact: IH.
  case: step3 => [[v2 y2]| |] //; by rewrite addrAC IH.
have el2 : loop3 self f (ds_other s1) x d (s1_val (Share1 (s1_id x0) (s1_val x0 + dl))) [:: (self, ds_V s1)] = (xi + dl, Ok vs).
  by rewrite /= sh el.
eexists; split; first exact: (@dround3_ok self s1 d x k _ (xi + dl) vs sk pf d0 x0' e3 tn ek sx el2 ha hy esk ep).
cbn [ds_Y ds_Xi]; rewrite es; split=> //.
by move: hv; rewrite es; cbn [ds_Xi]; move=> h; congr Some; congr (_ + _); exact: (congr1 (odflt 0) h).
Qed.

Lemma perm_to_rem_filter n i : i \in iota 1 n -> perm_eq (iota 1 n) (i :: [seq j <- iota 1 n | j != i]).
Proof.
by move=> h; rewrite -rem_filter ?iota_uniq //; exact: perm_to_rem.
Qed.

(** round 2 with the broadcasts of the other participants *)
Lemma count_others n i (f : nat -> dbcast1 aux) : i \in iota 1 n ->
  count (fun kv : nat * option (dbcast1 aux) => isSome kv.2 && (kv.1 != i)) [seq (j, Some (f j)) | j <- iota 1 n] = n.-1.
Proof.
move=> h; rewrite count_map -{2}(size_iota 1 n) -(count_predC (pred1 i)) count_uniq_mem ?iota_uniq // h add1n /=.
exact: eq_count.
Qed.

Lemma dloop2_ok self (X : seq (share1 p)) l (f : nat -> dbcast1 aux) o out dx : X <> [::] ->
  (forall j, j \in l -> (0 < j <= size X)%N) -> 
  (forall j, (bitlen (db_pk (f j)) == 2048%N) || (bitlen (db_pk (f j)) == 2047%N)) -> (forall a, auxv a = Ok tt) ->
  dloop2 auxv self X [seq (j, Some (f j)) | j <- l] o out =
   (rev [seq (j, Odata (db_pk (f j)) (db_aux (f j)) (db_C (f j))) | j <- l & j != self] ++ o,
    Ok (rev [seq (j, nth dx X j.-1) | j <- l & j != self] ++ out)).
Proof.
move=> X0 hl hb ha; elim: l o out hl => [|j l IH] o out hl //=.
have hl' : forall i, i \in l -> (0 < i <= size X)%N by move=> i hi; apply: hl; rewrite inE hi orbT.
case: eqP => [_|_] /=; first exact: IH.
have -> : (bitlen (db_pk (f j)) != 2048%N) && (bitlen (db_pk (f j)) != 2047%N) = false.
  by apply/negbTE; rewrite -negb_or negbK hb.
rewrite ha /=; have hj := hl j (mem_head _ _).
have [k ek] : exists k, j = k.+1 by exists j.-1; lia.
have -> : (if X is [::] then Err else bind (deref (match j with 0%N => None | k.+1 => sget X k end)) (fun x => Ok (f j, x)))
    = Ok (f j, nth dx X j.-1).
  by rewrite ek (@sgetE _ X k dx); [case: (X) X0|lia].
by rewrite IH // !rev_cons !cat_rcons.
Qed.

(** C39: executions exist, for all secrets with a non-zero sum, all polynomials, nonces and Paillier keys of the
    right size, whenever the proofs of the other participants are accepted *)
Theorem C39_runs_exist : forall t n (D : nat -> ddraw p aux) (r : nat -> bytes) (pf : nat -> psf),
  (2 <= t <= n)%N -> (n < p)%N ->
  (forall j, [/\ dr_u (D j) != 0, dr_c (D j) = Some (r j), size (r j) = 32%N &
     (bitlen (sN (dr_sk (D j))) == 2048%N) || (bitlen (sN (dr_sk (D j))) == 2047%N)]) ->
  (forall a, auxv a = Ok tt) ->
  let y := (\sum_(j <- iota 1 n) dr_u (D j)) *: g in y != 0 ->
  (forall j, psfp (dr_sk (D j)) j y = Ok (pf j) /\ psfv (sN (dr_sk (D j))) j y (pf j) = Ok tt) ->
  exists T, [/\ e_d T = D, dkg_run g fs penc pdec H blk auxv psfp psfv t n T,
    forall i, map fst (e_d3 T i) = iota 1 n &
    forall i j, i \in iota 1 n -> j \in iota 1 n -> j != i ->
      assoc j (e_x3 T i) = Some (Some (Share1 i (Poly (coefs t (D j))).[i%:R]))].
Proof.
move=> t n D r pf tn np hD ha y y0 hpf.
have dx : share1 p by exact: (Share1 0 0).
pose b j := Dbcast1 (hmac H blk (r j) (vmsg g penc t (D j))) (sN (dr_sk (D j))) (dr_aux (D j)).
pose s1 j := state1 g penc (dst0 G aux) t n (D j) (r j).
pose o2 j := [seq (m, nth dx (ds_X (s1 j)) m.-1) | m <- rev [seq m <- iota 1 n | m != j]].
pose ot j := [seq (m, Odata (db_pk (b m)) (db_aux (b m)) (db_C (b m))) | m <- rev [seq m <- iota 1 n | m != j]].
pose s2 j := set_other (s1 j) 3 (ot j).
pose w j := Some (Witness (vmsg g penc t (D j)) (r j)).
pose d3 (i : nat) := [seq (j, w j) | j <- iota 1 n].
pose x3 i := [seq (j, assoc i (o2 j)) | j <- iota 1 n].
have t0 : (0 < t)%N by lia.
have h1 j : dround1 g penc H blk (dst0 G aux) t n (D j) = (s1 j, Ok (b j)).
  by have [a1 a2 a3 _] := hD j; apply: dround1_ok.
have h2 j : j \in iota 1 n -> dround2 auxv j (s1 j) [seq (i, Some (b i)) | i <- iota 1 n] = (s2 j, Ok (w j, o2 j)).
  move=> jn; rewrite /dround2; cbn [ds_round state1 s1]; rewrite eqxx; cbn [negb].
  rewrite count_others //; cbn [ds_n state1 s1]; rewrite eqxx; cbn [negb].
  rewrite (@dloop2_ok j (ds_X (s1 j)) (iota 1 n) b [::] [::] dx) //.
  + by rewrite !cats0 /o2 /s2 /ot !map_rev.
  + by cbn [ds_X state1 s1]; case: (n) tn => //; lia.
  + by move=> i; rewrite mem_iota; cbn [ds_X state1 s1]; rewrite size_map size_iota; lia.
  + by move=> i; have [] := hD i.
have mi i j : i \in iota 1 n -> i != j -> i \in rev [seq m <- iota 1 n | m != j].
  by move=> h1' h2'; rewrite mem_rev mem_filter h1' h2'.
have ax i j : i \in iota 1 n -> j \in iota 1 n -> j != i ->
    assoc j (x3 i) = Some (Some (Share1 i (Poly (coefs t (D j))).[i%:R])).
  move=> hi hj ne; rewrite /x3 assoc_map hj /o2 assoc_map mi // 1?eq_sym //; cbn [ds_X state1 s1].
  have hi1 : (i.-1 < n)%N by move: hi; rewrite mem_iota; lia.
  have hi2 : i.-1.+1 = i by move: hi; rewrite mem_iota; lia.
  by rewrite (nth_map 0%N) ?size_iota // nth_iota // add0n /mk1 hi2.
have st3 i j : i \in iota 1 n -> j \in iota 1 n -> j != i ->
    stp3 (Shamir1 t n) (ot i) (x3 i) j (w j) = Ok (vers g t (D j), (Poly (coefs t (D j))).[i%:R]).
  move=> hi hj ne; apply: (@step3_ok t n _ _ j (D j) (r j) (sN (dr_sk (D j))) (dr_aux (D j)) i t0).
  - by move: hi; rewrite mem_iota; lia.
  - by rewrite /ot assoc_map mi.
  exact: ax.
have h3 i : i \in iota 1 n -> exists s, round3 i (s2 i) (d3 i) (x3 i) = (s, Ok (pf i)) /\
    [/\ ds_round s = 4%N, ds_other s = ot i & ds_Y s = Some y].
  move=> hi; pose x0 := nth dx (ds_X (s1 i)) i.-1.
  have keys : map fst (d3 i) = iota 1 n by rewrite /d3 -map_comp map_id.
  have st j w' : List.In (j, w') (d3 i) -> j != i ->
      stp3 (Shamir1 t n) (ot i) (x3 i) j w' = Ok (vers g t (D j), (Poly (coefs t (D j))).[i%:R]).
    move=> hin ne; have hj : j \in iota 1 n by rewrite -keys; apply: keys_In hin.
    have -> : w' = w j by move: hin; rewrite /d3; elim: (iota 1 n) => //= m l IH [[<- <-]|/IH].
    exact: st3.
  have [xi el] := @dloop3_ok i (Shamir1 t n) (ot i) (x3 i) (d3 i) (fun j => vers g t (D j))
    (fun j => (Poly (coefs t (D j))).[i%:R]) (s1_val x0) [:: (i, vers g t (D i))] st.
  set vs := rev _ ++ _ in el.
  have sv j : size (vers g t (D j)) = t by rewrite size_map size_coefs.
  have va : all (fun kv => t <= size kv.2)%N vs.
    rewrite all_cat; apply/andP; split; last by cbn [all snd]; rewrite sv leqnn.
    by rewrite all_rev all_map; apply/allP => j _; change (t <= size (vers g t (D j)))%N; rewrite sv.
  have sy : sumV vs 0 = y.
    rewrite /sumV big_cat big_seq1 /= (perm_big [seq (j, vers g t (D j)) | j <- [seq fst i0 | i0 <- d3 i] & j != i]) ?perm_rev //=.
    rewrite big_map keys big_filter /y scaler_suml addrC (bigD1_seq i) ?iota_uniq //=.
  have hi1 : (i.-1 < n)%N by move: hi; rewrite mem_iota; lia.
  have ei : i = i.-1.+1 by move: hi; rewrite mem_iota; lia.
  have ex : sget (ds_X (s2 i)) i.-1 = Some x0.
    by rewrite (@sgetE _ _ _ dx) //; cbn [ds_X s2 set_other s1 state1]; rewrite size_map size_iota.
  eexists; split.
    apply: (@dround3_ok i (s2 i) (d3 i) (x3 i) i.-1 x0 xi vs (dr_sk (D i)) (pf i)) => //.
    - by rewrite /d3; case: (n) tn => //; lia.
    - by rewrite /x3; case: (n) tn => //; lia.
    - by rewrite sy.
    - by rewrite sy; have [] := hpf i.
  by cbn [ds_round ds_other ds_Y]; rewrite sy.
have [s3 hs3] : exists s3 : nat -> dst G aux, forall i, i \in iota 1 n -> round3 i (s2 i) (d3 i) (x3 i) = (s3 i, Ok (pf i)) /\
    [/\ ds_round (s3 i) = 4%N, ds_other (s3 i) = ot i & ds_Y (s3 i) = Some y].
  exists (fun i => (round3 i (s2 i) (d3 i) (x3 i)).1) => i /h3 [s [-> h]]; by [].
have [res hres] : exists res : nat -> dresult G aux, forall i, i \in iota 1 n ->
    dround4 psfv i (s3 i) [seq (j, pf j) | j <- iota 1 n] = Ok (res i).
  exists (fun i => Dresult (ds_pub (s3 i)) (ds_Y (s3 i)) (ds_Xi (s3 i)) (ds_sk (s3 i)) [seq (kv.1, (o_pk kv.2, o_aux kv.2)) | kv <- ds_other (s3 i)]) => i hi.
  have [_ [e4 eo eY]] := hs3 _ hi; rewrite /dround4 e4 eqxx size_map size_iota.
  have -> : (n == 0%N) = false by lia.
  have -> : has (fun kv : nat * odata aux => (kv.1 != i) && (kv.1 \notin [seq i0.1 | i0 <- [seq (j, pf j) | j <- iota 1 n]])) (ds_other (s3 i)) = false.
    rewrite eo /ot has_map; apply/hasP => -[j]; rewrite mem_rev mem_filter => /andP [_ hj] /=.
    by rewrite -map_comp map_id hj andbF.
  cbn [negb]; have -> : dloop4 psfv i (ds_other (s3 i)) (ds_Y (s3 i)) [seq (j, pf j) | j <- iota 1 n] = Ok tt; last by [].
  rewrite eo eY; have : {subset iota 1 n <= iota 1 n} by [].
  elim: {1 3}(iota 1 n) => [//|j l IH] sub /=.
  have hl : {subset l <= iota 1 n} by move=> a ha'; apply: sub; rewrite inE ha' orbT.
  case: eqP => [_|/eqP ne]; first exact: IH.
  rewrite /ot assoc_map mi ?sub ?mem_head // 1?eq_sym //=; have [_ ->] := hpf j; exact: IH.
exists (@Dexec p G aux psf D s1 b (fun i => [seq (j, Some (b j)) | j <- iota 1 n]) s2 w o2 d3 x3 s3 pf
  (fun i => [seq (j, pf j) | j <- iota 1 n]) res); split=> //; first last.
  by move=> i; cbn [e_d3]; rewrite /d3 -map_comp map_id.
move=> i hi; split; split.
- exact: h1.
- exact: h2.
- by have [] := hs3 _ hi.
- exact: hres.
- split; first by rewrite -map_comp map_id iota_uniq.
  by move=> j v; cbn [e_in2 e_b1]; elim: (iota 1 n) => //= m l IH [[<- <-]|/IH].
- cbn [e_d3]; rewrite /d3 -map_comp map_id perm_sym.
  by apply: perm_to_rem_filter hi.
- by move=> j v; cbn [e_d3 e_w]; rewrite /d3; elim: (iota 1 n) => //= m l IH [[<- <-]|/IH].
cbn [e_x3 e_o2]; split; first by rewrite -map_comp map_id iota_uniq.
by move=> j v; rewrite /x3; elim: (iota 1 n) => //= m l IH [[<- <-]|/IH].
Qed.
End Dkg.
Print Assumptions C39_runs_exist.

(** A concrete case: three participants, threshold 2, over F_257; the run exists, participant 3 processes
    participant 1 first, and the share it would count twice is 1 + 5*3 = 16. *)
Definition GF : lmodType 'F_257 := [lmodType 'F_257 of ('F_257)^o].
Definition penc2 (P : GF) : bytes := [:: nat_of_ord P; 0%N].
Definition pdec2 (b : bytes) : option GF := if b is [:: a; _] then Some (a%:R : 'F_257) else None.
Definition draw2 : ddraw 257 unit := Ddraw 1 (fun _ => 5%:R) (Some (nseq 32 7%N)) (SecretKey (2 ^ 2047) 0 0 0 0) tt.
Lemma bitlen_pow k : bitlen (2 ^ k) = k.+1.
Proof. by rewrite /bitlen -[_ == _]negbK -lt0n expn_gt0 /= trunc_expnK. Qed.

Lemma val257x : ((0 * 3%:R + 5%:R) * 3%:R + 1 : 'F_257) == 16%:R. Proof. by vm_compute. Qed.
Lemma three257 : (1 + (1 + 1) : 'F_257) != 0. Proof. by vm_compute. Qed.

Example C39_hyps : exists T, dkg_run (1 : GF) 1 penc2 pdec2 (fun _ => nseq 32 0%N) 64 (fun _ : unit => Ok tt)
    (fun _ _ _ => Ok tt) (fun _ _ _ _ => Ok tt) 2 3 T /\
  (forall i, map fst (e_d3 T i) = [:: 1%N; 2%N; 3%N]) /\ shval (e_x3 T 3%N) 1 = 16%:R.
Proof.
have K (P : GF) : pdec2 (penc2 P) = Some P by rewrite /pdec2 /penc2 natr_Zp.
have hg (a : 'F_257) : a *: (1 : GF) = 0 -> a = 0 by rewrite /GRing.scale /= mulr1.
have hb : bitlen (sN (dr_sk draw2)) = 2048%N by rewrite /draw2; cbn [dr_sk sN]; exact: bitlen_pow.
have hD (j : nat) : [/\ dr_u draw2 != 0, dr_c draw2 = Some (nseq 32 7%N), size (nseq 32 7%N) = 32%N &
    (bitlen (sN (dr_sk draw2)) == 2048%N) || (bitlen (sN (dr_sk draw2)) == 2047%N)].
  by split; [exact: isT|exact: erefl|exact: erefl|rewrite hb eqxx].
have h0 : (\sum_(j <- iota 1 3) dr_u draw2) *: (1 : GF) != 0.
  have hu : dr_u draw2 = 1 := erefl.
  rewrite hu !big_cons big_nil addr0; apply/eqP => /hg h; move/eqP: three257; apply; exact: h.
have [T [_ h1 h2 h3]] := @C39_runs_exist 257 GF 1 1 penc2 pdec2 (fun _ => nseq 32 0%N) 64 unit unit
  (fun _ => Ok tt) (fun _ _ _ => Ok tt) (fun _ _ _ _ => Ok tt) prime257 (fun _ => erefl) K isT hg (fun _ => erefl)
  2 3 (fun _ => draw2) (fun _ => nseq 32 7%N) (fun _ => tt) isT isT
  hD (fun _ => erefl) h0 (fun _ => conj erefl erefl).
exists T; split; first exact: h1.
split; first exact: h2.
rewrite /shval (h3 3%N 1%N isT isT isT); cbn [s1_val].
rewrite /coefs /= !horner_cons hornerC.
exact: (eqP val257x).
Qed.
Print Assumptions C39_wrong_recipient_refuted.
Print Assumptions C40_round3_effect.
Print Assumptions C40_retry_refuted.
