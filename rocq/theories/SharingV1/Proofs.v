From mathcomp Require Import all_ssreflect all_algebra zify.
From Verif Require Import Lib.Res Lib.Bytes Lib.Lagrange Sharing.Proofs SharingV1.Model.
Set Implicit Arguments.
Unset Strict Implicit.
Unset Printing Implicit Defensive.
Import GRing.Theory.
Local Open Scope ring_scope.

Section P.
Variable p : nat.
Hypothesis pp : prime p.
Let F := [fieldType of 'F_p].

Lemma val_natr n : (n < p)%N -> val (n%:R : 'F_p) = n.
Proof. by move=> h; rewrite /= val_Fp_nat // modn_small. Qed.

Lemma natr_inj m n : (m < p)%N -> (n < p)%N -> (m%:R : 'F_p) = n%:R -> m = n.
Proof. by move=> hm hn /(congr1 val); rewrite !val_natr. Qed.

Lemma evaluate1E (cs : seq 'F_p) x : cs != [::] -> evaluate1 cs x = Ok (Poly cs).[x].
Proof.
case/lastP: cs => [//|cs c] _; rewrite /evaluate1 rev_rcons; congr Ok.
exact: (@foldl_horner F x cs c).
Qed.

Definition mk1 (cs : seq 'F_p) i : share1 p := Share1 i.+1 (Poly cs).[(i.+1)%:R].

Lemma make_shares1E cs idx : cs != [::] -> (forall i, i \in idx -> (i.+1 < p)%N) ->
  make_shares1 cs idx = Ok [seq mk1 cs i | i <- idx].
Proof.
move=> hcs; elim: idx => [//|i r IH] h /=.
rewrite /new_element h ?mem_head //= evaluate1E //= IH // => j hj.
by apply: h; rewrite inE hj orbT.
Qed.

Lemma basis1_uniq (xs : seq 'F_p) t i : uniq xs -> size xs = t -> (i < t)%N ->
  basis1 xs t i = Ok (\prod_(j < t | (j : nat) != i) (nth 0 xs j / (nth 0 xs j - nth 0 xs i))).
Proof.
move=> u sx hi; rewrite /basis1.
have H : forall r c, (forall j, j \in r -> (j < t)%N) -> foldl (fun acc j =>
     do basis <- acc; if i == j then Ok basis
     else let denom := nth 0 xs j - nth 0 xs i in
          if denom == 0 then Err else Ok (basis * (nth 0 xs j / denom))) (Ok c) r
   = Ok (c * \prod_(j <- r | j != i) (nth 0 xs j / (nth 0 xs j - nth 0 xs i))).
  elim=> [|j r IH] c hr /=; first by rewrite big_nil mulr1.
  rewrite big_cons eq_sym; case: eqP => [->|/eqP nj] /=.
    by rewrite IH // => k hk; apply: hr; rewrite inE hk orbT.
  have jt : (j < t)%N by apply: hr; rewrite mem_head.
  rewrite subr_eq0 nth_uniq ?sx // (negbTE nj) IH ?mulrA // => k hk.
  by apply: hr; rewrite inE hk orbT.
rewrite H => [|j]; last by rewrite mem_iota.
by rewrite mul1r -[iota _ _](_ : index_iota 0 t = _) ?big_mkord // /index_iota subn0.
Qed.

Lemma basis1_dup (xs : seq 'F_p) t i j : (i < t)%N -> (j < t)%N -> i != j -> nth 0 xs i = nth 0 xs j ->
  basis1 xs t i = Err.
Proof.
move=> hi hj nij e; rewrite /basis1.
set f := fun acc j => _.
have ferr : forall r, foldl f Err r = Err by elim.
have H : forall r c, j \in r -> foldl f (Ok c) r = Err.
  elim=> [//|k r IH] c; rewrite inE => /orP[/eqP <-|hr] /=.
    by rewrite (negbTE nij) e subrr eqxx ferr.
  case: (i == k); first exact: IH.
  by case: ifP => _; [apply: ferr | apply: IH].
by apply: H; rewrite mem_iota.
Qed.

Definition valid_id lim (s : share1 p) : bool := (s1_id s <= lim)%N && (1 <= s1_id s)%N.

Lemma collect1E lim l : (lim < p)%N ->
  collect1 lim (map Some l) =
  if all (valid_id lim) l then Ok ([seq (s1_id s)%:R | s <- l], [seq s1_val s | s <- l]) else Err.
Proof.
move=> lp; elim: l => [//|s l IH] /=.
rewrite {1}/valid_id; case: (ltnP lim (s1_id s)) => hl //=.
rewrite (ltnNge (s1_id s) 1); case: (ltnP 0 (s1_id s)) => //= h0.
rewrite /new_element (leq_ltn_trans hl lp) /= IH.
by case: (all _ l).
Qed.

Lemma interpolate1E s (xs ys : seq 'F_p) : size xs = s1_threshold s -> size ys = s1_threshold s ->
  interpolate1 s xs ys =
  if uniq xs then Ok (\sum_(i < size xs) nth 0 ys i *
     \prod_(j < size xs | (j : nat) != i) (nth 0 xs j / (nth 0 xs j - nth 0 xs i))) else Err.
Proof.
move=> sx sy; rewrite /interpolate1 sx sy ltnn /=.
set t := s1_threshold s in sx sy *.
case: ifP => u.
  pose h i := nth 0 ys i * \prod_(j < t | (j : nat) != i) (nth 0 xs j / (nth 0 xs j - nth 0 xs i)).
  have H : forall r c, (forall i, i \in r -> (i < t)%N) ->
    foldl (fun acc i => do result <- acc; do b <- basis1 xs t i; Ok (result + nth 0 ys i * b)) (Ok c) r
    = Ok (c + \sum_(i <- r) h i).
    elim=> [|i r IH] c hr /=; first by rewrite big_nil addr0.
    rewrite basis1_uniq //= ?IH ?big_cons ?addrA //; last by apply: hr; rewrite mem_head.
    by move=> k hk; apply: hr; rewrite inE hk orbT.
  rewrite H => [|j]; last by rewrite mem_iota.
  by rewrite add0r -[iota _ _](_ : index_iota 0 t = _) ?big_mkord // /index_iota subn0.
set f := fun acc i => _.
have ferr : forall r, foldl f Err r = Err by elim.
have [i [j [hi hj nij e]]] : exists i j, [/\ (i < t)%N, (j < t)%N, i != j & nth 0 xs i = nth 0 xs j].
  case/negbT/(uniqPn 0): u => i [j [ij jl e]]; exists i, j; rewrite -sx; split=> //.
    exact: ltn_trans ij jl.
  by rewrite neq_ltn ij.
have H : forall r c, i \in r -> (forall k, k \in r -> basis1 xs t k = Err \/ is_ok (basis1 xs t k)) ->
   foldl f (Ok c) r = Err.
  elim=> [//|k r IH] c; rewrite inE => /orP[/eqP <-|hr] hk /=.
    by rewrite (basis1_dup hi hj nij e) ferr.
  case: (hk k (mem_head _ _)) => [->|]; first exact: ferr.
  case: (basis1 xs t k) => //= a _; apply: IH => // m hm; apply: hk.
  by rewrite inE hm orbT.
apply: H; first by rewrite mem_iota.
move=> k _; rewrite /basis1.
have : forall r c, let x := foldl (fun acc j0 => do basis <- acc; if k == j0 then Ok basis
     else let denom := nth 0 xs j0 - nth 0 xs k in
       if denom == 0 then Err else Ok (basis * (nth 0 xs j0 / denom))) (Ok c) r in x = Err \/ is_ok x.
  elim=> [|m r IH] c /=; first by right.
  case: (k == m); first exact: IH.
  case: ifP => _; last exact: IH.
  by left; elim: (r).
by apply.
Qed.

Theorem v1_reconstruct t n s secret (rnd : nat -> 'F_p) shares :
  new_shamir1 t n = Ok s -> (n < p)%N -> (n < 2 ^ 32)%N -> is_bytes secret ->
  split1 s secret rnd = Ok shares ->
  forall sel, (forall sh, List.In sh sel -> List.In sh shares) ->
  uniq [seq s1_id sh | sh <- sel] -> (t <= size sel)%N ->
  combine1 s (map Some sel) = Ok (strip0 secret).
Proof.
rewrite /new_shamir1; case: ltnP => // tn; case: ltnP => // t2 [<-] np n32 hb.
have [t32 n32'] : u32 t = t /\ u32 n = n by rewrite /u32 !modn_small // (leq_ltn_trans tn).
rewrite t32 n32' /split1 /get_shares_and_poly; case: eqP => // _; case: ltnP => // sp.
rewrite /= /new_element sp /=; case: t t2 tn t32 => [//|t] t2 tn _ /=.
set cs := _ :: mkseq rnd t.
rewrite make_shares1E //=; last first.
  by move=> i; rewrite mem_iota /= add0n => hi; apply: leq_ltn_trans np.
case=> <- sel hsel u ts.
have dl : forall sh, List.In sh sel -> exists2 i, (i < n)%N & sh = mk1 cs i.
  move=> sh /hsel; have : forall k m, List.In sh [seq mk1 cs i | i <- iota k m] ->
    exists2 i, (i < k + m)%N & sh = mk1 cs i.
    move=> k m; elim: m k => [//|m IH] k /= [<-|/IH[i hi ->]]; first by exists k => //; rewrite addnS ltnS leq_addr.
    by exists i => //; rewrite addnS -addSn.
  by move=> H /H[i hi ->]; exists i.
rewrite /combine1 size_map ltnNge [s1_threshold _]/= ts /= -map_take.
have st : size (take t.+1 sel) = t.+1 by rewrite size_takel.
have dl' : forall sh, List.In sh (take t.+1 sel) -> exists2 i, (i < n)%N & sh = mk1 cs i.
  move=> sh h; apply: dl; move: (t.+1) h => m; elim: (sel) m => [//|a l IH] [|m] //= [->|/IH]; auto.
rewrite collect1E //.
have -> : all (valid_id n) (take t.+1 sel).
  elim: (take t.+1 sel) dl' => [//|a l IH] h /=; rewrite IH ?andbT; last by move=> x hx; apply: h; right.
  by case: (h a (or_introl erefl)) => i hi ->; rewrite /valid_id /= hi.
rewrite [bind (Ok _) _]/=; rewrite interpolate1E; [|by rewrite size_map|by rewrite size_map].
set xs := [seq (s1_id s0)%:R | s0 <- _].
have ux : uniq xs.
  rewrite /xs (map_comp (fun i : nat => i%:R) (@s1_id p)) map_inj_in_uniq; last first.
    have hid : forall x, x \in [seq s1_id s0 | s0 <- take t.+1 sel] -> (x < p)%N.
      elim: (take t.+1 sel) dl' => [//|a l IH] h x /=; rewrite inE => /orP[/eqP ->|hx].
        by case: (h a (or_introl erefl)) => i hi -> /=; apply: leq_ltn_trans np.
      by apply: IH hx => y hy; apply: h; right.
    by move=> a b /hid ha /hid hb'; apply: natr_inj.
  by rewrite map_take take_uniq.
rewrite ux; congr Ok.
have sxs : size xs = t.+1 by rewrite size_map.
have xinj : injective (fun i : 'I_(size xs) => nth 0 xs i).
  by move=> i j /eqP; rewrite nth_uniq // => /eqP/val_inj.
have sP : (size (Poly cs) <= size xs)%N.
  by rewrite sxs; apply: leq_trans (size_Poly _) _; rewrite /= size_mkseq.
transitivity (be_bytes (val (Poly cs).[0])); last first.
  by rewrite (@Poly0 F) val_natr // be_bytes_strip.
congr (be_bytes (val _)); rewrite (@lagrange_at0 F _ _ xinj _ sP).
have sxs' : size [seq s1_val s0 | s0 <- take t.+1 sel] = size xs by rewrite !size_map.
apply: eq_bigr => i _; rewrite prodf_div; congr (_ * _).
have hi : (i < size (take t.+1 sel))%N by rewrite -[X in (_ < X)%N](size_map (fun s0 => (s1_id s0)%:R : 'F_p)).
have s0 : share1 p by exact: (Share1 0 0).
rewrite /xs !(nth_map s0) //.
have : List.In (nth s0 (take t.+1 sel) i) (take t.+1 sel).
  move: hi; move: (nat_of_ord i); elim: (take t.+1 sel) => [//|a l IH] [|k] //= h; auto.
by case/dl'=> k hk ->.
Qed.

(** only the first [t] shares matter *)
Theorem v1_ignores_rest s (l extra : seq (option (share1 p))) :
  size l = s1_threshold s -> combine1 s (l ++ extra) = combine1 s l.
Proof.
by move=> sl; rewrite /combine1 size_cat sl ltnn ltnNge leq_addr /= take_size_cat // -sl take_size.
Qed.

(** a repeated identifier among the first [t] shares is an error, although the [dups] map is never
    written: the interpolation meets a zero denominator *)
Theorem v1_duplicate_err s (l : seq (share1 p)) :
  (s1_limit s < p)%N -> (s1_threshold s <= size l)%N ->
  ~~ uniq [seq s1_id sh | sh <- take (s1_threshold s) l] ->
  combine1 s (map Some l) = Err.
Proof.
move=> lp ts nu; rewrite /combine1 size_map ltnNge ts /= -map_take collect1E //.
case: ifP => [va|//]; rewrite [bind (Ok _) _]/=.
rewrite interpolate1E ?size_map ?size_takel //=.
have -> : uniq [seq ((s1_id s0)%:R : 'F_p) | s0 <- take (s1_threshold s) l] = false; last by [].
apply: contraNF nu; rewrite (map_comp (fun i : nat => i%:R) (@s1_id p)).
exact: map_uniq.
Qed.

(** Feldman (v1) *)
Theorem v1_feldman_exact (G : lmodType F) (g : G) s (cs : seq F) (sh : share1 p) :
  (forall a : F, a *: g = 0 -> a = 0) -> (0 < s1_threshold s <= size cs)%N -> (s1_id sh < p)%N ->
  exists b, feldman_verify1 g s (Some sh) [seq c *: g | c <- cs] = Ok b /\
    (b <-> s1_val sh = (Poly cs).[(s1_id sh)%:R]).
Proof.
move=> hg /andP[t0 ts] idp; rewrite /feldman_verify1 size_map ltnNge ts /= /new_element idp /=.
case: cs ts => [|c cs] ts; first by rewrite leqNgt t0 in ts.
have := @commit_eval_poly F G (s1_id sh)%:R g (c :: cs).
have ce : forall (x i : F) r (l : seq G), commit_eval1 x i r l = Sharing.Model.commit_eval x i r l.
  by move=> x i r l; elim: l i r => [//|a l IH] i r /=.
move=> /= H; eexists; split; first reflexivity.
rewrite ce H; split=> [/eqP e|->]; last exact: eqxx.
have /hg/eqP : (s1_val sh - (Poly (c :: cs)).[(s1_id sh)%:R]) *: g = 0.
  by rewrite scalerBl e subrr.
by rewrite subr_eq0 => /eqP.
Qed.

End P.
