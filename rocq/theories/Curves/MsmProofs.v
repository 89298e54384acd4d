(** Proofs about the scalar-multiplication algorithms. *)
From Coq Require Import PeanoNat ZArith Lia.
From mathcomp Require Import all_ssreflect all_algebra zify.
From Verif Require Import Lib.Res Lib.Bytes Curves.MsmModel.
Set Implicit Arguments.
Unset Strict Implicit.
Unset Printing Implicit Defensive.
Import GRing.Theory.
Local Open Scope ring_scope.
Local Delimit Scope Z_scope with Z.

(** The representations [P] satisfying [wf] stand for elements of the group [G] through [phi], and the three
    operations compute the group's. *)
Record represents (G : zmodType) (P : Type) (pid : P) (padd : P -> P -> P) (pdbl : P -> P)
    (wf : P -> Prop) (phi : P -> G) : Prop := Represents {
  rep_id : wf pid /\ phi pid = 0;
  rep_add : forall p q, wf p -> wf q -> wf (padd p q) /\ phi (padd p q) = phi p + phi q;
  rep_dbl : forall p, wf p -> wf (pdbl p) /\ phi (pdbl p) = phi p *+ 2 }.

Fixpoint every (P : Type) (wf : P -> Prop) (s : seq P) : Prop :=
  if s is x :: s' then wf x /\ every wf s' else True.

Section Digits.

(** the base-16 digits of a byte string, least significant first *)
Fixpoint nibs (bs : bytes) : seq nat := if bs is x :: b then (x %% 16)%N :: (x %/ 16)%N :: nibs b else [::].

Lemma natdivE x d : (0 < d)%N -> Nat.div x d = (x %/ d)%N /\ Nat.modulo x d = (x %% d)%N.
Proof.
move=> hd; have h1 := divn_eq x d; have h2 : (x %% d < d)%N by rewrite ltn_mod.
move: (x %/ d)%N (x %% d)%N h1 h2 => q r h1 h2.
split; symmetry; [apply: (Nat.div_unique _ _ _ r) | apply: (Nat.mod_unique _ _ q)]; lia.
Qed.

Lemma nib_lo x : Nat.land (Nat.shiftr x 0) 15 = (x %% 16)%N.
Proof.
rewrite Nat.shiftr_0_r -[15%N]/(Nat.ones 4) Nat.land_ones -[Nat.pow 2 4]/16%N.
by have [_ ->] := @natdivE x 16 isT.
Qed.

Lemma nib_hi x : (x < 256)%N -> Nat.land (Nat.shiftr x 4) 15 = (x %/ 16)%N.
Proof.
move=> h; rewrite -[15%N]/(Nat.ones 4) Nat.land_ones Nat.shiftr_div_pow2 -[Nat.pow 2 4]/16%N.
have [-> _] := @natdivE x 16 isT; rewrite Nat.mod_small //; lia.
Qed.

Lemma nth_nibs bs i : (nth 0 (nibs bs) (2 * i) = nth 0 bs i %% 16)%N /\ (nth 0 (nibs bs) (2 * i).+1 = nth 0 bs i %/ 16)%N.
Proof.
elim: bs i => [|x b IH] i; first by rewrite !nth_nil.
by case: i => [|i] //; rewrite mulnS; exact: IH.
Qed.

Lemma size_nibs bs : size (nibs bs) = (2 * size bs)%N.
Proof. by elim: bs => //= x b ->; rewrite mulnS. Qed.

Lemma nibs_lt bs d : is_bytes bs -> d \in nibs bs -> (d < 16)%N.
Proof.
elim: bs => //= x b IH /andP[hx hb]; rewrite !inE => /orP[/eqP-> | /orP[/eqP-> | h]]; try lia.
exact: IH.
Qed.

Lemma is_bytes_nth bs i : is_bytes bs -> (nth 0 bs i < 256)%N.
Proof.
move=> h; case: (ltnP i (size bs)) => hi; last by rewrite nth_default.
by apply: (allP h); rewrite mem_nth.
Qed.

Lemma nth_nibs_lt bs j : is_bytes bs -> (nth 0 (nibs bs) j < 16)%N.
Proof.
move=> h; case: (ltnP j (size (nibs bs))) => hj; last by rewrite nth_default.
by apply: (nibs_lt h); rewrite mem_nth.
Qed.

Lemma nibbleE bs j : (j < 64)%N -> is_bytes bs -> nibble bs j = nth 0%N (nibs bs) j.
Proof.
move=> hj hb; have hn i := is_bytes_nth i hb.
have [h1 h2] := nth_nibs bs (j %/ 2).
have e : Nat.shiftr (j * 4) 3 = (j %/ 2)%N.
  rewrite Nat.shiftr_div_pow2 -[Nat.pow 2 3]/8%N.
  by have [-> _] := @natdivE (j * 4) 8 isT; lia.
have e' : Nat.land (4 * j) 4 = (if odd j then 4 else 0)%N.
  by move: j hj {h1 h2 e}; do 64 (case => [//|]).
rewrite /nibble e e'; case: ifP => ho.
  have -> : j = (2 * (j %/ 2)).+1 by lia.
  by rewrite h2 nib_hi //; congr (nth _ _ _ %/ _)%N; lia.
have -> : j = (2 * (j %/ 2))%N by lia.
by rewrite h1 nib_lo; congr (nth _ _ _ %% _)%N; lia.
Qed.

Lemma windowE bs k : (k < 64)%N -> window bs (4 * k) = nibble bs (63 - k).
Proof.
move=> hk; rewrite /window /nibble.
have -> : (32 - 1 - Nat.shiftr (4 * k) 3 = Nat.shiftr ((63 - k) * 4) 3)%N.
  rewrite !Nat.shiftr_div_pow2 -[Nat.pow 2 3]/8%N.
  by have [-> _] := @natdivE (4 * k) 8 isT; have [-> _] := @natdivE ((63 - k) * 4) 8 isT; lia.
congr (Nat.land (Nat.shiftr _ _) _).
by move: k hk; do 64 (case => [//|]).
Qed.

(** Horner's value of a digit list, least significant first *)
Fixpoint horn (w : nat) (ds : seq nat) : nat := if ds is d :: ds' then (horn w ds' * 2 ^ w + d)%N else 0%N.

Lemma horn_nibs bs : horn 4 (nibs bs) = le_val bs.
Proof.
elim: bs => [|x b IH]; first by rewrite le_val_nil.
by rewrite le_val_cons /= IH -[(2 ^ 4)%N]/16%N; lia.
Qed.

Lemma pindexE k j : Z.of_nat (pindex k j) = ((k / 64 ^ Z.of_nat j) mod 64)%Z.
Proof.
rewrite /pindex Z.land_comm -[63%Z]/(Z.ones 6) Z.land_ones; last by lia.
rewrite Z.shiftr_div_pow2; last by lia.
rewrite Z.pow_mul_r; [|lia|lia].
by rewrite Z2Nat.id // -[(2 ^ 6)%Z]/64%Z; apply Z.mod_pos_bound.
Qed.

Lemma pindex_lt k j : (pindex k j < 64)%N.
Proof. by move: (Z.mod_pos_bound (k / 64 ^ Z.of_nat j) 64 erefl); rewrite -pindexE; lia. Qed.

Lemma pindex0 k : Z.of_nat (pindex k 0) = (k mod 64)%Z.
Proof. by rewrite pindexE Z.div_1_r. Qed.

Lemma pindexS k j : pindex k j.+1 = pindex (k / 64) j.
Proof.
apply: Nat2Z.inj; rewrite !pindexE.
rewrite (_ : 64 ^ Z.of_nat j.+1 = 64 * 64 ^ Z.of_nat j)%Z; first by rewrite Z.div_div; lia.
by rewrite -Z.pow_succ_r; [congr (_ ^ _)%Z|]; lia.
Qed.

Lemma horn_pindex n k : Z.of_nat (horn 6 [seq pindex k j | j <- iota 0 n]) = (k mod 64 ^ Z.of_nat n)%Z.
Proof.
elim: n k => [|n IH] k; first by rewrite /= Z.mod_1_r.
have -> : [seq pindex k j | j <- iota 0 n.+1] = pindex k 0 :: [seq pindex (k / 64) j | j <- iota 0 n].
  rewrite /= (iotaDl 1 0 n) -map_comp; congr (_ :: _); apply: eq_map => j /=.
  by rewrite -[(1 + j)%N]/j.+1 pindexS.
rewrite -[horn _ (_ :: _)]/(horn 6 [seq pindex (k / 64) j | j <- iota 0 n] * 2 ^ 6 + pindex k 0)%N.
rewrite -[(2 ^ 6)%N]/64%N Nat2Z.inj_add Nat2Z.inj_mul IH pindex0.
rewrite (_ : 64 ^ Z.of_nat n.+1 = 64 * 64 ^ Z.of_nat n)%Z; last first.
  by rewrite -Z.pow_succ_r; [congr (_ ^ _)%Z|]; lia.
by rewrite Z.rem_mul_r; lia.
Qed.

End Digits.

Section Proofs.
Variables (G : zmodType) (P : Type) (pid : P) (padd : P -> P -> P) (pdbl : P -> P).
Variables (wf : P -> Prop) (phi : P -> G).
Hypothesis R : represents pid padd pdbl wf phi.

Lemma wf_nth s k : every wf s -> wf (nth pid s k).
Proof.
elim: s k => [|x s IH] [|k] //=; try (by move=> _; exact: (rep_id R).1); first by case.
by case=> _; exact: IH.
Qed.

Lemma iter_dbl n p : wf p -> wf (iter n pdbl p) /\ phi (iter n pdbl p) = phi p *+ 2 ^ n.
Proof.
move=> hp; elim: n => [|n [IH1 IH2]] /=; first by rewrite mulr1n.
by have [h1 h2] := rep_dbl R IH1; split=> //; rewrite h2 IH2 -mulrnA expnS mulnC.
Qed.

(** Horner evaluation in the group *)
Fixpoint hv (w : nat) (xs : seq G) : G := if xs is x :: xs' then hv w xs' *+ 2 ^ w + x else 0.

Lemma combineE w ws : every wf ws ->
  wf (combine pid padd pdbl w ws) /\ phi (combine pid padd pdbl w ws) = hv w [seq phi x | x <- ws].
Proof.
rewrite /combine foldl_rev; elim: ws => [|x ws IH] /=; first by move=> _; exact: (rep_id R).
case=> hx /IH[h1 h2]; have [h3 h4] := iter_dbl w h1; have [h5 h6] := rep_add R h3 hx.
by split=> //; rewrite h6 h4 h2.
Qed.

Lemma hv_mul w x ds : hv w [seq x *+ d | d <- ds] = x *+ horn w ds.
Proof. by elim: ds => [|d ds IH] //=; rewrite IH mulrnDr mulrnA. Qed.

Lemma hv_sum w (I : Type) (r : seq I) (f : I -> nat -> G) (s : seq nat) :
  hv w [seq \sum_(i <- r) f i j | j <- s] = \sum_(i <- r) hv w [seq f i j | j <- s].
Proof.
elim: s => [|j s IH] /=; first by rewrite big1.
by rewrite IH -sumrMnl -big_split.
Qed.

Lemma table_spec p k : wf p -> (k < 16)%N ->
  wf (nth pid (table pid padd pdbl p) k) /\ phi (nth pid (table pid padd pdbl p) k) = phi p *+ k.
Proof.
move=> hp hk16.
pose ok k q := wf q /\ phi q = phi p *+ k.
have h0 : ok 0%N pid by case: (rep_id R) => a b; split=> //; rewrite mulr0n.
have h1 : ok 1%N p by split.
have hd m q : ok m q -> ok (2 * m)%N (pdbl q).
  by case=> a b; have [c d] := rep_dbl R a; split=> //; rewrite d b -mulrnA mulnC.
have ha m q : ok m q -> ok m.+1 (padd q p).
  by case=> a b; have [c d] := rep_add R a hp; split=> //; rewrite d b mulrSr.
have h2 := hd _ _ h1; have h3 := ha _ _ h2; have h4 := hd _ _ h2; have h5 := ha _ _ h4.
have h6 := hd _ _ h3; have h7 := ha _ _ h6; have h8 := hd _ _ h4; have h9 := ha _ _ h8.
have h10 := hd _ _ h5; have h11 := ha _ _ h10; have h12 := hd _ _ h6; have h13 := ha _ _ h12.
have h14 := hd _ _ h7; have h15 := ha _ _ h14.
rewrite -/(ok k (nth pid (table pid padd pdbl p) k)).
by move: k hk16; do 16 (case=> [_|]; first by []); case.
Qed.

Lemma every_map (T : eqType) (f : T -> P) s : (forall x, x \in s -> wf (f x)) -> every wf [seq f x | x <- s].
Proof.
elim: s => //= x s IH h; split; first by apply: h; rewrite mem_head.
by apply: IH => y hy; apply: h; rewrite inE hy orbT.
Qed.

Lemma mulE p bs : wf p -> is_bytes bs -> size bs = 32%N ->
  wf (mul pid padd pdbl p bs) /\ phi (mul pid padd pdbl p bs) = phi p *+ le_val bs.
Proof.
move=> hp hb hs; set t := table pid padd pdbl p.
have hd j : (j < 64)%N -> (nth 0 (nibs bs) j < 16)%N.
  by move=> hj; apply: (nibs_lt hb); rewrite mem_nth // size_nibs hs.
have -> : mul pid padd pdbl p bs = combine pid padd pdbl 4 [seq nth pid t d | d <- nibs bs].
  rewrite /mul /combine -/t.
  have -> : nibs bs = [seq nth 0%N (nibs bs) j | j <- iota 0 64].
    by rewrite map_nth_iota0 ?size_nibs ?hs // take_oversize // size_nibs hs.
  rewrite -!map_comp -map_rev.
  have -> : rev (iota 0 64) = [seq (63 - k)%N | k <- iota 0 64] by [].
  rewrite -!map_comp.
  suff gen acc s : all (fun k => k < 64)%N s -> foldl (mul_step pid padd pdbl t bs) acc [seq (4 * k)%N | k <- s] =
      foldl (fun a x => padd (iter 4 pdbl a) x) acc [seq nth pid t (nth 0%N (nibs bs) (63 - k)) | k <- s].
    exact: gen.
  elim: s acc => [|k s IH] acc //= /andP[hk hl].
  by rewrite IH // /mul_step windowE // nibbleE //; lia.
have [|h1 h2] := @combineE 4 [seq nth pid t d | d <- nibs bs].
  by apply: every_map => d hdn; have [] := table_spec hp (nibs_lt hb hdn).
split=> //; rewrite h2 -map_comp.
have -> : [seq (phi \o nth pid t) d | d <- nibs bs] = [seq phi p *+ d | d <- nibs bs].
  by apply/eq_in_map => d hdn /=; have [_ ->] := table_spec hp (nibs_lt hb hdn).
by rewrite hv_mul horn_nibs.
Qed.

(** the weighted value of a bucket list, the first bucket counting [c] times *)
Fixpoint wv (c : nat) (b : seq P) : G := if b is x :: b' then phi x *+ c + wv c.+1 b' else 0.

Lemma wv_nseq c n : wv c (nseq n pid) = 0.
Proof. by elim: n c => //= n IH c; rewrite IH (rep_id R).2 mul0rn addr0. Qed.

Lemma every_nseq n : every wf (nseq n pid).
Proof. by elim: n => //= n IH; split=> //; exact: (rep_id R).1. Qed.

Lemma bucket_addE c b k q : every wf b -> wf q -> (k < size b)%N ->
  [/\ every wf (bucket_add pid padd b (k, q)), size (bucket_add pid padd b (k, q)) = size b
    & wv c (bucket_add pid padd b (k, q)) = wv c b + phi q *+ (k + c)].
Proof.
move=> hb hq; rewrite /bucket_add /=.
elim: b c k hb => [|x b IH] c [|k] //= [hx hb] hk.
  have [h1 h2] := rep_add R hx hq; split=> //.
  by rewrite h2 add0n mulrnDl addrAC.
have [h1 h2 h3] := IH c.+1 k hb hk; split=> //; first by rewrite h2.
by rewrite h3 addrA addSnnS.
Qed.

Lemma bucket_sumE b : every wf b ->
  wf (bucket_sum pid padd b) /\ phi (bucket_sum pid padd b) = wv 1 b.
Proof.
move=> hb; rewrite /bucket_sum foldl_rev.
pose r := foldr (fun x a => (padd a.1 (padd a.2 x), padd a.2 x)) (pid, pid) b.
suff : [/\ wf r.1, wf r.2, phi r.1 = wv 1 b & forall c, wv c.+1 b = wv c b + phi r.2].
  by case=> h1 _ h2 _; split.
rewrite {}/r; elim: b hb => [|x b IH] /=.
  by move=> _; have [h1 h2] := rep_id R; split=> // c; rewrite h2 addr0.
case=> hx /IH[]; set s := foldr _ _ b => w1 w2 e1 e2.
have [h1 h2] := rep_add R w2 hx; have [h3 h4] := rep_add R w1 h1.
split=> //; first by rewrite h4 h2 e1 (e2 1%N) mulr1n [RHS]addrC addrA.
by move=> c; rewrite h2 (e2 c.+1) mulrSr -!addrA; congr (_ + _); rewrite addrC -addrA.
Qed.

Lemma bucketsE c b (l : seq (nat * P)) : every wf b -> every wf (unzip2 l) ->
  all (fun x => x.1 < size b)%N l ->
  let b' := foldl (bucket_add pid padd) b l in
  [/\ every wf b', size b' = size b & wv c b' = wv c b + \sum_(x <- l) phi x.2 *+ (x.1 + c)].
Proof.
elim: l b => [|[k q] l IH] b hb /=; first by rewrite big_nil addr0.
case=> hq hl /andP[hk hall]; have [h1 h2 h3] := bucket_addE c hb hq hk.
have [|h4 h5 h6] := IH _ h1 hl; first by rewrite h2.
by split=> //; [rewrite h5 | rewrite h6 h3 big_cons addrA].
Qed.

Lemma every_zip (A : Type) (s : seq A) ps : every wf ps -> every wf (unzip2 (zip s ps)).
Proof. by elim: s ps => [|a s IH] [|p ps] //= [hp hl]; split=> //; exact: IH. Qed.

Lemma every_behead b : every wf b -> every wf (behead b).
Proof. by case: b => //= x b []. Qed.

Lemma native_windowE ps ss j : every wf ps -> all is_bytes ss -> all (fun s => size s == 32%N) ss -> (j < 64)%N ->
  wf (native_window pid padd ps ss j) /\
  phi (native_window pid padd ps ss j) = \sum_(x <- zip ss ps) phi x.2 *+ nth 0%N (nibs x.1) j.
Proof.
move=> hp hb hs hj; rewrite /native_window.
set l := zip _ ps; set b := foldl _ _ l.
have hl : all (fun x => x.1 < size (nseq 16 pid))%N l.
  rewrite /l size_nseq; elim: ss ps {hp l b hs} hb => [|s ss IH] [|p ps] //= /andP[hb1 hb2].
  by rewrite IH // andbT nibbleE // nth_nibs_lt.
have [h1 h2 h3] := bucketsE 0 (every_nseq 16) (every_zip _ hp) hl.
have [h4 h5] := bucket_sumE (every_behead h1); split=> //; rewrite h5.
have -> : wv 1 (behead b) = wv 0 b by case: (b) => //= x b'; rewrite mulr0n add0r.
rewrite h3 wv_nseq add0r /l => {h1 h2 h3 h4 h5 b hl l}.
elim: ss ps hp hb {hs} => [|s ss IH] [|p ps] //=; try by rewrite !big_nil.
by case=> hp hl /andP[hb1 hb2]; rewrite !big_cons IH //= nibbleE // addn0.
Qed.

Lemma pbucketsE b (l : seq (nat * P)) : every wf b -> every wf (unzip2 l) ->
  all (fun x => x.1 <= size b)%N l ->
  let b' := foldl (pbucket pid padd) b l in
  [/\ every wf b', size b' = size b & wv 1 b' = wv 1 b + \sum_(x <- l) phi x.2 *+ x.1].
Proof.
elim: l b => [|[k q] l IH] b hb /=; first by rewrite big_nil addr0.
case=> hq hl /andP[hk hall]; rewrite /pbucket /=; case: k hk => [|k] hk /=.
  by have [h1 h2 h3] := IH _ hb hl hall; split=> //; rewrite h3 big_cons mulr0n add0r.
have [h1 h2 h3] := bucket_addE 1 hb hq hk.
have [|h4 h5 h6] := IH _ h1 hl; first by rewrite h2.
by split=> //; [rewrite h5 | rewrite h6 h3 big_cons addrA addn1].
Qed.

Lemma pip_windowE ps ks j : every wf ps ->
  wf (pip_window pid padd ps ks j) /\
  phi (pip_window pid padd ps ks j) = \sum_(x <- zip ks ps) phi x.2 *+ pindex x.1 j.
Proof.
move=> hp; rewrite /pip_window.
set l := zip _ ps; set b := foldl _ _ l.
have hl : all (fun x => x.1 <= size (nseq 63 pid))%N l.
  rewrite /l size_nseq; elim: ks ps {hp l b} => [|k ks IH] [|p ps] //=.
  by rewrite IH andbT; have := pindex_lt k j; lia.
have [h1 h2 h3] := pbucketsE (every_nseq 63) (every_zip _ hp) hl.
have [h4 h5] := bucket_sumE h1; split=> //; rewrite h5 h3 wv_nseq add0r /l.
elim: ks ps {hp l b h1 h2 h3 h4 h5 hl} => [|k ks IH] [|p ps] //=; try by rewrite !big_nil.
by rewrite !big_cons IH.
Qed.

Lemma zip_sum (A : Type) (a0 : A) (f : A -> P -> G) (ss : seq A) ps : size ps = size ss ->
  \sum_(x <- zip ss ps) f x.1 x.2 = \sum_(i < size ps) f (nth a0 ss i) (nth pid ps i).
Proof.
move=> h; rewrite (big_nth (a0, pid)) size_zip h minnn big_mkord.
by rewrite -h; apply: eq_bigr => i _; rewrite nth_zip // h.
Qed.

Lemma sum_nativeE ps ss : every wf ps -> all is_bytes ss -> all (fun s => size s == 32%N) ss -> size ps = size ss ->
  exists2 r, sum_native pid padd pdbl ps ss = Ok r
    & wf r /\ phi r = \sum_(i < size ps) phi (nth pid ps i) *+ le_val (nth [::] ss i).
Proof.
move=> hp hb hs hsz; rewrite /sum_native (introT eqP hsz).
set ws := map _ _; exists (combine pid padd pdbl 4 ws) => //.
have hw : every wf ws.
  by apply: every_map => j; rewrite mem_iota => /andP[_ hj]; have [] := native_windowE hp hb hs hj.
have [h1 h2] := combineE 4 hw; split=> //; rewrite h2 /ws -map_comp.
have -> : [seq (phi \o native_window pid padd ps ss) j | j <- iota 0 64] =
          [seq \sum_(x <- zip ss ps) phi x.2 *+ nth 0%N (nibs x.1) j | j <- iota 0 64].
  apply/eq_in_map => j; rewrite mem_iota => /andP[_ hj] /=.
  by have [_ ->] := native_windowE hp hb hs hj.
rewrite hv_sum; have <- := @zip_sum _ [::] (fun s p => phi p *+ le_val s) ss ps hsz => {h1 h2 hw ws hb hp hsz}.
elim: ss ps hs => [|s ss IH] [|p ps]; cbn [zip]; try by rewrite !big_nil.
case/andP=> /eqP hs hl; rewrite !big_cons IH //; congr (_ + _); cbn [fst snd].
have -> : [seq phi p *+ nth 0%N (nibs s) j | j <- iota 0 64] = [seq phi p *+ d | d <- nibs s].
  have e : nibs s = [seq nth 0%N (nibs s) j | j <- iota 0 64].
    by rewrite map_nth_iota0 ?size_nibs ?hs // take_oversize // size_nibs hs.
  by rewrite [in RHS]e -map_comp.
by rewrite hv_mul horn_nibs.
Qed.

Lemma pippenger_pallasE ps ks : every wf ps -> size ps = size ks ->
  exists2 r, pippenger_pallas pid padd pdbl ps ks = Some r
    & wf r /\ phi r = \sum_(i < size ps) phi (nth pid ps i) *+ Z.to_nat (nth Z0 ks i mod 2 ^ 258)%Z.
Proof.
move=> hp hsz; rewrite /pippenger_pallas (introT eqP hsz).
set ws := map _ _; exists (combine pid padd pdbl 6 ws) => //.
have hw : every wf ws.
  by apply: every_map => j _; have [] := pip_windowE ks j hp.
have [h1 h2] := combineE 6 hw; split=> //; rewrite h2 /ws -map_comp.
have -> : [seq (phi \o pip_window pid padd ps ks) j | j <- iota 0 43] =
          [seq \sum_(x <- zip ks ps) phi x.2 *+ pindex x.1 j | j <- iota 0 43].
  by apply/eq_in_map => j _ /=; have [_ ->] := pip_windowE ks j hp.
rewrite hv_sum; have <- := @zip_sum _ Z0 (fun k p => phi p *+ Z.to_nat (k mod 2 ^ 258)%Z) ks ps hsz.
apply: eq_bigr => x _; rewrite (map_comp (fun d => phi x.2 *+ d) (pindex x.1)) hv_mul; congr (_ *+ _).
by apply: Nat2Z.inj; rewrite (horn_pindex 43) Z2Nat.id //; apply Z.mod_pos_bound.
Qed.

End Proofs.
