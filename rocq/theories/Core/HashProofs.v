From mathcomp Require Import all_ssreflect zify.
From Verif Require Import Lib.Res Lib.Bytes Core.HashModel.
Set Implicit Arguments. Unset Strict Implicit. Unset Printing Implicit Defensive.

Lemma size_bxor a b : size (bxor a b) = size a.
Proof. by elim: a b => [|x a IH] [|y b] //=; rewrite IH. Qed.

Lemma lxorKr x p : Nat.lxor (Nat.lxor x p) p = x.
Proof. by rewrite PeanoNat.Nat.lxor_assoc PeanoNat.Nat.lxor_nilpotent PeanoNat.Nat.lxor_0_r. Qed.

Lemma bxorK a b : bxor (bxor a b) b = a.
Proof. by elim: a b => [|x a IH] [|y b] //=; rewrite lxorKr IH. Qed.

Lemma bxor_inj a a' b : bxor a b = bxor a' b -> a = a'.
Proof. by move=> e; rewrite -(bxorK a b) e bxorK. Qed.

Lemma cat_inj_size (T : eqType) (a a' b b' : seq T) : size a = size a' -> a ++ b = a' ++ b' -> a = a' /\ b = b'.
Proof. by move=> s /eqP; rewrite eqseq_cat // => /andP [/eqP -> /eqP ->]. Qed.

Lemma cat_inj_size2 (T : eqType) (a a' b b' : seq T) : size b = size b' -> a ++ b = a' ++ b' -> a = a' /\ b = b'.
Proof.
move=> s e; have sa : size a = size a' by have := congr1 size e; rewrite !size_cat s; lia.
exact: cat_inj_size.
Qed.

Lemma hmac_collision (H : bytes -> bytes) blk k k' m m' :
  size k = size k' -> size k <= blk -> hmac H blk k m = hmac H blk k' m' ->
  k = k' /\ m = m' \/ exists x y, x <> y /\ H x = H y.
Proof.
move=> sk sb; rewrite /hmac; set kp := k ++ _; set kp' := k' ++ _ => e.
have skp : size kp = size kp' by rewrite /kp /kp' !size_cat sk.
case: (altP ((bxor kp (nseq blk 92) ++ H (bxor kp (nseq blk 54) ++ m)) =P (bxor kp' (nseq blk 92) ++ H (bxor kp' (nseq blk 54) ++ m')))).
  move=> E; have [] := cat_inj_size _ E; first by rewrite !size_bxor.
  move/bxor_inj => ek eh.
  have [ekk _] : k = k' /\ nseq (blk - size k) 0 = nseq (blk - size k') 0 by apply: cat_inj_size.
  case: (altP (m =P m')) => [-> | nm]; first by left.
  right; exists (bxor kp (nseq blk 54) ++ m), (bxor kp' (nseq blk 54) ++ m'); split=> //.
  move=> E2; have [|_ em] := cat_inj_size _ E2; first by rewrite !size_bxor.
  by rewrite em eqxx in nm.
by move/eqP => ne; right; do 2!eexists; split; first exact: ne.
Qed.

Lemma be_bytes0 : be_bytes 0 = [::]. Proof. by []. Qed.

Lemma be_bytes_small x : x < 256 -> be_bytes x = if x == 0 then [::] else [:: x].
Proof.
move=> h; case: eqP => [-> // | /eqP n0].
rewrite -{1}[x]/(be_val [:: x]) be_bytes_strip /=; last by rewrite h.
by case: x n0 h.
Qed.

Lemma size_i2osp b n : size (i2osp b n) = n.
Proof. by rewrite /i2osp; case: ltnP => h; [rewrite size_cat size_nseq subnK // ltnW | rewrite size_takel]. Qed.

Lemma be_val_nseq0 k b : be_val (nseq k 0 ++ b) = be_val b.
Proof. by elim: k => //= k IH; rewrite be_val_cons mul0n. Qed.

Lemma i2ospK b n : b < 256 ^ n -> be_val (i2osp b n) = b.
Proof.
move=> h; have := size_be_bytes h; rewrite /i2osp => s.
case: ltnP => h2; first by rewrite be_val_nseq0 be_bytesK.
by rewrite take_oversize ?be_bytesK.
Qed.

Lemma is_bytes_i2osp b n : is_bytes (i2osp b n).
Proof.
rewrite /i2osp; case: ifP => _.
  by rewrite /is_bytes all_cat all_nseq orbT; exact: is_bytes_be.
have := is_bytes_be b; rewrite /is_bytes -{1}(cat_take_drop n (be_bytes b)) all_cat => /andP [-> _] //.
Qed.

(** ByteSub *)
Lemma bs_step1 x : 0 < x < 256 -> bs_step x 1 = if x == 1 then (255, 1) else (x.-1, 0).
Proof. by case: x => // x h; do 255!(case: x h => [h|x h]; first by []); exfalso; lia. Qed.
Lemma bs_step0 x : 0 < x < 256 -> bs_step x 0 = (x, 0).
Proof. by case: x => // x h; do 255!(case: x h => [h|x h]; first by []); exfalso; lia. Qed.

Lemma bs_cons x b m : bs_loop (x :: b) m = (bs_step x m).1 :: bs_loop b (bs_step x m).2.
Proof. by cbn [bs_loop]; case: bs_step. Qed.

(** the counter read in base 255 with digits 1..255 *)
Fixpoint cval (b : bytes) : nat := match b with [::] => 0 | x :: b' => x.-1 + 255 * cval b' end.
Definition digits (b : bytes) : bool := all (fun x => 0 < x < 256) b.

Lemma bs_loop0 b : digits b -> bs_loop b 0 = b.
Proof. by elim: b => // x b IH /andP [hx hb]; rewrite bs_cons bs_step0 //= IH. Qed.

Lemma size_bs b m : size (bs_loop b m) = size b.
Proof. by elim: b m => // x b IH m; rewrite bs_cons; case: bs_step => y m' /=; rewrite IH. Qed.

Lemma byte_sub_digits b : digits b -> digits (byte_sub b).
Proof.
rewrite /byte_sub; elim: b => // x b IH /andP [hx hb]; rewrite bs_cons bs_step1 //.
case: eqP => [e|/eqP n1]; cbn [fst snd]; first by rewrite /digits /=; apply: IH.
rewrite bs_loop0 // /digits; cbn [all]; rewrite [all _ _]hb andbT.
by move: hx n1; case: (x) => // -[|y] //= h _; rewrite (ltn_trans _ h).
Qed.

Lemma byte_sub_cval b : digits b -> 0 < cval b -> cval (byte_sub b) = (cval b).-1.
Proof.
rewrite /byte_sub; elim: b => // x b IH /andP [hx hb]; rewrite bs_cons bs_step1 //.
case: eqP => [-> | /eqP n1] h; cbn [fst snd] in h |- *; last by rewrite bs_loop0 //; cbn [cval]; cbn [cval] in h; lia.
cbn [cval] in h |- *.
have h0 : 0 < cval b by lia.
by rewrite IH //; lia.
Qed.

Lemma cval_lt b : digits b -> cval b < 255 ^ size b.
Proof. by elim: b => //= x b IH /andP [hx hb]; rewrite expnS; have := IH hb; nia. Qed.

Lemma cval_nseq k : (cval (nseq k 255)).+1 = 255 ^ k.
Proof. by elim: k => //= k IH; rewrite expnS; nia. Qed.

Lemma digits_nseq k : digits (nseq k 255).
Proof. by rewrite /digits all_nseq orbT. Qed.

Lemma iter_digits j b : digits b -> digits (iter j byte_sub b).
Proof. by elim: j => //= j IH h; apply: byte_sub_digits; apply: IH. Qed.
Lemma iter_size j b : size (iter j byte_sub b) = size b.
Proof. by elim: j => //= j IH; rewrite size_bs. Qed.

Lemma iter_cval k j : j < 255 ^ k -> cval (iter j byte_sub (nseq k 255)) = (255 ^ k).-1 - j.
Proof.
elim: j => [|j IH] h; first by rewrite -cval_nseq subn0.
have e := IH (ltnW h); rewrite iterS byte_sub_cval; [|exact: iter_digits (digits_nseq _)|]; rewrite e; lia.
Qed.

Lemma iter_distinct k i j : i < 255 ^ k -> j < 255 ^ k ->
  iter i byte_sub (nseq k 255) = iter j byte_sub (nseq k 255) -> i = j.
Proof. by move=> hi hj /(congr1 cval); rewrite !iter_cval //; lia. Qed.

Section Kdf.
Variable kdf : bytes -> bytes.
Hypothesis kdf_size : forall x, size (kdf x) = 32.

Lemma fs_loop_rcons vs v f okm :
  fs_loop kdf (rcons vs v) f okm = kdf (iter (size vs) byte_sub f ++ v ++ fs_loop kdf vs f okm).
Proof. by elim: vs f okm => //= u vs IH f okm; rewrite IH -iterSr. Qed.

Lemma fs_loop_size vs f okm : size okm = 32 -> size (fs_loop kdf vs f okm) = 32.
Proof. by elim: vs f okm => //= u vs IH f okm h; apply: IH. Qed.

Lemma fs_collision vs ws f0 ok0 (n : nat) : f0 = nseq 32 255 -> size ok0 = 32 ->
  size vs <= n -> size ws <= n -> n < 255 ^ 32 ->
  (vs == [::]) = (ws == [::]) ->
  fs_loop kdf vs f0 ok0 = fs_loop kdf ws f0 ok0 ->
  vs = ws \/ exists x y, x <> y /\ kdf x = kdf y.
Proof.
move=> hf hok hv hw hn.
elim/last_ind: vs ws hv hw => [|vs v IH] ws; case/lastP: ws => [|ws w] hv hw //=.
- by left.
- by rewrite -[rcons ws w == _]size_eq0 size_rcons.
- by rewrite -[rcons vs v == _]size_eq0 size_rcons.
move=> _; rewrite !fs_loop_rcons; rewrite !size_rcons in hv hw.
case: (altP (iter (size vs) byte_sub f0 ++ v ++ fs_loop kdf vs f0 ok0
             =P iter (size ws) byte_sub f0 ++ w ++ fs_loop kdf ws f0 ok0)); last first.
  by move/eqP => ne e; right; do 2!eexists; split; [exact: ne | exact: e].
move=> E; have [] := cat_inj_size _ E; first by rewrite !iter_size.
rewrite hf => /iter_distinct es {}E.
have [] := cat_inj_size2 _ E; first by rewrite !fs_loop_size.
move=> ev eo _; have {}es : size vs = size ws by apply: es; lia.
rewrite -hf in eo.
have : (vs == [::]) = (ws == [::]) by rewrite -!size_eq0 es.
move=> he; case: (IH ws _ _ he eo); try lia.
  by move=> ->; left; rewrite ev.
by right.
Qed.
End Kdf.
