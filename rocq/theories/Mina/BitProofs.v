(** The bit vector refines a list of booleans. *)
From Coq Require Import PeanoNat.
From mathcomp Require Import all_ssreflect zify.
From Verif Require Import Lib.Res Lib.Bytes Mina.BitModel Mina.BitBytes.
Set Implicit Arguments.
Unset Strict Implicit.
Unset Printing Implicit Defensive.

(** ** Byte strings *)
Lemma bytes_nth data i : is_bytes data -> nth 0 data i < 256.
Proof.
move=> /allP h; case: (ltnP i (size data)) => hi; first by apply: h; apply: mem_nth.
by rewrite nth_default.
Qed.

Lemma divlt i n : (i %/ 8 < n) = (i < 8 * n).
Proof. by rewrite ltn_divLR // mulnC. Qed.

Lemma dbit_cons x data i : dbit (x :: data) i = if i < 8 then tbit x i else dbit data (i - 8).
Proof.
rewrite /dbit; case: ltnP => h; first by rewrite divn_small // modn_small.
have -> : i %/ 8 = (i - 8) %/ 8 + 1 by rewrite -[X in X %/ 8](subnK h) divnDr // divnn.
by rewrite addn1 -[X in tbit _ (X %% 8)](subnK h) modnDr.
Qed.

Lemma dbit_high i data : is_bytes data -> forall b : bool, i < 8 * size data ->
  dbit (shift_higher b data).1 i = if i is i'.+1 then dbit data i' else b.
Proof.
elim: data i => [|x data IH] i //= /andP[hx hd] b hi.
rewrite top_bit //; case E: (shift_higher _ data) => [r out] /=.
rewrite dbit_cons; case: ltnP => h8.
  rewrite (proj1 (high_byteE b hx h8)); case: i hi h8 => [|i] hi h8 //.
  by rewrite dbit_cons (ltn_trans (ltnSn i) h8).
have -> : r = (shift_higher (tbit x 7) data).1 by rewrite E.
rewrite IH //; last by rewrite mulnS in hi; rewrite ltn_subLR.
case: i hi h8 => [|i] hi h8 //; rewrite dbit_cons.
rewrite ltnS in h8; move: h8; rewrite leq_eqVlt => /orP[/eqP<- //|h8].
by rewrite ltnNge h8 /= subSn.
Qed.

Lemma size_high b data : size (shift_higher b data).1 = size data.
Proof.
elim: data b => [|x data IH] b //=.
have := IH (bshr (band x 128) 7); by case: (shift_higher _ data) => r o /= ->.
Qed.

Lemma bytes_high (b : bool) data : is_bytes data -> is_bytes (shift_higher b data).1.
Proof.
elim: data b => [|x data IH] b //= /andP[hx hd].
rewrite top_bit //; have := IH (tbit x 7) hd; case: (shift_higher _ data) => r o /= ->.
by rewrite (proj2 (high_byteE b hx (ltn0Sn 7))).
Qed.

Lemma low_carry data (b : bool) : is_bytes data -> (shift_lower b data).2 = ((if data is x :: _ then tbit x 0 else b) : bool).
Proof.
case: data => [|x data] //= /andP[hx _]; case: (shift_lower b data) => r c /=.
exact: low_bit.
Qed.

Lemma dbit_low data (b : bool) i : is_bytes data -> i < 8 * size data ->
  dbit (shift_lower b data).1 i = if i.+1 < 8 * size data then dbit data i.+1 else b.
Proof.
elim: data i => [|x data IH] i //= /andP[hx hd] hi.
have := low_carry b hd; have := IH (i - 8) hd.
case: (shift_lower b data) => r c /= IH' hc.
rewrite hc !dbit_cons mulnS; case: ltnP => h8.
  rewrite (proj1 (low_byteE _ hx h8)); case: eqP => [->|/eqP n7].
    by rewrite ltnn subnn; case: (data) hd.
  have h7 : i.+1 < 8 by rewrite ltn_neqAle h8 andbT.
  by rewrite h7 (leq_trans h7 (leq_addr _ _)).
have h9 : 8 <= i.+1 by apply: leqW.
have -> : (i.+1 < 8) = false by rewrite ltnNge h9.
rewrite IH'; last by rewrite ltn_subLR // -mulnS.
by rewrite -subSn // ltn_subLR.
Qed.

Lemma size_low b data : size (shift_lower b data).1 = size data.
Proof. by elim: data => [|x data] //=; case: (shift_lower b data) => r o /= ->. Qed.

Lemma bytes_low (b : bool) data : is_bytes data -> is_bytes (shift_lower b data).1.
Proof.
elim: data => [|x data IH] //= /andP[hx hd].
have := low_carry b hd; have := IH hd; case: (shift_lower b data) => r c /= -> ->.
by rewrite (proj2 (low_byteE _ hx (ltn0Sn 7))).
Qed.

Lemma dbit_set data i (x : nat) k : k < size data ->
  dbit (set_nth 0 data k x) i = if i %/ 8 == k then tbit x (i %% 8) else dbit data i.
Proof. by move=> hk; rewrite /dbit nth_set_nth /=; case: eqP. Qed.


(** bits of a string cut at byte [k] *)
Lemma dbit_cut data i x rest k : k < size data ->
  dbit (take k data ++ x :: rest) i =
  if i < 8 * k then dbit data i else if i < 8 * k.+1 then tbit x (i %% 8) else dbit rest (i - 8 * k.+1).
Proof.
move=> hk; rewrite /dbit nth_cat (size_takel (ltnW hk)) divlt.
case: ltnP => h1; first by rewrite nth_take // divlt.
case: ltnP => h2.
  have -> : i %/ 8 = k.
    by apply/eqP; rewrite eqn_leq -ltnS divlt h2 /= leq_divRL // mulnC.
  by rewrite subnn.
have e : i = k.+1 * 8 + (i - 8 * k.+1) by rewrite (mulnC k.+1) subnKC.
have -> : i %/ 8 - k = ((i - 8 * k.+1) %/ 8).+1.
  by rewrite {1}e divnMDl // addSn subSn ?leq_addr // addKn.
by congr (tbit _ _); rewrite {1}e modnMDl.
Qed.

Lemma dbit_split data i k : k < size data ->
  dbit data i =
  if i < 8 * k then dbit data i else if i < 8 * k.+1 then tbit (nth 0 data k) (i %% 8)
  else dbit (drop k.+1 data) (i - 8 * k.+1).
Proof. by move=> hk; rewrite -dbit_cut // -drop_nth // cat_take_drop. Qed.

Lemma dbit_grow data n i : dbit (grow data n) i = dbit data i.
Proof.
rewrite /dbit /grow; case: ifP => // _; rewrite nth_rcons; case: ltnP => // h.
by rewrite nth_default //; case: eqP.
Qed.

Lemma bytes_grow data n : is_bytes data -> is_bytes (grow data n).
Proof. by rewrite /grow; case: ifP => // _ h; rewrite /is_bytes all_rcons. Qed.

Lemma size_grow data n : n <= 8 * size data -> n < 8 * size (grow data n.+1).
Proof.
move=> h; rewrite -divlt /grow; case: (ltnP (size data)) => h1 //.
rewrite size_rcons divlt mulnS; apply: (leq_ltn_trans h); by rewrite addnC -addn1 leq_add2l.
Qed.

Lemma size_set data k (x : nat) : k < size data -> size (set_nth 0 data k x) = size data.
Proof. by move=> h; rewrite size_set_nth; apply/maxn_idPr. Qed.

Lemma bytes_set data k x : k < size data -> is_bytes data -> x < 256 -> is_bytes (set_nth 0 data k x).
Proof.
move=> hk hd hx; apply/(all_nthP 0) => i; rewrite size_set // => hi.
by rewrite nth_set_nth /=; case: eqP => // _; apply: bytes_nth.
Qed.

Lemma eq_bits d d' n m : n = m -> (forall i, i < n -> dbit d i = dbit d' i) -> mkseq (dbit d) n = mkseq (dbit d') m.
Proof. by move=> -> h; apply/eq_in_map => i; rewrite mem_iota => /andP[_ hi]; apply: h. Qed.

Lemma div_eq i k : (i %/ 8 == k %/ 8) && (i %% 8 == k %% 8) = (i == k).
Proof.
apply/andP/eqP => [[/eqP a /eqP b]|-> //]; by rewrite (divn_eq i 8) a b -divn_eq.
Qed.

(** ** Append *)
Lemma append_ok b v : bv_wf v ->
  exists w, bv_append b v = Ok w /\ bv_wf w /\ bv_bits w = rcons (bv_bits v) (b == 1).
Proof.
case: v => d n /andP[/= hd hn]; rewrite /bv_append /= /at_byte.
set d1 := grow d n.+1; have h1 : n < 8 * size d1 by apply: size_grow.
have hb : is_bytes d1 by apply: bytes_grow.
rewrite divlt h1; eexists; split; first by [].
have hk : n %/ 8 < size d1 by rewrite divlt.
have hm : n %% 8 < 8 by rewrite ltn_mod.
have hx : nth 0 d1 (n %/ 8) < 256 by apply: bytes_nth.
split.
  by rewrite /bv_wf /= bytes_set ?put_bit_byte // size_set.
rewrite /bv_bits /= /mkseq; have -> : iota 0 n.+1 = rcons (iota 0 n) n by rewrite -addn1 iotaD cats1.
rewrite map_rcons; congr rcons.
- apply/eq_in_map => i; rewrite mem_iota add0n => /andP[_ hi].
  rewrite dbit_set //; case: eqP => [e|_]; last by rewrite dbit_grow.
  rewrite put_bitE ?ltn_mod //; case: eqP => e2.
    have ee : i == n by rewrite -div_eq e e2 !eqxx.
    by move: hi; rewrite (eqP ee) ltnn.
  by rewrite -[RHS](dbit_grow d n.+1) /dbit e.
- by rewrite dbit_set // eqxx put_bitE // eqxx.
Qed.

Lemma size_bits v : size (bv_bits v) = bv_len v.
Proof. exact: size_mkseq. Qed.

Lemma nth_bits v i : i < bv_len v -> nth false (bv_bits v) i = dbit (bv_data v) i.
Proof. exact: nth_mkseq. Qed.

Lemma wf_at v i : bv_wf v -> i < bv_len v -> at_byte (bv_data v) (i %/ 8) = Ok (nth 0 (bv_data v) (i %/ 8)).
Proof. by move=> /andP[_ h] hi; rewrite /at_byte divlt (leq_trans hi h). Qed.

(** ** Element *)
Lemma element_ok v i : bv_wf v -> i < bv_len v -> bv_element v i = Ok (nat_of_bool (nth false (bv_bits v) i)).
Proof.
move=> w hi; rewrite /bv_element /index_assert hi (wf_at w hi) /= nth_bits //.
by rewrite elt_byte ?ltn_mod //; apply: bytes_nth; case/andP: w.
Qed.

(** ** Set *)
Lemma set_ok b i v : bv_wf v -> i < bv_len v ->
  exists w, bv_set b i v = Ok w /\ bv_wf w /\ bv_bits w = set_nth false (bv_bits v) i (b == 1).
Proof.
move=> w hi; rewrite /bv_set /index_assert hi (wf_at w hi) /=; eexists; split; first by [].
case/andP: (w) => hd hn; have hk : i %/ 8 < size (bv_data v) by rewrite divlt (leq_trans hi hn).
have hx := bytes_nth (i %/ 8) hd; have hm : i %% 8 < 8 by rewrite ltn_mod.
split; first by rewrite /bv_wf /= bytes_set ?put_bit_byte // size_set.
apply: (@eq_from_nth _ false) => [|j].
  by rewrite size_bits size_set_nth size_bits /=; apply/esym/maxn_idPr.
rewrite size_bits /= => hj; rewrite nth_bits //= nth_set_nth /= nth_bits // dbit_set //.
case: (eqVneq j i) => [->|ne]; first by rewrite eqxx put_bitE // eqxx.
case: eqP => // e; rewrite put_bitE ?ltn_mod //; case: eqP => e2; last by rewrite /dbit e.
by move: ne; rewrite -div_eq e e2 !eqxx.
Qed.

Lemma mod_rel i k : 8 * k <= i -> i < 8 * k.+1 -> i = 8 * k + i %% 8.
Proof.
move=> h1 h2; have e : i %/ 8 = k by apply/eqP; rewrite eqn_leq -ltnS divlt h2 /= leq_divRL // mulnC.
by rewrite {1}(divn_eq i 8) e mulnC.
Qed.

Lemma bytes_cut a x b : is_bytes (a ++ x :: b) = [&& is_bytes a, x < 256 & is_bytes b].
Proof. by rewrite /is_bytes all_cat /=. Qed.

Lemma bytes_take k d : is_bytes d -> is_bytes (take k d).
Proof. by move=> /allP h; apply/allP => x /mem_take /h. Qed.

Lemma bytes_drop k d : is_bytes d -> is_bytes (drop k d).
Proof. by move=> /allP h; apply/allP => x /mem_drop /h. Qed.

Lemma size_cut k x (d r : bytes) : k < size d -> size r = size d - k.+1 -> size (take k d ++ x :: r) = size d.
Proof. by move=> h e; rewrite size_cat /= e size_takel; [lia|exact: ltnW]. Qed.

(** [lia] after dropping the hypotheses that say nothing about numbers *)
Ltac al := repeat match goal with
  | H : is_true (is_bytes _) |- _ => clear H
  | H : is_true (bv_wf _) |- _ => clear H
  | H : is_true (nth _ _ _ < _) |- _ => clear H
  | H : forall _, _ |- _ => clear H
  | H : @eq bool _ _ |- _ => clear H
  | H : shift_lower _ _ = _ |- _ => clear H
  end; lia.

(** ** Insert *)
Lemma insert_ok b i v : bv_wf v -> i < bv_len v ->
  exists w, bv_insert b i v = Ok w /\ bv_wf w /\
    bv_bits w = take i (bv_bits v) ++ (b == 1) :: drop i (bv_bits v).
Proof.
move=> w hi; rewrite /bv_insert /index_assert hi /=.
case/andP: (w) => hd hn.
set d1 := grow (bv_data v) _; have h1 : bv_len v < 8 * size d1 by apply: size_grow.
have hb : is_bytes d1 by apply: bytes_grow.
set k := i %/ 8; have hk : k < size d1 by rewrite divlt (ltn_trans hi h1).
rewrite /at_byte hk; eexists; split; first by [].
have hx := bytes_nth k hb; have hm : i %% 8 < 8 by rewrite ltn_mod.
have hr := bytes_drop k.+1 hb.
have ik : i = 8 * k + i %% 8 by rewrite {1}(divn_eq i 8) mulnC.
set mi := i %% 8 in hm ik *; clearbody k mi.
split.
  rewrite /bv_wf /= bytes_cut insert_byte_byte // top_bit // (bytes_high _ hr) bytes_take //=.
  by rewrite size_cut // size_high size_drop.
apply: (@eq_from_nth _ false) => [|j].
  by rewrite size_bits size_cat /= size_drop size_takel !size_bits /=; al.
rewrite size_bits /= => hj; rewrite nth_bits //= top_bit // dbit_cut //.
rewrite nth_cat size_takel ?size_bits ?(ltnW hi) //.
have fin x : x < bv_len v -> nth false (bv_bits v) x = dbit d1 x by move=> ?; rewrite nth_bits // dbit_grow.
have shifted : i < j -> (if j < i then nth false (take i (bv_bits v)) j
    else nth false ((b == 1) :: drop i (bv_bits v)) (j - i)) = dbit d1 j.-1.
  move=> ij; have -> : (j < i) = false by al.
  have -> : j - i = (j.-1 - i).+1 by al.
  by rewrite /= nth_drop subnKC ?fin //; al.
case: (ltnP j (8 * k)) => j1.
  have ji : j < i by al.
  by rewrite ji nth_take // fin //; al.
case: (ltnP j (8 * k.+1)) => j2.
  have ej := mod_rel j1 j2.
  have jm : j %% 8 < 8 by rewrite ltn_mod.
  have djE : dbit d1 j = tbit (nth 0 d1 k) (j %% 8) by rewrite (dbit_split _ hk) ltnNge j1 j2.
  set mj := j %% 8 in ej jm djE *; clearbody mj.
  have lt_ji : (mj < mi) = (j < i) by al.
  have eq_ji : (mj == mi) = (j == i) by al.
  rewrite insert_byteE // lt_ji eq_ji.
  case: (ltngtP j i) => ji.
  - rewrite nth_take // fin; last by al.
    by rewrite djE.
  - have := shifted ji; have -> : (j < i) = false by al.
    move=> ->; rewrite (dbit_split _ hk).
    have -> : (j.-1 < 8 * k) = false by al.
    have -> : j.-1 < 8 * k.+1 by al.
    have -> : j.-1 = 8 * k + mj.-1 by al.
    by congr (tbit _ _); rewrite mulnC modnMDl [RHS]modn_small //; al.
  - by rewrite ji subnn.
have ji : i < j by al.
rewrite (shifted ji) dbit_high //; last by rewrite size_drop; al.
rewrite [RHS](dbit_split _ hk); have -> : (j.-1 < 8 * k) = false by al.
case: (ltnP j.-1 (8 * k.+1)) => j3.
  have ej : j = 8 * k.+1 by al.
  rewrite ej subnn; have -> : (8 * k.+1).-1 = k * 8 + 7 by al.
  by rewrite modnMDl.
by have -> : j - 8 * k.+1 = (j.-1 - 8 * k.+1).+1 by al.
Qed.

(** ** Delete *)
Lemma dbit_take d m i : i < 8 * m -> dbit (take m d) i = dbit d i.
Proof. by move=> h; rewrite /dbit nth_take // divlt. Qed.

Lemma delete_ok i v : bv_wf v -> i < bv_len v ->
  exists w, bv_delete i v = Ok w /\ bv_wf w /\ bv_bits w = take i (bv_bits v) ++ drop i.+1 (bv_bits v).
Proof.
move=> w hi; rewrite /bv_delete /index_assert hi (wf_at w hi) /=.
case/andP: (w) => hb hn.
set d1 := bv_data v in hb hn *; set k := i %/ 8; have hk : k < size d1 by rewrite divlt (leq_trans hi hn).
have hx := bytes_nth k hb; have hm : i %% 8 < 8 by rewrite ltn_mod.
have hr := bytes_drop k.+1 hb.
have ik : i = 8 * k + i %% 8 by rewrite {1}(divn_eq i 8) mulnC.
set mi := i %% 8 in hm ik *; clearbody k mi.
have lc := low_carry false hr; have lb := bytes_low false hr; have ls := size_low false (drop k.+1 d1).
have ld := @dbit_low (drop k.+1 d1) false _ hr.
case E: (shift_lower 0 (drop k.+1 d1)) lc lb ls ld => [rest bit] /= -> lb ls ld.
set carry := (if drop _ _ is _ :: _ then _ else _).
have cE : carry = dbit d1 (8 * k.+1).
  rewrite /carry /dbit mulnC mulnK // modnMl; case D: (drop k.+1 d1) => [|y l].
    by rewrite nth_default // -(subn_eq0) -size_drop D.
  by rewrite -[k.+1 in RHS]addn0 -nth_drop D.
clearbody carry.
set dat := take k d1 ++ _; have sd : size dat = size d1.
  by rewrite /dat size_cut // ls size_drop.
have bd : is_bytes dat by rewrite /dat bytes_cut delete_byte_byte // lb bytes_take.
set fin := if _ then _ else _.
have mfin : (bv_len v).-1 <= 8 * bytes_length (bv_len v).-1.
  case: (bv_len v).-1 => [|m] //=.
  by rewrite mulnS; have := divn_eq m 8; have : m %% 8 < 8 := ltn_mod m 8; clear; al.
have sfin : (bv_len v).-1 <= 8 * size fin.
  rewrite /fin; case: ifP => h; last by rewrite sd; al.
  by rewrite size_takel // ltnW.
have bfin : is_bytes fin by rewrite /fin; case: ifP => // _; apply: bytes_take.
have dfin j : j < (bv_len v).-1 -> dbit fin j = dbit dat j.
  by move=> h; rewrite /fin; case: ifP => // _; rewrite dbit_take //; apply: (leq_trans h).
eexists; split; first by []. split; first by rewrite /bv_wf /= bfin sfin.
clearbody fin.
apply: (@eq_from_nth _ false) => [|j].
  by rewrite size_bits size_cat /= size_drop size_takel !size_bits /=; al.
rewrite size_bits /= => hj; rewrite nth_bits //= dfin // /dat dbit_cut //; clear dfin sfin bfin mfin bd sd fin dat E.
rewrite nth_cat size_takel ?size_bits ?(ltnW hi) //.
have nb x : x < bv_len v -> nth false (bv_bits v) x = dbit d1 x by move=> ?; rewrite nth_bits.
have shifted : i <= j -> (if j < i then nth false (take i (bv_bits v)) j
    else nth false (drop i.+1 (bv_bits v)) (j - i)) = dbit d1 j.+1.
  move=> ij; have -> : (j < i) = false by al.
  by rewrite nth_drop nb; [congr (dbit _ _); al|al].
case: (ltnP j (8 * k)) => j1.
  have ji : j < i by al.
  by rewrite ji nth_take // nb //; al.
case: (ltnP j (8 * k.+1)) => j2.
  have ej := mod_rel j1 j2.
  have jm : j %% 8 < 8 by rewrite ltn_mod.
  have djE : dbit d1 j = tbit (nth 0 d1 k) (j %% 8) by rewrite (dbit_split _ hk) ltnNge j1 j2.
  set mj := j %% 8 in ej jm djE *; clearbody mj.
  have lt_ji : (mj < mi) = (j < i) by al.
  rewrite delete_byteE // lt_ji.
  case: (ltnP j i) => ji.
    rewrite nth_take // nb; last by al.
    by rewrite djE.
  have := shifted ji; have -> : (j < i) = false by al.
  move=> ->; case: eqP => e7.
    by rewrite cE; congr (dbit _ _); al.
  rewrite (dbit_split _ hk).
  have -> : (j.+1 < 8 * k) = false by al.
  have -> : j.+1 < 8 * k.+1 by al.
  have -> : j.+1 = 8 * k + mj.+1 by al.
  by congr (tbit _ _); rewrite mulnC modnMDl [RHS]modn_small //; al.
have ji : i <= j by al.
rewrite (shifted ji) ld; last by rewrite size_drop; al.
rewrite [RHS](dbit_split _ hk); have -> : (j.+1 < 8 * k) = false by al.
have -> : (j.+1 < 8 * k.+1) = false by al.
have -> : (j - 8 * k.+1).+1 < 8 * size (drop k.+1 d1) by rewrite size_drop; al.
by congr (dbit _ _); al.
Qed.
