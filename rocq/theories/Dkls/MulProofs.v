(** Proofs about the two-party multiplication, with abstract sizes. *)
From Coq Require Import PeanoNat Field.
From mathcomp Require Import all_ssreflect all_algebra zify.
From Verif Require Import Lib.Res Lib.Bytes Lib.FieldTac Core.HashModel Core.HashProofs OT.GfModel OT.SimplestModel OT.KosModel OT.KosProofs Dkls.MulModel.
Set Implicit Arguments. Unset Strict Implicit. Unset Printing Implicit Defensive.
Import GRing.Theory.

Lemma byte_bits x : x < 256 -> x = \sum_(k < 8) Nat.testbit x k * 2 ^ k.
Proof.
move=> h.
have D2 y : y = Nat.testbit y 0 + 2 * Nat.div2 y.
  have := PeanoNat.Nat.div2_odd y; change (Nat.testbit y 0) with (Nat.odd y).
  by move=> {1}->; rewrite addnC; case: Nat.odd.
have E2 y : Nat.div2 y = y %/ 2.
  by have := D2 y; case: Nat.testbit => /= e; lia.
have D y : y = Nat.testbit y 0 + 2 * (y %/ 2) by rewrite -E2; exact: D2.
have S y k : Nat.testbit y k.+1 = Nat.testbit (y %/ 2) k by rewrite -E2.
clear D2 E2; move: D S; generalize Nat.testbit => T D S.
rewrite !big_ord_recl big_ord0 /= /bump /= !addn0 !add1n !S.
have := D x; set x1 := x %/ 2; have := D x1; set x2 := x1 %/ 2; have := D x2; set x3 := x2 %/ 2.
have := D x3; set x4 := x3 %/ 2; have := D x4; set x5 := x4 %/ 2; have := D x5; set x6 := x5 %/ 2.
have := D x6; set x7 := x6 %/ 2; have := D x7.
have : x7 < 2 by rewrite /x7 /x6 /x5 /x4 /x3 /x2 /x1; lia.
lia.
Qed.

Lemma le_val_bits b : is_bytes b -> le_val b = \sum_(j < 8 * size b) extract_bit b j * 2 ^ j.
Proof.
elim: b => [|x b IH]; first by rewrite big_ord0.
rewrite /is_bytes /= => /andP[hx hb]; rewrite le_val_cons mulnS big_split_ord /= {1}(byte_bits hx) (IH hb).
congr (_ + _); first by apply: eq_bigr => k _; rewrite /extract_bit divn_small // modn_small.
rewrite big_distrr /=; apply: eq_bigr => k _.
rewrite /extract_bit divnDl // divnn /= modnDl expnD.
by rewrite mulnA (mulnC 256) -mulnA.
Qed.

Local Open Scope ring_scope.
Section P.
Variable F : fieldType.
Add Field F_field : (f_fth F).
Variables (enc : F -> bytes) (dec : bytes -> option F)
  (hash : bytes -> bytes) (shake : bytes -> bytes -> nat -> bytes) (mul : bytes -> bytes -> bytes)
  (xof : log -> bytes) (gpad : nat -> bytes) (kb lb eb : nat).
Hypothesis Hhash : forall x, word kb (hash x).
Hypothesis Hshake : forall s x n, is_bytes (shake s x n) /\ size (shake s x n) = n.
Hypothesis Hmul : forall a b, word kb a -> word kb b -> word kb (mul a b).
Hypothesis HmulDl : forall a b c, word kb a -> word kb b -> word kb c -> mul (bxor a b) c = bxor (mul a c) (mul b c).
Hypothesis HmulDr : forall a b c, word kb a -> word kb b -> word kb c -> mul a (bxor b c) = bxor (mul a b) (mul a c).
Hypothesis encK : forall x, dec (enc x) = Some x.
Hypothesis enc_word : forall x, word kb (enc x).
Hypothesis enc_val : forall x, (be_val (enc x))%:R = x.
Hypothesis enc0 : enc 0 = nseq 32 0%N.
Hypothesis Hkl : (kb <= lb)%N.
Hypothesis Hle : (lb <= eb)%N.

Notation bit w j := (Nat.testbit (nth 0%N w (j %/ 8)) (j %% 8)).

Lemma gadget_ok gad : gadget dec gpad kb lb = Ok gad ->
  size gad = (8 * lb)%N /\ forall j, (j < 8 * kb)%N -> nth 0 gad j = (2 ^ j)%:R.
Proof.
move=> e; have [s1 h] := mapo_ok e; rewrite size_iota in s1 h; split=> // j hj.
have hj' : (j < 8 * lb)%N by apply: leq_trans hj _; rewrite leq_mul2l Hkl.
by have := h j 0%N 0 hj'; rewrite nth_iota // add0n /gadget_at hj => -[].
Qed.

Lemma encode_fold gad e0 beta n s : foldl (encode_step enc dec gad e0) (Ok (enc beta)) (iota s n)
  = Ok (enc (beta - \sum_(s <= j < s + n) (extract_bit e0 j)%:R * nth 0 gad j)).
Proof.
elim: n s beta => [|n IH] s beta; first by rewrite /= addn0 big_geq // subr0.
rewrite /= encK addnS big_nat_recl ?leq_addr //.
have -> : (if extract_bit e0 s then enc (beta - nth 0 gad s) else enc beta) = enc (beta - (extract_bit e0 s)%:R * nth 0 gad s).
  by case: extract_bit; rewrite ?mul1r ?mul0r ?subr0.
rewrite IH; congr (Ok (enc _)); rewrite opprD addrA; congr (_ - _).
by rewrite addSn big_add1.
Qed.

Lemma encode_ok gad beta gamma : gadget dec gpad kb lb = Ok gad -> is_bytes gamma -> size gamma = (lb - kb)%N ->
  exists omega, [/\ encode enc dec kb lb gad beta (Some gamma) = Ok omega, is_bytes omega, size omega = lb &
    \sum_(0 <= j < 8 * lb) (extract_bit omega j)%:R * nth 0 gad j = beta].
Proof.
move=> eg bg sg; have [s1 hg] := gadget_ok eg.
rewrite /encode encode_fold; set d := \sum_(_ <= j < _) _; cbn [bind].
set b := enc (beta - d); have [bb sb] : word kb b by exact: enc_word.
exists (rev b ++ gamma); split=> //.
- by move: bb bg; rewrite /is_bytes all_cat all_rev => -> ->.
- by rewrite size_cat size_rev sb sg subnKC.
have hk : (8 * kb <= 8 * lb)%N by rewrite leq_mul2l Hkl.
rewrite (big_cat_nat _ _ _ (leq0n (8 * kb)) hk) /=.
have -> : \sum_(0 <= j < 8 * kb) (extract_bit (rev b ++ gamma) j)%:R * nth 0 gad j = beta - d.
  rewrite -[RHS]enc_val -/b -[b in RHS]revK -/(le_val (rev b)) le_val_bits; last by move: bb; rewrite /is_bytes all_rev.
  rewrite size_rev sb natr_sum big_mkord; apply: eq_bigr => j _.
  have hj : (j %/ 8 < kb)%N by rewrite ltn_divLR // [(kb * 8)%N]mulnC; exact: ltn_ord.
  rewrite hg // /extract_bit nth_cat size_rev sb hj.
  by case: Nat.testbit; rewrite ?mul0n ?mul0r ?mul1n ?mul1r ?mulr0 ?mulr1.
suff -> : \sum_(8 * kb <= j < 8 * lb) (extract_bit (rev b ++ gamma) j)%:R * nth 0 gad j = d by rewrite subrK.
rewrite /d subnKC // !big_nat; apply: eq_bigr => j /andP[h1 h2].
congr (_%:R * _); rewrite /extract_bit !nth_cat size_rev sb size_nseq.
by rewrite ltn_divLR // mulnC ltnNge h1.
Qed.

Lemma foldl_sum (f : nat -> F) n : foldl (fun acc j => acc + f j) 0 (iota 0 n) = \sum_(0 <= j < n) f j.
Proof.
elim: n => [|n IH]; first by rewrite big_geq.
by rewrite -[in LHS]addn1 iotaD foldl_cat IH add0n big_nat_recr.
Qed.

(** the slots of the receiver's last OT round *)
Lemma kos3_shares r tau r3 : KosModel.round3 enc dec shake lb r tau = Ok r3 ->
  forall j k, (j < 8 * lb)%N -> (k < 2)%N -> exists x, col dec shake (kr_sid r) j (nth [::] (kr_psi r) j) k = Some x /\
   nth 0 (nth [::] (kr_shares r3) j) k = if extract_bit (kr_w r) j then - x + nth 0 (nth [::] tau j) k else - x.
Proof.
rewrite /KosModel.round3; case E: (mapo _ _) => [sh| |] // [<-] j k hj hk; have [s1 h] := mapo_ok E.
rewrite size_iota in s1 h; have := h j 0%N [::] hj; rewrite nth_iota // add0n /slot3k /colo.
cbn [kr_shares].
case C0: (col _ _ _ _ _ 0) => [x0|]; last by []. 
case C1: (col _ _ _ _ _ 1) => [x1|]; last by cbn [bind]; case: (dec _).
cbn [bind]; have -> b x y : dec (if b then enc x else enc y) = Some (if b then x else y) by case: b; rewrite encK.
have -> b x y : dec (if b then enc x else enc y) = Some (if b then x else y) by case: b; rewrite encK.
move=> -[<-]; case: k hk => [|[|]] // _; [exists x0 | exists x1]; split=> //=; by case: extract_bit.
Qed.

Lemma kos3_total r tau : (forall j k, (j < 8 * lb)%N -> (k < 2)%N -> col dec shake (kr_sid r) j (nth [::] (kr_psi r) j) k <> None) ->
  exists r3, KosModel.round3 enc dec shake lb r tau = Ok r3.
Proof.
move=> h; rewrite /KosModel.round3.
have dE b (x y : F) : dec (if b then enc x else enc y) = Some (if b then x else y) by case: b; rewrite encK.
case E: (mapo _ _) => [sh| |]; first by eexists.
all: exfalso; move: E.
all: have [|ys ->] := @mapo_total _ _ (fun j => do x0 <- slot3k enc dec shake r tau j 0;
   do x1 <- slot3k enc dec shake r tau j 1; Ok [:: x0; x1]) (iota 0 (8 * lb)).
all: try by [].
all: move=> j; rewrite mem_iota add0n => /andP[_ hj]; rewrite /slot3k /colo.
all: case C0: (col _ _ _ _ _ 0) => [x0|]; last by case: (h j 0%N hj isT C0).
all: case C1: (col _ _ _ _ _ 1) => [x1|]; last by case: (h j 1%N hj isT C1).
all: by cbn [bind]; rewrite !dE; eexists.
Qed.

Definition mseeds (r : mreceiver F) (s : msender F) := seeds_ok kb (mr_ot r) (ms_ot s).

(** an honest run up to the second message *)
Definition honest12 (r : mreceiver F) (s : msender F) sid gad (alpha ahat beta : F) gamma ext r1 m1 s2 m2 : Prop :=
  [/\ seeds_ok kb (mr_ot r) (ms_ot s), gadget dec gpad kb lb = Ok gad, mr_gad r = gad /\ ms_gad s = gad,
      [/\ mr_sid r = sid, ms_sid s = sid & mr_log r = ms_log s] &
      [/\ is_bytes gamma, size gamma = (lb - kb)%N, is_bytes ext, size ext = (eb - lb)%N &
       mround1 enc dec hash shake mul kb lb eb r beta (Some gamma) (Some ext) = Ok (r1, m1) /\
       mround2 enc dec hash shake mul xof kb lb eb s alpha ahat m1 = Ok (s2, m2)]].

Lemma mul_run r s sid gad alpha ahat beta gamma ext r1 m1 s2 m2 :
  honest12 r s sid gad alpha ahat beta gamma ext r1 m1 s2 m2 ->
  exists ot3 c0 c1 l, [/\ KosModel.round3 enc dec shake lb (mr_ot r1) (m2_tau m2) = Ok ot3,
     challenges dec xof kb (mr_log r1 ++ app_tau enc kb (m2_tau m2)) = Ok (l, c0, c1) /\ l = ms_log s2,
     (is_bytes (mr_omega r1) /\ size (mr_omega r1) = lb) /\ (mr_gad r1 = gad /\ extract_bit (kr_w (mr_ot r1)) =1 extract_bit (kr_w (mr_ot r1))),
     \sum_(0 <= j < 8 * lb) (extract_bit (mr_omega r1) j)%:R * nth 0 gad j = beta /\
     ms_share s2 = \sum_(0 <= j < 8 * lb) nth 0 gad j * nth 0 (nth [::] (ks_shares (ms_ot s2)) j) 0 &
     [/\ m2_U m2 = c0 * alpha + c1 * ahat,
        forall j, (j < 8 * lb)%N -> nth 0 (m2_R m2) j = c0 * nth 0 (nth [::] (ks_shares (ms_ot s2)) j) 0 + c1 * nth 0 (nth [::] (ks_shares (ms_ot s2)) j) 1,
        forall j, (j < 8 * lb)%N -> extract_bit (kr_w (mr_ot r1)) j = extract_bit (mr_omega r1) j &
        forall j k, (j < 8 * lb)%N -> (k < 2)%N -> nth 0 (nth [::] (ks_shares (ms_ot s2)) j) k + nth 0 (nth [::] (kr_shares ot3) j) k
           = if extract_bit (mr_omega r1) j then nth 0 [:: alpha; ahat] k else 0]].
Proof.
move=> [hs eg [gr gs] [sr ss elog] [bg sg be se [e1 e2]]].
have [omega [eo bo so sum]] := encode_ok beta eg bg sg.
move: e1; rewrite /mround1 gr eo; cbn [bind]; case K1: (KosModel.round1 _ _ _ _ _ _ _ _ _) => [[ot1 k1]| |] //; cbn [bind] => -[er1 em1].
move: e2; rewrite /mround2; case K2: (KosModel.round2 _ _ _ _ _ _ _ _ _ _ _) => [[ot2 tau]| |] //; cbn [bind].
case C: (challenges _ _ _ _) => [[[l c0] c1]| |] //; cbn [bind] => -[es2 em2].
rewrite -em1 in K2 C; rewrite sr in K1; rewrite ss in K2.
have sz : (size omega + size ext = eb)%N by rewrite so se subnKC.
have [ot3 [K3 h]] := cot_ok Hhash Hshake Hmul HmulDl HmulDr encK Hle hs bo be so sz K1 K2.
exists ot3, c0, c1, l; rewrite -er1 -es2 -em2; cbn [mr_ot m2_tau mr_log mr_omega mr_gad ms_share ms_ot m2_U m2_R ms_log].
split=> //.
- by rewrite elog.
- by split; [exact: sum | rewrite foldl_sum gs].
split=> //.
- by move=> j hj; rewrite (nth_map 0%N) ?size_iota // nth_iota // add0n add0r.
- move=> j hj; have -> : kr_w ot1 = omega ++ ext.
    by move: K1; rewrite /KosModel.round1; case: ifP => // _ [<- _].
  by rewrite /extract_bit nth_cat so ltn_divLR // mulnC hj.
move=> j k hj hk; rewrite h //; case: extract_bit => //.
by rewrite nth_nseq hj.
Qed.

Lemma enc_eq0 (x y : F) b : (y = if b then x else 0) -> ((if b then enc x else nseq 32 0%N) == enc y).
Proof. by move=> ->; case: b; rewrite ?enc0. Qed.

Lemma enc_inj : injective enc.
Proof. by move=> x y e; apply: Some_inj; rewrite -!encK e. Qed.

Lemma mul_ok r s sid gad alpha ahat beta gamma ext r1 m1 s2 m2 :
  honest12 r s sid gad alpha ahat beta gamma ext r1 m1 s2 m2 ->
  exists r3, [/\ mround3 enc dec shake xof kb lb r1 m2 = Ok r3, ms_share s2 + mr_share r3 = alpha * beta & mr_log r3 = ms_log s2].
Proof.
move=> H; have [ot3 [c0 [c1 [l [K3 [C el] [[bo so] [eg _]] [sum sA] [eU eR ew h]]]]]] := mul_run H.
rewrite /mround3 K3; cbn [bind]; rewrite C; cbn [bind]; case: ifP => ck; last first.
  move/negbT/allPn: ck => [j]; rewrite mem_iota add0n => /andP[_ hj] /negP[]; rewrite /slot_check.
  apply: enc_eq0; rewrite eR // eU.
  have := h j 0%N hj isT; have := h j 1%N hj isT; cbn [nth].
  set a0 := nth 0 (nth _ (ks_shares _) _) 0; set a1 := nth 0 (nth _ (ks_shares _) _) 1.
  set b0 := nth 0 (nth _ (kr_shares _) _) 0; set b1 := nth 0 (nth _ (kr_shares _) _) 1 => h1 h0.
  have -> : c0 * a0 + c1 * a1 + c0 * b0 + c1 * b1 = c0 * (a0 + b0) + c1 * (a1 + b1) by f_fold F; ring.
  by rewrite h0 h1; case: extract_bit; rewrite ?mulr0 ?addr0.
eexists; split; [by []| |by []]; cbn [mr_share]; rewrite sA eg foldl_sum -big_split -sum /= big_distrr /= !big_nat.
apply: eq_bigr => j /andP[_ hj]; rewrite -mulrDr h //.
by case: extract_bit; rewrite ?mul1r ?mul0r ?mulr0 ?mulr1 //= mulrC.
Qed.

(** slot [j0] of tau shifted by (d0, d1) *)
Definition shift_tau (tau : seq (seq F)) (j0 : nat) (d0 d1 : F) : seq (seq F) :=
  [seq if j == j0 then [:: nth 0 (nth [::] tau j) 0 + d0; nth 0 (nth [::] tau j) 1 + d1] else nth [::] tau j | j <- iota 0 (8 * lb)].

Lemma nth_shift tau j0 d0 d1 j k : (j < 8 * lb)%N -> (k < 2)%N ->
  nth 0 (nth [::] (shift_tau tau j0 d0 d1) j) k = nth 0 (nth [::] tau j) k + (if j == j0 then nth 0 [:: d0; d1] k else 0).
Proof.
move=> hj hk; rewrite (nth_map 0%N) ?size_iota // nth_iota // add0n.
by case: eqP => _; rewrite ?addr0 //; case: k hk => [|[|]].
Qed.

Lemma app_tau_shift tau j0 d0 d1 : (8 * kb <= j0)%N -> app_tau enc kb (shift_tau tau j0 d0 d1) = app_tau enc kb tau.
Proof.
move=> h; rewrite /app_tau; congr flatten; apply/eq_in_map => i; rewrite mem_iota add0n => /andP[_ hi].
have hi' : (i < 8 * lb)%N by apply: leq_trans hi _; rewrite leq_mul2l Hkl.
apply/eq_in_map => k; rewrite mem_iota add0n => /andP[_ hk]; congr (App _ (enc _)).
rewrite nth_shift //; have -> : (i == j0) = false by apply/eqP => e; move: h hi; rewrite e leqNgt => /negP.
by rewrite addr0.
Qed.

Lemma mul_unbound r s sid gad alpha ahat beta gamma ext r1 m1 s2 m2 j0 d :
  honest12 r s sid gad alpha ahat beta gamma ext r1 m1 s2 m2 ->
  (8 * kb <= j0 < 8 * lb)%N ->
  (forall l c0 c1, challenges dec xof kb (mr_log r1 ++ app_tau enc kb (m2_tau m2)) = Ok (l, c0, c1) -> c1 != 0) ->
  exists d1 r3, mround3 enc dec shake xof kb lb r1 (MRound2 (shift_tau (m2_tau m2) j0 d d1) (m2_R m2) (m2_U m2)) = Ok r3 /\
    ms_share s2 + mr_share r3 = alpha * beta + (if extract_bit (mr_omega r1) j0 then nth 0 gad j0 * d else 0).
Proof.
move=> H /andP[hj0 hj1] cn; have [ot3 [c0 [c1 [l [K3 [C el] [[bo so] [eg _]] [sum sA] [eU eR ew h]]]]]] := mul_run H.
have c1n := cn _ _ _ C; set d1 := - (c0 * d / c1); exists d1.
have [|ot3' K3'] := @kos3_total (mr_ot r1) (shift_tau (m2_tau m2) j0 d d1).
  by move=> j k hj hk; have [x [-> _]] := kos3_shares K3 hj hk.
have h' j k : (j < 8 * lb)%N -> (k < 2)%N -> nth 0 (nth [::] (kr_shares ot3') j) k =
   nth 0 (nth [::] (kr_shares ot3) j) k + (if extract_bit (mr_omega r1) j && (j == j0) then nth 0 [:: d; d1] k else 0).
  move=> hj hk; have [x [ex ->]] := kos3_shares K3 hj hk; have [y [ey ->]] := kos3_shares K3' hj hk.
  have -> : x = y by move: ey; rewrite ex => -[].
  by rewrite ew // nth_shift //; case: extract_bit; rewrite /= ?addr0 // addrA.
rewrite /mround3; cbn [m2_tau m2_R m2_U]; rewrite K3'; cbn [bind]; rewrite app_tau_shift // C; cbn [bind]; case: ifP => ck; last first.
  move/negbT/allPn: ck => [j]; rewrite mem_iota add0n => /andP[_ hj] /negP[]; rewrite /slot_check; cbn [m2_R m2_U].
  apply: enc_eq0; rewrite eR // eU !h' //.
  have := h j 0%N hj isT; have := h j 1%N hj isT; cbn [nth].
  set a0 := nth 0 (nth _ (ks_shares _) _) 0; set a1 := nth 0 (nth _ (ks_shares _) _) 1.
  set b0 := nth 0 (nth _ (kr_shares _) _) 0; set b1 := nth 0 (nth _ (kr_shares _) _) 1 => h1 h0.
  have e0 : c0 * d + c1 * d1 = 0 by rewrite /d1 mulrN mulrC [c1 * _]mulrC divfK // mulrC subrr.
  set z0 := if _ then d else 0; set z1 := if _ then d1 else 0.
  have ez : c0 * z0 + c1 * z1 = 0 by rewrite /z0 /z1; case: ifP; rewrite ?mulr0 ?addr0.
  have -> : c0 * a0 + c1 * a1 + c0 * (b0 + z0) + c1 * (b1 + z1) = c0 * (a0 + b0) + c1 * (a1 + b1) + (c0 * z0 + c1 * z1).
    by f_fold F; ring.
  by rewrite ez addr0 h0 h1; case: extract_bit; rewrite ?mulr0 ?addr0.
eexists; split; first by []; cbn [mr_share]; rewrite sA eg foldl_sum -big_split /=.
have E j : (0 <= j < 8 * lb)%N -> nth 0 gad j * nth 0 (nth [::] (ks_shares (ms_ot s2)) j) 0 + nth 0 gad j * nth 0 (nth [::] (kr_shares ot3') j) 0
   = alpha * ((extract_bit (mr_omega r1) j)%:R * nth 0 gad j) + (if j == j0 then (if extract_bit (mr_omega r1) j0 then nth 0 gad j0 * d else 0) else 0).
  move=> /andP[_ hj]; rewrite h' // mulrDr addrA -mulrDr h //; congr (_ + _).
    by case: extract_bit; rewrite ?mul1r ?mul0r ?mulr0 ?mulr1 //= mulrC.
  by case: (j =P j0) => [->|_]; case: extract_bit; rewrite /= ?mulr0.
rewrite big_nat (eq_bigr _ E) -big_nat big_split /= -big_distrr /= sum; congr (_ + _).
rewrite (big_cat_nat _ _ _ (leq0n j0) (ltnW hj1)) /= big_nat big1 ?add0r; last first.
  by move=> j /andP[_ hj]; rewrite (ltn_eqF hj).
rewrite big_ltn // eqxx big_nat big1 ?addr0 //.
by move=> j /andP[hj _]; rewrite (gtn_eqF hj).
Qed.
End P.
