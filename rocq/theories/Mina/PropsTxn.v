(** C61 (transactions) and C62: Mina transactions, their encoding, addresses and JSON. *)
From mathcomp Require Import all_ssreflect all_algebra zify.
From Verif Require Import Lib.Res Lib.Bytes Lib.Inst Sharing.Spec Mina.BitModel Mina.BitBytes Mina.BitProofs
  Mina.Model Mina.Proofs Mina.Props.
Set Implicit Arguments.
Unset Strict Implicit.
Unset Printing Implicit Defensive.
Import GRing.Theory.
Local Open Scope ring_scope.
Local Arguments bits_le : simpl never.
Local Arguments copy_into : simpl never.
Local Opaque Model.permute bits_le.

(** ** Cutting a byte string *)
Lemma slice_skip a x i j : (size a <= i)%N -> slice (a ++ x) i j = slice x (i - size a) (j - size a).
Proof.
move=> h; rewrite /slice drop_cat ltnNge h /=; congr take; move: h; clear; lia.
Qed.

Lemma slice_here a x j : size a = j -> slice (a ++ x) 0 j = a.
Proof. by move=> <-; rewrite /slice drop0 subn0 take_size_cat. Qed.

Section Layout.
Variables (f1 f2 p n v hd m tg s r tk am tl : bytes).
Hypotheses (h1 : size f1 = 8%N) (h2 : size f2 = 8%N) (hp : size p = 32%N) (hn : size n = 4%N) (hv : size v = 4%N)
  (hhd : size hd = 2%N) (hm : size m = 32%N) (htg : size tg = 3%N) (hs : size s = 32%N) (hr : size r = 32%N)
  (htk : size tk = 8%N) (ham : size am = 8%N) (htl : size tl = 2%N).
Let b := f1 ++ f2 ++ p ++ n ++ v ++ hd ++ m ++ tg ++ s ++ r ++ tk ++ am ++ tl.

Lemma layout_size : size b = 175%N.
Proof. by rewrite /b !size_cat h1 h2 hp hn hv hhd hm htg hs hr htk ham htl. Qed.

Ltac go := rewrite /b; repeat (rewrite slice_skip; [|by rewrite ?h1 ?h2 ?hp ?hn ?hv ?hhd ?hm ?htg ?hs ?hr ?htk ?ham];
  rewrite ?h1 ?h2 ?hp ?hn ?hv ?hhd ?hm ?htg ?hs ?hr ?htk ?ham; rewrite ?[(_ - _)%N]/=); by apply: slice_here.

Lemma lay1 : slice b 0 8 = f1. Proof. by apply: slice_here. Qed.
Lemma lay2 : slice b 8 16 = f2. Proof. go. Qed.
Lemma lay3 : slice b 16 48 = p. Proof. go. Qed.
Lemma lay4 : slice b 48 52 = n. Proof. go. Qed.
Lemma lay5 : slice b 52 56 = v. Proof. go. Qed.
Lemma lay6 : slice b 93 125 = s. Proof. go. Qed.
Lemma lay7 : slice b 125 157 = r. Proof. go. Qed.
Lemma lay8 : slice b 157 165 = tk. Proof. go. Qed.
Lemma lay9 : slice b 165 173 = am. Proof. go. Qed.

Lemma lay_memo k : (k <= 32)%N -> slice b 58 (58 + k) = take k m.
Proof.
move=> hk; rewrite /b; do 6 (rewrite slice_skip; [|by rewrite ?h1 ?h2 ?hp ?hn ?hv ?hhd]).
rewrite h1 h2 hp hn hv hhd.
have -> : (58 - 8 - 8 - 32 - 4 - 4 - 2 = 0)%N by [].
have -> : (58 + k - 8 - 8 - 32 - 4 - 4 - 2 = k)%N by clear; lia.
by rewrite /slice drop0 subn0 take_cat hm; move: hk; rewrite leq_eqVlt => /orP[/eqP ->|->] //=; rewrite take0 cats0 -hm take_size.
Qed.

Ltac at_ := by rewrite /b !nth_cat h1 h2 hp hn hv hhd ?hm ?htg ?hs ?hr ?htk ?ham.
Lemma lay57 : nth 0%N b 57 = nth 0%N hd 1. Proof. at_. Qed.
Lemma lay90 : nth 0%N b 90 = nth 0%N tg 0. Proof. at_. Qed.
Lemma lay91 : nth 0%N b 91 = nth 0%N tg 1. Proof. at_. Qed.
Lemma lay92 : nth 0%N b 92 = nth 0%N tg 2. Proof. at_. Qed.
Lemma lay173 : nth 0%N b 173 = nth 0%N tl 0. Proof. at_. Qed.
Lemma lay174 : nth 0%N b 174 = nth 0%N tl 1. Proof. at_. Qed.
End Layout.

Section Txn.
Variables (Fp F : fieldType) (G : lmodType F) (g : G).
Variables (px py : G -> Fp) (fpraw : Fp -> nat) (fqraw : F -> nat).
Variables (blake : bytes -> bytes) (penc : G -> bytes) (pdec : bytes -> option G).
Variables (rk : nat -> seq Fp) (mdsm : seq (seq Fp)) (iv : nat -> seq Fp).
Local Notation fodd := (fodd fpraw).
Local Notation txn := (txn G).
Local Notation sign_transaction := (sign_transaction g px py fpraw fqraw blake rk mdsm iv).
Local Notation verify_transaction := (verify_transaction g px py fpraw rk mdsm iv).
Local Notation add_ro_input := (add_ro_input px py fpraw).
Local Notation chal := (chal px py fpraw rk mdsm iv).
Local Arguments Proofs.chal : simpl never.
Local Notation coords_ok := (coords_ok px py fpraw).
Local Notation coords_inj := (coords_inj px py fpraw).
Local Notation txn_marshal := (txn_marshal penc).
Local Notation txn_unmarshal := (txn_unmarshal pdec).
Local Notation derive_challenge := (derive_challenge px py fpraw pdec rk mdsm iv).

(** a transaction whose numbers fit their Go types *)
Definition txn_typed (t : txn) : Prop :=
  [/\ (t_fee t < 2 ^ 64)%N, (t_fee_token t < 2 ^ 64)%N, (t_nonce t < 2 ^ 32)%N & (t_valid t < 2 ^ 32)%N] /\
  [/\ (t_token t < 2 ^ 64)%N, (t_amount t < 2 ^ 64)%N, is_bytes (t_memo t) & (t_network t < 256)%N].

(** the same transaction with another memo / network *)
Definition with_memo (t : txn) (m : bytes) : txn :=
  Txn (t_fee t) (t_fee_token t) (t_payer t) (t_nonce t) (t_valid t) m (t_tag0 t) (t_tag1 t) (t_tag2 t)
    (t_source t) (t_receiver t) (t_token t) (t_amount t) (t_locked t) (t_network t).
Definition with_network (t : txn) (n : nat) : txn :=
  Txn (t_fee t) (t_fee_token t) (t_payer t) (t_nonce t) (t_valid t) (t_memo t) (t_tag0 t) (t_tag1 t) (t_tag2 t)
    (t_source t) (t_receiver t) (t_token t) (t_amount t) (t_locked t) n.

(** ** The hash input of a transaction *)
Definition tx_flds (t : txn) : seq Fp := [:: px (t_payer t); px (t_source t); px (t_receiver t)].
Definition tx_bits (t : txn) : seq bool :=
  bits_le 64 (t_fee t) ++ bits_le 64 (t_fee_token t) ++ [:: fodd (py (t_payer t))] ++
  bits_le 32 (t_nonce t) ++ bits_le 32 (t_valid t) ++ msg_bits (memo_rec (t_memo t)) ++
  [:: t_tag0 t; t_tag1 t; t_tag2 t; fodd (py (t_source t)); fodd (py (t_receiver t))] ++
  bits_le 64 (t_token t) ++ bits_le 64 (t_amount t) ++ [:: t_locked t].

Lemma tx_ro t : exists r, add_ro_input t (ro_init 75) = Ok r /\ is_ro r (tx_flds t) (tx_bits t).
Proof.
rewrite /Model.add_ro_input.
have h := add_fp_ro (px (t_receiver t)) (add_fp_ro (px (t_source t)) (add_fp_ro (px (t_payer t)) (init_ro Fp 75))).
rewrite /add_u64 /add_u32 /add_bit /add_bytes.
do 13 (match goal with |- exists _, bind (add_bits ?l ?r) _ = _ /\ _ =>
  let r' := fresh "r" in let e := fresh "e" in let h' := fresh "h" in
  have [r' [e h']] := add_bits_ro l h; rewrite e; cbn [bind]; clear e h; rename h' into h end).
have [r' [e h']] := add_bits_ro [:: t_locked t] h; rewrite e; exists r'; split => //.
by move: h'; rewrite /tx_bits -!catA.
Qed.

Lemma verify_transactionE pk sig t :
  verify_transaction pk sig t =
  if pk == 0 then Err else if (sig_r sig == 0) || (sig_s sig == 0) then Err else
  do e <- deref (chal pk (sig_r sig) (tx_flds t) (tx_bits t) (t_network t));
  if ~~ fodd (py (sig_s sig *: g - e *: pk)) && (px (sig_s sig *: g - e *: pk) == sig_r sig) then Ok tt else Err.
Proof.
have [r [e h]] := tx_ro t; rewrite /Model.verify_transaction e; cbn [bind].
exact: (finish_verify_ok g px py fpraw rk mdsm iv pk sig (t_network t) h).
Qed.

Theorem C61_txn_sign_verify sk t sig : coords_ok -> base_ok g ->
  sign_transaction sk t = Ok sig -> verify_transaction (sk *: g) sig t = Ok tt.
Proof.
move=> [cx cy] gb; have [r [e h]] := tx_ro t; rewrite /Model.sign_transaction e; cbn [bind].
have [b [_ ->]] := finish_sign_ok g px py fpraw fqraw blake rk mdsm iv sk (t_network t) h.
move: (nonce F blake b) => k.
case: ifP => [_|/negbT sk0]; first by [].
case: ifP => [_|/negbT k0]; first by [].
cbn zeta.
rewrite verify_transactionE; case E: (chal _ _ _ _ _) => [c|]; last by [].
cbn [bind deref]; case: ifP => [_|/norP[r0 s0] [<-]]; first by [].
rewrite [sig_r _]/= [sig_s _]/=.
have nz a : a != 0 -> a *: g != 0 by move=> ha; apply: contra ha => /eqP /gb ->.
rewrite (negbTE (nz _ sk0)) (negbTE r0) (negbTE s0) E; cbn [bind deref orb].
rewrite scalerDl scalerA addrK.
case o : (fodd (py (k *: g))); last by rewrite o eqxx.
by rewrite scaleNr cx (cy _ (nz _ k0)) o eqxx.
Qed.

Lemma known_network n : isSome (ctx_init iv n) = (n <= 2)%N.
Proof. by rewrite /ctx_init; case: n => [|[|[|n]]]. Qed.

(** FINDING: a network id outside 0..2, which UnmarshalBinary accepts, makes verification (and signing) panic. *)
Theorem C61_unknown_network_panics pk sig t :
  is_panic (verify_transaction pk sig t) = [&& pk != 0, sig_r sig != 0, sig_s sig != 0 & (2 < t_network t)%N].
Proof.
rewrite verify_transactionE; case: (pk == 0) => //; case: (sig_r sig == 0) => //; case: (sig_s sig == 0) => //.
cbn [orb negb andb]; rewrite /Proofs.chal ltnNge -known_network.
case: (ctx_init _ _) => [c|]; cbn [omap obind oapp deref bind isSome]; last by [].
by case: (~~ _ && _).
Qed.

(** ** Binding *)
Fixpoint bval (bs : seq bool) : nat := if bs is b :: bs' then (b + 2 * bval bs')%N else 0%N.

Lemma cvalE bs : cval Fp bs = (bval bs)%:R.
Proof. by elim: bs => //= b bs ->; rewrite natrD natrM. Qed.

Lemma bval_lt bs : (bval bs < 2 ^ size bs)%N.
Proof. by elim: bs => //= b bs IH; rewrite expnS; move: IH; move: (2 ^ size bs)%N => u; case: b; lia. Qed.

Lemma bval_inj b1 b2 : size b1 = size b2 -> bval b1 = bval b2 -> b1 = b2.
Proof.
elim: b1 b2 => [|x b1 IH] [|y b2] //= [e] h.
have [-> /(IH _ e) -> //] : x = y /\ bval b1 = bval b2 by case: x h; case: y; lia.
Qed.

(** the base field has more than 2^254 elements *)
Definition wide_field : Prop :=
  forall m n : nat, (m < 2 ^ 254)%N -> (n < 2 ^ 254)%N -> (m%:R : Fp) = n%:R -> m = n.

Lemma chunks_inj b1 b2 : wide_field -> size b1 = size b2 -> chunks Fp b1 = chunks Fp b2 -> b1 = b2.
Proof.
move=> wf; move: {2}(size b1) (leqnn (size b1)) => n; elim: n b1 b2 => [|n IH] b1 b2 h e.
  by move: h e; rewrite leqn0 => /nilP ->; case: b2.
case E1: b1 => [|x1 s1]; first by move: e; rewrite E1; case: b2.
case E2: b2 => [|x2 s2]; first by move: e; rewrite E1 E2.
rewrite -E1 -E2 (chunksE Fp b1) (chunksE Fp b2).
have -> T (x y : T) : (if b1 is [::] then x else y) = y by rewrite E1.
have -> T (x y : T) : (if b2 is [::] then x else y) = y by rewrite E2.
move=> [c d].
have st (b : seq bool) : (size (take 254 b) <= 254)%N by rewrite size_take; case: ltnP => //; clear; lia.
have lt b : (bval (take 254 b) < 2 ^ 254)%N.
  by apply: (leq_trans (bval_lt _)); rewrite leq_exp2l.
have tk : take 254 b1 = take 254 b2.
  apply: bval_inj; first by rewrite !size_take e.
  by apply: wf => //; rewrite -!cvalE.
have dr : drop 254 b1 = drop 254 b2.
  apply: IH => //; last by rewrite !size_drop e.
  by rewrite size_drop; move: h; rewrite E1 /=; clear; lia.
by rewrite -(cat_take_drop 254 b1) tk dr cat_take_drop.
Qed.

Lemma size_tx_bits t : size (tx_bits t) = 599%N.
Proof.
have : size (msg_bits (memo_rec (t_memo t))) = 272%N.
  by rewrite /msg_bits size_bytes_bits /memo_rec size_copy_into.
by rewrite /tx_bits; move: (msg_bits _) => mb hm; rewrite !size_cat !size_bits_le hm.
Qed.

Lemma bytes_memo_rec m : is_bytes m -> is_bytes (memo_rec m).
Proof.
move=> h; rewrite /memo_rec /copy_into; apply: bytes_take.
have hp : (size m %% 256 < 256)%N by rewrite ltn_pmod.
rewrite -[_ ++ nseq 34 0%N]/([:: 1%N; (size m %% 256)%N] ++ (m ++ nseq 34 0%N)) /is_bytes !all_cat [all _ m]h all_nseq orbT andbT.
by move: hp; move: (_ %% _)%N => k hk; rewrite /= hk.
Qed.

Lemma memo_rec_inj m1 m2 : (size m1 <= 32)%N -> (size m2 <= 32)%N -> memo_rec m1 = memo_rec m2 -> m1 = m2.
Proof.
move=> s1 s2; rewrite /memo_rec !copy_intoE ?size_cat ?ltnS //= => -[].
rewrite !modn_small ?(leq_ltn_trans s1) ?(leq_ltn_trans s2) // => es h.
by have [] := cat_eq es h.
Qed.

Lemma cat_split (T : Type) (a a' b b' : seq T) : size a = size a' -> a ++ b = a' ++ b' -> a = a' /\ b = b'.
Proof. exact: cat_eq. Qed.
Lemma cat1 (T : Type) (x y : T) b b' : [:: x] ++ b = [:: y] ++ b' -> x = y /\ b = b'.
Proof. by case. Qed.
Lemma cat5 (T : Type) (x1 x2 x3 x4 x5 y1 y2 y3 y4 y5 : T) b b' :
  [:: x1; x2; x3; x4; x5] ++ b = [:: y1; y2; y3; y4; y5] ++ b' ->
  [/\ x1 = y1, x2 = y2, x3 = y3, x4 = y4 & x5 = y5] /\ b = b'.
Proof. by case=> *. Qed.
Lemma bits64 x y : size (bits_le 64 x) = size (bits_le 64 y). Proof. by rewrite !size_bits_le. Qed.
Lemma bits32 x y : size (bits_le 32 x) = size (bits_le 32 y). Proof. by rewrite !size_bits_le. Qed.
Lemma memo_sz a b : size (memo_rec a) = size (memo_rec b). Proof. by rewrite /memo_rec !size_copy_into. Qed.
Lemma memo_size a b : size (msg_bits (memo_rec a)) = size (msg_bits (memo_rec b)).
Proof. by rewrite /msg_bits !size_bytes_bits /memo_rec !size_copy_into. Qed.

Lemma Ok_inj (T : Type) (a b : T) : Ok a = Ok b -> a = b. Proof. by case. Qed.
Lemma flds_split t1 t2 (c1 c2 : seq Fp) : tx_flds t1 ++ c1 = tx_flds t2 ++ c2 ->
  [/\ px (t_payer t1) = px (t_payer t2), px (t_source t1) = px (t_source t2),
      px (t_receiver t1) = px (t_receiver t2) & c1 = c2].
Proof. by case. Qed.

(** The field elements hashed for a transaction with a memo of at most 32 bytes determine it (the network is
    bound separately, by the initial state of the sponge). *)
Theorem C61_txn_binding t1 t2 r1 r2 fs : wide_field -> coords_inj -> txn_typed t1 -> txn_typed t2 ->
  (size (t_memo t1) <= 32)%N -> (size (t_memo t2) <= 32)%N ->
  add_ro_input t1 (ro_init 75) = Ok r1 -> add_ro_input t2 (ro_init 75) = Ok r2 ->
  ro_fields r1 = Ok fs -> ro_fields r2 = Ok fs -> t1 = with_network t2 (t_network t1).
Proof.
move=> wf inj [[f1 ft1 n1 v1] [tk1 am1 m1 _]] [[f2 ft2 n2 v2] [tk2 am2 m2 _]] s1 s2.
have [r1' [e1 h1]] := tx_ro t1; have [r2' [e2 h2]] := tx_ro t2.
rewrite e1 e2 => z1 z2; rewrite -(Ok_inj z1) -(Ok_inj z2) (ro_fields_ok h1) (ro_fields_ok h2) => {z1 z2} z1 z2.
have := esym (Ok_inj (etrans z2 (esym z1))) => {z1 z2}.
have sz : size (tx_bits t1) = size (tx_bits t2) by rewrite !size_tx_bits.
move=> /flds_split [] q1 q2 q3 /(chunks_inj wf sz).
rewrite /tx_bits.
move=> /(cat_split (bits64 _ _)) [/(bits_le_inj f1 f2) z1].
move=> /(cat_split (bits64 _ _)) [/(bits_le_inj ft1 ft2) z2].
move=> hh; have [z3 {}hh] := cat1 hh; move: hh.
move=> /(cat_split (bits32 _ _)) [/(bits_le_inj n1 n2) z4].
move=> /(cat_split (bits32 _ _)) [/(bits_le_inj v1 v2) z5].
move=> /(cat_split (memo_size _ _)) [zm].
move=> hh; have [[z6 z7 z8 z9 z10] {}hh] := cat5 hh; move: hh.
move=> /(cat_split (bits64 _ _)) [/(bits_le_inj tk1 tk2) z11].
move=> /(cat_split (bits64 _ _)) [/(bits_le_inj am1 am2) z12] [z13].
have z14 : t_memo t1 = t_memo t2.
  apply: (memo_rec_inj s1 s2); exact: (bytes_bits_inj (bytes_memo_rec m1) (bytes_memo_rec m2) (memo_sz _ _) zm).
have z15 := inj _ _ q1 z3; have z16 := inj _ _ q2 z9; have z17 := inj _ _ q3 z10.
move: z1 z2 z4 z5 z6 z7 z8 z11 z12 z13 z14 z15 z16 z17; clear.
by case: t2; case: t1; rewrite /with_network /=; intros; subst.
Qed.

Lemma memo_rec_long m : (32 <= size m)%N -> memo_rec m = [:: 1; size m %% 256]%N ++ take 32 m.
Proof.
move=> h; rewrite /memo_rec; move: (size m %% 256)%N => k.
by rewrite /copy_into -catA -[34%N]/(2 + 32)%N take_cat /= takel_cat.
Qed.

(** FINDING: a memo longer than 32 bytes is truncated and its length is taken modulo 256; transactions whose
    memos differ only beyond that have the same signatures. *)
Theorem C61_long_memo_refuted pk sig t m1 m2 :
  take 32 m1 = take 32 m2 -> size m1 = size m2 %[mod 256] -> (32 <= size m1)%N -> (32 <= size m2)%N ->
  verify_transaction pk sig (with_memo t m1) = verify_transaction pk sig (with_memo t m2).
Proof.
move=> ht hs s1 s2; rewrite !verify_transactionE.
suff -> : tx_bits (with_memo t m1) = tx_bits (with_memo t m2) by [].
rewrite /tx_bits [t_memo (with_memo t m1)]/= [t_memo (with_memo t m2)]/=.
suff -> : memo_rec m1 = memo_rec m2 by [].
by rewrite !memo_rec_long // hs ht.
Qed.
End Txn.

Print Assumptions C61_txn_sign_verify.
Print Assumptions C61_unknown_network_panics.
Print Assumptions C61_txn_binding.
Print Assumptions C61_long_memo_refuted.

(** key 5 pays key 7: the signature verifies, also with byte 33 of a long memo changed, but not with another
    amount or on another network *)
Definition pt7 (n : nat) : G7 := (n%:R : F7).
Definition txn7 (memo : bytes) (amount network : nat) : txn G7 :=
  Txn 3 1 (pt7 5) 9 100 memo true false true (pt7 5) (pt7 4) 1 amount false network.
Definition tsign7 := sign_transaction g7 px7 py7 raw7 raw7 blake7 rk7 mds7 iv7.
Definition tverify7 := verify_transaction g7 px7 py7 raw7 rk7 mds7 iv7.

Example C61_txn_hyps :
  (if tsign7 5%:R (txn7 (nseq 33 8%N) 41 1) is Ok s then
     [&& is_ok (tverify7 (pt7 5) s (txn7 (nseq 33 8%N) 41 1)),
         is_ok (tverify7 (pt7 5) s (txn7 (rcons (nseq 32 8%N) 9%N) 41 1)),
         is_err (tverify7 (pt7 5) s (txn7 (nseq 33 8%N) 43 1)),
         is_err (tverify7 (pt7 5) s (txn7 (nseq 33 8%N) 41 2)) &
         is_panic (tverify7 (pt7 5) s (txn7 (nseq 33 8%N) 41 3))]
   else false) = true.
Proof. by vm_compute. Qed.
