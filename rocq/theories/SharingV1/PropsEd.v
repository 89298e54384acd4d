(** C82: Ed25519 as a curve of the v1 sharing package. *)
From mathcomp Require Import all_ssreflect all_algebra.
From Verif Require Import Lib.Res Lib.Bytes Curves.EcPointModel Curves.PropsEcPoint SharingV1.EdModel.
Set Implicit Arguments.
Unset Strict Implicit.
Unset Printing Implicit Defensive.
Import GRing.Theory Num.Theory Order.TTheory.
Local Open Scope ring_scope.

(** What RFC 8032 and the edwards25519 package provide: 32-byte encodings that decode to the point, the
    encoding 01 00 .. 00 of the identity, a sign bit on top of the last byte that negation flips (unless
    the point is its own negative), a base point of order L, and a point of order four whose encoding is
    all zero. *)
Record edwards (ed : zmodType) (enc : ed -> bytes) (dec : bytes -> option ed) (B : ed) (L P : nat) : Prop := {
  ed_dec : forall p, dec (enc p) = Some p;
  ed_size : forall p, size (enc p) = 32%N /\ is_bytes (enc p);
  ed_zero : enc 0 = 1%N :: nseq 31 0%N;
  ed_sign : forall p, enc (- p) = enc p \/ exists b x,
     enc p = rcons b x /\ enc (- p) = rcons b (x + 128)%N \/ enc p = rcons b (x + 128)%N /\ enc (- p) = rcons b x;
  ed_order : forall n, B *+ n = 0 <-> (L %| n)%N;
  ed_L : (1 < L)%N /\ odd L /\ (L <= 256 ^ 32)%N;
  ed_P : odd P;
  ed_four : exists T, dec (nseq 32 0%N) = Some T /\ T *+ 2 <> 0 }.

Lemma le_val_cat a b : le_val (a ++ b) = (le_val a + 256 ^ size a * le_val b)%N.
Proof.
elim: a => [|x a IH]; first by rewrite le_val_nil mul1n.
by rewrite cat_cons !le_val_cons IH /= mulnDr addnA expnS mulnA.
Qed.
Lemma le_val_take k b : is_bytes b -> le_val (take k b) = (le_val b %% 256 ^ k)%N.
Proof.
move=> hb; case: (leqP (size b) k) => h.
  rewrite take_oversize // modn_small //; apply: leq_trans (le_val_lt hb) _; by rewrite leq_exp2l.
rewrite -{2}(cat_take_drop k b) le_val_cat size_take h.
rewrite addnC mulnC modnMDl modn_small //.
have ht : is_bytes (take k b) by apply/allP => x /mem_take hx; apply: (allP hb).
by have := le_val_lt ht; rewrite size_take h.
Qed.
Lemma copy_rev k b : is_bytes b -> le_val (copy_into k (rev b)) = (be_val b %% 256 ^ k)%N.
Proof.
move=> hb; rewrite /copy_into le_val_take ?le_val_pad /le_val ?revK //.
by rewrite /is_bytes all_cat all_rev -/(is_bytes b) hb all_nseq orbT.
Qed.

Lemma cut_small (ed : zmodType) (B : ed) (L v M M' : nat) : (forall m, B *+ (m %% L) = B *+ m) ->
  (v < M)%N -> (M <= M')%N -> B *+ (if (v %% M < L)%N then (v %% M)%N else (v %% M' %% L)%N) = B *+ v.
Proof.
move=> hL h1 h2; rewrite (modn_small h1) (modn_small (leq_trans h1 h2)).
by case: ifP => // _; rewrite hL.
Qed.

Section P.
Variables (ed : zmodType) (enc : ed -> bytes) (dec : bytes -> option ed) (B : ed) (L P : nat).
Hypothesis E : edwards enc dec B L P.
Local Notation C := (ed_curve enc dec B L P).
Definition pt (p : ed) : ecpoint := EcP C (Some 0) (Some (Posz (be_val (enc p)))).

Lemma pad_strip b k : is_bytes b -> size b = k -> nseq (k - size (be_bytes (be_val b))) 0%N ++ be_bytes (be_val b) = b.
Proof.
move=> hb <-; rewrite be_bytes_strip //; elim: b hb => [//|x b IH] /= /andP [_ /IH {}IH].
case: x => [|x] /=; last by rewrite subnn.
have hs : (size (strip0 b) <= size b)%N by elim: (b) => [//|[|y] c IHc] //=; apply: leq_trans IHc _.
by rewrite subSn //= IH.
Qed.
Lemma big2pointE p : big2point dec (Posz (be_val (enc p))) = Ok p.
Proof.
have [hs hb] := ed_size E p.
rewrite /big2point absz_nat ltnNge.
have -> : (size (be_bytes (be_val (enc p))) <= 32)%N by rewrite size_be; have := be_val_lt hb; rewrite hs.
by rewrite pad_strip // (ed_dec E).
Qed.
Lemma big2point0 T : dec (nseq 32 0%N) = Some T -> big2point dec 0 = Ok T.
Proof. by move=> h; rewrite /big2point [be_bytes _]/= subn0 cats0 h. Qed.
Lemma zeros p : be_val (enc p) = 0%N -> dec (nseq 32 0%N) = Some p.
Proof.
move=> h; have [hs hb] := ed_size E p.
have := pad_strip hb hs; rewrite h [be_bytes _]/= subn0 cats0 => ->; exact: ed_dec E p.
Qed.
Lemma pt_inj p q : be_val (enc p) = be_val (enc q) -> p = q.
Proof. by move=> h; have := big2pointE p; rewrite h big2pointE => -[->]. Qed.
Lemma val0 : be_val (enc 0) = (256 ^ 31)%N.
Proof. by rewrite (ed_zero E) be_val_cons size_nseq mul1n -[nseq 31 0%N]cats0 be_val_pad addn0. Qed.
Lemma good_pt p : checked (pt p) = Ok (pt p).
Proof. by apply/checkedP; split=> //; exists 0, (Posz (be_val (enc p))); split=> //; left; rewrite /= /ed_on big2pointE. Qed.
Lemma read0E p : dec (nseq 32 0%N) <> Some p -> read0 dec (Posz (be_val (enc p))) = Ok p.
Proof.
by move=> h; rewrite /read0; case: eqP => [[/zeros]|_] //; rewrite big2pointE.
Qed.
Lemma scalarE (k : bytes) : is_bytes k ->
  ed_scalar L k = if (be_val k %% 256 ^ 32 < L)%N then (be_val k %% 256 ^ 32)%N else (be_val k %% 256 ^ 64 %% L)%N.
Proof.
move=> hk; rewrite /ed_scalar /big2scalar copy_rev ?is_bytes_be // be_bytesK.
by case: ifP => // _; rewrite copy_rev.
Qed.
Lemma scalar_small (k : int) : ed_scalar L (scalar_bytes C k) = `|(k %% Posz L)%Z|%N.
Proof.
have [L1 [_ LL]] := ed_L E.
rewrite scalarE; last exact: is_bytes_be.
rewrite /scalar_bytes be_bytesK.
have h : (`|(k %% Posz L)%Z| < L)%N.
  rewrite -ltz_nat gez0_abs ?modz_ge0 ?ltz_pmod //; by case: (L) L1.
move: LL; move: (256 ^ 32)%N (256 ^ 64)%N => M M' LL.
have hm : (`|(k %% Posz L)%Z| %% M = `|(k %% Posz L)%Z|)%N by apply: modn_small; apply: leq_trans h LL.
by rewrite [c_N _]/= hm h.
Qed.
End P.

(** EcPoint over Ed25519: addition and multiplication follow the group, with scalars of any size and sign
    reduced modulo the order, for all points except the one whose encoding is all zero; results are valid
    points and the encodings determine the points. *)
Theorem C82_group (ed : zmodType) (enc : ed -> bytes) (dec : bytes -> option ed) (B : ed) (L P : nat)
    (p q : ed) (k : int) : edwards enc dec B L P ->
  let C := ed_curve enc dec B L P in
  let pt p := EcP C (Some 0) (Some (Posz (be_val (enc p)))) in
  [/\ dec (nseq 32 0%N) <> Some p -> dec (nseq 32 0%N) <> Some q ->
        ec_add (Some (pt p)) (Some (pt q)) = Ok (pt (p + q)),
      ec_mul (Some (pt p)) (Some k) = Ok (pt (p *+ `|(k %% Posz L)%Z|)),
      ec_base (Some C) (Some k) = Ok (pt (B *+ `|(k %% Posz L)%Z|)),
      equals (pt p) (Some (pt q)) = true <-> p = q &
      is_valid (pt p) = Ok true].
Proof.
move=> E C pt'; split.
- move=> hp hq; rewrite /ec_add /same_curve eqxx /= /ed_add (read0E E hp) (read0E E hq) /=.
  exact: (good_pt E).
- by rewrite /ec_mul /= /ed_mul (big2pointE E) /= (scalar_small E); exact: (good_pt E).
- by rewrite /ec_base /= /ed_base /= (scalar_small E); exact: (good_pt E).
- have [_ -> _ _] := C81_predicates (pt' p) (pt' q).
  by split=> [[_ [_ [/(pt_inj E)]]]|->].
- apply/is_validP; exists 0, (Posz (be_val (enc p))); split=> //; left.
  by rewrite /= /ed_on (big2pointE E).
Qed.
Print Assumptions C82_group.

(** Finding: IsIdentity does not recognise the identity of this group. The zero multiple of any point is the
    identity, yet IsIdentity is false for it; the pair (0,0), for which IsIdentity is true, is added as the
    identity but doubled and multiplied as a point of order four, so adding it to itself and multiplying
    it by two give different points. *)
Theorem C82_identity_refuted (ed : zmodType) (enc : ed -> bytes) (dec : bytes -> option ed) (B : ed) (L P : nat) :
  edwards enc dec B L P ->
  let C := ed_curve enc dec B L P in
  let O := EcP C (Some 0) (Some 0) in
  (exists q, [/\ ec_base (Some C) (Some 0) = Ok q, big2point dec (Posz (be_val (enc 0))) = Ok 0,
                 e_y q = Some (Posz (be_val (enc 0))) & is_identity q = false]) /\
  (is_identity O = true /\ is_valid O = Ok true) /\
  (exists s d, [/\ ec_add (Some O) (Some O) = Ok s, ec_mul (Some O) (Some 2%:Z) = Ok d &
                   equals s (Some d) = false]).
Proof.
move=> E C O; have [T [hT hT2]] := ed_four E; have [L1 [Lodd _]] := ed_L E.
split; last split.
- exists (pt enc dec B L P 0); split=> //; last 1 first.
  + apply/negP => /is_identityE [_ /= [h]].
    by have := val0 E; rewrite h => /esym/eqP; rewrite expn_eq0.
  + by rewrite /ec_base /= /ed_base /= (scalar_small E) mod0z mulr0n; exact: (good_pt E).
  + exact: (big2pointE E).
- split=> //; apply/is_validP; exists 0, 0; split=> //; left.
  by rewrite /= /ed_on (big2point0 hT).
- exists (pt enc dec B L P 0), (pt enc dec B L P (T *+ 2)); split.
  + rewrite /ec_add /same_curve eqxx /= /ed_add /read0 /= addr0; exact: (good_pt E).
  + rewrite /ec_mul /= /ed_mul (big2point0 hT) /= (scalar_small E) modz_small; first exact: (good_pt E).
    by rewrite /= ltz_nat ltn_neqAle L1 andbT; apply/eqP => L2; move: Lodd; rewrite -L2.
  + apply/negP => h; case: (C81_predicates (pt enc dec B L P 0) (pt enc dec B L P (T *+ 2))) => _ h' _ _.
    by move/h': h => [_ [_ [/(pt_inj E) /esym]]].
Qed.
Print Assumptions C82_identity_refuted.

(** Finding: EcPoint.Neg never returns the negative of a point of this curve (it subtracts the byte-reversed
    encoding from the field modulus); the curve's own Neg method is right, except on the all-zero encoding. *)
Theorem C82_neg_refuted (ed : zmodType) (enc : ed -> bytes) (dec : bytes -> option ed) (B : ed) (L P : nat) (p : ed) :
  edwards enc dec B L P ->
  let C := ed_curve enc dec B L P in
  let y p := Posz (be_val (enc p)) in
  (forall r, ec_neg (Some (EcP C (Some 0) (Some (y p)))) = Ok r -> e_y r <> Some (y (- p))) /\
  (dec (nseq 32 0%N) <> Some p -> ed_neg enc dec 0 (y p) = Ok (Some 0, Some (y (- p)))).
Proof.
move=> E C y; split=> [r|hp]; last by rewrite /ed_neg (read0E E hp).
rewrite /ec_neg /= => /checkedP [-> _] /= [h].
have hP := ed_P E.
have : Posz P = y (- p) + y p by rewrite -h subrK.
rewrite /y -PoszD => -[hs]; move: hP; rewrite hs.
suff -> : odd (be_val (enc (- p)) + be_val (enc p)) = false by [].
have hr b x : odd (be_val (rcons b x)) = odd x.
  by rewrite be_val_rcons oddD oddM andbF.
rewrite oddD; case: (ed_sign E p) => [->|[b [x [[-> ->]|[-> ->]]]]]; first by rewrite addbb.
  by rewrite !hr oddD addbF addbb.
by rewrite !hr oddD addbF addbb.
Qed.
Print Assumptions C82_neg_refuted.

(** The curve's own ScalarMult and ScalarBaseMult, for a byte string of any length: the multiplier is the
    scalar modulo 2^256 when that is below the order and otherwise the scalar modulo 2^512, reduced.
    Finding: so a scalar of 33 bytes may be cut: 2^256 multiplies by zero. EcPoint reduces first and is
    not affected. *)
Theorem C82_raw_scalar (ed : zmodType) (enc : ed -> bytes) (dec : bytes -> option ed) (B : ed) (L P : nat)
    (p : ed) (k : bytes) : edwards enc dec B L P -> is_bytes k ->
  let y p := Posz (be_val (enc p)) in
  let n := if (be_val k %% 256 ^ 32 < L)%N then (be_val k %% 256 ^ 32)%N else (be_val k %% 256 ^ 64 %% L)%N in
  [/\ ed_mul enc dec L 0 (y p) k = Ok (Some 0, Some (y (p *+ n))),
      ed_base enc B L k = Ok (Some 0, Some (y (B *+ n))),
      ((size k <= 32)%N -> B *+ n = B *+ be_val k) &
      ed_base enc B L (1%N :: nseq 32 0%N) = Ok (Some 0, Some (y 0)) /\ B *+ be_val (1%N :: nseq 32 0%N) <> 0].
Proof.
move=> E hk y n; have [L1 [Lodd LL]] := ed_L E.
have hL m : B *+ (m %% L) = B *+ m.
  by rewrite {2}(divn_eq m L) mulrnDr; have [_ ->] := ed_order E (m %/ L * L); rewrite ?dvdn_mull ?add0r.
split.
- by rewrite /ed_mul (big2pointE E) /= (scalarE _ hk).
- by rewrite /ed_base (scalarE _ hk).
- move=> hs; exact: (cut_small hL (leq_trans (be_val_lt hk) (@leq_pexp2l 256 _ _ isT hs)) (@leq_pexp2l 256 32 64 isT isT)).
- have hb : is_bytes (1%N :: nseq 32 0%N) by [].
  have hv : be_val (1%N :: nseq 32 0%N) = (256 ^ 32)%N.
    by rewrite be_val_cons size_nseq mul1n -[nseq 32 0%N]cats0 be_val_pad addn0.
  have h2 : coprime L 2 by rewrite coprimen2.
  have h8 : coprime L 256 := coprimeXr 8 h2.
  have hc := coprimeXr 32 h8.
  have hs := scalarE L hb; rewrite hv in hs; rewrite hv.
  rewrite /ed_base hs; move: (256 ^ 32)%N (256 ^ 64)%N hc => M M' hc; clear hs hv; split.
    by rewrite modnn (ltn_trans _ L1).
  move/(ed_order E) => hd.
  by move: hc; rewrite /coprime (gcdn_idPl hd) => /eqP hL1; rewrite hL1 in L1.
Qed.
Print Assumptions C82_raw_scalar.

(** What the methods of the curve do with any coordinates: the first is ignored, the sign of the second is
    ignored, a second coordinate of 2^256 or more makes every method panic, IsOnCurve included, and below
    that IsOnCurve says whether the 32 big-endian bytes decode, while Double, Add, ScalarMult and Neg
    panic when they do not; the coordinate 0 is decoded by Double and ScalarMult and read as the identity
    by Add and Neg. *)
Theorem C82_coordinates (ed : zmodType) (enc : ed -> bytes) (dec : bytes -> option ed) (L : nat)
    (x y x' : int) (k b : bytes) :
  let out p := Ok (Some 0, Some (Posz (be_val (enc p)))) in
  ((256 ^ 32 <= `|y|)%N ->
     ed_on dec x y = Panic /\ ed_double enc dec x y = Panic /\ ed_mul enc dec L x y k = Panic /\
     ed_neg enc dec x y = Panic /\ ed_add enc dec x y x' 0 = Panic /\ ed_add enc dec x' 0 x y = Panic) /\
  (size b = 32%N -> is_bytes b -> be_val b = `|y|%N ->
     [/\ ed_on dec x y = Ok (dec b : bool),
         ed_double enc dec x y = (if dec b is Some p then out (p *+ 2) else Panic),
         ed_mul enc dec L x y k = (if dec b is Some p then out (p *+ ed_scalar L k) else Panic),
         ed_neg enc dec x y = (if y == 0 then out 0 else if dec b is Some p then out (- p) else Panic) &
         ed_add enc dec x y x' 0 = (if y == 0 then out 0 else if dec b is Some p then out p else Panic) /\
         ed_add enc dec x' 0 x y = (if y == 0 then out 0 else if dec b is Some p then out p else Panic)]).
Proof.
move=> out; split=> [hy|hs hb hv].
  have hP : big2point dec y = Panic by rewrite /big2point ltnNge size_be ltnNge hy.
  have y0 : (y == 0) = false.
    apply/negP => /eqP y0; move: hy; rewrite y0 absz0; have := expn_gt0 256 32.
    by move: (256 ^ 32)%N => [|M].
  by rewrite /ed_on /ed_double /ed_mul /ed_neg /ed_add /read0 y0 hP.
have hP : big2point dec y = if dec b is Some p then Ok p else Err.
  rewrite /big2point -hv ltnNge.
  have -> : (size (be_bytes (be_val b)) <= 32)%N by rewrite size_be; have := be_val_lt hb; rewrite hs.
  by rewrite pad_strip.
rewrite /ed_on /ed_double /ed_mul /ed_neg /ed_add /read0 hP eqxx /=.
case: (dec b) => [p|] /=; case: (y == 0) => //=; split=> //=.
all: rewrite /ed_out ?oppr0 ?addr0 ?add0r ?mulr2n //.
Qed.
Print Assumptions C82_coordinates.

(** A group of order twelve with encodings of this shape: the base point 4 has order 3, the all-zero
    encoding stands for 3, a point of order four. *)
Definition toyEnc (p : 'Z_12) : bytes :=
  let k := val p in
  if k == 0%N then 1%N :: nseq 31 0%N
  else if k == 3%N then nseq 32 0%N
  else if (k <= 6)%N then (k + 20)%N :: nseq 31 0%N
  else if k == 9%N then rcons (nseq 31 0%N) 128%N
  else rcons ((12 - k + 20)%N :: nseq 30 0%N) 128%N.
Definition toyAll : seq 'Z_12 := [seq inZp m | m <- iota 0 12].
Definition toyDec (b : bytes) : option 'Z_12 :=
  nth None [seq Some p | p <- toyAll] (index b [seq toyEnc p | p <- toyAll]).
Lemma toyCase (Q : 'Z_12 -> bool) : all Q toyAll -> forall p, Q p.
Proof.
move=> /allP h p; apply: h; apply/mapP; exists (val p); last by rewrite valZpK.
by rewrite mem_iota /=; exact: (ltn_ord p).
Qed.
Example C82_hyps : edwards toyEnc toyDec 4%:R 3 7.
Proof.
split=> //.
- by move=> p; apply/eqP; move: p; apply: toyCase; vm_compute.
- have h : forall p, ((size (toyEnc p) == 32) && is_bytes (toyEnc p))%N by apply: toyCase; vm_compute.
  by move=> p; case/andP: (h p) => /eqP.
- move=> p; pose b := take 31 (toyEnc p); pose x := (nth 0 (toyEnc p) 31 %% 128)%N.
  have : [|| toyEnc (- p) == toyEnc p,
             (toyEnc p == rcons b x) && (toyEnc (- p) == rcons b (x + 128)%N) |
             (toyEnc p == rcons b (x + 128)%N) && (toyEnc (- p) == rcons b x)].
    by rewrite /b /x; move: p {b x}; apply: toyCase; vm_compute.
  case/or3P => [/eqP ->|/andP [/eqP h1 /eqP h2]|/andP [/eqP h1 /eqP h2]]; first by left.
    by right; exists b, x; left.
  by right; exists b, x; right.
- move=> n; rewrite -mulrnA /=; split=> [h|/dvdnP [m ->]]; last first.
    have z12 : (1 *+ (4 * 3) : 'Z_12) = 0 by apply: val_inj; vm_compute.
    by rewrite mulnCA mulnC mulrnA z12 mul0rn.

  have : ((4 * n) %% 12 = 0)%N by have := congr1 val h; rewrite /= -[1 *+ _]/((4 * n)%:R) val_Zp_nat.
  by move/eqP; rewrite -/(12 %| 4 * n)%N -[12%N]/(4 * 3)%N dvdn_pmul2l.
- by exists 3%:R.
Qed.
