(** C81: the point type over crypto/elliptic curves. *)
From mathcomp Require Import all_ssreflect all_algebra.
From Verif Require Import Lib.Res Lib.Bytes Curves.EcPointModel.
Set Implicit Arguments.
Unset Strict Implicit.
Unset Printing Implicit Defensive.
Import GRing.Theory Num.Theory Order.TTheory.
Local Open Scope ring_scope.

(** the two coordinates of a point, when both are present *)
Definition coords (a : ecpoint) (x y : int) : Prop := e_x a = Some x /\ e_y a = Some y.
(** a point a user may rely on: on its curve, or the pair (0,0) that stands for the identity *)
Definition good (a : ecpoint) : Prop :=
  exists x y, coords a x y /\ (c_on (e_curve a) x y = Ok true \/ [/\ x = 0, y = 0 & c_on (e_curve a) x y = Ok false]).
(** fits in k bytes *)
Definition fits (k : nat) (x : int) : Prop := (`|x| < 256 ^ k)%N.

Lemma size_be n k : (size (be_bytes n) <= k)%N = (n < 256 ^ k)%N.
Proof.
apply/idP/idP => [h|]; last exact: size_be_bytes.
by rewrite -{1}(be_bytesK n); apply: (leq_trans (be_val_lt (is_bytes_be n))); rewrite leq_exp2l.
Qed.
Lemma be_inj n m : be_bytes n = be_bytes m -> n = m.
Proof. by move=> h; rewrite -(be_bytesK n) h be_bytesK. Qed.
Lemma be_val_pad k b : be_val (nseq k 0%N ++ b) = be_val b.
Proof. by elim: k => [//|k IH] /=; rewrite be_val_cons IH mul0n. Qed.
Lemma ct_eqP a b : ct_eq a b = true <-> a = b.
Proof.
case: a b => [a|] [b|] //=; split=> // [|[->]]; last by rewrite !eqxx.
by case/andP => /eqP /be_inj ha /eqP hs; congr Some; rewrite (intEsg a) (intEsg b) hs ha.
Qed.
Lemma is_identityE a : is_identity a = true <-> coords a 0 0.
Proof.
by rewrite /is_identity /coords; split=> [/andP [] /ct_eqP -> /ct_eqP ->|[/ct_eqP -> /ct_eqP ->]].
Qed.
Lemma is_validP a : is_valid a = Ok true <-> good a.
Proof.
rewrite /is_valid /is_on /good; case hx: (e_x a) => [x|] /=; last by split=> // -[x [y [[]]]]; rewrite hx.
case hy: (e_y a) => [y|] /=; last by split=> // -[x' [y [[_]]]]; rewrite hy.
split=> [|[x' [y' [[]]]]]; last first.
  rewrite hx hy => -[<-] [<-] [->|[h1 h2 ->]] //=.
  by have -> : is_identity a = true by apply/is_identityE; rewrite /coords hx hy h1 h2.
case hc: (c_on _ x y) => [[]| |] //=; first by exists x, y; split=> //; left.
case=> hi; exists x, y; split=> //; right; move/is_identityE: hi => []; rewrite hx hy => -[hx0] [hy0]; split=> //.
Qed.
Lemma checkedP a b : checked a = Ok b <-> b = a /\ good a.
Proof.
by rewrite /checked -is_validP; case: (is_valid a) => [[]| |] /=; split=> //; case=> ->.
Qed.
Lemma fillP k x : fits k x -> exists s, [/\ fill k (Some x) = Ok s, size s = k, is_bytes s & be_val s = `|x|%N].
Proof.
move=> h; rewrite /fill /= size_be h.
have hs : (size (be_bytes `|x|%N) <= k)%N by rewrite size_be.
exists (nseq (k - size (be_bytes `|x|%N)) 0%N ++ be_bytes `|x|%N); split=> //.
- by rewrite size_cat size_nseq subnK.
- by rewrite /is_bytes all_cat -/(is_bytes (be_bytes _)) is_bytes_be andbT all_nseq orbT.
- by rewrite be_val_pad be_bytesK.
Qed.
Lemma fill_panic k x : ~ fits k x -> fill k (Some x) = Panic.
Proof. by rewrite /fits /fill /= size_be; case: ltnP => // _ h; case: h. Qed.

(** IsIdentity, Equals and IsValid are exact: IsIdentity holds for (0,0) only; Equals holds exactly for the
    same curve and the same integers; IsValid holds exactly for points on the curve and for (0,0). *)
Theorem C81_predicates (a b : ecpoint) :
  [/\ is_identity a = true <-> coords a 0 0,
      equals a (Some b) = true <-> c_name (e_curve a) = c_name (e_curve b) /\ e_x a = e_x b /\ e_y a = e_y b,
      equals a None = false &
      is_valid a = Ok true <-> good a].
Proof.
split=> //; [exact: is_identityE| |exact: is_validP].
rewrite /equals /same_curve; case: eqP => /= h; last by split=> // -[].
by split=> [/andP [] /ct_eqP -> /ct_eqP ->|[_ [/ct_eqP -> /ct_eqP ->]]].
Qed.
Print Assumptions C81_predicates.

(** Whatever the curve functions return, a point handed out by Add, Neg, ScalarMult, NewScalarBaseMult or
    PointFromBytesUncompressed is good and lies on the curve of the receiver. *)
Theorem C81_valid_results (r : ecpoint) :
  [/\ forall a b, ec_add (Some a) (Some b) = Ok r ->
        [/\ good r, e_curve r = e_curve a & c_name (e_curve a) = c_name (e_curve b)],
      forall a, ec_neg (Some a) = Ok r -> good r /\ e_curve r = e_curve a,
      forall a k, ec_mul (Some a) (Some k) = Ok r -> good r /\ e_curve r = e_curve a,
      forall c k, ec_base (Some c) (Some k) = Ok r -> good r /\ e_curve r = c &
      forall c s, ec_from_bytes c s = Ok r -> good r /\ e_curve r = c].
Proof.
split.
- move=> a b; rewrite /ec_add /same_curve; case: eqP => //= hn.
  case hx: (e_x a) => [ax|] //=; case hy: (e_y a) => [ay|] //=; case: (e_x b) => [bx|] //=; case: (e_y b) => [by_|] //=.
  by case: (c_add _ _ _ _ _) => [q| |] //= /checkedP [-> h].
- by move=> a; rewrite /ec_neg; case: (e_y a) => [y|] //= /checkedP [-> h].
- by move=> a k; rewrite /ec_mul; case: (e_x a) => [x|] //=; case: (e_y a) => [y|] //=; case: (c_mul _ _ _ _) => [q| |] //= /checkedP [-> h].
- by move=> c k; rewrite /ec_base; case: (c_base _ _) => [q| |] //= /checkedP [-> h].
- by move=> c s; rewrite /ec_from_bytes; case: eqP => //= _ /checkedP [-> h].
Qed.
Print Assumptions C81_valid_results.

(** The curve is given the big-endian bytes of the scalar's remainder in [0,N): multiples depend on the
    scalar modulo the order only, for negative scalars too. *)
Theorem C81_scalar_reduced (c : curve) (k k' : int) : (0 < c_N c)%N ->
  [/\ Posz (be_val (scalar_bytes c k)) = (k %% Posz (c_N c))%Z,
      (be_val (scalar_bytes c k) < c_N c)%N &
      (k = k' %[mod Posz (c_N c)])%Z ->
      ec_base (Some c) (Some k) = ec_base (Some c) (Some k') /\
      forall a, e_curve a = c -> ec_mul (Some a) (Some k) = ec_mul (Some a) (Some k')].
Proof.
move=> hN; have hN' : Posz (c_N c) != 0 by rewrite -lt0n in hN *; case: (c_N c) hN.
have h0 : 0 <= (k %% Posz (c_N c))%Z by apply: modz_ge0.
have e : Posz (be_val (scalar_bytes c k)) = (k %% Posz (c_N c))%Z by rewrite /scalar_bytes be_bytesK gez0_abs.
split=> //.
  by rewrite -ltz_nat e; apply: ltz_pmod.
move=> h; split; first by rewrite /ec_base /scalar_bytes h.
by move=> a ha; rewrite /ec_mul /scalar_bytes ha h.
Qed.
Print Assumptions C81_scalar_reduced.

(** PointFromBytesUncompressed accepts exactly the strings of twice the field size whose halves, read as
    big-endian integers, are a good point, and returns that point. *)
Theorem C81_from_bytes_exact (c : curve) (s : bytes) (r : ecpoint) :
  let fs := ((c_bits c + 7) %/ 8)%N in
  let x := Posz (be_val (take fs s)) in let y := Posz (be_val (drop fs s)) in
  ec_from_bytes c s = Ok r <->
  [/\ size s = (fs * 2)%N, r = EcP c (Some x) (Some y) & c_on c x y = Ok true \/ [/\ x = 0, y = 0 & c_on c x y = Ok false]].
Proof.
move=> fs x y; rewrite /ec_from_bytes -/fs; case: eqP => /= hs; last by split=> // -[].
rewrite checkedP; split=> [[-> [x' [y' [[]]]]]|[_ -> h]].
  by move=> /= [<-] [<-] h.
by split=> //; exists x, y.
Qed.
Print Assumptions C81_from_bytes_exact.

(** Bytes and PointFromBytesUncompressed are inverse on every good point with coordinates in range, the
    identity included; a coordinate that does not fit makes Bytes panic. *)
Theorem C81_bytes_round_trip (a : ecpoint) (x y : int) :
  let fs := ((c_bits (e_curve a) + 7) %/ 8)%N in
  coords a x y ->
  (0 <= x -> 0 <= y -> fits fs x -> fits fs y -> good a ->
   exists s, [/\ ec_bytes a = Ok s, size s = (fs * 2)%N & ec_from_bytes (e_curve a) s = Ok a]) /\
  (~ fits fs x \/ ~ fits fs y -> ec_bytes a = Panic).
Proof.
move=> fs [hx hy]; rewrite /ec_bytes -/fs /field_size -/fs hx hy; split=> [x0 y0 fx fy ha|].
  have [sx [-> zx _ vx]] := fillP fx; have [sy [-> zy _ vy]] := fillP fy.
  exists (sx ++ sy); split=> //; first by rewrite size_cat zx zy muln2 addnn.
  rewrite /ec_from_bytes /field_size -/fs size_cat zx zy muln2 addnn eqxx /=.
  rewrite (take_size_cat _ zx) (drop_size_cat _ zx) /set_bytes vx vy !gez0_abs //.
  have -> : EcP (e_curve a) (Some x) (Some y) = a by case: (a) hx hy => c ? ? /= -> ->.
  exact/checkedP.
case=> h; first by rewrite (fill_panic h).
case: (ltnP `|x|%N (256 ^ fs)) => hx'.
  by have [s [-> _ _ _]] := @fillP fs x hx'; rewrite /= (fill_panic h).
by rewrite (@fill_panic fs x) // /fits; apply/negP; rewrite -leqNgt.
Qed.
Print Assumptions C81_bytes_round_trip.

(** the five entries carry the numbers they are filed under *)
Definition tables (table : seq curve) : Prop :=
  size table = 5%N /\ forall i c, lookup table i = Some c -> c_name c = i.
Lemma lookupE table i : (exists c, lookup table i = Some c) <-> (i < size table)%N.
Proof.
rewrite /lookup; split=> [[c]|h].
  by case: ltnP => // h; rewrite nth_default // size_map.
by case: table h => // c t h; exists (nth c (c :: t) i); rewrite (nth_map c).
Qed.

(** MarshalBinary then UnmarshalBinary returns every point whose coordinates are below 2^256.
    Finding: a coordinate of 2^256 or more, as nearly all points of the two larger curves have, makes
    MarshalBinary panic instead of returning an error. *)
Theorem C81_binary_round_trip (table : seq curve) (a : ecpoint) (x y : int) :
  tables table -> lookup table (c_name (e_curve a)) = Some (e_curve a) -> coords a x y ->
  (0 <= x -> 0 <= y -> fits 32 x -> fits 32 y ->
   exists s, [/\ marshal_binary table a = Ok s, size s = 65%N & unmarshal_binary table s = Ok a]) /\
  (~ fits 32 x \/ ~ fits 32 y -> marshal_binary table a = Panic).
Proof.
move=> _ hl [hx hy]; rewrite /marshal_binary hl hx hy; split=> [x0 y0 fx fy|].
  have [sx [-> zx _ vx]] := fillP fx; have [sy [-> zy _ vy]] := fillP fy.
  exists (c_name (e_curve a) :: sx ++ sy); split=> //; first by rewrite /= size_cat zx zy.
  have hs : size (c_name (e_curve a) :: sx ++ sy) = 65%N by rewrite /= size_cat zx zy.
  rewrite /unmarshal_binary hl /slice hs [drop 1 _]/= drop0 [drop 33 _]/=.
  have -> : (65 - 33 = 32)%N by [].
  have -> : (33 - 1 = 32)%N by [].
  rewrite (take_size_cat _ zx) (drop_size_cat _ zx).
  have -> : take 32 sy = sy by apply: take_oversize; rewrite zy.
  rewrite /= /set_bytes vx vy !gez0_abs //.
  by congr Ok; case: (a) hx hy => c ? ? /= -> ->.
case=> h; first by rewrite (fill_panic h).
case: (ltnP `|x|%N (256 ^ 32)) => hx'.
  by have [s [-> _ _ _]] := @fillP 32 x hx'; rewrite /= (fill_panic h).
by rewrite (@fill_panic 32 x) // /fits; apply/negP; rewrite -leqNgt.
Qed.
Print Assumptions C81_binary_round_trip.

(** Finding: UnmarshalBinary accepts any string of at least 65 bytes with a known first byte, whatever the
    coordinates; a shorter one, the empty string included, makes it panic instead of returning an error.
    Only unknown curve numbers are errors. *)
Theorem C81_unmarshal_binary_exact (table : seq curve) (data : bytes) : tables table ->
  let code := head 0%N data in
  [/\ (65 <= size data)%N -> (code < 5)%N -> exists c,
        lookup table code = Some c /\
        unmarshal_binary table data =
          Ok (EcP c (Some (Posz (be_val (take 32 (drop 1 data))))) (Some (Posz (be_val (take 32 (drop 33 data)))))),
      (0 < size data)%N -> (5 <= code)%N -> unmarshal_binary table data = Err &
      size data = 0%N \/ (size data < 65)%N /\ (code < 5)%N -> unmarshal_binary table data = Panic].
Proof.
move=> [ht _]; case: data => [|code data] /=.
  by split=> // h; rewrite ltn0 in h.
have hl : (code < 5)%N <-> exists c, lookup table code = Some c by rewrite lookupE ht.
split.
- move=> hs /hl [c hc]; exists c; split=> //; rewrite hc /slice /= hs.
  have -> : (33 <= (size data).+1)%N by apply: leq_trans hs.
  by rewrite /= !subSS subn0 drop0 /set_bytes.
- move=> _ h; case hc: (lookup table code) => [c|] //.
  have : (code < 5)%N by apply/hl; exists c.
  by rewrite ltnNge h.
- case=> // -[hs /hl [c ->]]; rewrite /slice /=.
  case: (33 <= (size data).+1)%N => //=.
  by rewrite leqNgt hs.
Qed.
Print Assumptions C81_unmarshal_binary_exact.

(** Finding: consequently a decoded point need not be on the curve; the same holds for JSON, which also
    accepts negative and missing coordinates, on which IsValid itself panics. *)
Theorem C81_decoded_valid_refuted (table : seq curve) (i : nat) (c : curve) (x y : int) :
  tables table -> lookup table i = Some c ->
  0 <= x -> 0 <= y -> fits 32 x -> fits 32 y -> c_on c x y = Ok false -> (x <> 0 \/ y <> 0) ->
  [/\ exists data a, unmarshal_binary table data = Ok a /\ is_valid a = Ok false,
      exists j a, unmarshal_json table j = Ok a /\ is_valid a = Ok false &
      exists j a, unmarshal_json table j = Ok a /\ is_valid a = Panic].
Proof.
move=> ht hl x0 y0 fx fy hon hxy.
set a := EcP c (Some x) (Some y).
have hn : c_name c = i by case: ht => _; apply.
have hv : is_valid a = Ok false.
  rewrite /is_valid /is_on /= hon /=; congr Ok; apply/negP => /is_identityE [/= [ex] [ey]].
  by case: hxy.
split.
- have hl' : lookup table (c_name (e_curve a)) = Some (e_curve a) by rewrite /= hn.
  have [h _] := @C81_binary_round_trip table a x y ht hl' (conj erefl erefl).
  by have [s [_ _ hs]] := h x0 y0 fx fy; exists s, a.
- by exists (EcJson i (Some x) (Some y)), a; rewrite /unmarshal_json /= hl.
- by exists (EcJson i None None), (EcP c None None); rewrite /unmarshal_json /= hl.
Qed.
Print Assumptions C81_decoded_valid_refuted.

(** JSON round trip *)
Theorem C81_json_round_trip (table : seq curve) (a : ecpoint) :
  lookup table (c_name (e_curve a)) = Some (e_curve a) -> unmarshal_json table (marshal_json a) = Ok a.
Proof. by rewrite /unmarshal_json /= => ->; case: a. Qed.
Print Assumptions C81_json_round_trip.

(** y^2 = x^3 + a x + b over the integers modulo P; the on-curve test may or may not reject coordinates
    outside [0,P) *)
Definition weierstrass (c : curve) (a b : int) : Prop :=
  (forall x y, c_on c x y = Ok true -> (Posz (c_P c) %| y * y - (x * x * x + a * x + b))%Z) /\
  (forall x y, 0 <= x < Posz (c_P c) -> 0 <= y < Posz (c_P c) ->
     (Posz (c_P c) %| y * y - (x * x * x + a * x + b))%Z -> c_on c x y = Ok true) /\
  (forall x y, exists r, c_on c x y = Ok r).

(** Neg maps (x,y) to (x,P-y) and is an involution on the points with y <> 0, which is all of them on a
    curve of odd order. Finding: Neg of the identity is an error on every curve with b <> 0, because
    (0,P) is neither on the curve nor recognised as the identity. *)
Theorem C81_neg (c : curve) (a b : int) :
  weierstrass c a b -> (0 < c_P c)%N ->
  (forall x y, 0 <= x < Posz (c_P c) -> 0 < y < Posz (c_P c) -> c_on c x y = Ok true ->
     [/\ ec_neg (Some (EcP c (Some x) (Some y))) = Ok (EcP c (Some x) (Some (Posz (c_P c) - y))),
         c_on c x (Posz (c_P c) - y) = Ok true &
         ec_neg (Some (EcP c (Some x) (Some (Posz (c_P c) - y)))) = Ok (EcP c (Some x) (Some y))]) /\
  (~~ (Posz (c_P c) %| b)%Z -> ec_neg (Some (EcP c (Some 0) (Some 0))) = Err).
Proof.
case=> h1 [h2 h3] P0; split=> [x y hx /andP [y0 yP] hon|hb].
  have hn : c_on c x (Posz (c_P c) - y) = Ok true.
    apply: h2 => //; first by rewrite subr_ge0 ltW //= gtr_addl oppr_lt0.
    have -> : forall u w : int, u - w = (y * y - w) + (u - y * y) by move=> u w; rewrite [RHS]addrC addrA subrK.
    by rewrite rpredD //; [apply: h1|rewrite -!expr2 subr_sqr subrK dvdz_mull].
  split=> //.
    by rewrite /ec_neg /= /checked /is_valid /is_on /= hn.
  by rewrite /ec_neg /= /checked /is_valid /is_on /= opprB addrCA subrr addr0 hon.
rewrite /ec_neg /= /checked /is_valid /is_on /= subr0.
case: (h3 0 (Posz (c_P c))) => [[]] hon; rewrite hon.
  move: (h1 _ _ hon); rewrite !mulr0 !add0r => hd; case/negP: hb.
  have -> : b = Posz (c_P c) * Posz (c_P c) - (Posz (c_P c) * Posz (c_P c) - b) by rewrite opprB addrCA subrr addr0.
  by rewrite rpredB // dvdz_mulr.
rewrite /=; case hi: (is_identity _) => //.
by case/is_identityE: hi => _ /= [hP]; rewrite hP in P0.
Qed.
Print Assumptions C81_neg.

(** A table of five curves y^2 = x^3 + 3 over the integers modulo 7, with a point, its negative and a pair
    off the curve. *)
Definition toyOn (x y : int) : outcome bool :=
  Ok [&& 0 <= x < 7%:Z, 0 <= y < 7%:Z & (7%:Z %| y * y - (x * x * x + 0 * x + 3%:Z))%Z].
Definition toy (i : nat) : curve :=
  Curve i 7 13 3 toyOn (fun _ _ _ _ => Ok (Some 0, Some 0)) (fun x y _ => Ok (Some x, Some y)) (fun _ => Ok (Some 1, Some 2%:Z)).
Definition toyTable : seq curve := [seq toy i | i <- iota 0 5].
Example C81_hyps :
  [/\ tables toyTable, lookup toyTable 2 = Some (toy 2), weierstrass (toy 2) 0 3,
      [/\ c_on (toy 2) 1 2 = Ok true, c_on (toy 2) 1 1 = Ok false & ~~ (7%:Z %| 3%:Z)%Z] &
      good (EcP (toy 2) (Some 1) (Some 2%:Z)) /\ fits 1 2].
Proof.
split=> //.
- split=> // i c; rewrite /lookup; case: (ltnP i 5) => h; last by rewrite nth_default.
  by case: i h => [|[|[|[|[|i]]]]] //= _ [<-].
- split=> [x y [] /and3P [] //|]; split=> [x y hx hy hd|x y]; last by eexists.
  by congr Ok; apply/and3P.
- by split=> //; exists 1, 2%:Z; split; [split|left].
Qed.
