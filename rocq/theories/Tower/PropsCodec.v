(** C80: the encodings of BLS12-381 points. *)
From Coq Require Import ZArith.
From mathcomp Require Import all_ssreflect all_algebra zify.
From Verif Require Import Lib.Res Lib.Bytes Tower.TowerModel Tower.TowerProofs Tower.SqrtProofs
  Tower.Literals Tower.CodecModel Tower.CodecProofs Tower.CodecInst.
Set Implicit Arguments.
Unset Strict Implicit.
Unset Printing Implicit Defensive.
Import GRing.Theory.
Local Open Scope ring_scope.
Delimit Scope Z_scope with Zs.

(** ** Specification *)
(** the flags of the first byte *)
Definition compressedFlag (s : bytes) : bool := (128 <= head 0%N s)%N.
Definition infinityFlag (s : bytes) : bool := odd (head 0%N s %/ 64).
Definition sortFlag (s : bytes) : bool := odd (head 0%N s %/ 32).
(** the string without its flags *)
Definition payload (s : bytes) : bytes := (head 0 s %% 32)%N :: behead s.

Section Spec.
Variable p : nat.
Local Notation F := [fieldType of 'F_p].
(** big-endian values of coordinates: one number, or imaginary part before real part *)
Definition spells1 (s : bytes) (x : F) : Prop := be_val s = val x.
Definition spells2 (s : bytes) (x : fp2 F) : Prop :=
  be_val (take 48 s) = val (B2 x) /\ be_val (drop 48 s) = val (A2 x).
(** the larger of y and -y *)
Definition larger1 (y : F) : bool := (val (- y) < val y)%N.
Definition larger2 (y : fp2 F) : bool := if B2 y == 0 then larger1 (A2 y) else larger1 (B2 y).
End Spec.

Record codecOf (E : comRingType) := Codec {
  cLen : nat;
  cOut : option (E * E) -> bytes; cIn : bytes -> outcome (option (E * E));
  uOut : option (E * E) -> bytes; uIn : bytes -> outcome (option (E * E));
  cFrom : bytes -> outcome (option (E * E)); uFrom : bytes -> outcome (option (E * E)) }.
(** the six operations of G1 and of G2 *)
Definition g1codec (p half : nat) (b : 'F_p) (sub : 'F_p -> 'F_p -> bool) : codecOf [comRingType of 'F_p] :=
  Codec 48 (to_compressed (E := [comRingType of 'F_p]) (@enc1 p) (lex1 half))
    (from_compressed (E := [comRingType of 'F_p]) (@dec1 p) (lex1 half) (@sqrt1 p) b sub)
    (to_uncompressed (E := [comRingType of 'F_p]) (@enc1 p))
    (from_uncompressed (E := [comRingType of 'F_p]) 48 (@dec1 p) b sub)
    (from_affine_compressed (E := [comRingType of 'F_p]) 48 (@dec1 p) (lex1 half) (@sqrt1 p) b sub)
    (from_affine_uncompressed (E := [comRingType of 'F_p]) 48 (@dec1 p) b sub).
Definition g2codec (p half : nat) (b : fp2 [fieldType of 'F_p])
    (sub : fp2 [fieldType of 'F_p] -> fp2 [fieldType of 'F_p] -> bool) :
    codecOf (fp2_comRingType [fieldType of 'F_p]) :=
  let R := fp2_comRingType [fieldType of 'F_p] in
  Codec 96 (to_compressed (E := R) (@enc2 p) (lex2 half))
    (from_compressed (E := R) (@dec2 p) (lex2 half) (@sqrtE2 p) b sub)
    (to_uncompressed (E := R) (@enc2 p))
    (from_uncompressed (E := R) 96 (@dec2 p) b sub)
    (from_affine_compressed (E := R) 96 (@dec2 p) (lex2 half) (@sqrtE2 p) b sub)
    (from_affine_uncompressed (E := R) 96 (@dec2 p) b sub).

(** a point: the identity, or coordinates on the curve y^2 = x^3 + b that pass the subgroup test *)
Definition onCurve (E : comRingType) (b : E) (sub : E -> E -> bool) (x y : E) : Prop :=
  y * y = x * x * x + b /\ sub x y.
Definition validPoint (E : comRingType) (b : E) (sub : E -> E -> bool) (P : option (E * E)) : Prop :=
  if P is Some xy then onCurve b sub xy.1 xy.2 else True.

(** what a right codec does, stated for any representation of coordinates *)
Definition roundTrips (E : comRingType) (C : codecOf E) (b : E) (sub : E -> E -> bool) : Prop :=
  forall P, validPoint b sub P ->
  [/\ cIn C (cOut C P) = Ok P, uIn C (uOut C P) = Ok P,
      size (cOut C P) = cLen C & size (uOut C P) = (cLen C + cLen C)%N] /\
  is_bytes (cOut C P) /\ is_bytes (uOut C P).

Definition exactCompressed (E : comRingType) (C : codecOf E) (b : E) (sub : E -> E -> bool)
    (spells : bytes -> E -> Prop) (larger : E -> bool) : Prop :=
  forall s, size s = cLen C -> is_bytes s ->
  [/\ cIn C s = Ok None <-> compressedFlag s /\ infinityFlag s,
      (forall x y, cIn C s = Ok (Some (x, y)) <->
         [/\ compressedFlag s, ~~ infinityFlag s, spells (payload s) x, onCurve b sub x y &
             larger y = sortFlag s \/ y = 0]),
      cIn C s <> Panic &
      (forall x y, y <> 0 -> cIn C s = Ok (Some (x, y)) -> s = cOut C (Some (x, y)))].

Definition exactUncompressed (E : comRingType) (C : codecOf E) (b : E) (sub : E -> E -> bool)
    (spells : bytes -> E -> Prop) : Prop :=
  forall s, size s = (cLen C + cLen C)%N -> is_bytes s ->
  [/\ uIn C s = Ok None <-> infinityFlag s,
      (forall x y, uIn C s = Ok (Some (x, y)) <->
         [/\ ~~ infinityFlag s, spells (payload (take (cLen C) s)) x, spells (drop (cLen C) s) y &
             onCurve b sub x y]) &
      uIn C s <> Panic].

(** ** Glue *)
Lemma flag7 s : is_bytes s -> bit 7 (head 0%N s) = compressedFlag s.
Proof.
rewrite /compressedFlag; case: s => [//|h s] /= /andP[hh _].
by apply/eqP; move: h hh; apply: byte_all; vm_compute.
Qed.
Lemma flag6 s : bit 6 (head 0%N s) = infinityFlag s. Proof. by []. Qed.
Lemma flag5 s : bit 5 (head 0%N s) = sortFlag s. Proof. by []. Qed.
Lemma maskE s : (0 < size s)%N -> mask s = payload s.
Proof. by case: s. Qed.
Lemma payload_bytes s : (0 < size s)%N -> is_bytes s -> is_bytes (payload s).
Proof. by move=> h; rewrite -maskE //; apply: is_bytes_mask. Qed.
Lemma payload_size s : (0 < size s)%N -> size (payload s) = size s.
Proof. by case: s. Qed.

Section Gen.
Variables (E : comRingType) (L : nat) (enc : E -> bytes) (dec : bytes -> option E).
Variables (lex : E -> bool) (sqrt : E -> E * bool) (b : E) (sub : E -> E -> bool).
Variable spells : bytes -> E -> Prop.
Hypothesis L0 : (0 < L)%N.
Hypothesis encS : forall x, size (enc x) = L.
Hypothesis encB : forall x, is_bytes (enc x).
Hypothesis encH : forall x, (head 0%N (enc x) < 32)%N.
Hypothesis decP : forall s x, size s = L -> is_bytes s -> dec s = Some x <-> s = enc x.
Hypothesis sqrtP : forall a, (sqrt a).2 = true <-> exists r, r * r = a.
Hypothesis sqrtK : forall a, (sqrt a).2 = true -> (sqrt a).1 * (sqrt a).1 = a.
Hypothesis rootE : forall x y : E, x * x = y * y -> x = y \/ x = - y.
Hypothesis lex0 : lex 0 = false.
Hypothesis lexN : forall y, y <> 0 -> lex (- y) = ~~ lex y.
Hypothesis spellsP : forall s x, size s = L -> is_bytes s -> s = enc x <-> spells s x.

Definition gcodec : codecOf E := Codec L (to_compressed enc lex)
  (from_compressed dec lex sqrt b sub) (to_uncompressed enc) (from_uncompressed L dec b sub)
  (from_affine_compressed L dec lex sqrt b sub) (from_affine_uncompressed L dec b sub).

Lemma g_round : roundTrips gcodec b sub.
Proof.
move=> P vP; have gP : goodP b sub P by case: P vP.
split; last by split; [exact: (toC_bytes lex L0 encS encB encH) | exact: (toU_bytes L0 encS encB encH)].
split.
- exact: (roundC L0 encS encB encH decP sqrtP sqrtK rootE lexN gP).
- have := @roundU E L enc dec b sub L0 encS encB encH decP P false false gP.
  have -> : forall s, map_head (fun h => or_bit 5 false (or_bit 7 false h)) s = s by case.
  by [].
- exact: (toC_size lex encS).
- exact: (toU_size encS).
Qed.

Lemma g_exactC : exactCompressed gcodec b sub spells lex.
Proof.
move=> s sL sB; have s0 : (0 < size s)%N by rewrite sL.
split.
- by rewrite -(flag7 sB); apply: fromC_none.
- move=> x y; rewrite -(flag7 sB) -flag6 -flag5.
  have H := spellsP x (etrans (payload_size s0) sL) (payload_bytes s0 sB).
  split.
  + move/(fromC_some b sub encS encB decP sqrtP sqrtK rootE lexN _ _ sL sB) => [h1 h2 h3 h4 h5].
    by split=> //; apply/H; rewrite -maskE.
  + case=> h1 h2 h3 h4 h5.
    apply/(fromC_some b sub encS encB decP sqrtP sqrtK rootE lexN _ _ sL sB); split=> //.
    by rewrite maskE //; apply/H.
- exact: fromC_nopanic.
- by move=> x y y0; apply: (uniqueC L0 encS encB encH decP sqrtP sqrtK rootE lexN sL sB y0).
Qed.

Lemma g_exactU : exactUncompressed gcodec b sub spells.
Proof.
move=> s sL sB.
have s1 : size (take L s) = L by rewrite size_takel // [size s]sL leq_addr.
have s2 : size (drop L s) = L by rewrite size_drop [size s]sL addnK.
have [b1 b2] : is_bytes (take L s) /\ is_bytes (drop L s).
  by move: sB; rewrite -{1}(cat_take_drop L s) bytes_cat => /andP[].
have t0 : (0 < size (take L s))%N by rewrite s1.
split; [exact: fromU_none | | exact: fromU_nopanic].
move=> x y; rewrite -flag6.
have H1 := spellsP x (etrans (payload_size t0) s1) (payload_bytes t0 b1).
have H2 := spellsP y s2 b2.
split.
- move/(fromU_some b sub encS encB decP _ _ sL sB) => [h1 h2 h3 h4].
  by split=> //; [apply/H1; rewrite -maskE | apply/H2].
- case=> h1 h2 h3 h4; apply/(fromU_some b sub encS encB decP _ _ sL sB); split=> //.
    by rewrite maskE //; apply/H1.
  by apply/H2.
Qed.

(** the two unused flags of the uncompressed form *)
Lemma g_flags P c t : validPoint b sub P ->
  uIn gcodec (map_head (fun h => or_bit 5 t (or_bit 7 c h)) (uOut gcodec P)) = Ok P.
Proof. by move=> vP; apply: (@roundU E L enc dec b sub L0 encS encB encH decP P c t); case: P vP. Qed.

Lemma g_long P junk : validPoint b sub P ->
  cFrom gcodec (cOut gcodec P ++ junk) = Ok P /\ uFrom gcodec (uOut gcodec P ++ junk) = Ok P.
Proof.
move=> vP; have [[h1 h2 h3 h4] _] := g_round vP.
have T (s : bytes) n : size s = n -> copy_into n (s ++ junk) = s.
  by move=> e; rewrite /copy_into -catA take_size_cat.
rewrite /cFrom /uFrom /= /from_affine_compressed /from_affine_uncompressed !T //.
Qed.

Lemma fill_be (t : bytes) n : size t = n -> is_bytes t -> fill_bytes n (be_val t) = Ok t.
Proof.
move=> <- hb; rewrite /fill_bytes be_bytes_strip //.
have -> : (size (strip0 t) <= size t)%N.
  by elim: t {hb} => // h t IH; case: h => //=; apply: leq_trans IH _; apply: leqnSn.
congr Ok; elim: t hb => // h t IH; rewrite bytes_cons => /andP[_ hb]; case: h => [|h] /=.
  rewrite subSn /= ?IH //.
  by elim: t {IH hb} => // h t IH; case: h => //=; apply: leq_trans IH _; apply: leqnSn.
by rewrite subnn.
Qed.

Lemma g_bigint P : 
  let r := g2_big_int L enc P in g2_set_big_int L dec b sub r.1 r.2 = Ok None.
Proof.
have sz := toU_size encS None; have bz := toU_bytes L0 encS encB encH None.
rewrite /g2_big_int /g2_set_big_int; cbv zeta; cbn [fst snd]; set out := to_uncompressed enc None in sz bz *.
case: ifP => // _.
have s1 : size (take L out) = L by rewrite size_takel // sz leq_addr.
have s2 : size (drop L out) = L by rewrite size_drop sz addnK.
have [b1 b2] : is_bytes (take L out) /\ is_bytes (drop L out).
  by move: bz; rewrite -{1}(cat_take_drop L out) bytes_cat => /andP[].
rewrite !fill_be //= cat_take_drop.
by have [[_ h _ _] _] := g_round (P := None) I; exact: h.
Qed.

Lemma g_panics x y : (256 ^ L <= x)%N \/ (x <> 0%N) /\ (256 ^ L <= y)%N ->
  g2_set_big_int L dec b sub x y = Panic.
Proof.
have big z : (256 ^ L <= z)%N -> (size (be_bytes z) <= L)%N = false.
  move=> h; apply/negbTE; rewrite -ltnNge ltnNge; apply/negP => hs.
  have := be_val_lt (is_bytes_be z); rewrite be_bytesK => hz.
  by have := leq_trans hz (leq_pexp2l (isT : 0 < 256)%N hs); rewrite ltnNge h.
rewrite /g2_set_big_int => -[h|[x0 h]].
  rewrite be_bytes_nil; have x0 : (x == 0%N) = false.
    by apply/negbTE; rewrite -lt0n; apply: leq_trans h; rewrite expn_gt0.
  by rewrite x0 /= {1}/fill_bytes big.
have x0' : (x == 0%N) = false by apply/eqP.
rewrite be_bytes_nil x0' /= {1}/fill_bytes; case: ifP => //= _.
by rewrite /fill_bytes big.
Qed.
End Gen.

(** ** Instances *)
Section Thm.
Variables p half : nat.
Hypothesis hZ : Z.of_nat p = modulusZ.
Hypothesis pp : prime p.
Hypothesis hhalf : Z.of_nat half = limbsZ half_limbs.
Local Notation F := [fieldType of 'F_p].

Lemma spells1P s (x : F) : size s = 48%N -> is_bytes s -> s = enc1 x <-> spells1 s x.
Proof.
move=> sS sB; rewrite /spells1; split=> [->|e]; first exact: enc1V.
apply: (be_val_inj _ sB (enc1B x)); first by rewrite enc1S.
by rewrite (enc1V hZ pp).
Qed.
Lemma spells2P s (x : fp2 F) : size s = 96%N -> is_bytes s -> s = enc2 x <-> spells2 s x.
Proof.
move=> sS sB.
have s1 : size (take 48 s) = 48%N by rewrite size_takel // sS.
have s2 : size (drop 48 s) = 48%N by rewrite size_drop sS.
have [b1 b2] : is_bytes (take 48 s) /\ is_bytes (drop 48 s).
  by move: sB; rewrite -{1}(cat_take_drop 48 s) bytes_cat => /andP[].
rewrite /spells2; split.
- move=> e; split.
    by apply/(spells1P _ s1 b1); rewrite e /enc2 take_size_cat ?enc1S.
  by apply/(spells1P _ s2 b2); rewrite e /enc2 drop_size_cat ?enc1S.
- case=> /(spells1P _ s1 b1) e1 /(spells1P _ s2 b2) e2.
  by rewrite -(cat_take_drop 48 s) e1 e2.
Qed.
Lemma lex2E (y : fp2 F) : lex2 half y = larger2 y.
Proof.
rewrite /lex2 /larger2 !(lex1E hZ pp hhalf); case: eqP => [->|_]; last by rewrite orbF.
by rewrite oppr0 ltnn.
Qed.

Variables (b1 : 'F_p) (sub1 : 'F_p -> 'F_p -> bool) (b2 : fp2 F) (sub2 : fp2 F -> fp2 F -> bool).

Lemma larger_ext (E : comRingType) (C : codecOf E) b sub sp (l1 l2 : E -> bool) :
  l1 =1 l2 -> exactCompressed C b sub sp l1 -> exactCompressed C b sub sp l2.
Proof.
move=> e H s sL sB; have [h1 h2 h3 h4] := H s sL sB; split=> // x y.
by rewrite -e; apply: h2.
Qed.
End Thm.

(** ** C80 *)
Local Notation R1 p := [comRingType of 'F_p].
Local Notation R2 p := (fp2_comRingType [fieldType of 'F_p]).

Theorem C80_round_trip (p half : nat) : Z.of_nat p = modulusZ -> prime p -> Z.of_nat half = limbsZ half_limbs ->
  (forall b sub, roundTrips (@g1codec p half b sub) b sub) /\
  (forall b sub, roundTrips (@g2codec p half b sub) b sub).
Proof.
move=> hZ pp hh; split=> b sub.
- exact (@g_round (R1 p) 48 (@enc1 p) (@dec1 p) (lex1 half) (@sqrt1 p) b sub isT (@enc1S p) (@enc1B p)
    (enc1H hZ pp) (dec1P hZ pp) (sqrt1P half hZ pp) (@sqrt1K p) (@root1 p) (lex1N hZ pp hh)).
- exact (@g_round (R2 p) 96 (@enc2 p) (@dec2 p) (lex2 half) (@sqrtE2 p) b sub isT (@enc2S p) (@enc2B p)
    (enc2H hZ pp) (dec2P hZ pp) (sqrtE2P hZ pp) (sqrtE2K hZ pp) (root2 half hZ pp) (lex2N hZ pp hh)).
Qed.
Print Assumptions C80_round_trip.

(** Decoding G1 points: exactly which strings are accepted, and for what. *)
Theorem C80_g1_exact (p half : nat) : Z.of_nat p = modulusZ -> prime p -> Z.of_nat half = limbsZ half_limbs ->
  forall b sub,
  exactCompressed (@g1codec p half b sub) b sub (@spells1 p) (@larger1 p) /\
  exactUncompressed (@g1codec p half b sub) b sub (@spells1 p).
Proof.
move=> hZ pp hh b sub; split; first apply: (@larger_ext _ _ _ _ _ (lex1 half)).
- by move=> y; apply: (lex1E hZ pp hh).
- exact (@g_exactC (R1 p) 48 (@enc1 p) (@dec1 p) (lex1 half) (@sqrt1 p) b sub (@spells1 p) isT (@enc1S p) (@enc1B p)
    (enc1H hZ pp) (dec1P hZ pp) (sqrt1P half hZ pp) (@sqrt1K p) (@root1 p) (lex1N hZ pp hh) (spells1P hZ pp)).
- exact (@g_exactU (R1 p) 48 (@enc1 p) (@dec1 p) (lex1 half) (@sqrt1 p) b sub (@spells1 p) isT (@enc1S p) (@enc1B p)
    (dec1P hZ pp) (spells1P hZ pp)).
Qed.
Print Assumptions C80_g1_exact.

(** The same for G2; the sign of y is that of its imaginary part, or of its real part when that is 0. *)
Theorem C80_g2_exact (p half : nat) : Z.of_nat p = modulusZ -> prime p -> Z.of_nat half = limbsZ half_limbs ->
  forall b sub,
  exactCompressed (@g2codec p half b sub) b sub (@spells2 p) (@larger2 p) /\
  exactUncompressed (@g2codec p half b sub) b sub (@spells2 p).
Proof.
move=> hZ pp hh b sub; split; first apply: (@larger_ext _ _ _ _ _ (lex2 half)).
- by move=> y; apply: (lex2E hZ pp hh).
- exact (@g_exactC (R2 p) 96 (@enc2 p) (@dec2 p) (lex2 half) (@sqrtE2 p) b sub (@spells2 p) isT (@enc2S p) (@enc2B p)
    (enc2H hZ pp) (dec2P hZ pp) (sqrtE2P hZ pp) (sqrtE2K hZ pp) (root2 half hZ pp) (lex2N hZ pp hh) (spells2P hZ pp)).
- exact (@g_exactU (R2 p) 96 (@enc2 p) (@dec2 p) (lex2 half) (@sqrtE2 p) b sub (@spells2 p) isT (@enc2S p) (@enc2B p)
    (dec2P hZ pp) (spells2P hZ pp)).
Qed.
Print Assumptions C80_g2_exact.

(** The strings are not unique: any payload under the infinity flag is the identity; the uncompressed
    form ignores two flags; the curve-level decoders drop trailing bytes and accept short input. *)
Theorem C80_canonical_refuted (p half : nat) :
  Z.of_nat p = modulusZ -> prime p -> Z.of_nat half = limbsZ half_limbs ->
  forall b1 sub1 b2 sub2,
  let C1 := @g1codec p half b1 sub1 in let C2 := @g2codec p half b2 sub2 in
  (forall payload, cIn C1 (192%N :: payload) = Ok None /\ cIn C2 (192%N :: payload) = Ok None /\
                   uIn C1 (64%N :: payload) = Ok None /\ uIn C2 (64%N :: payload) = Ok None) /\
  (forall P, validPoint b1 sub1 P -> forall c t,
     uIn C1 (map_head (fun h => or_bit 5 t (or_bit 7 c h)) (uOut C1 P)) = Ok P) /\
  (forall P, validPoint b2 sub2 P -> forall c t,
     uIn C2 (map_head (fun h => or_bit 5 t (or_bit 7 c h)) (uOut C2 P)) = Ok P) /\
  (forall P junk, validPoint b1 sub1 P ->
     cFrom C1 (cOut C1 P ++ junk) = Ok P /\ uFrom C1 (uOut C1 P ++ junk) = Ok P) /\
  (forall P junk, validPoint b2 sub2 P ->
     cFrom C2 (cOut C2 P ++ junk) = Ok P /\ uFrom C2 (uOut C2 P ++ junk) = Ok P) /\
  (cFrom C1 [:: 192%N] = Ok None /\ cFrom C2 [:: 192%N] = Ok None).
Proof.
move=> hZ pp hh b1 sub1 b2 sub2 C1 C2; split; first by [].
split; [|split; [|split; [|split]]].
- move=> P vP c t.
  exact (@g_flags (R1 p) 48 (@enc1 p) (@dec1 p) (lex1 half) (@sqrt1 p) b1 sub1 isT (@enc1S p) (@enc1B p)
    (enc1H hZ pp) (dec1P hZ pp) P c t vP).
- move=> P vP c t.
  exact (@g_flags (R2 p) 96 (@enc2 p) (@dec2 p) (lex2 half) (@sqrtE2 p) b2 sub2 isT (@enc2S p) (@enc2B p)
    (enc2H hZ pp) (dec2P hZ pp) P c t vP).
- move=> P junk vP.
  exact (@g_long (R1 p) 48 (@enc1 p) (@dec1 p) (lex1 half) (@sqrt1 p) b1 sub1 isT (@enc1S p) (@enc1B p)
    (enc1H hZ pp) (dec1P hZ pp) (sqrt1P half hZ pp) (@sqrt1K p) (@root1 p) (lex1N hZ pp hh) P junk vP).
- move=> P junk vP.
  exact (@g_long (R2 p) 96 (@enc2 p) (@dec2 p) (lex2 half) (@sqrtE2 p) b2 sub2 isT (@enc2S p) (@enc2B p)
    (enc2H hZ pp) (dec2P hZ pp) (sqrtE2P hZ pp) (sqrtE2K hZ pp) (root2 half hZ pp) (lex2N hZ pp hh) P junk vP).
- by [].
Qed.
Print Assumptions C80_canonical_refuted.

(** G2.BigInt does not depend on the point, and what it returns is read back as the identity; SetBigInt
    panics on coordinates of more than 96 bytes. *)
Theorem C80_g2_bigint_refuted (p half : nat) :
  Z.of_nat p = modulusZ -> prime p -> Z.of_nat half = limbsZ half_limbs ->
  forall (b : fp2 [fieldType of 'F_p]) sub,
  let bigInt := g2_big_int (E := R2 p) 96 (@enc2 p) in
  let setBigInt := g2_set_big_int (E := R2 p) 96 (@dec2 p) b sub in
  (forall P Q, bigInt P = bigInt Q) /\
  (forall P, setBigInt (bigInt P).1 (bigInt P).2 = Ok None) /\
  (forall x y, (256 ^ 96 <= x)%N \/ (x <> 0%N) /\ (256 ^ 96 <= y)%N -> setBigInt x y = Panic).
Proof.
move=> hZ pp hh b sub; split; last split.
- by move=> P Q; rewrite /g2_big_int.
- move=> P.
  exact (@g_bigint (R2 p) 96 (@enc2 p) (@dec2 p) (lex2 half) (@sqrtE2 p) b sub isT (@enc2S p) (@enc2B p)
    (enc2H hZ pp) (dec2P hZ pp) (sqrtE2P hZ pp) (sqrtE2K hZ pp) (root2 half hZ pp) (lex2N hZ pp hh) P).
- move=> x y h; exact (@g_panics (R2 p) 96 (@dec2 p) b sub x y h).
Qed.
Print Assumptions C80_g2_bigint_refuted.

(** G1.SetBigInt accepts exactly the points and (0,0), which is the identity, and undoes BigInt. *)
Theorem C80_g1_bigint (p : nat) : prime p ->
  forall (b : 'F_p) sub,
  let set := g1_set_big_int b sub in
  (forall x y, set x y = Ok None <-> (p %| x)%N /\ (p %| y)%N) /\
  (forall x y X Y, set x y = Ok (Some (X, Y)) <->
     [/\ X = x%:R, Y = y%:R, ~ (X = 0 /\ Y = 0) & onCurve (E := R1 p) b sub X Y]) /\
  (forall P, validPoint (E := R1 p) b sub P -> P <> Some (0, 0) ->
     set (g1_big_int P).1 (g1_big_int P).2 = Ok P).
Proof.
move=> pp b sub set.
have z x : ((x%:R : 'F_p) == 0) = (p %| x)%N.
  exact: (esym (dvdn_charf (char_Fp pp) x)).
have S x y X Y : set x y = Ok (Some (X, Y)) <->
     [/\ X = x%:R, Y = y%:R, ~ (X = 0 /\ Y = 0) & onCurve (E := R1 p) b sub X Y].
  rewrite /set /g1_set_big_int; case: ifP => [/andP[/eqP z1 /eqP z2]|nz].
    by split=> // -[-> -> []].
  rewrite nz orbF; split.
    case: ifP => // /andP[/eqP e hs] [<- <-]; split=> // -[/eqP e1 /eqP e2].
    by rewrite e1 e2 in nz.
  by case=> -> -> _ [/eqP e hs]; rewrite e hs.
split; last split=> //.
- move=> x y; rewrite /set /g1_set_big_int !z; case: (p %| x)%N; case: (p %| y)%N => /=;
    by [|split=> [|[]] //; case: ifP].
- case=> [[x y]|] vP nP.
    have nx : (val x)%:R = x by apply: natr_Zp.
    have ny : (val y)%:R = y by apply: natr_Zp.
    apply/S; rewrite /g1_big_int; cbn [fst snd]; rewrite nx ny; split=> //.
    by case=> x0 y0; apply: nP; rewrite x0 y0.
  by rewrite /g1_big_int /set /g1_set_big_int; cbn [fst snd]; rewrite !z dvdn0.
Qed.
Print Assumptions C80_g1_bigint.

(** The hypotheses are met by the literals of the source whenever the modulus is prime ... *)
Lemma natOf (z : Z) : (0 <= z)%Zs -> exists n : nat, Z.of_nat n = z.
Proof. by move=> h; exists (Z.to_nat z); apply: Z2Nat.id. Qed.
Example C80_hyps : exists p half : nat, Z.of_nat p = modulusZ /\ Z.of_nat half = limbsZ half_limbs.
Proof.
have [p hp] : exists n : nat, Z.of_nat n = modulusZ by apply: natOf; vm_compute.
have [h hh] : exists n : nat, Z.of_nat n = limbsZ half_limbs by apply: natOf; vm_compute.
by exists p, h.
Qed.
(** ... and a curve with points: (0, 2) lies on y^2 = x^3 + 4 over every 'F_p. *)
Example C80_point (p : nat) : onCurve (E := R1 p) 4%:R (fun _ _ => true) 0 2%:R.
Proof. by split=> //; rewrite !mul0r add0r -natrM. Qed.
