(** Proofs about the BLS12-381 point codecs. *)
From Coq Require Import ZArith.
From mathcomp Require Import all_ssreflect all_algebra zify.
From Verif Require Import Lib.Res Lib.Bytes Tower.TowerModel Tower.SqrtProofs Tower.Literals Tower.CodecModel.
Set Implicit Arguments.
Unset Strict Implicit.
Unset Printing Implicit Defensive.
Import GRing.Theory.
Local Open Scope ring_scope.
Delimit Scope Z_scope with Zs.

(** ** Bytes *)
Lemma byte_all (P : nat -> bool) : all P (iota 0 256) -> forall h, (h < 256)%N -> P h.
Proof. by move=> /allP H h hh; apply: H; rewrite mem_iota. Qed.

Definition flags (c i s : bool) (h : nat) : nat := (128 * c + 64 * i + 32 * s + h %% 32)%N.

Lemma flagsE h : (h < 256)%N -> h = flags (bit 7 h) (bit 6 h) (bit 5 h) h.
Proof.
move=> hh; apply/eqP; move: h hh; apply: byte_all; by vm_compute.
Qed.

Lemma small_all (P : nat -> bool) : all P (iota 0 32) -> forall h, (h < 32)%N -> P h.
Proof. by move=> /allP H h hh; apply: H; rewrite mem_iota. Qed.

Lemma or_flags c i s h : (h < 32)%N ->
  or_bit 5 s (or_bit 6 i (or_bit 7 c h)) = flags c i s h.
Proof.
move=> hh; apply/eqP; move: h hh; apply: small_all; by case: c; case: i; case: s; vm_compute.
Qed.

Lemma or6 i h : (h < 32)%N -> or_bit 6 i h = flags false i false h.
Proof. move=> hh; apply/eqP; move: h hh; apply: small_all; by case: i; vm_compute. Qed.

Lemma bits_flags c i s h : (h < 32)%N ->
  [/\ bit 7 (flags c i s h) = c, bit 6 (flags c i s h) = i, bit 5 (flags c i s h) = s,
      (flags c i s h %% 32)%N = h & (flags c i s h < 256)%N].
Proof.
move=> hh.
have H : (bit 7 (flags c i s h) == c) && (bit 6 (flags c i s h) == i) && (bit 5 (flags c i s h) == s) &&
   (flags c i s h %% 32 == h)%N && (flags c i s h < 256)%N.
  by move: h hh; apply: small_all; case: c; case: i; case: s; vm_compute.
by case/andP: H => /andP[/andP[/andP[/eqP ? /eqP ?] /eqP ?] /eqP ?] ?; split.
Qed.

Lemma size_map_head f b : size (map_head f b) = size b.
Proof. by case: b. Qed.

Lemma mask_id b : (head 0%N b < 32)%N -> mask b = b.
Proof. by case: b => //= x r h; rewrite modn_small. Qed.

Lemma is_bytes_mask b : is_bytes b -> is_bytes (mask b).
Proof.
by case: b => //= x r /andP[h ->]; rewrite andbT; apply: leq_ltn_trans (leq_mod _ _) h.
Qed.

Lemma head_mask b : (head 0%N (mask b) < 32)%N.
Proof. by case: b => //= x r; rewrite ltn_mod. Qed.

Lemma bytes_cat s t : is_bytes (s ++ t) = is_bytes s && is_bytes t.
Proof. exact: all_cat. Qed.
Lemma bytes_cons x s : is_bytes (x :: s) = (x < 256)%N && is_bytes s.
Proof. by []. Qed.

(** ** The codecs over an abstract coordinate ring *)
Section Codec.
Variables (E : comRingType) (L : nat) (enc : E -> bytes) (dec : bytes -> option E).
Variables (lex : E -> bool) (sqrt : E -> E * bool) (b : E) (sub : E -> E -> bool).
Hypothesis L0 : (0 < L)%N.
Hypothesis encS : forall x, size (enc x) = L.
Hypothesis encB : forall x, is_bytes (enc x).
Hypothesis encH : forall x, (head 0%N (enc x) < 32)%N.
Hypothesis decP : forall s x, size s = L -> is_bytes s -> dec s = Some x <-> s = enc x.
Hypothesis sqrtP : forall a, (sqrt a).2 = true <-> exists r, r * r = a.
Hypothesis sqrtK : forall a, (sqrt a).2 = true -> (sqrt a).1 * (sqrt a).1 = a.
Hypothesis rootE : forall x y : E, x * x = y * y -> x = y \/ x = - y.
Hypothesis lex0 : lex 0 = false.
Hypothesis lexN : forall y, y <> 0 -> lex (- y) = ~~ lex y.

Local Notation toC := (to_compressed enc lex).
Local Notation fromC := (from_compressed dec lex sqrt b sub).
Local Notation toU := (to_uncompressed enc).
Local Notation fromU := (from_uncompressed L dec b sub).
Definition good (x y : E) : Prop := y * y = x * x * x + b /\ sub x y.
Definition goodP (P : option (E * E)) : Prop := if P is Some xy then good xy.1 xy.2 else True.

Lemma encK x : dec (enc x) = Some x.
Proof. by apply/decP. Qed.

Lemma enc_cons x : exists h r, enc x = h :: r /\ (h < 32)%N.
Proof.
case e : (enc x) (encS x) (encH x) => [|h r] /=; first by move=> z; move: L0; rewrite -z.
by move=> _ hh; exists h, r.
Qed.

Lemma cneg_root r y s : r * r = y * y -> (lex y = s \/ y = 0) -> cneg r (lex r (+) s) = y.
Proof.
move=> e hy; have r0 : y = 0 -> r = 0.
  by move=> y0; case: (rootE e); rewrite y0 ?oppr0.
case: hy => [<-|y0]; last by rewrite (r0 y0) y0 /cneg oppr0; case: ifP.
case: (rootE e) => [->|rN]; first by rewrite addbb.
have [y0|/eqP y0] := eqVneq y 0; first by rewrite (r0 y0) y0 /cneg oppr0; case: ifP.
by rewrite rN lexN // addNb addbb /= opprK.
Qed.

Lemma fromC_none s : fromC s = Ok None <-> bit 7 (head 0%N s) /\ bit 6 (head 0%N s).
Proof.
rewrite /from_compressed; case: (bit 7 _) => /=; last by split=> // -[].
case: (bit 6 _) => //=; split=> [|[] //].
by case: (dec _) => //= x; case: (sqrt _).2 => //=; case: ifP.
Qed.

Lemma fromC_some s x y : size s = L -> is_bytes s ->
  fromC s = Ok (Some (x, y)) <->
  [/\ bit 7 (head 0%N s), ~~ bit 6 (head 0%N s), mask s = enc x, good x y &
      lex y = bit 5 (head 0%N s) \/ y = 0].
Proof.
move=> sL sB; rewrite /from_compressed; set h := head 0%N s.
have mL : size (mask s) = L by rewrite size_map_head.
have mB := is_bytes_mask sB.
split.
- case: (bit 7 h) => //=; case: (bit 6 h) => //=.
  case d : (dec _) => [x'|] //; set r := sqrt _; case r2 : r.2 => //=.
  case: ifP => // /negbFE hs [ex ey]; subst x'.
  have rk : r.1 * r.1 = x * x * x + b by apply: sqrtK.
  have yk : y * y = r.1 * r.1 by rewrite -ey /cneg; case: ifP => _ //; rewrite mulrNN.
  split=> //; first by apply/decP.
    by split; [rewrite yk | rewrite -ey].
  have [y0|/eqP y0] := eqVneq y 0; [by right | left].
  have r0 : r.1 <> 0.
    by move=> r0; apply: y0; rewrite -ey r0 /cneg oppr0; case: ifP.
  rewrite -ey /cneg; case: ifP => hc; rewrite ?lexN //.
    by move: hc; case: (lex r.1); case: (bit 5 h).
  by move: hc; case: (lex r.1); case: (bit 5 h).
- case=> -> /negbTE -> /= em [ey hs] hl.
  rewrite em encK.
  have r2 : (sqrt (x * x * x + b)).2 = true by apply/sqrtP; exists y.
  rewrite r2 /= (@cneg_root _ y) ?hs //.
  by rewrite sqrtK // ey.
Qed.

Lemma fromC_nopanic s : fromC s <> Panic.
Proof.
rewrite /from_compressed; case: (bit 7 _) => //=; case: (bit 6 _) => //=.
by case: (dec _) => // x; case: (sqrt _).2 => //=; case: ifP.
Qed.

Lemma toC_size P : size (toC P) = L.
Proof. by rewrite /to_compressed size_map_head. Qed.

Lemma toC_cons P : exists h r, [/\ enc (affine P).1 = h :: r, (h < 32)%N &
  toC P = flags true (is_identity P) (lex (affine P).2 && ~~ is_identity P) h :: r].
Proof.
have [h [r [e hh]]] := enc_cons (affine P).1; exists h, r; split=> //.
by rewrite /to_compressed e /= or_flags.
Qed.

Lemma toC_bytes P : is_bytes (toC P).
Proof.
have [h [r [e hh ->]]] := toC_cons P; have [_ _ _ _ h1] := bits_flags true (is_identity P) (lex (affine P).2 && ~~ is_identity P) hh.
by rewrite /= h1 /=; have := encB (affine P).1; rewrite e => /andP[].
Qed.

Lemma roundC P : goodP P -> fromC (toC P) = Ok P.
Proof.
move=> gP; have [h [r [e hh eC]]] := toC_cons P.
have [b7 b6 b5 hm _] := bits_flags true (is_identity P) (lex (affine P).2 && ~~ is_identity P) hh.
case: P gP e eC b7 b6 b5 hm => [[x y]|] gP /= e eC b7 b6 b5 hm.
  apply/(fromC_some _ _ (toC_size _) (toC_bytes _)); rewrite eC /= b7 b6 b5; split=> //.
    by rewrite e hm.
  by left; rewrite andbT.
by apply/fromC_none; rewrite eC /= b7 b6.
Qed.

Lemma uniqueC s x y : size s = L -> is_bytes s -> y <> 0 ->
  fromC s = Ok (Some (x, y)) -> s = toC (Some (x, y)).
Proof.
move=> sL sB y0 /(fromC_some _ _ sL sB)[b7 b6 em _ [l5|//]].
have [h [r [e hh ->]]] := toC_cons (Some (x, y)); rewrite /= in e *.
case: s sL sB b7 b6 em l5 => [|k s] //= _ /andP[hk _] b7 b6 em l5.
move: em; rewrite e => -[km ->]; rewrite [k in LHS](flagsE hk) b7 (negbTE b6) -l5 andbT /flags -km.
by rewrite modn_mod.
Qed.

Lemma fromU_none s : fromU s = Ok None <-> bit 6 (head 0%N s).
Proof.
rewrite /from_uncompressed; case: (bit 6 _) => //=; split=> //.
by case: (dec _) => // x; case: (dec _) => // y; case: (_ == _) => //=; case: ifP.
Qed.

Lemma fromU_some s x y : size s = (L + L)%N -> is_bytes s ->
  fromU s = Ok (Some (x, y)) <->
  [/\ ~~ bit 6 (head 0%N s), mask (take L s) = enc x, drop L s = enc y & good x y].
Proof.
move=> sL sB; rewrite /from_uncompressed.
have s1 : size (mask (take L s)) = L by rewrite size_map_head size_takel // sL leq_addr.
have s2 : size (drop L s) = L by rewrite size_drop sL addnK.
have [bt bd] : is_bytes (take L s) /\ is_bytes (drop L s).
  by move: sB; rewrite -{1}(cat_take_drop L s) /is_bytes all_cat => /andP[].
have b1 := is_bytes_mask bt.
case: (bit 6 _) => /=; first by split=> // -[].
split=> [|[_ -> -> [/eqP e hs]]]; last by rewrite !encK e hs.
case d1 : (dec (mask _)) => [x'|] //; case d2 : (dec (drop _ _)) => [y'|] //.
case: eqP => //= e; case: ifP => // /negbFE hs [ex ey]; subst x' y'.
by split=> //; apply/decP.
Qed.

Lemma fromU_nopanic s : fromU s <> Panic.
Proof.
rewrite /from_uncompressed; case: (bit 6 _) => //=.
by case: (dec _) => // x; case: (dec _) => // y; case: (_ == _) => //=; case: ifP.
Qed.

Lemma toU_size P : size (toU P) = (L + L)%N.
Proof. by rewrite /to_uncompressed size_map_head size_cat !encS. Qed.

Lemma toU_cons P : exists h r, [/\ enc (affine P).1 = h :: r, (h < 32)%N, size r = L.-1 &
  toU P = flags false (is_identity P) false h :: r ++ enc (affine P).2].
Proof.
have [h [r [e hh]]] := enc_cons (affine P).1; exists h, r; split=> //.
  by have := encS (affine P).1; rewrite e /= => <-.
by rewrite /to_uncompressed e /= or6.
Qed.

Lemma toU_bytes P : is_bytes (toU P).
Proof.
have [h [r [e hh _ ->]]] := toU_cons P; have [_ _ _ _ h1] := bits_flags false (is_identity P) false hh.
rewrite bytes_cons h1 bytes_cat encB andbT; have := encB (affine P).1; rewrite e bytes_cons.
by case/andP.
Qed.

(** all strings that differ from the canonical one in the two unused flags *)
Lemma roundU P c s : goodP P ->
  fromU (map_head (fun h => or_bit 5 s (or_bit 7 c h)) (toU P)) = Ok P.
Proof.
move=> gP; have [h [r [e hh sr eU]]] := toU_cons P.
have X : or_bit 5 s (or_bit 7 c (flags false (is_identity P) false h)) = flags c (is_identity P) s h.
  apply/eqP; move: h hh {e eU}; case: (is_identity P); apply: small_all; by case: c; case: s; vm_compute.
have [b7 b6 b5 hm hb] := bits_flags c (is_identity P) s hh.
rewrite eU /= X.
case: P gP e eU X b7 b6 b5 hm hb => [[x y]|] gP /= e eU X b7 b6 b5 hm hb; last first.
  by apply/fromU_none; rewrite /= b6.
apply/fromU_some.
- by rewrite /= size_cat encS sr; case: (L) L0.
- rewrite bytes_cons hb bytes_cat encB andbT; have := encB x; rewrite e bytes_cons; by case/andP.
have eL : L = (size r).+1 by rewrite sr prednK.
by rewrite /= b6; split=> //; rewrite eL /= ?take_size_cat ?drop_size_cat ?hm ?e.
Qed.

Lemma uniqueU s x y : size s = (L + L)%N -> is_bytes s ->
  fromU s = Ok (Some (x, y)) ->
  s = map_head (fun h => or_bit 5 (bit 5 (head 0%N s)) (or_bit 7 (bit 7 (head 0%N s)) h)) (toU (Some (x, y))).
Proof.
move=> sL sB /(fromU_some _ _ sL sB)[b6 e1 e2 _].
have [h [r [e hh sr eU]]] := toU_cons (Some (x, y)); rewrite /= in e eU *.
have X c t : or_bit 5 t (or_bit 7 c (flags false false false h)) = flags c false t h.
  apply/eqP; move: h hh {e eU}; apply: small_all; by case: c; case: t; vm_compute.
rewrite eU /= X.
case: s sL sB b6 e1 e2 => [|k s] /=; first by move=> z; move: L0; case: (L) z.
have eL : L = (size r).+1 by rewrite sr prednK.
move=> sL /andP[hk _] b6; rewrite eL /= e => -[km ts] ds.
rewrite -(cat_take_drop (size r) s) ts ds; congr (_ :: _).
by rewrite [k in LHS](flagsE hk) (negbTE b6) /flags -km modn_mod.
Qed.

End Codec.
