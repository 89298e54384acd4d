(** Property theorems for pkg/ot/base/simplest. *)
From mathcomp Require Import all_ssreflect all_algebra zify.
From Verif Require Import Lib.Res Lib.Bytes Lib.Inst Core.HashModel Core.HashProofs Schnorr.Model Schnorr.Props
  OT.SimplestModel.
Set Implicit Arguments. Unset Strict Implicit. Unset Printing Implicit Defensive.
Import GRing.Theory.
Local Open Scope ring_scope.

Lemma bxorC a b : size a = size b -> bxor a b = bxor b a.
Proof. by elim: a b => [|x a IH] [|y b] //= [e]; rewrite PeanoNat.Nat.lxor_comm IH. Qed.

Section S.
Variables (F : fieldType) (G : lmodType F) (g : G) (penc : G -> bytes) (pdec : bytes -> option G)
  (enc : F -> bytes) (dec : bytes -> option F) (hash : bytes -> bytes) (ext1 ext2 : bytes -> bytes).
Hypotheses (pcan : forall P, pdec (penc P) = Some P) (can : forall x c, dec x = Some c -> enc c = x)
  (hsz : forall x, size (hash x) = 32%N).

Lemma decode_all_map (ps : seq G) : decode_all pdec (map penc ps) = Some ps.
Proof. by elim: ps => //= p ps ->; rewrite pcan. Qed.

Lemma round5_ok (keys : seq (bytes * bytes)) :
  round5_loop hash keys [seq hash (hash k.1) | k <- keys] = Ok [seq (hash k.1, hash k.2) | k <- keys].
Proof. by elim: keys => //= k keys ->; rewrite eqxx. Qed.

Lemma round6_ok (keys : seq bytes) bits (ks : seq (bytes * bytes)) :
  size bits = size keys -> size ks = size keys ->
  (forall i, (i < size keys)%N -> nth [::] keys i =
     if nth false bits i then (nth ([::], [::]) ks i).2 else (nth ([::], [::]) ks i).1) ->
  round6_loop hash keys bits [seq bxor (hash2 hash k.1) (hash2 hash k.2) | k <- ks]
    [seq (hash k.1, hash k.2) | k <- ks] = Ok tt.
Proof.
elim: keys bits ks => [|k keys IH] [|w bits] [|o ks] //= [e1] [e2] h.
have := h 0%N isT => /= ->; case: w h => h /=; rewrite eqxx /= /hash2 eqxx /=; apply: IH => // i hi;
  exact: (h i.+1 hi).
Qed.

(** the whole honest run, in closed form *)
Lemma honest_runE batch sid rnd b k a c : (8 %| batch)%N ->
  dec (hash (transcript penc (ext1 sid) g (b *: g) (k *: g))) = Some c ->
  exists s r, honest_run g penc pdec enc dec hash ext1 ext2 batch sid rnd b k a = Ok (s, r) /\
  [/\ size (s_keys s) = batch, size (r_keys r) = batch, size (r_bits r) = batch &
   forall i, (i < batch)%N ->
    [/\ nth false (r_bits r) i = extract_bit rnd i,
        nth [::] (r_keys r) i = (if nth false (r_bits r) i then (nth ([::], [::]) (s_keys s) i).2
                                 else (nth ([::], [::]) (s_keys s) i).1),
        size (nth ([::], [::]) (s_keys s) i).1 = 32%N & size (nth ([::], [::]) (s_keys s) i).2 = 32%N]].
Proof.
move=> hb hc; rewrite /honest_run /new_sender /new_receiver.
have -> : (batch %% 8 != 0)%N = false by move: hb; rewrite /dvdn => /eqP ->.
cbn [bind]; rewrite /round1; cbn [s_sid s_batch s_keys].
have [pf ep] : exists pf, prove penc dec hash g (ext1 sid) b k = Ok pf by rewrite /prove hc; eexists.
rewrite ep; cbn [bind]; rewrite /round2 /=.
have [H _] := @C18_schnorr_complete F G penc enc dec hash g (ext1 sid) b k can.
have [-> es] := H _ ep; cbn [bind]; rewrite es.
set bits := [seq extract_bit rnd i | i <- iota 0 batch].
set masked := [seq (if _ then _ else _) | i <- iota 0 batch].
pose pts := [seq (if nth false bits i then a i *: g + b *: g else a i *: g) | i <- iota 0 batch].
have em : masked = map penc pts.
  by rewrite /masked /pts -map_comp; apply: eq_map => i /=; case: ifP.
rewrite em /round3 decode_all_map; cbn [s_batch s_sid s_sk s_pk fst snd bind].
have sp : size pts = batch by rewrite size_map size_iota.
rewrite sp ltnn; cbn [bind fst snd].
set keys := [seq (_, _) | i <- iota 0 batch].
set rkeys := [seq pad _ _ _ _ _ | i <- iota 0 batch].
have sk : size keys = batch by rewrite size_map size_iota.
have srk : size rkeys = batch by rewrite size_map size_iota.
have sb : size bits = batch by rewrite size_map size_iota.
have key i : (i < batch)%N -> nth [::] rkeys i =
    if nth false bits i then (nth ([::], [::]) keys i).2 else (nth ([::], [::]) keys i).1.
  move=> hi; have ept : nth 0 pts i = if nth false bits i then a i *: g + b *: g else a i *: g.
    by rewrite (nth_map 0%N) ?size_iota // nth_iota.
  have ek : nth ([::], [::]) keys i = (pad penc hash (ext2 sid) i (b *: nth 0 pts i),
      pad penc hash (ext2 sid) i (b *: (nth 0 pts i - b *: g))).
    by rewrite /keys (nth_map 0%N) ?size_iota // nth_iota.
  have erk : nth [::] rkeys i = pad penc hash (ext2 sid) i (a i *: (b *: g)).
    by rewrite /rkeys (nth_map 0%N) ?size_iota // nth_iota.
  rewrite ek erk ept.
  case: (nth false bits i); cbn [fst snd]; first by rewrite addrK !scalerA [b * _]mulrC.
  by rewrite !scalerA [b * _]mulrC.
rewrite /round4 /= size_map sk srk ltnn /=.
set resp := [seq _ | i <- iota 0 batch].
have er : resp = [seq hash (hash k.1) | k <- keys].
  apply: (@eq_from_nth _ [::]); rewrite !size_map ?size_iota // => i hi.
  rewrite (nth_map 0%N) ?size_iota // nth_iota // add0n (nth_map ([::], [::])) ?sk // key //.
  rewrite (nth_map ([::], [::])) ?sk //.
  by case: (nth false bits i) => //; rewrite bxorK.
rewrite /round5 /= sk ltnn take_oversize ?sk // er round5_ok /=.
rewrite /round6 /= srk ltnn take_oversize ?srk // round6_ok /= ?sk ?srk //.
eexists _, _; split; first by []; split=> //= i hi.
split; first by rewrite (nth_map 0%N) ?size_iota // nth_iota.
- exact: key.
- by rewrite (nth_map 0%N) ?size_iota //= hsz.
- by rewrite (nth_map 0%N) ?size_iota //= hsz.
Qed.
End S.

(** C27: an honest run completes (the only failing point being the decoding of the Schnorr challenge, see
    C19), and for every index the receiver's key is the sender's key selected by the choice bit, the choice
    bits being the bits of the packed random vector. *)
Theorem C27_ot_correct :
  forall (F : fieldType) (G : lmodType F) (g : G) (penc : G -> bytes) (pdec : bytes -> option G)
    (enc : F -> bytes) (dec : bytes -> option F) (hash : bytes -> bytes) (ext1 ext2 : bytes -> bytes),
  (forall P, pdec (penc P) = Some P) -> (forall x c, dec x = Some c -> enc c = x) ->
  (forall x, size (hash x) = 32%N) ->
  forall batch sid rnd (b k : F) (a : nat -> F), (8 %| batch)%N ->
  dec (hash (ext1 sid ++ penc g ++ penc (b *: g) ++ penc (k *: g))) <> None ->
  exists s r, honest_run g penc pdec enc dec hash ext1 ext2 batch sid rnd b k a = Ok (s, r) /\
    size (s_keys s) = batch /\ size (r_keys r) = batch /\
    forall i, (i < batch)%N ->
      nth false (r_bits r) i = Nat.testbit (nth 0%N rnd (i %/ 8)) (i %% 8) /\
      nth [::] (r_keys r) i = if nth false (r_bits r) i then (nth ([::], [::]) (s_keys s) i).2
                              else (nth ([::], [::]) (s_keys s) i).1.
Proof.
move=> F G g penc pdec enc dec hash ext1 ext2 pcan can hsz batch sid rnd b k a hb.
case E: dec => [c|] // _.
have [s [r [e [h1 h2 _ h]]]] := @honest_runE F G g penc pdec enc dec hash ext1 ext2 pcan can hsz batch sid rnd b k a c hb E.
exists s, r; do 3!split=> //; move=> i hi; have [e1 e2 _ _] := h i hi; by split.
Qed.
Print Assumptions C27_ot_correct.

(** The receiver then decrypts exactly the chosen message of each pair. *)
Theorem C27_ot_transfer :
  forall (F : fieldType) (G : lmodType F) (g : G) (penc : G -> bytes) (pdec : bytes -> option G)
    (enc : F -> bytes) (dec : bytes -> option F) (hash : bytes -> bytes) (ext1 ext2 : bytes -> bytes),
  (forall P, pdec (penc P) = Some P) -> (forall x c, dec x = Some c -> enc c = x) ->
  (forall x, size (hash x) = 32%N) ->
  forall batch sid rnd (b k : F) (a : nat -> F) s r ms,
  honest_run g penc pdec enc dec hash ext1 ext2 batch sid rnd b k a = Ok (s, r) ->
  size ms = batch -> (forall m, m \in ms -> size m.1 = 32%N /\ size m.2 = 32%N) ->
  exists cs out, ot_encrypt s ms = Ok cs /\ ot_decrypt r cs = Ok out /\ size out = batch /\
    forall i, (i < batch)%N ->
      nth [::] out i = if Nat.testbit (nth 0%N rnd (i %/ 8)) (i %% 8) then (nth ([::], [::]) ms i).2
                       else (nth ([::], [::]) ms i).1.
Proof.
move=> F G g penc pdec enc dec hash ext1 ext2 pcan can hsz batch sid rnd b k a s r ms hr sm szm.
have hb : (8 %| batch)%N.
  by move: hr; rewrite /honest_run /new_sender; case: ifP => //; rewrite /dvdn => /negbFE.
case E: (dec (hash (transcript penc (ext1 sid) g (b *: g) (k *: g)))) => [c|]; last first.
  move: hr; rewrite /honest_run /new_sender /new_receiver; case: ifP => // _ /=.
  by rewrite /round1 /prove /= E.
have [s' [r' [e [h1 h2 h3 h]]]] := @honest_runE F G g penc pdec enc dec hash ext1 ext2 pcan can hsz batch sid rnd b k a c hb E.
move: hr; rewrite e => -[es er]; subst s' r'.
rewrite /ot_encrypt sm h1 eqxx /=; eexists; eexists; split; first by [].
rewrite /ot_decrypt size_map size_zip h1 h2 sm minnn eqxx /=; split; first by [].
have sz : size (zip (zip (r_keys r) (r_bits r))
     [seq (bxor p.1.1 p.2.1, bxor p.1.2 p.2.2) | p <- zip (s_keys s) ms]) = batch.
  by rewrite !size_zip size_map size_zip h1 h2 h3 sm !minnn.
split; first by rewrite size_map.
move=> i hi; have [eb ek t1 t2] := h i hi.
rewrite (nth_map (([::], false), ([::], [::]))) ?sz // nth_zip; last first.
  by rewrite size_map !size_zip h1 h2 h3 sm !minnn.
rewrite nth_zip ?h2 ?h3 //= ek (nth_map (([::], [::]), ([::], [::]))) ?size_zip ?h1 ?sm ?minnn //.
rewrite nth_zip ?h1 ?sm //= eb /extract_bit.
have [s1 s2] := szm _ (mem_nth ([::], [::]) (etrans (congr1 (leq i.+1) sm) hi)).
case: ifP => _; rewrite bxorC ?size_bxor ?t1 ?t2 //.
  by rewrite [X in bxor X _]bxorC ?t2 // bxorK.
by rewrite [X in bxor X _]bxorC ?t1 // bxorK.
Qed.
Print Assumptions C27_ot_transfer.

(** The receiver's message hides its choice perfectly: for every group element A and either choice bit
    there is exactly one scalar that makes it send A. *)
Theorem C27_ot_choice_hidden :
  forall (F : fieldType) (G : lmodType F) (g : G) (b : F) (A : G),
  (forall x y : F, x *: g = y *: g -> x = y) -> (exists x : F, A = x *: g) ->
  forall w : bool, exists2 a : F, A = a *: g + (if w then b *: g else 0) &
    forall a', A = a' *: g + (if w then b *: g else 0) -> a' = a.
Proof.
move=> F G g b A inj [x ->] w; exists (x - (if w then b else 0)).
  by case: w; rewrite ?subr0 ?addr0 // scalerBl subrK.
move=> a'; case: w; rewrite ?subr0 ?addr0 -?scalerDl => /inj -> //.
by rewrite addrK.
Qed.
Print Assumptions C27_ot_choice_hidden.

(** What acceptance in the last rounds establishes, against an arbitrary peer: if the sender accepts the
    responses, each is H(H(Rho^0)); if the receiver accepts the openings, they open its challenge and one
    of them is the hash of its own key, in the position of its choice bit. *)
Theorem C27_ot_acceptance :
  forall (F : fieldType) (G : lmodType F) (hash : bytes -> bytes),
  (forall (s : sender G) resp ops, size (s_keys s) = s_batch s -> round5 hash s resp = Ok ops ->
     forall i, (i < s_batch s)%N -> nth [::] resp i = hash (hash (nth ([::], [::]) (s_keys s) i).1)) /\
  (forall (r : receiver G) ops, size (r_keys r) = r_batch r -> size (r_bits r) = r_batch r ->
     round6 hash r ops = Ok tt -> forall i, (i < r_batch r)%N ->
     let o := nth ([::], [::]) ops i in
     nth [::] (r_chal r) i = bxor (hash o.1) (hash o.2) /\
     hash (nth [::] (r_keys r) i) = (if nth false (r_bits r) i then o.2 else o.1)).
Proof.
move=> F G hash; split.
  move=> s resp ops sz; rewrite /round5 sz ltnn take_oversize ?sz // -sz => h i hi; move: h hi.
  elim: (s_keys s) resp ops i => [|k ks IH] [|p resp] ops i //=; case: eqP => //= <-.
  by case E: round5_loop => [o| |] //= _; case: i => [|i] //= hi; apply: IH E hi.
move=> r ops sk sb; rewrite /round6 sk ltnn take_oversize ?sk // -sk => h i hi /=; move: h hi.
rewrite -sk in sb.
elim: (r_keys r) (r_bits r) (r_chal r) ops sb i => [|k ks IH] [|w bs] cs [|o ops] //= [sb] i.
case: eqP => //= eo; case: cs => [|x cs] //; case: eqP => //= ex h.
by case: i => [|i] //= hi; apply: IH.
Qed.
Print Assumptions C27_ot_acceptance.

(** Findings: a message with fewer entries than the batch size panics the peer in rounds 3 to 6, and the
    index in the pad derivation wraps at 256, so positions i and i+256 share their domain separation. *)
Theorem C27_ot_short_messages_panic :
  forall (F : fieldType) (G : lmodType F) (penc : G -> bytes) (pdec : bytes -> option G)
    (hash : bytes -> bytes) (ext2 : bytes -> bytes),
  (forall (s : sender G) ms ps, decode_all pdec ms = Some ps -> (size ms < s_batch s)%N ->
     round3 penc pdec hash ext2 s ms = Panic) /\
  (forall (r : receiver G) chal, (size chal < r_batch r)%N -> round4 hash r chal = Panic) /\
  (forall (s : sender G) resp, size (s_keys s) = s_batch s -> (size resp < s_batch s)%N ->
     resp = take (size resp) [seq hash (hash k.1) | k <- s_keys s] -> round5 hash s resp = Panic) /\
  (forall salt i P, pad penc hash salt (i + 256) P = pad penc hash salt i P).
Proof.
move=> F G penc pdec hash ext2; split.
  move=> s ms ps e; rewrite /round3 e => h.
  suff -> : size ps = size ms by rewrite h.
  elim: ms ps e {h} => [|m ms IH] ps /=; first by move=> [<-].
  by case: (pdec m) => [p|] //; case E: decode_all => [qs|] // [<-] /=; rewrite (IH _ E).
split; first by move=> r chal h; rewrite /round4 h.
split; last by move=> salt i P; rewrite /pad modnDr.
move=> s resp sz hs e; rewrite /round5 sz ltnn take_oversize ?sz //.
rewrite -sz in hs; elim: (s_keys s) resp hs e {sz} => [|k ks IH] [|p resp] //= hs [-> e].
by rewrite eqxx /= IH.
Qed.
Print Assumptions C27_ot_short_messages_panic.

(** the hypotheses are met: a concrete instance over F_257, with 32-byte hashes *)
Example C27_hyps : exists (penc : G257 -> bytes) (pdec : bytes -> option G257) (enc : F257 -> bytes)
    (dec : bytes -> option F257) (hash : bytes -> bytes),
  [/\ forall P, pdec (penc P) = Some P, forall x c, dec x = Some c -> enc c = x,
   forall x, size (hash x) = 32%N & dec (hash [::]) <> None].
Proof.
pose enc (x : F257) : bytes := le_bytes 32 (x : nat).
exists (fun P : F257 => enc P), (fun b => [pick P : F257 | enc P == b]), enc,
  (fun b => [pick c : F257 | enc c == b]), (fun b => le_bytes 32 (size b)).
have sm (x : F257) : ((x : nat) < 256 ^ 32)%N := small257 x.
have inj : injective enc.
  by move=> x y /(congr1 le_val); rewrite !le_bytesK // => e; apply: val_inj.
split.
- move=> P; case: pickP => [Q /eqP /inj -> //|/(_ P)]; by rewrite eqxx.
- by move=> x c; case: pickP => // Q /eqP <- [<-].
- by move=> x; rewrite size_le_bytes.
- by case: pickP => // /(_ 0); rewrite /enc eqxx.
Qed.
