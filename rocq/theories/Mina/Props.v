(** C61: Mina message signatures. *)
From mathcomp Require Import all_ssreflect all_algebra zify.
From Verif Require Import Lib.Res Lib.Bytes Lib.Inst Sharing.Spec Mina.BitModel Mina.BitBytes Mina.BitProofs
  Mina.Model Mina.Proofs.
Set Implicit Arguments.
Unset Strict Implicit.
Unset Printing Implicit Defensive.
Import GRing.Theory.
Local Open Scope ring_scope.

(** the bits of a message, least significant bit of each byte first *)
Definition msg_bits (m : bytes) : seq bool := flatten (map (bits_le 8) m).

Section Props.
Variables (Fp F : fieldType) (G : lmodType F) (g : G).
Variables (px py : G -> Fp) (fpraw : Fp -> nat) (fqraw : F -> nat).
Variables (blake : bytes -> bytes).
Variables (rk : nat -> seq Fp) (mdsm : seq (seq Fp)) (iv : nat -> seq Fp).
Local Notation fodd := (fodd fpraw).
Local Notation sign_message := (sign_message g px py fpraw fqraw blake rk mdsm iv).
Local Notation verify_message := (verify_message g px py fpraw rk mdsm iv).
Local Notation finish_sign := (finish_sign g px py fpraw fqraw blake rk mdsm iv).
Local Notation finish_verify := (finish_verify g px py fpraw rk mdsm iv).
Local Notation derive_input := (derive_input px py fpraw fqraw).
Local Notation chal := (chal px py fpraw rk mdsm iv).

(** affine coordinates: opposite points share x, and their y have different parity *)
Definition coords_ok : Prop :=
  (forall P, px (- P) = px P) /\ (forall P, P != 0 -> fodd (py (- P)) = ~~ fodd (py P)).
(** x and the parity of y determine a point *)
Definition coords_inj : Prop :=
  forall P Q, px P = px Q -> fodd (py P) = fodd (py Q) -> P = Q.

(** the challenge of message [m]: Poseidon of pk.x, pk.y, R and the message cut into 254-bit integers *)
Definition msg_challenge (pk : G) (rx : Fp) (m : bytes) : F :=
  digest F fpraw rk mdsm
    (update rk mdsm (Ctx (take 3 (iv 1 ++ nseq 3 0)) 0) ([:: px pk; py pk; rx] ++ chunks Fp (msg_bits m))).

Lemma msg_ro m : exists r : roinput Fp, add_bytes m (ro_init (size m)) = Ok r /\ is_ro r [::] (msg_bits m).
Proof. exact: (add_bits_ro (msg_bits m) (init_ro _ _)). Qed.

Lemma verify_messageE pk sig m :
  verify_message pk sig m =
  if pk == 0 then Err else if (sig_r sig == 0) || (sig_s sig == 0) then Err else
  let P := sig_s sig *: g - msg_challenge pk (sig_r sig) m *: pk in
  if ~~ fodd (py P) && (px P == sig_r sig) then Ok tt else Err.
Proof.
have [r [e h]] := msg_ro m; rewrite /Model.verify_message e; cbn [bind].
by rewrite (finish_verify_ok g px py fpraw rk mdsm iv pk sig 1 h).
Qed.

(** the exact verdict *)
Theorem C61_verify_iff pk sig m :
  verify_message pk sig m = Ok tt <->
  [/\ pk != 0, sig_r sig != 0, sig_s sig != 0 &
      exists P, [/\ px P = sig_r sig, ~~ fodd (py P) &
                    sig_s sig *: g = P + msg_challenge pk (sig_r sig) m *: pk]].
Proof.
rewrite verify_messageE; split.
- case: (pk == 0) => //; case: (sig_r sig == 0) => //; case: (sig_s sig == 0) => //=.
  case: ifP => // /andP[h1 /eqP h2] _; split => //; eexists; split; [exact: h2|exact: h1|by rewrite subrK].
- move=> [/negbTE -> /negbTE -> /negbTE -> [P [h1 h2 h3]]] /=.
  by rewrite h3 addrK h1 h2 eqxx.
Qed.

Theorem C61_verify_no_panic pk sig m : ~~ is_panic (verify_message pk sig m).
Proof. by rewrite verify_messageE; do 2 case: ifP => // _; rewrite /=; case: ifP. Qed.

Lemma sign_messageE sk m :
  exists r b, [/\ add_bytes m (ro_init (size m)) = Ok r, derive_input sk r (sk *: g) 1 = Ok b &
  sign_message sk m =
  if sk == 0 then Err else if nonce F blake b == 0 then Err else
  let R := nonce F blake b *: g in
  let k := if fodd (py R) then - nonce F blake b else nonce F blake b in
  let s := k + msg_challenge (sk *: g) (px R) m * sk in
  if (px R == 0) || (s == 0) then Err else Ok (Sig (px R) s)].
Proof.
have [r [e h]] := msg_ro m; exists r.
have [b [eb es]] := finish_sign_ok g px py fpraw fqraw blake rk mdsm iv sk 1 h; exists b; split => //.
by rewrite /Model.sign_message e; cbn [bind]; rewrite es.
Qed.

(** what SignMessage returns verifies under the matching public key *)
Theorem C61_sign_verify sk m sig : coords_ok -> base_ok g ->
  sign_message sk m = Ok sig -> verify_message (sk *: g) sig m = Ok tt.
Proof.
move=> [cx cy] gb; have [r [b [_ _ ->]]] := sign_messageE sk m.
case: ifP => // /negbT sk0; case: ifP => // /negbT k0; set k := nonce F blake b in k0 *; rewrite /=.
case: ifP => // /norP[r0 s0] [<-].
have nz a : a != 0 -> a *: g != 0 by move=> ha; apply: contra ha => /eqP /gb ->.
apply/C61_verify_iff; split => //=; first exact: nz.
exists ((if fodd (py (k *: g)) then - k else k) *: g); split.
- by case: ifP => // _; rewrite scaleNr cx.
- by case: ifP => [h|/negbT //]; rewrite scaleNr cy ?h // nz.
- by rewrite scalerDl scalerA.
Qed.

Theorem C61_sign_no_panic sk m : ~~ is_panic (sign_message sk m).
Proof.
have [r [b [_ _ ->]]] := sign_messageE sk m.
by do 2 case: ifP => // _; rewrite /=; case: ifP.
Qed.

(** SignMessage fails only for the zero key, a zero nonce, or a zero component *)
Theorem C61_sign_errors sk m : sign_message sk m = Err ->
  exists k, [\/ sk = 0, k = 0, px (k *: g) = 0 | k + msg_challenge (sk *: g) (px (k *: g)) m * sk = 0
             \/ - k + msg_challenge (sk *: g) (px (k *: g)) m * sk = 0].
Proof.
have [r [b [_ _ ->]]] := sign_messageE sk m; move=> H; exists (nonce F blake b); move: H.
set k := nonce F blake b.
case: (eqVneq sk 0) => [h _|_]; first by constructor 1.
case: (eqVneq k 0) => [h _|_]; first by constructor 2.
cbn zeta; case: (eqVneq (px (k *: g)) 0) => [h _|_]; first by constructor 3.
rewrite /=; case: (fodd _).
all: case: ifP => // h _; constructor 4; move/eqP: h => h; by [right|left].
Qed.

(** Two accepted signatures on the same R with different challenges give away the secret key. *)
Theorem C61_special_soundness pk s1 s2 m1 m2 : coords_inj ->
  verify_message pk s1 m1 = Ok tt -> verify_message pk s2 m2 = Ok tt -> sig_r s1 = sig_r s2 ->
  let e1 := msg_challenge pk (sig_r s1) m1 in let e2 := msg_challenge pk (sig_r s2) m2 in
  e1 != e2 -> pk = ((sig_s s1 - sig_s s2) / (e1 - e2)) *: g.
Proof.
move=> inj /C61_verify_iff [_ _ _ [P [p1 p2 p3]]] /C61_verify_iff [_ _ _ [Q [q1 q2 q3]]] er e1 e2 ne.
have PQ : P = Q by apply: inj; [rewrite p1 q1|rewrite (negbTE p2) (negbTE q2)].
have d0 : e1 - e2 != 0 by rewrite subr_eq0.
rewrite mulrC -scalerA scalerBl p3 q3 PQ opprD addrACA subrr add0r -scalerBl scalerA mulVf //.
by rewrite scale1r.
Qed.

(** FINDING.  The bits are packed without a length and the sponge is not padded: appending zero bytes to a
    message does not change the verdict as long as the number of sponge blocks stays the same. *)
Definition blocks (n : nat) : nat := uphalf (3 + nchunks (8 * n)).

Lemma msg_bits_zeros m z : msg_bits (m ++ nseq z 0%N) = msg_bits m ++ nseq (8 * z) false.
Proof.
rewrite /msg_bits map_cat flatten_cat; congr cat.
elim: z => [|z IH]; first by rewrite muln0.
by rewrite mulnS nseqD -IH.
Qed.

Lemma size_chunks bs : size (chunks Fp bs) = nchunks (size bs).
Proof.
move: {2}(size bs) (leqnn (size bs)) => n; elim: n bs => [|n IH] bs h.
  by move: h; rewrite leqn0 => /nilP ->.
rewrite chunksE; case E: bs => [|b bs'] //; rewrite -E /= IH; last first.
  by rewrite size_drop; move: h; rewrite E /=; clear; lia.
by rewrite size_drop -nchunksS // E.
Qed.

Lemma challenge_zeros pk rx m z : blocks (size m + z) = blocks (size m) ->
  msg_challenge pk rx (m ++ nseq z 0%N) = msg_challenge pk rx m.
Proof.
move=> h; rewrite /msg_challenge msg_bits_zeros (chunks_pad _ (leqnn _)) catA.
apply: digest_zeros => //.
  by rewrite size_takel // size_cat leq_addl.
rewrite size_cat size_chunks [size [:: _; _; _]]/= /msg_bits size_bytes_bits.
have le : (nchunks (8 * size m) <= nchunks (8 * size m + 8 * z))%N.
  by rewrite /nchunks leq_div2r //; clear; lia.
by move: h; rewrite /blocks mulnDr -addnA subnKC.
Qed.

Theorem C61_zero_suffix_refuted pk sig m z : blocks (size m + z) = blocks (size m) ->
  verify_message pk sig (m ++ nseq z 0%N) = verify_message pk sig m.
Proof. by move=> h; rewrite !verify_messageE (challenge_zeros _ _ h). Qed.

(** in particular a signature on the empty message is one on any message of at most 31 zero bytes, and one
    on a message of 1..30 bytes is one on the message with a zero byte appended *)
Theorem C61_zero_suffix_cases pk sig :
  (forall z, (z <= 31)%N -> verify_message pk sig (nseq z 0%N) = verify_message pk sig [::]) /\
  (forall m, (0 < size m < 31)%N -> verify_message pk sig (rcons m 0%N) = verify_message pk sig m).
Proof.
split=> [z hz|m hm].
- apply: (@C61_zero_suffix_refuted _ _ [::]); rewrite /blocks /nchunks add0n /=.
  have : ((8 * z + 253) %/ 254 <= 1)%N by rewrite -ltnS ltn_divLR //; move: hz; clear; lia.
  by case: (_ %/ _)%N => [|[|n]].
- rewrite -cats1; apply: (@C61_zero_suffix_refuted _ _ _ 1); rewrite /blocks /nchunks.
  have e n : (0 < n <= 31)%N -> ((8 * n + 253) %/ 254 = 1)%N.
    move=> hn; have -> : (8 * n + 253 = 1 * 254 + (8 * n - 1))%N by move: hn; clear; lia.
    by rewrite divnMDl // divn_small //; move: hn; clear; lia.
  by rewrite !e //; move: hm; clear; lia.
Qed.

(** The bytes the nonce is derived from determine the message: no two messages share a nonce unless BLAKE2b
    collides. *)
Theorem C61_nonce_input_injective sk pk m1 m2 r1 r2 b :
  is_bytes m1 -> is_bytes m2 ->
  add_bytes m1 (ro_init (size m1)) = Ok r1 -> add_bytes m2 (ro_init (size m2)) = Ok r2 ->
  derive_input sk r1 pk 1 = Ok b -> derive_input sk r2 pk 1 = Ok b -> m1 = m2.
Proof.
move=> b1 b2 a1 a2 d1 d2.
have [r1' [a1' h1]] := msg_ro m1; have [r2' [a2' h2]] := msg_ro m2.
move: a1' a2'; rewrite a1 a2 => -[e1] [e2]; rewrite -{}e1 in h1; rewrite -{}e2 in h2.
have [c1 [d1' [s1 t1]]] := derive_input_ok px py fpraw fqraw sk pk 1 h1.
have [c2 [d2' [s2 t2]]] := derive_input_ok px py fpraw fqraw sk pk 1 h2.
move: d1' d2'; rewrite d1 d2 => -[e1] [e2]; rewrite -{}e1 in s1 t1; rewrite -{}e2 in s2 t2.
have es : size m1 = size m2.
  move: s1 s2; rewrite !size_cat !size_bits_le /msg_bits !size_bytes_bits => -> /=.
  have q n : ((8 * n + (255 + 8) + 7) %/ 8 = n + 33)%N.
    have -> : (8 * n + (255 + 8) + 7 = (n + 33) * 8 + 6)%N by clear; lia.
    by rewrite divnMDl // addn0.
  by rewrite !q; clear; lia.
have eb : size (msg_bits m1) = size (msg_bits m2) by rewrite /msg_bits !size_bytes_bits es.
move: t1 t2; rewrite !size_cat eb => -> /cat_eq [] // _ /esym /cat_eq [] // h _.
by apply: bytes_bits_inj.
Qed.
End Props.

Print Assumptions C61_verify_iff.
Print Assumptions C61_verify_no_panic.
Print Assumptions C61_sign_verify.
Print Assumptions C61_sign_no_panic.
Print Assumptions C61_sign_errors.
Print Assumptions C61_special_soundness.
Print Assumptions C61_zero_suffix_refuted.
Print Assumptions C61_zero_suffix_cases.
Print Assumptions C61_nonce_input_injective.

(** ** A concrete instance: x-coordinate P^2, y-coordinate P, over 'F_7 *)
(** a small field keeps the computation below cheap *)
Definition F7 : fieldType := [fieldType of 'F_7].
Definition G7 : lmodType F7 := [lmodType F7 of F7^o].
Definition g7 : G7 := (1 : F7).
Definition px7 (P : G7) : F7 := (P : F7) * (P : F7).
Definition py7 (P : G7) : F7 := (P : F7).
Definition raw7 (x : F7) : nat := nat_of_ord x.
Definition blake7 (b : bytes) : bytes := [:: foldl (fun a x => (a * 3 + x) %% 251) 8 b; 0]%N.
Definition rk7 (r : nat) : seq F7 := [:: r%:R; r.+1%:R; 5%:R].
Definition mds7 : seq (seq F7) :=
  [:: [:: 1; 2%:R; 3%:R]; [:: 2%:R; 1; 1]; [:: 3%:R; 1; 2%:R]].
Definition iv7 (n : nat) : seq F7 := [:: n%:R; n.+1%:R; n.+2%:R].

Lemma odd_opp7 (x : F7) : x != 0 -> odd (nat_of_ord (- x)) = ~~ odd (nat_of_ord x).
Proof.
move=> x0; have hx : (nat_of_ord x < 7)%N := ltn_ord x.
have xp : (0 < nat_of_ord x)%N by rewrite lt0n; apply: contra x0 => /eqP h; apply/eqP/val_inj.
rewrite [nat_of_ord (- x)](_ : _ = (7 - x)%N); last by rewrite /= modn_small //; move: xp; clear; lia.
by rewrite oddB ?(ltnW hx) // addTb.
Qed.

Lemma coords7 : coords_ok px7 py7 raw7 /\ coords_inj px7 py7 raw7.
Proof.
split; first split.
- by move=> P; rewrite /px7; exact: (mulrNN (P : F7) P).
- by move=> P hP; apply: odd_opp7.
- move=> P Q; rewrite /px7 /py7 /Model.fodd /raw7 => h.
  have /orP[/eqP //|/eqP e] : ((P : F7) == Q) || ((P : F7) == - (Q : F7)).
    rewrite -subr_eq0 -addr_eq0 -mulf_eq0 -subr_sqr subr_eq0; apply/eqP; exact: h.
  rewrite [P]e; case: (eqVneq (Q : F7) 0) => [->|q0]; first by rewrite oppr0.
  by rewrite odd_opp7 //; case: odd.
Qed.

Definition sign7 := sign_message g7 px7 py7 raw7 raw7 blake7 rk7 mds7 iv7.
Definition verify7 := verify_message g7 px7 py7 raw7 rk7 mds7 iv7.

(** key 5, message "\1\2": the signature verifies, also on "\1\2\0", not on "\1\2\1" *)
Example C61_hyps :
  (if sign7 5%:R [:: 1; 2]%N is Ok s then
     [&& is_ok (verify7 (5%:R : F7) s [:: 1; 2]%N), is_ok (verify7 (5%:R : F7) s [:: 1; 2; 0]%N),
         is_err (verify7 (5%:R : F7) s [:: 1; 2; 1]%N) & blocks 3 == blocks 2]
   else false) = true.
Proof. by vm_compute. Qed.
