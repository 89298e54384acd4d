(** Model of GG20 threshold ECDSA signing: pkg/tecdsa/gg20/participant/{participant,round1,...,round6}.go
    and the MtA conversion of pkg/tecdsa/gg20/proof/mta.go.

    big.Ints that the code keeps reduced modulo the group order q are elements of a field [F]; [val] is the
    representative below q.  Values received from other signers that the code only uses after reducing them
    modulo q (delta_j, s_j) are elements of [F] as well.  Ciphertexts, Paillier moduli and nonces are
    integers.  Points are an [F]-module [G] with base point [g]; [xc] is the x coordinate as an integer,
    [yodd] the parity of y, [penc]/[pdec] the uncompressed point codec.  Go maps are association lists iterated
    in list order.  The zero-knowledge proofs are arbitrary functions here (record [zkf]); Gg20/ZkModel.v has
    the real ones.  Random draws are arguments. *)
From mathcomp Require Import all_ssreflect all_algebra.
From Verif Require Import Lib.Res Lib.Bytes Core.HashModel Gennaro.Model Paillier.Model.
Set Implicit Arguments. Unset Strict Implicit. Unset Printing Implicit Defensive.
Import GRing.Theory.
Local Open Scope ring_scope.

(** the provers and verifiers; the first argument is the id whose auxiliary parameters are used, the last
    argument of a prover stands for its randomness *)
Record zkf (F : Type) (G : Type) (zk : Type) := Zkf {
  z_p1 : nat -> nat -> F -> nat -> nat -> nat -> outcome zk;                     (* id N k c r rnd *)
  z_v1 : nat -> nat -> option int -> zk -> outcome unit;                          (* id N c *)
  z_p2 : nat -> nat -> F -> nat -> nat -> option int -> nat -> option G -> nat -> outcome zk; (* id N x y r c1 c2 X rnd *)
  z_v2 : nat -> nat -> nat -> option int -> option G -> zk -> outcome unit;       (* id N c1 c2 X *)
  z_ppdl : nat -> nat -> F -> nat -> nat -> G -> G -> nat -> outcome zk;          (* id N k r c X R rnd *)
  z_vpdl : nat -> nat -> option int -> G -> G -> zk -> outcome unit               (* id N c X R *)
}.

Section Sign.
Variables (F : fieldType) (G : lmodType F) (g : G) (q : nat) (val : F -> nat) (xc : G -> nat) (yodd : G -> bool)
  (penc : G -> bytes) (pdec : bytes -> option G) (H : bytes -> bytes) (blk : nat) (zk : Type) (Z : zkf F G zk).

(* ------------------------------------------------------------ MtA *)
(** mta.go:37-41 ResponseProof as sent (Beta is removed before sending, round2.go:109-110) *)
Record resp := Resp { rs_proof : zk; rs_c2 : option int }.

(** mta.go:200-265 genResponseProof; [X] is Some B for ProveWc.  [bt] is the draw of Rand(q^5), [r] the nonce
    of the encryption.  The result is the message and beta. *)
Definition respond (id N : nat) (b : F) (c1 : option int) (X : option G) (bt r rnd : nat) : outcome (resp * F) :=
  do cb <- pmul N (Some (Posz (val b))) c1;
  do cBeta <- encrypt N (Some (Posz bt)) (Some (Posz r));
  do c2 <- padd N (Some (Posz cb)) (Some (Posz cBeta));
  do pi <- z_p2 Z id N b bt r c1 c2 X rnd;
  Ok (Resp pi (Some (Posz c2)), - (bt%:R)).

(** mta.go:268-288 Finalize, 292-315 FinalizeWc *)
Definition finalize (id : nat) (sk : secret_key) (c1 : nat) (X : option G) (rs : resp) : outcome F :=
  do _ <- z_v2 Z id (sN sk) c1 (rs_c2 rs) X (rs_proof rs);
  do alpha <- decrypt sk (rs_c2 rs);
  Ok (alpha%:R).

(* ------------------------------------------------------------ signers *)
(** participant.go:31-43 and the parts of state set by PrepareToSign *)
Record conf := Conf {
  c_id : nat;
  c_sk : secret_key;
  c_w : F;                                  (* share.Value, additive *)
  c_pub : seq (nat * G);                    (* publicSharesMap, additive *)
  c_pks : seq (nat * nat);                  (* state.pks: the moduli *)
  c_cosigners : seq nat;                    (* state.cosigners *)
  c_trusted : bool;                         (* keyGenType.IsTrustedDealer *)
  c_pk : G;
  c_verify : G -> bytes -> bool * nat * nat -> bool }.

(** participant.go:128-167 state; the values a round sets together are grouped *)
Record r1st := R1st { s_k : F; s_gamma : F; s_D : witness; s_ci : nat; s_ri : nat }.
Record r2st := R2st { s_cj : seq (nat * option int); s_Cj : seq (nat * bytes); s_beta : seq (nat * F); s_vu : seq (nat * F) }.
Record st := St {
  s_round : nat;
  s_1 : option r1st;
  s_2 : r2st;
  s_3 : option (F * F);                     (* delta_i, sigma_i *)
  s_delta : option F;
  s_R : option (G * G);                     (* R, Rbar_i *)
  s_hash : bytes;
  s_si : option F }.
Definition st0 : st := St 1 None (R2st [::] [::] [::] [::]) None None None [::] None.

(** participant.go:71-105 verifyStateMap, for a non-nil interface holding a map with these keys *)
Definition verify_state_map (c : conf) (s : st) (round : nat) (keys : seq nat) : outcome unit :=
  if s_round s != round then Err
  else if has (fun id => (id != c_id c) && (id \notin c_cosigners c)) keys then Err
  else if has (fun id => (id != c_id c) && (id \notin keys)) (c_cosigners c) then Err
  else Ok tt.

(** mapping over the cosigners in DKG mode, round1.go:90-107, round5.go:109-127 *)
Fixpoint prove_all (self : nat) (ids : seq nat) (f : nat -> outcome zk) : outcome (seq (nat * zk)) :=
  match ids with
  | [::] => Ok [::]
  | id :: r => if id == self then prove_all self r f
               else do p <- f id; do l <- prove_all self r f; Ok ((id, p) :: l)
  end.

(** round1.go:20-25 *)
Record bcast1 := Bcast1 { b1_C : bytes; b1_ctxt : option int; b1_proof : option zk }.

(** round1.go:34-127 SignRound1; draws: k, gamma, the commitment nonce, the Paillier nonce *)
Definition round1 (c : conf) (s : st) (k gamma : F) (crnd : option bytes) (r : nat) (rnd : nat -> nat)
  : st * outcome (bcast1 * seq (nat * zk)) :=
  if s_round s != 1%N then (s, Err) else
  match (
    do (Ci, Di) <- commit H blk (penc (gamma *: g)) crnd;
    do ctxt <- encrypt (sN (c_sk c)) (Some (Posz (val k))) (Some (Posz r));
    do (pf, p2p) <-
      (if c_trusted c then do p <- z_p1 Z 1 (sN (c_sk c)) k ctxt r (rnd 1%N); Ok (Some p, [::])
       else do l <- prove_all (c_id c) (c_cosigners c) (fun id => z_p1 Z id (sN (c_sk c)) k ctxt r (rnd id)); Ok (None, l));
    Ok (R1st k gamma Di ctxt r, Bcast1 Ci (Some (Posz ctxt)) pf, p2p))
  with
  | Ok (x, b, p2p) => (St 2 (Some x) (s_2 s) (s_3 s) (s_delta s) (s_R s) (s_hash s) (s_si s), Ok (b, p2p))
  | Err => (s, Err)
  | Panic => (s, Panic)
  end.

(** round2.go:18-20 *)
Record p2p2 := P2p2 { pr2 : resp; pr3 : resp }.
(** the draws of one iteration of the loop of SignRound2: masks, nonces, proof randomness *)
Record draw2 := Draw2 { d_bt : nat; d_br : nat; d_bz : nat; d_wt : nat; d_wr : nat; d_wz : nat }.

(** round2.go:69-121: the loop, with the maps filled so far *)
Fixpoint loop2 (c : conf) (x : r1st) (B : G) (p2p : seq (nat * zk)) (params : seq (nat * option bcast1))
  (dr : nat -> draw2) (acc : r2st) (out : seq (nat * p2p2)) : r2st * outcome (seq (nat * p2p2)) :=
  match params with
  | [::] => (acc, Ok out)
  | (j, None) :: rest => loop2 c x B p2p rest dr acc out
  | (j, Some m) :: rest =>
    if j == c_id c then loop2 c x B p2p rest dr acc out else
    match (
      do N <- deref (assoc j (c_pks c));
      do pf <- deref (if c_trusted c then b1_proof m else assoc j p2p);
      do _ <- z_v1 Z (c_id c) N (b1_ctxt m) pf;
      do (r2, beta) <- respond j N (s_gamma x) (b1_ctxt m) None (d_bt (dr j)) (d_br (dr j)) (d_bz (dr j));
      do (r3, vu) <- respond j N (c_w c) (b1_ctxt m) (Some B) (d_wt (dr j)) (d_wr (dr j)) (d_wz (dr j));
      Ok (r2, r3, beta, vu))
    with
    | Ok (r2, r3, beta, vu) =>
      loop2 c x B p2p rest dr
        (R2st ((j, b1_ctxt m) :: s_cj acc) ((j, b1_C m) :: s_Cj acc) ((j, beta) :: s_beta acc) ((j, vu) :: s_vu acc))
        ((j, P2p2 r2 r3) :: out)
    | Err => (acc, Err)
    | Panic => (acc, Panic)
    end
  end.

(** round2.go:43-126 SignRound2 *)
Definition round2 (c : conf) (s : st) (params : seq (nat * option bcast1)) (p2p : seq (nat * zk)) (dr : nat -> draw2)
  : st * outcome (seq (nat * p2p2)) :=
  match (
    do _ <- verify_state_map c s 2 (map fst params);
    do _ <- (if c_trusted c then Ok tt else verify_state_map c s 2 (map fst p2p));
    do x <- deref (s_1 s);
    do B <- deref (assoc (c_id c) (c_pub c));
    Ok (x, B))
  with
  | Ok (x, B) =>
    let '(acc, o) := loop2 c x B p2p params dr (R2st [::] [::] [::] [::]) [::] in
    match o with
    | Ok out => (St 3 (s_1 s) acc (s_3 s) (s_delta s) (s_R s) (s_hash s) (s_si s), Ok out)
    | Err => (St (s_round s) (s_1 s) acc (s_3 s) (s_delta s) (s_R s) (s_hash s) (s_si s), Err)
    | Panic => (St (s_round s) (s_1 s) acc (s_3 s) (s_delta s) (s_R s) (s_hash s) (s_si s), Panic)
    end
  | Err => (s, Err)
  | Panic => (s, Panic)
  end.

(** round3.go:80-130: the loop; a missing beta or nu is a nil big.Int and makes core.Add fail *)
Fixpoint loop3 (c : conf) (x : r1st) (s2 : r2st) (l : seq (nat * option p2p2)) (delta sigma : F) : outcome (F * F) :=
  match l with
  | [::] => Ok (delta, sigma)
  | (j, v) :: rest =>
    if j == c_id c then loop3 c x s2 rest delta sigma else
    match v with
    | None => Err
    | Some m =>
      do alpha <- finalize (c_id c) (c_sk c) (s_ci x) None (pr2 m);
      do B <- deref (assoc j (c_pub c));
      do mu <- finalize (c_id c) (c_sk c) (s_ci x) (Some B) (pr3 m);
      match assoc j (s_beta s2), assoc j (s_vu s2) with
      | Some beta, Some vu => loop3 c x s2 rest (delta + alpha + beta) (sigma + mu + vu)
      | _, _ => Err
      end
    end
  end.

(** round3.go:53-145 SignRound3 *)
Definition round3 (c : conf) (s : st) (l : seq (nat * option p2p2)) : st * outcome F :=
  match (
    do _ <- verify_state_map c s 3 (map fst l);
    do x <- deref (s_1 s);
    loop3 c x (s_2 s) l (s_k x * s_gamma x) (s_k x * c_w c))
  with
  | Ok (d, sg) => (St 4 (s_1 s) (s_2 s) (Some (d, sg)) (s_delta s) (s_R s) (s_hash s) (s_si s), Ok d)
  | Err => (s, Err)
  | Panic => (s, Panic)
  end.

(** round4.go:33-45 and round6.go:199-211: the sums.  A nil message panics, a nil element is an error. *)
Fixpoint sum_loop (self : nat) (l : seq (nat * option (option F))) (acc : F) : outcome F :=
  match l with
  | [::] => Ok acc
  | (j, v) :: rest =>
    if j == self then sum_loop self rest acc else
    match v with
    | None => Panic
    | Some None => Err
    | Some (Some d) => sum_loop self rest (acc + d)
    end
  end.

(** round4.go:25-60 SignRound4 *)
Definition round4 (c : conf) (s : st) (l : seq (nat * option (option F))) : st * outcome witness :=
  match (
    do _ <- verify_state_map c s 4 (map fst l);
    do ds <- deref (s_3 s);
    do x <- deref (s_1 s);
    do d <- sum_loop (c_id c) l ds.1;
    Ok (d, s_D x))
  with
  | Ok (d, D) => (St 5 (s_1 s) (s_2 s) (s_3 s) (Some d) (s_R s) (s_hash s) (s_si s), Ok D)
  | Err => (s, Err)
  | Panic => (s, Panic)
  end.

(** round5.go:44-76: the loop computing the product of the Gamma_j *)
Fixpoint loop5 (self : nat) (Cj : seq (nat * bytes)) (l : seq (nat * option (option witness))) (R : G) : outcome G :=
  match l with
  | [::] => Ok R
  | (j, d) :: rest =>
    match d with
    | None => Err
    | Some d =>
      if j == self then loop5 self Cj rest R else
      do w <- deref d;
      do ok <- copen H blk (odflt [::] (assoc j Cj)) w;
      if ~~ ok then Err else
      match pdec (wmsg w) with
      | None => Err
      | Some P => loop5 self Cj rest (R + P)
      end
    end
  end.

(** round5.go:22-26; round5.go:37-151 SignRound5 *)
Record bcast5 := Bcast5 { b5_Rbar : G; b5_proof : option zk }.
Definition round5 (c : conf) (s : st) (l : seq (nat * option (option witness))) (rnd : nat -> nat)
  : st * outcome (bcast5 * seq (nat * zk)) :=
  match (
    do _ <- verify_state_map c s 5 (map fst l);
    do x <- deref (s_1 s);
    do R0 <- loop5 (c_id c) (s_Cj (s_2 s)) l (s_gamma x *: g);
    do delta <- deref (s_delta s);
    if delta == 0 then Err else
    let R := delta^-1 *: R0 in
    let Rbar := s_k x *: R in
    do (pf, p2p) <-
      (if c_trusted c then do p <- z_ppdl Z 0 (sN (c_sk c)) (s_k x) (s_ri x) (s_ci x) Rbar R (rnd 0%N); Ok (Some p, [::])
       else do l <- prove_all (c_id c) (c_cosigners c)
                      (fun id => z_ppdl Z id (sN (c_sk c)) (s_k x) (s_ri x) (s_ci x) Rbar R (rnd id)); Ok (None, l));
    Ok (R, Rbar, pf, p2p))
  with
  | Ok (R, Rbar, pf, p2p) =>
    (St 6 (s_1 s) (s_2 s) (s_3 s) (s_delta s) (Some (R, Rbar)) (s_hash s) (s_si s), Ok (Bcast5 Rbar pf, p2p))
  | Err => (s, Err)
  | Panic => (s, Panic)
  end.

(** round6.go:85-136 signRound6Offline: the loop.  A ciphertext missing from cj is a nil pointer. *)
Fixpoint loop6 (c : conf) (cj : seq (nat * option int)) (R : G) (p2p : seq (nat * zk)) (l : seq (nat * option bcast5)) (V : G)
  : outcome G :=
  match l with
  | [::] => Ok V
  | (j, v) :: rest =>
    if j == c_id c then loop6 c cj R p2p rest V else
    do m <- deref v;
    do N <- deref (assoc j (c_pks c));
    do pf <- deref (if c_trusted c then b5_proof m else assoc j p2p);
    do _ <- z_vpdl Z (c_id c) N (odflt None (assoc j cj)) (b5_Rbar m) R pf;
    loop6 c cj R p2p rest (V + b5_Rbar m)
  end.

(** round6.go:55-176 SignRound6Full; state.msgHash is set when the hash is below q *)
Definition round6 (c : conf) (s : st) (hash : bytes) (l : seq (nat * option bcast5)) (p2p : seq (nat * zk)) : st * outcome F :=
  match (
    do _ <- verify_state_map c s 6 (map fst l);
    do _ <- (if c_trusted c then Ok tt else verify_state_map c s 6 (map fst p2p));
    do x <- deref (s_1 s);
    do RR <- deref (s_R s);
    do ds <- deref (s_3 s);
    do V <- loop6 c (s_cj (s_2 s)) RR.1 p2p l RR.2;
    if V != g then Err else
    if (q <= be_val hash)%N then Err else
    Ok ((be_val hash)%:R * s_k x + (xc RR.1)%:R * ds.2))
  with
  | Ok si => (St 7 (s_1 s) (s_2 s) (s_3 s) (s_delta s) (s_R s) hash (Some si), Ok si)
  | Err => (s, Err)
  | Panic => (s, Panic)
  end.

(** round6.go:221-243 normalizeS on the representative below q *)
Definition normalize_s (s : nat) : nat := if (q %/ 2 < s)%N then (q - s)%N else s.

(** round6.go:180-219 SignOutput: the result is (V, R, S); the state does not change *)
Definition sign_output (c : conf) (s : st) (l : seq (nat * option (option F))) : outcome (bool * nat * nat) :=
  do _ <- verify_state_map c s 7 (map fst l);
  do si <- deref (s_si s);
  do RR <- deref (s_R s);
  do sum <- sum_loop (c_id c) l si;
  let s0 := val sum in
  let s1 := normalize_s s0 in
  let v := yodd RR.1 (+) (s0 != s1) in
  let sigma := (v, xc RR.1, s1) in
  if c_verify c (c_pk c) (s_hash s) sigma then Ok sigma else Err.

(* ------------------------------------------------------------ construction *)
(** participant.go:184-208: x_i = byte(i) as a field element; lambda_j, with the duplicate check *)
Definition xmap (i : nat) : F := (i %% 256)%:R.
Fixpoint lambda (j : nat) (ks : seq nat) (acc : F) : outcome F :=
  match ks with
  | [::] => Ok acc
  | k :: r => if k == j then lambda j r acc
              else if xmap k - xmap j == 0 then Err
              else lambda j r (acc * (xmap k / (xmap k - xmap j)))
  end.
(** participant.go:187-227: the loop; the entry of the own id also gives the private share *)
Fixpoint additive (ks : seq nat) (l : seq (nat * option G)) : outcome (seq (nat * (F * G))) :=
  match l with
  | [::] => Ok [::]
  | (j, None) :: _ => Panic
  | (j, Some P) :: r =>
    do la <- lambda j ks 1;
    do rest <- additive ks r;
    Ok ((j, (la, la *: P)) :: rest)
  end.
(** participant.go:171-240 convertToAdditive and 244-284 PrepareToSign; [value] is the Shamir share *)
Definition prepare (id : nat) (value : F) (sk : secret_key) (pk : G) (verify : G -> bytes -> bool * nat * nat -> bool)
  (trusted : bool) (shares : seq (nat * option G)) (pks : seq (nat * nat)) : outcome conf :=
  let ks := map fst shares in
  if (size shares < 2)%N then Err else
  if has (fun p => ~~ isSome p.2) shares then Err else
  do add <- additive ks shares;
  match assoc id add with
  | None => Panic
  | Some (la, _) =>
    if has (fun j => (j != id) && ~~ isSome (assoc j pks)) ks then Err else
    Ok (Conf id sk (la * value) [seq (p.1, p.2.2) | p <- add] pks [seq j <- ks | j != id] trusted pk verify)
  end.

(** participant.go:47-68 NewSigner: the shares of the chosen cosigners and a verify callback that accepts
    everything *)
Definition new_signer (id : nat) (value : F) (sk : secret_key) (pk : G) (trusted : bool)
  (shares : seq (nat * option G)) (pks : seq (nat * nat)) (cosigners : seq nat) : outcome conf :=
  prepare id value sk pk (fun _ _ _ => true) trusted
    [seq (j, odflt None (assoc j shares)) | j <- undup cosigners] pks.
End Sign.
