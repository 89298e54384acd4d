(** Model of pkg/tecdsa/dkls/v1/dkg/dkg.go, refresh/refresh.go, dealer/dealer.go and the protocol iterator of
    protocol.go and boilerplate.go.

    Scalars, points, codecs, hash and transcripts as in Dkls/SignModel.v and OT/SimplestModel.v; [ext1]/[ext2]
    are the strings the seed OT extracts from its own transcript.  Random values are arguments. *)
From mathcomp Require Import all_ssreflect all_algebra.
From Verif Require Import Lib.Res Lib.Bytes Core.HashModel Schnorr.Model OT.SimplestModel OT.KosModel Dkls.MulModel.
Set Implicit Arguments. Unset Strict Implicit. Unset Printing Implicit Defensive.
Import GRing.Theory.
Local Open Scope ring_scope.

(** kos.Kappa (kos.go:24) *)
Definition Kappa := 256%N.

Section Dkg.
Variables (F : fieldType) (G : lmodType F) (g : G) (penc : G -> bytes) (pdec : bytes -> option G)
  (enc : F -> bytes) (dec : bytes -> option F) (hash : bytes -> bytes) (ext1 ext2 : bytes -> bytes)
  (xof : log -> bytes).

(** dkg.go:60-81 *)
Record dalice := DAlice { da_recv : option (SimplestModel.receiver G); da_sk : F; da_pk : G; da_pf : option (proof G); da_log : log }.
(** dkg.go:84-111 *)
Record dbob := DBob { db_send : option (SimplestModel.sender G); db_sk : F; db_pk : G; db_com : bytes; db_salt : bytes; db_log : log }.

(** dkg.go:123-137; the zero values of the other fields *)
Definition new_dalice : dalice := DAlice None 0 0 None [:: Start DDkg].
Definition new_dbob : dbob := DBob None 0 0 [::] [::] [:: Start DDkg].

(** dkg.go:143-150 Round1GenerateRandomSeed *)
Definition dround1 (b : dbob) (rnd : option bytes) : outcome (dbob * bytes) :=
  match rnd with
  | None => Err
  | Some seed => Ok (DBob (db_send b) (db_sk b) (db_pk b) (db_com b) (db_salt b) (rcons (db_log b) (App LSidBob seed)), seed)
  end.

(** dkg.go:154-184 Round2CommitToProof; [rnd]: the seed, [bits]: the OT choices, [sk], [k]: key share and
    Schnorr nonce *)
Definition dround2 (a : dalice) (bobSeed : bytes) (rnd bits : option bytes) (sk k : F) : outcome (dalice * (bytes * bytes)) :=
  match rnd with
  | None => Err
  | Some seed =>
    let l0 := rcons (rcons (da_log a) (App LSidBob bobSeed)) (App LSidAlice seed) in
    let: (l1, sid) := draw xof l0 LSaltOt 32 in
    match bits with
    | None => Err
    | Some w =>
      do r <- SimplestModel.new_receiver G Kappa sid w;
      let: (l2, salt) := draw xof l1 LSaltAlice 32 in
      do (pf, com) <- prove_commit penc enc dec hash g salt sk k;
      Ok (DAlice (Some r) sk (da_pk a) (Some pf) l2, (seed, com))
    end
  end.

(** dkg.go:188-213 Round3SchnorrProve *)
Definition dround3 (b : dbob) (m : bytes * bytes) (sk k : F) : outcome (dbob * proof G) :=
  let l0 := rcons (db_log b) (App LSidAlice m.1) in
  let: (l1, sid) := draw xof l0 LSaltOt 32 in
  do s <- SimplestModel.new_sender G Kappa sid;
  let: (l2, asalt) := draw xof l1 LSaltAlice 32 in
  let: (l3, bsalt) := draw xof l2 LSaltBob 32 in
  do pf <- prove penc dec hash g bsalt sk k;
  Ok (DBob (Some s) sk (db_pk b) m.2 asalt l3, pf).

(** dkg.go:216-226 Round4VerifyAndReveal; a nil own proof is sent as is, here a panic of the peer's use *)
Definition dround4 (a : dalice) (pf : proof G) : outcome (dalice * proof G) :=
  let: (l1, bsalt) := draw xof (da_log a) LSaltBob 32 in
  do _ <- verify penc enc hash g bsalt pf;
  do own <- deref (da_pf a);
  Ok (DAlice (da_recv a) (da_sk a) (da_sk a *: pf_stmt pf) (da_pf a) l1, own).

(** dkg.go:229-241 Round5DecommitmentAndStartOt; [osk], [k]: the OT secret and its Schnorr nonce *)
Definition dround5 (b : dbob) (pf : proof G) (osk k : F) : outcome (dbob * proof G) :=
  do _ <- decommit_verify penc enc hash g (db_salt b) pf (db_com b);
  do s <- deref (db_send b);
  do (s', opf) <- SimplestModel.round1 g penc dec hash ext1 s osk k;
  Ok (DBob (Some s') (db_sk b) (db_sk b *: pf_stmt pf) (db_com b) (db_salt b) (db_log b), opf).

(** the receiver's and the sender's OT rounds on the state of a party (dkg.go:244-266, refresh.go:138-157) *)
Definition put_recv (a : dalice) r := DAlice (Some r) (da_sk a) (da_pk a) (da_pf a) (da_log a).
Definition put_send (b : dbob) s := DBob (Some s) (db_sk b) (db_pk b) (db_com b) (db_salt b) (db_log b).
(** dkg.go:244-246 *)
Definition dround6 (a : dalice) (pf : proof G) (x : nat -> F) : outcome (dalice * seq bytes) :=
  do r <- deref (da_recv a);
  do (r', ms) <- SimplestModel.round2 g penc enc hash ext1 ext2 r (Some pf) x;
  Ok (put_recv a r', ms).
(** dkg.go:249-251 *)
Definition dround7 (b : dbob) (ms : seq bytes) : outcome (dbob * seq bytes) :=
  do s <- deref (db_send b);
  do (s', ch) <- SimplestModel.round3 penc pdec hash ext2 s ms;
  Ok (put_send b s', ch).
(** dkg.go:254-256 *)
Definition dround8 (a : dalice) (ch : seq bytes) : outcome (dalice * seq bytes) :=
  do r <- deref (da_recv a);
  do (r', resp) <- round4 hash r ch;
  Ok (put_recv a r', resp).
(** dkg.go:259-261 *)
Definition dround9 (b : dbob) (resp : seq bytes) : outcome (seq (bytes * bytes)) :=
  do s <- deref (db_send b); round5 hash s resp.
(** dkg.go:264-266 *)
Definition dround10 (a : dalice) (ops : seq (bytes * bytes)) : outcome unit :=
  do r <- deref (da_recv a); round6 hash r ops.

(** the SeedOtResult fields of the outputs (dkg.go:270-287), as the KOS parties consume them *)
Definition seed_sender (s : SimplestModel.sender G) : KosModel.receiver F := KosModel.new_receiver F (s_keys s).
Definition seed_receiver (r : SimplestModel.receiver G) : KosModel.sender F :=
  KosModel.Sender (r_bits r) (r_packed r) (r_keys r) [::].

(** an honest DKG: each message goes to the next round of the peer *)
Definition dkg_run (seedA seedB w : bytes) (skA skB kA kB osk ok : F) (x : nat -> F) : outcome (dalice * dbob) :=
  do (b1, m1) <- dround1 new_dbob (Some seedB);
  do (a2, m2) <- dround2 new_dalice m1 (Some seedA) (Some w) skA kA;
  do (b3, m3) <- dround3 b1 m2 skB kB;
  do (a4, m4) <- dround4 a2 m3;
  do (b5, m5) <- dround5 b3 m4 osk ok;
  do (a6, m6) <- dround6 a4 m5 x;
  do (b7, m7) <- dround7 b5 m6;
  do (a8, m8) <- dround8 a6 m7;
  do m9 <- dround9 b7 m8;
  do _ <- dround10 a8 m9;
  Ok (a8, b7).

(** Refresh.  refresh.go:69-87: the parties start from the shares and the public key of a DKG output *)
Definition new_ralice (sk : F) (pk : G) : dalice := DAlice None sk pk None [:: Start DRefresh].
Definition new_rbob (sk : F) (pk : G) : dbob := DBob None sk pk [::] [::] [:: Start DRefresh].

(** refresh.go:89-93 *)
Definition rround1 (a : dalice) (seed : F) : dalice * F :=
  (DAlice (da_recv a) (da_sk a) (da_pk a) (da_pf a) (rcons (da_log a) (App LSeedAlice (enc seed))), seed).

(** refresh.go:95-122; the share and the transcript are updated before the later steps can fail *)
Definition rround2 (b : dbob) (aseed bseed osk k : F) : dbob * outcome (proof G * F) :=
  let l0 := rcons (rcons (db_log b) (App LSeedAlice (enc aseed))) (App LSeedBob (enc bseed)) in
  let: (l1, kb) := draw xof l0 LMultiplier 32 in
  match dec kb with
  | None => (DBob (db_send b) (db_sk b) (db_pk b) (db_com b) (db_salt b) l1, Err)
  | Some kk =>
    let: (l2, sid) := draw xof l1 LSaltOt 32 in
    let st s := DBob s (db_sk b * kk) (db_pk b) (db_com b) (db_salt b) l2 in
    match SimplestModel.new_sender G Kappa sid with
    | Ok s =>
      match SimplestModel.round1 g penc dec hash ext1 s osk k with
      | Ok (s', pf) => (st (Some s'), Ok (pf, bseed))
      | Err => (st (Some s), Err)
      | Panic => (st (Some s), Panic)
      end
    | Err => (st None, Err)
    | Panic => (st None, Panic)
    end
  end.

(** refresh.go:124-146 *)
Definition rround3 (a : dalice) (m : proof G * F) (bits : option bytes) (x : nat -> F) : dalice * outcome (seq bytes) :=
  let l0 := rcons (da_log a) (App LSeedBob (enc m.2)) in
  let: (l1, kb) := draw xof l0 LMultiplier 32 in
  let keep l := DAlice (da_recv a) (da_sk a) (da_pk a) (da_pf a) l in
  match dec kb with
  | None => (keep l1, Err)
  | Some kk =>
    if kk == 0 then (keep l1, Err) else
    let: (l2, sid) := draw xof l1 LSaltOt 32 in
    let st r := DAlice r (da_sk a * kk^-1) (da_pk a) (da_pf a) l2 in
    match bits with
    | None => (st None, Err)
    | Some w =>
      match SimplestModel.new_receiver G Kappa sid w with
      | Ok r =>
        match SimplestModel.round2 g penc enc hash ext1 ext2 r (Some m.1) x with
        | Ok (r', ms) => (st (Some r'), Ok ms)
        | Err => (st (Some r), Err)
        | Panic => (st (Some r), Panic)
        end
      | Err => (st None, Err)
      | Panic => (st None, Panic)
      end
    end
  end.

(** refresh.go:148-162 are the same wrappers as dround7-dround10 *)
Definition rlift A B (x : A * outcome B) : outcome (A * B) :=
  match x.2 with Ok b => Ok (x.1, b) | Err => Err | Panic => Panic end.
Definition refresh_run (skA skB : F) (pkA pkB : G) (seedA seedB : F) (w : bytes) (osk ok : F) (x : nat -> F) : outcome (dalice * dbob) :=
  let: (a1, m1) := rround1 (new_ralice skA pkA) seedA in
  do (b2, m2) <- rlift (rround2 (new_rbob skB pkB) m1 seedB osk ok);
  do (a3, m3) <- rlift (rround3 a1 m2 (Some w) x);
  do (b4, m4) <- dround7 b2 m3;
  do (a5, m5) <- dround8 a3 m4;
  do m6 <- dround9 b4 m5;
  do _ <- dround10 a5 m6;
  Ok (a5, b4).

(** dealer.go:28-84 GenerateAndDeal; [keys]: the random pads *)
Definition deal (skA skB : F) (w : bytes) (keys : seq (bytes * bytes)) :
  outcome (G * (F * KosModel.sender F) * (F * KosModel.receiver F)) :=
  do r <- SimplestModel.new_receiver G Kappa (nseq 32 0%N) w;
  let key i := let k := nth ([::], [::]) keys i in if nth false (r_bits r) i then k.2 else k.1 in
  Ok ((skA * skB) *: g,
      (skA, KosModel.Sender (r_bits r) (r_packed r) [seq key i | i <- iota 0 Kappa] [::]),
      (skB, KosModel.new_receiver F [seq nth ([::], [::]) keys i | i <- iota 0 Kappa])).
End Dkg.

(** protocol.go:10-33: the party state [S] is the object captured by the step closures *)
Section Stepper.
Variables (S M : Type).
Definition step_fn := S -> M -> S * outcome M.
Record stepper := Stepper { st_steps : seq step_fn; st_step : nat; st_party : S }.
(** protocol.go:33 *)
Definition complete (p : stepper) : bool := (size (st_steps p) <= st_step p)%N.
(** the result of Next: the protocol error, or the outcome of the step *)
Inductive next_out := Finished | Ran of outcome M.
(** protocol.go:16-30 Next *)
Definition next (p : stepper) (m : M) : stepper * next_out :=
  if complete p then (p, Finished) else
  match nth (fun s _ => (s, Panic)) (st_steps p) (st_step p) (st_party p) m with
  | (s', Ok o) => (Stepper (st_steps p) (st_step p).+1 s', Ran (Ok o))
  | (s', Err) => (Stepper (st_steps p) (st_step p) s', Ran Err)
  | (s', Panic) => (Stepper (st_steps p) (st_step p) s', Ran Panic)
  end.
(** a history of calls *)
Fixpoint nexts (p : stepper) (ms : seq M) : stepper * seq next_out :=
  match ms with
  | [::] => (p, [::])
  | m :: ms' => let: (p1, o) := next p m in let: (p2, os) := nexts p1 ms' in (p2, o :: os)
  end.
(** Result of the DKG and refresh iterators and of BobSign (boilerplate.go:122-131, 191-200, 296-305, 363-372,
    418-427): nil until complete, then the encoding of the party's output *)
Definition result (encode : S -> nat -> outcome M) (p : stepper) (version : nat) : outcome (option M) :=
  if ~~ complete p then Ok None else do m <- encode (st_party p) version; Ok (Some m).
(** Result of AliceSign (boilerplate.go:285-289) *)
Definition alice_sign_result (_ : stepper) (_ : nat) : outcome (option M) := Err.
End Stepper.
(** the version checks of dkgserializers.go (e.g. 38-40, 265-267), and of refreshserializers.go:24-29 *)
Definition dkg_version_ok (v : nat) : bool := (v == 200)%N.
Definition refresh_version_ok (v : nat) : bool := (200 <= v)%N.
