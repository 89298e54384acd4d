(** Model of pkg/dkg/gennaro2p: the two-party wrapper around pkg/dkg/gennaro. *)
From mathcomp Require Import all_ssreflect all_algebra.
From Verif Require Import Lib.Res Sharing.Model Gennaro.Model.
Set Implicit Arguments.
Unset Strict Implicit.
Unset Printing Implicit Defensive.
Import GRing.Theory.
Local Open Scope ring_scope.

Section Two.
Variables (F : fieldType) (G : lmodType F) (g : G).

(** genarro2p.go:25-30 Participant *)
Record part2 := Part2 { q_id : nat; q_cid : nat; q_emb : part G; q_blind : G }.
(** genarro2p.go:32-37 Round1Message *)
Record msg1 := Msg1 {
  m_verifiers : seq G; m_secret : option (share F); m_bshare : option (share F); m_blind : G }.
(** genarro2p.go:43-47 DkgResult; the map of public shares in the order Round4 builds it *)
Record result2 := Result2 { r_pk : G; r_share : share F; r_public : seq (nat * G) }.

(** genarro2p.go:53-69 NewParticipant with threshold 2, and 72-78 newBlind: a nil blind is replaced by
    [r] times the base point, [r] drawn by the participant.  [on_curve] is blind.IsOnCurve(). *)
Definition new2 (id cid : nat) (blind : option G) (on_curve : bool) (r : F) : outcome part2 :=
  let h := match blind with Some h => h | None => r *: g end in
  let oc := match blind with Some _ => on_curve | None => true end in
  do p <- new_participant id 2 (Some h) oc [:: cid];
  Ok (Part2 id cid p h).

Definition with_emb (p : part2) (e : part G) : part2 := Part2 (q_id p) (q_cid p) e (q_blind p).

(** genarro2p.go:83-103 Round1 *)
Definition round1_2 (p : part2) (secret : option (option F)) (fresh : F) (rnd : nat -> F) : part2 * outcome msg1 :=
  match round1 g (q_emb p) secret fresh rnd with
  | (e, Ok (bc, sends)) =>
      (with_emb p e,
       match assoc (q_cid p) sends with
       | None => Err
       | Some pk => Ok (Msg1 bc (pk_secret pk) (pk_blind pk) (q_blind p))
       end)
  | (e, Err) => (with_emb p e, Err)
  | (e, Panic) => (with_emb p e, Panic)
  end.

(** genarro2p.go:106-124 Round2; [None] is a nil message *)
Definition round2_2 (p : part2) (msg : option msg1) : part2 * outcome (seq G) :=
  match msg with
  | None => (p, Panic)
  | Some m =>
      let: (e, o) := round2 g (q_emb p) [:: (q_cid p, m_verifiers m)]
                       [:: (q_cid p, Packet (m_secret m) (m_bshare m))] in
      (with_emb p e, o)
  end.

(** genarro2p.go:127-149 Finalize: Round3, then Round4 *)
Definition finalize (p : part2) (msg : option (seq G)) : part2 * outcome result2 :=
  match msg with
  | None => (p, Panic)
  | Some vs =>
      match round3 g (q_emb p) [:: (q_cid p, vs)] with
      | (e, Ok (pk, sh)) => (with_emb p e, do w <- round4 e; Ok (Result2 pk sh w))
      | (e, Err) => (with_emb p e, Err)
      | (e, Panic) => (with_emb p e, Panic)
      end
  end.
End Two.
