(** Model of pkg/tecdsa/dkls/v1/sign/multiply.go: the two-party multiplication.

    A Merlin transcript is the list of the operations applied to it; [xof ops] is the output of the
    ExtractBytes that ends the list (any function: the real one is STROBE).  The formatted label strings of
    the code are the constructors of [label].  Sizes as in OT/KosModel.v: kb = Kappa/8, lb = L/8. *)
From mathcomp Require Import all_ssreflect all_algebra.
From Verif Require Import Lib.Res Lib.Bytes Core.HashModel OT.GfModel OT.SimplestModel OT.KosModel.
Set Implicit Arguments. Unset Strict Implicit. Unset Printing Implicit Defensive.
Import GRing.Theory.
Local Open Scope ring_scope.

(** the labels used with the transcripts of sign/multiply.go, sign/sign.go, dkg/dkg.go and refresh/refresh.go *)
Inductive label :=
| LSession            (* "session_id" *)
| LRowU of nat        (* "row %d of U" *)
| LWPrime | LVPrime   (* "wPrime", "vPrime" *)
| LRowTau of nat      (* "row %d of Tau" *)
| LChi of nat         (* "draw challenge chi %d" *)
| LSidAlice | LSidBob (* "session_id_alice", "session_id_bob" *)
| LMulId of nat       (* "multiply receiver id %d" *)
| LSchnorrR           (* "schnorr proof for R" *)
| LSaltOt | LSaltAlice | LSaltBob (* "salt for simplest OT", "salt for alice schnorr", "salt for bob schnorr" *)
| LSeedAlice | LSeedBob (* "alice refresh seed", "bob refresh seed" *)
| LMultiplier.        (* "secret key share multiplier" *)
(** the domain strings given to merlin.NewTranscript *)
Inductive domain := DMultiply | DSign | DDkg | DRefresh.
Inductive top := Start of domain | App of label & bytes | Ext of label & nat.
Definition log := seq top.

Section Mul.
Variables (F : fieldType) (enc : F -> bytes) (dec : bytes -> option F)
  (hash : bytes -> bytes) (shake : bytes -> bytes -> nat -> bytes) (mul : bytes -> bytes -> bytes)
  (xof : log -> bytes) (gpad : nat -> bytes) (kb lb eb : nat).

(** ExtractBytes followed by Scalar.SetBytes *)
Definition draw (l : log) (lab : label) (n : nat) : log * bytes := (rcons l (Ext lab n), xof (rcons l (Ext lab n))).

(** multiply.go:54-76 generateGadgetVector; [gpad i] is the i-th 32-byte block of
    cSHAKE256("Coinbase DKLs gadget vector") *)
Definition gadget_at (i : nat) : outcome F :=
  if (i < 8 * kb)%N then Ok ((2 ^ i)%N%:R)
  else match dec (gpad (i - 8 * kb)) with Some a => Ok a | None => Err end.
Definition gadget : outcome (seq F) := mapo gadget_at (iota 0 (8 * lb)).

(** multiply.go:31-38 and 41-49 *)
Record msender := MSender { ms_ot : KosModel.sender F; ms_share : F; ms_gad : seq F; ms_log : log; ms_sid : bytes }.
Record mreceiver := MReceiver { mr_ot : KosModel.receiver F; mr_share : F; mr_omega : bytes; mr_gad : seq F;
  mr_log : log; mr_sid : bytes }.

(** multiply.go:81-97 NewMultiplySender *)
Definition new_msender (ot : KosModel.sender F) (sid : bytes) : outcome msender :=
  do gad <- gadget;
  Ok (MSender ot 0 gad [:: Start DMultiply; App LSession sid] sid).
(** multiply.go:102-118 NewMultiplyReceiver *)
Definition new_mreceiver (ot : KosModel.receiver F) (sid : bytes) : outcome mreceiver :=
  do gad <- gadget;
  Ok (MReceiver ot 0 [::] gad [:: Start DMultiply; App LSession sid] sid).

(** one iteration of multiply.go:138-149: decode, subtract the gadget entry under the bit, encode *)
Definition encode_step (gad : seq F) (enc0 : bytes) (acc : outcome bytes) (j : nat) : outcome bytes :=
  do b <- acc;
  match dec b with
  | None => Err
  | Some x => Ok (if extract_bit enc0 j then enc (x - nth 0 gad j) else enc x)
  end.
(** multiply.go:130-152 encode; [rnd]: the L/8 - Kappa/8 random bytes, or a failure *)
Definition encode (gad : seq F) (beta : F) (rnd : option bytes) : outcome bytes :=
  match rnd with
  | None => Err
  | Some gamma =>
    do b <- foldl (encode_step gad (nseq kb 0%N ++ gamma)) (Ok (enc beta)) (iota (8 * kb) (8 * lb - 8 * kb));
    Ok (rev b ++ gamma)
  end.

(** what Round1Initialize and Round2Multiply append for the first message (multiply.go:167-172, 197-202) *)
Definition app_round1 (m : round1_out) : log :=
  [seq App (LRowU i) (nth [::] (k1_U m) i) | i <- iota 0 (8 * kb)] ++ [:: App LWPrime (k1_W m); App LVPrime (k1_V m)].
(** what Round2Multiply and Round3Multiply append for tau: the loop stops at Kappa, not L
    (multiply.go:204-210, 239-244) *)
Definition app_tau (tau : seq (seq F)) : log :=
  flatten [seq [seq App (LRowTau i) (enc (nth 0 (nth [::] tau i) k)) | k <- iota 0 2] | i <- iota 0 (8 * kb)].

(** multiply.go:155-174 Round1Initialize; [ext] is the randomness of the OT extension *)
Definition mround1 (r : mreceiver) (beta : F) (rnd ext : option bytes) : outcome (mreceiver * round1_out) :=
  do omega <- encode (mr_gad r) beta rnd;
  do (ot, m) <- KosModel.round1 hash shake mul kb eb (mr_ot r) (mr_sid r) omega ext;
  Ok (MReceiver ot (mr_share r) omega (mr_gad r) (mr_log r ++ app_round1 m) (mr_sid r), m).

(** multiply.go:211-219 and 249-258: the two challenges *)
Definition challenges (l : log) : outcome (log * F * F) :=
  let '(l1, b0) := draw l (LChi 0) kb in
  match dec b0 with
  | None => Err
  | Some c0 =>
    let '(l2, b1) := draw l1 (LChi 1) kb in
    match dec b1 with
    | None => Err
    | Some c1 => Ok (l2, c0, c1)
    end
  end.

(** multiply.go:121-125 *)
Record mround2_out := MRound2 { m2_tau : seq (seq F); m2_R : seq F; m2_U : F }.

(** multiply.go:180-230 Round2Multiply with random [ahat] *)
Definition mround2 (s : msender) (alpha ahat : F) (m : round1_out) : outcome (msender * mround2_out) :=
  do (ot, tau) <- KosModel.round2 dec hash shake mul kb lb eb (ms_ot s) (ms_sid s)
                     (nseq (8 * lb) [:: alpha; ahat]) m;
  do (l, c0, c1) <- challenges ((ms_log s ++ app_round1 m) ++ app_tau tau);
  let sh j k := nth 0 (nth [::] (ks_shares ot) j) k in
  let R := [seq 0 + c0 * sh j 0%N + c1 * sh j 1%N | j <- iota 0 (8 * lb)] in
  let share := foldl (fun acc j => acc + nth 0 (ms_gad s) j * sh j 0%N) 0 (iota 0 (8 * lb)) in
  Ok (MSender ot share (ms_gad s) l (ms_sid s), MRound2 tau R (c0 * alpha + c1 * ahat)).

(** the check of multiply.go:263-275 for slot j: the byte strings compared *)
Definition slot_check (omega : bytes) (c0 c1 : F) (shares : seq (seq F)) (m : mround2_out) (j : nat) : bool :=
  let lhs := nth 0 (m2_R m) j + c0 * nth 0 (nth [::] shares j) 0 + c1 * nth 0 (nth [::] shares j) 1 in
  let rhs := if extract_bit omega j then enc (m2_U m) else nseq 32 0%N in
  rhs == enc lhs.

(** multiply.go:235-280 Round3Multiply; the state left behind by a failing call is not modelled *)
Definition mround3 (r : mreceiver) (m : mround2_out) : outcome mreceiver :=
  let l0 := mr_log r ++ app_tau (m2_tau m) in
  do ot <- KosModel.round3 enc dec shake lb (mr_ot r) (m2_tau m);
  do (l, c0, c1) <- challenges l0;
  if all (slot_check (mr_omega r) c0 c1 (kr_shares ot) m) (iota 0 (8 * lb)) then
    let share := foldl (fun acc j => acc + nth 0 (mr_gad r) j * nth 0 (nth [::] (kr_shares ot) j) 0) 0 (iota 0 (8 * lb)) in
    Ok (MReceiver ot share (mr_omega r) (mr_gad r) l (mr_sid r))
  else Err.
End Mul.
