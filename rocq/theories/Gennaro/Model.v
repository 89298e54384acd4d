(** Model of pkg/dkg/gennaro (distributed key generation) on top of pkg/sharing/v1.

    The curve's scalar field is an arbitrary field [F] (the order of every supported curve exceeds
    2^32, so an identifier [id] is the element [id%:R]); points are an [F]-module [G] with base point
    [g].  v1.ShamirShare{Identifier, Value} is [share F] (the Value pointer is taken non-nil when the
    share pointer is non-nil).  Go maps are association lists; a [range] over a map goes through the
    list in order, and the theorems quantify over that order.  Each method takes the participant and
    returns the updated participant together with its outcome. *)
From mathcomp Require Import all_ssreflect all_algebra.
From Verif Require Import Lib.Res Sharing.Model.
Set Implicit Arguments.
Unset Strict Implicit.
Unset Printing Implicit Defensive.
Import GRing.Theory.
Local Open Scope ring_scope.

(** map lookup; [None] is a missing key *)
Fixpoint assoc (V : Type) (k : nat) (m : seq (nat * V)) : option V :=
  match m with
  | [::] => None
  | (k', v) :: r => if k' == k then Some v else assoc k r
  end.

Section Gennaro.
Variables (F : fieldType) (G : lmodType F) (g : G).

Notation share := (share F).

(** sharing/v1/pedersen.go:26-31 PedersenResult (Blinding omitted: never read by the DKG) *)
Record ped_result := PedResult {
  pr_bshares : seq share;
  pr_sshares : seq share;
  pr_bverifiers : seq G;
  pr_verifiers : seq G }.

(** sharing/v1/shamir.go:111-136 GetSharesAndPolynomial on a field element: the byte string handed over
    by the callers below is Element/big.Int .Bytes(), which is empty exactly for 0 ("cannot split an
    empty secret") *)
Definition get_shares (t n : nat) (secret : F) (rnd : nat -> F) : outcome (seq share * seq F) :=
  if secret == 0 then Err
  else
    do poly <- poly_init secret t rnd;
    do shares <- make_shares (fun x : F => x) poly (iota 0 n);
    Ok (shares, poly).

(** sharing/v1/pedersen.go:58-106 Pedersen.Split with threshold [t], limit [n], generator [h] *)
Definition ped_split (t n : nat) (h : G) (secret : F) (rnd : nat -> F) : outcome ped_result :=
  let blinding := rnd 0%N in
  do r1 <- get_shares t n secret (fun k => rnd (1 + k)%N);
  do r2 <- get_shares t n blinding (fun k => rnd (t + k)%N);
  Ok (PedResult r2.1 r1.1
        [seq p.1 *: g + p.2 *: h | p <- zip r1.2 r2.2] [seq c *: g | c <- r1.2]).

(** sharing/v1/pedersen.go:116-165 Pedersen.Verify *)
Definition ped_verify (t : nat) (h : G) (os ob : option share) (vs : seq G) : outcome bool :=
  if (size vs < t)%N then Err
  else do s <- deref os;
       match vs with
       | [::] => Panic
       | c0 :: cs =>
         let rhs := commit_eval (sh_id s)%:R 1 c0 cs in
         do b <- deref ob;
         Ok (sh_val s *: g + sh_val b *: h == rhs)
       end.

(** sharing/v1/feldman.go:67-107 Feldman.Verify *)
Definition fel_verify (t : nat) (os : option share) (vs : seq G) : outcome bool :=
  if (size vs < t)%N then Err
  else do s <- deref os;
       match vs with
       | [::] => Panic
       | c0 :: cs => Ok (sh_val s *: g == commit_eval (sh_id s)%:R 1 c0 cs)
       end.

(** participant.go:93-97 dkgParticipantData (the Id field is the map key) *)
Record pdata := PData { pd_share : option share; pd_verifiers : option (seq G) }.

(** participant.go:21-32 Participant (curve and scalar are ambient; feldman and pedersen hold the same
    threshold and limit) *)
Record part := Part {
  pt_round : nat;
  pt_id : nat;
  pt_t : nat;
  pt_n : nat;
  pt_h : G;
  pt_others : seq (nat * pdata);
  pt_sk : option F;
  pt_vk : option G;
  pt_ped : option ped_result }.

(** participant.go:78-91 validIds *)
Definition valid_ids (ids : seq nat) : bool := all (fun i => i \in ids) (iota 1 (size ids)).

(** participant.go:40-75 NewParticipant; [on_curve] is generator.IsOnCurve().  Duplicate others
    collapse in the map; validIds excludes them. *)
Definition new_participant (id t : nat) (generator : option G) (on_curve : bool) (others : seq nat)
  : outcome part :=
  match generator with
  | None => Err
  | Some h =>
    if size others == 0%N then Err
    else if ~~ valid_ids (rcons others id) then Err
    else
      let n := (size others).+1 in
      if (n < t)%N then Err
      else if (t < 2)%N then Err
      else if h == 0 then Err
      else if ~~ on_curve then Err
      else Ok (Part 1 id t n h [seq (j, PData None None) | j <- others] None None None)
  end.

(** round1.go:27-30 Round1P2PSendPacket *)
Record packet := Packet { pk_secret : option share; pk_blind : option share }.

Definition set_round r (p : part) := Part r (pt_id p) (pt_t p) (pt_n p) (pt_h p) (pt_others p)
  (pt_sk p) (pt_vk p) (pt_ped p).
Definition set_ped r (p : part) := Part (pt_round p) (pt_id p) (pt_t p) (pt_n p) (pt_h p)
  (pt_others p) (pt_sk p) (pt_vk p) r.
Definition set_others o (p : part) := Part (pt_round p) (pt_id p) (pt_t p) (pt_n p) (pt_h p)
  o (pt_sk p) (pt_vk p) (pt_ped p).
Definition set_sk s (p : part) := Part (pt_round p) (pt_id p) (pt_t p) (pt_n p) (pt_h p)
  (pt_others p) s (pt_vk p) (pt_ped p).
Definition set_vk v (p : part) := Part (pt_round p) (pt_id p) (pt_t p) (pt_n p) (pt_h p)
  (pt_others p) (pt_sk p) v (pt_ped p).

(** round1.go:67-73: one packet per other participant; SecretShares[id-1] *)
Fixpoint mk_packets (r : ped_result) (ids : seq nat) : outcome (seq (nat * packet)) :=
  match ids with
  | [::] => Ok [::]
  | id :: rest =>
    if (id == 0)%N || (size (pr_sshares r) < id)%N then Panic
    else do l <- mk_packets r rest;
         Ok ((id, Packet (ohead (drop id.-1 (pr_sshares r))) (ohead (drop id.-1 (pr_bshares r)))) :: l)
  end.

(** round1.go:36-80 Round1.  [secret]: None = nil (the secret is then the first scalar of the reader),
    Some None = bytes that are not a valid scalar, Some (Some s) = the decoded scalar. *)
Definition round1 (dp : part) (secret : option (option F)) (fresh : F) (rnd : nat -> F)
  : part * outcome (seq G * seq (nat * packet)) :=
  if pt_round dp != 1%N then (dp, Err)
  else
    let sec := match secret with
               | None => Ok fresh
               | Some None => Err
               | Some (Some s) => if s == 0 then Err else Ok s
               end in
    match sec with
    | Ok s =>
      match ped_split (pt_t dp) (pt_n dp) (pt_h dp) s rnd with
      | Ok r =>
        let dp1 := set_ped (Some r) dp in
        match mk_packets r (map fst (pt_others dp)) with
        | Ok sends => (set_round 2 dp1, Ok (pr_bverifiers r, sends))
        | Err => (dp1, Err)
        | Panic => (dp1, Panic)
        end
      | Err => (set_ped None dp, Err)
      | Panic => (dp, Panic)
      end
    | Err => (dp, Err)
    | Panic => (dp, Panic)
    end.

Definition upd_share (id : nat) (s : option share) (m : seq (nat * pdata)) :=
  [seq (if kv.1 == id then (kv.1, PData s (pd_verifiers kv.2)) else kv) | kv <- m].
Definition upd_verifiers (id : nat) (v : seq G) (m : seq (nat * pdata)) :=
  [seq (if kv.1 == id then (kv.1, PData (pd_share kv.2) (Some v)) else kv) | kv <- m].

(** round2.go:43-81: the loop over bcast; [sk] is the running sum *)
Fixpoint round2_loop (dp : part) (p2p : seq (nat * packet)) (sk : F) (l : seq (nat * seq G))
  : part * outcome F :=
  match l with
  | [::] => (dp, Ok sk)
  | (id, bvs) :: rest =>
    if id == pt_id dp then round2_loop dp p2p sk rest
    else match assoc id p2p with
         | None => (dp, Err)
         | Some pk =>
           match ped_verify (pt_t dp) (pt_h dp) (pk_secret pk) (pk_blind pk) bvs with
           | Ok true =>
             match assoc id (pt_others dp), pk_secret pk with
             | Some _, Some xji =>
               round2_loop (set_others (upd_share id (pk_secret pk) (pt_others dp)) dp) p2p
                           (sk + sh_val xji) rest
             | _, _ => (dp, Panic)
             end
           | Ok false => (dp, Err)
           | Err => (dp, Err)
           | Panic => (dp, Panic)
           end
         end
  end.

(** round2.go:22-91 Round2 (nil maps are empty lists).  SecretShares[dp.id-1] exists because the id is
    in 1..n. *)
Definition round2 (dp : part) (bcast : seq (nat * seq G)) (p2p : seq (nat * packet))
  : part * outcome (seq G) :=
  if pt_round dp != 2%N then (dp, Err)
  else if (size bcast == 0)%N || (size p2p == 0)%N then (dp, Err)
  else match pt_ped dp with
       | None => (dp, Panic)
       | Some r =>
         match ohead (drop (pt_id dp).-1 (pr_sshares r)) with
         | None => (dp, Panic)
         | Some own =>
           match round2_loop dp p2p (sh_val own) bcast with
           | (dp', Ok sk) => (set_sk (Some sk) (set_round 3 dp'), Ok (pr_verifiers r))
           | (dp', Err) => (dp', Err)
           | (dp', Panic) => (dp', Panic)
           end
         end
       end.

(** round3.go:42-68: the loop over bcast *)
Fixpoint round3_loop (dp : part) (pk : G) (l : seq (nat * seq G)) : part * outcome G :=
  match l with
  | [::] => (dp, Ok pk)
  | (id, vs) :: rest =>
    if id == pt_id dp then round3_loop dp pk rest
    else match assoc id (pt_others dp) with
         | None => (dp, Panic)
         | Some d =>
           match fel_verify (pt_t dp) (pd_share d) vs with
           | Ok true =>
             match vs with
             | [::] => (dp, Panic)
             | v0 :: _ =>
               round3_loop (set_others (upd_verifiers id vs (pt_others dp)) dp) (pk + v0) rest
             end
           | Ok false => (dp, Err)
           | Err => (dp, Err)
           | Panic => (dp, Panic)
           end
         end
  end.

(** round3.go:22-89 Round3 *)
Definition round3 (dp : part) (bcast : seq (nat * seq G)) : part * outcome (G * share) :=
  if pt_round dp != 3%N then (dp, Err)
  else if (size bcast == 0)%N then (dp, Err)
  else match pt_ped dp with
       | None => (dp, Panic)
       | Some r =>
         match pr_verifiers r with
         | [::] => (dp, Panic)
         | v0 :: _ =>
           match round3_loop dp v0 bcast with
           | (dp', Ok pk) =>
             if pk == 0 then (dp', Err)
             else match pt_sk dp' with
                  | None => (dp', Panic)
                  | Some sk =>
                    (set_round 4 (set_vk (Some pk) dp'), Ok (pk, Share (pt_id dp') sk))
                  end
           | (dp', Err) => (dp', Err)
           | (dp', Panic) => (dp', Panic)
           end
         end
       end.

(** round4.go:53-72: W_j = Pk + sum_k (j*(k+1) mod q) * R_jk; [v] may be too short *)
Fixpoint w_loop (j k m : nat) (v : seq G) (w : G) : outcome G :=
  match m with
  | O => Ok w
  | m'.+1 =>
    match ohead (drop k v) with
    | None => Panic
    | Some vk => w_loop j k.+1 m' v (w + (j%:R * (k.+1)%:R) *: vk)
    end
  end.

Fixpoint round4_loop (pk : G) (t : nat) (l : seq (nat * option (seq G))) : outcome (seq (nat * G)) :=
  match l with
  | [::] => Ok [::]
  | (j, v) :: rest =>
    do w <- w_loop j 0 t (odflt [::] v) pk;
    do r <- round4_loop pk t rest;
    Ok ((j, w) :: r)
  end.

(** round4.go:21-76 Round4 *)
Definition round4 (dp : part) : outcome (seq (nat * G)) :=
  if pt_round dp != 4%N then Err
  else match pt_ped dp, pt_vk dp with
       | Some r, Some pk =>
         round4_loop pk (size (pr_verifiers r))
           ((pt_id dp, Some (pr_verifiers r)) :: [seq (kv.1, pd_verifiers kv.2) | kv <- pt_others dp])
       | _, _ => Panic
       end.

End Gennaro.
