(** Model of pkg/dkg/frost (FROST distributed key generation).

    Scalars are a field [F], points an [F]-module [G] with base point [g]; every element of [G] is on
    the curve.  [Hash] is Scalar.Hash on byte strings, [penc] is ToAffineCompressed, [scalar_bytes] /
    [scalar_set_bytes] are Scalar.Bytes / SetBytes.  Go maps are association lists iterated in list
    order.  The pointers inside a received Round1Bcast (Verifiers, Wi, Ci) are taken non-nil; a missing
    share is a nil pointer.  Each method returns the updated participant and its outcome. *)
From Coq Require Import ZArith.
From mathcomp Require Import all_ssreflect all_algebra.
From Verif Require Import Lib.Res Sharing.Model Gennaro.Model.
Set Implicit Arguments.
Unset Strict Implicit.
Unset Printing Implicit Defensive.
Import GRing.Theory.

Local Delimit Scope Z_scope with ZZ.

(** Go standard library strconv.Atoi on a string given by its bytes, including the values it returns
    together with an error (the caller discards the error): 0 on a syntax error, the clamped extreme
    on a range error. [parse_uint] is the digit loop of ParseUint(s, 10, 64); [None] = syntax error. *)
Fixpoint parse_uint (s : seq nat) (n : Z) : option Z :=
  match s with
  | [::] => Some n
  | c :: r =>
    if (c < 48)%N || (57 < c)%N then None
    else let n' := (n * 10 + Z.of_nat (c - 48))%ZZ in
         if (2 ^ 64 <=? n')%ZZ then Some (2 ^ 64 - 1)%ZZ else parse_uint r n'
  end.

Definition atoi (s : seq nat) : Z :=
  let '(neg, digits) := match s with
                        | 45%N :: r => (true, r)
                        | 43%N :: r => (false, r)
                        | _ => (false, s)
                        end in
  match digits with
  | [::] => 0%ZZ
  | _ => match parse_uint digits 0 with
         | None => 0%ZZ
         | Some un =>
           if neg then (if (2 ^ 63 <? un)%ZZ then - 2 ^ 63 else - un)%ZZ
           else (if (2 ^ 63 <=? un)%ZZ then 2 ^ 63 - 1 else un)%ZZ
         end
  end.

(** participant.go:54: byte(ctxV) *)
Definition ctx_byte (ctx : seq nat) : nat := Z.to_nat (atoi ctx mod 256)%ZZ.

Local Open Scope ring_scope.

Section Dkg.
Variables (F : fieldType) (G : lmodType F) (g : G).
Variables (B : Type) (scalar_bytes : F -> B) (scalar_set_bytes : B -> option F).
Variables (Hash : seq nat -> F) (penc : G -> seq nat).

Notation share := (share B).

(** participant.go:18-30 DkgParticipant; the entries of otherParticipantShares are never read, only
    the keys *)
Record dkg := Dkg {
  dk_round : nat;
  dk_others : seq nat;
  dk_id : nat;
  dk_sk : option F;
  dk_vk : option G;
  dk_vkshare : option G;
  dk_feldman : shamir;
  dk_verifiers : seq G;
  dk_shares : seq share;
  dk_ctx : nat }.

(** participant.go:38-68 NewDkgParticipant *)
Definition new_dkg (id t : nat) (ctx : seq nat) (curve : option unit) (others : seq nat) : outcome dkg :=
  match curve with
  | None => Err
  | Some _ =>
    if (size others == 0)%N then Err
    else
      do f <- new_shamir t (size others).+1 curve;
      Ok (Dkg 1 (undup others) id None None None f [::] [::] (ctx_byte ctx))
  end.

(** dkg_round1.go:25-28 Round1Bcast *)
Record bcast1 := Bcast1 { b_verifiers : seq G; b_wi : F; b_ci : F }.

(** dkg_round1.go:107-117, dkg_round2.go:88-97: the hashed message; ids are truncated to a byte *)
Definition pok_msg (id ctx : nat) (A0 R : G) : seq nat :=
  (id %% 256)%N :: ctx :: penc A0 ++ penc R.

(** dkg_round1.go:134-137: shares[id-1] *)
Fixpoint p2p_sends (shares : seq share) (ids : seq nat) : outcome (seq (nat * share)) :=
  match ids with
  | [::] => Ok [::]
  | id :: rest =>
    if (id == 0)%N then Panic
    else match ohead (drop id.-1 shares) with
         | None => Panic
         | Some s => do l <- p2p_sends shares rest; Ok ((id, s) :: l)
         end
  end.

(** dkg_round1.go:60-144 Round1.  [secret]: None = nil, Some None = undecodable bytes.  [rnd 0] is the
    secret drawn when none is given, [rnd 1] the nonce k_i, the rest the polynomial. *)
Definition round1 (dp : dkg) (secret : option (option F)) (rnd : nat -> F)
  : dkg * outcome (bcast1 * seq (nat * share)) :=
  if dk_round dp != 1%N then (dp, Err)
  else if (limit (dk_feldman dp) < (size (dk_others dp)).+1)%N
       || ((size (dk_others dp)).+1 < threshold (dk_feldman dp))%N then (dp, Err)
  else
    let sec := match secret with
               | None => Ok (rnd 0%N)
               | Some None => Err
               | Some (Some s) => if s == 0 then Err else Ok s
               end in
    match sec with
    | Err => (dp, Err)
    | Panic => (dp, Panic)
    | Ok s =>
      match feldman_split g scalar_bytes (dk_feldman dp) s (fun k => rnd (2 + k)%N) with
      | Err => (dp, Err)
      | Panic => (dp, Panic)
      | Ok (vs, shares) =>
        let dp1 := Dkg (dk_round dp) (dk_others dp) (dk_id dp) (dk_sk dp) (dk_vk dp) (dk_vkshare dp)
                       (dk_feldman dp) vs shares (dk_ctx dp) in
        let ki := rnd 1%N in
        let Ri := ki *: g in
        match vs with
        | [::] => (dp1, Panic)
        | A0 :: _ =>
          let ci := Hash (pok_msg (dk_id dp) (dk_ctx dp) A0 Ri) in
          let wi := s * ci + ki in
          match p2p_sends shares (dk_others dp) with
          | Err => (dp1, Err)
          | Panic => (dp1, Panic)
          | Ok p2p =>
            (Dkg 2 (dk_others dp) (dk_id dp) (dk_sk dp) (dk_vk dp) (dk_vkshare dp)
                 (dk_feldman dp) vs shares (dk_ctx dp), Ok (Bcast1 vs wi ci, p2p))
          end
        end
      end
    end.

(** dkg_round2.go:67-112: steps 3-5 for one sender *)
Definition check_sender (dp : dkg) (p2p : seq (nat * share)) (e : nat * bcast1) : outcome unit :=
  let '(id, b) := e in
  if id == dk_id dp then Ok tt
  else match b_verifiers b with
       | [::] => Panic
       | A0 :: _ =>
         let prod1 := b_wi b *: g in
         let prod2 := (- b_ci b) *: A0 in
         if (A0 == 0) || (prod2 == 0) then Err
         else
           let prod := prod1 + prod2 in
           if Hash (pok_msg id (dk_ctx dp) A0 prod) != b_ci b then Err
           else feldman_verify g scalar_set_bytes (b_verifiers b) (assoc id p2p)
       end.

Fixpoint check_all (dp : dkg) (p2p : seq (nat * share)) (l : seq (nat * bcast1)) : outcome unit :=
  match l with
  | [::] => Ok tt
  | e :: r => do _ <- check_sender dp p2p e; check_all dp p2p r
  end.

(** dkg_round2.go:120-129 *)
Fixpoint sum_sk (id : nat) (p2p : seq (nat * share)) (sk : F) (l : seq (nat * bcast1)) : outcome F :=
  match l with
  | [::] => Ok sk
  | (j, _) :: r =>
    if j == id then sum_sk id p2p sk r
    else match assoc j p2p with
         | None => Panic
         | Some s => match scalar_set_bytes (sh_val s) with
                     | None => Err
                     | Some t2 => sum_sk id p2p (sk + t2) r
                     end
         end
  end.

(** dkg_round2.go:132-137 *)
Fixpoint sum_vk (id : nat) (vk : G) (l : seq (nat * bcast1)) : outcome G :=
  match l with
  | [::] => Ok vk
  | (j, b) :: r =>
    if j == id then sum_vk id vk r
    else match b_verifiers b with
         | [::] => Panic
         | A0 :: _ => sum_vk id (vk + A0) r
         end
  end.

(** dkg_round2.go:25-156 Round2; the result is (VerificationKey, VkShare) *)
Definition round2 (dp : dkg) (bcast : seq (nat * bcast1)) (p2p : seq (nat * share))
  : dkg * outcome (G * G) :=
  let t := threshold (dk_feldman dp) in
  let n := limit (dk_feldman dp) in
  if dk_round dp != 2%N then (dp, Err)
  else if (size p2p == 0)%N then (dp, Err)
  else if (n < size bcast)%N || (size bcast < t.-1)%N then (dp, Err)
  else if (n.-1 < size p2p)%N || (size p2p < t.-1)%N then (dp, Err)
  else if has (fun e => b_ci e.2 == 0) bcast then (dp, Err)
  else if has (fun e => has (fun c => c == 0) (b_verifiers e.2)) bcast then (dp, Err)
  else
    let res :=
      do _ <- check_all dp p2p bcast;
      do own <- (if (dk_id dp == 0)%N then Panic else deref (ohead (drop (dk_id dp).-1 (dk_shares dp))));
      match scalar_set_bytes (sh_val own) with
      | None => Err
      | Some sk0 =>
        do vk0 <- deref (ohead (dk_verifiers dp));
        do sk <- sum_sk (dk_id dp) p2p sk0 bcast;
        do vk <- sum_vk (dk_id dp) vk0 bcast;
        Ok (sk, vk)
      end in
    match res with
    | Err => (dp, Err)
    | Panic => (dp, Panic)
    | Ok (sk, vk) =>
      (Dkg 3 (dk_others dp) (dk_id dp) (Some sk) (Some vk) (Some (sk *: g)) (dk_feldman dp)
           (dk_verifiers dp) (dk_shares dp) (dk_ctx dp), Ok (vk, sk *: g))
    end.

End Dkg.
