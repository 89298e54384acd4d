(** Model of pkg/ted25519/frost (FROST threshold signing).

    Scalars are a field [F], points an [F]-module [G] with base point [g]; every element of [G] is on
    the curve.  [Hash] is Scalar.Hash, [penc] is ToAffineCompressed, [isneg] is Point.IsNegative and
    [derive] is the caller's ChallengeDerive (None = error).  Go maps are association lists iterated
    in list order.  The interface values inside received messages are taken non-nil, except where the
    code tests them; a nil message is [None]. *)
From mathcomp Require Import all_ssreflect all_algebra.
From Verif Require Import Lib.Res Gennaro.Model.
Set Implicit Arguments.
Unset Strict Implicit.
Unset Printing Implicit Defensive.
Import GRing.Theory.
Local Open Scope ring_scope.

Section Sign.
Variables (F : fieldType) (G : lmodType F) (g : G).
Variables (Hash : seq nat -> F) (penc : G -> seq nat) (isneg : G -> bool).
Variable (derive : seq nat -> G -> G -> option F).

(** participant.go:19-46 Signer and state (capD and capE are never read back and are omitted) *)
Record signer := Signer {
  sg_sk : F;
  sg_vkshare : G;
  sg_vk : G;
  sg_id : nat;
  sg_t : nat;
  sg_round : nat;
  sg_lcoeffs : seq (nat * F);
  sg_cosigners : seq nat;
  sg_d : option F;
  sg_e : option F;
  sg_comms : option (seq (nat * (G * G)));
  sg_msg : seq nat;
  sg_c : option F;
  sg_Rs : seq (nat * G);
  sg_R : option G }.

(** participant.go:51-88 NewSigner (the three key fields come from the DKG participant) *)
Definition new_signer (sk : F) (vkshare vk : G) (id t : nat) (lcoeffs : seq (nat * F))
  (cosigners : seq nat) : outcome signer :=
  if (size cosigners == 0)%N || (size lcoeffs == 0)%N then Err
  else if (size cosigners < t)%N then Err
  else if (size lcoeffs != size cosigners)%N then Err
  else if ~~ all (fun id => if assoc id lcoeffs is Some _ then true else false) cosigners then Err
  else Ok (Signer sk vkshare vk id t 1 lcoeffs cosigners None None None [::] None [::] None).

(** round1.go:46-83 SignRound1; [d], [e] are the two sampled scalars *)
Definition sign_round1 (s : signer) (d e : F) : signer * outcome (G * G) :=
  if sg_round s != 1%N then (s, Err)
  else (Signer (sg_sk s) (sg_vkshare s) (sg_vk s) (sg_id s) (sg_t s) 2 (sg_lcoeffs s)
          (sg_cosigners s) (Some d) (Some e) (sg_comms s) (sg_msg s) (sg_c s) (sg_Rs s) (sg_R s),
        Ok (d *: g, e *: g)).

(** round2.go:168-190 concatHashArray; a cosigner missing from the input map is a nil dereference *)
Fixpoint concat_comms (input : seq (nat * (G * G))) (cosigners : seq nat) : outcome (seq nat) :=
  match cosigners with
  | [::] => Ok [::]
  | id :: r =>
    match assoc id input with
    | None => Panic
    | Some de => do rest <- concat_comms input r;
                 Ok ((id %% 256)%N :: penc de.1 ++ penc de.2 ++ rest)
    end
  end.
Definition blob (id : nat) (msg : seq nat) (input : seq (nat * (G * G))) (cosigners : seq nat)
  : outcome (seq nat) :=
  do rest <- concat_comms input cosigners; Ok ((id %% 256)%N :: msg ++ rest).

(** round2.go:99-119: the loop computing r_j, R_j and R; returns (r_i, Rs, R) *)
Fixpoint r_loop (s : signer) (msg : seq nat) (input l : seq (nat * (G * G)))
  (ri : option F) (Rs : seq (nat * G)) (R : G) : outcome (option F * seq (nat * G) * G) :=
  match l with
  | [::] => Ok (ri, Rs, R)
  | (id, de) :: rest =>
    do b <- blob id msg input (sg_cosigners s);
    let rj := Hash b in
    let ri' := if sg_id s == id then Some rj else ri in
    let Rj := rj *: de.2 + de.1 in
    r_loop s msg input rest ri' ((id, Rj) :: Rs) (R + Rj)
  end.

(** round2.go:78-92: nil inputs *)
Fixpoint all_some (A : Type) (l : seq (nat * option A)) : option (seq (nat * A)) :=
  match l with
  | [::] => Some [::]
  | (_, None) :: _ => None
  | (id, Some a) :: r => omap (cons (id, a)) (all_some r)
  end.

Definition set2 (s : signer) (d e : option F) comms c Rs R :=
  Signer (sg_sk s) (sg_vkshare s) (sg_vk s) (sg_id s) (sg_t s) (sg_round s) (sg_lcoeffs s)
         (sg_cosigners s) d e comms (sg_msg s) c Rs R.

(** round2.go:49-166 SignRound2; the result is (z_i, vk_i) *)
Definition sign_round2 (s : signer) (msg : seq nat) (input0 : seq (nat * option (G * G)))
  : signer * outcome (F * G) :=
  match sg_d s, sg_e s with
  | Some d, Some e =>
    if (d == 0) || (e == 0) then (s, Err)
    else if (size msg == 0)%N then (s, Err)
    else if sg_round s != 2%N then (s, Err)
    else if (size input0 != sg_t s)%N then (s, Err)
    else match all_some input0 with
         | None => (s, Err)
         | Some input =>
           if has (fun x => (x.2.1 == 0) || (x.2.2 == 0)) input then (s, Err)
           else
             let s1 := set2 s (Some d) (Some e) (Some input) (sg_c s) (sg_Rs s) (sg_R s) in
             match r_loop s1 msg input input None [::] 0 with
             | Err => (s1, Err)
             | Panic => (s1, Panic)
             | Ok (ri, Rs, R) =>
               match derive msg (sg_vk s) R with
               | None => (s1, Err)
               | Some c =>
                 let s2 := set2 s1 (Some d) (Some e) (Some input) (Some c) Rs (Some R) in
                 match assoc (sg_id s) (sg_lcoeffs s) with
                 | None => (s2, Panic)
                 | Some Li =>
                   let e' := if isneg R then - e else e in
                   let d' := if isneg R then - d else d in
                   let s3 := set2 s2 (Some d') (Some e') (Some input) (Some c) Rs (Some R) in
                   match ri with
                   | None => (s3, Panic)
                   | Some ri =>
                     let zi := Li * sg_sk s * c + e' * ri + d' in
                     (Signer (sg_sk s) (sg_vkshare s) (sg_vk s) (sg_id s) (sg_t s) 3 (sg_lcoeffs s)
                        (sg_cosigners s) (Some 0) (Some 0) (Some input) msg (Some c) Rs (Some R),
                      Ok (zi, sg_vkshare s))
                   end
                 end
               end
             end
         end
  | _, _ => (s, Err)
  end.

(** Result of SignRound3: a signature (R, z, c, msg), an error naming a participant, any other error,
    or a panic *)
Inductive res3 := Signed of G & F & F & seq nat | Blame of nat | Failed | Panicked.

(** round3.go:78-110: the loop over the received partial signatures *)
Fixpoint z_loop (s : signer) (c : F) (negate : bool) (l : seq (nat * (F * G))) (z : F) : F + res3 :=
  match l with
  | [::] => inl z
  | (id, (zj, vkj)) :: rest =>
    match assoc id (sg_lcoeffs s) with
    | None => inr Panicked
    | Some Lj =>
      let cLjvkj := (c * Lj) *: vkj in
      match assoc id (sg_Rs s) with
      | None => if negate then inr Panicked else inr (Blame id)
      | Some Rj0 =>
        let Rj := if negate then - Rj0 else Rj0 in
        if zj *: g != cLjvkj + Rj then inr (Blame id)
        else z_loop s c negate rest (z + zj)
      end
    end
  end.

(** round3.go:31-139 SignRound3 *)
Definition sign_round3 (s : signer) (input0 : option (seq (nat * option (F * G)))) : signer * res3 :=
  match sg_d s, sg_e s with
  | Some d, Some e =>
    if (d != 0) || (e != 0) then (s, Failed)
    else if (size (sg_msg s) == 0)%N then (s, Failed)
    else match input0 with
    | None => (s, Failed)
    | Some in0 =>
      match all_some in0 with
      | None => (s, Failed)
      | Some input =>
        if (if sg_comms s is Some cm then size cm != size input else true)%N then (s, Failed)
        else if sg_round s != 3%N then (s, Failed)
        else if (size input != sg_t s)%N then (s, Failed)
        else match sg_R s, sg_c s with
             | Some R, Some c =>
               match z_loop s c (isneg R) input 0 with
               | inr e => (s, e)
               | inl z =>
                 let tempR := z *: g + (- c) *: sg_vk s in
                 match derive (sg_msg s) (sg_vk s) tempR with
                 | None => (s, Failed)
                 | Some tempC =>
                   if tempC != c then (s, Failed)
                   else (Signer (sg_sk s) (sg_vkshare s) (sg_vk s) (sg_id s) (sg_t s) 4 (sg_lcoeffs s)
                           (sg_cosigners s) (sg_d s) (sg_e s) (sg_comms s) (sg_msg s) (sg_c s)
                           (sg_Rs s) (sg_R s), Signed R z c (sg_msg s))
                 end
               end
             | _, _ => (s, Panicked)
             end
      end
    end
  | _, _ => (s, Panicked)
  end.

(** round3.go:142-167 Verify (arguments non-nil); Ok true or an error *)
Definition frost_verify (vk : G) (msg : seq nat) (z c : F) : outcome bool :=
  if (size msg == 0)%N then Err
  else let tempR := z *: g + (- c) *: vk in
       match derive msg vk tempR with
       | None => Err
       | Some tempC => if tempC != c then Err else Ok true
       end.

End Sign.
