(** Model of the GG20 distributed key generation: pkg/tecdsa/gg20/participant/dkg_round{1,2,3,4}.go.

    Scalars are ['F_p], p the order of the curve; points an ['F_p]-module [G] with base point [g] whose identity
    is not on the affine curve; [penc]/[pdec] the 2*fs-byte point codec (fs = CalcFieldSize).  The sharing is the
    model of pkg/sharing/v1, commitments that of pkg/core.  The Paillier key and the auxiliary (Pedersen) parameters
    with their CDL proofs are drawn as a whole: [aux] is their type, [auxv] the two CDL verifications
    (Gg20/ZkModel.v has the real ones), [psfp]/[psfv] the square-freeness proof.  Go maps are association lists
    iterated in list order.  Message fields are not nil; map values may be. *)
From mathcomp Require Import all_ssreflect all_algebra.
From Verif Require Import Lib.Res Lib.Bytes Core.HashModel Gennaro.Model Paillier.Model SharingV1.Model.
Set Implicit Arguments. Unset Strict Implicit. Unset Printing Implicit Defensive.
Import GRing.Theory.
Local Open Scope ring_scope.

Section Dkg.
Variables (p : nat) (G : lmodType 'F_p) (g : G) (fs : nat) (penc : G -> bytes) (pdec : bytes -> option G)
  (H : bytes -> bytes) (blk : nat) (aux psf : Type) (auxv : aux -> outcome unit)
  (psfp : secret_key -> nat -> G -> outcome psf) (psfv : nat -> nat -> G -> psf -> outcome unit).

(** dkg_round1.go:21-27 DkgRound1Bcast *)
Record dbcast1 := Dbcast1 { db_C : bytes; db_pk : nat; db_aux : aux }.
(** participant.go:296-300 dkgParticipantData *)
Record odata := Odata { o_pk : nat; o_aux : aux; o_C : bytes }.

(** indexing a slice: None when out of range *)
Definition sget (T : Type) (l : seq T) (k : nat) : option T := nth None (map Some l) k.

(** participant.go:289-294, 302-326 DkgParticipant and dkgstate *)
Record dst := Dst {
  ds_round : nat;
  ds_D : option witness;
  ds_sk : option secret_key;
  ds_V : seq G;
  ds_X : seq (share1 p);
  ds_t : nat;
  ds_n : nat;
  ds_other : seq (nat * odata);
  ds_Y : option G;
  ds_Xi : option 'F_p;
  ds_pub : seq G }.
Definition dst0 : dst := Dst 1 None None [::] [::] 0 0 [::] None None [::].

(** the draws of round 1 *)
Record ddraw := Ddraw { dr_u : 'F_p; dr_poly : nat -> 'F_p; dr_c : option bytes; dr_sk : secret_key; dr_aux : aux }.

(** feldman.go:29-39 NewFeldman (uint32 arguments) *)
Definition new_feldman (t n : nat) : outcome shamir1 :=
  if (n < t)%N then Err else if (t < 2)%N then Err else Ok (Shamir1 t n).

(** dkg_round1.go:31-189 DkgRound1 *)
Definition dround1 (s : dst) (t n : nat) (d : ddraw) : dst * outcome dbcast1 :=
  if (n < t)%N then (s, Err) else
  if ds_round s != 1%N then (s, Err) else
  match (
    do f <- new_feldman t n;
    do (V, X) <- feldman_split1 g f (be_bytes (nat_of_ord (dr_u d))) (dr_poly d);
    do (C, D) <- commit H blk (flatten [seq penc v | v <- V]) (dr_c d);
    Ok (V, X, C, D))
  with
  | Ok (V, X, C, D) =>
    (Dst 2 (Some D) (Some (dr_sk d)) V X t n (ds_other s) (ds_Y s) (ds_Xi s) (ds_pub s),
     Ok (Dbcast1 C (sN (dr_sk d)) (dr_aux d)))
  | Err => (s, Err)
  | Panic => (s, Panic)
  end.

Definition set_other (s : dst) (round : nat) (o : seq (nat * odata)) : dst :=
  Dst round (ds_D s) (ds_sk s) (ds_V s) (ds_X s) (ds_t s) (ds_n s) o (ds_Y s) (ds_Xi s) (ds_pub s).

(** dkg_round2.go:75-128: the loop.  A nil parameter panics at param.Pki; X[id-1] outside the slice panics. *)
Fixpoint dloop2 (self : nat) (X : seq (share1 p)) (params : seq (nat * option dbcast1))
  (o : seq (nat * odata)) (out : seq (nat * share1 p)) : seq (nat * odata) * outcome (seq (nat * share1 p)) :=
  match params with
  | [::] => (o, Ok out)
  | (id, m) :: rest =>
    if id == self then dloop2 self X rest o out else
    match (
      do b <- deref m;
      let bl := bitlen (db_pk b) in
      if (bl != 2048%N) && (bl != 2047%N) then Err else
      do _ <- auxv (db_aux b);
      if X is [::] then Err else
      do x <- deref (if id is k.+1 then sget X k else None);
      Ok (b, x))
    with
    | Ok (b, x) => dloop2 self X rest ((id, Odata (db_pk b) (db_aux b) (db_C b)) :: o) ((id, x) :: out)
    | Err => (o, Err)
    | Panic => (o, Panic)
    end
  end.

(** dkg_round2.go:32-137 DkgRound2 *)
Definition dround2 (self : nat) (s : dst) (params : seq (nat * option dbcast1))
  : dst * outcome (option witness * seq (nat * share1 p)) :=
  if ds_round s != 2%N then (s, Err) else
  if count (fun kv : nat * option dbcast1 => isSome kv.2 && (kv.1 != self)) params != (ds_n s).-1 then (s, Err) else
  let: (o, r) := dloop2 self (ds_X s) params [::] [::] in
  match r with
  | Ok out => (set_other s 3 o, Ok (ds_D s, out))
  | Err => (set_other s (ds_round s) o, Err)
  | Panic => (set_other s (ds_round s) o, Panic)
  end.

(** dkg_round3.go:172-199 unmarshalFeldmanVerifiers *)
Fixpoint dec_all (cs : seq bytes) : outcome (seq G) :=
  match cs with
  | [::] => Ok [::]
  | c :: r => match pdec c with None => Err | Some P => do l <- dec_all r; Ok (P :: l) end
  end.
Definition unmarshal_verifiers (msg : bytes) (size1 t : nat) : outcome (seq G) :=
  if (size msg %% size1)%N != 0%N then Err else
  let n := (size msg %/ size1)%N in
  if n != t then Err else
  dec_all [seq take size1 (drop (k * size1) msg) | k <- iota 0 n].

(** dkg_round3.go:46-80: the loop over d.  [xi] is the share the stored pointer state.X[id-1] points to: the
    loop updates it in place, so its value is part of the result whatever the outcome. *)
Fixpoint dloop3 (self : nat) (f : shamir1) (other : seq (nat * odata)) (x : seq (nat * option (share1 p)))
  (d : seq (nat * option witness)) (xi : 'F_p) (vs : seq (nat * seq G))
  : 'F_p * outcome (seq (nat * seq G)) :=
  match d with
  | [::] => (xi, Ok vs)
  | (j, w) :: rest =>
    if j == self then dloop3 self f other x rest xi vs else
    match (
      do o <- deref (assoc j other);
      do w <- deref w;
      do ok <- copen H blk (o_C o) w;
      if ~~ ok then Err else
      do v <- unmarshal_verifiers (wmsg w) (fs * 2) (s1_threshold f);
      let xj := if assoc j x is Some o then o else None in
      do ok <- feldman_verify1 g f xj v;
      if ~~ ok then Err else
      do xj <- deref xj;
      Ok (v, s1_val xj))
    with
    | Ok (v, y) => dloop3 self f other x rest (xi + y) ((j, v) :: vs)
    | Err => (xi, Err)
    | Panic => (xi, Panic)
    end
  end.

(** dkg_round3.go:82-98: v[j] = sum of the j-th verifiers *)
Definition sum_verifiers (t : nat) (vs : seq (nat * seq G)) : outcome (seq G) :=
  if all (fun kv => t <= size kv.2)%N vs then
    Ok [seq foldl (fun a kv => a + nth 0 kv.2 j) 0 vs | j <- iota 0 t]
  else Panic.

(** dkg_round3.go:110-145: X_j = y + sum_(k<t) (j*(k+1) mod q) v_k, computed in this order *)
Definition public_share (v : seq G) (j : nat) : G :=
  foldl (fun a k => a + ((j * k.+1)%N)%:R *: nth 0 v k) (nth 0 v 0) (iota 0 (size v)).

Definition set_X (s : dst) (self : nat) (xi : 'F_p) : seq (share1 p) :=
  if sget (ds_X s) self.-1 is Some x then set_nth x (ds_X s) self.-1 (Share1 (s1_id x) xi) else ds_X s.

(** dkg_round3.go:23-167 DkgRound3 *)
Definition dround3 (self : nat) (s : dst) (d : seq (nat * option witness)) (x : seq (nat * option (share1 p)))
  : dst * outcome psf :=
  if (size d == 0%N) || (size x == 0%N) then (s, Err) else
  if ds_round s != 3%N then (s, Err) else
  match new_feldman (ds_t s) (ds_n s) with
  | Err => (s, Err) | Panic => (s, Panic)
  | Ok f =>
    match (if self is k.+1 then sget (ds_X s) k else None) with
    | None => (s, Panic)
    | Some x0 =>
      let: (xi, r) := dloop3 self f (ds_other s) x d (s1_val x0) [:: (self, ds_V s)] in
      let X' := set_X s self xi in
      let s' := Dst (ds_round s) (ds_D s) (ds_sk s) (ds_V s) X' (ds_t s) (ds_n s) (ds_other s) (ds_Y s) (ds_Xi s) (ds_pub s) in
      match (
        do vs <- r;
        do v <- sum_verifiers (ds_t s) vs;
        let y := nth 0 v 0 in
        if y == 0 then Err else
        do sk <- deref (ds_sk s);
        do pf <- psfp sk self y;
        Ok (v, y, pf))
      with
      | Ok (v, y, pf) =>
        (Dst 4 (ds_D s) (ds_sk s) (ds_V s) X' (ds_t s) (ds_n s) (ds_other s) (Some y) (Some xi)
           [seq public_share v j.+1 | j <- iota 0 (ds_n s)], Ok pf)
      | Err => (s', Err)
      | Panic => (s', Panic)
      end
    end
  end.

(** dkg_round4.go:20-26 DkgResult *)
Record dresult := Dresult { dr_pub : seq G; dr_Y : option G; dr_Xi : option 'F_p; dr_ek : option secret_key;
  dr_data : seq (nat * (nat * aux)) }.

(** dkg_round4.go:56-68: the loop *)
Fixpoint dloop4 (self : nat) (other : seq (nat * odata)) (Y : option G) (pfs : seq (nat * psf)) : outcome unit :=
  match pfs with
  | [::] => Ok tt
  | (id, pf) :: rest =>
    if self == id then dloop4 self other Y rest else
    do o <- deref (assoc id other);
    do y <- deref Y;
    do _ <- psfv (o_pk o) id y pf;
    dloop4 self other Y rest
  end.
(** dkg_round4.go:35-95 DkgRound4; it does not change the state *)
Definition dround4 (self : nat) (s : dst) (pfs : seq (nat * psf)) : outcome dresult :=
  if size pfs == 0%N then Err else
  if ds_round s != 4%N then Err else
  if has (fun kv => (kv.1 != self) && (kv.1 \notin map fst pfs)) (ds_other s) then Err else
  do _ <- dloop4 self (ds_other s) (ds_Y s) pfs;
  Ok (Dresult (ds_pub s) (ds_Y s) (ds_Xi s) (ds_sk s) [seq (kv.1, (o_pk kv.2, o_aux kv.2)) | kv <- ds_other s]).
End Dkg.
