(** Model of pkg/sharing/v1 (legacy Shamir and Feldman over big.Int field elements).

    A curves.Field with prime modulus [p] is ['F_p]; an Element is an element of ['F_p] together with
    its integer [val] in [0,p) (curves/field.go:27-31, 84-96).  Element operations are those of ['F_p]
    (curves/field.go:174-215); the "fields must match" panics cannot occur because all elements have
    the modulus [p].  uint32 conversions are written as reductions modulo 2^32. *)
From mathcomp Require Import all_ssreflect all_algebra.
From Verif Require Import Lib.Res Lib.Bytes.
Set Implicit Arguments.
Unset Strict Implicit.
Unset Printing Implicit Defensive.
Import GRing.Theory.
Local Open Scope ring_scope.

Section V1.
Variable p : nat.

(** shamir.go:18-23 *)
Record share1 := Share1 { s1_id : nat; s1_val : 'F_p }.
(** shamir.go:52-55 *)
Record shamir1 := Shamir1 { s1_threshold : nat; s1_limit : nat }.

Definition u32 (n : nat) : nat := (n %% 2 ^ 32)%N.

(** shamir.go:58-68 NewShamir, for non-negative int arguments *)
Definition new_shamir1 (t n : nat) : outcome shamir1 :=
  if (n < t)%N then Err
  else if (t < 2)%N then Err
  else Ok (Shamir1 (u32 t) (u32 n)).

(** curves/field.go:84-100 newElement: panics when the value is not in [0, modulus) *)
Definition new_element (v : nat) : outcome 'F_p :=
  if (v < p)%N then Ok v%:R else Panic.

(** polynomial.go:18-36 newPoly (the RNG is assumed not to fail) *)
Definition new_poly (intercept : 'F_p) (degree : nat) (rnd : nat -> 'F_p) : outcome (seq 'F_p) :=
  if degree is d.+1 then Ok (intercept :: mkseq rnd d) else Panic.

(** polynomial.go:39-49 evaluate *)
Definition evaluate1 (cs : seq 'F_p) (x : 'F_p) : outcome 'F_p :=
  match rev cs with
  | [::] => Panic
  | c :: rest => Ok (foldl (fun r ci => r * x + ci) c rest)
  end.

(** shamir.go:126-134 *)
Fixpoint make_shares1 (cs : seq 'F_p) (idx : seq nat) : outcome (seq share1) :=
  match idx with
  | [::] => Ok [::]
  | i :: r =>
    do x <- new_element i.+1;
    do y <- evaluate1 cs x;
    do ss <- make_shares1 cs r;
    Ok (Share1 i.+1 y :: ss)
  end.

(** shamir.go:111-136 GetSharesAndPolynomial: [secret] is the byte string *)
Definition get_shares_and_poly (s : shamir1) (secret : bytes) (rnd : nat -> 'F_p)
  : outcome (seq share1 * seq 'F_p) :=
  if size secret == 0%N then Err
  else if ~~ (be_val secret < p)%N then Err
  else
    do e <- new_element (be_val secret);
    do poly <- new_poly e (s1_threshold s) rnd;
    do shares <- make_shares1 poly (iota 0 (s1_limit s));
    Ok (shares, poly).

(** shamir.go:72-75 Split *)
Definition split1 (s : shamir1) (secret : bytes) (rnd : nat -> 'F_p) : outcome (seq share1) :=
  do r <- get_shares_and_poly s secret rnd; Ok r.1.

(** shamir.go:149-162: the inner loop; an equal x coordinate is an error *)
Definition basis1 (xs : seq 'F_p) (t i : nat) : outcome 'F_p :=
  foldl (fun acc j =>
           do basis <- acc;
           if i == j then Ok basis
           else let denom := nth 0 xs j - nth 0 xs i in
                if denom == 0 then Err else Ok (basis * (nth 0 xs j / denom)))
        (Ok 1) (iota 0 t).

(** shamir.go:139-168 Interpolate *)
Definition interpolate1 (s : shamir1) (xs ys : seq 'F_p) : outcome 'F_p :=
  let t := s1_threshold s in
  if (size xs < t)%N || (size ys < t)%N then Err
  else foldl (fun acc i => do result <- acc; do b <- basis1 xs t i; Ok (result + nth 0 ys i * b))
             (Ok 0) (iota 0 t).

(** shamir.go:83-100: the loop over the first [threshold] shares.  [dups] is allocated but never
    written, so the duplicate test never fires here.  nil share pointers panic. *)
Fixpoint collect1 (lim : nat) (shares : seq (option share1)) : outcome (seq 'F_p * seq 'F_p) :=
  match shares with
  | [::] => Ok ([::], [::])
  | o :: r =>
    do s <- deref o;
    if (lim < s1_id s)%N || (s1_id s < 1)%N then Err
    else do x <- new_element (s1_id s);
         do rest <- collect1 lim r;
         Ok (x :: rest.1, s1_val s :: rest.2)
  end.

(** shamir.go:78-107 Combine: only shares[0..threshold-1] are read; the result is the big-endian byte
    string of the integer without leading zeros (Element.Bytes, curves/field.go:238-240) *)
Definition combine1 (s : shamir1) (shares : seq (option share1)) : outcome bytes :=
  if (size shares < s1_threshold s)%N then Err
  else do r <- collect1 (s1_limit s) (take (s1_threshold s) shares);
       do secret <- interpolate1 s r.1 r.2;
       Ok (be_bytes (val secret)).

(** feldman.go:41-58 Feldman.Split and feldman.go:67-107 Feldman.Verify, for an EC group [G] with base
    point [g] of order [p] *)
Variables (G : lmodType 'F_p) (g : G).

Definition feldman_split1 (s : shamir1) (secret : bytes) (rnd : nat -> 'F_p)
  : outcome (seq G * seq share1) :=
  do r <- get_shares_and_poly s secret rnd;
  Ok ([seq c *: g | c <- r.2], r.1).

Fixpoint commit_eval1 (x i : 'F_p) (rhs : G) (cs : seq G) : G :=
  match cs with
  | [::] => rhs
  | c :: r => let i' := i * x in commit_eval1 x i' (rhs + i' *: c) r
  end.

Definition feldman_verify1 (s : shamir1) (o : option share1) (verifiers : seq G) : outcome bool :=
  if (size verifiers < s1_threshold s)%N then Err
  else do sh <- deref o;
       do x <- new_element (s1_id sh);
       match verifiers with
       | [::] => Panic
       | c0 :: cs => Ok (s1_val sh *: g == commit_eval1 x 1 c0 cs)
       end.

End V1.
