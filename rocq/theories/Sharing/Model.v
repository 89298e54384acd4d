(** Model of pkg/sharing (Shamir, Feldman and Pedersen secret sharing).

    Scalars are the elements of an arbitrary field [F], points the elements of an arbitrary
    [F]-module [G] with base point [g]; [scalar_bytes]/[scalar_set_bytes] are the curve's
    Scalar.Bytes / Scalar.SetBytes ([None] = error).  Share identifiers (uint32) are [nat]: every
    identifier the code creates is at most the uint32 [limit], so no wrap-around occurs.
    Scalar.New(int(id)) is [id%:R].  Nil pointers are [None].  The io.Reader given to a call is the
    stream [rnd] of scalars which the successive Scalar.Random(reader) calls return. *)
From mathcomp Require Import all_ssreflect all_algebra.
From Verif Require Import Lib.Res.
Set Implicit Arguments.
Unset Strict Implicit.
Unset Printing Implicit Defensive.
Import GRing.Theory.
Local Open Scope ring_scope.

(** shamir.go:22-25 type ShamirShare *)
Record share (B : Type) := Share { sh_id : nat; sh_val : B }.

(** shamir.go:47-50 type Shamir (the curve is the ambient one) *)
Record shamir := Shamir { threshold : nat; limit : nat }.

(** shamir.go:52-66 NewShamir; feldman.go:49-63 NewFeldman performs the same checks in the same
    order.  [curve] is the curve pointer. *)
Definition new_shamir (t n : nat) (curve : option unit) : outcome shamir :=
  if (n < t)%N then Err
  else if (t < 2)%N then Err
  else if (255 < n)%N then Err
  else if curve is None then Err
  else Ok (Shamir t n).

Section Sharing.
Variables (F : fieldType) (G : lmodType F) (g : G).
Variables (B : Type) (scalar_bytes : F -> B) (scalar_set_bytes : B -> option F).

Notation share := (share B).

(** shamir.go:27-39 ShamirShare.Validate: [Ok tt] is a nil error *)
Definition validate (s : share) : outcome unit :=
  if sh_id s == 0%N then Err
  else match scalar_set_bytes (sh_val s) with
       | None => Err
       | Some sc => if sc == 0 then Err else Ok tt
       end.

(** polynomial.go:19-26 Polynomial.Init: [make([]Scalar, 0)] followed by the write to index 0 panics *)
Definition poly_init (intercept : F) (degree : nat) (rnd : nat -> F) : outcome (seq F) :=
  if degree is d.+1 then Ok (intercept :: mkseq rnd d) else Panic.

(** polynomial.go:28-35 Polynomial.Evaluate: Horner from the last coefficient; no coefficients =
    index out of range *)
Definition evaluate (cs : seq F) (x : F) : outcome F :=
  match rev cs with
  | [::] => Panic
  | c :: rest => Ok (foldl (fun out ci => out * x + ci) c rest)
  end.

(** shamir.go:79-85, one iteration of the loop with index [i] *)
Definition make_share (cs : seq F) (i : nat) : outcome share :=
  do v <- evaluate cs (i.+1)%:R;
  Ok (Share i.+1 (scalar_bytes v)).

Fixpoint make_shares (cs : seq F) (idx : seq nat) : outcome (seq share) :=
  match idx with
  | [::] => Ok [::]
  | i :: r => do s <- make_share cs i; do ss <- make_shares cs r; Ok (s :: ss)
  end.

(** shamir.go:76-87 getPolyAndShares *)
Definition get_poly_and_shares (s : shamir) (secret : F) (rnd : nat -> F)
  : outcome (seq share * seq F) :=
  do poly <- poly_init secret (threshold s) rnd;
  do shares <- make_shares poly (iota 0 (limit s));
  Ok (shares, poly).

(** shamir.go:68-74 Shamir.Split *)
Definition split (s : shamir) (secret : F) (rnd : nat -> F) : outcome (seq share) :=
  if secret == 0 then Err
  else do r <- get_poly_and_shares s secret rnd; Ok r.1.

(** shamir.go:171-179, 191-199: the inner loop computing num and den for index [i] *)
Definition lag_num (xs : seq F) (i : nat) : F :=
  foldl (fun num j => if i == j then num else num * nth 0 xs j) 1 (iota 0 (size xs)).
Definition lag_den (xs : seq F) (i : nat) : F :=
  foldl (fun den j => if i == j then den else den * (nth 0 xs j - nth 0 xs i)) 1
        (iota 0 (size xs)).

(** shamir.go:168-186 interpolate (xs and ys have equal length at every call) *)
Definition interpolate (xs ys : seq F) : outcome F :=
  foldl (fun acc i =>
           do result <- acc;
           if lag_den xs i == 0 then Err
           else Ok (result + nth 0 ys i * (lag_num xs i / lag_den xs i)))
        (Ok 0) (iota 0 (size xs)).

(** shamir.go:188-206 interpolatePoint *)
Definition interpolate_point (xs : seq F) (ys : seq G) : outcome G :=
  foldl (fun acc i =>
           do result <- acc;
           if lag_den xs i == 0 then Err
           else Ok (result + (lag_num xs i / lag_den xs i) *: nth 0 ys i))
        (Ok 0) (iota 0 (size xs)).

(** shamir.go:119-137 and 145-164: the validation loop of Combine and CombinePoints.  [dups] is the
    key set of the map; the result lists xs and the decoded values in order.  A nil share pointer
    panics in share.Validate (value receiver). *)
Fixpoint collect (lim : nat) (dups : seq nat) (shares : seq (option share))
  : outcome (seq F * seq F) :=
  match shares with
  | [::] => Ok ([::], [::])
  | os :: r =>
    do s <- deref os;
    do _ <- validate s;
    if (lim < sh_id s)%N then Err
    else if sh_id s \in dups then Err
    else
      do rest <- collect lim (sh_id s :: dups) r;
      Ok ((sh_id s)%:R :: rest.1, odflt 0 (scalar_set_bytes (sh_val s)) :: rest.2)
  end.

(** shamir.go:115-139 Combine; also feldman.go:96-103 and pedersen.go:136-143 (which delegate) *)
Definition combine (s : shamir) (shares : seq (option share)) : outcome F :=
  if (size shares < threshold s)%N then Err
  else do r <- collect (limit s) [::] shares; interpolate r.1 r.2.

(** shamir.go:141-166 CombinePoints *)
Definition combine_points (s : shamir) (shares : seq (option share)) : outcome G :=
  if (size shares < threshold s)%N then Err
  else do r <- collect (limit s) [::] shares;
       interpolate_point r.1 [seq y *: g | y <- r.2].

(** shamir.go:89-113 LagrangeCoeffs.  Go iterates over a map in an unspecified order: [keys] is the
    key set in the order met (an arbitrary enumeration of the de-duplicated identities; the outer and
    the inner iteration order are irrelevant because the inner loop is a commutative product). *)
Definition lagrange_coeff (keys : seq nat) (i : nat) : outcome F :=
  let num := foldl (fun num j => if i == j then num else num * j%:R) 1 keys in
  let den := foldl (fun den j => if i == j then den else den * (j%:R - i%:R)) 1 keys in
  if den == 0 then Err else Ok (num / den).

Fixpoint lagrange_loop (keys todo : seq nat) : outcome (seq (nat * F)) :=
  match todo with
  | [::] => Ok [::]
  | i :: r => do l <- lagrange_coeff keys i; do rest <- lagrange_loop keys r; Ok ((i, l) :: rest)
  end.

Definition lagrange_coeffs (keys : seq nat) : outcome (seq (nat * F)) := lagrange_loop keys keys.

(** feldman.go:65-81 Feldman.Split: verifier commitments and shares.  [make([]Point, Threshold)] has as
    many entries as poly has coefficients. *)
Definition feldman_split (s : shamir) (secret : F) (rnd : nat -> F)
  : outcome (seq G * seq share) :=
  if secret == 0 then Err
  else do r <- get_poly_and_shares s secret rnd;
       Ok ([seq c *: g | c <- r.2], r.1).

(** feldman.go:26-33, pedersen.go:37-44: loop computing
    sum_j C_j x^j; [i] is the running power, [rhs] the running sum *)
Fixpoint commit_eval (x i : F) (rhs : G) (cs : seq G) : G :=
  match cs with
  | [::] => rhs
  | c :: r => let i' := i * x in commit_eval x i' (rhs + i' *: c) r
  end.

(** feldman.go:20-42 FeldmanVerifier.Verify; Ok tt = nil error.  Commitments[0] on an empty slice and
    a nil share panic. *)
Definition feldman_verify (commitments : seq G) (os : option share) : outcome unit :=
  match commitments with
  | [::] => Panic
  | c0 :: cs =>
    do s <- deref os;
    do _ <- validate s;
    let rhs := commit_eval (sh_id s)%:R 1 c0 cs in
    let lhs := odflt 0 (scalar_set_bytes (sh_val s)) *: g in
    if lhs == rhs then Ok tt else Err
  end.

(** pedersen.go:18-22 type PedersenVerifier *)
Record pedersen_verifier := PedersenVerifier { pv_gen : G; pv_comm : seq G }.

(** pedersen.go:28-57 PedersenVerifier.Verify.  The
    validations come before the access to Commitments[0]. *)
Definition pedersen_verify (pv : pedersen_verifier) (os ob : option share) : outcome unit :=
  do s <- deref os;
  do _ <- validate s;
  do b <- deref ob;
  do _ <- validate b;
  match pv_comm pv with
  | [::] => Panic
  | c0 :: cs =>
    let rhs := commit_eval (sh_id s)%:R 1 c0 cs in
    let lhs := odflt 0 (scalar_set_bytes (sh_val s)) *: g
               + odflt 0 (scalar_set_bytes (sh_val b)) *: pv_gen pv in
    if lhs == rhs then Ok tt else Err
  end.

(** pedersen.go:60-65 type PedersenResult *)
Record pedersen_result := PedersenResult {
  pr_blinding : F;
  pr_blinding_shares : seq share;
  pr_secret_shares : seq share;
  pr_feldman : seq G;
  pr_pedersen : pedersen_verifier }.

(** pedersen.go:68-89 NewPedersen: [generator.CurveName()] is called before the nil check, so a nil
    generator panics.  [on_curve] is generator.IsOnCurve(). *)
Definition new_pedersen (t n : nat) (generator : option G) (on_curve : bool)
  : outcome (shamir * G) :=
  if (n < t)%N then Err
  else if (t < 2)%N then Err
  else if (255 < n)%N then Err
  else do h <- deref generator;
       if ~~ on_curve || (h == 0) then Err
       else Ok (Shamir t n, h).

(** pedersen.go:92-121 Pedersen.Split.  The reader yields the blinding first, then the t-1 secret
    coefficients, then the t-1 blinding coefficients.  No check that the secret is non-zero. *)
Definition pedersen_split (pd : shamir * G) (secret : F) (rnd : nat -> F)
  : outcome pedersen_result :=
  let blinding := rnd 0%N in
  let t := threshold pd.1 in
  do r1 <- get_poly_and_shares pd.1 secret (fun k => rnd (1 + k)%N);
  do r2 <- get_poly_and_shares pd.1 blinding (fun k => rnd (t + k)%N);
  let verifiers := [seq c *: g | c <- r1.2] in
  let blinded := [seq p.1 *: g + p.2 *: pd.2 | p <- zip r1.2 r2.2] in
  Ok (PedersenResult blinding r2.1 r1.1 verifiers (PedersenVerifier pd.2 blinded)).

End Sharing.
