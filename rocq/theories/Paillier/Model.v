(** Model of pkg/paillier/paillier.go and psf.go.  big.Ints are mathcomp [int] where the sign can matter
    and [nat] for the non-negative values computed inside; a nil pointer is None. *)
From mathcomp Require Import all_ssreflect all_algebra.
From Verif Require Import Lib.Res Lib.Bytes.
Set Implicit Arguments. Unset Strict Implicit. Unset Printing Implicit Defensive.

(** pkg/core/mod.go:74-85 In *)
Definition in_range (x : int) (m : nat) : bool := match x with Posz n => n < m | Negz _ => false end.

(** paillier.go:40-43 and 53-58 *)
Record secret_key := SecretKey { sN : nat; sN2 : nat; sLambda : nat; sTotient : nat; sU : nat }.

(** paillier.go:167-178 lcm (for non-negative arguments) *)
Definition lcm_ (x y : nat) : nat := if gcdn x y == 0 then 0 else x %/ gcdn x y * y.

(** paillier.go:183-204 l, for 0 <= x *)
Definition l_fun (N N2 x : nat) : outcome nat :=
  if N == 0 then Err else
  if x %% N != 1 then Err else
  if ~~ (x < N2) then Err else Ok ((x - 1) %/ N).

(** big.Int.ModInverse for n > 0, by the extended Euclidean algorithm; None: not invertible *)
Definition mod_inv (g n : nat) : option nat :=
  if coprime g n then Some ((egcdn g n).1 %% n) else None.

(** paillier.go:114-149 NewSecretKey for positive p, q.  u.ModInverse(u, n) leaves u unchanged when there is
    no inverse, and its result is ignored. *)
Definition new_secret_key (p q : nat) : outcome secret_key :=
  let n := p * q in
  let nn := n * n in
  let lambda := lcm_ p.-1 q.-1 in
  let totient_ := p.-1 * q.-1 in
  let t := (n + 1) ^ lambda %% nn in
  do u <- l_fun n nn t;
  let u' := match mod_inv u n with Some i => i | None => u end in
  Ok (SecretKey n nn lambda totient_ u').

(** paillier.go:288-323 encrypt, with the message and the nonce as given *)
Definition encrypt (N : nat) (msg r : option int) : outcome nat :=
  let N2 := N * N in
  match msg, r with
  | Some m, Some r =>
    if ~~ in_range m N then Err else
    if ~~ in_range r N then Err else
    if absz r == 0 then Err else
    let a := (N + 1) ^ (absz m) %% N2 in
    let b := (absz r) ^ N %% N2 in
    Ok (a * b %% N2)
  | _, _ => Err
  end.

(** paillier.go:326-353 Decrypt *)
Definition decrypt (sk : secret_key) (c : option int) : outcome nat :=
  match c with
  | None => Err
  | Some c =>
    if ~~ in_range c (sN2 sk) then Err else
    let a := (absz c) ^ sLambda sk %% sN2 sk in
    do ell <- l_fun (sN sk) (sN2 sk) a;
    Ok (ell * sU sk %% sN sk)
  end.

(** paillier.go:218-243 Add *)
Definition padd (N : nat) (c d : option int) : outcome nat :=
  let N2 := N * N in
  match c, d with
  | Some c, Some d => if in_range c N2 && in_range d N2 then Ok ((absz c) * (absz d) %% N2) else Err
  | _, _ => Err
  end.

(** paillier.go:246-271 Mul *)
Definition pmul (N : nat) (a c : option int) : outcome nat :=
  let N2 := N * N in
  match a, c with
  | Some a, Some c => if in_range a N && in_range c N2 then Ok ((absz c) ^ (absz a) %% N2) else Err
  | _, _ => Err
  end.

(** psf.go:22 *)
Definition psf_len := 13.

(** big.Int.BitLen *)
Definition bitlen (N : nat) : nat := if N == 0 then 0 else (trunc_log 2 N).+1.

Section Challenges.
(** [fs j k m]: crypto.FiatShamir(Gx, Gy, q, y.X, y.Y, Pi, j, k, m): the modulus is not an argument *)
Variable fs : nat -> nat -> nat -> bytes.

(** psf.go:193-213: the bytes e_j1 || ... || e_js truncated to b/8 bytes, as an integer *)
Definition candidate (b j m : nat) : nat :=
  let s := (b + 255) %/ 256 in
  be_val (take (b %/ 8) (flatten [seq fs j k m | k <- iota 1 s])).

(** psf.go:189-230: the loop; [fuel] bounds the number of iterations (None: still running) *)
Fixpoint chal_loop (fuel N b j m : nat) : option (seq nat) :=
  if psf_len <= j then Some [::] else
  match fuel with
  | 0 => None
  | f.+1 =>
    let xj := candidate b j m in
    if (0 < xj) && (xj < N) then omap (cons xj) (chal_loop f N b j.+1 0)
    else chal_loop f N b j m.+1
  end.

(** psf.go:156-231 generateChallenges *)
Definition gen_challenges (fuel N : nat) : option (outcome (seq nat)) :=
  if bitlen N < 8 then Some Err else omap Ok (chal_loop fuel N (bitlen N) 0 0).
End Challenges.

(** psf.go:45-92 Prove, after the challenges [xs] were generated *)
Definition psf_prove (sk : secret_key) (xs : seq nat) : outcome (seq nat) :=
  match mod_inv (sN sk) (sTotient sk) with
  | None => Err
  | Some M => if size xs != psf_len then Err else Ok [seq x ^ M %% sN sk | x <- xs]
  end.

(** big.Int.Exp for a base of any sign, modulus N > 0 *)
Definition exp_mod (x : int) (e N : nat) : nat := absz (modz (x ^+ e)%R N).

(** psf.go:96-145 Verify, after the challenges were generated: p[j] out of range panics, a nil entry makes
    core.Exp fail *)
Fixpoint psf_loop (N : nat) (proof : seq (option int)) (xs : seq nat) : outcome unit :=
  match xs with
  | [::] => Ok tt
  | x :: xs' =>
    match proof with
    | [::] => Panic
    | None :: _ => Err
    | Some y :: proof' => if exp_mod y N N != x then Err else psf_loop N proof' xs'
    end
  end.
Definition psf_verify (N q : nat) (proof : seq (option int)) (xs : seq nat) : outcome unit :=
  if N %% q == 0 then Err else
  if size xs != psf_len then Err else
  psf_loop N proof xs.
