(** Model of pkg/core/mod.go.  A *big.Int is [option Z] (nil is None); the math/big operations Mod,
    Exp, ModInverse are modelled by their documented meaning, ModInverse through the extended Euclidean
    algorithm. *)
From Coq Require Import ZArith List.
From mathcomp Require Import ssreflect ssrfun ssrbool eqtype ssrnat seq.
From Verif Require Import Lib.Res Lib.Bytes.
Local Delimit Scope Z_scope with ZZ.
Local Open Scope Z_scope.

(** big.Int.Mod: Euclidean remainder, panics for modulus 0 *)
Definition big_mod (z m : Z) : outcome Z := if m =? 0 then Panic else Ok (z mod (Z.abs m)).

(** extended Euclid: (g, u) with u*a + v*b = g for some v; [fuel] bounds the number of divisions *)
Fixpoint egcd (fuel : nat) (a b : Z) : Z * Z * Z :=
  match fuel with
  | O => (a, 1, 0)
  | S f => if b =? 0 then (a, 1, 0)
           else let '(d, u, v) := egcd f b (a mod b) in (d, v, u - v * (a / b))
  end.

(** big.Int.ModInverse for modulus n > 0 (None is a nil result) *)
Definition mod_inverse (g n : Z) : option Z :=
  let '(d, u, _) := egcd (S (Z.to_nat n)) (g mod n) n in
  if d =? 1 then Some (u mod n) else None.

(** mod.go:38-63 ConstantTimeEqByte, 68-70 ConstantTimeEq *)
Definition ct_eq (a b : option Z) : bool :=
  match a, b with
  | None, None => true
  | Some x, Some y => (be_bytes (Z.abs_nat x) == be_bytes (Z.abs_nat y)) && (Z.sgn x =? Z.sgn y)
  | _, _ => false
  end.

(** mod.go:74-85 In *)
Definition core_in (x m : option Z) : outcome unit :=
  match x, m with
  | Some x, Some m => if (0 <=? x) && (x <? m) then Ok tt else Err
  | _, _ => Err
  end.

(** mod.go:88-99 Add *)
Definition core_add (x y m : option Z) : outcome Z :=
  match x, y with
  | Some x, Some y => match m with Some m => big_mod (x + y) m | None => Ok (x + y) end
  | _, _ => Err
  end.
(** mod.go:102-114 Mul *)
Definition core_mul (x y m : option Z) : outcome Z :=
  match x, y with
  | Some x, Some y => match m with Some m => big_mod (x * y) m | None => Ok (x * y) end
  | _, _ => Err
  end.
(** big.Int.Exp for modulus m > 0 or nil: a nil result is None *)
Definition big_exp (x y : Z) (m : option Z) : option Z :=
  match m with
  | None => Some (if y <=? 0 then 1 else x ^ y)
  | Some m => if y <? 0 then option_map (fun i => (i ^ (- y)) mod m) (mod_inverse x m)
              else Some ((x ^ y) mod m)
  end.
(** mod.go:117-123 Exp: the result of big.Int.Exp is returned with a nil error, even if it is nil *)
Definition core_exp (x y m : option Z) : outcome (option Z) :=
  match x, y with
  | Some x, Some y => Ok (big_exp x y m)
  | _, _ => Err
  end.
(** mod.go:126-133 Neg *)
Definition core_neg (x m : option Z) : outcome Z :=
  match x, m with Some x, Some m => big_mod (- x) m | _, _ => Err end.
(** mod.go:136-145 Inv, for m > 0 *)
Definition core_inv (x m : option Z) : outcome Z :=
  match x, m with
  | Some x, Some m => match mod_inverse x m with Some z => Ok z | None => Err end
  | _, _ => Err
  end.

(** mod.go:148-168 Rand: the loop over the successive values returned by crypto/rand.Int, bounded by
    [fuel] iterations (None: still looping) *)
Fixpoint core_rand (fuel : nat) (draws : nat -> Z) (k : nat) : option Z :=
  match fuel with
  | O => None
  | S f => if draws k >? 1 then Some (draws k) else core_rand f draws (S k)
  end.
