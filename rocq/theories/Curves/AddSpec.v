(** What a sum of two points of a short Weierstrass curve y^2 = x^3 + a x + b is: the chord-and-tangent law in affine
    coordinates, with [None] for the point at infinity.  Nothing here refers to the code. *)
From mathcomp Require Import all_ssreflect all_algebra.
Set Implicit Arguments.
Unset Strict Implicit.
Unset Printing Implicit Defensive.
Import GRing.Theory.
Local Open Scope ring_scope.

Section Spec.
Variables (F : fieldType) (a b : F).

Definition apoint := option (F * F).

Definition on_curve (P : apoint) : Prop :=
  match P with
  | None => True
  | Some (x, y) => y ^+ 2 = x ^+ 3 + a * x + b
  end.

Definition aneg (P : apoint) : apoint :=
  match P with
  | None => None
  | Some (x, y) => Some (x, - y)
  end.

(** third point of the line of slope [l] through (x1, y1) and a point with abscissa x2, reflected *)
Definition chord (l x1 y1 x2 : F) : apoint :=
  let x3 := l ^+ 2 - x1 - x2 in Some (x3, l * (x1 - x3) - y1).

Definition aadd (P Q : apoint) : apoint :=
  match P, Q with
  | None, _ => Q
  | _, None => P
  | Some (x1, y1), Some (x2, y2) =>
      if x1 != x2 then chord ((y2 - y1) / (x2 - x1)) x1 y1 x2
      else if y1 == - y2 then None
      else chord ((3%:R * x1 ^+ 2 + a) / (2%:R * y1)) x1 y1 x2
  end.

(** no point has a vertical tangent: the cubic has no root (equivalently no point has order two) *)
Definition no_two_torsion : Prop := forall x : F, x ^+ 3 + a * x + b <> 0.
End Spec.
