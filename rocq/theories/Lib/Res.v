(** Outcome of a Go call: a value with nil error, a non-nil error, or a run-time panic. *)

Inductive outcome (A : Type) : Type :=
| Ok : A -> outcome A
| Err : outcome A
| Panic : outcome A.

Arguments Ok {A} _.
Arguments Err {A}.
Arguments Panic {A}.

(** Sequencing of Go statements: an error return or a panic ends the function. *)
Definition bind {A B : Type} (x : outcome A) (f : A -> outcome B) : outcome B :=
  match x with
  | Ok a => f a
  | Err => Err
  | Panic => Panic
  end.

Notation "'do' x <- e ; f" := (bind e (fun x => f))
  (at level 200, x pattern, e at level 100, f at level 200, right associativity).

(** Dereferencing a Go pointer that may be nil. *)
Definition deref {A : Type} (p : option A) : outcome A :=
  match p with Some a => Ok a | None => Panic end.

Definition is_ok {A : Type} (x : outcome A) : bool :=
  match x with Ok _ => true | _ => false end.

Definition is_err {A : Type} (x : outcome A) : bool :=
  match x with Err => true | _ => false end.

Definition is_panic {A : Type} (x : outcome A) : bool :=
  match x with Panic => true | _ => false end.

Lemma bind_ok A B (x : outcome A) (f : A -> outcome B) b :
  bind x f = Ok b -> exists a, x = Ok a /\ f a = Ok b.
Proof. destruct x as [a| |]; simpl; intros H; try discriminate; exists a; auto. Qed.
