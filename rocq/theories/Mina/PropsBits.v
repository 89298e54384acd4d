(** C73: the bit vector behaves as a list of booleans under every history of operations. *)
From mathcomp Require Import all_ssreflect zify.
From Verif Require Import Lib.Res Lib.Bytes Mina.BitModel Mina.BitBytes Mina.BitProofs.
Set Implicit Arguments.
Unset Strict Implicit.
Unset Printing Implicit Defensive.

(** ** Specification: lists of booleans *)
Inductive op := Append (bit : nat) | SetAt (bit i : nat) | Insert (bit i : nat) | Delete (i : nat).

(** the bit argument counts as set exactly when it is 1; an index must be inside the list *)
Definition spec_step (o : op) (s : seq bool) : option (seq bool) :=
  match o with
  | Append b => Some (s ++ [:: b == 1])
  | SetAt b i => if i < size s then Some (take i s ++ (b == 1) :: drop i.+1 s) else None
  | Insert b i => if i < size s then Some (take i s ++ (b == 1) :: drop i s) else None
  | Delete i => if i < size s then Some (take i s ++ drop i.+1 s) else None
  end.
Fixpoint spec_run (l : seq op) (s : seq bool) : option (seq bool) :=
  if l is o :: l' then obind (spec_run l') (spec_step o s) else Some s.

(** the same history on the Go vector *)
Definition go_step (o : op) (v : bitvec) : outcome bitvec :=
  match o with
  | Append b => bv_append b v
  | SetAt b i => bv_set b i v
  | Insert b i => bv_insert b i v
  | Delete i => bv_delete i v
  end.
Fixpoint go_run (l : seq op) (v : bitvec) : outcome bitvec :=
  if l is o :: l' then do w <- go_step o v; go_run l' w else Ok v.

Theorem C73_append b v : bv_wf v ->
  exists w, bv_append b v = Ok w /\ bv_wf w /\ bv_bits w = bv_bits v ++ [:: b == 1].
Proof. by move=> h; have [w [h1 [h2 h3]]] := append_ok b h; exists w; rewrite cats1. Qed.

Theorem C73_element v i : bv_wf v ->
  bv_element v i = if i < size (bv_bits v) then Ok (nat_of_bool (nth false (bv_bits v) i)) else Panic.
Proof.
move=> h; rewrite size_bits; case: ltnP => hi; first exact: element_ok.
by rewrite /bv_element /index_assert ltnNge hi.
Qed.

Lemma step_ok o v : bv_wf v ->
  match spec_step o (bv_bits v) with
  | Some s => exists w, go_step o v = Ok w /\ bv_wf w /\ bv_bits w = s
  | None => go_step o v = Panic
  end.
Proof.
move=> h; case: o => [b|b i|b i|i] /=; rewrite ?size_bits.
- exact: C73_append.
- case: ltnP => hi; last by rewrite /bv_set /index_assert ltnNge hi.
  have [w [e [hw hb]]] := set_ok b h hi; exists w; split => //; split => //; rewrite hb.
  apply: (@eq_from_nth _ false) => [|j].
    by rewrite size_set_nth size_cat /= size_drop size_takel size_bits; [lia|exact: ltnW].
  rewrite size_set_nth size_bits (maxn_idPr hi) => hj; rewrite nth_set_nth nth_cat size_takel ?size_bits ?(ltnW hi) //=.
  case: eqP => [->|ne]; first by rewrite ltnn subnn.
  case: ltnP => ji; first by rewrite nth_take.
  have -> : j - i = (j - i.+1).+1 by lia.
  by rewrite /= nth_drop; congr nth; lia.
- case: ltnP => hi; last by rewrite /bv_insert /index_assert ltnNge hi.
  exact: insert_ok.
- case: ltnP => hi; last by rewrite /bv_delete /index_assert ltnNge hi.
  exact: delete_ok.
Qed.

(** every history: same contents, and a panic exactly when the list operation has no result *)
Theorem C73_history l v : bv_wf v ->
  match spec_run l (bv_bits v) with
  | Some s => exists w, go_run l v = Ok w /\ bv_wf w /\ bv_bits w = s
  | None => go_run l v = Panic
  end.
Proof.
elim: l v => [|o l IH] v h /=; first by exists v.
have := step_ok o h; case: (spec_step _ _) => [s|] /=; last by move=> ->.
by move=> [w [-> [hw <-]]]; apply: IH.
Qed.

(** a vector of zero bytes is the empty list, so all histories from NewBitVector(make([]byte, n), 0) are covered *)
Theorem C73_new n : bv_wf (bv_new (nseq n 0) 0) /\ bv_bits (bv_new (nseq n 0) 0) = [::].
Proof. by split=> //; rewrite /bv_wf /= andbT /is_bytes all_nseq orbT. Qed.

(** NewBitVector does not check that [data] is long enough; exactly when it is short by a whole byte or more
    beyond the bit to add, Append panics *)
Theorem C73_append_panics b v :
  is_panic (bv_append b v) = (8 * (size (bv_data v)).+1 <= bv_len v).
Proof.
rewrite /bv_append /at_byte; set d := grow _ _.
have hd : (bv_len v %/ 8 < size d) = (bv_len v < 8 * (size (bv_data v)).+1).
  rewrite /d /grow /=; case: (ltnP (size (bv_data v)) (bv_len v %/ 8).+1) => h.
    by rewrite size_rcons divlt.
  by rewrite h; apply/esym; move: h; rewrite divlt; lia.
by rewrite hd; case: (ltnP (bv_len v) (8 * (size (bv_data v)).+1)).
Qed.

Print Assumptions C73_append.
Print Assumptions C73_element.
Print Assumptions C73_history.
Print Assumptions C73_new.
Print Assumptions C73_append_panics.

(** insert into the middle of a 9-bit vector, delete from it, across the byte boundary *)
Example C73_hyps :
  let v := BV [:: 165; 1]%N 9 in
  bv_wf v /\ bv_bits v = [:: true; false; true; false; false; true; false; true; true] /\
  (if go_run [:: Insert 1 3; Delete 0; Append 0; SetAt 1 8] v is Ok w then
     (bv_bits w == [:: false; true; true; false; false; true; false; true; true; false]) && (bv_data w == [:: 166; 1]%N)
   else false) /\ go_run [:: Insert 1 9] v = Panic.
Proof. by vm_compute. Qed.

Example C73_short : bv_wf (BV [:: 7]%N 17) = false /\ is_panic (bv_append 1 (BV [:: 7]%N 17)) = true.
Proof. by vm_compute. Qed.
