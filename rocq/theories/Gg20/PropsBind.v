(** C41: what the challenges of the GG20 proofs bind.  With a collision-free hash, two accepted proofs with the same
    challenge are about the same statement and reconstruct the same commitments. *)
From Coq Require Import ZArith Lia.
From mathcomp Require Import ssreflect ssrfun ssrbool eqtype ssrnat seq choice ssralg.
From Verif Require Import Lib.Res Core.ModModel Core.PropsMod Gg20.ZkModel Gg20.ZkProofs.
Set Implicit Arguments. Unset Strict Implicit. Unset Printing Implicit Defensive.
Local Open Scope Z_scope.

Lemma bind_ok (A B : Type) (x : outcome A) (f : A -> outcome B) b : bind x f = Ok b -> exists2 a, x = Ok a & f a = Ok b.
Proof. by case: x => //= a h; exists a. Qed.

Lemma ct_eq_eq (a b : Z) : ct_eq (Some a) (Some b) -> a = b.
Proof. by have [_ [h _]] := C24_in_and_equality; move/h => [->]. Qed.

(** the statement of a range-1 proof *)
Definition stmt1 (cp : cparams) (N : Z) (dp : dparams) (C : Z) : seq Z :=
  [:: cGx cp; cGy cp; cq cp; N; dN dp; dH1 dp; dH2 dp; C].

Theorem C41_range1_binding : forall fs : seq Z -> Z, injective fs ->
  forall cp N dp C pi cp' N' dp' C' pi',
  verify1 fs cp N dp C pi = Ok tt -> verify1 fs cp' N' dp' C' pi' = Ok tt -> p1e pi = p1e pi' ->
  [/\ stmt1 cp N dp C = stmt1 cp' N' dp' C', p1z pi = p1z pi',
      c_hat N (p1s1 pi) (p1s pi) (p1e pi) C = c_hat N' (p1s1 pi') (p1s pi') (p1e pi') C'
    & h_hat dp (p1s1 pi) (p1s2 pi) (p1e pi) (p1z pi) = h_hat dp' (p1s1 pi') (p1s2 pi') (p1e pi') (p1z pi')].
Proof.
move=> fs hfs cp N dp C pi cp' N' dp' C' pi'; rewrite /verify1.
case: ifP => // _ h; have {h} [u hu h] := bind_ok h; have {h} [w hw h] := bind_ok h; move: h; case: ifP => // h _; have {h} he := ct_eq_eq h.
case: ifP => // _ h; have {h} [u' hu' h] := bind_ok h; have {h} [w' hw' h] := bind_ok h; move: h; case: ifP => // h _ e; have {h} he' := ct_eq_eq h.
move: e; rewrite {1}he {1}he' => /hfs[] h1 h2 h3 h4 h5 h6 h7 h8 h9 h10 h11.
by rewrite hu hu' hw hw' h10 h11 /stmt1 h1 h2 h3 h4 h5 h6 h7 h8.
Qed.

(** the statement of a range-2 proof; with the curve check it includes the coordinates of X *)
Definition stmt2 (G : zmodType) (px py : G -> Z) (cp : cparams) (N : Z) (dp : dparams) (c1 c2 : Z) (wc : option G) : seq Z :=
  [:: cGx cp; cGy cp; cq cp; N; dN dp; dH1 dp; dH2 dp]
  ++ (if wc is Some X then [:: px X; py X] else [::]) ++ [:: c1; c2].

(** the commitments a range-2 verifier reconstructs *)
Definition hats2 (G : zmodType) (g : G) (px py : G -> Z) cp N dp c1 c2 (wc : option G) (pi : range2) :=
  (if wc is Some X then let u := u_hat (cq cp) g X (p2s1 pi) (p2e pi) in [:: px u; py u] else [::],
   (p2z pi, p2t pi, h_hat dp (p2s1 pi) (p2s2 pi) (p2e pi) (p2z pi)),
   v_hat2 N (p2s1 pi) (p2s pi) (p2e pi) (p2t1 pi) c1 c2,
   h_hat dp (p2t1 pi) (p2t2 pi) (p2e pi) (p2t pi)).

Theorem C41_range2_binding : forall fs : seq Z -> Z, injective fs ->
  forall (G : zmodType) (g : G) (px py : G -> Z) cp N dp c1 c2 wc pi cp' N' dp' c1' c2' wc' pi',
  verify2 fs g px py cp N dp c1 c2 wc pi = Ok tt -> verify2 fs g px py cp' N' dp' c1' c2' wc' pi' = Ok tt ->
  p2e pi = p2e pi' ->
  stmt2 px py cp N dp c1 c2 wc = stmt2 px py cp' N' dp' c1' c2' wc' /\
  hats2 g px py cp N dp c1 c2 wc pi = hats2 g px py cp' N' dp' c1' c2' wc' pi'.
Proof.
move=> fs hfs G g px py cp N dp c1 c2 wc pi cp' N' dp' c1' c2' wc' pi'; rewrite /verify2 /hats2 /stmt2 /fs2.
case: ifP => // _; case: ifP => // _ h; have {h} [a ha h] := bind_ok h; have {h} [b hb h] := bind_ok h; have {h} [c hc h] := bind_ok h; move: h; case: ifP => // h _; have {h} he := ct_eq_eq h.
case: ifP => // _; case: ifP => // _ h; have {h} [a' ha' h] := bind_ok h; have {h} [b' hb' h] := bind_ok h; have {h} [c' hc' h] := bind_ok h; move: h; case: ifP => // h _ e; have {h} he' := ct_eq_eq h.
rewrite ha hb hc ha' hb' hc'; move: e; rewrite {1}he {1}he' => /hfs {he he'}.
case: wc wc' => [X|] [X'|] /= [] *; try discriminate; by split; [congruence|do ?congr pair; congruence].
Qed.

(** the statement of a proof that X = R^x for the plaintext x of C *)
Definition stmt_pdl (G : zmodType) (px py : G -> Z) (cp : cparams) (N : Z) (dp : dparams) (C : Z) (X R : G) : seq Z :=
  [:: N; dN dp; dH1 dp; dH2 dp; cGx cp; cGy cp; cq cp; px R; py R; px X; py X; C].

Theorem C41_pdl_binding : forall fs : seq Z -> Z, injective fs ->
  forall (G : zmodType) (px py : G -> Z) cp N dp C X R pi cp' N' dp' C' X' R' pi',
  pdl_verify fs px py cp N dp C X R pi = Ok tt -> pdl_verify fs px py cp' N' dp' C' X' R' pi' = Ok tt ->
  p1e pi = p1e pi' ->
  [/\ stmt_pdl px py cp N dp C X R = stmt_pdl px py cp' N' dp' C' X' R', p1z pi = p1z pi',
      (let u := u_hat (cq cp) R X (p1s1 pi) (p1e pi) in (px u, py u)) =
      (let u := u_hat (cq cp') R' X' (p1s1 pi') (p1e pi') in (px u, py u)),
      c_hat N (p1s1 pi) (p1s pi) (p1e pi) C = c_hat N' (p1s1 pi') (p1s pi') (p1e pi') C'
    & h_hat dp (p1s1 pi) (p1s2 pi) (p1e pi) (p1z pi) = h_hat dp' (p1s1 pi') (p1s2 pi') (p1e pi') (p1z pi')].
Proof.
move=> fs hfs G px py cp N dp C X R pi cp' N' dp' C' X' R' pi'; rewrite /pdl_verify /pdl_fs.
case: ifP => // _ h; have {h} [u hu h] := bind_ok h; have {h} [w hw h] := bind_ok h; move: h; case: ifP => // h _; have {h} he := ct_eq_eq h.
case: ifP => // _ h; have {h} [u' hu' h] := bind_ok h; have {h} [w' hw' h] := bind_ok h; move: h; case: ifP => // h _ e; have {h} he' := ct_eq_eq h.
rewrite hu hu' hw hw'; move: e; rewrite {1}he {1}he' => /hfs[] *.
by rewrite /stmt_pdl; split; congruence.
Qed.

Print Assumptions C41_range1_binding.
Print Assumptions C41_range2_binding.
Print Assumptions C41_pdl_binding.

(** a hash that is injective and, as the completeness theorems ask, nonnegative *)
Definition fs_inj (l : seq Z) : Z := Z.of_nat (pickle [seq (Z.to_nat z, Z.to_nat (- z)) | z <- l]).

Example C41_binding_hyps : injective fs_inj /\ forall l, 0 <= fs_inj l.
Proof.
split; last by move=> l; exact: Nat2Z.is_nonneg.
move=> l l' /Nat2Z.inj /(pcan_inj pickleK) h.
by apply: inj_map h => x y [h1 h2]; lia.
Qed.
