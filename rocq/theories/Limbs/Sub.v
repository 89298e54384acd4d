(** The limb code of Sub and Opp: subtract, then add the modulus back when there was a borrow. *)
From Coq Require Import ZArith NArith List Bool Lia.
From Verif Require Import Limbs.Model Limbs.Spec Limbs.Checker Limbs.Elim.
Import ListNotations.
Local Open Scope Z_scope.

Definition masked (k : Z) : opd := if k =? W - 1 then R 17 else if k =? 0 then K 0 else Am 17 k.
Definition sub_body (a0 a1 a2 a3 b0 b1 b2 b3 : opd) (m : limbs) : list instr :=
  [ISub 9 10 a0 b0 (K 0); ISub 11 12 a1 b1 (R 10); ISub 13 14 a2 b2 (R 12); ISub 15 16 a3 b3 (R 14);
   ICmov 17 (R 16) (K 0) (K (W - 1));
   IAdd 18 19 (R 9) (masked (l0 m)) (K 0); IAdd 20 21 (R 11) (masked (l1 m)) (R 19);
   IAdd 22 23 (R 13) (masked (l2 m)) (R 21); IAddS 24 (R 15) (masked (l3 m)) (R 23)].

Definition outs_ok (c : code) : bool := (N.eqb (out0 c) 18 && N.eqb (out1 c) 20 && N.eqb (out2 c) 22 && N.eqb (out3 c) 24)%N.
Definition bounded (c : code) : bool :=
  match bounds init (body c) with
  | Some st => forallb (fun r => negb (fresh st r)) [9; 11; 13; 15; 18; 20; 22]%N &&
               match find st 16%N with Some u => u <=? 1 | None => false end
  | None => false
  end.
Definition sub_check (c : code) (m : limbs) : bool :=
  instrs_eqb (body c) (sub_body (R 1) (R 2) (R 3) (R 4) (R 5) (R 6) (R 7) (R 8) m) && outs_ok c && bounded c.
Definition opp_check (c : code) (m : limbs) : bool :=
  instrs_eqb (body c) (sub_body (K 0) (K 0) (K 0) (K 0) (R 1) (R 2) (R 3) (R 4) m) && outs_ok c && bounded c.

Lemma masked_ok E k : 0 <= k < W -> E 17%N = 0 \/ E 17%N = W - 1 -> lv E (masked k) = (if E 17%N =? 0 then 0 else k).
Proof.
intros hk hE; unfold masked; destruct (Z.eqb_spec k (W - 1)) as [->|n1]; [|destruct (Z.eqb_spec k 0) as [->|n2]]; simpl.
- destruct hE as [-> | ->]; [reflexivity|]. destruct (Z.eqb_spec (W - 1) 0); wpos.
- destruct (E 17%N =? 0); reflexivity.
- destruct hE as [-> | ->]; [reflexivity|].
  destruct (Z.eqb_spec (W - 1) 0) as [e|_]; [pose proof W_pos; lia|].
  change (W - 1) with (Z.ones 64); rewrite Z.land_comm, Z.land_ones by lia; apply Z.mod_small; exact hk.
Qed.

Lemma sub_final a0 a1 a2 a3 b0 b1 b2 b3 m0 m1 m2 m3 d0 d1 d2 d3 o0 o1 o2 o3 s0 s1 s2 s3 c0 c1 c2 :
  let A := a0 + W * (a1 + W * (a2 + W * a3)) in
  let B := b0 + W * (b1 + W * (b2 + W * b3)) in
  let M := m0 + W * (m1 + W * (m2 + W * m3)) in
  0 <= A < M -> 0 <= B < M -> 0 <= m0 < W -> 0 <= m1 < W -> 0 <= m2 < W -> 0 <= m3 < W ->
  0 <= d0 < W -> 0 <= d1 < W -> 0 <= d2 < W -> 0 <= d3 < W -> 0 <= o3 <= 1 ->
  0 <= s0 < W -> 0 <= s1 < W -> 0 <= s2 < W ->
  d0 - W * o0 = a0 - b0 - 0 -> d1 - W * o1 = a1 - b1 - o0 -> d2 - W * o2 = a2 - b2 - o1 -> d3 - W * o3 = a3 - b3 - o2 ->
  let k x := if o3 =? 0 then 0 else x in
  s0 + W * c0 = d0 + k m0 + 0 -> s1 + W * c1 = d1 + k m1 + c0 -> s2 + W * c2 = d2 + k m2 + c1 ->
  s3 = (d3 + k m3 + c2) mod W ->
  let O := s0 + W * (s1 + W * (s2 + W * s3)) in
  0 <= s3 < W /\ 0 <= O < M /\ (O = A - B \/ O = A - B + M).
Proof.
intros A B M hA hB h1 h2 h3 h4 hd0 hd1 hd2 hd3 ho hs0 hs1 hs2 e0 e1 e2 e3 k f0 f1 f2 f3 O.
pose proof (Z.div_mod (d3 + k m3 + c2) W ltac:(wpos)) as hdm.
pose proof (Z.mod_pos_bound (d3 + k m3 + c2) W ltac:(wpos)) as hmb.
rewrite <- f3 in hdm, hmb.
set (q := (d3 + k m3 + c2) / W) in *; clearbody q.
split; [exact hmb|].
unfold k in *; clear k.
assert (ho' : o3 = 0 \/ o3 = 1) by lia.
assert (hW : W = 18446744073709551616) by reflexivity.
destruct ho' as [-> | ->]; cbn [Z.eqb] in *.
- assert (hq : d0 + W * (d1 + W * (d2 + W * d3)) = A - B) by (unfold A, B; clear - e0 e1 e2 e3; nia).
  assert (q * W ^ 4 + O = A - B). { unfold O; rewrite hW in *; lia. }
  assert (0 <= O < W^4) by (unfold O; rewrite hW in *; lia).
  assert (0 <= M < W^4) by (unfold M; rewrite hW in *; lia).
  rewrite hW in *; lia.
- assert (hq : d0 + W * (d1 + W * (d2 + W * d3)) - W^4 = A - B) by (unfold A, B; rewrite hW in *; lia).
  assert (q * W ^ 4 + O - W^4 = A - B + M). { unfold O, M; rewrite hW in *; lia. }
  assert (0 <= O < W^4) by (unfold O; rewrite hW in *; lia).
  assert (0 <= M < W^4) by (unfold M; rewrite hW in *; lia).
  assert (0 <= d0 + W * (d1 + W * (d2 + W * d3)) < W^4) by (rewrite hW in *; lia).
  rewrite hW in *; lia.
Qed.

Lemma sub_body_ok c m a b x y : wf m -> wf a -> wf b -> bounded c = true -> outs_ok c = true ->
  let E := exec (body c) (args a b) in
  forall a0 a1 a2 a3 b0 b1 b2 b3, body c = sub_body a0 a1 a2 a3 b0 b1 b2 b3 m ->
  (agree init (args a b) E ->
   x = lv E a0 + W * (lv E a1 + W * (lv E a2 + W * lv E a3)) /\
   y = lv E b0 + W * (lv E b1 + W * (lv E b2 + W * lv E b3))) ->
  0 <= x < eval m -> 0 <= y < eval m ->
  wf (run c a b) /\ 0 <= eval (run c a b) < eval m /\
  (eval (run c a b) = x - y \/ eval (run c a b) = x - y + eval m).
Proof.
intros hm ha hb hbd ho E a0 a1 a2 a3 b0 b1 b2 b3 he hxy hx hy.
unfold bounded in hbd; destruct (bounds init (body c)) as [st|] eqn:eb; [|discriminate].
destruct (bounds_ok _ _ _ _ eb (init_inv _ _ ha hb)) as (hi & hg & _ & hh); fold E in hi, hg, hh.
apply andb_true_iff in hbd as [hfr h16].
assert (h16' : 0 <= E 16%N <= 1).
{ destruct (find st 16%N) as [u|] eqn:e; [|discriminate]; destruct (hi _ _ e); apply Z.leb_le in h16; lia. }
assert (hr : forall r, In r [9; 11; 13; 15; 18; 20; 22]%N -> 0 <= E r < W).
{ intros r hin; rewrite forallb_forall in hfr; specialize (hfr _ hin); unfold fresh in hfr.
  destruct (find st r) as [u|] eqn:e; [|discriminate]; destruct (hi _ _ e); lia. }
destruct (hxy hg) as [ex ey]; clear hxy.
unfold outs_ok in ho; apply andb_true_iff in ho as [ho h3]; apply andb_true_iff in ho as [ho h2];
  apply andb_true_iff in ho as [h0 h1]; apply N.eqb_eq in h0, h1, h2, h3.
unfold wf, eval, run; fold E; rewrite h0, h1, h2, h3; cbn [l0 l1 l2 l3].
rewrite he in eb, hh; unfold sub_body in hh.
repeat match goal with H : Forall _ (_ :: _) |- _ => let h := fresh in pose proof (Forall_inv H) as h; apply Forall_inv_tail in H end.
cbn [holds lv] in *.
destruct hm as (hm0 & hm1 & hm2 & hm3).
assert (h17 : E 17%N = if E 16%N =? 0 then 0 else W - 1) by assumption.
assert (hk : forall k, 0 <= k < W -> lv E (masked k) = if E 16%N =? 0 then 0 else k).
{ intros k hk; rewrite masked_ok by (auto; rewrite h17; destruct (E 16%N =? 0); auto).
  rewrite h17; destruct (E 16%N =? 0); [reflexivity|]; destruct (Z.eqb_spec (W - 1) 0) as [e|_]; [|reflexivity].
  discriminate e. }
rewrite hk in * by assumption.
assert (h : 0 <= E 24%N < W /\ 0 <= E 18%N + W * (E 20%N + W * (E 22%N + W * E 24%N)) < eval m /\
  (E 18%N + W * (E 20%N + W * (E 22%N + W * E 24%N)) = x - y \/
   E 18%N + W * (E 20%N + W * (E 22%N + W * E 24%N)) = x - y + eval m)).
{ rewrite ex, ey in *; unfold eval in *.
  eapply (sub_final _ _ _ _ _ _ _ _ _ _ _ _ (E 9%N) (E 11%N) (E 13%N) (E 15%N) (E 10%N) (E 12%N) (E 14%N) (E 16%N)
    (E 18%N) (E 20%N) (E 22%N) (E 24%N) (E 19%N) (E 21%N) (E 23%N));
  first [eassumption | apply hr; simpl; tauto]. }
destruct h as (g1 & g2 & g3); split; [|split; assumption].
split; [apply hr; simpl; tauto|]; split; [apply hr; simpl; tauto|]; split; [apply hr; simpl; tauto|]; assumption.
Qed.

Lemma args_init a b E r : agree init (args a b) E -> In r [1; 2; 3; 4; 5; 6; 7; 8]%N -> E r = args a b r.
Proof.
intros hg hr; symmetry; apply hg; unfold init; revert hr; simpl.
intros [<-|[<-|[<-|[<-|[<-|[<-|[<-|[<-|[]]]]]]]]]; simpl; congruence.
Qed.

Lemma sub_ok c m a b : sub_check c m = true -> wf m -> wf a -> wf b -> eval a < eval m -> eval b < eval m ->
  wf (run c a b) /\ 0 <= eval (run c a b) < eval m /\
  (eval (run c a b) = eval a - eval b \/ eval (run c a b) = eval a - eval b + eval m).
Proof.
intros hc hm ha hb hA hB; apply andb_true_iff in hc as [hc hbd]; apply andb_true_iff in hc as [hc ho].
apply instrs_eqb_ok in hc.
assert (h1 : 0 <= eval a) by (destruct ha as (? & ? & ? & ?); unfold eval; pose proof W_pos; nia).
assert (h2 : 0 <= eval b) by (destruct hb as (? & ? & ? & ?); unfold eval; pose proof W_pos; nia).
apply (sub_body_ok c m a b (eval a) (eval b) hm ha hb hbd ho _ _ _ _ _ _ _ _ hc); [|lia|lia].
intros hg; cbn [lv]; rewrite !(args_init _ _ _ _ hg) by (simpl; tauto); split; reflexivity.
Qed.

Lemma opp_ok c m a : opp_check c m = true -> wf m -> wf a -> eval a < eval m ->
  wf (run c a a) /\ 0 <= eval (run c a a) < eval m /\
  (eval (run c a a) = - eval a \/ eval (run c a a) = eval m - eval a).
Proof.
intros hc hm ha hA; apply andb_true_iff in hc as [hc hbd]; apply andb_true_iff in hc as [hc ho].
apply instrs_eqb_ok in hc.
assert (h1 : 0 <= eval a) by (destruct ha as (? & ? & ? & ?); unfold eval; pose proof W_pos; nia).
replace (- eval a) with (0 - eval a) by lia; replace (eval m - eval a) with (0 - eval a + eval m) by lia.
apply (sub_body_ok c m a a 0 (eval a) hm ha ha hbd ho _ _ _ _ _ _ _ _ hc); [|lia|lia].
intros hg; cbn [lv]; rewrite !(args_init _ _ _ _ hg) by (simpl; tauto); split; [ring|reflexivity].
Qed.
