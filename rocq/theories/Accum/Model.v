(** Model of pkg/accumulator.  F: the scalars; G1, G2, GT: the pairing groups; e: the pairing.  Points,
    scalars and list elements are non-nil except where [option] says otherwise; nil slices are [None]
    where the code tells them from empty ones.  Serialisation is not modelled here (the points and scalars
    are the decoded ones). *)
From mathcomp Require Import all_ssreflect all_algebra.
From Verif Require Import Lib.Res Lib.Bytes Lib.Pairing.
Set Implicit Arguments.
Unset Strict Implicit.
Unset Printing Implicit Defensive.
Import GRing.Theory.
Local Open Scope ring_scope.

Section Accum.
Variables (F : fieldType) (G1 G2 GT : lmodType F) (g1 : G1) (g2 : G2) (e : G1 -> G2 -> GT).

(** Scalar.Invert: an error for zero *)
Definition invert (x : F) : outcome F := if x == 0 then Err else Ok x^-1.

(* ------------------------------------------------------ lib.go *)
(** lib.go:19-41 dad: nil slice is an error; the case of one element is treated apart *)
Definition dad (values : option (seq F)) (y : F) : outcome F :=
  match values with
  | None => Err
  | Some vs =>
    Ok (if size vs == 1%N then head 0 vs - y else foldl (fun r v => r * (v - y)) 1 vs)
  end.

(** lib.go:46-64 evaluate: [pp] is the running power, [res] the running sum; p[0] panics on an empty slice *)
Definition evaluate (p : seq G1) (x : F) : outcome G1 :=
  match p with
  | [::] => Panic
  | c :: r => Ok (foldl (fun st a => (st.1 * x, st.2 + st.1 *: a)) (x, c) r).2
  end.

(** lib.go:67-90 Add *)
Definition ppoint_add (p q : seq G1) : seq G1 :=
  [seq (if (i < size p)%N then if (i < size q)%N then p`_i + q`_i else p`_i + 0 else q`_i + 0)
     | i <- iota 0 (maxn (size p) (size q))].
(** lib.go:93-104 Mul *)
Definition ppoint_mul (p : seq G1) (k : F) : seq G1 := [seq k *: a | a <- p].

(** lib.go:109-132 Add *)
Definition poly_add (p q : seq F) : seq F :=
  [seq (if (i < size p)%N then if (i < size q)%N then p`_i + q`_i else p`_i else q`_i)
     | i <- iota 0 (maxn (size p) (size q))].
(** lib.go:135-158 Sub *)
Definition poly_sub (p q : seq F) : seq F :=
  [seq (if (i < size p)%N then if (i < size q)%N then p`_i - q`_i else p`_i else - q`_i)
     | i <- iota 0 (maxn (size p) (size q))].
(** lib.go:161-192 Mul: prod[i+j] += p[i]*rhs[j]; p[0] panics for an empty p *)
Definition poly_mul (p q : seq F) : outcome (seq F) :=
  if (size p == 0)%N then Panic else
  Ok (foldl (fun prod i =>
        foldl (fun prod j => set_nth 0 prod (i + j) (prod`_(i + j) + p`_i * q`_j)) prod (iota 0 (size q)))
      (nseq (size p + size q).-1 0) (iota 0 (size p))).
(** lib.go:195-204 MulScalar *)
Definition poly_scale (p : seq F) (k : F) : seq F := [seq a * k | a <- p].

(* ------------------------------------------------------ key.go *)
(** key.go:72-87 BatchAdditions *)
Definition batch_additions (sk : F) (ys : seq F) : F := foldl (fun m y => m * (y + sk)) 1 ys.
(** key.go:90-100 BatchDeletions *)
Definition batch_deletions (sk : F) (ys : seq F) : outcome F := invert (batch_additions sk ys).

(** key.go:119-135 and 169-183: the product of (y_j - x) for the listed y_j, starting from the constant one *)
Fixpoint factors (poly : seq F) (ys : seq F) : outcome (seq F) :=
  match ys with
  | [::] => Ok poly
  | y :: r => do p' <- poly_mul poly [:: y; - 1]; factors p' r
  end.

(** key.go:113-144: the loop over s building vD *)
Fixpoint loopD (sk : F) (dels : seq F) (ss : seq nat) (vD : seq F) : outcome (seq F) :=
  match ss with
  | [::] => Ok vD
  | s :: r =>
    do c <- batch_deletions sk (take s.+1 dels);
    do poly <- factors [:: 1] (take s dels);
    loopD sk dels r (poly_add vD (poly_scale poly c))
  end.
(** key.go:158-192: the loop over s building vA *)
Fixpoint loopA (sk : F) (adds : seq F) (ss : seq nat) (vA : seq F) : outcome (seq F) :=
  match ss with
  | [::] => Ok vA
  | s :: r =>
    let c := if (s == 0)%N then 1 else batch_additions sk (take s adds) in
    do poly <- factors [:: 1] (drop s.+1 adds);
    loopA sk adds r (poly_add vA (poly_scale poly c))
  end.
(** key.go:104-204 CreateCoefficients *)
Definition create_coefficients (sk : F) (adds dels : seq F) : outcome (seq F) :=
  do vD <- loopD sk dels (iota 0 (size dels)) [::];
  let bAdd := batch_additions sk adds in
  do vA <- loopA sk adds (iota 0 (size adds)) [::];
  Ok (poly_sub vA (poly_scale vD bAdd)).

(** key.go:30-36 GetPublicKey *)
Definition public_key (sk : F) : G2 := sk *: g2.

(* ------------------------------------------------------ accumulator.go *)
(** accumulator.go:38-47 New *)
Definition acc_new : G1 := g1.
(** accumulator.go:52-63 WithElements *)
Definition with_elements (sk : F) (ys : seq F) : G1 := batch_additions sk ys *: acc_new.
(** accumulator.go:66-76 AddElements *)
Definition add_elements (acc : G1) (sk : F) (ys : seq F) : G1 := batch_additions sk ys *: acc.
(** accumulator.go:80-87 Add *)
Definition acc_add (acc : G1) (sk y : F) : outcome G1 :=
  if acc == 0 then Err else Ok ((y + sk) *: acc).
(** accumulator.go:91-102 Remove *)
Definition acc_remove (acc : G1) (sk y : F) : outcome G1 :=
  if acc == 0 then Err else do i <- invert (y + sk); Ok (i *: acc).
(** accumulator.go:106-139 Update: the new value and the coefficients *)
Definition acc_update (acc : G1) (sk : F) (adds dels : seq F) : outcome (G1 * seq G1) :=
  if acc == 0 then Err else
  let a := batch_additions sk adds in
  do d <- batch_deletions sk dels;
  do elements <- create_coefficients sk adds dels;
  Ok ((a * d) *: acc, [seq x *: acc | x <- elements]).

(* ------------------------------------------------------ witness.go *)
(** witness.go:19-22 *)
Record witness := Wit { w_c : G1; w_y : F }.
(** witness.go:25-43 New *)
Definition wit_new (y : F) (acc : G1) (sk : F) : outcome witness :=
  if acc == 0 then Err else if sk == 0 then Err else if y == 0 then Err else
  do c <- acc_remove acc sk y; Ok (Wit c (y + 0)).
(** witness.go:47-88 Verify *)
Definition wit_verify (w : witness) (pk : G2) (acc : G1) : outcome unit :=
  if (w_c w == 0) || (w_y w == 0) then Err else
  if pk == 0 then Err else
  if acc == 0 then Err else
  let p := w_y w *: g2 + pk in
  if multi_pairing e [:: (w_c w, p); (- acc, g2)] == 0 then Ok tt else Err.

(** witness.go:179-182 *)
Record delta := Delta { dl_d : F; dl_p : G1 }.
(** witness.go:93-101 ApplyDelta *)
Definition apply_delta (w : witness) (d : delta) : witness := Wit (dl_d d *: w_c w + dl_p d) (w_y w).

(** witness.go:343-378 evaluateDelta *)
Definition evaluate_delta (y : F) (adds dels : option (seq F)) (coefs : seq G1) : outcome delta :=
  do d0 <- dad dels y;
  do d <- invert d0;
  do a <- dad adds y;
  do v <- evaluate coefs y;
  Ok (Delta (a * d) (d *: v)).
(** witness.go:104-114 BatchUpdate *)
Definition batch_update (w : witness) (adds dels : option (seq F)) (coefs : seq G1) : outcome witness :=
  do d <- evaluate_delta (w_y w) adds dels coefs; Ok (apply_delta w d).

(** witness.go:247-278: the values dA_s(y), dD_s(y) of every epoch, and their products *)
Fixpoint eval_dads (y : F) (AD : seq (option (seq F) * option (seq F))) (a d : F) (aa dd : seq F)
  : outcome (F * F * seq F * seq F) :=
  match AD with
  | [::] => Ok (a, d, aa, dd)
  | (adds, dels) :: r =>
    do ta <- dad adds y;
    do td <- dad dels y;
    eval_dads y r (a * ta) (d * td) (rcons aa ta) (rcons dd td)
  end.
(** witness.go:287-324: the polynomial p; h runs over 0..i-1 and k over i+1..size-1 *)
Fixpoint eval_omega (C : seq (seq G1)) (n : nat) (i : nat) (aa dd : seq F) (p : seq G1) : seq G1 :=
  match C with
  | [::] => p
  | c :: r =>
    let ddh := foldl (fun x h => x * dd`_h) 1 (iota 0 i) in
    let dak := foldl (fun x k => x * aa`_k) 1 (iota i.+1 (n - i.+1)) in
    eval_omega r n i.+1 aa dd (ppoint_add p (ppoint_mul c (dak * ddh)))
  end.
(** witness.go:239-339 evaluateDeltas *)
Definition evaluate_deltas (y : F) (A D : seq (option (seq F))) (C : seq (seq G1)) : outcome delta :=
  if (size A != size D) || (size A != size C) then Err else
  do (a, d0, aa, dd) <- eval_dads y (zip A D) 1 1 [::] [::];
  do d <- invert d0;
  let p := eval_omega C (size A) 0 aa dd [::] in
  do v <- evaluate p y;
  Ok (Delta (a * d) (d *: v)).
(** witness.go:117-127 MultiBatchUpdate *)
Definition multi_batch_update (w : witness) (A D : seq (option (seq F))) (C : seq (seq G1)) : outcome witness :=
  do d <- evaluate_deltas (w_y w) A D C; Ok (apply_delta w d).

(* ------------------------------------------------------ proof.go *)
Variables (penc : G1 -> bytes) (gtenc : GT -> bytes) (hashF : bytes -> F) (hashG1 : bytes -> G1) (pkenc : G2 -> bytes).

(** proof.go:28-30 *)
Record params := Params { pp_x : G1; pp_y : G1; pp_z : G1 }.
(** proof.go:33-50 New; [pkenc]: the MarshalBinary of the public key *)
Definition params_new (pk : G2) (entropy : bytes) : params :=
  let tail := nseq 31 255%N ++ entropy ++ pkenc pk in
  Params (hashG1 (253%N :: tail)) (hashG1 (254%N :: tail)) (hashG1 (255%N :: tail)).

(** proof.go:493-503: the values the challenge is computed from *)
Record final := Final { f_acc : G1; f_eC : G1; f_tS : G1; f_tR : G1; f_RE : GT; f_RS : G1; f_RR : G1; f_RDS : G1; f_RDR : G1 }.
(** proof.go:100-123: the secret part of MembershipProofCommitting *)
Record secrets := Secrets { s_ds : F; s_dr : F; s_rY : F; s_rS : F; s_rR : F; s_rDS : F; s_rDR : F; s_sigma : F; s_rho : F; s_y : F }.

(** proof.go:126-254 New; the last seven arguments are the random scalars in the order they are drawn *)
Definition committing (w : witness) (acc : G1) (pp : params) (pk : G2) (sigma rho rY rS rR rDS rDR : F) : secrets * final :=
  let eC := (sigma + rho) *: pp_z pp + w_c w in
  let tS := sigma *: pp_x pp in
  let tR := rho *: pp_y pp in
  let RS := rS *: pp_x pp in
  let RR := rR *: pp_y pp in
  let RDS := rY *: tS + rDS *: (- pp_x pp) in
  let RDR := rY *: tR + rDR *: (- pp_y pp) in
  let RE := multi_pairing e [:: (rY *: eC, g2); ((- (rDS + rDR)) *: pp_z pp, g2); ((- (rS + rR)) *: pp_z pp, pk)] in
  (Secrets (w_y w * sigma) (w_y w * rho) rY rS rR rDS rDR sigma rho (w_y w),
   Final acc eC tS tR RE RS RR RDS RDR).

(** proof.go:258-269 GetChallengeBytes, 506-518 GetChallenge: the same encoding *)
Definition challenge_bytes (f : final) : bytes :=
  penc (f_acc f) ++ penc (f_eC f) ++ penc (f_tS f) ++ penc (f_tR f) ++ gtenc (f_RE f) ++
  penc (f_RS f) ++ penc (f_RR f) ++ penc (f_RDS f) ++ penc (f_RDR f).
Definition get_challenge (f : final) : F := hashF (challenge_bytes f).

(** proof.go:317-326 *)
Record proof := Proof { p_eC : G1; p_tS : G1; p_tR : G1; p_sS : F; p_sR : F; p_sDS : F; p_sDR : F; p_sY : F }.
(** proof.go:297-302 schnorr *)
Definition schnorr (r v c : F) : F := v * c + r.
(** proof.go:273-295 GenProof *)
Definition gen_proof (s : secrets) (f : final) (c : F) : proof :=
  Proof (f_eC f) (f_tS f) (f_tR f)
    (schnorr (s_rS s) (s_sigma s) c) (schnorr (s_rR s) (s_rho s) c)
    (schnorr (s_rDS s) (s_ds s) c) (schnorr (s_rDR s) (s_dr s) c) (schnorr (s_rY s) (s_y s) c).

(** proof.go:329-415 Finalize *)
Definition finalize (mp : proof) (acc : G1) (pp : params) (pk : G2) (c : F) : final :=
  let RS := p_sS mp *: pp_x pp + c *: (- p_tS mp) in
  let RR := p_sR mp *: pp_y pp + c *: (- p_tR mp) in
  let RDS := p_sY mp *: p_tS mp + p_sDS mp *: (- pp_x pp) in
  let RDR := p_sY mp *: p_tR mp + p_sDR mp *: (- pp_y pp) in
  let lhs := p_sY mp *: p_eC mp + (- (p_sDS mp + p_sDR mp)) *: pp_z pp + (- c) *: acc in
  let rhs := c *: p_eC mp + (- (p_sS mp + p_sR mp)) *: pp_z pp in
  Final acc (p_eC mp) (p_tS mp) (p_tR mp) (multi_pairing e [:: (lhs, g2); (rhs, pk)]) RS RR RDS RDR.

(** the check a verifier makes (accumulator/proof_test.go): the challenge recomputed from the final values *)
Definition proof_verify (mp : proof) (acc : G1) (pp : params) (pk : G2) (c : F) : bool :=
  get_challenge (finalize mp acc pp pk c) == c.
End Accum.
