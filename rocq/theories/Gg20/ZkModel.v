(** Model of the GG20 zero-knowledge proofs: pkg/tecdsa/gg20/proof/util.go, mta.go (Range1Proof and
    Range2Proof), pdl.go and cdl.go.  big.Ints are [Z]; the nil results big.Int.Exp can return are [None]
    and are handled as the code handles them.  Proof and parameter fields are not nil.  Curve points are
    elements of an abelian group [G] with coordinates [px], [py]; random draws are arguments;
    new(big.Int).SetBytes(core.FiatShamir(l...)) is an arbitrary function [fs l]. *)
From Coq Require Import ZArith.
From mathcomp Require Import ssreflect ssrfun ssrbool eqtype ssrnat seq ssralg.
From Verif Require Import Lib.Res Core.ModModel.
Set Implicit Arguments. Unset Strict Implicit. Unset Printing Implicit Defensive.
Local Open Scope Z_scope.

(** util.go:33-50 pedersen *)
Definition pedersen (g h alpha beta n : Z) : outcome Z :=
  do gAlpha <- core_exp (Some g) (Some alpha) (Some n);
  do hBeta <- core_exp (Some h) (Some beta) (Some n);
  core_mul gAlpha hBeta (Some n).

(** util.go:18-30 inc *)
Definition inc (alpha beta n : Z) : outcome Z := pedersen (n + 1) beta alpha n (n * n).

(** util.go:53-64 schnorr *)
Definition schnorr (x y z : Z) : Z := x * y + z.

(** dealer/dealer.go:90-99 ProofParams *)
Record dparams := DParams { dN : Z; dH1 : Z; dH2 : Z }.
(** the curve parameters that enter the hashes *)
Record cparams := CParams { cGx : Z; cGy : Z; cq : Z }.

(** k-fold multiple of a point for a big.Int k (curves/ec_point.go:176-203 reduces k modulo the group
    order first; with every point of that order this is the same point, see [smul_mod] in ZkProofs.v) *)
Definition smul {G : zmodType} (k : Z) (P : G) : G :=
  match k with
  | Z0 => 0%R
  | Zpos p => (P *+ Pos.to_nat p)%R
  | Zneg p => (- (P *+ Pos.to_nat p))%R
  end.

Section Proofs.
Variable fs : seq Z -> Z.

(* ---------------------------------------------------------------- Range1 *)
(** mta.go:70-73 *)
Record rand1 := Rand1 { r1alpha : Z; r1beta : Z; r1gamma : Z; r1rho : Z }.
(** mta.go:77-79 *)
Record range1 := Range1 { p1z : Z; p1e : Z; p1s : Z; p1s1 : Z; p1s2 : Z }.

(** mta.go:390-445 genProof1; [N] is Pk.N, [A], [C], [R] the parameters of the same name *)
Definition gen_proof1 (cp : cparams) (N : Z) (dp : dparams) (A C R : Z) (rp : rand1) : outcome range1 :=
  do z <- pedersen (dH1 dp) (dH2 dp) A (r1rho rp) (dN dp);
  do u <- inc (r1alpha rp) (r1beta rp) N;
  do w <- pedersen (dH1 dp) (dH2 dp) (r1alpha rp) (r1gamma rp) (dN dp);
  let e := fs [:: cGx cp; cGy cp; cq cp; N; dN dp; dH1 dp; dH2 dp; C; z; u; w] in
  do s <- pedersen R (r1beta rp) e 1 N;
  Ok (Range1 z e s (schnorr e A (r1alpha rp)) (schnorr e (r1rho rp) (r1gamma rp))).

(** mta.go:319-333 Proof1Params.Prove (the draws of rand1, mta.go:337-386, are the argument) *)
Definition prove1 (cp : cparams) (N : Z) (dp : dparams) (A C R : Z) (rp : rand1) : outcome range1 :=
  do _ <- core_in (Some A) (Some (cq cp));
  do _ <- core_in (Some R) (Some N);
  gen_proof1 cp N dp A C R rp.

(** mta.go:491-510 uHatConstruct (Range1) and pdl.go:199-218 vHatConstruct *)
Definition c_hat (N s1 s e C : Z) : outcome Z :=
  do x <- inc s1 s N;
  do cInv <- core_inv (Some C) (Some (N * N));
  do y <- core_exp (Some cInv) (Some e) (Some (N * N));
  core_mul (Some x) y (Some (N * N)).

(** mta.go:513-532 wHatConstruct, 800-819 zHatTickConstruct, 849-869 wHatConstruct, pdl.go:220-240 *)
Definition h_hat (dp : dparams) (s1 s2 e z : Z) : outcome Z :=
  do a <- pedersen (dH1 dp) (dH2 dp) s1 s2 (dN dp);
  do zInv <- core_inv (Some z) (Some (dN dp));
  do b <- core_exp (Some zInv) (Some e) (Some (dN dp));
  core_mul (Some a) b (Some (dN dp)).

(** mta.go:448-489 Range1Proof.Verify *)
Definition verify1 (cp : cparams) (N : Z) (dp : dparams) (C : Z) (pi : range1) : outcome unit :=
  if p1s1 pi >? cq cp ^ 3 then Err else
  do uHat <- c_hat N (p1s1 pi) (p1s pi) (p1e pi) C;
  do wHat <- h_hat dp (p1s1 pi) (p1s2 pi) (p1e pi) (p1z pi);
  let eHat := fs [:: cGx cp; cGy cp; cq cp; N; dN dp; dH1 dp; dH2 dp; C; p1z pi; uHat; wHat] in
  if ct_eq (Some (p1e pi)) (Some eHat) then Ok tt else Err.

Variable G : zmodType.
Variables (g : G) (px py : G -> Z).

(* ---------------------------------------------------------------- Range2 *)
(** mta.go:108-111 *)
Record rand2 := Rand2 { r2alpha : Z; r2beta : Z; r2gamma : Z; r2rho : Z; r2rhoTick : Z; r2sigma : Z; r2tau : Z }.
(** mta.go:115-118 *)
Record range2 := Range2 { p2z : Z; p2e : Z; p2s : Z; p2s1 : Z; p2s2 : Z; p2t : Z; p2t1 : Z; p2t2 : Z }.

(** the argument list of the hash, mta.go:627-642 and 744-760: [Xu] is Some (X, u) with the curve check *)
Definition fs2 (cp : cparams) (N : Z) (dp : dparams) (c1 c2 : Z) (Xu : option (G * G)) (z zt t v w : Z) : Z :=
  fs ([:: cGx cp; cGy cp; cq cp; N; dN dp; dH1 dp; dH2 dp]
      ++ (if Xu is Some (X, _) then [:: px X; py X] else [::]) ++ [:: c1; c2]
      ++ (if Xu is Some (_, u) then [:: px u; py u] else [::]) ++ [:: z; zt; t; v; w]).

(** mta.go:581-683 genProof2 after the range check of x; [wc] is Some X with the curve check *)
Definition gen_proof2 (cp : cparams) (N : Z) (dp : dparams) (x y r c1 c2 : Z) (wc : option G) (rp : rand2)
  : outcome range2 :=
  let Xu := omap (fun X => (X, smul (r2alpha rp) g)) wc in
  do z <- pedersen (dH1 dp) (dH2 dp) x (r2rho rp) (dN dp);
  do zTick <- pedersen (dH1 dp) (dH2 dp) (r2alpha rp) (r2rhoTick rp) (dN dp);
  do t <- pedersen (dH1 dp) (dH2 dp) y (r2sigma rp) (dN dp);
  do vLhs <- core_exp (Some c1) (Some (r2alpha rp)) (Some (N * N));
  do vRhs <- inc (r2gamma rp) (r2beta rp) N;
  do v <- core_mul vLhs (Some vRhs) (Some (N * N));
  do w <- pedersen (dH1 dp) (dH2 dp) (r2gamma rp) (r2tau rp) (dN dp);
  let e := fs2 cp N dp c1 c2 Xu z zTick t v w in
  do s <- pedersen r (r2beta rp) e 1 N;
  Ok (Range2 z e s (schnorr e x (r2alpha rp)) (schnorr e (r2rho rp) (r2rhoTick rp))
        t (schnorr e y (r2gamma rp)) (schnorr e (r2sigma rp) (r2tau rp))).

(** mta.go:537-580 Prove, ProveWc and the check in genProof2 *)
Definition prove2 (cp : cparams) (N : Z) (dp : dparams) (x y r c1 c2 : Z) (wc : option G) (rp : rand2)
  : outcome range2 :=
  do _ <- core_in (Some x) (Some (cq cp));
  gen_proof2 cp N dp x y r c1 c2 wc rp.

(** mta.go:775-798 uHatConstruct and pdl.go:176-197: P^(s1 mod q) * X^(-e) *)
Definition u_hat (q : Z) (P X : G) (s1 e : Z) : G := (smul (s1 mod q) P + smul (- e) X)%R.

(** mta.go:822-847 vHatConstruct *)
Definition v_hat2 (N s1 s e t1 c1 c2 : Z) : outcome Z :=
  do a <- inc t1 s N;
  do c2Inv <- core_inv (Some c2) (Some (N * N));
  do b <- pedersen c1 c2Inv s1 e (N * N);
  core_mul (Some a) (Some b) (Some (N * N)).

(** mta.go:686-773 Verify, VerifyWc, verify2Proof *)
Definition verify2 (cp : cparams) (N : Z) (dp : dparams) (c1 c2 : Z) (wc : option G) (pi : range2) : outcome unit :=
  if p2s1 pi >? cq cp ^ 3 then Err else
  if p2t1 pi >? cq cp ^ 7 then Err else
  do zHatTick <- h_hat dp (p2s1 pi) (p2s2 pi) (p2e pi) (p2z pi);
  do vHat <- v_hat2 N (p2s1 pi) (p2s pi) (p2e pi) (p2t1 pi) c1 c2;
  do wHat <- h_hat dp (p2t1 pi) (p2t2 pi) (p2e pi) (p2t pi);
  let Xu := omap (fun X => (X, u_hat (cq cp) g X (p2s1 pi) (p2e pi))) wc in
  let eHat := fs2 cp N dp c1 c2 Xu (p2z pi) zHatTick (p2t pi) vHat wHat in
  if ct_eq (Some (p2e pi)) (Some eHat) then Ok tt else Err.

(* ---------------------------------------------------------------- PDL *)
(** pdl.go:96-155 PdlProofParams.Prove; [x] is ScalarX, [r] is ScalarR, [X], [R] the points *)
Definition pdl_fs (cp : cparams) (N : Z) (dp : dparams) (R X : G) (C : Z) (u : G) (z v w : Z) : Z :=
  fs [:: N; dN dp; dH1 dp; dH2 dp; cGx cp; cGy cp; cq cp; px R; py R; px X; py X; C; px u; py u; z; v; w].

Definition pdl_prove (cp : cparams) (N : Z) (dp : dparams) (x r C : Z) (X R : G) (rp : rand1) : outcome range1 :=
  let u := smul (r1alpha rp) R in
  do z <- pedersen (dH1 dp) (dH2 dp) x (r1rho rp) (dN dp);
  do v <- inc (r1alpha rp) (r1beta rp) N;
  do w <- pedersen (dH1 dp) (dH2 dp) (r1alpha rp) (r1gamma rp) (dN dp);
  let e := pdl_fs cp N dp R X C u z v w in
  do s <- pedersen r (r1beta rp) e 1 N;
  Ok (Range1 z e s (schnorr e x (r1alpha rp)) (schnorr e (r1rho rp) (r1gamma rp))).

(** pdl.go:159-174 and following: PdlProof.Verify *)
Definition pdl_verify (cp : cparams) (N : Z) (dp : dparams) (C : Z) (X R : G) (pi : range1) : outcome unit :=
  if p1s1 pi >? cq cp ^ 3 then Err else
  let uHat := u_hat (cq cp) R X (p1s1 pi) (p1e pi) in
  do vHat <- c_hat N (p1s1 pi) (p1s pi) (p1e pi) C;
  do wHat <- h_hat dp (p1s1 pi) (p1s2 pi) (p1e pi) (p1z pi);
  let eHat := pdl_fs cp N dp R X C uHat (p1z pi) vHat wHat in
  if ct_eq (Some (p1e pi)) (Some eHat) then Ok tt else Err.

(* ---------------------------------------------------------------- CDL *)
(** cdl.go:16 const ell = 128; kept as a parameter of the functions below *)
Definition cdl_ell : nat := 128.
(** bit i of a non-negative big.Int, as 0 or 1 *)
Definition bitZ (e : Z) (i : nat) : Z := if Z.testbit e (Z.of_nat i) then 1 else 0.

(** cdl.go:76-130 CdlProofParams.Prove; [alphas] are the draws below Pi*Qi *)
Definition cdl_prove (ell : nat) (cp : cparams) (pq h1 h2 x N : Z) (alphas : seq Z) : outcome (seq Z * seq Z) :=
  let us := [seq (h1 ^ a) mod N | a <- take ell alphas] in
  let e := fs ([:: cGx cp; cGy cp; cq cp; N; h1; h2] ++ us) in
  Ok (us, [seq (nth 0 alphas i + bitZ e i * x) mod pq | i <- iota 0 ell]).

(** cdl.go:166-176: the loop over i.  p.s[i] or p.u[i] beyond the end panics; an entry of fsInput that
    copy did not fill is nil and makes FiatShamir fail, so a short u is rejected before the loop. *)
Fixpoint cdl_loop (h1 h2 N e : Z) (us ss : seq Z) (i n : nat) : outcome unit :=
  match n with
  | O => Ok tt
  | S n' =>
    match ss, us with
    | s :: ss', u :: us' =>
      match big_exp h1 s (Some N), big_exp h2 (bitZ e i) (Some N) with
      | Some l, Some r => if l =? (u * r) mod N then cdl_loop h1 h2 N e us' ss' (S i) n' else Err
      | _, _ => Panic
      end
    | _, _ => Panic
    end
  end.
(** cdl.go:134-179 CdlProof.Verify, for N > 0; entries of u beyond ell are ignored by copy *)
Definition cdl_verify (ell : nat) (cp : cparams) (h1 h2 N : Z) (pi : seq Z * seq Z) : outcome unit :=
  if Z.log2 N + 1 <? 1024 then Err else
  if (size pi.1 < ell)%nat then Err else
  let e := fs ([:: cGx cp; cGy cp; cq cp; N; h1; h2] ++ take ell pi.1) in
  cdl_loop h1 h2 N e pi.1 pi.2 0 ell.
End Proofs.
