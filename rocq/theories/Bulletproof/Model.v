(** Model of pkg/bulletproof: the inner product proof, the range proof and the batched range proof.

    F: the scalars; G: the points.  [puenc] is ToAffineUncompressed, [enc]/[dec] are Scalar.Bytes and
    Scalar.SetBytes, [bigint] is Scalar.BigInt.  A merlin transcript is the list of the operations made on
    it; ExtractBytes is an arbitrary function [xof] of that list and SetBytesWide of 64 bytes an arbitrary
    function [wide] (it has no error for 64 bytes).  Random scalars are arguments.
    SumOfProducts is modelled by its meaning, the sum of the products (see Curves/ for the algorithms); on
    lists of different lengths it returns nil or panics, and every caller goes on to use the value:
    [Panic]. *)
From Coq Require Import PeanoNat.
From mathcomp Require Import all_ssreflect all_algebra.
From Verif Require Import Lib.Res Lib.Bytes.
Set Implicit Arguments.
Unset Strict Implicit.
Unset Printing Implicit Defensive.
Import GRing.Theory.
Local Open Scope ring_scope.

(** the transcript labels of the package *)
Inductive label := LRecL | LRecR | Lgetx | LaddV | LaddA | LaddS | Lgety | Lgetz | LaddT1 | LaddT2 | Lgetw.
Inductive top := TApp of label & bytes | TExt of label & nat.
Definition tlog := seq top.

Section Bulletproof.
Variables (F : fieldType) (G : lmodType F).
Variables (puenc : G -> bytes) (enc : F -> bytes) (dec : bytes -> option F) (bigint : F -> nat).
Variables (xof : tlog -> bytes) (wide : bytes -> F).

(** ExtractBytes(label, 64) and SetBytesWide *)
Definition extract (tr : tlog) (l : label) : F * tlog :=
  let tr' := rcons tr (TExt l 64) in (wide (xof tr'), tr').
(** Scalar.Invert: an error for zero *)
Definition invert (x : F) : outcome F := if x == 0 then Err else Ok x^-1.

(* ------------------------------------------------------ helpers.go *)
(** helpers.go:16-32 innerProduct *)
Definition inner (a b : seq F) : outcome F :=
  if size a != size b then Err else
  if (size a < 1)%N then Err else
  Ok (foldl (fun acc x => x.1 * x.2 + acc) 0 (zip a b)).
(** helpers.go:35-46 splitPointVector, 49-60 splitScalarVector *)
Definition split (A : Type) (s : seq A) : outcome (seq A * seq A) :=
  if (size s < 1)%N then Err else
  if odd (size s) then Err else
  Ok (take (size s)./2 s, drop (size s)./2 s).
(** helpers.go:63-71 multiplyScalarToPointVector *)
Definition smulp (x : F) (g : seq G) : seq G := [seq x *: p | p <- g].
(** helpers.go:74-82 multiplyScalarToScalarVector *)
Definition smuls (x : F) (a : seq F) : seq F := [seq y * x | y <- a].
(** helpers.go:85-95 multiplyPairwisePointVectors *)
Definition addp (g h : seq G) : outcome (seq G) :=
  if size g != size h then Err else Ok [seq x.1 + x.2 | x <- zip g h].
(** helpers.go:98-108 multiplyPairwiseScalarVectors *)
Definition muls (a b : seq F) : outcome (seq F) :=
  if size a != size b then Err else Ok [seq x.1 * x.2 | x <- zip a b].
(** helpers.go:111-121 addPairwiseScalarVectors *)
Definition adds (a b : seq F) : outcome (seq F) :=
  if size a != size b then Err else Ok [seq x.1 + x.2 | x <- zip a b].
(** helpers.go:124-133 subtractPairwiseScalarVectors *)
Definition subs (a b : seq F) : outcome (seq F) :=
  if size a != size b then Err else Ok [seq x.1 - x.2 | x <- zip a b].
(** helpers.go:136-147 invertScalars *)
Fixpoint inverts (xs : seq F) : outcome (seq F) :=
  match xs with
  | [::] => Ok [::]
  | x :: r => do i <- invert x; do s <- inverts r; Ok (i :: s)
  end.
(** helpers.go:150-152 isPowerOfTwo *)
Definition is_pow2 (i : nat) : bool := Nat.land i i.-1 == 0%N.
(** helpers.go:156-163 get2nVector: vector2n[0] panics for length zero *)
Definition get2n (n : nat) : outcome (seq F) :=
  if n is 0%N then Panic else Ok (traject (fun x => x + x) 1 n).
(** helpers.go:165-171 get1nVector *)
Definition get1n (n : nat) : seq F := nseq n 1.
(** helpers.go:173-181 getknVector: vectorkn[0] and vectorkn[1] panic for lengths zero and one *)
Definition getkn (k : F) (n : nat) : outcome (seq F) :=
  if n is n'.+2 then Ok (1 :: traject (fun x => x * k) k n'.+1) else Panic.
(** Point.SumOfProducts *)
Definition sop (g : seq G) (a : seq F) : outcome G :=
  if size g != size a then Panic else Ok (foldl (fun acc x => acc + x.2 *: x.1) 0 (zip g a)).

(* ------------------------------------------------------ ipp_prover.go *)
(** generators.go:22-25 ippGenerators, as built by getGeneratorPoints *)
Record gens := Gens { gG : seq G; gH : seq G }.
(** ipp_prover.go:29-33 InnerProductProof *)
Record ipp := Ipp { ip_a : F; ip_b : F; ip_L : seq G; ip_R : seq G }.

(** ipp_prover.go:330-342 calcx *)
Definition ipp_calcx (capL capR : G) (tr : tlog) : F * tlog :=
  extract (rcons (rcons tr (TApp LRecL (puenc capL))) (TApp LRecR (puenc capR))) Lgetx.

(** ipp_prover.go:180-324 proveRecursive.  The fuel is the length of a (the vectors halve at every call).
    The running c and P of ippRecursion are left out: they are computed and passed on but enter neither
    the proof nor the transcript (the innerProduct giving c' can only fail like those of c_L and c_R).
    a[0] and b[0] are read only when the length is 1. *)
Fixpoint prove_rec (fuel : nat) (a b : seq F) (g h : seq G) (u : G) (Ls Rs : seq G) (tr : tlog) : outcome (ipp * tlog) :=
  if size a != size b then Err else
  if size g != size h then Err else
  if size a != size g then Err else
  if size a == 1%N then Ok (Ipp (head 0 a) (head 0 b) Ls Rs, tr) else
  if fuel is f.+1 then
    do (aLo, aHi) <- split a;
    do (bLo, bHi) <- split b;
    do (gLo, gHi) <- split g;
    do (hLo, hHi) <- split h;
    do cL <- inner aLo bHi;
    do cR <- inner aHi bLo;
    do lga <- sop gHi aLo;
    do lhb <- sop hLo bHi;
    let capL := lga + lhb + cL *: u in
    do rga <- sop gLo aHi;
    do rhb <- sop hHi bLo;
    let capR := rga + rhb + cR *: u in
    let: (x, tr') := ipp_calcx capL capR tr in
    do xInv <- invert x;
    do g' <- addp (smulp xInv gLo) (smulp x gHi);
    do h' <- addp (smulp x hLo) (smulp xInv hHi);
    do a' <- adds (smuls x aLo) (smuls xInv aHi);
    do b' <- adds (smuls xInv bLo) (smuls x bHi);
    prove_rec f a' b' g' h' u (rcons Ls capL) (rcons Rs capR) tr'
  else Err.

(** ipp_prover.go:104-130 getP: G[0:len(a)] panics when len(a) is larger than the number of generators *)
Definition getP (gs : gens) (a b : seq F) (u : G) : outcome G :=
  if ~~ is_pow2 (size a) then Err else
  if size (gG gs) != size (gH gs) then Err else
  do c <- inner a b;
  if (size (gG gs) < size a)%N then Panic else
  do ga <- sop (take (size a) (gG gs)) a;
  do hb <- sop (take (size b) (gH gs)) b;
  Ok (ga + hb + c *: u).

(** ipp_prover.go:135-177 Prove (P is computed but not used) *)
Definition ipp_prove (gs : gens) (a b : seq F) (u : G) (tr : tlog) : outcome (ipp * tlog) :=
  if ~~ is_pow2 (size a) then Err else
  if size (gG gs) != size (gH gs) then Err else
  do _ <- inner a b;
  if (size (gG gs) < size a)%N then Err else
  prove_rec (size a) a b (take (size a) (gG gs)) (take (size b) (gH gs)) u [::] [::] tr.

(* ------------------------------------------------------ ipp_verifier.go *)
(** ipp_verifier.go:142-159 getxs: capRs[i] panics when there are fewer Rs than Ls *)
Fixpoint getxs (tr : tlog) (Ls Rs : seq G) : outcome (seq F * tlog) :=
  match Ls, Rs with
  | [::], _ => Ok ([::], tr)
  | _ :: _, [::] => Panic
  | l :: Ls', r :: Rs' =>
    let: (x, tr') := ipp_calcx l r tr in
    do (xs, tr'') <- getxs tr' Ls' Rs'; Ok (x :: xs, tr'')
  end.

(** ipp_verifier.go:164-183 gets: the factor of xs[j] in s_i, j counted from the end by the list itself *)
Fixpoint gets1 (xs : seq F) (i : nat) (si : F) : outcome F :=
  match xs with
  | [::] => Ok si
  | x :: r =>
    if ((i %/ 2 ^ size r) %% 2 == 1)%N then gets1 r i (si * x)
    else do xi <- invert x; gets1 r i (si * xi)
  end.
Fixpoint gets_from (xs : seq F) (idx : seq nat) : outcome (seq F) :=
  match idx with
  | [::] => Ok [::]
  | i :: r => do s <- gets1 xs i 1; do ss <- gets_from xs r; Ok (s :: ss)
  end.
Definition gets (xs : seq F) (n : nat) : outcome (seq F) := gets_from xs (iota 0 n).

(** ipp_verifier.go:203-205: the inner loop of getsNew, [idx] the values of i; entries are nil until set *)
Fixpoint getsn_inner (n half : nat) (x2 : F) (idx : seq nat) (ss : seq (option F)) : outcome (seq (option F)) :=
  match idx with
  | [::] => Ok ss
  | i :: r =>
    do si <- deref (nth None ss i);
    if (i + half < n)%N then getsn_inner n half x2 r (set_nth None ss (i + half) (Some (si * x2))) else Panic
  end.
(** ipp_verifier.go:201-206: the outer loop; i runs over the multiples of 2^(len-j) below n *)
Fixpoint getsn_outer (n : nat) (xs : seq F) (ss : seq (option F)) : outcome (seq (option F)) :=
  match xs with
  | [::] => Ok ss
  | x :: r =>
    let step := (2 ^ (size r).+1)%N in
    do ss' <- getsn_inner n (2 ^ size r) (x * x) [seq (t * step)%N | t <- iota 0 ((n + step - 1) %/ step)] ss;
    getsn_outer n r ss'
  end.
Fixpoint all_set (ss : seq (option F)) : outcome (seq F) :=
  match ss with
  | [::] => Ok [::]
  | o :: r => do x <- deref o; do l <- all_set r; Ok (x :: l)
  end.
(** ipp_verifier.go:189-209 getsNew *)
Definition gets_new (xs : seq F) (n : nat) : outcome (seq F) :=
  if n is 0%N then Panic else
  do i <- invert (foldl *%R 1 xs);
  do ss <- getsn_outer n xs (set_nth None (nseq n None) 0 (Some i));
  all_set ss.

(** ipp_verifier.go:119-137 getLHS *)
Definition get_lhs (u : G) (pf : ipp) (g h : seq G) (s : seq F) : outcome G :=
  do sInv <- inverts s;
  do gas <- sop g (smuls (ip_a pf) s);
  do hbs <- sop h (smuls (ip_b pf) sInv);
  Ok (gas + hbs + (ip_a pf * ip_b pf) *: u).
(** ipp_verifier.go:101-116 getRHS *)
Fixpoint rhs_loop (Ls Rs : seq G) (xs : seq F) (prod : G) : outcome G :=
  match Ls with
  | [::] => Ok prod
  | l :: Ls' =>
    match Rs, xs with
    | r :: Rs', x :: xs' =>
      do xi <- invert (x * x);
      rhs_loop Ls' Rs' xs' (prod + (x * x) *: l + xi *: r)
    | _, _ => Panic
    end
  end.
Definition get_rhs (P : G) (pf : ipp) (xs : seq F) : outcome G := rhs_loop (ip_L pf) (ip_R pf) xs P.

(** 1 << k in a 64-bit int: None when the result is negative *)
Definition shl1 (k : nat) : option nat :=
  if (k < 63)%N then Some (2 ^ k)%N else if k == 63%N then None else Some 0%N.

(** ipp_verifier.go:32-70 Verify: a negative n makes the slice expression panic *)
Definition ipp_verify (gs : gens) (P u : G) (pf : ipp) (tr : tlog) : outcome (bool * tlog) :=
  if size (ip_L pf) != size (ip_R pf) then Err else
  if size (gG gs) != size (gH gs) then Err else
  do n <- deref (shl1 (size (ip_L pf)));
  if (size (gG gs) < n)%N then Err else
  do (xs, tr') <- getxs tr (ip_L pf) (ip_R pf);
  do s <- gets_new xs n;
  do lhs <- get_lhs u pf (take n (gG gs)) (take n (gH gs)) s;
  do rhs <- get_rhs P pf xs;
  Ok (lhs == rhs, tr').

(** ipp_verifier.go:74-98 VerifyFromRangeProof: make panics on a negative length *)
Definition verify_from_range (g h : seq G) (Phmu u : G) (tHat : F) (pf : ipp) (tr : tlog) : outcome (bool * tlog) :=
  do (xs, tr') <- getxs tr (ip_L pf) (ip_R pf);
  do n <- deref (shl1 (size (ip_L pf)));
  do s <- gets xs n;
  do lhs <- get_lhs u pf g h s;
  do rhs <- get_rhs (Phmu + tHat *: u) pf xs;
  Ok (lhs == rhs, tr').

(* ------------------------------------------------------ range_prover.go *)
(** range_prover.go:36-41 RangeProof *)
Record rproof := RProof { r_A : G; r_S : G; r_T1 : G; r_T2 : G; r_taux : F; r_mu : F; r_tHat : F; r_ipp : ipp }.
(** range_prover.go:43-45 RangeProofGenerators *)
Record pgens := PGens { pg : G; ph : G; pu : G }.

(** range_prover.go:390-392 getcapV *)
Definition capV (v gamma : F) (g h : G) : G := gamma *: h + v *: g.
(** range_prover.go:418-434 cmoveScalar: yBytes[i] panics when y is shorter *)
Fixpoint cmove_bytes (xb yb : bytes) (mask : nat) : outcome bytes :=
  match xb with
  | [::] => Ok [::]
  | x :: xr =>
    if yb is y :: yr then
      do r <- cmove_bytes xr yr mask; Ok (Nat.lxor x (Nat.land (Nat.lxor x y) mask) :: r)
    else Panic
  end.
Definition cmove (x y : F) (which : nat) : outcome F :=
  if (which != 0%N) && (which != 1%N) then Err else
  let mask := if which == 1%N then 255%N else 0%N in
  do b <- cmove_bytes (enc x) (enc y) mask;
  if dec b is Some s then Ok s else Err.
(** range_prover.go:405-412: the loop of getaL; vBytes[i>>3] panics beyond the end *)
Fixpoint getaL_loop (vb : bytes) (idx : seq nat) : outcome (seq F) :=
  match idx with
  | [::] => Ok [::]
  | i :: r =>
    if (size vb <= i %/ 8)%N then Panic else
    let bit := ((nth 0%N vb (i %/ 8) %/ 2 ^ (i %% 8)) %% 2)%N in
    do s <- cmove 0 1 bit;
    do ss <- getaL_loop vb r; Ok (s :: ss)
  end.
(** range_prover.go:396-415 getaL *)
Definition getaL (v : F) (n : nat) : outcome (seq F) := getaL_loop (enc v) (iota 0 n).

(** range_prover.go:440-458 calcyz, range_batch_prover.go:257-277 calcyzBatched (one V: calcyz) *)
Definition calc_yz (Vs : seq G) (A S : G) (tr : tlog) : F * F * tlog :=
  let tr1 := tr ++ [seq TApp LaddV (puenc V) | V <- Vs] ++ [:: TApp LaddA (puenc A); TApp LaddS (puenc S)] in
  let: (y, tr2) := extract tr1 Lgety in
  let: (z, tr3) := extract tr2 Lgetz in
  (y, z, tr3).
(** range_prover.go:464-476 calcx *)
Definition calc_x (T1 T2 : G) (tr : tlog) : F * tlog :=
  extract (tr ++ [:: TApp LaddT1 (puenc T1); TApp LaddT2 (puenc T2)]) Lgetx.

(** range_verifier.go:118-129 gethPrime: getknVector runs before the error of Invert is looked at, and
    from length three on multiplies by the nil inverse *)
Definition gethPrime (h : seq G) (y : F) : outcome (seq G) :=
  if y == 0 then (if size h == 2%N then Err else Panic) else
  do yn <- getkn y^-1 (size h);
  Ok [seq x.2 *: x.1 | x <- zip h yn].

(** range_verifier.go:134-159 getPhmu *)
Definition getPhmu (g h' : seq G) (h A S : G) (x y z mu : F) (n : nat) : outcome G :=
  do yn <- getkn y n;
  do twon <- get2n n;
  do e <- adds (smuls z yn) (smuls (z * z) twon);
  do last <- sop h' e;
  do zg <- sop g (smuls (- z) (get1n n));
  Ok (A + x *: S + zg + last - mu *: h).

(** range_verifier.go:162-187 deltayz *)
Definition deltayz (y z : F) (n : nat) : outcome F :=
  do yn <- getkn y n;
  do d1 <- inner (get1n n) yn;
  do twon <- get2n n;
  do d2 <- inner (get1n n) twon;
  Ok ((z - z * z) * d1 - (z * z * z) * d2).

(** range_prover.go:381-387 getBlindingVector: the random scalars are [f 0], [f 1], ... *)
Definition blinding (n : nat) (f : nat -> F) : seq F := [seq f i | i <- iota 0 n].

(** the generators [0:n] for an int n: an error above the number of generators, a panic when negative *)
Definition trim (gs : gens) (n : int) : outcome (nat * seq G * seq G) :=
  match n with
  | Negz _ => Panic
  | Posz n =>
    if (size (gG gs) < n)%N then Err else
    if (size (gH gs) < n)%N then Panic else
    Ok (n, take n (gG gs), take n (gH gs))
  end.

(** range_prover.go:88-285 Prove, with the random scalars in the order they are drawn.  BigInt is never
    negative, and n is not negative after the slicing, so the two checks of the code on signs never fail. *)
Definition range_prove (gs : gens) (v gamma : F) (n : int) (pp : pgens) (tr : tlog)
    (alpha : F) (fL fR : nat -> F) (rho tau1 tau2 : F) : outcome (rproof * tlog) :=
  do (n, g, h) <- trim gs n;
  if (2 ^ n < bigint v)%N then Err else
  do aL <- getaL v n;
  let one := get1n n in
  do aR <- subs aL one;
  do gaL <- sop g aL;
  do haR <- sop h aR;
  let A := alpha *: ph pp + gaL + haR in
  let sL := blinding n fL in
  let sR := blinding n fR in
  do gsL <- sop g sL;
  do hsR <- sop h sR;
  let S := rho *: ph pp + gsL + hsR in
  let V := capV v gamma (pg pp) (ph pp) in
  let: (y, z, tr1) := calc_yz [:: V] A S tr in
  do cl <- subs aL (smuls z one);
  do twon <- get2n n;
  do aRz <- adds aR (smuls z one);
  do yn <- getkn y n;
  do hada <- muls yn aRz;
  do cr <- adds hada (smuls (z * z) twon);
  do lr <- muls yn sR;
  do t1a <- inner sL cr;
  do t1b <- inner lr cl;
  let t1 := t1a + t1b in
  do t2 <- inner sL lr;
  let T1 := t1 *: pg pp + tau1 *: ph pp in
  let T2 := t2 *: pg pp + tau2 *: ph pp in
  let: (x, tr2) := calc_x T1 T2 tr1 in
  do l <- adds cl (smuls x sL);
  do r <- adds cr (smuls x lr);
  do delta <- deltayz y z n;
  let tHat := v * (z * z) + delta + t1 * x + t2 * (x * x) in
  let taux := tau2 * (x * x) + tau1 * x + z * z * gamma in
  let mu := alpha + rho * x in
  do h' <- gethPrime h y;
  do _ <- getPhmu g h' (ph pp) A S x y z mu n;
  let: (w, tr3) := extract tr2 Lgetw in
  do (pf, tr4) <- prove_rec (size l) l r g h' (w *: pu pp) [::] [::] tr3;
  Ok (RProof A S T1 T2 taux mu tHat pf, tr4).

(* ------------------------------------------------------ range_verifier.go *)
(** range_verifier.go:100-115 checktHat *)
Definition check_that (pf : rproof) (V g h : G) (delta x z : F) : bool :=
  (r_tHat pf *: g + r_taux pf *: h) == ((z * z) *: V + delta *: g + x *: r_T1 pf + (x * x) *: r_T2 pf).

(** range_verifier.go:42-97 Verify *)
Definition range_verify (gs : gens) (pf : rproof) (V : G) (pp : pgens) (n : int) (tr : tlog) : outcome (bool * tlog) :=
  do (n, g, h) <- trim gs n;
  let: (y, z, tr1) := calc_yz [:: V] (r_A pf) (r_S pf) tr in
  let: (x, tr2) := calc_x (r_T1 pf) (r_T2 pf) tr1 in
  let: (w, tr3) := extract tr2 Lgetw in
  do delta <- deltayz y z n;
  if ~~ check_that pf V (pg pp) (ph pp) delta x z then Err else
  do h' <- gethPrime h y;
  do Phmu <- getPhmu g h' (ph pp) (r_A pf) (r_S pf) x y z (r_mu pf) n;
  verify_from_range g h' Phmu (w *: pu pp) (r_tHat pf) (r_ipp pf) tr3.

(* ------------------------------------------------------ range_batch_prover.go *)
(** range_batch_prover.go:223-235 getSumTermrXBatched *)
Fixpoint sum_term (z zExp : F) (twon : seq F) (m : nat) : seq F :=
  if m is m'.+1 then let zE := zExp * z in smuls zE twon ++ sum_term z zE twon m' else [::].
(** range_batch_prover.go:245-255 getaLBatched *)
Fixpoint getaL_batched (vs : seq F) (n : nat) : outcome (seq F) :=
  match vs with
  | [::] => Ok [::]
  | v :: r => do a <- getaL v n; do s <- getaL_batched r n; Ok (a ++ s)
  end.
(** range_batch_prover.go:237-243 getcapVBatched: gamma[i] panics when there are fewer *)
Fixpoint capV_batched (vs gammas : seq F) (g h : G) : outcome (seq G) :=
  match vs, gammas with
  | [::], _ => Ok [::]
  | _ :: _, [::] => Panic
  | v :: vr, gm :: gr => do r <- capV_batched vr gr g h; Ok (capV v gm g h :: r)
  end.
(** range_batch_prover.go:296-302 and 174-177: the sum of z^(j+1) times the j-th value *)
Fixpoint zsum (z zExp : F) (l : seq F) : F :=
  if l is c :: r then let zE := zExp * z in zE * c + zsum z zE r else 0.
(** range_batch_prover.go:279-310 deltayzBatched *)
Definition deltayz_batched (y z : F) (n m : nat) : outcome F :=
  do ynm <- getkn y (n * m);
  do d1 <- inner (get1n (n * m)) ynm;
  do twon <- get2n n;
  do d2 <- inner (get1n n) twon;
  Ok ((z - z * z) * d1 - zsum z (z * z) (nseq m d2)).
(** range_batch_prover.go:318-328: the loop over j of getPhmuBatched *)
Fixpoint phmu_loop (h' : seq G) (n : nat) (z zExp : F) (twon : seq F) (m : nat) (last : G) : outcome G :=
  if m is m'.+1 then
    let zE := zExp * z in
    do e <- sop (take n h') (smuls zE twon);
    phmu_loop (drop n h') n z zE twon m' (last + e)
  else Ok last.
(** range_batch_prover.go:313-348 getPhmuBatched *)
Definition getPhmu_batched (g h' : seq G) (h A S : G) (x y z mu : F) (n m : nat) : outcome G :=
  do twon <- get2n n;
  do last <- phmu_loop h' n z z twon m 0;
  do ynm <- getkn y (n * m);
  do hz <- sop h' (smuls z ynm);
  do zg <- sop g (smuls (- z) (get1n (n * m)));
  Ok (A + x *: S + zg + (last + hz) - mu *: h).

(** n * m generators *)
Definition trim_batched (gs : gens) (n : int) (m : nat) : outcome (nat * seq G * seq G) :=
  do (_, g, h) <- trim gs (n * Posz m);
  (* with m = 0 the product is zero for a negative n, which get2nVector's make then refuses *)
  if n is Posz n then Ok (n, g, h) else Panic.

(** range_batch_prover.go:16-219 BatchProve.  checkRange for a negative n is an error; with values the
    slicing has panicked before. *)
Definition batch_prove (gs : gens) (vs gammas : seq F) (n : int) (pp : pgens) (tr : tlog)
    (alpha : F) (fL fR : nat -> F) (rho tau1 tau2 : F) : outcome (rproof * tlog) :=
  let m := size vs in
  do (n, g, h) <- trim_batched gs n m;
  if has (fun v => 2 ^ n < bigint v)%N vs then Err else
  let nm := (n * m)%N in
  do aL <- getaL_batched vs n;
  let one := get1n nm in
  do aR <- subs aL one;
  do gaL <- sop g aL;
  do haR <- sop h aR;
  let A := alpha *: ph pp + gaL + haR in
  let sL := blinding nm fL in
  let sR := blinding nm fR in
  do gsL <- sop g sL;
  do hsR <- sop h sR;
  let S := rho *: ph pp + gsL + hsR in
  do Vs <- capV_batched vs gammas (pg pp) (ph pp);
  let: (y, z, tr1) := calc_yz Vs A S tr in
  do cl <- subs aL (smuls z one);
  do twon <- get2n n;
  let zS := sum_term z z twon m in
  do aRz <- adds aR (smuls z one);
  do yn <- getkn y nm;
  do hada <- muls yn aRz;
  do cr <- adds hada zS;
  do lr <- muls yn sR;
  do t1a <- inner sL cr;
  do t1b <- inner lr cl;
  let t1 := t1a + t1b in
  do t2 <- inner sL lr;
  let T1 := t1 *: pg pp + tau1 *: ph pp in
  let T2 := t2 *: pg pp + tau2 *: ph pp in
  let: (x, tr2) := calc_x T1 T2 tr1 in
  do l <- adds cl (smuls x sL);
  do r <- adds cr (smuls x lr);
  do zm <- getkn z m;
  let sumv := foldl (fun s p => s + p.1 * p.2) 0 (zip (smuls (z * z) zm) vs) in
  do delta <- deltayz_batched y z n m;
  let tHat := sumv + delta + t1 * x + t2 * (x * x) in
  let taux := tau2 * (x * x) + tau1 * x + zsum z z (take m gammas) in
  let mu := alpha + rho * x in
  do h' <- gethPrime h y;
  do _ <- getPhmu_batched g h' (ph pp) A S x y z mu n m;
  let: (w, tr3) := extract tr2 Lgetw in
  do (pf, tr4) <- prove_rec (size l) l r g h' (w *: pu pp) [::] [::] tr3;
  Ok (RProof A S T1 T2 taux mu tHat pf, tr4).

(* ------------------------------------------------------ range_batch_verifier.go *)
(** range_batch_verifier.go:73-91 checktHatBatched *)
Definition check_that_batched (pf : rproof) (Vs : seq G) (g h : G) (delta x z : F) (m : nat) : outcome bool :=
  do zm <- getkn z m;
  do Vz <- sop Vs (smuls (z * z) zm);
  Ok ((r_tHat pf *: g + r_taux pf *: h) == (Vz + delta *: g + x *: r_T1 pf + (x * x) *: r_T2 pf)).
(** range_batch_verifier.go:13-70 VerifyBatched *)
Definition verify_batched (gs : gens) (pf : rproof) (Vs : seq G) (pp : pgens) (n : int) (tr : tlog) : outcome (bool * tlog) :=
  let m := size Vs in
  do (n, g, h) <- trim_batched gs n m;
  let: (y, z, tr1) := calc_yz Vs (r_A pf) (r_S pf) tr in
  let: (x, tr2) := calc_x (r_T1 pf) (r_T2 pf) tr1 in
  let: (w, tr3) := extract tr2 Lgetw in
  do delta <- deltayz_batched y z n m;
  do ok <- check_that_batched pf Vs (pg pp) (ph pp) delta x z m;
  if ~~ ok then Err else
  do h' <- gethPrime h y;
  do Phmu <- getPhmu_batched g h' (ph pp) (r_A pf) (r_S pf) x y z (r_mu pf) n m;
  verify_from_range g h' Phmu (w *: pu pp) (r_tHat pf) (r_ipp pf) tr3.
End Bulletproof.
