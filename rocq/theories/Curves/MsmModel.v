(** Scalar multiplication and multi-scalar multiplication.

    The algorithms are modelled over an abstract type [P] of point representations with the code's three
    operations: [pid] for Identity(), [padd] for Add and [pdbl] for Double.  The shift and mask expressions of the
    Go code are kept as they are written ([Nat.shiftr], [Nat.land]). *)
From Coq Require Import PeanoNat ZArith.
From mathcomp Require Import all_ssreflect.
From Verif Require Import Lib.Res Lib.Bytes.
Set Implicit Arguments.
Unset Strict Implicit.
Unset Printing Implicit Defensive.

Section Msm.
Variables (P : Type) (pid : P) (padd : P -> P -> P) (pdbl : P -> P).

(** one pass of the table loop: entries i and i+1 (i = 2, 4, .., 14);
    native/point.go:299-302, pallas_curve.go:837-840, native/bls12381/g1.go:719-722 *)
Definition table_step (point : P) (t : seq P) (i : nat) : seq P :=
  let e := pdbl (nth pid t (Nat.shiftr i 1)) in
  rcons (rcons t e) (padd e point).

(** the table of the first 16 multiples; native/point.go:296-302 *)
Definition table (point : P) : seq P :=
  foldl (table_step point) [:: pid; point] [:: 2; 4; 6; 8; 10; 12; 14].

(** the window of pass [i]; native/point.go:309 (Go's precedence: shifts and & bind tighter than -) *)
Definition window (bs : bytes) (i : nat) : nat :=
  Nat.land (Nat.shiftr (nth 0 bs (32 - 1 - Nat.shiftr i 3)) (4 - Nat.land i 4)) 15.

(** one pass of the main loop; native/point.go:304-311 *)
Definition mul_step (t : seq P) (bs : bytes) (acc : P) (i : nat) : P :=
  padd (iter 4 pdbl acc) (nth pid t (window bs i)).

(** EllipticPoint.Mul; native/point.go:294-313.  Ep.Mul (pallas_curve.go:832-851) and G1.multiply
    (native/bls12381/g1.go:714-733; likewise native/bls12381/g2.go:682-701) are the same algorithm.  [bs] is
    scalar.Bytes(), 32 bytes little endian. *)
Definition mul (point : P) (bs : bytes) : P :=
  let t := table point in
  foldl (mul_step t bs) pid [seq 4 * k | k <- iota 0 64].

(** the bucket of scalar [bs] in window [j]; native/point.go:447 with W = 4 *)
Definition nibble (bs : bytes) (j : nat) : nat :=
  Nat.land (Nat.shiftr (nth 0 bs (Nat.shiftr (j * 4) 3)) (Nat.land (4 * j) 4)) 15.

(** the bucket additions of one window; native/point.go:442-449, curve.go:837-842 without the skipped index 0 *)
Definition bucket_add (b : seq P) (x : nat * P) : seq P :=
  set_nth pid b x.1 (padd (nth pid b x.1) x.2).

(** the running sum over the buckets, highest first: (acc, sum); native/point.go:451-456, curve.go:844-850 *)
Definition bucket_sum (b : seq P) : P :=
  (foldl (fun a x => let sum := padd a.2 x in (padd a.1 sum, sum)) (pid, pid) (rev b)).1.

(** the value of window [j]; native/point.go:438-456: buckets 15 down to 1 *)
Definition native_window (points : seq P) (scalars : seq bytes) (j : nat) : P :=
  let b := foldl bucket_add (nseq 16 pid) (zip [seq nibble s j | s <- scalars] points) in
  bucket_sum (behead b).

(** the final Horner evaluation over the windows, last to first, [w] doublings each;
    native/point.go:459-466, curve.go:853-860 *)
Definition combine (w : nat) (ws : seq P) : P :=
  foldl (fun acc x => padd (iter w pdbl acc) x) pid (rev ws).

(** EllipticPoint.SumOfProducts; native/point.go:411-468; G1.SumOfProducts (native/bls12381/g1.go:978-1031) and
    G2.SumOfProducts (native/bls12381/g2.go:974-1026) are the same algorithm *)
Definition sum_native (points : seq P) (scalars : seq bytes) : outcome P :=
  if size points != size scalars then Err else
  Ok (combine 4 [seq native_window points scalars j | j <- iota 0 64]).

(** index := bucketSize & int(new(big.Int).Rsh(k, uint(w*j)).Int64()); curve.go:838.  Rsh of a negative big.Int is an
    arithmetic shift, and Int64 followed by a mask with 63 keeps the six low bits of the two's complement. *)
Definition pindex (k : Z) (j : nat) : nat := Z.to_nat (Z.land 63 (Z.shiftr k (6 * Z.of_nat j))).

(** if index != 0 { bucket[index-1].Add(bucket[index-1], points[i]) }; curve.go:839-841 *)
Definition pbucket (b : seq P) (x : nat * P) : seq P :=
  if x.1 == 0 then b else bucket_add b (x.1.-1, x.2).

(** windows[j]; curve.go:833-850 *)
Definition pip_window (points : seq P) (scalars : seq Z) (j : nat) : P :=
  bucket_sum (foldl pbucket (nseq 63 pid) (zip [seq pindex k j | k <- scalars] points)).

(** sumOfProductsPippengerPallas; pallas_curve.go:1023-1066: [None] is the nil result *)
Definition pippenger_pallas (points : seq P) (scalars : seq Z) : option P :=
  if size points != size scalars then None else
  Some (combine 6 [seq pip_window points scalars j | j <- iota 0 (255 %/ 6 + 1)]).

(** sumOfProductsPippenger; curve.go:818-862: the same, but the identity is obtained from points[0], so an empty list
    is an index out of range *)
Definition pippenger (points : seq P) (scalars : seq Z) : outcome (option P) :=
  if size points != size scalars then Ok None else
  if points is [::] then Panic else Ok (pippenger_pallas points scalars).

(** PointPallas.SumOfProducts and Ep.SumOfProducts; pallas_curve.go:617-628, 975-985.  A point or scalar of another
    curve is [None].  The result is [None] for a nil Point and [Some v] for a non-nil Point whose Ep pointer is [v]. *)
Definition pallas_sum (points : seq (option P)) (scalars : seq (option Z)) : option (option P) :=
  if all isSome points then
    Some (if all isSome scalars then pippenger_pallas (pmap id points) (pmap id scalars) else None)
  else None.

(** PointK256.SumOfProducts; k256_curve.go:583-606 (P256 and BLS12-381 alike): [None] is nil *)
Definition k256_sum (points : seq (option P)) (scalars : seq (option bytes)) : option P :=
  if all isSome points && all isSome scalars then
    if sum_native (pmap id points) (pmap id scalars) is Ok r then Some r else None
  else None.

End Msm.
