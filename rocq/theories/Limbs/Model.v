(** The 64-bit straight-line code of the native field packages (native/k256, native/p256, native/pasta):
    the instructions it consists of and what they do.  The programs themselves are in Limbs/*Code.v. *)
From Coq Require Import ZArith List Bool.
Import ListNotations.
Local Open Scope Z_scope.

(** the range of uint64 *)
Definition W : Z := 18446744073709551616.

(** Operands: a variable, a constant, a uint64 sum (a + b), a masked variable (x & k).
    The conversions uint64(uint1(x)) are the identity (type uint1 uint64; secp256k1_fp.go:32). *)
Inductive opd := R (r : N) | K (k : Z) | Sm (a b : opd) | Am (r : N) (k : Z).

(** Statements *)
Inductive instr :=
| IMul (hi lo : N) (a b : opd)     (* hi, lo = bits.Mul64(a, b) *)
| IMulLo (lo : N) (a b : opd)      (* _, lo = bits.Mul64(a, b) *)
| IAdd (s c : N) (a b d : opd)     (* s, c = bits.Add64(a, b, d) *)
| IAddC (c : N) (a b d : opd)      (* _, c = bits.Add64(a, b, d) *)
| IAddS (s : N) (a b d : opd)      (* s, _ = bits.Add64(a, b, d) *)
| ISub (d o : N) (a b i : opd)     (* d, o = bits.Sub64(a, b, i) *)
| ISubB (o : N) (a b i : opd)      (* _, o = bits.Sub64(a, b, i) *)
| IMov (x : N) (a : opd)           (* x := a *)
| ICmov (x : N) (c a b : opd).     (* cmovznzU64(&x, c, a, b) *)

(** the values of the variables *)
Definition env := N -> Z.
Definition upd (E : env) (r : N) (v : Z) : env := fun r' => if N.eqb r' r then v else E r'.

Fixpoint ev (E : env) (o : opd) : Z :=
  match o with
  | R r => E r
  | K k => k
  | Sm a b => (ev E a + ev E b) mod W
  | Am r k => Z.land (E r) k
  end.

(** cmovznzU64; secp256k1_fp.go:68-72, the same in the k256/fq and p256 packages; fiat_pasta_fp_cmovznz_u64,
    pasta_fp.go:83-88, computes the mask as uint64(0 - arg1), the same value for arg1 0 or 1. *)
Definition cmovznz (c a b : Z) : Z :=
  let x1 := (c * (W - 1)) mod W in
  Z.lor (Z.land x1 b) (Z.land (W - 1 - x1) a).

Definition step (E : env) (i : instr) : env :=
  match i with
  | IMul hi lo a b => let p := ev E a * ev E b in upd (upd E hi (p / W)) lo (p mod W)
  | IMulLo lo a b => upd E lo ((ev E a * ev E b) mod W)
  | IAdd s c a b d => let t := ev E a + ev E b + ev E d in upd (upd E s (t mod W)) c (t / W)
  | IAddC c a b d => upd E c ((ev E a + ev E b + ev E d) / W)
  | IAddS s a b d => upd E s ((ev E a + ev E b + ev E d) mod W)
  | ISub d o a b i =>
      let t := ev E a - ev E b - ev E i in upd (upd E d (t mod W)) o (if t <? 0 then 1 else 0)
  | ISubB o a b i => upd E o (if ev E a - ev E b - ev E i <? 0 then 1 else 0)
  | IMov x a => upd E x (ev E a)
  | ICmov x c a b => upd E x (cmovznz (ev E c) (ev E a) (ev E b))
  end.

Definition exec (p : list instr) (E : env) : env := fold_left step p E.

(** A [4]uint64, least significant limb first *)
Record limbs := L4 { l0 : Z; l1 : Z; l2 : Z; l3 : Z }.

(** arg1[i] is variable 1+i, arg2[i] is variable 5+i, the local xN is variable 8+N *)
Definition args (a b : limbs) : env := fun r =>
  match r with
  | 1%N => l0 a | 2%N => l1 a | 3%N => l2 a | 4%N => l3 a
  | 5%N => l0 b | 6%N => l1 b | 7%N => l2 b | 8%N => l3 b
  | _ => 0
  end.

(** A function body: its statements and the variables stored into out1[0], ..., out1[3] *)
Record code := Code { body : list instr; out0 : N; out1 : N; out2 : N; out3 : N }.
Definition run (c : code) (a b : limbs) : limbs :=
  let E := exec (body c) (args a b) in L4 (E (out0 c)) (E (out1 c)) (E (out2 c)) (E (out3 c)).

(** A native field: its functions and the constants of its FieldParams *)
Record field := Field {
  f_mul : limbs -> limbs -> limbs; f_square : limbs -> limbs; f_add : limbs -> limbs -> limbs; f_sub : limbs -> limbs -> limbs;
  f_opp : limbs -> limbs; f_from : limbs -> limbs; f_to : limbs -> limbs;
  f_m : limbs; f_r : limbs; f_r2 : limbs; f_r3 : limbs }.
(** the field whose functions are straight-line programs *)
Definition compiled (mul square add sub opp from to : code) : limbs -> limbs -> limbs -> limbs -> field :=
  Field (run mul) (fun a => run square a a) (run add) (run sub) (fun a => run opp a a) (fun a => run from a a)
    (fun a => run to a a).

Definition mul (f : field) (a b : limbs) := f_mul f a b.
Definition square (f : field) (a : limbs) := f_square f a.
Definition add (f : field) (a b : limbs) := f_add f a b.
Definition sub (f : field) (a b : limbs) := f_sub f a b.
Definition opp (f : field) (a : limbs) := f_opp f a.
Definition from_montgomery (f : field) (a : limbs) := f_from f a.
Definition to_montgomery (f : field) (a : limbs) := f_to f a.
