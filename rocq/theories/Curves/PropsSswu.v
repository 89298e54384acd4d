(** C84: the map stage of hashing to a curve lands on the curve. *)
From Coq Require Import NArith Nnat.
From mathcomp Require Import all_ssreflect all_algebra all_fingroup all_solvable all_field.
From Verif Require Import Curves.SswuModel Curves.SswuProofs Curves.SswuConst Curves.SswuIso Curves.SswuParams.
Set Implicit Arguments.
Unset Strict Implicit.
Unset Printing Implicit Defensive.
Import GRing.Theory.
Delimit Scope N_scope with Ns.
Local Open Scope ring_scope.

Definition p_p256 : N := (2 ^ 256 - 2 ^ 224 + 2 ^ 192 + 2 ^ 96 - 1)%Ns.
Definition p_k256 : N := (2 ^ 256 - 2 ^ 32 - 977)%Ns.
Definition p_bls : N := 0x1a0111ea397fe69a4b1ba7b6434bacd764774b84f38512bf6730d2a0f6b0f6241eabfffeb153ffffb9feffffffffaaab%Ns.
(** b of P-256, FIPS 186 *)
Definition b_p256 : N := 0x5ac635d8aa3a93e7b3ebbd55769886bc651d06b0cc53b0f63bce3c3e27d2604b%Ns.
(** the curve 3-isogenous to secp256k1, RFC 9380 8.7 *)
Definition a_k256' : N := 0x3f8731abdd661adca08a5558f0f5d272e953d363cb6f0e5d405447c01a444533%Ns.
(** the curve 11-isogenous to BLS12-381 G1, RFC 9380 8.8.1 *)
Definition a_g1' : N := 0x144698a3b8e9433d693a02c96d4982b0ea985383ee66a8d8e8981aefd881ac98936f8da0e0f97f5cf428082d584c1d%Ns.
Definition b_g1' : N := 0x12e2908d11688030018b12e8753eee3b2016c1f0f24f4070a0b9c14fcef35ef55a23215a316ceaa5d1cc48e98e172be0%Ns.

Definition p256_ri : N := 0xfffffffe00000003fffffffd0000000200000001fffffffe0000000300000000%Ns.
Definition k256_ri : N := 0xc9bd1905155383999c46c2c295f2b761bcb223fedc24a059d838091d0868192a%Ns.
Definition g1_ri : N := 0x14fec701e8fb0ce9ed5e64273c4f538b1797ab1458a88de9343ea97914956dc87fe11274d898fafbf4d38259380b4820%Ns.
Lemma p256_chk : chk p_p256 (2 ^ 256)%Ns 0xfffffffe00000003fffffffd0000000200000001fffffffe0000000300000000%Ns p256_C1 p256_C2 p256_A p256_B p256_Z 0x5555555500000000555555555555555555555555aaaaaaaaaaaaaaaaaaaaaaaa%Ns 0x1999999980000000199999999999999999999999b33333333333333333333333%Ns 0xe5fb73d16791ce358fb5adb2d33668a3b24099fd8d401f6685e0e994fb4d756%Ns.
Proof. by vm_compute. Qed.
Lemma k256_chk : chk p_k256 (2 ^ 256)%Ns 0xc9bd1905155383999c46c2c295f2b761bcb223fedc24a059d838091d0868192a%Ns k256_C1 k256_C2 k256_A k256_B k256_Z 0x2cf2e1012a9416f39cbf60f32404a38ff743ccf943a9d2667cf0d2335940bc82%Ns 0xba2e8ba2e8ba2e8ba2e8ba2e8ba2e8ba2e8ba2e8ba2e8ba2e8ba2e8ae8ba2bc5%Ns 0x2899ff0720f53efb09af4823587b279e148bb16bed075ba60fc2a97aff6ae188%Ns.
Proof. by vm_compute. Qed.
Lemma g1_chk : chk p_bls (2 ^ 384)%Ns 0x14fec701e8fb0ce9ed5e64273c4f538b1797ab1458a88de9343ea97914956dc87fe11274d898fafbf4d38259380b4820%Ns g1_C1 g1_C2 g1_A g1_B g1_Z 0x100d45d5f05adb6b1dcfe25aaab411deb9ec549ff12f1d4fc0331fdee9c64ff64e83cd741325b673edddb1e47053572c%Ns 0x17a3e1bda8a2d1a38a19241a0ea1e2f25b552d6197903f96bae690ef6be6b1381be22e8a72a9745cd7a1ffffffffb26d%Ns 0x5be3446f07e910e291153e84f1dabd3dfe5c2b1080d8b6a640425c3826f2a429373f9bab7e8308f6dd10ffa11124dbc%Ns.
Proof. by vm_compute. Qed.
Lemma k256_chkiso : chkiso p_k256 (2 ^ 256)%Ns 0xc9bd1905155383999c46c2c295f2b761bcb223fedc24a059d838091d0868192a%Ns k256_A k256_B k256_XNum k256_XDen k256_YNum k256_YDen
  0x76d6e37b21c1ee0efbe2596a8daa112a0369b5b20faf20dde2952b309546368a%Ns 0x8f537eefdfc1606a0727cd69b4a7333d38ed44e3932a7179eecb4b6fba9360dc%Ns 0x34aaedddbb76a9156cb12bcc53e81d406594f628a1d55d80dde2f538e558a7ee%Ns k256_C1.
Proof. by vm_compute. Qed.
(** an element in Montgomery form *)
Lemma mont_val (F : finFieldType) (P r ri v w : N) : N.of_nat #|F| = P -> ((r * ri) mod P =? 1 mod P)%Ns ->
  ((v * ri) mod P =? w mod P)%Ns -> mont F r v = fz F w.
Proof.
move=> hF /N.eqb_eq h /N.eqb_eq e; rewrite (montE hF v h); apply: (fz_eqm hF).
by case: (N.eq_dec P 0%Ns) e => [->|h0] e; [case: (v * ri)%Ns e|rewrite N.mod_mod].
Qed.

(** the statements below for arbitrary constants *)
Section Gen.
Variables (F : finFieldType) (P r ri c1 c2 A B Z ai zi w a b : N) (sgn : F -> bool) (u : F).
Hypothesis hF : N.of_nat #|F| = P.
Hypothesis hchk : chk P r ri c1 c2 A B Z ai zi w.
Hypothesis hr : ((r * ri) mod P =? 1 mod P)%Ns.
Hypothesis hA : ((A * ri) mod P =? a mod P)%Ns.
Hypothesis hB : ((B * ri) mod P =? b mod P)%Ns.
Lemma gen_map : (forall y, y <> 0 -> sgn (- y) = ~~ sgn y) ->
  let: (x, y) := osswu3mod4 sgn (mk_sswu F r c1 c2 A B Z) u in
  y ^+ 2 = x ^+ 3 + fz F a * x + fz F b /\ (y <> 0 -> sgn y = sgn u).
Proof.
move=> hs; have ok := chk_ok hF hchk.
have := sswu_curve sgn u ok; have := sswu_sign u (Build_sgn_ok hs) ok.
case: (osswu3mod4 _ _ _) => x y h1 h2; split=> //.
by move: h2; rewrite -(mont_val hF hr hA) -(mont_val hF hr hB).
Qed.
Lemma gen_map3 : (forall y, y <> 0 -> sgn (- y) = ~~ sgn y) -> (a + 3 =? P)%Ns ->
  let: (x, y) := osswu3mod4 sgn (mk_sswu F r c1 c2 A B Z) u in
  y ^+ 2 = x ^+ 3 - 3%:R * x + fz F b /\ (y <> 0 -> sgn y = sgn u).
Proof.
move=> hs /N.eqb_eq h3; have := gen_map hs; case: (osswu3mod4 _ _ _) => x y.
have -> : fz F a = - 3%:R.
  by apply/eqP; rewrite -addr_eq0 -[3%:R]/(fz F 3%Ns) -fzD h3 (fzP0 hF).
by rewrite mulNr.
Qed.
Lemma gen_map_g1 : (forall y, y <> 0 -> sgn (- y) = ~~ sgn y) ->
  let: (x, y) := g1_osswu3mod4 sgn (mk_sswu F r c1 c2 A B Z) u in
  y ^+ 2 = x ^+ 3 + fz F a * x + fz F b /\ (y <> 0 -> sgn y = sgn u).
Proof. by move=> hs; rewrite -(osswuE sgn u (chk_ok hF hchk)); exact: gen_map. Qed.
Variables (xn xd yn yd : seq N) (s wn wi : N).
Hypothesis hiso : chkiso P r ri A B xn xd yn yd s wn wi c1.
Lemma gen_iso_map :
  let: (x, y) := (let: (x, y) := osswu3mod4 sgn (mk_sswu F r c1 c2 A B Z) u in
                  isoMap (mk_iso F r xn xd yn yd) x y) in y ^+ 2 = x ^+ 3 + 7%:R.
Proof.
have := sswu_curve sgn u (chk_ok hF hchk); case: (osswu3mod4 _ _ _) => x y h.
exact: (chkiso_ok hF hiso h).
Qed.
Lemma gen_iso (x y : F) : y ^+ 2 = x ^+ 3 + fz F a * x + fz F b ->
  let: (x', y') := isoMap (mk_iso F r xn xd yn yd) x y in y' ^+ 2 = x' ^+ 3 + 7%:R.
Proof. by move=> h; apply: (chkiso_ok hF hiso); rewrite (mont_val hF hr hA) (mont_val hF hr hB). Qed.
End Gen.

Lemma p256_hr : ((2 ^ 256 * p256_ri) mod p_p256 =? 1 mod p_p256)%Ns. Proof. by vm_compute. Qed.
Lemma k256_hr : ((2 ^ 256 * k256_ri) mod p_k256 =? 1 mod p_k256)%Ns. Proof. by vm_compute. Qed.
Lemma g1_hr : ((2 ^ 384 * g1_ri) mod p_bls =? 1 mod p_bls)%Ns. Proof. by vm_compute. Qed.
Lemma p256_hA : ((p256_A * p256_ri) mod p_p256 =? (p_p256 - 3) mod p_p256)%Ns. Proof. by vm_compute. Qed.
Lemma k256_hA : ((k256_A * k256_ri) mod p_k256 =? a_k256' mod p_k256)%Ns. Proof. by vm_compute. Qed.
Lemma g1_hA : ((g1_A * g1_ri) mod p_bls =? a_g1' mod p_bls)%Ns. Proof. by vm_compute. Qed.
Lemma p256_hB : ((p256_B * p256_ri) mod p_p256 =? b_p256 mod p_p256)%Ns. Proof. by vm_compute. Qed.
Lemma k256_hB : ((k256_B * k256_ri) mod p_k256 =? 1771 mod p_k256)%Ns. Proof. by vm_compute. Qed.
Lemma g1_hB : ((g1_B * g1_ri) mod p_bls =? b_g1' mod p_bls)%Ns. Proof. by vm_compute. Qed.
Lemma p256_h3 : (p_p256 - 3 + 3 =? p_p256)%Ns. Proof. by vm_compute. Qed.

(** Any parameters: if C1 is (q-3)/4, C2 is a root of -Z^3, A and Z are not zero and B/(ZA) is the first
    coordinate of a point, every field element is mapped onto the curve y^2 = x^3 + Ax + B, the second
    coordinate has the sign of the input, and the two implementations of the map agree. *)
Theorem C84_map (F : finFieldType) (sgn : F -> bool) (p : sswu F) (u : F) :
  (s_C1 p * 4 + 3 = #|F|)%N -> s_C2 p ^+ 2 = - s_Z p ^+ 3 -> s_A p <> 0 -> s_Z p <> 0 ->
  (exists w, w ^+ 2 = (s_B p / (s_Z p * s_A p)) ^+ 3 + s_A p * (s_B p / (s_Z p * s_A p)) + s_B p) ->
  (forall y, y <> 0 -> sgn (- y) = ~~ sgn y) ->
  let: (x, y) := osswu3mod4 sgn p u in
  [/\ y ^+ 2 = x ^+ 3 + s_A p * x + s_B p, y <> 0 -> sgn y = sgn u & g1_osswu3mod4 sgn p u = (x, y)].
Proof.
move=> h1 h2 h3 h4 h5 hs; have ok : sswu_ok p by split.
have := sswu_curve sgn u ok; have := sswu_sign u (Build_sgn_ok hs) ok; rewrite -(osswuE sgn u ok).
by case: (osswu3mod4 sgn p u).
Qed.
Print Assumptions C84_map.

(** P-256: the published curve, with the constants of the source. *)
Theorem C84_p256 (F : finFieldType) (sgn : F -> bool) (u : F) : N.of_nat #|F| = p_p256 ->
  (forall y, y <> 0 -> sgn (- y) = ~~ sgn y) ->
  let: (x, y) := p256_map sgn u in
  y ^+ 2 = x ^+ 3 - 3%:R * x + fz F b_p256 /\ (y <> 0 -> sgn y = sgn u).
Proof.
move=> hF hs; exact (gen_map3 u hF p256_chk p256_hr p256_hA p256_hB hs p256_h3).
Qed.
Print Assumptions C84_p256.

(** secp256k1: the simplified SWU map to the isogenous curve followed by the isogeny, whose denominators
    never vanish there. *)
Theorem C84_k256 (F : finFieldType) (sgn : F -> bool) (u : F) : N.of_nat #|F| = p_k256 ->
  let: (x, y) := k256_map sgn u in y ^+ 2 = x ^+ 3 + 7%:R.
Proof.
move=> hF; exact (gen_iso_map sgn u hF k256_chk k256_chkiso).
Qed.
Print Assumptions C84_k256.

(** The isogeny takes every point of the 3-isogenous curve to secp256k1. *)
Theorem C84_isogeny (F : finFieldType) (x y : F) : N.of_nat #|F| = p_k256 ->
  y ^+ 2 = x ^+ 3 + fz F a_k256' * x + fz F 1771%Ns ->
  let: (x', y') := isoMap (k256_iso F) x y in y' ^+ 2 = x' ^+ 3 + 7%:R.
Proof.
move=> hF; exact (gen_iso hF k256_hr k256_hA k256_hB k256_chkiso (x := x) (y := y)).
Qed.
Print Assumptions C84_isogeny.

(** BLS12-381 G1: the first stage lands on the published 11-isogenous curve. *)
Theorem C84_g1 (F : finFieldType) (sgn : F -> bool) (u : F) : N.of_nat #|F| = p_bls ->
  (forall y, y <> 0 -> sgn (- y) = ~~ sgn y) ->
  let: (x, y) := g1_map sgn u in
  y ^+ 2 = x ^+ 3 + fz F a_g1' * x + fz F b_g1' /\ (y <> 0 -> sgn y = sgn u).
Proof.
move=> hF hs; exact (gen_map_g1 u hF g1_chk g1_hr g1_hA g1_hB hs).
Qed.
Print Assumptions C84_g1.

(** The hypotheses: the integers modulo a prime, with the parity of the representative, meet those of the
    theorems on the three curves as soon as the modulus is prime; and the map over the field of seven elements with
    Z = 3, A = 1, B = 4 is an instance of the general theorem. *)
Lemma odd_opp n (y : 'I_n.+2) : odd n.+2 -> val y <> 0%N -> odd (Zp_opp y) = ~~ odd y.
Proof.
move=> ho /eqP hv; rewrite -lt0n in hv.
rewrite [nat_of_ord (Zp_opp y)](_ : _ = ((n.+2 - y) %% n.+2)%N) // modn_small; last by rewrite ltn_subrL hv.
by rewrite oddB ?ho // ltnW.
Qed.
Example C84_field (p : N) : prime (N.to_nat p) -> odd (N.to_nat p) ->
  N.of_nat #|[finFieldType of 'F_(N.to_nat p)]| = p /\
  forall y : 'F_(N.to_nat p), y <> 0 -> odd (- y : 'F_(N.to_nat p)) = ~~ odd y.
Proof.
move=> hp ho; split; first by rewrite card_Fp // N2Nat.id.
move=> y y0; apply: odd_opp => [|e]; first by rewrite Fp_cast.
by apply: y0; apply: val_inj.
Qed.
Definition toyP : sswu [finFieldType of 'F_7] := @Sswu [finFieldType of 'F_7] 1 1%:R 1%:R 4%:R 3%:R.
Example C84_hyps :
  [/\ (s_C1 toyP * 4 + 3 = #|[finFieldType of 'F_7]|)%N, s_C2 toyP ^+ 2 = - s_Z toyP ^+ 3,
      s_A toyP <> 0 , s_Z toyP <> 0 &
      exists w, (w ^+ 2 = (s_B toyP / (s_Z toyP * s_A toyP)) ^+ 3 + s_A toyP * (s_B toyP / (s_Z toyP * s_A toyP)) + s_B toyP)].
Proof.
have e : 4%:R / (3%:R * 1%:R) = 6%:R :> 'F_7.
  have h : (3%:R * 1%:R : 'F_7) != 0 by rewrite mulr1.
  apply: (mulIf h); rewrite divfK //. by apply: val_inj; vm_compute.
split.
- by rewrite card_Fp.
- by apply: val_inj; vm_compute.
- by apply/eqP; vm_compute.
- by apply/eqP; vm_compute.
exists 3%:R; rewrite [s_B _]/= [s_Z _]/= [s_A _]/= e.
by apply: val_inj; vm_compute.
Qed.
