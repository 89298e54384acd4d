(** The constants of the hash-to-curve maps as the limbs in the source: native/k256/point.go, native/p256/point.go,
    native/bls12381/g1.go.  All but C1 are in Montgomery form for the radix 2^256 (2^384 for g1.go). *)
From Coq Require Import NArith Nnat.
From mathcomp Require Import all_ssreflect all_algebra all_fingroup all_solvable all_field.
From Verif Require Import Curves.SswuModel Curves.SswuConst Curves.SswuIso.
Set Implicit Arguments.
Unset Strict Implicit.
Unset Printing Implicit Defensive.
Import GRing.Theory.
Delimit Scope N_scope with Ns.
Local Open Scope ring_scope.

(** k256PointSswuParams; k256/point.go:122-133 *)
Definition k256_C1 : N := limbs [:: 0xffffffffbfffff0b; 0xffffffffffffffff; 0xffffffffffffffff; 0x3fffffffffffffff]%Ns.
Definition k256_C2 : N := limbs [:: 0x5b57ba53a30d1520; 0x908f7cef34a762eb; 0x190b0ffe068460c8; 0x98a9828e8f00ff62]%Ns.
Definition k256_A : N := limbs [:: 0xdb714ce7b18444a1; 0x4458ce38a32a19a2; 0xa0e58ae2837bfbf0; 0x505aabc49336d959]%Ns.
Definition k256_B : N := limbs [:: 0x000006eb001a66db; 0x0000000000000000; 0x0000000000000000; 0x0000000000000000]%Ns.
Definition k256_Z : N := limbs [:: 0xfffffff3ffffd234; 0xffffffffffffffff; 0xffffffffffffffff; 0xffffffffffffffff]%Ns.
(** k256PointIsogenyParams; k256/point.go:137-236 *)
Definition k256_XNum : seq N := [::
  limbs [:: 0x0000003b1c72a8b4; 0x0000000000000000; 0x0000000000000000; 0x0000000000000000]%Ns;
  limbs [:: 0xd5bd51a17b2edf46; 0x2cc06f7c86b86bcd; 0x50b37e74f3294a00; 0xeb32314a9da73679]%Ns;
  limbs [:: 0x48c18b1b0d2191bd; 0x5a3f74c29bfccce3; 0xbe55a02e5e8bd357; 0x09bf218d11fff905]%Ns;
  limbs [:: 0x000000001c71c789; 0x0000000000000000; 0x0000000000000000; 0x0000000000000000]%Ns].
Definition k256_XDen : seq N := [::
  limbs [:: 0x8af79c1ffdf1e7fa; 0xb84bc22235735eb5; 0x82ee5655a55ace04; 0xce4b32dea0a2becb]%Ns;
  limbs [:: 0x8ecde3f3762e1fa5; 0x2c3b1ad77be333fd; 0xb102a1a152ea6e12; 0x57b82df5a1ffc133]%Ns;
  limbs [:: 0x00000001000003d1; 0x0000000000000000; 0x0000000000000000; 0x0000000000000000]%Ns].
Definition k256_YNum : seq N := [::
  limbs [:: 0xffffffce425e12c3; 0xffffffffffffffff; 0xffffffffffffffff; 0xffffffffffffffff]%Ns;
  limbs [:: 0xba60d5fd6e56922e; 0x4ec198c898a435f2; 0x27e77a577b9764ab; 0xb3b80a1197651d12]%Ns;
  limbs [:: 0xa460c58d0690c6f6; 0xad1fba614dfe6671; 0xdf2ad0172f45e9ab; 0x84df90c688fffc82]%Ns;
  limbs [:: 0x00000000097b4283; 0x0000000000000000; 0x0000000000000000; 0x0000000000000000]%Ns].
Definition k256_YDen : seq N := [::
  limbs [:: 0xfffffd0afff4b6fb; 0xffffffffffffffff; 0xffffffffffffffff; 0xffffffffffffffff]%Ns;
  limbs [:: 0xa0e6d461f9d5bf90; 0x28e34666a05a1c20; 0x88cb0300f0106a0e; 0x6ae1989be1e83c62]%Ns;
  limbs [:: 0x5634d5edb1453160; 0x4258a84339d4cdfc; 0x8983f271fc5fa51b; 0x039444f072ffa1cd]%Ns;
  limbs [:: 0x00000001000003d1; 0x0000000000000000; 0x0000000000000000; 0x0000000000000000]%Ns].
(** p256PointSswuParams; p256/point.go:93-99 *)
Definition p256_C1 : N := limbs [:: 0xffffffffffffffff; 0x000000003fffffff; 0x4000000000000000; 0x3fffffffc0000000]%Ns.
Definition p256_C2 : N := limbs [:: 0x53e43951f64fdbe7; 0xb2806c63966a1a66; 0x1ac5d59c3298bf50; 0xa3323851ba997e27]%Ns.
Definition p256_A : N := limbs [:: 0xfffffffffffffffc; 0x00000003ffffffff; 0x0000000000000000; 0xfffffffc00000004]%Ns.
Definition p256_B : N := limbs [:: 0xd89cdf6229c4bddf; 0xacf005cd78843090; 0xe5a220abf7212ed6; 0xdc30061d04874834]%Ns.
Definition p256_Z : N := limbs [:: 0xfffffffffffffff5; 0x0000000affffffff; 0x0000000000000000; 0xfffffff50000000b]%Ns.
(** osswuMapA, osswuMapB, osswuMapC1, osswuMapC2, oswwuMapZ; bls12381/g1.go:39-78.  oswwuMapXd1 and negOsswuMapA
    (lines 79-80) are computed from them. *)
Definition g1_C1 : N := limbs [:: 0xee7fbfffffffeaaa; 0x07aaffffac54ffff; 0xd9cc34a83dac3d89; 0xd91dd2e13ce144af; 0x92c6e9ed90d2eb35; 0x0680447a8e5ff9a6]%Ns.
Definition g1_C2 : N := limbs [:: 0x43b571cad3215f1f; 0xccb460ef1c702dc2; 0x742d884f4f97100b; 0xdb2c3e3238a3382b; 0xe40f3fa13fce8f88; 0x0073a2af9892a2ff]%Ns.
Definition g1_A : N := limbs [:: 0x2f65aa0e9af5aa51; 0x86464c2d1e8416c3; 0xb85ce591b7bd31e2; 0x27e11c91b5f24e7c; 0x28376eda6bfc1835; 0x155455c3e5071d85]%Ns.
Definition g1_B : N := limbs [:: 0xfb996971fe22a1e0; 0x9aa93eb35b742d6f; 0x8c476013de99c5c4; 0x873e27c3a221e571; 0xca72b5e45a52d888; 0x06824061418a386b]%Ns.
Definition g1_Z : N := limbs [:: 0x886c00000023ffdc; 0x0f70008d3090001d; 0x77672417ed5828c3; 0x9dac23e943dc1740; 0x50553f1b9c131521; 0x078c712fbe0ab6e8]%Ns.

Section P.
Variable F : finFieldType.
Definition k256_sswu : sswu F := mk_sswu F (2 ^ 256)%Ns k256_C1 k256_C2 k256_A k256_B k256_Z.
Definition k256_iso : iso F := mk_iso F (2 ^ 256)%Ns k256_XNum k256_XDen k256_YNum k256_YDen.
Definition p256_sswu : sswu F := mk_sswu F (2 ^ 256)%Ns p256_C1 p256_C2 p256_A p256_B p256_Z.
Definition g1_sswu : sswu F := mk_sswu F (2 ^ 384)%Ns g1_C1 g1_C2 g1_A g1_B g1_Z.
(** the map stage of Hash for one field element; k256/point.go, p256/point.go and bls12381/g1.go *)
Definition k256_map (sgn : F -> bool) (u : F) : F * F :=
  let: (x, y) := osswu3mod4 sgn k256_sswu u in isoMap k256_iso x y.
Definition p256_map (sgn : F -> bool) (u : F) : F * F := osswu3mod4 sgn p256_sswu u.
Definition g1_map (sgn : F -> bool) (u : F) : F * F := g1_osswu3mod4 sgn g1_sswu u.
End P.
