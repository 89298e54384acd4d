(** The exponentiation chains of the Invert methods of the native fields, transcribed statement by statement.
    arg is [Arg]; every local [4]uint64 variable has a number, given in the comment above each chain. *)
From Coq Require Import ZArith NArith List.
From Verif Require Import Limbs.Model Limbs.FieldModel.
Import ListNotations.
Local Open Scope N_scope.

(** Invert; native/k256/fp/fp.go:104-157.  x2 = 1, x3 = 2, x6 = 3, x9 = 4, x11 = 5, x22 = 6, x44 = 7, x88 = 8, x176 = 9, x220 = 10, x223 = 11, s = 12 *)
Definition k256fp_chain : chain := Chain [
  CPow2k 1 0 1; CMul 1 1 0;
  CPow2k 2 1 1; CMul 2 2 0;
  CPow2k 3 2 3; CMul 3 3 2;
  CPow2k 4 3 3; CMul 4 4 2;
  CPow2k 5 4 2; CMul 5 5 1;
  CPow2k 6 5 11; CMul 6 6 5;
  CPow2k 7 6 22; CMul 7 7 6;
  CPow2k 8 7 44; CMul 8 8 7;
  CPow2k 9 8 88; CMul 9 9 8;
  CPow2k 10 9 44; CMul 10 10 7;
  CPow2k 11 10 3; CMul 11 11 2;
  CPow2k 12 11 23; CMul 12 12 6;
  CPow2k 12 12 5; CMul 12 12 0;
  CPow2k 12 12 3; CMul 12 12 1;
  CPow2k 12 12 2; CMul 12 12 0
] 12.

(** Invert; native/k256/fq/fq.go:146-260.  x1 = 1, x10 = 2, x11 = 3, x101 = 4, x111 = 5, x1001 = 6, x1011 = 7, x1101 = 8, x6 = 9, x8 = 10, x14 = 11, x28 = 12, x56 = 13, tmp = 14 *)
Definition k256fq_chain : chain := Chain [
  CCopy 1 0; CPow2k 2 0 1;
  CMul 3 2 1; CMul 4 2 3;
  CMul 5 2 4; CMul 6 2 5;
  CMul 7 2 6; CMul 8 2 7;
  CPow2k 9 8 2; CMul 9 9 7;
  CPow2k 10 9 2; CMul 10 10 3;
  CPow2k 11 10 6; CMul 11 11 9;
  CPow2k 12 11 14; CMul 12 12 11;
  CPow2k 13 12 28; CMul 13 13 12;
  CPow2k 14 13 56; CMul 14 14 13;
  CPow2k 14 14 14; CMul 14 14 11;
  CPow2k 14 14 3; CMul 14 14 4;
  CPow2k 14 14 4; CMul 14 14 5;
  CPow2k 14 14 4; CMul 14 14 4;
  CPow2k 14 14 5; CMul 14 14 7;
  CPow2k 14 14 4; CMul 14 14 7;
  CPow2k 14 14 4; CMul 14 14 5;
  CPow2k 14 14 5; CMul 14 14 5;
  CPow2k 14 14 6; CMul 14 14 8;
  CPow2k 14 14 4; CMul 14 14 4;
  CPow2k 14 14 3; CMul 14 14 5;
  CPow2k 14 14 5; CMul 14 14 6;
  CPow2k 14 14 6; CMul 14 14 4;
  CPow2k 14 14 10; CMul 14 14 5;
  CPow2k 14 14 4; CMul 14 14 5;
  CPow2k 14 14 9; CMul 14 14 10;
  CPow2k 14 14 5; CMul 14 14 6;
  CPow2k 14 14 6; CMul 14 14 7;
  CPow2k 14 14 4; CMul 14 14 8;
  CPow2k 14 14 5; CMul 14 14 3;
  CPow2k 14 14 6; CMul 14 14 8;
  CPow2k 14 14 10; CMul 14 14 8;
  CPow2k 14 14 4; CMul 14 14 6;
  CPow2k 14 14 6; CMul 14 14 1;
  CPow2k 14 14 8; CMul 14 14 9
] 14.

(** Invert; native/p256/fq/fq.go:147-266.  x1 = 1, x10 = 2, x11 = 3, x101 = 4, x111 = 5, x1010 = 6, x1111 = 7, x10101 = 8, x101010 = 9, x101111 = 10, x6 = 11, x8 = 12, x16 = 13, x32 = 14, tmp = 15 *)
Definition p256fq_chain : chain := Chain [
  CCopy 1 0; CPow2k 2 0 1;
  CMul 3 2 1; CMul 4 2 3;
  CMul 5 2 4; CPow2k 6 4 1;
  CMul 7 4 6; CPow2k 8 6 1;
  CMul 8 8 1; CPow2k 9 8 1;
  CMul 10 4 9; CMul 11 8 9;
  CPow2k 12 11 2; CMul 12 12 3;
  CPow2k 13 12 8; CMul 13 13 12;
  CPow2k 14 13 16; CMul 14 14 13;
  CPow2k 15 14 64; CMul 15 15 14;
  CPow2k 15 15 32; CMul 15 15 14;
  CPow2k 15 15 6; CMul 15 15 10;
  CPow2k 15 15 5; CMul 15 15 5;
  CPow2k 15 15 4; CMul 15 15 3;
  CPow2k 15 15 5; CMul 15 15 7;
  CPow2k 15 15 5; CMul 15 15 8;
  CPow2k 15 15 4; CMul 15 15 4;
  CPow2k 15 15 3; CMul 15 15 4;
  CPow2k 15 15 3; CMul 15 15 4;
  CPow2k 15 15 5; CMul 15 15 5;
  CPow2k 15 15 9; CMul 15 15 10;
  CPow2k 15 15 6; CMul 15 15 7;
  CPow2k 15 15 2; CMul 15 15 1;
  CPow2k 15 15 5; CMul 15 15 1;
  CPow2k 15 15 6; CMul 15 15 7;
  CPow2k 15 15 5; CMul 15 15 5;
  CPow2k 15 15 4; CMul 15 15 5;
  CPow2k 15 15 5; CMul 15 15 5;
  CPow2k 15 15 5; CMul 15 15 4;
  CPow2k 15 15 3; CMul 15 15 3;
  CPow2k 15 15 10; CMul 15 15 10;
  CPow2k 15 15 2; CMul 15 15 3;
  CPow2k 15 15 5; CMul 15 15 3;
  CPow2k 15 15 5; CMul 15 15 3;
  CPow2k 15 15 3; CMul 15 15 1;
  CPow2k 15 15 7; CMul 15 15 8;
  CPow2k 15 15 6; CMul 15 15 7
] 15.
