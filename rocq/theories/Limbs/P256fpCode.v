(** Field arithmetic of the P256 base field (native/p256/fp/p256_fp.go), transcribed statement by statement. *)
From Coq Require Import ZArith List.
From Verif Require Import Limbs.Model.
Import ListNotations.
Local Open Scope Z_scope.

(** Mul; native/p256/fp/p256_fp.go:85-360 *)
Definition p256fp_mul : code := Code [
  IMov 9 (R 2);
  IMov 10 (R 3);
  IMov 11 (R 4);
  IMov 12 (R 1);
  IMul 14 13 (R 12) (R 8);
  IMul 16 15 (R 12) (R 7);
  IMul 18 17 (R 12) (R 6);
  IMul 20 19 (R 12) (R 5);
  IAdd 21 22 (R 20) (R 17) (K 0);
  IAdd 23 24 (R 18) (R 15) (R 22);
  IAdd 25 26 (R 16) (R 13) (R 24);
  IMov 27 (Sm (R 26) (R 14));
  IMul 29 28 (R 19) (K 0xffffffff00000001);
  IMul 31 30 (R 19) (K 0xffffffff);
  IMul 33 32 (R 19) (K 0xffffffffffffffff);
  IAdd 34 35 (R 33) (R 30) (K 0);
  IMov 36 (Sm (R 35) (R 31));
  IAddC 38 (R 19) (R 32) (K 0);
  IAdd 39 40 (R 21) (R 34) (R 38);
  IAdd 41 42 (R 23) (R 36) (R 40);
  IAdd 43 44 (R 25) (R 28) (R 42);
  IAdd 45 46 (R 27) (R 29) (R 44);
  IMul 48 47 (R 9) (R 8);
  IMul 50 49 (R 9) (R 7);
  IMul 52 51 (R 9) (R 6);
  IMul 54 53 (R 9) (R 5);
  IAdd 55 56 (R 54) (R 51) (K 0);
  IAdd 57 58 (R 52) (R 49) (R 56);
  IAdd 59 60 (R 50) (R 47) (R 58);
  IMov 61 (Sm (R 60) (R 48));
  IAdd 62 63 (R 39) (R 53) (K 0);
  IAdd 64 65 (R 41) (R 55) (R 63);
  IAdd 66 67 (R 43) (R 57) (R 65);
  IAdd 68 69 (R 45) (R 59) (R 67);
  IAdd 70 71 (R 46) (R 61) (R 69);
  IMul 73 72 (R 62) (K 0xffffffff00000001);
  IMul 75 74 (R 62) (K 0xffffffff);
  IMul 77 76 (R 62) (K 0xffffffffffffffff);
  IAdd 78 79 (R 77) (R 74) (K 0);
  IMov 80 (Sm (R 79) (R 75));
  IAddC 82 (R 62) (R 76) (K 0);
  IAdd 83 84 (R 64) (R 78) (R 82);
  IAdd 85 86 (R 66) (R 80) (R 84);
  IAdd 87 88 (R 68) (R 72) (R 86);
  IAdd 89 90 (R 70) (R 73) (R 88);
  IMov 91 (Sm (R 90) (R 71));
  IMul 93 92 (R 10) (R 8);
  IMul 95 94 (R 10) (R 7);
  IMul 97 96 (R 10) (R 6);
  IMul 99 98 (R 10) (R 5);
  IAdd 100 101 (R 99) (R 96) (K 0);
  IAdd 102 103 (R 97) (R 94) (R 101);
  IAdd 104 105 (R 95) (R 92) (R 103);
  IMov 106 (Sm (R 105) (R 93));
  IAdd 107 108 (R 83) (R 98) (K 0);
  IAdd 109 110 (R 85) (R 100) (R 108);
  IAdd 111 112 (R 87) (R 102) (R 110);
  IAdd 113 114 (R 89) (R 104) (R 112);
  IAdd 115 116 (R 91) (R 106) (R 114);
  IMul 118 117 (R 107) (K 0xffffffff00000001);
  IMul 120 119 (R 107) (K 0xffffffff);
  IMul 122 121 (R 107) (K 0xffffffffffffffff);
  IAdd 123 124 (R 122) (R 119) (K 0);
  IMov 125 (Sm (R 124) (R 120));
  IAddC 127 (R 107) (R 121) (K 0);
  IAdd 128 129 (R 109) (R 123) (R 127);
  IAdd 130 131 (R 111) (R 125) (R 129);
  IAdd 132 133 (R 113) (R 117) (R 131);
  IAdd 134 135 (R 115) (R 118) (R 133);
  IMov 136 (Sm (R 135) (R 116));
  IMul 138 137 (R 11) (R 8);
  IMul 140 139 (R 11) (R 7);
  IMul 142 141 (R 11) (R 6);
  IMul 144 143 (R 11) (R 5);
  IAdd 145 146 (R 144) (R 141) (K 0);
  IAdd 147 148 (R 142) (R 139) (R 146);
  IAdd 149 150 (R 140) (R 137) (R 148);
  IMov 151 (Sm (R 150) (R 138));
  IAdd 152 153 (R 128) (R 143) (K 0);
  IAdd 154 155 (R 130) (R 145) (R 153);
  IAdd 156 157 (R 132) (R 147) (R 155);
  IAdd 158 159 (R 134) (R 149) (R 157);
  IAdd 160 161 (R 136) (R 151) (R 159);
  IMul 163 162 (R 152) (K 0xffffffff00000001);
  IMul 165 164 (R 152) (K 0xffffffff);
  IMul 167 166 (R 152) (K 0xffffffffffffffff);
  IAdd 168 169 (R 167) (R 164) (K 0);
  IMov 170 (Sm (R 169) (R 165));
  IAddC 172 (R 152) (R 166) (K 0);
  IAdd 173 174 (R 154) (R 168) (R 172);
  IAdd 175 176 (R 156) (R 170) (R 174);
  IAdd 177 178 (R 158) (R 162) (R 176);
  IAdd 179 180 (R 160) (R 163) (R 178);
  IMov 181 (Sm (R 180) (R 161));
  ISub 182 183 (R 173) (K 0xffffffffffffffff) (K 0);
  ISub 184 185 (R 175) (K 0xffffffff) (R 183);
  ISub 186 187 (R 177) (K 0) (R 185);
  ISub 188 189 (R 179) (K 0xffffffff00000001) (R 187);
  ISubB 191 (R 181) (K 0) (R 189);
  ICmov 192 (R 191) (R 182) (R 173);
  ICmov 193 (R 191) (R 184) (R 175);
  ICmov 194 (R 191) (R 186) (R 177);
  ICmov 195 (R 191) (R 188) (R 179)
] 192 193 194 195.

(** Square; native/p256/fp/p256_fp.go:370-645 *)
Definition p256fp_square : code := Code [
  IMov 9 (R 2);
  IMov 10 (R 3);
  IMov 11 (R 4);
  IMov 12 (R 1);
  IMul 14 13 (R 12) (R 4);
  IMul 16 15 (R 12) (R 3);
  IMul 18 17 (R 12) (R 2);
  IMul 20 19 (R 12) (R 1);
  IAdd 21 22 (R 20) (R 17) (K 0);
  IAdd 23 24 (R 18) (R 15) (R 22);
  IAdd 25 26 (R 16) (R 13) (R 24);
  IMov 27 (Sm (R 26) (R 14));
  IMul 29 28 (R 19) (K 0xffffffff00000001);
  IMul 31 30 (R 19) (K 0xffffffff);
  IMul 33 32 (R 19) (K 0xffffffffffffffff);
  IAdd 34 35 (R 33) (R 30) (K 0);
  IMov 36 (Sm (R 35) (R 31));
  IAddC 38 (R 19) (R 32) (K 0);
  IAdd 39 40 (R 21) (R 34) (R 38);
  IAdd 41 42 (R 23) (R 36) (R 40);
  IAdd 43 44 (R 25) (R 28) (R 42);
  IAdd 45 46 (R 27) (R 29) (R 44);
  IMul 48 47 (R 9) (R 4);
  IMul 50 49 (R 9) (R 3);
  IMul 52 51 (R 9) (R 2);
  IMul 54 53 (R 9) (R 1);
  IAdd 55 56 (R 54) (R 51) (K 0);
  IAdd 57 58 (R 52) (R 49) (R 56);
  IAdd 59 60 (R 50) (R 47) (R 58);
  IMov 61 (Sm (R 60) (R 48));
  IAdd 62 63 (R 39) (R 53) (K 0);
  IAdd 64 65 (R 41) (R 55) (R 63);
  IAdd 66 67 (R 43) (R 57) (R 65);
  IAdd 68 69 (R 45) (R 59) (R 67);
  IAdd 70 71 (R 46) (R 61) (R 69);
  IMul 73 72 (R 62) (K 0xffffffff00000001);
  IMul 75 74 (R 62) (K 0xffffffff);
  IMul 77 76 (R 62) (K 0xffffffffffffffff);
  IAdd 78 79 (R 77) (R 74) (K 0);
  IMov 80 (Sm (R 79) (R 75));
  IAddC 82 (R 62) (R 76) (K 0);
  IAdd 83 84 (R 64) (R 78) (R 82);
  IAdd 85 86 (R 66) (R 80) (R 84);
  IAdd 87 88 (R 68) (R 72) (R 86);
  IAdd 89 90 (R 70) (R 73) (R 88);
  IMov 91 (Sm (R 90) (R 71));
  IMul 93 92 (R 10) (R 4);
  IMul 95 94 (R 10) (R 3);
  IMul 97 96 (R 10) (R 2);
  IMul 99 98 (R 10) (R 1);
  IAdd 100 101 (R 99) (R 96) (K 0);
  IAdd 102 103 (R 97) (R 94) (R 101);
  IAdd 104 105 (R 95) (R 92) (R 103);
  IMov 106 (Sm (R 105) (R 93));
  IAdd 107 108 (R 83) (R 98) (K 0);
  IAdd 109 110 (R 85) (R 100) (R 108);
  IAdd 111 112 (R 87) (R 102) (R 110);
  IAdd 113 114 (R 89) (R 104) (R 112);
  IAdd 115 116 (R 91) (R 106) (R 114);
  IMul 118 117 (R 107) (K 0xffffffff00000001);
  IMul 120 119 (R 107) (K 0xffffffff);
  IMul 122 121 (R 107) (K 0xffffffffffffffff);
  IAdd 123 124 (R 122) (R 119) (K 0);
  IMov 125 (Sm (R 124) (R 120));
  IAddC 127 (R 107) (R 121) (K 0);
  IAdd 128 129 (R 109) (R 123) (R 127);
  IAdd 130 131 (R 111) (R 125) (R 129);
  IAdd 132 133 (R 113) (R 117) (R 131);
  IAdd 134 135 (R 115) (R 118) (R 133);
  IMov 136 (Sm (R 135) (R 116));
  IMul 138 137 (R 11) (R 4);
  IMul 140 139 (R 11) (R 3);
  IMul 142 141 (R 11) (R 2);
  IMul 144 143 (R 11) (R 1);
  IAdd 145 146 (R 144) (R 141) (K 0);
  IAdd 147 148 (R 142) (R 139) (R 146);
  IAdd 149 150 (R 140) (R 137) (R 148);
  IMov 151 (Sm (R 150) (R 138));
  IAdd 152 153 (R 128) (R 143) (K 0);
  IAdd 154 155 (R 130) (R 145) (R 153);
  IAdd 156 157 (R 132) (R 147) (R 155);
  IAdd 158 159 (R 134) (R 149) (R 157);
  IAdd 160 161 (R 136) (R 151) (R 159);
  IMul 163 162 (R 152) (K 0xffffffff00000001);
  IMul 165 164 (R 152) (K 0xffffffff);
  IMul 167 166 (R 152) (K 0xffffffffffffffff);
  IAdd 168 169 (R 167) (R 164) (K 0);
  IMov 170 (Sm (R 169) (R 165));
  IAddC 172 (R 152) (R 166) (K 0);
  IAdd 173 174 (R 154) (R 168) (R 172);
  IAdd 175 176 (R 156) (R 170) (R 174);
  IAdd 177 178 (R 158) (R 162) (R 176);
  IAdd 179 180 (R 160) (R 163) (R 178);
  IMov 181 (Sm (R 180) (R 161));
  ISub 182 183 (R 173) (K 0xffffffffffffffff) (K 0);
  ISub 184 185 (R 175) (K 0xffffffff) (R 183);
  ISub 186 187 (R 177) (K 0) (R 185);
  ISub 188 189 (R 179) (K 0xffffffff00000001) (R 187);
  ISubB 191 (R 181) (K 0) (R 189);
  ICmov 192 (R 191) (R 182) (R 173);
  ICmov 193 (R 191) (R 184) (R 175);
  ICmov 194 (R 191) (R 186) (R 177);
  ICmov 195 (R 191) (R 188) (R 179)
] 192 193 194 195.

(** Add; native/p256/fp/p256_fp.go:656-695 *)
Definition p256fp_add : code := Code [
  IAdd 9 10 (R 1) (R 5) (K 0);
  IAdd 11 12 (R 2) (R 6) (R 10);
  IAdd 13 14 (R 3) (R 7) (R 12);
  IAdd 15 16 (R 4) (R 8) (R 14);
  ISub 17 18 (R 9) (K 0xffffffffffffffff) (K 0);
  ISub 19 20 (R 11) (K 0xffffffff) (R 18);
  ISub 21 22 (R 13) (K 0) (R 20);
  ISub 23 24 (R 15) (K 0xffffffff00000001) (R 22);
  ISubB 26 (R 16) (K 0) (R 24);
  ICmov 27 (R 26) (R 17) (R 9);
  ICmov 28 (R 26) (R 19) (R 11);
  ICmov 29 (R 26) (R 21) (R 13);
  ICmov 30 (R 26) (R 23) (R 15)
] 27 28 29 30.

(** Sub; native/p256/fp/p256_fp.go:706-736 *)
Definition p256fp_sub : code := Code [
  ISub 9 10 (R 1) (R 5) (K 0);
  ISub 11 12 (R 2) (R 6) (R 10);
  ISub 13 14 (R 3) (R 7) (R 12);
  ISub 15 16 (R 4) (R 8) (R 14);
  ICmov 17 (R 16) (K 0) (K 0xffffffffffffffff);
  IAdd 18 19 (R 9) (R 17) (K 0);
  IAdd 20 21 (R 11) (Am 17 0xffffffff) (R 19);
  IAdd 22 23 (R 13) (K 0) (R 21);
  IAddS 24 (R 15) (Am 17 0xffffffff00000001) (R 23)
] 18 20 22 24.

(** Opp; native/p256/fp/p256_fp.go:746-776 *)
Definition p256fp_opp : code := Code [
  ISub 9 10 (K 0) (R 1) (K 0);
  ISub 11 12 (K 0) (R 2) (R 10);
  ISub 13 14 (K 0) (R 3) (R 12);
  ISub 15 16 (K 0) (R 4) (R 14);
  ICmov 17 (R 16) (K 0) (K 0xffffffffffffffff);
  IAdd 18 19 (R 9) (R 17) (K 0);
  IAdd 20 21 (R 11) (Am 17 0xffffffff) (R 19);
  IAdd 22 23 (R 13) (K 0) (R 21);
  IAddS 24 (R 15) (Am 17 0xffffffff00000001) (R 23)
] 18 20 22 24.

(** FromMontgomery; native/p256/fp/p256_fp.go:786-922 *)
Definition p256fp_from : code := Code [
  IMov 9 (R 1);
  IMul 11 10 (R 9) (K 0xffffffff00000001);
  IMul 13 12 (R 9) (K 0xffffffff);
  IMul 15 14 (R 9) (K 0xffffffffffffffff);
  IAdd 16 17 (R 15) (R 12) (K 0);
  IAddC 19 (R 9) (R 14) (K 0);
  IAdd 20 21 (K 0) (R 16) (R 19);
  IAdd 22 23 (R 20) (R 2) (K 0);
  IMul 25 24 (R 22) (K 0xffffffff00000001);
  IMul 27 26 (R 22) (K 0xffffffff);
  IMul 29 28 (R 22) (K 0xffffffffffffffff);
  IAdd 30 31 (R 29) (R 26) (K 0);
  IAddC 33 (R 22) (R 28) (K 0);
  IAdd 34 35 (Sm (R 23) (Sm (R 21) (Sm (R 17) (R 13)))) (R 30) (R 33);
  IAdd 36 37 (R 10) (Sm (R 31) (R 27)) (R 35);
  IAdd 38 39 (R 11) (R 24) (R 37);
  IAdd 40 41 (R 34) (R 3) (K 0);
  IAdd 42 43 (R 36) (K 0) (R 41);
  IAdd 44 45 (R 38) (K 0) (R 43);
  IMul 47 46 (R 40) (K 0xffffffff00000001);
  IMul 49 48 (R 40) (K 0xffffffff);
  IMul 51 50 (R 40) (K 0xffffffffffffffff);
  IAdd 52 53 (R 51) (R 48) (K 0);
  IAddC 55 (R 40) (R 50) (K 0);
  IAdd 56 57 (R 42) (R 52) (R 55);
  IAdd 58 59 (R 44) (Sm (R 53) (R 49)) (R 57);
  IAdd 60 61 (Sm (R 45) (Sm (R 39) (R 25))) (R 46) (R 59);
  IAdd 62 63 (R 56) (R 4) (K 0);
  IAdd 64 65 (R 58) (K 0) (R 63);
  IAdd 66 67 (R 60) (K 0) (R 65);
  IMul 69 68 (R 62) (K 0xffffffff00000001);
  IMul 71 70 (R 62) (K 0xffffffff);
  IMul 73 72 (R 62) (K 0xffffffffffffffff);
  IAdd 74 75 (R 73) (R 70) (K 0);
  IAddC 77 (R 62) (R 72) (K 0);
  IAdd 78 79 (R 64) (R 74) (R 77);
  IAdd 80 81 (R 66) (Sm (R 75) (R 71)) (R 79);
  IAdd 82 83 (Sm (R 67) (Sm (R 61) (R 47))) (R 68) (R 81);
  IMov 84 (Sm (R 83) (R 69));
  ISub 85 86 (R 78) (K 0xffffffffffffffff) (K 0);
  ISub 87 88 (R 80) (K 0xffffffff) (R 86);
  ISub 89 90 (R 82) (K 0) (R 88);
  ISub 91 92 (R 84) (K 0xffffffff00000001) (R 90);
  ISubB 94 (K 0) (K 0) (R 92);
  ICmov 95 (R 94) (R 85) (R 78);
  ICmov 96 (R 94) (R 87) (R 80);
  ICmov 97 (R 94) (R 89) (R 82);
  ICmov 98 (R 94) (R 91) (R 84)
] 95 96 97 98.

(** ToMontgomery; native/p256/fp/p256_fp.go:932-1187 *)
Definition p256fp_to : code := Code [
  IMov 9 (R 2);
  IMov 10 (R 3);
  IMov 11 (R 4);
  IMov 12 (R 1);
  IMul 14 13 (R 12) (K 0x4fffffffd);
  IMul 16 15 (R 12) (K 0xfffffffffffffffe);
  IMul 18 17 (R 12) (K 0xfffffffbffffffff);
  IMul 20 19 (R 12) (K 3);
  IAdd 21 22 (R 20) (R 17) (K 0);
  IAdd 23 24 (R 18) (R 15) (R 22);
  IAdd 25 26 (R 16) (R 13) (R 24);
  IMul 28 27 (R 19) (K 0xffffffff00000001);
  IMul 30 29 (R 19) (K 0xffffffff);
  IMul 32 31 (R 19) (K 0xffffffffffffffff);
  IAdd 33 34 (R 32) (R 29) (K 0);
  IAddC 36 (R 19) (R 31) (K 0);
  IAdd 37 38 (R 21) (R 33) (R 36);
  IAdd 39 40 (R 23) (Sm (R 34) (R 30)) (R 38);
  IAdd 41 42 (R 25) (R 27) (R 40);
  IAdd 43 44 (Sm (R 26) (R 14)) (R 28) (R 42);
  IMul 46 45 (R 9) (K 0x4fffffffd);
  IMul 48 47 (R 9) (K 0xfffffffffffffffe);
  IMul 50 49 (R 9) (K 0xfffffffbffffffff);
  IMul 52 51 (R 9) (K 3);
  IAdd 53 54 (R 52) (R 49) (K 0);
  IAdd 55 56 (R 50) (R 47) (R 54);
  IAdd 57 58 (R 48) (R 45) (R 56);
  IAdd 59 60 (R 37) (R 51) (K 0);
  IAdd 61 62 (R 39) (R 53) (R 60);
  IAdd 63 64 (R 41) (R 55) (R 62);
  IAdd 65 66 (R 43) (R 57) (R 64);
  IMul 68 67 (R 59) (K 0xffffffff00000001);
  IMul 70 69 (R 59) (K 0xffffffff);
  IMul 72 71 (R 59) (K 0xffffffffffffffff);
  IAdd 73 74 (R 72) (R 69) (K 0);
  IAddC 76 (R 59) (R 71) (K 0);
  IAdd 77 78 (R 61) (R 73) (R 76);
  IAdd 79 80 (R 63) (Sm (R 74) (R 70)) (R 78);
  IAdd 81 82 (R 65) (R 67) (R 80);
  IAdd 83 84 (Sm (Sm (R 66) (R 44)) (Sm (R 58) (R 46))) (R 68) (R 82);
  IMul 86 85 (R 10) (K 0x4fffffffd);
  IMul 88 87 (R 10) (K 0xfffffffffffffffe);
  IMul 90 89 (R 10) (K 0xfffffffbffffffff);
  IMul 92 91 (R 10) (K 3);
  IAdd 93 94 (R 92) (R 89) (K 0);
  IAdd 95 96 (R 90) (R 87) (R 94);
  IAdd 97 98 (R 88) (R 85) (R 96);
  IAdd 99 100 (R 77) (R 91) (K 0);
  IAdd 101 102 (R 79) (R 93) (R 100);
  IAdd 103 104 (R 81) (R 95) (R 102);
  IAdd 105 106 (R 83) (R 97) (R 104);
  IMul 108 107 (R 99) (K 0xffffffff00000001);
  IMul 110 109 (R 99) (K 0xffffffff);
  IMul 112 111 (R 99) (K 0xffffffffffffffff);
  IAdd 113 114 (R 112) (R 109) (K 0);
  IAddC 116 (R 99) (R 111) (K 0);
  IAdd 117 118 (R 101) (R 113) (R 116);
  IAdd 119 120 (R 103) (Sm (R 114) (R 110)) (R 118);
  IAdd 121 122 (R 105) (R 107) (R 120);
  IAdd 123 124 (Sm (Sm (R 106) (R 84)) (Sm (R 98) (R 86))) (R 108) (R 122);
  IMul 126 125 (R 11) (K 0x4fffffffd);
  IMul 128 127 (R 11) (K 0xfffffffffffffffe);
  IMul 130 129 (R 11) (K 0xfffffffbffffffff);
  IMul 132 131 (R 11) (K 3);
  IAdd 133 134 (R 132) (R 129) (K 0);
  IAdd 135 136 (R 130) (R 127) (R 134);
  IAdd 137 138 (R 128) (R 125) (R 136);
  IAdd 139 140 (R 117) (R 131) (K 0);
  IAdd 141 142 (R 119) (R 133) (R 140);
  IAdd 143 144 (R 121) (R 135) (R 142);
  IAdd 145 146 (R 123) (R 137) (R 144);
  IMul 148 147 (R 139) (K 0xffffffff00000001);
  IMul 150 149 (R 139) (K 0xffffffff);
  IMul 152 151 (R 139) (K 0xffffffffffffffff);
  IAdd 153 154 (R 152) (R 149) (K 0);
  IAddC 156 (R 139) (R 151) (K 0);
  IAdd 157 158 (R 141) (R 153) (R 156);
  IAdd 159 160 (R 143) (Sm (R 154) (R 150)) (R 158);
  IAdd 161 162 (R 145) (R 147) (R 160);
  IAdd 163 164 (Sm (Sm (R 146) (R 124)) (Sm (R 138) (R 126))) (R 148) (R 162);
  ISub 165 166 (R 157) (K 0xffffffffffffffff) (K 0);
  ISub 167 168 (R 159) (K 0xffffffff) (R 166);
  ISub 169 170 (R 161) (K 0) (R 168);
  ISub 171 172 (R 163) (K 0xffffffff00000001) (R 170);
  ISubB 174 (R 164) (K 0) (R 172);
  ICmov 175 (R 174) (R 165) (R 157);
  ICmov 176 (R 174) (R 167) (R 159);
  ICmov 177 (R 174) (R 169) (R 161);
  ICmov 178 (R 174) (R 171) (R 163)
] 175 176 177 178.

(** the methods and constants; native/p256/fp/fp.go:30-33 *)
Definition p256fp : field := compiled p256fp_mul p256fp_square p256fp_add p256fp_sub p256fp_opp p256fp_from p256fp_to
  (L4 0xffffffffffffffff 0x00000000ffffffff 0x0000000000000000 0xffffffff00000001)
  (L4 0x0000000000000001 0xffffffff00000000 0xffffffffffffffff 0x00000000fffffffe)
  (L4 0x0000000000000003 0xfffffffbffffffff 0xfffffffffffffffe 0x00000004fffffffd)
  (L4 0xfffffffd0000000a 0xffffffedfffffff7 0x00000005fffffffc 0x0000001800000001).
