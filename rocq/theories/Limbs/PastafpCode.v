(** Field arithmetic of the Pallas base field (native/pasta/fp/pasta_fp.go), transcribed statement by statement. *)
From Coq Require Import ZArith List.
From Verif Require Import Limbs.Model.
Import ListNotations.
Local Open Scope Z_scope.

(** fiat_pasta_fp_mul; native/pasta/fp/pasta_fp.go:99-382 *)
Definition pastafp_mul : code := Code [
  IMov 9 (R 2);
  IMov 10 (R 3);
  IMov 11 (R 4);
  IMov 12 (R 1);
  IMul 14 13 (R 12) (R 8);
  IMul 16 15 (R 12) (R 7);
  IMul 18 17 (R 12) (R 6);
  IMul 20 19 (R 12) (R 5);
  IAdd 21 22 (R 20) (R 17) (K 0);
  IAdd 23 24 (R 18) (R 15) (R 22);
  IAdd 25 26 (R 16) (R 13) (R 24);
  IMov 27 (Sm (R 26) (R 14));
  IMulLo 28 (R 19) (K 0x992d30ecffffffff);
  IMul 31 30 (R 28) (K 0x4000000000000000);
  IMul 33 32 (R 28) (K 0x224698fc094cf91b);
  IMul 35 34 (R 28) (K 0x992d30ed00000001);
  IAdd 36 37 (R 35) (R 32) (K 0);
  IMov 38 (Sm (R 37) (R 33));
  IAddC 40 (R 19) (R 34) (K 0);
  IAdd 41 42 (R 21) (R 36) (R 40);
  IAdd 43 44 (R 23) (R 38) (R 42);
  IAdd 45 46 (R 25) (R 30) (R 44);
  IAdd 47 48 (R 27) (R 31) (R 46);
  IMul 50 49 (R 9) (R 8);
  IMul 52 51 (R 9) (R 7);
  IMul 54 53 (R 9) (R 6);
  IMul 56 55 (R 9) (R 5);
  IAdd 57 58 (R 56) (R 53) (K 0);
  IAdd 59 60 (R 54) (R 51) (R 58);
  IAdd 61 62 (R 52) (R 49) (R 60);
  IMov 63 (Sm (R 62) (R 50));
  IAdd 64 65 (R 41) (R 55) (K 0);
  IAdd 66 67 (R 43) (R 57) (R 65);
  IAdd 68 69 (R 45) (R 59) (R 67);
  IAdd 70 71 (R 47) (R 61) (R 69);
  IAdd 72 73 (R 48) (R 63) (R 71);
  IMulLo 74 (R 64) (K 0x992d30ecffffffff);
  IMul 77 76 (R 74) (K 0x4000000000000000);
  IMul 79 78 (R 74) (K 0x224698fc094cf91b);
  IMul 81 80 (R 74) (K 0x992d30ed00000001);
  IAdd 82 83 (R 81) (R 78) (K 0);
  IMov 84 (Sm (R 83) (R 79));
  IAddC 86 (R 64) (R 80) (K 0);
  IAdd 87 88 (R 66) (R 82) (R 86);
  IAdd 89 90 (R 68) (R 84) (R 88);
  IAdd 91 92 (R 70) (R 76) (R 90);
  IAdd 93 94 (R 72) (R 77) (R 92);
  IMov 95 (Sm (R 94) (R 73));
  IMul 97 96 (R 10) (R 8);
  IMul 99 98 (R 10) (R 7);
  IMul 101 100 (R 10) (R 6);
  IMul 103 102 (R 10) (R 5);
  IAdd 104 105 (R 103) (R 100) (K 0);
  IAdd 106 107 (R 101) (R 98) (R 105);
  IAdd 108 109 (R 99) (R 96) (R 107);
  IMov 110 (Sm (R 109) (R 97));
  IAdd 111 112 (R 87) (R 102) (K 0);
  IAdd 113 114 (R 89) (R 104) (R 112);
  IAdd 115 116 (R 91) (R 106) (R 114);
  IAdd 117 118 (R 93) (R 108) (R 116);
  IAdd 119 120 (R 95) (R 110) (R 118);
  IMulLo 121 (R 111) (K 0x992d30ecffffffff);
  IMul 124 123 (R 121) (K 0x4000000000000000);
  IMul 126 125 (R 121) (K 0x224698fc094cf91b);
  IMul 128 127 (R 121) (K 0x992d30ed00000001);
  IAdd 129 130 (R 128) (R 125) (K 0);
  IMov 131 (Sm (R 130) (R 126));
  IAddC 133 (R 111) (R 127) (K 0);
  IAdd 134 135 (R 113) (R 129) (R 133);
  IAdd 136 137 (R 115) (R 131) (R 135);
  IAdd 138 139 (R 117) (R 123) (R 137);
  IAdd 140 141 (R 119) (R 124) (R 139);
  IMov 142 (Sm (R 141) (R 120));
  IMul 144 143 (R 11) (R 8);
  IMul 146 145 (R 11) (R 7);
  IMul 148 147 (R 11) (R 6);
  IMul 150 149 (R 11) (R 5);
  IAdd 151 152 (R 150) (R 147) (K 0);
  IAdd 153 154 (R 148) (R 145) (R 152);
  IAdd 155 156 (R 146) (R 143) (R 154);
  IMov 157 (Sm (R 156) (R 144));
  IAdd 158 159 (R 134) (R 149) (K 0);
  IAdd 160 161 (R 136) (R 151) (R 159);
  IAdd 162 163 (R 138) (R 153) (R 161);
  IAdd 164 165 (R 140) (R 155) (R 163);
  IAdd 166 167 (R 142) (R 157) (R 165);
  IMulLo 168 (R 158) (K 0x992d30ecffffffff);
  IMul 171 170 (R 168) (K 0x4000000000000000);
  IMul 173 172 (R 168) (K 0x224698fc094cf91b);
  IMul 175 174 (R 168) (K 0x992d30ed00000001);
  IAdd 176 177 (R 175) (R 172) (K 0);
  IMov 178 (Sm (R 177) (R 173));
  IAddC 180 (R 158) (R 174) (K 0);
  IAdd 181 182 (R 160) (R 176) (R 180);
  IAdd 183 184 (R 162) (R 178) (R 182);
  IAdd 185 186 (R 164) (R 170) (R 184);
  IAdd 187 188 (R 166) (R 171) (R 186);
  IMov 189 (Sm (R 188) (R 167));
  ISub 190 191 (R 181) (K 0x992d30ed00000001) (K 0);
  ISub 192 193 (R 183) (K 0x224698fc094cf91b) (R 191);
  ISub 194 195 (R 185) (K 0) (R 193);
  ISub 196 197 (R 187) (K 0x4000000000000000) (R 195);
  ISubB 199 (R 189) (K 0) (R 197);
  ICmov 200 (R 199) (R 190) (R 181);
  ICmov 201 (R 199) (R 192) (R 183);
  ICmov 202 (R 199) (R 194) (R 185);
  ICmov 203 (R 199) (R 196) (R 187)
] 200 201 202 203.

(** fiat_pasta_fp_square; native/pasta/fp/pasta_fp.go:392-675 *)
Definition pastafp_square : code := Code [
  IMov 9 (R 2);
  IMov 10 (R 3);
  IMov 11 (R 4);
  IMov 12 (R 1);
  IMul 14 13 (R 12) (R 4);
  IMul 16 15 (R 12) (R 3);
  IMul 18 17 (R 12) (R 2);
  IMul 20 19 (R 12) (R 1);
  IAdd 21 22 (R 20) (R 17) (K 0);
  IAdd 23 24 (R 18) (R 15) (R 22);
  IAdd 25 26 (R 16) (R 13) (R 24);
  IMov 27 (Sm (R 26) (R 14));
  IMulLo 28 (R 19) (K 0x992d30ecffffffff);
  IMul 31 30 (R 28) (K 0x4000000000000000);
  IMul 33 32 (R 28) (K 0x224698fc094cf91b);
  IMul 35 34 (R 28) (K 0x992d30ed00000001);
  IAdd 36 37 (R 35) (R 32) (K 0);
  IMov 38 (Sm (R 37) (R 33));
  IAddC 40 (R 19) (R 34) (K 0);
  IAdd 41 42 (R 21) (R 36) (R 40);
  IAdd 43 44 (R 23) (R 38) (R 42);
  IAdd 45 46 (R 25) (R 30) (R 44);
  IAdd 47 48 (R 27) (R 31) (R 46);
  IMul 50 49 (R 9) (R 4);
  IMul 52 51 (R 9) (R 3);
  IMul 54 53 (R 9) (R 2);
  IMul 56 55 (R 9) (R 1);
  IAdd 57 58 (R 56) (R 53) (K 0);
  IAdd 59 60 (R 54) (R 51) (R 58);
  IAdd 61 62 (R 52) (R 49) (R 60);
  IMov 63 (Sm (R 62) (R 50));
  IAdd 64 65 (R 41) (R 55) (K 0);
  IAdd 66 67 (R 43) (R 57) (R 65);
  IAdd 68 69 (R 45) (R 59) (R 67);
  IAdd 70 71 (R 47) (R 61) (R 69);
  IAdd 72 73 (R 48) (R 63) (R 71);
  IMulLo 74 (R 64) (K 0x992d30ecffffffff);
  IMul 77 76 (R 74) (K 0x4000000000000000);
  IMul 79 78 (R 74) (K 0x224698fc094cf91b);
  IMul 81 80 (R 74) (K 0x992d30ed00000001);
  IAdd 82 83 (R 81) (R 78) (K 0);
  IMov 84 (Sm (R 83) (R 79));
  IAddC 86 (R 64) (R 80) (K 0);
  IAdd 87 88 (R 66) (R 82) (R 86);
  IAdd 89 90 (R 68) (R 84) (R 88);
  IAdd 91 92 (R 70) (R 76) (R 90);
  IAdd 93 94 (R 72) (R 77) (R 92);
  IMov 95 (Sm (R 94) (R 73));
  IMul 97 96 (R 10) (R 4);
  IMul 99 98 (R 10) (R 3);
  IMul 101 100 (R 10) (R 2);
  IMul 103 102 (R 10) (R 1);
  IAdd 104 105 (R 103) (R 100) (K 0);
  IAdd 106 107 (R 101) (R 98) (R 105);
  IAdd 108 109 (R 99) (R 96) (R 107);
  IMov 110 (Sm (R 109) (R 97));
  IAdd 111 112 (R 87) (R 102) (K 0);
  IAdd 113 114 (R 89) (R 104) (R 112);
  IAdd 115 116 (R 91) (R 106) (R 114);
  IAdd 117 118 (R 93) (R 108) (R 116);
  IAdd 119 120 (R 95) (R 110) (R 118);
  IMulLo 121 (R 111) (K 0x992d30ecffffffff);
  IMul 124 123 (R 121) (K 0x4000000000000000);
  IMul 126 125 (R 121) (K 0x224698fc094cf91b);
  IMul 128 127 (R 121) (K 0x992d30ed00000001);
  IAdd 129 130 (R 128) (R 125) (K 0);
  IMov 131 (Sm (R 130) (R 126));
  IAddC 133 (R 111) (R 127) (K 0);
  IAdd 134 135 (R 113) (R 129) (R 133);
  IAdd 136 137 (R 115) (R 131) (R 135);
  IAdd 138 139 (R 117) (R 123) (R 137);
  IAdd 140 141 (R 119) (R 124) (R 139);
  IMov 142 (Sm (R 141) (R 120));
  IMul 144 143 (R 11) (R 4);
  IMul 146 145 (R 11) (R 3);
  IMul 148 147 (R 11) (R 2);
  IMul 150 149 (R 11) (R 1);
  IAdd 151 152 (R 150) (R 147) (K 0);
  IAdd 153 154 (R 148) (R 145) (R 152);
  IAdd 155 156 (R 146) (R 143) (R 154);
  IMov 157 (Sm (R 156) (R 144));
  IAdd 158 159 (R 134) (R 149) (K 0);
  IAdd 160 161 (R 136) (R 151) (R 159);
  IAdd 162 163 (R 138) (R 153) (R 161);
  IAdd 164 165 (R 140) (R 155) (R 163);
  IAdd 166 167 (R 142) (R 157) (R 165);
  IMulLo 168 (R 158) (K 0x992d30ecffffffff);
  IMul 171 170 (R 168) (K 0x4000000000000000);
  IMul 173 172 (R 168) (K 0x224698fc094cf91b);
  IMul 175 174 (R 168) (K 0x992d30ed00000001);
  IAdd 176 177 (R 175) (R 172) (K 0);
  IMov 178 (Sm (R 177) (R 173));
  IAddC 180 (R 158) (R 174) (K 0);
  IAdd 181 182 (R 160) (R 176) (R 180);
  IAdd 183 184 (R 162) (R 178) (R 182);
  IAdd 185 186 (R 164) (R 170) (R 184);
  IAdd 187 188 (R 166) (R 171) (R 186);
  IMov 189 (Sm (R 188) (R 167));
  ISub 190 191 (R 181) (K 0x992d30ed00000001) (K 0);
  ISub 192 193 (R 183) (K 0x224698fc094cf91b) (R 191);
  ISub 194 195 (R 185) (K 0) (R 193);
  ISub 196 197 (R 187) (K 0x4000000000000000) (R 195);
  ISubB 199 (R 189) (K 0) (R 197);
  ICmov 200 (R 199) (R 190) (R 181);
  ICmov 201 (R 199) (R 192) (R 183);
  ICmov 202 (R 199) (R 194) (R 185);
  ICmov 203 (R 199) (R 196) (R 187)
] 200 201 202 203.

(** fiat_pasta_fp_add; native/pasta/fp/pasta_fp.go:686-725 *)
Definition pastafp_add : code := Code [
  IAdd 9 10 (R 1) (R 5) (K 0);
  IAdd 11 12 (R 2) (R 6) (R 10);
  IAdd 13 14 (R 3) (R 7) (R 12);
  IAdd 15 16 (R 4) (R 8) (R 14);
  ISub 17 18 (R 9) (K 0x992d30ed00000001) (K 0);
  ISub 19 20 (R 11) (K 0x224698fc094cf91b) (R 18);
  ISub 21 22 (R 13) (K 0) (R 20);
  ISub 23 24 (R 15) (K 0x4000000000000000) (R 22);
  ISubB 26 (R 16) (K 0) (R 24);
  ICmov 27 (R 26) (R 17) (R 9);
  ICmov 28 (R 26) (R 19) (R 11);
  ICmov 29 (R 26) (R 21) (R 13);
  ICmov 30 (R 26) (R 23) (R 15)
] 27 28 29 30.

(** fiat_pasta_fp_sub; native/pasta/fp/pasta_fp.go:736-766 *)
Definition pastafp_sub : code := Code [
  ISub 9 10 (R 1) (R 5) (K 0);
  ISub 11 12 (R 2) (R 6) (R 10);
  ISub 13 14 (R 3) (R 7) (R 12);
  ISub 15 16 (R 4) (R 8) (R 14);
  ICmov 17 (R 16) (K 0) (K 0xffffffffffffffff);
  IAdd 18 19 (R 9) (Am 17 0x992d30ed00000001) (K 0);
  IAdd 20 21 (R 11) (Am 17 0x224698fc094cf91b) (R 19);
  IAdd 22 23 (R 13) (K 0) (R 21);
  IAddS 24 (R 15) (Am 17 0x4000000000000000) (R 23)
] 18 20 22 24.

(** fiat_pasta_fp_opp; native/pasta/fp/pasta_fp.go:776-806 *)
Definition pastafp_opp : code := Code [
  ISub 9 10 (K 0) (R 1) (K 0);
  ISub 11 12 (K 0) (R 2) (R 10);
  ISub 13 14 (K 0) (R 3) (R 12);
  ISub 15 16 (K 0) (R 4) (R 14);
  ICmov 17 (R 16) (K 0) (K 0xffffffffffffffff);
  IAdd 18 19 (R 9) (Am 17 0x992d30ed00000001) (K 0);
  IAdd 20 21 (R 11) (Am 17 0x224698fc094cf91b) (R 19);
  IAdd 22 23 (R 13) (K 0) (R 21);
  IAddS 24 (R 15) (Am 17 0x4000000000000000) (R 23)
] 18 20 22 24.

(** fiat_pasta_fp_from_montgomery; native/pasta/fp/pasta_fp.go:816-960 *)
Definition pastafp_from : code := Code [
  IMov 9 (R 1);
  IMulLo 10 (R 9) (K 0x992d30ecffffffff);
  IMul 13 12 (R 10) (K 0x4000000000000000);
  IMul 15 14 (R 10) (K 0x224698fc094cf91b);
  IMul 17 16 (R 10) (K 0x992d30ed00000001);
  IAdd 18 19 (R 17) (R 14) (K 0);
  IAddC 21 (R 9) (R 16) (K 0);
  IAdd 22 23 (K 0) (R 18) (R 21);
  IAdd 24 25 (R 22) (R 2) (K 0);
  IMulLo 26 (R 24) (K 0x992d30ecffffffff);
  IMul 29 28 (R 26) (K 0x4000000000000000);
  IMul 31 30 (R 26) (K 0x224698fc094cf91b);
  IMul 33 32 (R 26) (K 0x992d30ed00000001);
  IAdd 34 35 (R 33) (R 30) (K 0);
  IAddC 37 (R 24) (R 32) (K 0);
  IAdd 38 39 (Sm (R 25) (Sm (R 23) (Sm (R 19) (R 15)))) (R 34) (R 37);
  IAdd 40 41 (R 12) (Sm (R 35) (R 31)) (R 39);
  IAdd 42 43 (R 13) (R 28) (R 41);
  IAdd 44 45 (R 38) (R 3) (K 0);
  IAdd 46 47 (R 40) (K 0) (R 45);
  IAdd 48 49 (R 42) (K 0) (R 47);
  IMulLo 50 (R 44) (K 0x992d30ecffffffff);
  IMul 53 52 (R 50) (K 0x4000000000000000);
  IMul 55 54 (R 50) (K 0x224698fc094cf91b);
  IMul 57 56 (R 50) (K 0x992d30ed00000001);
  IAdd 58 59 (R 57) (R 54) (K 0);
  IAddC 61 (R 44) (R 56) (K 0);
  IAdd 62 63 (R 46) (R 58) (R 61);
  IAdd 64 65 (R 48) (Sm (R 59) (R 55)) (R 63);
  IAdd 66 67 (Sm (R 49) (Sm (R 43) (R 29))) (R 52) (R 65);
  IAdd 68 69 (R 62) (R 4) (K 0);
  IAdd 70 71 (R 64) (K 0) (R 69);
  IAdd 72 73 (R 66) (K 0) (R 71);
  IMulLo 74 (R 68) (K 0x992d30ecffffffff);
  IMul 77 76 (R 74) (K 0x4000000000000000);
  IMul 79 78 (R 74) (K 0x224698fc094cf91b);
  IMul 81 80 (R 74) (K 0x992d30ed00000001);
  IAdd 82 83 (R 81) (R 78) (K 0);
  IAddC 85 (R 68) (R 80) (K 0);
  IAdd 86 87 (R 70) (R 82) (R 85);
  IAdd 88 89 (R 72) (Sm (R 83) (R 79)) (R 87);
  IAdd 90 91 (Sm (R 73) (Sm (R 67) (R 53))) (R 76) (R 89);
  IMov 92 (Sm (R 91) (R 77));
  ISub 93 94 (R 86) (K 0x992d30ed00000001) (K 0);
  ISub 95 96 (R 88) (K 0x224698fc094cf91b) (R 94);
  ISub 97 98 (R 90) (K 0) (R 96);
  ISub 99 100 (R 92) (K 0x4000000000000000) (R 98);
  ISubB 102 (K 0) (K 0) (R 100);
  ICmov 103 (R 102) (R 93) (R 86);
  ICmov 104 (R 102) (R 95) (R 88);
  ICmov 105 (R 102) (R 97) (R 90);
  ICmov 106 (R 102) (R 99) (R 92)
] 103 104 105 106.

(** fiat_pasta_fp_to_montgomery; native/pasta/fp/pasta_fp.go:970-1222 *)
Definition pastafp_to : code := Code [
  IMov 9 (R 2);
  IMov 10 (R 3);
  IMov 11 (R 4);
  IMov 12 (R 1);
  IMul 14 13 (R 12) (K 0x96d41af7b9cb714);
  IMul 16 15 (R 12) (K 0x7797a99bc3c95d18);
  IMul 18 17 (R 12) (K 0xd7d30dbd8b0de0e7);
  IMul 20 19 (R 12) (K 0x8c78ecb30000000f);
  IAdd 21 22 (R 20) (R 17) (K 0);
  IAdd 23 24 (R 18) (R 15) (R 22);
  IAdd 25 26 (R 16) (R 13) (R 24);
  IMulLo 27 (R 19) (K 0x992d30ecffffffff);
  IMul 30 29 (R 27) (K 0x4000000000000000);
  IMul 32 31 (R 27) (K 0x224698fc094cf91b);
  IMul 34 33 (R 27) (K 0x992d30ed00000001);
  IAdd 35 36 (R 34) (R 31) (K 0);
  IAddC 38 (R 19) (R 33) (K 0);
  IAdd 39 40 (R 21) (R 35) (R 38);
  IAdd 41 42 (R 23) (Sm (R 36) (R 32)) (R 40);
  IAdd 43 44 (R 25) (R 29) (R 42);
  IMul 46 45 (R 9) (K 0x96d41af7b9cb714);
  IMul 48 47 (R 9) (K 0x7797a99bc3c95d18);
  IMul 50 49 (R 9) (K 0xd7d30dbd8b0de0e7);
  IMul 52 51 (R 9) (K 0x8c78ecb30000000f);
  IAdd 53 54 (R 52) (R 49) (K 0);
  IAdd 55 56 (R 50) (R 47) (R 54);
  IAdd 57 58 (R 48) (R 45) (R 56);
  IAdd 59 60 (R 39) (R 51) (K 0);
  IAdd 61 62 (R 41) (R 53) (R 60);
  IAdd 63 64 (R 43) (R 55) (R 62);
  IAdd 65 66 (Sm (Sm (R 44) (Sm (R 26) (R 14))) (R 30)) (R 57) (R 64);
  IMulLo 67 (R 59) (K 0x992d30ecffffffff);
  IMul 70 69 (R 67) (K 0x4000000000000000);
  IMul 72 71 (R 67) (K 0x224698fc094cf91b);
  IMul 74 73 (R 67) (K 0x992d30ed00000001);
  IAdd 75 76 (R 74) (R 71) (K 0);
  IAddC 78 (R 59) (R 73) (K 0);
  IAdd 79 80 (R 61) (R 75) (R 78);
  IAdd 81 82 (R 63) (Sm (R 76) (R 72)) (R 80);
  IAdd 83 84 (R 65) (R 69) (R 82);
  IMul 86 85 (R 10) (K 0x96d41af7b9cb714);
  IMul 88 87 (R 10) (K 0x7797a99bc3c95d18);
  IMul 90 89 (R 10) (K 0xd7d30dbd8b0de0e7);
  IMul 92 91 (R 10) (K 0x8c78ecb30000000f);
  IAdd 93 94 (R 92) (R 89) (K 0);
  IAdd 95 96 (R 90) (R 87) (R 94);
  IAdd 97 98 (R 88) (R 85) (R 96);
  IAdd 99 100 (R 79) (R 91) (K 0);
  IAdd 101 102 (R 81) (R 93) (R 100);
  IAdd 103 104 (R 83) (R 95) (R 102);
  IAdd 105 106 (Sm (Sm (R 84) (Sm (R 66) (Sm (R 58) (R 46)))) (R 70)) (R 97) (R 104);
  IMulLo 107 (R 99) (K 0x992d30ecffffffff);
  IMul 110 109 (R 107) (K 0x4000000000000000);
  IMul 112 111 (R 107) (K 0x224698fc094cf91b);
  IMul 114 113 (R 107) (K 0x992d30ed00000001);
  IAdd 115 116 (R 114) (R 111) (K 0);
  IAddC 118 (R 99) (R 113) (K 0);
  IAdd 119 120 (R 101) (R 115) (R 118);
  IAdd 121 122 (R 103) (Sm (R 116) (R 112)) (R 120);
  IAdd 123 124 (R 105) (R 109) (R 122);
  IMul 126 125 (R 11) (K 0x96d41af7b9cb714);
  IMul 128 127 (R 11) (K 0x7797a99bc3c95d18);
  IMul 130 129 (R 11) (K 0xd7d30dbd8b0de0e7);
  IMul 132 131 (R 11) (K 0x8c78ecb30000000f);
  IAdd 133 134 (R 132) (R 129) (K 0);
  IAdd 135 136 (R 130) (R 127) (R 134);
  IAdd 137 138 (R 128) (R 125) (R 136);
  IAdd 139 140 (R 119) (R 131) (K 0);
  IAdd 141 142 (R 121) (R 133) (R 140);
  IAdd 143 144 (R 123) (R 135) (R 142);
  IAdd 145 146 (Sm (Sm (R 124) (Sm (R 106) (Sm (R 98) (R 86)))) (R 110)) (R 137) (R 144);
  IMulLo 147 (R 139) (K 0x992d30ecffffffff);
  IMul 150 149 (R 147) (K 0x4000000000000000);
  IMul 152 151 (R 147) (K 0x224698fc094cf91b);
  IMul 154 153 (R 147) (K 0x992d30ed00000001);
  IAdd 155 156 (R 154) (R 151) (K 0);
  IAddC 158 (R 139) (R 153) (K 0);
  IAdd 159 160 (R 141) (R 155) (R 158);
  IAdd 161 162 (R 143) (Sm (R 156) (R 152)) (R 160);
  IAdd 163 164 (R 145) (R 149) (R 162);
  IMov 165 (Sm (Sm (R 164) (Sm (R 146) (Sm (R 138) (R 126)))) (R 150));
  ISub 166 167 (R 159) (K 0x992d30ed00000001) (K 0);
  ISub 168 169 (R 161) (K 0x224698fc094cf91b) (R 167);
  ISub 170 171 (R 163) (K 0) (R 169);
  ISub 172 173 (R 165) (K 0x4000000000000000) (R 171);
  ISubB 175 (K 0) (K 0) (R 173);
  ICmov 176 (R 175) (R 166) (R 159);
  ICmov 177 (R 175) (R 168) (R 161);
  ICmov 178 (R 175) (R 170) (R 163);
  ICmov 179 (R 175) (R 172) (R 165)
] 176 177 178 179.

(** the methods and constants; native/pasta/fp/fp.go:20-36 *)
Definition pastafp : field := compiled pastafp_mul pastafp_square pastafp_add pastafp_sub pastafp_opp pastafp_from pastafp_to
  (L4 0x992d30ed00000001 0x224698fc094cf91b 0x0000000000000000 0x4000000000000000)
  (L4 0x34786d38fffffffd 0x992c350be41914ad 0xffffffffffffffff 0x3fffffffffffffff)
  (L4 0x8c78ecb30000000f 0xd7d30dbd8b0de0e7 0x7797a99bc3c95d18 0x096d41af7b9cb714)
  (L4 0xf185a5993a9e10f9 0xf6a68f3b6ac5b1d1 0xdf8d1014353fd42c 0x2ae309222d2d9910).
