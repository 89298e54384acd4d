(** Field arithmetic of the K256 scalar field (native/k256/fq/secp256k1_fq.go), transcribed statement by statement. *)
From Coq Require Import ZArith List.
From Verif Require Import Limbs.Model.
Import ListNotations.
Local Open Scope Z_scope.

(** Mul; native/k256/fq/secp256k1_fq.go:83-402 *)
Definition k256fq_mul : code := Code [
  IMov 9 (R 2);
  IMov 10 (R 3);
  IMov 11 (R 4);
  IMov 12 (R 1);
  IMul 14 13 (R 12) (R 8);
  IMul 16 15 (R 12) (R 7);
  IMul 18 17 (R 12) (R 6);
  IMul 20 19 (R 12) (R 5);
  IAdd 21 22 (R 20) (R 17) (K 0);
  IAdd 23 24 (R 18) (R 15) (R 22);
  IAdd 25 26 (R 16) (R 13) (R 24);
  IMov 27 (Sm (R 26) (R 14));
  IMulLo 28 (R 19) (K 0x4b0dff665588b13f);
  IMul 31 30 (R 28) (K 0xffffffffffffffff);
  IMul 33 32 (R 28) (K 0xfffffffffffffffe);
  IMul 35 34 (R 28) (K 0xbaaedce6af48a03b);
  IMul 37 36 (R 28) (K 0xbfd25e8cd0364141);
  IAdd 38 39 (R 37) (R 34) (K 0);
  IAdd 40 41 (R 35) (R 32) (R 39);
  IAdd 42 43 (R 33) (R 30) (R 41);
  IMov 44 (Sm (R 43) (R 31));
  IAddC 46 (R 19) (R 36) (K 0);
  IAdd 47 48 (R 21) (R 38) (R 46);
  IAdd 49 50 (R 23) (R 40) (R 48);
  IAdd 51 52 (R 25) (R 42) (R 50);
  IAdd 53 54 (R 27) (R 44) (R 52);
  IMul 56 55 (R 9) (R 8);
  IMul 58 57 (R 9) (R 7);
  IMul 60 59 (R 9) (R 6);
  IMul 62 61 (R 9) (R 5);
  IAdd 63 64 (R 62) (R 59) (K 0);
  IAdd 65 66 (R 60) (R 57) (R 64);
  IAdd 67 68 (R 58) (R 55) (R 66);
  IMov 69 (Sm (R 68) (R 56));
  IAdd 70 71 (R 47) (R 61) (K 0);
  IAdd 72 73 (R 49) (R 63) (R 71);
  IAdd 74 75 (R 51) (R 65) (R 73);
  IAdd 76 77 (R 53) (R 67) (R 75);
  IAdd 78 79 (R 54) (R 69) (R 77);
  IMulLo 80 (R 70) (K 0x4b0dff665588b13f);
  IMul 83 82 (R 80) (K 0xffffffffffffffff);
  IMul 85 84 (R 80) (K 0xfffffffffffffffe);
  IMul 87 86 (R 80) (K 0xbaaedce6af48a03b);
  IMul 89 88 (R 80) (K 0xbfd25e8cd0364141);
  IAdd 90 91 (R 89) (R 86) (K 0);
  IAdd 92 93 (R 87) (R 84) (R 91);
  IAdd 94 95 (R 85) (R 82) (R 93);
  IMov 96 (Sm (R 95) (R 83));
  IAddC 98 (R 70) (R 88) (K 0);
  IAdd 99 100 (R 72) (R 90) (R 98);
  IAdd 101 102 (R 74) (R 92) (R 100);
  IAdd 103 104 (R 76) (R 94) (R 102);
  IAdd 105 106 (R 78) (R 96) (R 104);
  IMov 107 (Sm (R 106) (R 79));
  IMul 109 108 (R 10) (R 8);
  IMul 111 110 (R 10) (R 7);
  IMul 113 112 (R 10) (R 6);
  IMul 115 114 (R 10) (R 5);
  IAdd 116 117 (R 115) (R 112) (K 0);
  IAdd 118 119 (R 113) (R 110) (R 117);
  IAdd 120 121 (R 111) (R 108) (R 119);
  IMov 122 (Sm (R 121) (R 109));
  IAdd 123 124 (R 99) (R 114) (K 0);
  IAdd 125 126 (R 101) (R 116) (R 124);
  IAdd 127 128 (R 103) (R 118) (R 126);
  IAdd 129 130 (R 105) (R 120) (R 128);
  IAdd 131 132 (R 107) (R 122) (R 130);
  IMulLo 133 (R 123) (K 0x4b0dff665588b13f);
  IMul 136 135 (R 133) (K 0xffffffffffffffff);
  IMul 138 137 (R 133) (K 0xfffffffffffffffe);
  IMul 140 139 (R 133) (K 0xbaaedce6af48a03b);
  IMul 142 141 (R 133) (K 0xbfd25e8cd0364141);
  IAdd 143 144 (R 142) (R 139) (K 0);
  IAdd 145 146 (R 140) (R 137) (R 144);
  IAdd 147 148 (R 138) (R 135) (R 146);
  IMov 149 (Sm (R 148) (R 136));
  IAddC 151 (R 123) (R 141) (K 0);
  IAdd 152 153 (R 125) (R 143) (R 151);
  IAdd 154 155 (R 127) (R 145) (R 153);
  IAdd 156 157 (R 129) (R 147) (R 155);
  IAdd 158 159 (R 131) (R 149) (R 157);
  IMov 160 (Sm (R 159) (R 132));
  IMul 162 161 (R 11) (R 8);
  IMul 164 163 (R 11) (R 7);
  IMul 166 165 (R 11) (R 6);
  IMul 168 167 (R 11) (R 5);
  IAdd 169 170 (R 168) (R 165) (K 0);
  IAdd 171 172 (R 166) (R 163) (R 170);
  IAdd 173 174 (R 164) (R 161) (R 172);
  IMov 175 (Sm (R 174) (R 162));
  IAdd 176 177 (R 152) (R 167) (K 0);
  IAdd 178 179 (R 154) (R 169) (R 177);
  IAdd 180 181 (R 156) (R 171) (R 179);
  IAdd 182 183 (R 158) (R 173) (R 181);
  IAdd 184 185 (R 160) (R 175) (R 183);
  IMulLo 186 (R 176) (K 0x4b0dff665588b13f);
  IMul 189 188 (R 186) (K 0xffffffffffffffff);
  IMul 191 190 (R 186) (K 0xfffffffffffffffe);
  IMul 193 192 (R 186) (K 0xbaaedce6af48a03b);
  IMul 195 194 (R 186) (K 0xbfd25e8cd0364141);
  IAdd 196 197 (R 195) (R 192) (K 0);
  IAdd 198 199 (R 193) (R 190) (R 197);
  IAdd 200 201 (R 191) (R 188) (R 199);
  IMov 202 (Sm (R 201) (R 189));
  IAddC 204 (R 176) (R 194) (K 0);
  IAdd 205 206 (R 178) (R 196) (R 204);
  IAdd 207 208 (R 180) (R 198) (R 206);
  IAdd 209 210 (R 182) (R 200) (R 208);
  IAdd 211 212 (R 184) (R 202) (R 210);
  IMov 213 (Sm (R 212) (R 185));
  ISub 214 215 (R 205) (K 0xbfd25e8cd0364141) (K 0);
  ISub 216 217 (R 207) (K 0xbaaedce6af48a03b) (R 215);
  ISub 218 219 (R 209) (K 0xfffffffffffffffe) (R 217);
  ISub 220 221 (R 211) (K 0xffffffffffffffff) (R 219);
  ISubB 223 (R 213) (K 0) (R 221);
  ICmov 224 (R 223) (R 214) (R 205);
  ICmov 225 (R 223) (R 216) (R 207);
  ICmov 226 (R 223) (R 218) (R 209);
  ICmov 227 (R 223) (R 220) (R 211)
] 224 225 226 227.

(** Square; native/k256/fq/secp256k1_fq.go:412-731 *)
Definition k256fq_square : code := Code [
  IMov 9 (R 2);
  IMov 10 (R 3);
  IMov 11 (R 4);
  IMov 12 (R 1);
  IMul 14 13 (R 12) (R 4);
  IMul 16 15 (R 12) (R 3);
  IMul 18 17 (R 12) (R 2);
  IMul 20 19 (R 12) (R 1);
  IAdd 21 22 (R 20) (R 17) (K 0);
  IAdd 23 24 (R 18) (R 15) (R 22);
  IAdd 25 26 (R 16) (R 13) (R 24);
  IMov 27 (Sm (R 26) (R 14));
  IMulLo 28 (R 19) (K 0x4b0dff665588b13f);
  IMul 31 30 (R 28) (K 0xffffffffffffffff);
  IMul 33 32 (R 28) (K 0xfffffffffffffffe);
  IMul 35 34 (R 28) (K 0xbaaedce6af48a03b);
  IMul 37 36 (R 28) (K 0xbfd25e8cd0364141);
  IAdd 38 39 (R 37) (R 34) (K 0);
  IAdd 40 41 (R 35) (R 32) (R 39);
  IAdd 42 43 (R 33) (R 30) (R 41);
  IMov 44 (Sm (R 43) (R 31));
  IAddC 46 (R 19) (R 36) (K 0);
  IAdd 47 48 (R 21) (R 38) (R 46);
  IAdd 49 50 (R 23) (R 40) (R 48);
  IAdd 51 52 (R 25) (R 42) (R 50);
  IAdd 53 54 (R 27) (R 44) (R 52);
  IMul 56 55 (R 9) (R 4);
  IMul 58 57 (R 9) (R 3);
  IMul 60 59 (R 9) (R 2);
  IMul 62 61 (R 9) (R 1);
  IAdd 63 64 (R 62) (R 59) (K 0);
  IAdd 65 66 (R 60) (R 57) (R 64);
  IAdd 67 68 (R 58) (R 55) (R 66);
  IMov 69 (Sm (R 68) (R 56));
  IAdd 70 71 (R 47) (R 61) (K 0);
  IAdd 72 73 (R 49) (R 63) (R 71);
  IAdd 74 75 (R 51) (R 65) (R 73);
  IAdd 76 77 (R 53) (R 67) (R 75);
  IAdd 78 79 (R 54) (R 69) (R 77);
  IMulLo 80 (R 70) (K 0x4b0dff665588b13f);
  IMul 83 82 (R 80) (K 0xffffffffffffffff);
  IMul 85 84 (R 80) (K 0xfffffffffffffffe);
  IMul 87 86 (R 80) (K 0xbaaedce6af48a03b);
  IMul 89 88 (R 80) (K 0xbfd25e8cd0364141);
  IAdd 90 91 (R 89) (R 86) (K 0);
  IAdd 92 93 (R 87) (R 84) (R 91);
  IAdd 94 95 (R 85) (R 82) (R 93);
  IMov 96 (Sm (R 95) (R 83));
  IAddC 98 (R 70) (R 88) (K 0);
  IAdd 99 100 (R 72) (R 90) (R 98);
  IAdd 101 102 (R 74) (R 92) (R 100);
  IAdd 103 104 (R 76) (R 94) (R 102);
  IAdd 105 106 (R 78) (R 96) (R 104);
  IMov 107 (Sm (R 106) (R 79));
  IMul 109 108 (R 10) (R 4);
  IMul 111 110 (R 10) (R 3);
  IMul 113 112 (R 10) (R 2);
  IMul 115 114 (R 10) (R 1);
  IAdd 116 117 (R 115) (R 112) (K 0);
  IAdd 118 119 (R 113) (R 110) (R 117);
  IAdd 120 121 (R 111) (R 108) (R 119);
  IMov 122 (Sm (R 121) (R 109));
  IAdd 123 124 (R 99) (R 114) (K 0);
  IAdd 125 126 (R 101) (R 116) (R 124);
  IAdd 127 128 (R 103) (R 118) (R 126);
  IAdd 129 130 (R 105) (R 120) (R 128);
  IAdd 131 132 (R 107) (R 122) (R 130);
  IMulLo 133 (R 123) (K 0x4b0dff665588b13f);
  IMul 136 135 (R 133) (K 0xffffffffffffffff);
  IMul 138 137 (R 133) (K 0xfffffffffffffffe);
  IMul 140 139 (R 133) (K 0xbaaedce6af48a03b);
  IMul 142 141 (R 133) (K 0xbfd25e8cd0364141);
  IAdd 143 144 (R 142) (R 139) (K 0);
  IAdd 145 146 (R 140) (R 137) (R 144);
  IAdd 147 148 (R 138) (R 135) (R 146);
  IMov 149 (Sm (R 148) (R 136));
  IAddC 151 (R 123) (R 141) (K 0);
  IAdd 152 153 (R 125) (R 143) (R 151);
  IAdd 154 155 (R 127) (R 145) (R 153);
  IAdd 156 157 (R 129) (R 147) (R 155);
  IAdd 158 159 (R 131) (R 149) (R 157);
  IMov 160 (Sm (R 159) (R 132));
  IMul 162 161 (R 11) (R 4);
  IMul 164 163 (R 11) (R 3);
  IMul 166 165 (R 11) (R 2);
  IMul 168 167 (R 11) (R 1);
  IAdd 169 170 (R 168) (R 165) (K 0);
  IAdd 171 172 (R 166) (R 163) (R 170);
  IAdd 173 174 (R 164) (R 161) (R 172);
  IMov 175 (Sm (R 174) (R 162));
  IAdd 176 177 (R 152) (R 167) (K 0);
  IAdd 178 179 (R 154) (R 169) (R 177);
  IAdd 180 181 (R 156) (R 171) (R 179);
  IAdd 182 183 (R 158) (R 173) (R 181);
  IAdd 184 185 (R 160) (R 175) (R 183);
  IMulLo 186 (R 176) (K 0x4b0dff665588b13f);
  IMul 189 188 (R 186) (K 0xffffffffffffffff);
  IMul 191 190 (R 186) (K 0xfffffffffffffffe);
  IMul 193 192 (R 186) (K 0xbaaedce6af48a03b);
  IMul 195 194 (R 186) (K 0xbfd25e8cd0364141);
  IAdd 196 197 (R 195) (R 192) (K 0);
  IAdd 198 199 (R 193) (R 190) (R 197);
  IAdd 200 201 (R 191) (R 188) (R 199);
  IMov 202 (Sm (R 201) (R 189));
  IAddC 204 (R 176) (R 194) (K 0);
  IAdd 205 206 (R 178) (R 196) (R 204);
  IAdd 207 208 (R 180) (R 198) (R 206);
  IAdd 209 210 (R 182) (R 200) (R 208);
  IAdd 211 212 (R 184) (R 202) (R 210);
  IMov 213 (Sm (R 212) (R 185));
  ISub 214 215 (R 205) (K 0xbfd25e8cd0364141) (K 0);
  ISub 216 217 (R 207) (K 0xbaaedce6af48a03b) (R 215);
  ISub 218 219 (R 209) (K 0xfffffffffffffffe) (R 217);
  ISub 220 221 (R 211) (K 0xffffffffffffffff) (R 219);
  ISubB 223 (R 213) (K 0) (R 221);
  ICmov 224 (R 223) (R 214) (R 205);
  ICmov 225 (R 223) (R 216) (R 207);
  ICmov 226 (R 223) (R 218) (R 209);
  ICmov 227 (R 223) (R 220) (R 211)
] 224 225 226 227.

(** Add; native/k256/fq/secp256k1_fq.go:742-781 *)
Definition k256fq_add : code := Code [
  IAdd 9 10 (R 1) (R 5) (K 0);
  IAdd 11 12 (R 2) (R 6) (R 10);
  IAdd 13 14 (R 3) (R 7) (R 12);
  IAdd 15 16 (R 4) (R 8) (R 14);
  ISub 17 18 (R 9) (K 0xbfd25e8cd0364141) (K 0);
  ISub 19 20 (R 11) (K 0xbaaedce6af48a03b) (R 18);
  ISub 21 22 (R 13) (K 0xfffffffffffffffe) (R 20);
  ISub 23 24 (R 15) (K 0xffffffffffffffff) (R 22);
  ISubB 26 (R 16) (K 0) (R 24);
  ICmov 27 (R 26) (R 17) (R 9);
  ICmov 28 (R 26) (R 19) (R 11);
  ICmov 29 (R 26) (R 21) (R 13);
  ICmov 30 (R 26) (R 23) (R 15)
] 27 28 29 30.

(** Sub; native/k256/fq/secp256k1_fq.go:792-822 *)
Definition k256fq_sub : code := Code [
  ISub 9 10 (R 1) (R 5) (K 0);
  ISub 11 12 (R 2) (R 6) (R 10);
  ISub 13 14 (R 3) (R 7) (R 12);
  ISub 15 16 (R 4) (R 8) (R 14);
  ICmov 17 (R 16) (K 0) (K 0xffffffffffffffff);
  IAdd 18 19 (R 9) (Am 17 0xbfd25e8cd0364141) (K 0);
  IAdd 20 21 (R 11) (Am 17 0xbaaedce6af48a03b) (R 19);
  IAdd 22 23 (R 13) (Am 17 0xfffffffffffffffe) (R 21);
  IAddS 24 (R 15) (R 17) (R 23)
] 18 20 22 24.

(** Opp; native/k256/fq/secp256k1_fq.go:832-862 *)
Definition k256fq_opp : code := Code [
  ISub 9 10 (K 0) (R 1) (K 0);
  ISub 11 12 (K 0) (R 2) (R 10);
  ISub 13 14 (K 0) (R 3) (R 12);
  ISub 15 16 (K 0) (R 4) (R 14);
  ICmov 17 (R 16) (K 0) (K 0xffffffffffffffff);
  IAdd 18 19 (R 9) (Am 17 0xbfd25e8cd0364141) (K 0);
  IAdd 20 21 (R 11) (Am 17 0xbaaedce6af48a03b) (R 19);
  IAdd 22 23 (R 13) (Am 17 0xfffffffffffffffe) (R 21);
  IAddS 24 (R 15) (R 17) (R 23)
] 18 20 22 24.

(** FromMontgomery; native/k256/fq/secp256k1_fq.go:872-1084 *)
Definition k256fq_from : code := Code [
  IMov 9 (R 1);
  IMulLo 10 (R 9) (K 0x4b0dff665588b13f);
  IMul 13 12 (R 10) (K 0xffffffffffffffff);
  IMul 15 14 (R 10) (K 0xfffffffffffffffe);
  IMul 17 16 (R 10) (K 0xbaaedce6af48a03b);
  IMul 19 18 (R 10) (K 0xbfd25e8cd0364141);
  IAdd 20 21 (R 19) (R 16) (K 0);
  IAdd 22 23 (R 17) (R 14) (R 21);
  IAdd 24 25 (R 15) (R 12) (R 23);
  IAddC 27 (R 9) (R 18) (K 0);
  IAdd 28 29 (K 0) (R 20) (R 27);
  IAdd 30 31 (K 0) (R 22) (R 29);
  IAdd 32 33 (K 0) (R 24) (R 31);
  IAdd 34 35 (K 0) (Sm (R 25) (R 13)) (R 33);
  IAdd 36 37 (R 28) (R 2) (K 0);
  IAdd 38 39 (R 30) (K 0) (R 37);
  IAdd 40 41 (R 32) (K 0) (R 39);
  IAdd 42 43 (R 34) (K 0) (R 41);
  IMulLo 44 (R 36) (K 0x4b0dff665588b13f);
  IMul 47 46 (R 44) (K 0xffffffffffffffff);
  IMul 49 48 (R 44) (K 0xfffffffffffffffe);
  IMul 51 50 (R 44) (K 0xbaaedce6af48a03b);
  IMul 53 52 (R 44) (K 0xbfd25e8cd0364141);
  IAdd 54 55 (R 53) (R 50) (K 0);
  IAdd 56 57 (R 51) (R 48) (R 55);
  IAdd 58 59 (R 49) (R 46) (R 57);
  IAddC 61 (R 36) (R 52) (K 0);
  IAdd 62 63 (R 38) (R 54) (R 61);
  IAdd 64 65 (R 40) (R 56) (R 63);
  IAdd 66 67 (R 42) (R 58) (R 65);
  IAdd 68 69 (Sm (R 43) (R 35)) (Sm (R 59) (R 47)) (R 67);
  IAdd 70 71 (R 62) (R 3) (K 0);
  IAdd 72 73 (R 64) (K 0) (R 71);
  IAdd 74 75 (R 66) (K 0) (R 73);
  IAdd 76 77 (R 68) (K 0) (R 75);
  IMulLo 78 (R 70) (K 0x4b0dff665588b13f);
  IMul 81 80 (R 78) (K 0xffffffffffffffff);
  IMul 83 82 (R 78) (K 0xfffffffffffffffe);
  IMul 85 84 (R 78) (K 0xbaaedce6af48a03b);
  IMul 87 86 (R 78) (K 0xbfd25e8cd0364141);
  IAdd 88 89 (R 87) (R 84) (K 0);
  IAdd 90 91 (R 85) (R 82) (R 89);
  IAdd 92 93 (R 83) (R 80) (R 91);
  IAddC 95 (R 70) (R 86) (K 0);
  IAdd 96 97 (R 72) (R 88) (R 95);
  IAdd 98 99 (R 74) (R 90) (R 97);
  IAdd 100 101 (R 76) (R 92) (R 99);
  IAdd 102 103 (Sm (R 77) (R 69)) (Sm (R 93) (R 81)) (R 101);
  IAdd 104 105 (R 96) (R 4) (K 0);
  IAdd 106 107 (R 98) (K 0) (R 105);
  IAdd 108 109 (R 100) (K 0) (R 107);
  IAdd 110 111 (R 102) (K 0) (R 109);
  IMulLo 112 (R 104) (K 0x4b0dff665588b13f);
  IMul 115 114 (R 112) (K 0xffffffffffffffff);
  IMul 117 116 (R 112) (K 0xfffffffffffffffe);
  IMul 119 118 (R 112) (K 0xbaaedce6af48a03b);
  IMul 121 120 (R 112) (K 0xbfd25e8cd0364141);
  IAdd 122 123 (R 121) (R 118) (K 0);
  IAdd 124 125 (R 119) (R 116) (R 123);
  IAdd 126 127 (R 117) (R 114) (R 125);
  IAddC 129 (R 104) (R 120) (K 0);
  IAdd 130 131 (R 106) (R 122) (R 129);
  IAdd 132 133 (R 108) (R 124) (R 131);
  IAdd 134 135 (R 110) (R 126) (R 133);
  IAdd 136 137 (Sm (R 111) (R 103)) (Sm (R 127) (R 115)) (R 135);
  ISub 138 139 (R 130) (K 0xbfd25e8cd0364141) (K 0);
  ISub 140 141 (R 132) (K 0xbaaedce6af48a03b) (R 139);
  ISub 142 143 (R 134) (K 0xfffffffffffffffe) (R 141);
  ISub 144 145 (R 136) (K 0xffffffffffffffff) (R 143);
  ISubB 147 (R 137) (K 0) (R 145);
  ICmov 148 (R 147) (R 138) (R 130);
  ICmov 149 (R 147) (R 140) (R 132);
  ICmov 150 (R 147) (R 142) (R 134);
  ICmov 151 (R 147) (R 144) (R 136)
] 148 149 150 151.

(** ToMontgomery; native/k256/fq/secp256k1_fq.go:1094-1393 *)
Definition k256fq_to : code := Code [
  IMov 9 (R 2);
  IMov 10 (R 3);
  IMov 11 (R 4);
  IMov 12 (R 1);
  IMul 14 13 (R 12) (K 0x9d671cd581c69bc5);
  IMul 16 15 (R 12) (K 0xe697f5e45bcd07c6);
  IMul 18 17 (R 12) (K 0x741496c20e7cf878);
  IMul 20 19 (R 12) (K 0x896cf21467d7d140);
  IAdd 21 22 (R 20) (R 17) (K 0);
  IAdd 23 24 (R 18) (R 15) (R 22);
  IAdd 25 26 (R 16) (R 13) (R 24);
  IMulLo 27 (R 19) (K 0x4b0dff665588b13f);
  IMul 30 29 (R 27) (K 0xffffffffffffffff);
  IMul 32 31 (R 27) (K 0xfffffffffffffffe);
  IMul 34 33 (R 27) (K 0xbaaedce6af48a03b);
  IMul 36 35 (R 27) (K 0xbfd25e8cd0364141);
  IAdd 37 38 (R 36) (R 33) (K 0);
  IAdd 39 40 (R 34) (R 31) (R 38);
  IAdd 41 42 (R 32) (R 29) (R 40);
  IAddC 44 (R 19) (R 35) (K 0);
  IAdd 45 46 (R 21) (R 37) (R 44);
  IAdd 47 48 (R 23) (R 39) (R 46);
  IAdd 49 50 (R 25) (R 41) (R 48);
  IAdd 51 52 (Sm (R 26) (R 14)) (Sm (R 42) (R 30)) (R 50);
  IMul 54 53 (R 9) (K 0x9d671cd581c69bc5);
  IMul 56 55 (R 9) (K 0xe697f5e45bcd07c6);
  IMul 58 57 (R 9) (K 0x741496c20e7cf878);
  IMul 60 59 (R 9) (K 0x896cf21467d7d140);
  IAdd 61 62 (R 60) (R 57) (K 0);
  IAdd 63 64 (R 58) (R 55) (R 62);
  IAdd 65 66 (R 56) (R 53) (R 64);
  IAdd 67 68 (R 45) (R 59) (K 0);
  IAdd 69 70 (R 47) (R 61) (R 68);
  IAdd 71 72 (R 49) (R 63) (R 70);
  IAdd 73 74 (R 51) (R 65) (R 72);
  IMulLo 75 (R 67) (K 0x4b0dff665588b13f);
  IMul 78 77 (R 75) (K 0xffffffffffffffff);
  IMul 80 79 (R 75) (K 0xfffffffffffffffe);
  IMul 82 81 (R 75) (K 0xbaaedce6af48a03b);
  IMul 84 83 (R 75) (K 0xbfd25e8cd0364141);
  IAdd 85 86 (R 84) (R 81) (K 0);
  IAdd 87 88 (R 82) (R 79) (R 86);
  IAdd 89 90 (R 80) (R 77) (R 88);
  IAddC 92 (R 67) (R 83) (K 0);
  IAdd 93 94 (R 69) (R 85) (R 92);
  IAdd 95 96 (R 71) (R 87) (R 94);
  IAdd 97 98 (R 73) (R 89) (R 96);
  IAdd 99 100 (Sm (Sm (R 74) (R 52)) (Sm (R 66) (R 54))) (Sm (R 90) (R 78)) (R 98);
  IMul 102 101 (R 10) (K 0x9d671cd581c69bc5);
  IMul 104 103 (R 10) (K 0xe697f5e45bcd07c6);
  IMul 106 105 (R 10) (K 0x741496c20e7cf878);
  IMul 108 107 (R 10) (K 0x896cf21467d7d140);
  IAdd 109 110 (R 108) (R 105) (K 0);
  IAdd 111 112 (R 106) (R 103) (R 110);
  IAdd 113 114 (R 104) (R 101) (R 112);
  IAdd 115 116 (R 93) (R 107) (K 0);
  IAdd 117 118 (R 95) (R 109) (R 116);
  IAdd 119 120 (R 97) (R 111) (R 118);
  IAdd 121 122 (R 99) (R 113) (R 120);
  IMulLo 123 (R 115) (K 0x4b0dff665588b13f);
  IMul 126 125 (R 123) (K 0xffffffffffffffff);
  IMul 128 127 (R 123) (K 0xfffffffffffffffe);
  IMul 130 129 (R 123) (K 0xbaaedce6af48a03b);
  IMul 132 131 (R 123) (K 0xbfd25e8cd0364141);
  IAdd 133 134 (R 132) (R 129) (K 0);
  IAdd 135 136 (R 130) (R 127) (R 134);
  IAdd 137 138 (R 128) (R 125) (R 136);
  IAddC 140 (R 115) (R 131) (K 0);
  IAdd 141 142 (R 117) (R 133) (R 140);
  IAdd 143 144 (R 119) (R 135) (R 142);
  IAdd 145 146 (R 121) (R 137) (R 144);
  IAdd 147 148 (Sm (Sm (R 122) (R 100)) (Sm (R 114) (R 102))) (Sm (R 138) (R 126)) (R 146);
  IMul 150 149 (R 11) (K 0x9d671cd581c69bc5);
  IMul 152 151 (R 11) (K 0xe697f5e45bcd07c6);
  IMul 154 153 (R 11) (K 0x741496c20e7cf878);
  IMul 156 155 (R 11) (K 0x896cf21467d7d140);
  IAdd 157 158 (R 156) (R 153) (K 0);
  IAdd 159 160 (R 154) (R 151) (R 158);
  IAdd 161 162 (R 152) (R 149) (R 160);
  IAdd 163 164 (R 141) (R 155) (K 0);
  IAdd 165 166 (R 143) (R 157) (R 164);
  IAdd 167 168 (R 145) (R 159) (R 166);
  IAdd 169 170 (R 147) (R 161) (R 168);
  IMulLo 171 (R 163) (K 0x4b0dff665588b13f);
  IMul 174 173 (R 171) (K 0xffffffffffffffff);
  IMul 176 175 (R 171) (K 0xfffffffffffffffe);
  IMul 178 177 (R 171) (K 0xbaaedce6af48a03b);
  IMul 180 179 (R 171) (K 0xbfd25e8cd0364141);
  IAdd 181 182 (R 180) (R 177) (K 0);
  IAdd 183 184 (R 178) (R 175) (R 182);
  IAdd 185 186 (R 176) (R 173) (R 184);
  IAddC 188 (R 163) (R 179) (K 0);
  IAdd 189 190 (R 165) (R 181) (R 188);
  IAdd 191 192 (R 167) (R 183) (R 190);
  IAdd 193 194 (R 169) (R 185) (R 192);
  IAdd 195 196 (Sm (Sm (R 170) (R 148)) (Sm (R 162) (R 150))) (Sm (R 186) (R 174)) (R 194);
  ISub 197 198 (R 189) (K 0xbfd25e8cd0364141) (K 0);
  ISub 199 200 (R 191) (K 0xbaaedce6af48a03b) (R 198);
  ISub 201 202 (R 193) (K 0xfffffffffffffffe) (R 200);
  ISub 203 204 (R 195) (K 0xffffffffffffffff) (R 202);
  ISubB 206 (R 196) (K 0) (R 204);
  ICmov 207 (R 206) (R 197) (R 189);
  ICmov 208 (R 206) (R 199) (R 191);
  ICmov 209 (R 206) (R 201) (R 193);
  ICmov 210 (R 206) (R 203) (R 195)
] 207 208 209 210.

(** the methods and constants; native/k256/fq/fq.go:29-32 *)
Definition k256fq : field := compiled k256fq_mul k256fq_square k256fq_add k256fq_sub k256fq_opp k256fq_from k256fq_to
  (L4 0xbfd25e8cd0364141 0xbaaedce6af48a03b 0xfffffffffffffffe 0xffffffffffffffff)
  (L4 0x402da1732fc9bebf 0x4551231950b75fc4 0x0000000000000001 0x0000000000000000)
  (L4 0x896cf21467d7d140 0x741496c20e7cf878 0xe697f5e45bcd07c6 0x9d671cd581c69bc5)
  (L4 0x7bc0cfe0e9ff41ed 0x0017648444d4322c 0xb1b31347f1d0b2da 0x555d800c18ef116d).
