(** Binary, text and JSON forms of scalars and points; pkg/core/curves/curve.go.  Bytes and characters are numbers. *)
From Coq Require Import ZArith NArith List Bool Lia Ascii String.
From Verif Require Import Lib.Res Limbs.Model Limbs.FieldModel Limbs.PointModel
  Limbs.K256fqCode Limbs.P256fqCode Limbs.PastafqCode Limbs.BlsfqCode.
Import ListNotations.
Local Open Scope Z_scope.

(** ** curves and their names *)
Inductive curve := K256 | Bls381G1 | Bls381G2 | P256 | Ed25519 | Pallas | Bls377G1 | Bls377G2.
Definition ascii_bytes (s : string) : list Z := map (fun a => Z.of_N (N_of_ascii a)) (list_ascii_of_string s).
(** the string CurveName returns; k256_curve.go:579, bls12381_curve.go:480, 728, p256_curve.go:577, ed25519_curve.go:608,
    pallas_curve.go:613, bls12377_curve.go:508, 781; constants at curve.go:48-59 *)
Definition curve_name (c : curve) : list Z :=
  ascii_bytes match c with
  | K256 => "secp256k1" | Bls381G1 => "BLS12381G1" | Bls381G2 => "BLS12381G2" | P256 => "P-256" | Ed25519 => "ed25519"
  | Pallas => "pallas" | Bls377G1 => "BLS12377G1" | Bls377G2 => "BLS12377G2"
  end.
Definition same (a b : list Z) : bool := if list_eq_dec Z.eq_dec a b then true else false.
(** GetCurveByName; curve.go:459-484, in the order of its cases; nil is None *)
Definition curve_by_name (n : list Z) : option curve :=
  if same n (ascii_bytes "secp256k1") then Some K256
  else if same n (ascii_bytes "BLS12381G1") then Some Bls381G1
  else if same n (ascii_bytes "BLS12381G2") then Some Bls381G2
  else if same n (ascii_bytes "BLS12831") then Some Bls381G1
  else if same n (ascii_bytes "P-256") then Some P256
  else if same n (ascii_bytes "ed25519") then Some Ed25519
  else if same n (ascii_bytes "pallas") then Some Pallas
  else if same n (ascii_bytes "BLS12377G1") then Some Bls377G1
  else if same n (ascii_bytes "BLS12377G2") then Some Bls377G2
  else if same n (ascii_bytes "BLS12377") then Some Bls377G1
  else None.

(** ** scalars *)
(** K256, P256 and Pallas scalars are native limbs.  The others are modelled by their value: Ed25519 uses the external
    edwards25519 library, BLS12-377 a big.Int, and the BLS12-381 scalar limbs are not transcribed. *)
Inductive sval := VL (x : limbs) | VZ (v : Z).
Record scalar := Sc { s_curve : curve; s_val : sval }.
(** the group orders; bls12377_curve.go:26, RFC 8032 *)
Definition r_bls377 : Z := 0x12ab655e9a2ca55660b44d1e5c37b00159aa76fed00000010a11800000000001.
Definition r_ed : Z := 2 ^ 252 + 27742317777372353535851937790883648493.
(** Scalar.Bytes; k256_curve.go:290-293, p256_curve.go:288-291, pallas_curve.go:392-395, ed25519_curve.go:241-243,
    bls12381_curve.go:238-241, bls12377_curve.go:240-243 *)
Definition scalar_bytes (s : scalar) : list Z :=
  match s_curve s, s_val s with
  | K256, VL x => rev (bytes k256fq x)
  | P256, VL x => rev (bytes p256fq x)
  | Pallas, VL x => bytes pastafq x
  | Ed25519, VZ v => bytes_of 32 v
  | (Bls381G1 | Bls381G2), VL x => rev (bytes blsfq x)
  | (Bls377G1 | Bls377G2), VZ v => rev (bytes_of 32 v)
  | _, _ => []
  end.
Definition wrap (c : curve) (o : option limbs) : option scalar :=
  match o with Some x => Some (Sc c (VL x)) | None => None end.
(** Scalar.SetBytes; k256_curve.go:295-308, p256_curve.go:293-306, pallas_curve.go:397-410, ed25519_curve.go:247-256
    (SetCanonicalBytes of the external library accepts 32 little-endian bytes below the order), bls12381_curve.go:243-256,
    bls12377_curve.go:245-255 *)
Definition scalar_set_bytes (c : curve) (bs : list Z) : option scalar :=
  match c with
  | K256 => if Nat.eqb (List.length bs) 32 then wrap c (set_bytes k256fq (rev bs)) else None
  | P256 => if Nat.eqb (List.length bs) 32 then wrap c (set_bytes p256fq (rev bs)) else None
  | Pallas => if Nat.eqb (List.length bs) 32 then wrap c (pasta_set_bytes pastafq bs) else None
  | Ed25519 => if Nat.eqb (List.length bs) 32 then if number bs <? r_ed then Some (Sc c (VZ (number bs))) else None else None
  | Bls381G1 | Bls381G2 => if Nat.eqb (List.length bs) 32 then wrap c (set_bytes blsfq (rev bs)) else None
  | Bls377G1 | Bls377G2 =>
      let v := number (rev bs) in if v mod r_bls377 =? v then Some (Sc c (VZ (v mod r_bls377))) else None
  end.

(** ** encoding/hex of the Go 1.17 library *)
Definition hex_char (d : Z) : Z := if d <? 10 then 48 + d else 87 + d.
(** hex.Encode *)
Definition hex_encode (bs : list Z) : list Z := flat_map (fun b => [hex_char (Z.shiftr b 4); hex_char (Z.land b 15)]) bs.
(** fromHexChar *)
Definition from_hex_char (ch : Z) : option Z :=
  if (48 <=? ch) && (ch <=? 57) then Some (ch - 48)
  else if (97 <=? ch) && (ch <=? 102) then Some (ch - 97 + 10)
  else if (65 <=? ch) && (ch <=? 70) then Some (ch - 65 + 10)
  else None.
(** hex.Decode into a destination of [room] bytes: the bytes written; an index past the destination panics *)
Fixpoint hex_decode (room : nat) (src : list Z) {struct src} : outcome (list Z) :=
  match src with
  | [] => Ok []
  | [_] => Err
  | a :: b :: rest =>
      match from_hex_char a with
      | None => Err
      | Some x => match from_hex_char b with
                  | None => Err
                  | Some y => match room with
                              | O => Panic
                              | S r => do l <- hex_decode r rest; Ok (Z.lor (Z.shiftl x 4) y :: l)
                              end
                  end
      end
  end.
(** hex.DecodeString decodes in place, so the destination is as long as the source *)
Definition hex_decode_string (src : list Z) : outcome (list Z) := hex_decode (List.length src) src.

Definition of_option {A} (o : option A) : outcome A := match o with Some a => Ok a | None => Err end.

(** ** the separator *)
(** the loop at curve.go:135-141, 286-292, 319-325: the bytes before the first colon *)
Fixpoint before_colon (l : list Z) : list Z :=
  match l with [] => [] | b :: t => if b =? 58 then [] else b :: before_colon t end.
(** unmarshalScalar and the same lines of the point functions; curve.go:134-149, 282-299, 315-331.  Slicing past the end panics. *)
Definition split_input (input : list Z) : outcome (curve * list Z) :=
  let name := before_colon input in
  match curve_by_name name with
  | None => Err
  | Some c => if Nat.leb (S (List.length name)) (List.length input) then Ok (c, skipn (S (List.length name)) input) else Panic
  end.

(** ** scalars *)
(** scalarMarshalBinary; curve.go:151-162 *)
Definition scalar_marshal_binary (s : scalar) : list Z := curve_name (s_curve s) ++ 58 :: scalar_bytes s.
(** scalarUnmarshalBinary; curve.go:164-176 *)
Definition scalar_unmarshal_binary (input : list Z) : outcome scalar :=
  if Nat.ltb (List.length input) 38 then Err
  else do (c, data) <- split_input input; of_option (scalar_set_bytes c data).
(** scalarMarshalText; curve.go:178-189 *)
Definition scalar_marshal_text (s : scalar) : list Z := curve_name (s_curve s) ++ 58 :: hex_encode (scalar_bytes s).
(** scalarUnmarshalText; curve.go:191-205: the 32-byte array starts as zeros *)
Definition scalar_unmarshal_text (input : list Z) : outcome scalar :=
  if Nat.ltb (List.length input) 70 then Err
  else do (c, data) <- split_input input;
       do t <- hex_decode 32 data;
       of_option (scalar_set_bytes c (t ++ repeat 0 (32 - List.length t))).
(** scalarMarshalJson, scalarUnmarshalJson; curve.go:207-236.  encoding/json is external: a document is its ("type", "value") pair. *)
Definition scalar_marshal_json (s : scalar) : list Z * list Z := (curve_name (s_curve s), hex_encode (scalar_bytes s)).
Definition scalar_unmarshal_json (m : list Z * list Z) : outcome scalar :=
  match curve_by_name (fst m) with
  | None => Err
  | Some c => do bs <- hex_decode_string (snd m); of_option (scalar_set_bytes c bs)
  end.

(** the Go types; both groups of a pairing curve share one scalar type *)
Inductive go_type := TK256 | TBls381 | TP256 | TEd25519 | TPallas | TBls377.
Definition type_of (c : curve) : go_type :=
  match c with K256 => TK256 | Bls381G1 | Bls381G2 => TBls381 | P256 => TP256 | Ed25519 => TEd25519 | Pallas => TPallas
             | Bls377G1 | Bls377G2 => TBls377 end.
Definition type_eqb (a b : go_type) : bool :=
  match a, b with TK256, TK256 | TBls381, TBls381 | TP256, TP256 | TEd25519, TEd25519 | TPallas, TPallas | TBls377, TBls377 => true | _, _ => false end.
(** A scalar object: its Go type, the group its Point method reports (nil in a fresh object of the BLS types, fixed in the
    others) and its value. *)
Record sobject := Obj { o_type : go_type; o_point : option curve; o_val : option sval }.
Definition fresh (t : go_type) : sobject :=
  Obj t match t with TK256 => Some K256 | TP256 => Some P256 | TEd25519 => Some Ed25519 | TPallas => Some Pallas | _ => None end None.
(** UnmarshalBinary and UnmarshalText of the six types; k256_curve.go:335-366, bls12381_curve.go:295-326,
    p256_curve.go:333-364, ed25519_curve.go:304-333, pallas_curve.go:446-474, bls12377_curve.go:295-325 *)
Definition assign (recv : sobject) (r : outcome scalar) : outcome sobject :=
  do s <- r;
  if type_eqb (type_of (s_curve s)) (o_type recv) then Ok (Obj (o_type recv) (Some (s_curve s)) (Some (s_val s))) else Err.
(** UnmarshalJSON of the six types copies the value only; bls12381_curve.go:331-342, bls12377_curve.go:331-342,
    k256_curve.go:369-380, and alike in the others *)
Definition assign_json (recv : sobject) (r : outcome scalar) : outcome sobject :=
  do s <- r;
  if type_eqb (type_of (s_curve s)) (o_type recv) then Ok (Obj (o_type recv) (o_point recv) (Some (s_val s))) else Err.
(** MarshalText of an object: Point().CurveName() of a nil point panics; curve.go:183 *)
Definition object_marshal_text (o : sobject) : outcome (list Z) :=
  match o_point o, o_val o with Some c, Some v => Ok (scalar_marshal_text (Sc c v)) | _, _ => Panic end.

(** ** points *)
Section Points.
Variable point : Type.
Variable from_affine_compressed : curve -> list Z -> option point.
(** pointMarshalBinary, pointMarshalText, pointMarshalJson of the compressed bytes [t]; curve.go:268-280, 301-313, 339-344 *)
Definition point_marshal_binary (c : curve) (t : list Z) : list Z := curve_name c ++ 58 :: t.
Definition point_marshal_text (c : curve) (t : list Z) : list Z := curve_name c ++ 58 :: hex_encode t.
Definition point_marshal_json (c : curve) (t : list Z) : list Z * list Z := (curve_name c, hex_encode t).
(** pointUnmarshalBinary; curve.go:282-299 *)
Definition point_unmarshal_binary (input : list Z) : outcome point :=
  if Nat.ltb (List.length input) 38 then Err
  else do (c, data) <- split_input input; of_option (from_affine_compressed c data).
(** pointUnmarshalText; curve.go:315-337: the destination has (len(input)-i)/2 bytes, zero until written *)
Definition point_unmarshal_text (input : list Z) : outcome point :=
  if Nat.ltb (List.length input) 70 then Err
  else do (c, data) <- split_input input;
       let room := Nat.div (S (List.length data)) 2 in
       do t <- hex_decode room data;
       of_option (from_affine_compressed c (t ++ repeat 0 (room - List.length t))).
(** pointUnmarshalJson; curve.go:346-367 *)
Definition point_unmarshal_json (m : list Z * list Z) : outcome point :=
  match curve_by_name (fst m) with
  | None => Err
  | Some c => do bs <- hex_decode_string (snd m); of_option (from_affine_compressed c bs)
  end.
End Points.
