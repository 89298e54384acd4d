(** Mina signatures: pkg/signatures/schnorr/mina (roinput.go, poseidon_config.go, poseidon_hash.go, keys.go,
    signature.go, challenge_derive.go, txn.go).

    [Fp] is the base field of the curve, [F] its scalar field, [G] the group of points with generator [g].
    [px]/[py] are Ep.X/Ep.Y (affine coordinates; (0,0) for the identity), [fpraw]/[fqraw] the canonical
    values ToRaw returns, SetRaw of a value v is v mod the order.  [blake] is BLAKE2b-256, [penc]/[pdec] are
    ToAffineCompressed/FromAffineCompressed.  The round keys [rk], the matrix [mdsm] and the initial values
    [iv] are arbitrary: nothing proved depends on the tables of poseidon_hash.go.
    Nil keys, nil signatures and nil transactions are not modelled. *)
From mathcomp Require Import all_ssreflect all_algebra.
From Verif Require Import Lib.Res Lib.Bytes Mina.BitModel.
Set Implicit Arguments.
Unset Strict Implicit.
Unset Printing Implicit Defensive.
Import GRing.Theory.
Local Open Scope ring_scope.

(** bits 0..k-1 of x, least significant first: the loops [(x >> i) & 1] of roinput.go:52-57, 66-68, 73-75, 79-81, 91-96 *)
Fixpoint bits_le (k x : nat) : seq bool :=
  if k is k'.+1 then odd x :: bits_le k' (x./2)%N else [::].

(** a run of Append calls; roinput.go:56, 67, 74, 80, 95, 99 *)
Fixpoint append_all (l : seq nat) (v : bitvec) : outcome bitvec :=
  match l with
  | [::] => Ok v
  | b :: l' => do w <- bv_append b v; append_all l' w
  end.

(** [byte(conv[b])]; roinput.go:20-23, 61 *)
Definition b2n (b : bool) : nat := (if b then 1 else 0)%N.

(** a run of Element calls; roinput.go:98-99, 124-130 *)
Fixpoint read_bits (v : bitvec) (n start : nat) : outcome (seq nat) :=
  if n is n'.+1 then
    do b <- bv_element v start; do r <- read_bits v n' start.+1; Ok (b :: r)
  else Ok [::].

Section Mina.
Variables (Fp F : fieldType) (G : lmodType F) (g : G).
Variables (px py : G -> Fp) (fpraw : Fp -> nat) (fqraw : F -> nat).
Variables (blake : bytes -> bytes) (penc : G -> bytes) (pdec : bytes -> option G).
Variables (rk : nat -> seq Fp) (mdsm : seq (seq Fp)) (iv : nat -> seq Fp).

(** Fp.IsOdd; native/pasta/fp/fp.go:81-85 *)
Definition fodd (x : Fp) : bool := odd (fpraw x).

(** ** roinput *)
(** roinput; roinput.go:15-18 *)
Record roinput := RO { ro_flds : seq Fp; ro_bv : bitvec }.

(** Init; roinput.go:25-29 ([fields] is only a capacity) *)
Definition ro_init (nbytes : nat) : roinput := RO [::] (bv_new (nseq nbytes 0%N) 0).

(** AddFp; roinput.go:44-46 *)
Definition add_fp (x : Fp) (r : roinput) : roinput := RO (rcons (ro_flds r) x) (ro_bv r).

(** appending bits *)
Definition add_bits (l : seq bool) (r : roinput) : outcome roinput :=
  do v <- append_all (map b2n l) (ro_bv r); Ok (RO (ro_flds r) v).

(** AddFq; roinput.go:48-58 *)
Definition add_fq (k : F) (r : roinput) : outcome roinput := add_bits (bits_le 255 (fqraw k)) r.
(** AddBit; roinput.go:60-62 *)
Definition add_bit (b : bool) (r : roinput) : outcome roinput := add_bits [:: b] r.
(** AddBytes; roinput.go:64-70 *)
Definition add_bytes (l : bytes) (r : roinput) : outcome roinput := add_bits (flatten (map (bits_le 8) l)) r.
(** AddUint32; roinput.go:72-76 *)
Definition add_u32 (x : nat) (r : roinput) : outcome roinput := add_bits (bits_le 32 x) r.
(** AddUint64; roinput.go:78-82 *)
Definition add_u64 (x : nat) (r : roinput) : outcome roinput := add_bits (bits_le 64 x) r.

(** Bytes; roinput.go:84-102.  The Go code returns the slice [out] it handed to the vector [res]; the vector
    never outgrows it (lemma [bytes_no_grow]), so [out] is the vector's data. *)
Definition ro_bytes (r : roinput) : outcome bytes :=
  let len := bv_len (ro_bv r) in
  let out := nseq ((len + 7) %/ 8 + 32 * size (ro_flds r)) 0%N in
  do v <- append_all (map b2n (flatten [seq bits_le 255 (fpraw f) | f <- ro_flds r])) (bv_new out 0);
  do bs <- read_bits (ro_bv r) len 0;
  do w <- append_all bs v;
  Ok (bv_data w).

(** a chunk as a field element; roinput.go:124-131: SetRaw of sum b_i 2^i *)
Definition chunk_fp (bs : seq nat) : Fp := foldr (fun b a => b%:R + 2%:R * a) 0 bs.

(** the chunk loop; roinput.go:109-133 *)
Fixpoint chunk_loop (fuel : nat) (v : bitvec) (consumed : nat) : outcome (seq Fp) :=
  if fuel is fuel'.+1 then
    if (consumed < bv_len v)%N then
      let n := minn 254 (bv_len v - consumed) in
      do bs <- read_bits v n consumed;
      do rest <- chunk_loop fuel' v (consumed + n);
      Ok (chunk_fp bs :: rest)
    else Ok [::]
  else Ok [::].

(** Fields; roinput.go:104-136 (each chunk consumes at least one bit, so [length] rounds of fuel suffice) *)
Definition ro_fields (r : roinput) : outcome (seq Fp) :=
  do c <- chunk_loop (bv_len (ro_bv r)) (ro_bv r) 0; Ok (ro_flds r ++ c).

(** ** The sponge *)
(** ark; poseidon_config.go:77-81 *)
Definition ark (st : seq Fp) (round : nat) : seq Fp :=
  [seq nth 0 st i + nth 0 (rk round) i | i <- iota 0 3].
(** SBox.Exp for Quint; poseidon_config.go:30-33, and sbox; 83-87 *)
Definition quint (x : Fp) : Fp := let t := x * x in let t := t * t in t * x.
Definition sbox (st : seq Fp) : seq Fp := [seq quint (nth 0 st i) | i <- iota 0 3].
(** mds; poseidon_config.go:89-103 *)
Definition mds (st : seq Fp) : seq Fp :=
  [seq foldl (fun a col => a + nth 0 st col * nth 0 (nth [::] mdsm row) col) 0 (iota 0 3) | row <- iota 0 3].
(** Permute for ThreeW; poseidon_config.go:55-63; 63 rounds, width 3: poseidon_hash.go:27-29 *)
Definition permute (st : seq Fp) : seq Fp :=
  ark (foldl (fun s r => mds (sbox (ark s r))) st (iota 0 63)) 63.

(** Context (the varying part); poseidon_hash.go:14-22 *)
Record ctx := Ctx { c_state : seq Fp; c_absorbed : nat }.

(** Init for ThreeW; poseidon_hash.go:1133-1165; nil for an unknown network id *)
Definition ctx_init (nid : nat) : option ctx :=
  if (nid == 0%N) || (nid == 1%N) then Some (Ctx (take 3 (iv nid ++ nseq 3 0)) 0)
  else if nid == 2%N then Some (Ctx (nseq 3 0) 0)
  else None.

(** one step of Update; poseidon_hash.go:1169-1174; rate 2: poseidon_hash.go:28 *)
Definition absorb (c : ctx) (f : Fp) : ctx :=
  let: (st, a) := if c_absorbed c == 2%N then (permute (c_state c), 0%N) else (c_state c, c_absorbed c) in
  Ctx (set_nth 0 st a (nth 0 st a + f)) a.+1.

(** Update; poseidon_hash.go:1167-1176 *)
Definition update (c : ctx) (fs : seq Fp) : ctx := foldl absorb c fs.

(** Digest; poseidon_hash.go:1178-1182 *)
Definition digest (c : ctx) : F := (fpraw (nth 0 (permute (c_state c)) 0))%:R.

(** msgHash; keys.go:236-245; Update/Digest on a nil context panic *)
Definition msg_hash (pk : G) (rx : Fp) (input : roinput) (nid : nat) : outcome F :=
  let input := add_fp rx (add_fp (py pk) (add_fp (px pk) input)) in
  do fs <- ro_fields input;
  do c <- deref (ctx_init nid);
  Ok (digest (update c fs)).

(** little-endian value of a byte string in the scalar field: SetRaw of the four limbs; keys.go:261-267 *)
Definition le_fq (b : bytes) : F := foldr (fun x a => x%:R + 256%:R * a) 0 b.

(** the bytes msgDerive hashes; keys.go:248-253 *)
Definition derive_input (sk : F) (msg : roinput) (pk : G) (nid : nat) : outcome bytes :=
  let input := add_fp (py pk) (add_fp (px pk) msg) in
  do input <- add_fq sk input;
  do input <- add_bytes [:: (nid %% 256)%N] input;
  ro_bytes input.

(** msgDerive; keys.go:247-268 *)
Definition msg_derive (sk : F) (msg : roinput) (pk : G) (nid : nat) : outcome F :=
  do b <- derive_input sk msg pk nid;
  let h := copy_into 32 (blake b) in
  Ok (le_fq (set_nth 0%N h 31 (band (nth 0%N h 31) 63))).

(** ** Signatures *)
(** Signature; signature.go:17-20 *)
Record signature := Sig { sig_r : Fp; sig_s : F }.

(** GetPublicKey; keys.go:104-107 *)
Definition public_key (sk : F) : G := sk *: g.

(** finishSchnorrSign; keys.go:169-198 *)
Definition finish_sign (sk : F) (input : roinput) (nid : nat) : outcome signature :=
  if sk == 0 then Err else
  let pk := public_key sk in
  do k <- msg_derive sk input pk nid;
  if k == 0 then Err else
  let r := k *: g in
  let k := if fodd (py r) then - k else k in
  let rx := px r in
  do e <- msg_hash pk rx input nid;
  let s := k + e * sk in
  if (rx == 0) || (s == 0) then Err else Ok (Sig rx s).

(** finishSchnorrVerify; keys.go:214-234 *)
Definition finish_verify (pk : G) (sig : signature) (input : roinput) (nid : nat) : outcome unit :=
  if pk == 0 then Err else
  if (sig_r sig == 0) || (sig_s sig == 0) then Err else
  do e <- msg_hash pk (sig_r sig) input nid;
  let r := sig_s sig *: g - e *: pk in
  if ~~ fodd (py r) && (px r == sig_r sig) then Ok tt else Err.

(** SignMessage; keys.go:163-167 *)
Definition sign_message (sk : F) (m : bytes) : outcome signature :=
  do i <- add_bytes m (ro_init (size m)); finish_sign sk i 1.
(** VerifyMessage; keys.go:208-212 *)
Definition verify_message (pk : G) (sig : signature) (m : bytes) : outcome unit :=
  do i <- add_bytes m (ro_init (size m)); finish_verify pk sig i 1.

(** ** Transactions *)
(** Transaction; txn.go:20-30; NetworkId is a Go int (negative values are treated like 3 and above) *)
Record txn := Txn {
  t_fee : nat; t_fee_token : nat; t_payer : G; t_nonce : nat; t_valid : nat; t_memo : bytes;
  t_tag0 : bool; t_tag1 : bool; t_tag2 : bool; t_source : G; t_receiver : G;
  t_token : nat; t_amount : nat; t_locked : bool; t_network : nat }.

(** the 34-byte memo record [{0x01, byte(len)} ++ memo] of the hash input; txn.go:211-212 *)
Definition memo_rec (m : bytes) : bytes := copy_into 34 ([:: 1; size m %% 256]%N ++ m).

(** addRoInput; txn.go:201-223 *)
Definition add_ro_input (t : txn) (r : roinput) : outcome roinput :=
  let r := add_fp (px (t_receiver t)) (add_fp (px (t_source t)) (add_fp (px (t_payer t)) r)) in
  do r <- add_u64 (t_fee t) r;
  do r <- add_u64 (t_fee_token t) r;
  do r <- add_bit (fodd (py (t_payer t))) r;
  do r <- add_u32 (t_nonce t) r;
  do r <- add_u32 (t_valid t) r;
  do r <- add_bytes (memo_rec (t_memo t)) r;
  do r <- add_bit (t_tag0 t) r;
  do r <- add_bit (t_tag1 t) r;
  do r <- add_bit (t_tag2 t) r;
  do r <- add_bit (fodd (py (t_source t))) r;
  do r <- add_bit (fodd (py (t_receiver t))) r;
  do r <- add_u64 (t_token t) r;
  do r <- add_u64 (t_amount t) r;
  add_bit (t_locked t) r.

(** SignTransaction; keys.go:155-159 *)
Definition sign_transaction (sk : F) (t : txn) : outcome signature :=
  do i <- add_ro_input t (ro_init 75); finish_sign sk i (t_network t).
(** VerifyTransaction; keys.go:201-205 *)
Definition verify_transaction (pk : G) (sig : signature) (t : txn) : outcome unit :=
  do i <- add_ro_input t (ro_init 75); finish_verify pk sig i (t_network t).

(** MarshalBinary; txn.go:59-84: consecutive fields of a zeroed 175-byte buffer *)
Definition txn_marshal (t : txn) : bytes :=
  le_bytes 8 (t_fee t) ++ le_bytes 8 (t_fee_token t) ++ copy_into 32 (penc (t_payer t)) ++
  le_bytes 4 (t_nonce t) ++ le_bytes 4 (t_valid t) ++
  [:: 1; size (t_memo t) %% 256]%N ++ copy_into 32 (t_memo t) ++
  [:: b2n (t_tag0 t); b2n (t_tag1 t); b2n (t_tag2 t)] ++
  copy_into 32 (penc (t_source t)) ++ copy_into 32 (penc (t_receiver t)) ++
  le_bytes 8 (t_token t) ++ le_bytes 8 (t_amount t) ++ [:: b2n (t_locked t); (t_network t %% 256)%N].

(** input[i:j] with constant bounds within len(input) *)
Definition slice (b : bytes) (i j : nat) : bytes := take (j - i) (drop i b).

(** PublicKey.UnmarshalBinary; keys.go:85-92 *)
Definition pk_unmarshal (b : bytes) : outcome G := if pdec b is Some p then Ok p else Err.

(** [input[58 : 58+input[57]]]; txn.go:114: the upper bound is computed in byte arithmetic; a bound below 58
    or beyond the capacity (taken to be the length) of input panics *)
Definition memo_slice (b : bytes) : outcome bytes :=
  let hi := ((58 + nth 0 b 57) %% 256)%N in
  if (58 <= hi)%N && (hi <= size b)%N then Ok (slice b 58 hi) else Panic.

(** UnmarshalBinary; txn.go:86-125; [mapper[x]] is true only for x = 1 *)
Definition txn_unmarshal (b : bytes) : outcome txn :=
  if (size b < 175)%N then Err else
  do payer <- pk_unmarshal (slice b 16 48);
  do source <- pk_unmarshal (slice b 93 125);
  do receiver <- pk_unmarshal (slice b 125 157);
  do memo <- memo_slice b;
  Ok (Txn (le_val (slice b 0 8)) (le_val (slice b 8 16)) payer (le_val (slice b 48 52)) (le_val (slice b 52 56))
       memo (nth 0%N b 90 == 1%N) (nth 0%N b 91 == 1%N) (nth 0%N b 92 == 1%N) source receiver
       (le_val (slice b 157 165)) (le_val (slice b 165 173)) (nth 0%N b 173 == 1%N) (nth 0%N b 174)).

(** DeriveChallenge; challenge_derive.go:17-42: always MainNet.  Points of another curve are not modelled. *)
Definition derive_challenge (msg : bytes) (pk r : G) : outcome F :=
  do t <- txn_unmarshal msg;
  do i <- add_ro_input t (ro_init 75);
  msg_hash pk (px r) i 1.

(** ** Addresses *)
Variables (sha : bytes -> bytes) (b58enc : bytes -> bytes) (b58dec : bytes -> bytes).

(** Fp.Bytes: 32 bytes little endian; native/pasta/fp/fp.go:201-207 *)
Definition fp_bytes (x : Fp) : bytes := le_bytes 32 (fpraw x).

(** GenerateAddress; keys.go:35-49; ToAffineUncompressed is x followed by y; pallas_curve.go:904-910 *)
Definition gen_address (pk : G) : bytes :=
  let payload := [:: 203; 1; 1]%N ++ fp_bytes (px pk) ++ [:: band (nth 0%N (fp_bytes (py pk)) 0) 1] in
  b58enc (payload ++ take 4 (sha (sha payload))).

(** ParseAddress; keys.go:52-79 *)
Definition parse_address (s : bytes) : outcome G :=
  let b := b58dec s in
  if size b != 40%N then Err else
  if nth 0%N b 0 != 203%N then Err else
  if nth 0%N b 1 != 1%N then Err else
  if nth 0%N b 2 != 1%N then Err else
  if take 4 (sha (sha (take 36 b))) != slice b 36 40 then Err else
  let x := slice b 3 35 in
  let x := set_nth 0%N x 31 (bor (nth 0%N x 31) (bshl (nth 0%N b 35) 7)) in
  pk_unmarshal x.

(** ** Signature encoding *)
Variables (fpset : bytes -> option Fp) (fqset : bytes -> option F).

(** Signature.MarshalBinary; signature.go:22-29 *)
Definition sig_marshal (s : signature) : bytes := fp_bytes (sig_r s) ++ le_bytes 32 (fqraw (sig_s s)).

(** Signature.UnmarshalBinary; signature.go:31-49; [fpset]/[fqset] are Fp.SetBytes and Fq.SetBytes *)
Definition sig_unmarshal (b : bytes) : outcome signature :=
  if size b != 64%N then Err else
  if fpset (slice b 0 32) is Some r then
    if fqset (slice b 32 64) is Some s then Ok (Sig r s) else Err
  else Err.

(** ** JSON *)
(** dynamic types an interface{} can hold: what encoding/json stores in one (null, bool, number, string,
    array, object), or the Go types the code asserts *)
Inductive dyn : Type :=
| JNull | JBool | JNum | JStr (s : bytes) | JSlice | JMap
| TArr2 (a b : dyn) | TPayment (source receiver : bytes) | TDelegation (delegator delegate : bytes).

(** the "Payment" / "Stake_delegation" dispatch of UnmarshalJSON: the pair (payer, receiver); txn.go:133-189.
    [payment]/[stake]/[setdel] are the three string constants. *)
Definition json_body (payment stake setdel : bytes) (b0 b1 : dyn) : outcome (option (G * G)) :=
  match b0 with
  | JStr s =>
      if s == payment then
        match b1 with
        | TPayment src rcv =>
            do p <- parse_address src;
            match parse_address rcv with
            | Ok q => Ok (Some (p, q))
            | Err => Ok None
            | Panic => Panic
            end
        | _ => Err
        end
      else if s == stake then
        match b1 with
        | TArr2 (JStr d) x =>
            if d == setdel then
              match x with
              | TDelegation del new => do p <- parse_address del; do q <- parse_address new; Ok (Some (p, q))
              | _ => Err
              end
            else Err
        | _ => Err
        end
      else Err
  | _ => Err
  end.
End Mina.

Arguments ro_init {Fp}.
