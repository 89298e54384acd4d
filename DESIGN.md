# Formal model of coinbase/kryptology in Rocq

## Method

* The Go code in /repo is read as text and transcribed function by function into total, computable Gallina
  functions.  Each definition cites the Go file and lines it models and says where it simplifies.
* A Go method that can fail returns `outcome A := Ok a | Err | Panic` (`Lib/Res.v`): errors are values, and so are
  run-time panics (index out of range, nil dereference, explicit `panic`).  Inside `Limbs/` a method that cannot panic
  returns `option` (None = error).  Nil pointers the code can meet are `option`.
* Methods with state (DKG participants, signers, iterators, the DRBG, accumulators, bit vectors) are functions from the
  old state to the new state and the outcome; properties of histories are inductions over arbitrary call sequences.
* Go maps are association lists; a `range` over a map goes through the list, and the theorems quantify over the order.
* Random draws are arguments, so every theorem holds for every outcome of the random source.
* External primitives (hash functions, XOFs, transcripts, AEAD, pairings, group operations) are Section variables:
  after the section is closed the theorem is universally quantified over them, and no axiom is introduced.  A
  hypothesis about such a primitive (a codec round trip, bilinearity) is a visible premise of the theorem; binding
  properties are stated constructively, "equal or here is a collision", never by assuming a hash is injective.
* Two levels of abstraction for arithmetic.  Protocols: scalars are an arbitrary `fieldType F` (or `'F_p`), points an
  arbitrary `lmodType F`.  Native curves: the point formulas are over an arbitrary field (`Curves/`), and the field
  arithmetic itself is the 64-bit limb code of the repository transcribed statement by statement (`Limbs/`), proved to
  compute arithmetic modulo the published orders.
* Layout: `<Dir>/*Model.v` and `*Code.v` are the code; `Spec.v`/`AddSpec.v` and the definitions at the head of the
  Props files are specification; `*Proofs.v` are lemmas; `Props*.v` hold the property theorems `Cxx_name`, each followed
  by `Print Assumptions`, with examples (`Example Cxx_...`) that a concrete non-trivial case meets the hypotheses.
* `seeded/LOG.jsonl` records the seeded faults: one edit of a model definition per line, the claim it breaks, the
  theorems that stopped proving and the theorems that were added or tightened because an edit survived.

## Per property: what is modelled and how it is proved

| id | property | modelled in | how it is proved | theorem files (number of theorems) |
|---|---|---|---|---|
| C01 | Shamir reconstruction | Sharing/Model | Lagrange interpolation over mathcomp polynomials; Split's output is the evaluation of the drawn polynomial | Sharing/Props.v (2) |
| C02 | Shamir secrecy below the threshold | Sharing/Model | bijection between coefficient choices and share values (Lagrange uniqueness) | Sharing/Props.v (1) |
| C03 | Shamir input validation | Sharing/Model | case analysis of every check in Combine; the accepted set is given by an independent predicate | Sharing/Props.v (3) |
| C04 | Feldman verification is exact | Sharing/Model | Horner/commitment evaluation by induction, injectivity of k -> kG | Sharing/Props.v (2) |
| C05 | Pedersen verification | Sharing/Model | algebra on the Pedersen equation, explicit discrete log | Sharing/Props.v (4) |
| C06 | Lagrange coefficients | Sharing/Model | Lagrange basis identity | Sharing/Props.v (1) |
| C07 | Legacy (v1) Shamir reconstruction and duplicate handling | SharingV1/Model | interpolation, loop invariants of collect/interpolate over the first t shares | SharingV1/Props.v (5) |
| C08 | Gennaro DKG agreement | Gennaro/Model | state machine of rounds 1-4; invariant over the processing order; sum of polynomials | Gennaro/Props.v (1) |
| C09 | Gennaro public shares | Gennaro/Model | exact value of the published W_j; counter-run for all n >= t >= 2 | Gennaro/Props.v (1) |
| C10 | FROST DKG agreement | Frost/DkgModel | state machine, sum of polynomials; divergence run | Frost/PropsDkg.v (2) |
| C11 | DKG share acceptance | Gennaro/Model, Frost/DkgModel | inversion of a successful round over arbitrary inputs; accepting run with a foreign identifier | Frost/PropsDkg.v (2); Gennaro/Props.v (3) |
| C12 | FROST DKG proof of knowledge binding | Frost/DkgModel | exact acceptance equation, special soundness, parsing of the context string | Frost/PropsDkg.v (5) |
| C13 | FROST signing correctness | Frost/SignModel | algebra over the Lagrange weights; exact condition on IsNegative | Frost/PropsSign.v (2) |
| C14 | FROST identifies bad partial signatures | Frost/SignModel | inversion of SignRound3 for arbitrary messages; explicit bad VkShare | Frost/PropsSign.v (3) |
| C15 | FROST nonces are used at most once | Frost/SignModel | invariant over arbitrary call histories | Frost/PropsSign.v (3) |
| C16 | ted25519 VSS verification | Ted/Model | byte-level model of the buffer; value of big-endian bytes read little-endian | Ted/Props.v (3) |
| C17 | ted25519 threshold signature | Ted/Model | Lagrange weights, Ed25519 equation; panic case | Ted/Props.v (5) |
| C18 | Schnorr proof completeness and special soundness | Schnorr/Model | algebra | Schnorr/Props.v (4) |
| C19 | Schnorr proof on curves whose scalar decoding rejects large hashes | Schnorr/Model | exact failure set of SetBytes; counting of 32-byte strings | Schnorr/Props.v (2) |
| C20 | Paillier decryption inverts encryption | Paillier/Model | Carmichael/Euler, (1+N)^m = 1+mN mod N^2 | Paillier/Props.v (2) |
| C21 | Paillier homomorphisms | Paillier/Model | same, for arbitrary accepted ciphertexts | Paillier/Props.v (2) |
| C22 | Paillier input validation | Paillier/Model | exact accepted sets | Paillier/Props.v (3) |
| C23 | Proof of square-freeness | Paillier/Model | orders in the unit group, residue characterisation | Paillier/Props.v (6) |
| C24 | Modular arithmetic helpers | Core/ModModel | Z arithmetic, extended Euclid | Core/PropsMod.v (6) |
| C25 | Hash commitment opening | Core/HashModel | HMAC unfolded to the hash; collision extraction | Core/PropsHash.v (3) |
| C26 | I2OSP | Core/HashModel | positional notation over byte lists | Core/PropsHash.v (2) |
| C27 | Simplest OT correctness | OT/SimplestModel | algebra, all choice bits | OT/PropsSimplest.v (5) |
| C28 | Correlated OT extension correctness | OT/KosModel | xor algebra on bit matrices, for all sizes | OT/PropsKos.v (4) |
| C29 | GF(2^256) multiplication used by the OT extension | OT/GfModel | 64-bit word loops against polynomials over F_2 | OT/PropsGf.v (3) |
| C30 | DKLs multiplication | Dkls/MulModel | sums over the gadget vector | Dkls/PropsMul.v (2) |
| C31 | DKLs signing yields a valid ECDSA signature | Dkls/SignModel | ECDSA equation through the shares; inversion of Round4 | Dkls/PropsSign.v (3) |
| C32 | DKLs S normalisation | Dkls/SignModel | exact set of s, windows computed for the two orders | Dkls/PropsSign.v (3) |
| C33 | DKLs key refresh preserves the key | Dkls/DkgModel | algebra and state after failures | Dkls/PropsDkg.v (2) |
| C34 | Protocol iterator discipline | Dkls/DkgModel | induction over arbitrary sequences of Next calls | Dkls/PropsDkg.v (2) |
| C35 | GG20 MtA correctness | Gg20/SignModel | Paillier homomorphism in Z, exact wrap condition | Gg20/PropsSign.v (2) |
| C36 | GG20 signing yields a valid ECDSA signature | Gg20/SignModel | whole six-round run for any signer set; ECDSA equation | Gg20/PropsPrepare.v (1); Gg20/PropsRun.v (1); Gg20/PropsSign.v (1) |
| C37 | GG20 output is not verified | Gg20/SignModel | for all messages of the cosigners; explicit attack | Gg20/PropsPrepare.v (1); Gg20/PropsSign.v (2) |
| C38 | GG20 signing round discipline | Gg20/SignModel | induction over arbitrary call histories | Gg20/PropsRounds.v (2) |
| C39 | GG20 DKG | Gg20/DkgModel | whole run, sum of polynomials; exact published shares | Gg20/PropsDkg.v (3); Gg20/PropsDkg2.v (2) |
| C40 | GG20 DKG round 3 retry | Gg20/DkgModel | effect of a failed call for every outcome | Gg20/PropsDkg2.v (2) |
| C41 | GG20 range proof bounds | Gg20/ZkModel | exact verdict on prover-made proofs from any integer; transcript binding | Gg20/PropsBind.v (3); Gg20/PropsZk.v (6) |
| C42 | Multi-scalar multiplication | Curves/MsmModel | loop invariants for both algorithms against the sum of multiples | Curves/PropsMsm.v (7) |
| C43 | Windowed scalar multiplication | Curves/MsmModel | loop invariant over the 64 windows | Curves/PropsMsm.v (2) |
| C44 | Complete point addition | Curves/AddModel | chord-and-tangent specification (AddSpec), RCB formulas over any field without 2-torsion | Curves/PropsAdd.v (19) |
| C45 | Scalar/field wide reduction and byte codec | Limbs/FieldModel | limb code verified by a checker proved sound (Checker, Elim); exact accepted sets | Limbs/PropsCodec.v (10) |
| C46 | Scalar ordering | Limbs/FieldModel | exact comparison functions, cycles by witness | Limbs/PropsCodec.v (4) |
| C47 | Point decoding validates its input | Limbs/PointModel | square roots (RootProofs), exact decoders | Limbs/PropsPoint.v (15) |
| C48 | Scalar and point serialization | Limbs/TextModel | exact accepted sets of the binary/text/JSON forms | Limbs/PropsText.v (14) |
| C49 | BBS+ sign/verify | Bbs/Model | bilinear algebra, all splits and map orders | Bbs/Props.v (5) |
| C50 | BBS+ message generators are distinct | Bbs/Model | equality of all generators, forged vectors | Bbs/Props.v (3) |
| C51 | BBS+ selective disclosure proof | Bbs/Model | completeness for every transcript, special soundness extractor | Bbs/Props.v (4) |
| C52 | Accumulator membership witnesses | Accum/Model | induction over histories of updates, product formula | Accum/Props.v (3) |
| C53 | Accumulator batch updates | Accum/Model | polynomial identities dA, dD, induction over batches | Accum/Props.v (8) |
| C54 | Accumulator membership proof completeness and soundness | Accum/Model | algebra and special soundness; transcript binding | Accum/Props.v (4); Accum/PropsBind.v (2) |
| C55 | Inner product argument completeness | Bulletproof/Model | induction on halving; bit-indexed coefficients | Bulletproof/Props.v (5) |
| C56 | Range proof completeness | Bulletproof/Model | polynomial identity t(x); exact verdict for every value | Bulletproof/Props.v (6) |
| C57 | Batched range proof completeness | Bulletproof/Model | same, z-weighted | Bulletproof/Props.v (3) |
| C58 | Camenisch-Shoup verifiable encryption | Verenc/CsModel | integers modulo n^2, signs and transcripts | Verenc/PropsCs.v (14); Verenc/PropsCsBind.v (4) |
| C59 | ElGamal verifiable encryption | Verenc/ElgModel | module algebra, special soundness | Verenc/PropsElg.v (19) |
| C60 | BLS signatures | Bls/Model | pairing algebra, off-subgroup points included | Bls/Props.v (13); Bls/PropsAgg.v (3) |
| C61 | Mina signatures | Mina/Model | random-oracle input lists, sponge, Schnorr algebra | Mina/Props.v (9); Mina/PropsTxn.v (4) |
| C62 | Mina transaction codec | Mina/Model | byte codecs, base58 check | Mina/PropsCodec.v (14) |
| C63 | NEM Ed25519-Keccak signatures | Nem/Model | abelian group with cofactor, clamping arithmetic | Nem/Props.v (9) |
| C64 | HMAC DRBG reads | Drbg/Model | loop over the output blocks against SP 800-90A | Drbg/Props.v (6) |
| C65 | Transcript hash binds its inputs | Core/HashModel | injective framing, collision extraction | Core/PropsHash.v (5) |
| C66 | Message expansion conforms to RFC 9380 | Core/HashModel | block loop against RFC 9380 | Core/PropsHash.v (2) |
| C67 | DKLs multiplication consistency check | Dkls/MulModel | explicit deviating sender for every row and choice | Dkls/PropsMul.v (1) |
| C68 | DKLs key generation and dealer | Dkls/DkgModel | honest run, commitment binding | Dkls/PropsDkg.v (3) |
| C69 | GG20 CDL proofs | Gg20/ZkModel | bitwise loop, degenerate parameters | Gg20/PropsZk.v (3) |
| C70 | BBS+ blind signatures issued for the same known messages | Bbs/Model | linear combination of two issuances | Bbs/Props.v (1) |
| C71 | BLS threshold signatures | Bls/Model | Lagrange in the exponent | Bls/Props.v (8) |
| C72 | BLS key encodings | Bls/Model | byte codecs, slice aliasing | Bls/Props.v (6) |
| C73 | Mina bit vectors | Mina/BitModel | refinement of byte operations to list operations | Mina/PropsBits.v (5) |
| C74 | Native field arithmetic is modular arithmetic | Limbs/*Code, FieldModel, ChainCode, FieldInst | transcribed limb programs, symbolic checker proved sound, hand proof of the BLS12-381 scalar limbs, Fermat for Invert/Sqrt | Limbs/PropsField.v (11) |
| C75 | Two-party key generation: agreement, and who decides the key | Gennaro/TwoModel | honest run from C08; explicit attacking message | Gennaro/PropsTwo.v (4) |
| C76 | BLS12-381 extension tower | Tower/TowerModel, Literals | ring tactic at each level over an abstract field; norms for Invert; Fermat in fp2 for Sqrt; literals checked in Z | Tower/PropsTower.v (9) |
| C77 | Pairing target group | Tower/TowerModel | closed form of the addition chain on cyclotomic elements; explicit counterexamples | Tower/PropsGt.v (6) |
| C78 | BLS12-381 pairing engine | Tower/PairModel | induction over pairs and parameter bits; ring for the step formulas; Example over F_19 | Tower/PropsPair.v (8) |
| C79 | The legacy BLS12-381 G1 curve multiplies by the scalar it is given | bls12381g1curve.go ScalarMult and ScalarBaseMult, EcPoint.ScalarMult, NewScalarBaseMult and Feldman.Verify over the order-n subgroup as a module (SharingV1/BlsModel.v) | byte-string lemmas on reversal; exact multiplier; induction over the commitments | SharingV1/PropsBls.v (7) |
| C80 | Encodings of BLS12-381 points | Tower/CodecModel: fp/fp2 byte forms, Sqrt, sign, G1/G2 codecs over the prime field of the modulus; subgroup test a parameter | codec proofs over an abstract coordinate ring, instantiated; square roots by Fermat; integral domain from -1 being a non-square | Tower/PropsCodec.v (6) |
| C81 | Points over crypto/elliptic curves | Curves/EcPointModel | case analysis over outcomes; big-endian arithmetic lemmas; divisibility for Neg; Example over five toy curves | Curves/PropsEcPoint.v (10) |
| C82 | Ed25519 as a v1 curve | SharingV1/EdModel over Curves/EcPointModel | byte arithmetic and reduction lemmas; parity argument for Neg; Example over a group of order twelve | SharingV1/PropsEd.v (5) |
| C83 | Scalar arithmetic on big integers | Curves/EcScalarModel | modular arithmetic over int; Bezout and Fermat for Div; Example modulo 13 | Curves/PropsEcScalar.v (6) |
| C84 | Hashing to a curve lands on the curve | Curves/SswuModel, SswuParams | field identities and Euler's criterion over an abstract finite field of 3 mod 4 elements; the constants are checked by computation on binary numbers (SswuConst, SswuIso: polynomial identity of the isogeny, non-square at its pole); Example over seven elements | Curves/PropsSswu.v (5) |
| C85 | Legacy curves are initialised when returned | SharingV1/InitModel | induction over call histories on the package state | SharingV1/PropsInit.v (2) |
| C86 | The G2 map stage of hashing lands on the curve | Tower/SswuG2Model (over TowerModel) | squares of fp2 through the norm and Euler's criterion, the SWU identity by ring, the constants by computation on binary numbers; Sqrt by C76 | Tower/PropsSswuG2.v (2) |

No property is left out as inexpressible, and none is partial: where the relied-upon property fails for the code, the
property text says "Finding:" and the theorem states the exact behaviour or refutes the expectation (`..._refuted`).

## Findings

Behaviour of the code that contradicts what a user would rely on, each a theorem of the model:

* **C03** a share whose value is 0, which Split can emit, is refused by Combine.
* **C05** the identifier of the blinding share is never looked at.
* **C09** the code adds to the group key the sum over k of j*(k+1) times participant j's own k-th commitment (a product instead of a power, and one dealer's commitments instead of everybody's), so W_j = G*share_j holds only for exceptional polynomials; for every n >= t >= 2 there are honest runs in which every published W_j is wrong. All participants do publish the same W_j.
* **C10** Round2 also completes after hearing only t-1 broadcasts, and then the key is the sum over those senders only, so participants who heard different sets finish with different keys.
* **C11** that identifier is never compared with the receiver's own, so a share evaluated at another point is accepted and the resulting signing share is not on the common polynomial.
* **C12** context strings and ids enter the hash as single bytes, so different sessions whose context parses to the same byte (for example any two non-numeric strings) accept each other's proofs.
* **C13** without that proviso (IsNegative true and a deriver sensitive to the sign) the honest run fails in SignRound3 for everyone.
* **C14** VkShare_j is taken from the message itself, so a wrong z_j can always be accompanied by a VkShare_j under which it passes, and the culprit is not named.
* **C16** the power is written big-endian into a little-endian scalar buffer, so from id^j >= 256 on (id=16,t=3) honestly dealt shares are rejected.
* **C17** Aggregate panics when an interpolated share value is zero, and a wrong partial signature is not detected by it.
* **C20** a nonce sharing a factor with N is accepted by encryption and the resulting ciphertext is refused by Decrypt.
* **C22** NewSecretKey performs no primality, distinctness or coprimality check, and for p = q decryption does not invert encryption.
* **C23** Verify indexes the proof without a length check, so a short proof panics instead of being rejected; the challenges do not depend on the modulus beyond its bit length and range.
* **C24** Exp with a negative exponent and non-invertible base returns nil with a nil error; Rand(m) for m <= 2 loops forever.
* **C26** when b does not fit in n bytes the function returns the most significant bytes instead of an error (I2OSP(256,1) = [1]).
* **C32** this is not the low-S rule; for every s strictly between q/2 and 2^255 (a window of more than 2^126 values for secp256k1 and 2^222 for P-256, each reached by some digest) Bob's last round succeeds with S > q/2.
* **C33** the rounds are not atomic. With multiplier zero Bob's share is destroyed while his round succeeds; when Alice's third round fails on a bad OT proof her share has already changed, so a retry that succeeds leaves shares whose product is no longer the key.
* **C34** a refresh run with a version above 200 completes but its Result is always an error.
* **C37** a signer built by NewSigner returns a signature without error for every values sent by its cosigners; it verifies only if the point (s/s')R has the right x coordinate, and one cosigner can make every honest signer return a signature with s = 0.
* **C39** the published per-participant public shares use j*(k+1) instead of j^k (for t=2 they are right only if participant 1's share is zero); a share addressed to any other id is accepted, and openings from a single other participant suffice.
* **C40** if the share of one participant first arrives altered, the repeated call with correct inputs succeeds with the same public key but a signing share that counts the shares of all participants preceding it in the map order twice.
* **C41** negative values pass the test, so every plaintext m in [0,N) has an accepted proof (computed from m-N), for the range proof, the MtA response proof and the PDL proof alike; the verified plaintext is not bounded at all. With a collision-free hash, two accepted proofs with the same challenge are about the same statement (curve, modulus, dealer parameters, ciphertexts, points) and reconstruct the same commitments.
* **C42** lists of different lengths give nil, but for Pallas a non-nil Point holding a nil pointer (as does a foreign scalar); the empty sum is the identity, except that BLS12-377 panics on points[0].
* **C44** with the receiver equal to the second operand the native p.Add(q, p) returns 2q and p.Sub(q, p) the identity (the curves' wrappers never do this); IsOnCurve of the K256/P256 identity is false while that of BLS12-381 and Pallas is true.
* **C45** the Pasta fields decide canonicity with a comparison that takes the sign bit of 64-bit limb differences. They accept every string whose top byte exceeds 0xC0 (none is canonical) and reject the canonical values that agree with the order above the lowest limb and are at least 2^63 below it there; SetBigInt silently leaves its receiver unchanged on those values. All other canonical strings are accepted exactly.
* **C46** the K256, P256 and BLS12-381 scalar comparison orders elements by their Montgomery representations: it is an antisymmetric order that is 0 exactly on equal elements, but in each of these five fields there are a < b with Cmp(a, b) = 1. The Pasta comparison is 0 exactly on equal elements, decides by the sign of the first differing 64-bit limbs, and is not an order at all: it has cycles x < y < z < x.
* **C47** an x without a curve point decodes, with nil error, to the identity; FromAffineUncompressed accepts every pair of canonical coordinates on or off the curve, e.g. (1,1); the identity encodes as 02 00..00, which decodes to the identity on K256 (7 is no square) but to a point with x = 0 on P256. Pallas decoding, compressed and uncompressed, checks the curve equation, but through the field decoder of C45: a point survives the compressed round trip exactly when x is outside that decoder's hole (an explicit curve point is refused), non-canonical strings decode to points that encode differently, and the identity's encoding does not decode.
* **C48** scalar text is accepted when it spells at most 32 bytes and is then padded with zeros, so for every curve whose name has at least seven letters the text with its last two digits removed decodes to a different scalar (last byte zeroed); text spelling a 33rd byte panics; BLS12-377 accepts encodings of any length; two further names alias the G1 groups; JSON decoding of a pairing-curve scalar does not set the group, so a new receiver panics when next marshalled and an old one silently keeps its group.
* **C49** a hidden index equal to the number of messages passes the index check and panics, and a context with a wrong number of responses makes the signer panic.
* **C50** MessageGenerators.Get hashes the unmodified state, so all generators are equal and a signature on (m1,...,mn) also verifies for every permutation and every vector with the same sum.
* **C51** a proof with too few responses makes the verifier panic.
* **C52** New involves no membership test, so it issues verifying witnesses for non-members; the element 0 can be added but never gets a witness.
* **C53** an Update with empty additions and deletions publishes no coefficients and BatchUpdate then panics; with a nil additions slice, which Update accepts, BatchUpdate always fails.
* **C54** the proof verifies for y = 0, which Verify of a witness refuses.
* **C56** v = 2^n is accepted by Prove but its proof never verifies; on curves with big-endian scalar bytes (K256, P256, BLS12-381) no honest proof of a small non-zero value verifies; Prove panics for n = 1, negative n and n above the scalar's bits; Verify panics on a proof with fewer Rs than Ls.
* **C57** a batch of a single value panics in both BatchProve and VerifyBatched.
* **C58** the challenge input carries no lengths, so a key with one more generator absorbs u; Encrypt also accepts m = n and negative m; the public ciphertext (n, n, e) passes all checks and makes Decrypt panic; VerifyEncryptProof checks only as many components as the proof has, so arbitrary components are accepted, and panics when the proof has more; marshalling a proof drops the sign of its (usually negative) responses; a response fixes the leading bits of the message; unmarshalling a group with an even modulus panics.
* **C59** the proof masks the message with the encryption randomness, so a ciphertext with its proof reveals m*G to everyone and, without a domain, the whole plaintext; VerifiableEncrypt stores the randomness it draws in the caller's EncryptParams, so reusing the params reuses the randomness; proofs made with a domain verify with VerifyDomainEncryptProof only if the proof nonce equals the domain; an AEAD nonce longer than 12 bytes makes decryption panic.
* **C60** a message hashing to the identity yields a signature Verify refuses; usual Sign of the augmented scheme refuses the empty message which the tiny variant signs and both verify; without proofs of possession a rogue key forges a multi-signature; a nil key panics.
* **C61** the sponge does not pad, so a message and the same message followed by zero bytes (within the block) have the same signatures; memos that differ only after byte 32 have the same signatures; a network id above 2 makes signing and verifying panic.
* **C62** a memo of 33 to 117 bytes decodes to other bytes and one of 118 to 255 bytes makes UnmarshalBinary panic (exact panic set characterised for all inputs); encodings are not unique (version byte ignored, any flag byte but 1 means false, trailing bytes ignored); each key has 128 addresses with valid checksums; UnmarshalJSON fails on every input; DeriveChallenge uses MainNet whatever the transaction says.
* **C63** Sign trusts the public key stored in the private key, so two signatures of one message with the same seed and different stored keys reveal the secret scalar; keys of small order are accepted, and under the neutral key anyone can sign; Public and Seed panic on short keys.
* **C64** Read panics for every other non-zero length; a zero-length Read does not update the state; the request counter is not reset by Reseed; entropy, nonce and personalisation are concatenated without separators, so different splits give the same generator.
* **C65** the sign of a FiatShamir argument is ignored.
* **C66** a requested length of 0 panics, and a tag of 256 bytes or more is accepted with a wrong length byte.
* **C67** the consistency check of the two-party multiplication does not detect every deviation. Its challenges are drawn from a transcript covering only the first 256 of the 672 correlation rows, so a sender can alter any later row after seeing the challenges, pass the receiver's check for every receiver choice, and shift the receiver's share exactly when the corresponding choice bit is set (a selective-failure leak).
* **C69** the degenerate parameters h1 = h2 = 1 come with an accepted proof for every secret, so acceptance does not imply usable parameters.
* **C70** ToBlindSignature derives e and s from the key, the generators and the known messages but not from the commitment, so two issuances with the same known messages share e and s and the holder can compute, without the signer, a signature that verifies on m + k(m - m') for every scalar k, m and m' the two message vectors.
* **C71** identifier 0 is accepted and its partial replaces the result; fewer than t partials combine without an error into a different point; the empty message can be signed with the whole key but not with shares.
* **C72** a share with a longer value panics in MarshalBinary and a shorter one loses its identifier; Generate may return the zero key and writes a zero byte into the caller's buffer behind the key material when the slice has spare capacity.
* **C74** Neg of the BLS12-381 scalar field masks on the difference instead of on its argument, so Neg(0) is the modulus itself, a stored form no residue has: IsZero and Equal deny that it is zero, Cmp puts it above zero and Invert of it reports success with value 0, while Bytes and BigInt read zero.
* **C75** with two parties the second-round verifiers are checked only at the one share the sender chose itself, so the side that sends its second message last decides the public key: for every point T it can make the honest side finish with key T, for instance a key whose secret it knows.
* **C76** IsOne ignores the v^2 coefficient, so it holds exactly for the elements 1 + c v^2, not only for 1; CNeg with choice 0 leaves the receiver instead of copying the argument.
* **C77** Gt.Mul returns zero for every element and every scalar; for elements that are not pairing values (as SetBytes, Random and Hash return) Square, Cube, Neg, Sub and Div do not compute the named operation; FinalExponentiation of zero leaves the receiver.
* **C79** EcPoint.ScalarMult multiplies by the number whose big-endian bytes are those of k mod n reversed (ScalarMult copies the big-endian bytes into a little-endian buffer without reversing them, ScalarBaseMult reverses them). On a point other than the identity the result is right exactly when the minimal byte string of k mod n is a palindrome: every k below 256 is right, 256 acts as 1, and scalars whose reversal is not below the group order panic on nil coordinates. Consequently Feldman.Verify over this curve is exact while all powers of the share identifier fit in one byte, and from identifier 16 and threshold 3 on it rejects the honest share and accepts another value.
* **C80** under the infinity flag every other bit is ignored; the uncompressed form ignores the compressed and sort flags, so each point has four encodings; FromAffineCompressed/Uncompressed truncate longer and zero-pad shorter input, so the single byte C0 is the identity; G2.BigInt encodes a local zero value instead of the receiver, so it returns the same pair for every point and SetBigInt reads that pair as the identity; G2.SetBigInt panics on integers of more than 96 bytes.
* **C81** UnmarshalBinary and UnmarshalJSON perform no curve check, so decoded points may be off the curve (JSON: also negative or missing coordinates, on which IsValid panics); UnmarshalBinary panics on fewer than 65 bytes; MarshalBinary panics on coordinates of 2^256 or more, i.e. on the larger supported curves; Neg of the identity is an error.
* **C82** IsIdentity is false for the identity of the group and true for (0,0), which Add reads as the identity but Double and ScalarMult read as a point of order four, so (0,0)+(0,0) and 2*(0,0) differ; EcPoint.Neg never returns the negative of a point; the curve's own ScalarMult and ScalarBaseMult cut scalars longer than 32 bytes (2^256 acts as zero).
* **C83** division by zero panics for secp256k1 and P-256, returns the dividend for BLS12-381 and zero for Ed25519; the Ed25519 methods read the absolute value modulo 2^256 instead of reducing, so negative arguments lose their sign, 2^256 counts as zero and the order itself panics, and the Ed25519 IsValid accepts every negative number.
* **C85** Bls12381G2() returns the G1 curve, and with nil parameters until someone calls Bls12381G1(), so that reading the group order through it panics in exactly the histories without such a call.
* **C86** the test for the exceptional input comes after one has been added, so the input 0 is not recognised and goes to (0, 0), which is not on the curve.

## Trusted base

* The kernel of Coq 8.16.1 (`coqc`, and `coqchk` for the second check).
* Libraries: the Coq standard library and mathcomp (ssreflect, algebra, field, and zify for its linear-arithmetic tactic).  No other
  library is used.
* `Print Assumptions` follows every property theorem in the Props files; for every one of them the output is
  **"Closed under the global context"**: no axiom, neither of the standard library nor of any other library, is used.
* `vm_compute` is used in some closed computations (constants, primality-free congruences, examples); it is part of the
  kernel, and `coqchk` re-checks those terms without it.
* The transcription itself: that each Gallina definition does what the cited Go lines do is checked by reading.  The
  programs of `Limbs/*Code.v` and `Limbs/ChainCode.v` were produced from the Go text by a small translation script, one
  instruction per statement, with the variable numbering in the comments; the script is not part of the proof, its
  output is the model that can be compared with the Go file line by line.
* The semantics of Go used by the models: integers of fixed width wrap, slices index with bounds checks, a nil map read
  gives the zero value, `append` may write into spare capacity (modelled where it matters, C72), `math/big` and
  `math/bits` follow their documentation.

Hypotheses that stand in theorem statements (not axioms): primality of a group or field order where inversion or square
roots need it (`prime M`), for the BLS12-381 tower that -1 and 2 are no squares and 1+u is no cube, odd order of the curve family in C44, bilinearity and non-degeneracy of pairings
(`Lib/Pairing.v`), round trips of point or scalar codecs passed in as functions (for the native curves they are
theorems: C45, C47), and facts about honest inputs (distinct identifiers, sizes).  Each is met by an example beside the
theorem.

## What is modelled and what is not

Modelled (directory: Go sources):

| directory | Go sources |
|---|---|
| Sharing | pkg/sharing |
| SharingV1 | pkg/sharing/v1 (shamir, feldman, pedersen, polynomial, the BLS12-381 G1 and Ed25519 curves) |
| Gennaro, Frost | pkg/dkg/gennaro, pkg/dkg/frost, pkg/ted25519/frost |
| Ted | pkg/ted25519/ted25519 (keygen, noncegen, partialsig, sigagg, verification equation) |
| Schnorr | pkg/zkp/schnorr |
| Paillier | pkg/paillier |
| Core | pkg/core (mod, hash, commit), internal/hash.go |
| OT, Dkls | pkg/ot/base/simplest, pkg/ot/extension/kos, pkg/tecdsa/dkls/v1 |
| Gg20 | pkg/tecdsa/gg20 (participant, proof, dealer values used by them) |
| Curves, Limbs | pkg/core/curves: native field and point code of K256, P256 and Pasta, the BLS12-381 scalar field, BLS12-381 point formulas, scalar and multi-scalar multiplication, serialization of scalars and points; the legacy EcPoint and EcScalar types |
| Bbs, Accum, Bulletproof | pkg/signatures/bbs, pkg/signatures/common, pkg/accumulator, pkg/bulletproof |
| Bls, Mina, Nem, Drbg | pkg/signatures/bls/bls_sig, pkg/signatures/schnorr/mina, pkg/signatures/schnorr/nem, pkg/signatures/common/hmacdrbg.go |
| Verenc | pkg/verenc/camshoup, pkg/verenc/elgamal |
| Tower | pkg/core/curves/native/bls12381 (fp2, fp6, fp12, gt, pairings over an abstract base field; g1 and g2 codecs over the prime field), target-group methods of pkg/core/curves/bls12381_curve.go |

Not modelled: the DKLs v0 protocol (pkg/tecdsa/dkls/v0), the six-limb base field of BLS12-381 (an abstract field in
Tower), bilinearity of the BLS12-381 pairing in its arguments beyond products and signs (signature schemes take the
pairing as an abstract bilinear map), hash-to-curve beyond
ExpandMessageXmd and the maps of C84 and C86 (the G1 and G2 isogenies, elligator), gob encoding of DKLs messages, the filippo.io/edwards25519 and gnark-crypto
libraries behind the Ed25519 and BLS12-377 curves, the Poseidon constant tables (arbitrary in the model), timing and
constant-time behaviour, memory aliasing other than where stated, goroutine interleavings of `stream.go`, benchmarks
and the programs under test/ and cmd/.  Computational security (hardness assumptions, zero knowledge as a distribution
statement) is outside the logic used here; its algebraic core (special soundness, binding up to an exhibited collision,
exact secrecy of Shamir shares) is proved.
