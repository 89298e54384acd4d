{"id": "C01", "title": "Shamir reconstruction", "statement": "Splitting a non-zero secret with Shamir (threshold t, limit n) and passing at least t of the resulting shares, with pairwise distinct identifiers and in any order, to Combine returns exactly the original secret; CombinePoints applied to the same shares returns secret*G.", "quantifier": "every scalar field, every t,n accepted by NewShamir, every secret, every random polynomial, every selection and order of >= t shares", "why_tests_cant": "the number of polynomials, subsets and orders is astronomically large", "anchors": ["pkg/sharing/shamir.go: Split, Combine, CombinePoints, interpolate, interpolatePoint, getPolyAndShares"]}
{"id": "C02", "title": "Shamir secrecy below the threshold", "statement": "The values of any t-1 shares with distinct non-zero identifiers carry no information on the secret: for every candidate secret there is exactly one choice of the random coefficients under which Split produces exactly those share values.", "quantifier": "every field, every t, every set of t-1 distinct identifiers, every observed values, every candidate secret", "why_tests_cant": "an information-theoretic statement over all polynomials", "anchors": ["pkg/sharing/shamir.go: Split", "pkg/sharing/polynomial.go: Init, Evaluate"]}
{"id": "C03", "title": "Shamir input validation", "statement": "Combine and CombinePoints return a value only when at least t shares were given, every share id is in 1..limit, ids are pairwise distinct and (Combine) every share value decodes to a non-zero scalar; every other input is an error and never a panic, for non-nil shares. Consequence (finding): a share whose value is 0, which Split can emit, is refused by Combine.", "quantifier": "every list of shares", "why_tests_cant": "the input space is infinite and the boundary cases are many", "anchors": ["pkg/sharing/shamir.go: Combine, CombinePoints, Validate, NewShamir"]}
{"id": "C04", "title": "Feldman verification is exact", "statement": "FeldmanVerifier.Verify accepts a share against the commitments published by Split if and only if the share value equals the committed polynomial evaluated at the share identifier; in particular every share dealt by Feldman.Split verifies.", "quantifier": "every field and group, every commitments, every share", "why_tests_cant": "soundness quantifies over all forged shares", "anchors": ["pkg/sharing/feldman.go: Split, FeldmanVerifier.Verify"]}
{"id": "C05", "title": "Pedersen verification", "statement": "PedersenVerifier.Verify accepts every (share, blinding share) pair dealt by Pedersen.Split; if it accepts two different pairs for the same identifier then the discrete log of the blinding generator is computable from them. Finding: the identifier of the blinding share is never looked at.", "quantifier": "every field/group/generator, secret, polynomials and pairs", "why_tests_cant": "quantifies over all adversarial openings", "anchors": ["pkg/sharing/pedersen.go: Split, PedersenVerifier.Verify"]}
{"id": "C06", "title": "Lagrange coefficients", "statement": "Shamir.LagrangeCoeffs on pairwise distinct identifiers returns weights w_i with sum_i w_i*f(id_i) = f(0) for every polynomial f of degree below the number of identifiers.", "quantifier": "every identifier list without duplicates, every polynomial", "why_tests_cant": "infinitely many polynomials and identifier sets", "anchors": ["pkg/sharing/shamir.go: LagrangeCoeffs"]}
{"id": "C07", "title": "Legacy (v1) Shamir reconstruction and duplicate handling", "statement": "In pkg/sharing/v1, Combine over any >= t shares of Split (distinct ids) returns the secret; Combine reads only the first t shares, so a corrupted share in a later position goes unnoticed; a duplicate identifier among the first t is an error.", "quantifier": "every prime field, t, n, secret, polynomial, share list", "why_tests_cant": "all share lists and corruptions cannot be enumerated", "anchors": ["pkg/sharing/v1/shamir.go: Split, Combine, interpolate"]}
{"id": "C08", "title": "Gennaro DKG agreement", "statement": "When n honest participants run rounds 1-4 of the Gennaro DKG, all of them output the same verification key, it equals G times the sum of the dealt secrets, and every participant's signing-key share is the value at its identifier of one common polynomial of degree t-1 whose constant term is that sum (so any t shares combine to the secret key).", "quantifier": "every n,t, every choice of every participant's polynomials", "why_tests_cant": "schedules of n participants and random polynomials are unbounded", "anchors": ["pkg/dkg/gennaro/participant.go", "pkg/dkg/gennaro/round1.go", "pkg/dkg/gennaro/round2.go", "pkg/dkg/gennaro/round3.go", "pkg/dkg/gennaro/round4.go"]}
{"id": "C09", "title": "Gennaro public shares", "statement": "Users rely on Round4's public shares W_j being G times participant j's secret share. Finding: the code adds to the group key the sum over k of j*(k+1) times participant j's own k-th commitment (a product instead of a power, and one dealer's commitments instead of everybody's), so W_j = G*share_j holds only for exceptional polynomials; for every n >= t >= 2 there are honest runs in which every published W_j is wrong. All participants do publish the same W_j.", "quantifier": "every n, t, curve order not dividing 1..n, map iteration order", "why_tests_cant": "unit tests never recompute W_j from the secret shares", "anchors": ["pkg/dkg/gennaro/round4.go: Round4"]}
{"id": "C10", "title": "FROST DKG agreement", "statement": "When n honest participants run both rounds of the FROST DKG, all end with the same verification key = G * sum of secrets, each VkShare = G * SkShare, and the SkShares are evaluations of one polynomial of degree t-1 with constant term the sum of the secrets. Finding: Round2 also completes after hearing only t-1 broadcasts, and then the key is the sum over those senders only, so participants who heard different sets finish with different keys.", "quantifier": "every n, t, polynomials, nonces, challenge hash", "why_tests_cant": "unbounded number of participants and randomness", "anchors": ["pkg/dkg/frost/dkg_round1.go", "pkg/dkg/frost/dkg_round2.go", "pkg/dkg/frost/participant.go"]}
{"id": "C11", "title": "DKG share acceptance", "statement": "A DKG participant (Gennaro round 2/3, FROST round 2) that completes a round has checked every share it adds: the share it received from j equals j's committed polynomial evaluated at the identifier carried by the share. Finding: that identifier is never compared with the receiver's own, so a share evaluated at another point is accepted and the resulting signing share is not on the common polynomial.", "quantifier": "every message received from arbitrary (malicious) participants", "why_tests_cant": "adversarial messages are unbounded", "anchors": ["pkg/dkg/gennaro/round2.go", "pkg/dkg/gennaro/round3.go", "pkg/dkg/frost/dkg_round2.go"]}
{"id": "C12", "title": "FROST DKG proof of knowledge binding", "statement": "FROST DKG round 2 accepts participant j's broadcast only if c = H(j, ctx, A_j0, w*G - c*A_j0), so accepted transcripts with two different challenges for one commitment yield j's secret (special soundness). Finding: context strings and ids enter the hash as single bytes, so different sessions whose context parses to the same byte (for example any two non-numeric strings) accept each other's proofs.", "quantifier": "every hash, broadcast, context string", "why_tests_cant": "all strings and broadcasts", "anchors": ["pkg/dkg/frost/dkg_round1.go", "pkg/dkg/frost/dkg_round2.go", "pkg/dkg/frost/participant.go: NewDkgParticipant"]}
{"id": "C13", "title": "FROST signing correctness", "statement": "If every cosigner in the signing set S (|S| = t, shares of one degree t-1 polynomial) follows SignRound1-3, every cosigner obtains the same signature (c, z) and Verify accepts it under the group verification key for that message, provided the challenge of R does not change when R is replaced by -R in the case R.IsNegative(). Finding: without that proviso (IsNegative true and a deriver sensitive to the sign) the honest run fails in SignRound3 for everyone.", "quantifier": "every S, polynomial, nonces, message and challenge derivation", "why_tests_cant": "unbounded signing sets, nonces and messages", "anchors": ["pkg/ted25519/frost/round1.go", "pkg/ted25519/frost/round2.go", "pkg/ted25519/frost/round3.go", "pkg/ted25519/frost/participant.go"]}
{"id": "C14", "title": "FROST identifies bad partial signatures", "statement": "SignRound3 returns a signature only if every received partial signature z_j satisfies z_j*G = R_j + c*lambda_j*VkShare_j for the VkShare_j sent with it and the sum verifies under the signer's group key, whatever the other participants sent. Finding: VkShare_j is taken from the message itself, so a wrong z_j can always be accompanied by a VkShare_j under which it passes, and the culprit is not named.", "quantifier": "every set of received partial signatures", "why_tests_cant": "adversarial partial signatures are unbounded", "anchors": ["pkg/ted25519/frost/round3.go: SignRound3", "pkg/ted25519/frost/round3.go: Verify"]}
{"id": "C15", "title": "FROST nonces are used at most once", "statement": "For any sequence of calls to SignRound1/2/3 on one signer, each pair of nonces generated by SignRound1 contributes to at most one released partial signature, and after a successful SignRound2 the stored nonces are zero.", "quantifier": "every finite sequence of API calls with arbitrary arguments", "why_tests_cant": "call histories are unbounded", "anchors": ["pkg/ted25519/frost/round1.go", "pkg/ted25519/frost/round2.go"]}
{"id": "C16", "title": "ted25519 VSS verification", "statement": "KeyShare.VerifyVSS accepts every honestly dealt share when all powers id^j (j<t) fit in one byte. Finding: the power is written big-endian into a little-endian scalar buffer, so from id^j >= 256 on (id=16,t=3) honestly dealt shares are rejected.", "quantifier": "every dealing, threshold and identifier", "why_tests_cant": "tests use small identifiers only", "anchors": ["pkg/ted25519/ted25519/keygen.go: VerifyVSS"]}
{"id": "C17", "title": "ted25519 threshold signature", "statement": "Partial signatures produced with consistent nonce shares and key shares by any t signers aggregate to a signature (R,S) satisfying S*B = R + H(R,A,M)*A for the group key A, i.e. one accepted by the standard Ed25519 verification equation. Findings: Aggregate panics when an interpolated share value is zero, and a wrong partial signature is not detected by it.", "quantifier": "every polynomial pair, signer set of size >= t, message, hash", "why_tests_cant": "infinitely many shares, messages", "anchors": ["pkg/ted25519/ted25519/partialsig.go", "pkg/ted25519/ted25519/sigagg.go", "pkg/ted25519/ted25519/noncegen.go"]}
{"id": "C18", "title": "Schnorr proof completeness and special soundness", "statement": "schnorr.Prover.Prove followed by Verify succeeds for every secret, base point and session id whenever the challenge hash decodes to a scalar; two accepting proofs with the same commitment and different challenges determine the discrete log. ", "quantifier": "every field/group, secret, nonce, hash", "why_tests_cant": "soundness quantifies over all forged proofs", "anchors": ["pkg/zkp/schnorr/schnorr.go: Prove, Verify"]}
{"id": "C19", "title": "Schnorr proof on curves whose scalar decoding rejects large hashes", "statement": "Prove fails (returns an error) exactly when the 32-byte challenge hash, read big-endian, is >= q on the big-endian curves; on BLS12-381, whose order is below 2^255, more than half of all 32-byte hashes are refused.", "quantifier": "every hash value", "why_tests_cant": "a probability statement over 2^256 values", "anchors": ["pkg/zkp/schnorr/schnorr.go: Prove", "pkg/core/curves/bls12381_curve.go: ScalarBls12381.SetBytes"]}
{"id": "C20", "title": "Paillier decryption inverts encryption", "statement": "For a secret key built from distinct primes p,q with gcd(pq,(p-1)(q-1))=1, Decrypt(Encrypt(m)) = m for every 0 <= m < N and every randomness r coprime to N. Finding: a nonce sharing a factor with N is accepted by encryption and the resulting ciphertext is refused by Decrypt.", "quantifier": "every key, message and randomness", "why_tests_cant": "message space of size N", "anchors": ["pkg/paillier/paillier.go: NewSecretKey, Encrypt, Decrypt, L"]}
{"id": "C21", "title": "Paillier homomorphisms", "statement": "Decrypt(Add(c1,c2)) = m1+m2 mod N and Decrypt(Mul(k,c)) = k*m mod N for ciphertexts of m1,m2,m under the same key, and more generally for every values c1,c2 that Decrypt accepts.", "quantifier": "every key, messages, randomness, multipliers", "why_tests_cant": "all ciphertext pairs", "anchors": ["pkg/paillier/paillier.go: Add, Mul"]}
{"id": "C22", "title": "Paillier input validation", "statement": "Encrypt accepts m iff 0 <= m < N (and r iff 0 < r < N); Add/Mul accept exactly operands in [0,N^2) and multipliers in [0,N); for a key from good primes Decrypt accepts c iff 0 <= c < N^2 and gcd(c,N)=1; other operands are errors, never panics. Finding: NewSecretKey performs no primality, distinctness or coprimality check, and for p = q decryption does not invert encryption.", "quantifier": "every integer argument", "why_tests_cant": "integers are unbounded", "anchors": ["pkg/paillier/paillier.go", "pkg/core/mod.go: In"]}
{"id": "C23", "title": "Proof of square-freeness", "statement": "PsfProve followed by Verify succeeds for every N = pq with gcd(N,phi(N))=1 and every 13 challenges below N. If Verify accepts, every challenge coprime to N is an s-th residue for each prime s with s^2 | N (or s | N and s | t-1 for a prime t | N). Generated challenges are 13 values in (0,N). Findings: Verify indexes the proof without a length check, so a short proof panics instead of being rejected; the challenges do not depend on the modulus beyond its bit length and range.", "quantifier": "every key and challenge oracle, every proof length", "why_tests_cant": "all proofs/keys", "anchors": ["pkg/paillier/psf.go: Prove, Verify"]}
{"id": "C24", "title": "Modular arithmetic helpers", "statement": "core.Add/Mul/Exp/Neg/Inv return the canonical residue in [0,m) of the mathematical result (the exact value without modulus), Inv fails exactly when gcd(x,m) != 1, In is membership in [0,m), ConstantTimeEq is equality including nil and sign, and Rand(m) returns values in [2,m). Findings: Exp with a negative exponent and non-invertible base returns nil with a nil error; Rand(m) for m <= 2 loops forever.", "quantifier": "every integers x,y and modulus m>0", "why_tests_cant": "unbounded integers", "anchors": ["pkg/core/mod.go"]}
{"id": "C25", "title": "Hash commitment opening", "statement": "Commit(msg) opens with Open for that message, and a commitment that opens to two different witnesses (message or nonce) exhibits a collision of the hash function inside HMAC; Open errors exactly for a commitment of the wrong length.", "quantifier": "every message, commitment, witness", "why_tests_cant": "all openings", "anchors": ["pkg/core/commit.go (hash commitments)"]}
{"id": "C26", "title": "I2OSP", "statement": "I2OSP(b,n) returns exactly n bytes and is inverted by OS2IP when b < 256^n. Finding: when b does not fit in n bytes the function returns the most significant bytes instead of an error (I2OSP(256,1) = [1]).", "quantifier": "every byte/int argument", "why_tests_cant": "integers unbounded", "anchors": ["pkg/core/hash.go: I2OSP, OS2IP"]}
{"id": "C27", "title": "Simplest OT correctness", "statement": "In the base OT, for every index the receiver ends with exactly the sender's key pad selected by its choice bit, and verification (challenge/response) succeeds between honest parties.", "quantifier": "every batch size, secrets, choice bits, hash", "why_tests_cant": "unbounded batch and randomness", "anchors": ["pkg/ot/base/simplest/ot.go"]}
{"id": "C28", "title": "Correlated OT extension correctness", "statement": "KOS: after an honest run, for every j the sender and receiver additive outputs sum to choice_j * input_j, and the sender's consistency check on the receiver's message never fails for an honest receiver.", "quantifier": "every seed OT result, choice vector, inputs, hash", "why_tests_cant": "2^k choice vectors and all randomness", "anchors": ["pkg/ot/extension/kos/kos.go"]}
{"id": "C29", "title": "GF(2^256) multiplication used by the OT extension", "statement": "The carry-less multiplication used in the KOS check is bilinear (distributes over xor in both arguments) and equals polynomial multiplication modulo X^256+X^10+X^5+X^2+1.", "quantifier": "all pairs of 256-bit strings", "why_tests_cant": "2^512 pairs", "anchors": ["pkg/ot/extension/kos/kos.go: binaryFieldMul"]}
{"id": "C30", "title": "DKLs multiplication", "statement": "The two-party multiplication outputs t_A, t_B with t_A + t_B = alpha*beta for honest parties, and Bob's consistency check passes.", "quantifier": "every alpha, beta, gadget vector, OT outputs", "why_tests_cant": "all scalars/randomness", "anchors": ["pkg/tecdsa/dkls/v1/sign/multiply.go"]}
{"id": "C31", "title": "DKLs signing yields a valid ECDSA signature", "statement": "If Alice and Bob run DKLs DKG and signing honestly, Round4Final returns (r,s) with s*k = H(m) + r*x for the joint key, i.e. the standard ECDSA equation holds (also after the sign flip), and Bob outputs it only after verifying it.", "quantifier": "every key shares, nonces, message", "why_tests_cant": "all randomness and messages", "anchors": ["pkg/tecdsa/dkls/v1/sign/sign.go", "pkg/tecdsa/dkls/v1/dkg/dkg.go"]}
{"id": "C32", "title": "DKLs S normalisation", "statement": "The S of an honest DKLs signing run is the ECDSA value s, replaced by q-s exactly when bit 255 of s is set, so S <= 2^255. Finding: this is not the low-S rule; for every s strictly between q/2 and 2^255 (a window of more than 2^126 values for secp256k1 and 2^222 for P-256, each reached by some digest) Bob's last round succeeds with S > q/2.", "quantifier": "every s", "why_tests_cant": "the affected window is hit with negligible probability in tests", "anchors": ["pkg/tecdsa/dkls/v1/sign/sign.go: Round4Final"]}
{"id": "C33", "title": "DKLs key refresh preserves the key", "statement": "After an honest refresh the product of the new secret key shares equals the product of the old ones, the public key is unchanged and a new seed OT is in place; otherwise an error is returned because the derived multiplier is zero or a hash output does not decode. Findings: the rounds are not atomic. With multiplier zero Bob's share is destroyed while his round succeeds; when Alice's third round fails on a bad OT proof her share has already changed, so a retry that succeeds leaves shares whose product is no longer the key.", "quantifier": "every shares and refresh multipliers", "why_tests_cant": "all scalars", "anchors": ["pkg/tecdsa/dkls/v1/refresh/refresh.go"]}
{"id": "C34", "title": "Protocol iterator discipline", "statement": "For every sequence of Next calls on a DKG/sign/refresh iterator, steps execute in order, a call that fails does not advance, and after the last step Next always reports ErrProtocolFinished and changes nothing; Result is nil before completion and the encoded output after. Finding: a refresh run with a version above 200 completes but its Result is always an error.", "quantifier": "every finite sequence of calls and step outcomes", "why_tests_cant": "unbounded histories", "anchors": ["pkg/tecdsa/dkls/v1/boilerplate.go: protoStepper"]}
{"id": "C35", "title": "GG20 MtA correctness", "statement": "In GG20's multiplicative-to-additive conversion, Alice's alpha and Bob's beta satisfy alpha + beta = a*b mod q whenever a*b + beta' < N.", "quantifier": "every Paillier key, a,b < q, randomness", "why_tests_cant": "all values", "anchors": ["pkg/tecdsa/gg20/proof/mta.go", "pkg/tecdsa/gg20/participant/round2.go", "pkg/tecdsa/gg20/participant/round3.go"]}
{"id": "C36", "title": "GG20 signing yields a valid ECDSA signature", "statement": "When all cosigners follow rounds 1-6 with additive shares of the key as computed by PrepareToSign from Shamir shares, every signer holds the same R = G/k and the combined (r,s) satisfies the ECDSA equation for the group key, s is at most q/2 after normalisation, and v is the parity of the recovered point; for x(R) below the order the signature passes standard verification. PrepareToSign's additive shares sum to the secret for every set of at least t signers with ids below 256. Honest executions exist whenever the proofs are accepted.", "quantifier": "every cosigner set, shares, nonces, message hash", "why_tests_cant": "all randomness", "anchors": ["pkg/tecdsa/gg20/participant/round1.go", "pkg/tecdsa/gg20/participant/round2.go", "pkg/tecdsa/gg20/participant/round3.go", "pkg/tecdsa/gg20/participant/round4.go", "pkg/tecdsa/gg20/participant/round5.go", "pkg/tecdsa/gg20/participant/round6.go"]}
{"id": "C37", "title": "GG20 output is not verified", "statement": "Users rely on SignOutput returning only valid signatures. Finding: a signer built by NewSigner returns a signature without error for every values sent by its cosigners; it verifies only if the point (s/s')R has the right x coordinate, and one cosigner can make every honest signer return a signature with s = 0.", "quantifier": "every honest transcript and every non-zero perturbation of one share", "why_tests_cant": "tests only run honest parties", "anchors": ["pkg/tecdsa/gg20/participant/participant.go: NewSigner", "pkg/tecdsa/gg20/participant/round6.go: SignOutput"]}
{"id": "C38", "title": "GG20 signing round discipline", "statement": "For every sequence of calls on a signer with arbitrary arguments, a round succeeds only when it is the current one and its input ids are exactly the cosigners; a success advances by one round and a failure does not change the round; hence the successful rounds are 1,2,..,6 in order, each at most once, and at most one nonce and one signature share are ever produced.", "quantifier": "every finite call sequence with arbitrary inputs", "why_tests_cant": "unbounded histories", "anchors": ["pkg/tecdsa/gg20/participant/participant.go: verifyStateMap", "pkg/tecdsa/gg20/participant/round6.go"]}
{"id": "C39", "title": "GG20 DKG", "statement": "In every run of the GG20 DKG in which all participants finish after exchanging their messages, all results hold the same public key G*s, s the sum of the drawn secrets, and the signing shares are the values at the ids of one polynomial of degree below t with constant term s, so any t of them determine s; such runs exist for all draws. Findings: the published per-participant public shares use j*(k+1) instead of j^k (for t=2 they are right only if participant 1's share is zero); a share addressed to any other id is accepted, and openings from a single other participant suffice.", "quantifier": "every n,t, polynomials", "why_tests_cant": "tests do not check public shares against secrets", "anchors": ["pkg/tecdsa/gg20/participant/dkg_round3.go: DkgRound3"]}
{"id": "C40", "title": "GG20 DKG round 3 retry", "statement": "A failed DkgRound3 call must be repeatable. The effect of a call is characterised for every outcome: the stored own share has the shares processed so far added. Finding: if the share of one participant first arrives altered, the repeated call with correct inputs succeeds with the same public key but a signing share that counts the shares of all participants preceding it in the map order twice.", "quantifier": "every call history and order of map iteration", "why_tests_cant": "depends on history and iteration order", "anchors": ["pkg/tecdsa/gg20/participant/dkg_round3.go: DkgRound3"]}
{"id": "C41", "title": "GG20 range proof bounds", "statement": "The range proof is relied on to bound the prover's secret. The verifiers' verdict is characterised for every proof computed by the prover's algorithm from any integer: it depends only on the size test s1 <= q^3. Finding: negative values pass the test, so every plaintext m in [0,N) has an accepted proof (computed from m-N), for the range proof, the MtA response proof and the PDL proof alike; the verified plaintext is not bounded at all. With a collision-free hash, two accepted proofs with the same challenge are about the same statement (curve, modulus, dealer parameters, ciphertexts, points) and reconstruct the same commitments.", "quantifier": "every proof values", "why_tests_cant": "integers unbounded", "anchors": ["pkg/tecdsa/gg20/proof/mta.go: Range1Proof.Verify"]}
{"id": "C42", "title": "Multi-scalar multiplication", "statement": "SumOfProducts returns sum_i k_i*P_i for equally long lists: K256, P256 and BLS12-381 (native 4-bit windows), BLS12-377 and Pallas (Pippenger, 6-bit windows; integer scalars count modulo 2^258). A point or scalar of another curve gives no point. Finding: lists of different lengths give nil, but for Pallas a non-nil Point holding a nil pointer (as does a foreign scalar); the empty sum is the identity, except that BLS12-377 panics on points[0].", "quantifier": "every list of points and of 32-byte or integer scalars, every group and every representation of its elements", "why_tests_cant": "unbounded lists and scalars", "anchors": ["pkg/core/curves/curve.go: sumOfProductsPippenger", "pkg/core/curves/native/point.go: SumOfProducts"]}
{"id": "C43", "title": "Windowed scalar multiplication", "statement": "Point.Mul (the 4-bit fixed window algorithm shared by K256, P256, Pallas and BLS12-381) returns the k-fold sum of the point, for every point and every k below 2^256, given the 32 little-endian bytes of k.", "quantifier": "every point, every 32-byte scalar encoding, every group and every representation of its elements", "why_tests_cant": "2^256 scalars", "anchors": ["pkg/core/curves/native/point.go: Mul"]}
{"id": "C44", "title": "Complete point addition", "statement": "Add and Double of K256, P256, BLS12-381 G1/G2 and Pallas points, Neg and Sub, compute the chord-and-tangent group law for every pair of curve points without exceptional cases (identity, doubling and inverse points included), for any odd-order curve of the family; Equal compares the affine points, IsOnCurve and ToAffine are exact. Findings: with the receiver equal to the second operand the native p.Add(q, p) returns 2q and p.Sub(q, p) the identity (the curves' wrappers never do this); IsOnCurve of the K256/P256 identity is false while that of BLS12-381 and Pallas is true.", "quantifier": "every pair of points on any curve of the family without a point of order two, every projective representation", "why_tests_cant": "2^512 pairs; exceptional cases are the classic bug", "anchors": ["pkg/core/curves/native/k256/point.go: Add, Double"]}
{"id": "C45", "title": "Scalar/field wide reduction and byte codec", "statement": "Field.SetBytesWide(b) is the little-endian value of the 64 bytes modulo the field order for the K256, P256 and Pasta fields and the BLS12-381 scalars; Bytes and BigInt return exactly the element's value; for K256, P256 and BLS12-381 scalars, Field.SetBytes accepts exactly the canonical 32-byte encodings, SetBytes and Bytes are mutually inverse and SetBigInt(z) is z modulo the order. Finding: the Pasta fields decide canonicity with a comparison that takes the sign bit of 64-bit limb differences. They accept every string whose top byte exceeds 0xC0 (none is canonical) and reject the canonical values that agree with the order above the lowest limb and are at least 2^63 below it there; SetBigInt silently leaves its receiver unchanged on those values. All other canonical strings are accepted exactly.", "quantifier": "every byte string of the fixed length, every field element, every integer", "why_tests_cant": "2^512 inputs", "anchors": ["pkg/core/curves/native/field.go: SetBytesWide, SetBytes, Bytes"]}
{"id": "C46", "title": "Scalar ordering", "statement": "Scalar.Cmp is relied on as numeric order. Finding: the K256, P256 and BLS12-381 scalar comparison orders elements by their Montgomery representations: it is an antisymmetric order that is 0 exactly on equal elements, but in each of these five fields there are a < b with Cmp(a, b) = 1. The Pasta comparison is 0 exactly on equal elements, decides by the sign of the first differing 64-bit limbs, and is not an order at all: it has cycles x < y < z < x.", "quantifier": "all pairs", "why_tests_cant": "2^512 pairs", "anchors": ["pkg/core/curves/native/field.go: Cmp"]}
{"id": "C47", "title": "Point decoding validates its input", "statement": "For K256 and P256, FromAffineCompressed errs exactly on a wrong length, a tag other than 02/03 or x not below the field order; an x with a curve point decodes to the point with the tag's parity, and every curve point survives compressed and uncompressed round trips; Point.Set(x, y) accepts exactly curve points modulo the order and (0, 0), which is the identity. Findings: an x without a curve point decodes, with nil error, to the identity; FromAffineUncompressed accepts every pair of canonical coordinates on or off the curve, e.g. (1,1); the identity encodes as 02 00..00, which decodes to the identity on K256 (7 is no square) but to a point with x = 0 on P256. Pallas decoding, compressed and uncompressed, checks the curve equation, but through the field decoder of C45: a point survives the compressed round trip exactly when x is outside that decoder's hole (an explicit curve point is refused), non-canonical strings decode to points that encode differently, and the identity's encoding does not decode.", "quantifier": "every byte string, every curve point in every projective representation, every pair of integers", "why_tests_cant": "2^520 inputs", "anchors": ["pkg/core/curves/k256_curve.go: FromAffineCompressed, FromAffineUncompressed, Set", "pkg/core/curves/p256_curve.go: FromAffineCompressed, FromAffineUncompressed, Set", "pkg/core/curves/pallas_curve.go: Ep.FromAffineCompressed, FromAffineUncompressed"]}
{"id": "C48", "title": "Scalar and point serialization", "statement": "Binary, text and JSON forms of a scalar of any of the eight curves decode to the same scalar, except the Pallas scalars in the decoder's hole (C45), which every form refuses; binary and JSON decoding accept exactly a known curve name with a valid encoding and never panic; text and binary decoding into a receiver of another scalar type err. The three forms of a point decode exactly as its compressed bytes do and never panic. Findings: scalar text is accepted when it spells at most 32 bytes and is then padded with zeros, so for every curve whose name has at least seven letters the text with its last two digits removed decodes to a different scalar (last byte zeroed); text spelling a 33rd byte panics; BLS12-377 accepts encodings of any length; two further names alias the G1 groups; JSON decoding of a pairing-curve scalar does not set the group, so a new receiver panics when next marshalled and an old one silently keeps its group.", "quantifier": "every curve, every scalar value, every byte string and text", "why_tests_cant": "unbounded strings", "anchors": ["pkg/core/curves/curve.go: scalarMarshalText, scalarUnmarshalText, scalarUnmarshalBinary, scalarUnmarshalJson, pointUnmarshalText, GetCurveByName", "pkg/core/curves/bls12381_curve.go: ScalarBls12381.UnmarshalJSON"]}
{"id": "C49", "title": "BBS+ sign/verify", "statement": "Verify accepts a BBS+ signature (A,e,s) exactly when A and the key are not the identity, there are between 1 and length messages and (e+x)A = g1 + s h0 + sum m_i h_i; every signature produced by Sign verifies for the same messages; blind issuance with any split into hidden and known messages, in any map order, followed by unblinding, verifies on all messages. Findings: a hidden index equal to the number of messages passes the index check and panics, and a context with a wrong number of responses makes the signer panic.", "quantifier": "every key, messages, generators, randomness", "why_tests_cant": "all message vectors", "anchors": ["pkg/signatures/bbs/secret_key.go: Sign", "pkg/signatures/bbs/public_key.go: Verify", "pkg/signatures/bbs/blind_signature_context.go"]}
{"id": "C50", "title": "BBS+ message generators are distinct", "statement": "Binding of each message to its position needs distinct generators. Finding: MessageGenerators.Get hashes the unmodified state, so all generators are equal and a signature on (m1,...,mn) also verifies for every permutation and every vector with the same sum.", "quantifier": "every hash function, key, message vectors", "why_tests_cant": "tests never verify permuted messages", "anchors": ["pkg/signatures/bbs/message_generators.go: Get"]}
{"id": "C51", "title": "BBS+ selective disclosure proof", "statement": "A proof generated from a valid signature verifies for the revealed messages, for every choice of hidden messages, every randomness and transcript prefix; two accepted proofs with the same commitments and different challenges yield a signature that verifies on the revealed messages completed by extracted ones (or a message vector whose commitment is the identity). Finding: a proof with too few responses makes the verifier panic.", "quantifier": "every signature, subset and randomness", "why_tests_cant": "2^n subsets", "anchors": ["pkg/signatures/bbs/pok_signature.go", "pkg/signatures/bbs/pok_signature_proof.go"]}
{"id": "C52", "title": "Accumulator membership witnesses", "statement": "Verify accepts a witness (C, y) for accumulator V under the key of alpha iff (y+alpha)*C = V and none of C, y, V and the key is zero. New succeeds iff V, alpha, y and y+alpha are non-zero and its witness verifies. After any sequence of Add, AddElements, Remove and Update calls that removes only members (no element being -alpha) every call has succeeded and the accumulator is prod(y+alpha)*P over the members with multiplicity. Finding: New involves no membership test, so it issues verifying witnesses for non-members; the element 0 can be added but never gets a witness.", "quantifier": "every element lists and key", "why_tests_cant": "unbounded sets/histories", "anchors": ["pkg/accumulator/accumulator.go", "pkg/accumulator/witness.go"]}
{"id": "C53", "title": "Accumulator batch updates", "statement": "After Update(additions, deletions), BatchUpdate with the published coefficients turns every valid witness of a non-deleted element into a valid witness of the new accumulator (the defect (y+alpha)C-V is multiplied by dA(y)/dD(y), so a witness of an element outside the batch is valid after iff it was before); for a deleted element it fails; MultiBatchUpdate over a history gives the same witness or error as applying the batches one by one, and keeps a witness valid over any history that does not delete its element. Finding: an Update with empty additions and deletions publishes no coefficients and BatchUpdate then panics; with a nil additions slice, which Update accepts, BatchUpdate always fails.", "quantifier": "every additions, deletions, history of batches", "why_tests_cant": "unbounded histories", "anchors": ["pkg/accumulator/key.go: CreateCoefficients", "pkg/accumulator/witness.go: BatchUpdate, MultiBatchUpdate, evaluateDelta, evaluateDeltas"]}
{"id": "C54", "title": "Accumulator membership proof completeness and soundness", "statement": "The values recomputed by Finalize from an honestly generated membership proof equal the committed ones iff c*((y+alpha)C - V) = 0, so for a valid witness the challenges agree for every randomness; two answers to different challenges that recompute to the same commitments determine (C, y) with (y+alpha)C = V; and equal challenges come from equal accumulators and commitments or from a hash collision. Finding: the proof verifies for y = 0, which Verify of a witness refuses.", "quantifier": "every witness, randomness, challenge", "why_tests_cant": "all scalars", "anchors": ["pkg/accumulator/proof.go"]}
{"id": "C55", "title": "Inner product argument completeness", "statement": "InnerProductProver.Prove on vectors of any power-of-two length (up to the number of generators) yields a proof; InnerProductVerifier.Verify on that proof accepts exactly the P equal to <a,G>+<b,H>+<a,b>u, whenever all challenges are non-zero. Other lengths are an error, never a panic. Verify accepts any proof exactly when it has as many Ls as Rs, enough generators exist, the challenges are non-zero and the folded equation holds with coefficients prod_j x_j^(+-1) given by the bits of the index; the two ways the verifier computes these coefficients agree.", "quantifier": "every length 2^k, vectors, generators, challenge oracle", "why_tests_cant": "unbounded lengths", "anchors": ["pkg/bulletproof/ipp_prover.go", "pkg/bulletproof/ipp_verifier.go"]}
{"id": "C56", "title": "Range proof completeness", "statement": "RangeProver.Prove for 0 <= v < 2^n (n a power of two >= 2, little-endian scalar encoding) yields a proof accepted by RangeVerifier.Verify, and an honestly made proof verifies only for v < 2^n. Findings: v = 2^n is accepted by Prove but its proof never verifies; on curves with big-endian scalar bytes (K256, P256, BLS12-381) no honest proof of a small non-zero value verifies; Prove panics for n = 1, negative n and n above the scalar's bits; Verify panics on a proof with fewer Rs than Ls.", "quantifier": "every v,n,randomness, challenge oracle", "why_tests_cant": "2^n values and all randomness", "anchors": ["pkg/bulletproof/range_prover.go", "pkg/bulletproof/range_verifier.go"]}
{"id": "C57", "title": "Batched range proof completeness", "statement": "BatchProve over m values in range (m >= 2, n*m a power of two) yields a proof accepted by VerifyBatched; in general the verdict on an honestly made proof is whether the z-weighted sum over the values equal to 2^n vanishes. Finding: a batch of a single value panics in both BatchProve and VerifyBatched.", "quantifier": "every m >= 2, n, values, randomness", "why_tests_cant": "unbounded", "anchors": ["pkg/bulletproof/range_batch_prover.go", "pkg/bulletproof/range_batch_verifier.go"]}
{"id": "C58", "title": "Camenisch-Shoup verifiable encryption", "statement": "For any group made from an odd modulus n, Decrypt returns every message Encrypt or EncryptAndProve encrypted, reduced mod n, so messages in [0,n) round-trip; a successful Decrypt of any ciphertext certifies v^2 = u^(2(x2+h x3)) and that each component encrypts the returned message; EncryptAndProve's proofs verify; with a collision-free hash the ciphertext tag binds u, all components and the domain, and the proof challenge binds nonce, key, ciphertext and commitments once the number of components is fixed. Findings: the challenge input carries no lengths, so a key with one more generator absorbs u; Encrypt also accepts m = n and negative m; the public ciphertext (n, n, e) passes all checks and makes Decrypt panic; VerifyEncryptProof checks only as many components as the proof has, so arbitrary components are accepted, and panics when the proof has more; marshalling a proof drops the sign of its (usually negative) responses; a response fixes the leading bits of the message; unmarshalling a group with an even modulus panics.", "quantifier": "every group, key, list of messages of any sign, randomness, hash function and ciphertext", "why_tests_cant": "all integers", "anchors": ["pkg/verenc/camshoup/encryption_key.go", "pkg/verenc/camshoup/decryption_key.go", "pkg/verenc/camshoup/proof_enc.go"]}
{"id": "C59", "title": "ElGamal verifiable encryption", "statement": "Homomorphic ElGamal decrypts to m*G and adding any number of ciphertexts decrypts to the sum; VerifiableEncrypt returns exactly the specified ciphertext and proof or an error; VerifiableDecrypt (with or without domain) inverts it and accepts exactly the consistent ciphertexts; honest proofs verify and two accepting proofs over the same commitments open the ciphertext. Findings: the proof masks the message with the encryption randomness, so a ciphertext with its proof reveals m*G to everyone and, without a domain, the whole plaintext; VerifiableEncrypt stores the randomness it draws in the caller's EncryptParams, so reusing the params reuses the randomness; proofs made with a domain verify with VerifyDomainEncryptProof only if the proof nonce equals the domain; an AEAD nonce longer than 12 bytes makes decryption panic.", "quantifier": "every key, message, randomness, hash function, ciphertext and proof", "why_tests_cant": "all scalars", "anchors": ["pkg/verenc/elgamal/encryption_key.go", "pkg/verenc/elgamal/decryption_key.go", "pkg/verenc/elgamal/proof_enc.go"]}
{"id": "C60", "title": "BLS signatures", "statement": "In the basic, augmented and proof-of-possession schemes, over either group order: Verify on a subgroup signature returns exactly whether s = sk H(m) (the identity signature, a nil message and off-subgroup points are errors), so signatures are unique and Sign output verifies; AggregateVerify returns exactly whether the messages are distinct and the signatures sum to the sum of sk_i H(m_i); aggregation of signatures or keys errs exactly on an empty list, a nil entry or a point outside the subgroup and is otherwise the sum, in any order; proofs of possession and multi-signatures are complete and need distinct domain tags. Findings: a message hashing to the identity yields a signature Verify refuses; usual Sign of the augmented scheme refuses the empty message which the tiny variant signs and both verify; without proofs of possession a rogue key forges a multi-signature; a nil key panics.", "quantifier": "every keys, messages, hash-to-curve, signer sets", "why_tests_cant": "unbounded", "anchors": ["pkg/signatures/bls/bls_sig/usual_bls_sig.go", "pkg/signatures/bls/bls_sig/usual_bls.go", "pkg/signatures/bls/bls_sig/tiny_bls_sig.go"]}
{"id": "C61", "title": "Mina signatures", "statement": "Mina signatures on messages and transactions made by SignMessage and SignTransaction verify; verification accepts exactly the Schnorr equation with even y on the Poseidon challenge and never panics on messages; two accepting answers to one commitment reveal the key; different typed transactions with memos up to 32 bytes have different hash inputs. Findings: the sponge does not pad, so a message and the same message followed by zero bytes (within the block) have the same signatures; memos that differ only after byte 32 have the same signatures; a network id above 2 makes signing and verifying panic.", "quantifier": "every key, message, transaction, signature, hash constants and field", "why_tests_cant": "infinitely many messages", "anchors": ["pkg/signatures/schnorr/mina/keys.go", "pkg/signatures/schnorr/mina/roinput.go", "pkg/signatures/schnorr/mina/bitvector.go"]}
{"id": "C62", "title": "Mina transaction codec", "statement": "Unmarshalling a marshalled transaction with a memo of at most 32 bytes gives it back; signatures and addresses round-trip. Findings: a memo of 33 to 117 bytes decodes to other bytes and one of 118 to 255 bytes makes UnmarshalBinary panic (exact panic set characterised for all inputs); encodings are not unique (version byte ignored, any flag byte but 1 means false, trailing bytes ignored); each key has 128 addresses with valid checksums; UnmarshalJSON fails on every input; DeriveChallenge uses MainNet whatever the transaction says.", "quantifier": "every transaction, byte string, key, signature and address", "why_tests_cant": "unbounded", "anchors": ["pkg/signatures/schnorr/mina/txn.go"]}
{"id": "C63", "title": "NEM Ed25519-Keccak signatures", "statement": "Every key made from a 32-byte seed signs every message and the signature verifies under its Public; the secret scalar is the clamped digest: 2^254 plus eight times the middle 251 bits of the first 32 digest bytes, modulo the order; Verify accepts exactly the canonical solutions of the Schnorr equation, returns an error or a boolean and never panics; a commitment has one accepted response per key and message. Findings: Sign trusts the public key stored in the private key, so two signatures of one message with the same seed and different stored keys reveal the secret scalar; keys of small order are accepted, and under the neutral key anyone can sign; Public and Seed panic on short keys.", "quantifier": "every seed, message, key, signature, hash function and group", "why_tests_cant": "unbounded messages", "anchors": ["pkg/signatures/schnorr/nem/ed25519_keccak.go"]}
{"id": "C64", "title": "HMAC DRBG reads", "statement": "NewHmacDrbg, Reseed and Read follow NIST SP 800-90A HMAC_DRBG: a Read whose length is a multiple of the hash size fills the whole destination with the NIST output and moves to the NIST state. Findings: Read panics for every other non-zero length; a zero-length Read does not update the state; the request counter is not reset by Reseed; entropy, nonce and personalisation are concatenated without separators, so different splits give the same generator.", "quantifier": "every HMAC function with fixed non-zero output size, seed, state and length", "why_tests_cant": "tests use multiples of the block size", "anchors": ["pkg/signatures/common/hmacdrbg.go: Read"]}
{"id": "C65", "title": "Transcript hash binds its inputs", "statement": "internal.Hash and core.FiatShamir, on two non-empty lists of fewer than 255^32 values, return the same output only if the lists are equal (FiatShamir: equal in absolute value) or a collision of the underlying KDF is exhibited; a nil value is an error and there is no panic. Finding: the sign of a FiatShamir argument is ignored.", "quantifier": "every two lists of byte strings / integers, every KDF with 32-byte output", "why_tests_cant": "collision freedom quantifies over all pairs of inputs of all lengths", "anchors": ["internal/hash.go: Hash, ByteSub", "pkg/core/hash.go: FiatShamir"]}
{"id": "C66", "title": "Message expansion conforms to RFC 9380", "statement": "ExpandMessageXmd returns exactly the requested number of bytes and equals expand_message_xmd of RFC 9380 for every tag of at most 255 bytes and every length from 1 to 255 hash blocks, and errors above. Findings: a requested length of 0 panics, and a tag of 256 bytes or more is accepted with a wrong length byte.", "quantifier": "every hash function, message, tag, length", "why_tests_cant": "tests compare a handful of vectors", "anchors": ["pkg/core/hash.go: ExpandMessageXmd, I2OSP, concat, xor"]}
{"id": "C67", "title": "DKLs multiplication consistency check", "statement": "Finding: the consistency check of the two-party multiplication does not detect every deviation. Its challenges are drawn from a transcript covering only the first 256 of the 672 correlation rows, so a sender can alter any later row after seeing the challenges, pass the receiver's check for every receiver choice, and shift the receiver's share exactly when the corresponding choice bit is set (a selective-failure leak).", "quantifier": "every honest transcript, every row from 256 on, every shift, every hash function", "why_tests_cant": "an adversarial message chosen after the challenge; tests only run honest parties", "anchors": ["pkg/tecdsa/dkls/v1/sign/multiply.go: Round2Multiply, Round3Multiply"]}
{"id": "C68", "title": "DKLs key generation and dealer", "statement": "In an honest DKG run both parties end with the same public key skA*skB*G, keep their own shares and hold the two halves of one seed OT, unless a hash output fails to decode as a scalar, in which case a round returns an error; there is no panic. The trusted dealer produces material of the same kind. Bob accepts at most one revealed statement per commitment, up to hash collisions.", "quantifier": "every randomness, hash function, transcript function", "why_tests_cant": "all random tapes; adversarial reveals", "anchors": ["pkg/tecdsa/dkls/v1/dkg/dkg.go: Round2CommitToProof, Round4VerifyAndReveal, Round5DecommitmentAndStartOt", "pkg/tecdsa/dkls/v1/dealer/dealer.go: GenerateAndDeal"]}
{"id": "C69", "title": "GG20 CDL proofs", "statement": "The proof of the Pedersen parameters (h2 = h1^x modulo N1) made by an honest participant verifies for every randomness and challenge function; a proof with fewer entries than challenge bits makes the verifier panic. Finding: the degenerate parameters h1 = h2 = 1 come with an accepted proof for every secret, so acceptance does not imply usable parameters.", "quantifier": "every modulus, generators, randomness, challenge function", "why_tests_cant": "all random tapes and all adversarial proofs", "anchors": ["pkg/tecdsa/gg20/proof/cdl.go"]}
{"id": "C70", "title": "BBS+ blind signatures issued for the same known messages", "statement": "A signer who issues two blind signatures relies on the holder obtaining only those two. Finding: ToBlindSignature derives e and s from the key, the generators and the known messages but not from the commitment, so two issuances with the same known messages share e and s and the holder can compute, without the signer, a signature that verifies on m + k(m - m') for every scalar k, m and m' the two message vectors.", "quantifier": "every key, hash function, nonce generator, contexts, known messages, blinding factors and scalar k", "why_tests_cant": "an adaptive attack over two issuances; tests issue once", "anchors": ["pkg/signatures/bbs/blind_signature_context.go: ToBlindSignature", "pkg/signatures/bbs/blind_signature.go: ToUnblinded"]}
{"id": "C71", "title": "BLS threshold signatures", "statement": "For every 2 <= t <= n <= 255, key and non-empty message, any t or more of the n key shares give partial signatures which CombineSignatures turns into exactly the signature Sign makes with the secret key. Equal identifiers, nil partials, points outside the subgroup and fewer than two partials are errors. Findings: identifier 0 is accepted and its partial replaces the result; fewer than t partials combine without an error into a different point; the empty message can be signed with the whole key but not with shares.", "quantifier": "every key, sharing polynomial, parameters, subset of shares in any order, message and hash-to-curve function", "why_tests_cant": "all subsets and orders of up to 255 shares, all polynomials", "anchors": ["pkg/signatures/bls/bls_sig/lib.go: thresholdizeSecretKey", "pkg/signatures/bls/bls_sig/usual_bls_sig.go: partialSign, combineSigs, splitXY", "pkg/signatures/bls/bls_sig/tiny_bls_sig.go: partialSignVt, combineSigsVt, splitXYVt"]}
{"id": "C72", "title": "BLS key encodings", "statement": "SecretKey.UnmarshalBinary accepts exactly the 32-byte big-endian encodings of 1..q-1 and inverts MarshalBinary; SecretKeyShare.UnmarshalBinary accepts exactly the non-zero 33-byte strings and inverts MarshalBinary on shares with a 32-byte value. Generate returns the big-endian HKDF output modulo q. Findings: a share with a longer value panics in MarshalBinary and a shorter one loses its identifier; Generate may return the zero key and writes a zero byte into the caller's buffer behind the key material when the slice has spare capacity.", "quantifier": "every byte string, share and key", "why_tests_cant": "all byte strings; slice capacity effects", "anchors": ["pkg/signatures/bls/bls_sig/lib.go: Generate, MarshalBinary, UnmarshalBinary"]}
{"id": "C73", "title": "Mina bit vectors", "statement": "Append, Set, Insert, Delete and Element of a Mina BitVector act as the corresponding list operations on the list of its bits, for every sequence of operations; NewBitVector exposes the bits of the bytes it is given; out-of-range indices panic, and so does Append on a vector whose declared length exceeds its bytes.", "quantifier": "every byte string, length, index and history of operations", "why_tests_cant": "unit tests try a few short vectors; the byte-shifting code has different behaviour for every offset, length and history", "anchors": ["pkg/signatures/schnorr/mina/bitvector.go"]}
{"id": "C74", "title": "Native field arithmetic is modular arithmetic", "statement": "Mul, Square, Add, Sub, Neg, Double, Exp and the conversions of the K256, P256 and Pasta base and scalar fields and of the BLS12-381 scalar field compute exactly the named operation modulo the published field order, for every pair of field elements; Equal, IsZero, IsOne and CMove are exact; Invert returns the inverse of every nonzero element and reports 0 without touching its output; Sqrt returns a square root exactly when one exists (its flag is 0 otherwise). Inversion and completeness of Sqrt assume the order is prime. Finding: Neg of the BLS12-381 scalar field masks on the difference instead of on its argument, so Neg(0) is the modulus itself, a stored form no residue has: IsZero and Equal deny that it is zero, Cmp puts it above zero and Invert of it reports success with value 0, while Bytes and BigInt read zero.", "quantifier": "every pair of field elements of the seven fields, every carry pattern of the generated limb code", "why_tests_cant": "2^512 operand pairs; wrong carries in Montgomery code show up with probability near 2^-64", "anchors": ["pkg/core/curves/native/field.go", "pkg/core/curves/native/k256/fp/secp256k1_fp.go", "pkg/core/curves/native/k256/fq/secp256k1_fq.go", "pkg/core/curves/native/p256/fp/p256_fp.go", "pkg/core/curves/native/p256/fq/p256_fq.go", "pkg/core/curves/native/pasta/fp/pasta_fp.go", "pkg/core/curves/native/pasta/fq/pasta_fq.go", "pkg/core/curves/native/bls12381/fq.go"]}
{"id": "C75", "title": "Two-party key generation: agreement, and who decides the key", "statement": "In two-party key generation (ids 1 and 2, threshold 2) an honest run makes both sides finish with the same public key, the base point times the sum of the two secrets, and with shares that interpolate to that sum; NewParticipant accepts exactly the ids 1 and 2 and a non-identity generator; the generator a message carries is not looked at, so honest sides with different generators fail in Round2 (unless a blinding share is 0). Finding: with two parties the second-round verifiers are checked only at the one share the sender chose itself, so the side that sends its second message last decides the public key: for every point T it can make the honest side finish with key T, for instance a key whose secret it knows.", "quantifier": "every pair of secrets, every randomness, every generator, every first message of the counterparty and every target key", "why_tests_cant": "an attack on the order of messages; tests run two honest sides", "anchors": ["pkg/dkg/gennaro2p/genarro2p.go", "pkg/dkg/gennaro/round1.go", "pkg/dkg/gennaro/round2.go", "pkg/dkg/gennaro/round3.go", "pkg/dkg/gennaro/round4.go"]}
{"id": "C76", "title": "BLS12-381 extension tower", "statement": "The extension fields under the BLS12-381 pairing (degree 2, 6 and 12) are computed exactly: Add, Sub, Neg, Mul make each a commutative ring generated over the previous one by u^2=-1, v^3=1+u, w^2=v; Square, Double, MulByNonResidue and the sparse products equal the plain products; Invert returns the inverse of every non-zero element and reports 0 without touching its output at zero; the degree-2 Sqrt returns a root of exactly the squares; FrobeniusMap with the published constants is a ring map with sixth power the conjugation. Findings: IsOne ignores the v^2 coefficient, so it holds exactly for the elements 1 + c v^2, not only for 1; CNeg with choice 0 leaves the receiver instead of copying the argument.", "quantifier": "every pair of field elements of the tower over any field with the stated non-residues; the literals over every field of the published characteristic", "why_tests_cant": "the elements are 12-tuples of 381-bit numbers; IsOne is only ever tried on one and on random values", "anchors": ["pkg/core/curves/native/bls12381/fp2.go", "pkg/core/curves/native/bls12381/fp6.go", "pkg/core/curves/native/bls12381/fp12.go"]}
{"id": "C77", "title": "Pairing target group", "statement": "FinalExponentiation of every non-zero value is the power t^((z-1)^2(z+p)(z^2+p^2-1)+3) with t = (conj(a)/a)^(p^2+1), is multiplicative, and lands where the shortcuts of the target group are right: on its values IsOne, Neg, Sub, Double and Square and the scalar wrapper's Add, Sub, Div, Neg, Square, Cube are exact; Invert is exact everywhere. Findings: Gt.Mul returns zero for every element and every scalar; for elements that are not pairing values (as SetBytes, Random and Hash return) Square, Cube, Neg, Sub and Div do not compute the named operation; FinalExponentiation of zero leaves the receiver.", "quantifier": "every element, every scalar, every parameter bit string and every constants satisfying the Frobenius relations", "why_tests_cant": "needs every element of a 4572-bit group; no test calls Gt.Mul", "anchors": ["pkg/core/curves/native/bls12381/gt.go", "pkg/core/curves/bls12381_curve.go"]}
{"id": "C78", "title": "BLS12-381 pairing engine", "statement": "The engine's Result over any list of added pairs is the product of the results of its parts, in any split; no pairs, or a pair with an identity, contribute one; negating either point of a pair conjugates its result, which is its inverse when non-zero; Check returns exactly whether the result is one (although it goes through IsOne), so adding a pair inverted and calling Check decides exactly whether the rest equals that pair's pairing. The result depends only on the affine points. Each step of the loop replaces the running curve point by its double or its sum with the base point, and its coefficients are the tangent or the chord through these points. The loop value is the conjugate of the product of all the lines, each squared once for every step from its own on, for every parameter. All accesses to the 68 precomputed coefficients are in range.", "quantifier": "every list of pairs of points on or off the curve, every projective representation, every field with the stated non-residues", "why_tests_cant": "products over unbounded lists of pairs of 381-bit coordinates; a wrong line coefficient can cancel on the tested generator", "anchors": ["pkg/core/curves/native/bls12381/pairings.go", "pkg/core/curves/native/bls12381/g1.go", "pkg/core/curves/native/bls12381/g2.go"]}
{"id": "C79", "title": "The legacy BLS12-381 G1 curve multiplies by the scalar it is given", "statement": "With sharing/v1 Bls12381G1(), curves.NewScalarBaseMult(curve, k) is k times the generator for every non-negative k, and EcPoint.ScalarMult(k) should be k times the point. Finding: EcPoint.ScalarMult multiplies by the number whose big-endian bytes are those of k mod n reversed (ScalarMult copies the big-endian bytes into a little-endian buffer without reversing them, ScalarBaseMult reverses them). On a point other than the identity the result is right exactly when the minimal byte string of k mod n is a palindrome: every k below 256 is right, 256 acts as 1, and scalars whose reversal is not below the group order panic on nil coordinates. Consequently Feldman.Verify over this curve is exact while all powers of the share identifier fit in one byte, and from identifier 16 and threshold 3 on it rejects the honest share and accepts another value.", "quantifier": "every group order below 2^256, every point of the subgroup, every non-negative scalar, every polynomial, identifier and share value", "why_tests_cant": "tests use small identifiers and thresholds, for which the scalars are single bytes and the reversal is invisible", "anchors": ["pkg/sharing/v1/bls12381g1curve.go: Bls12381G1Curve.ScalarMult, ScalarBaseMult", "pkg/core/curves/ec_point.go: EcPoint.ScalarMult, NewScalarBaseMult", "pkg/sharing/v1/feldman.go: Feldman.Verify", "internal/point.go: ReverseScalarBytes"]}
{"id": "C80", "title": "Encodings of BLS12-381 points", "statement": "For G1 and G2 of BLS12-381: every point of the subgroup and the identity survive the compressed and the uncompressed round trip, with 48/96 and 96/192 bytes. FromCompressed accepts exactly: the compressed flag with the infinity flag (the identity), or the compressed flag, canonical x (below the modulus), a y with y^2 = x^3 + b that passes the subgroup test and whose sign (y larger than -y as an integer; for G2 by the imaginary part, or the real part when that is 0) is the sort flag; such a string is unique for its point. FromUncompressed accepts exactly the infinity flag or canonical coordinates of a subgroup point. Neither panics. G1.Set(x, y) accepts exactly the points modulo p and (0,0), and undoes BigInt. Findings: under the infinity flag every other bit is ignored; the uncompressed form ignores the compressed and sort flags, so each point has four encodings; FromAffineCompressed/Uncompressed truncate longer and zero-pad shorter input, so the single byte C0 is the identity; G2.BigInt encodes a local zero value instead of the receiver, so it returns the same pair for every point and SetBigInt reads that pair as the identity; G2.SetBigInt panics on integers of more than 96 bytes.", "quantifier": "every byte string of the fixed length, every point, every appended string, every pair of integers", "why_tests_cant": "tests encode a few multiples of the generator; which strings are refused and how many strings denote one point are statements about all 2^384 or more inputs", "anchors": ["pkg/core/curves/native/bls12381/g1.go: ToCompressed, FromCompressed, ToUncompressed, FromUncompressed, SetBigInt, BigInt", "pkg/core/curves/native/bls12381/g2.go: ToCompressed, FromCompressed, ToUncompressed, FromUncompressed, SetBigInt, BigInt", "pkg/core/curves/native/bls12381/fp.go: SetBytes, Bytes, LexicographicallyLargest, Sqrt", "pkg/core/curves/bls12381_curve.go: FromAffineCompressed, FromAffineUncompressed"]}
{"id": "C81", "title": "Points over crypto/elliptic curves", "statement": "For the EcPoint type: IsIdentity, IsValid and Equals are exact (Equals: same curve and same integers); every point returned by Add, Neg, ScalarMult, NewScalarBaseMult and PointFromBytesUncompressed is on its curve or is (0,0), whatever the curve implementation returns; scalars act through their remainder modulo the order, negative ones too; PointFromBytesUncompressed accepts exactly the strings of the right length that encode such a point and inverts Bytes; MarshalBinary/UnmarshalBinary and the JSON forms round-trip; Neg maps (x,y) to (x,P-y) and undoes itself. Findings: UnmarshalBinary and UnmarshalJSON perform no curve check, so decoded points may be off the curve (JSON: also negative or missing coordinates, on which IsValid panics); UnmarshalBinary panics on fewer than 65 bytes; MarshalBinary panics on coordinates of 2^256 or more, i.e. on the larger supported curves; Neg of the identity is an error.", "quantifier": "every curve implementation, coordinate pair, scalar of any sign and byte string of any length", "why_tests_cant": "unbounded integers and byte strings, and all behaviours of a pluggable curve", "anchors": ["pkg/core/curves/ec_point.go EcPoint", "pkg/core/mod.go ConstantTimeEqByte", "internal/point.go CalcFieldSize"]}
{"id": "C82", "title": "Ed25519 as a v1 curve", "statement": "EcPoint operations over the v1 Ed25519 curve follow the group: sums, multiples by scalars of any size and sign, and base multiples are the encodings of the group results, results are valid, and Equals decides equality of points; this holds for every point except the one whose encoding is all zero. Findings: IsIdentity is false for the identity of the group and true for (0,0), which Add reads as the identity but Double and ScalarMult read as a point of order four, so (0,0)+(0,0) and 2*(0,0) differ; EcPoint.Neg never returns the negative of a point; the curve's own ScalarMult and ScalarBaseMult cut scalars longer than 32 bytes (2^256 acts as zero).", "quantifier": "every point of the group, every integer scalar, every scalar byte string, for every group with RFC 8032 style encodings", "why_tests_cant": "all group elements and unbounded scalars; the wrong cases are single points and scalar lengths", "anchors": ["pkg/sharing/v1/ed25519curve.go", "pkg/core/curves/ec_point.go", "internal/point.go BigInt2Ed25519Point", "internal/point.go BigInt2Ed25519Scalar"]}
{"id": "C83", "title": "Scalar arithmetic on big integers", "statement": "For the EcScalar implementations of secp256k1, P-256 and BLS12-381, and all integers x and y, Add, Sub, Neg and Mul return the representative below the group order of the named result, and Div the quotient whenever y is not a multiple of the order; for Ed25519 this holds for arguments in range. IsValid is membership in [0,n) and Bytes the 32-byte big-endian form. Findings: division by zero panics for secp256k1 and P-256, returns the dividend for BLS12-381 and zero for Ed25519; the Ed25519 methods read the absolute value modulo 2^256 instead of reducing, so negative arguments lose their sign, 2^256 counts as zero and the order itself panics, and the Ed25519 IsValid accepts every negative number.", "quantifier": "all integers, positive or negative, of any size, for every prime order", "why_tests_cant": "unbounded integers; the wrong cases are boundary values", "anchors": ["pkg/core/curves/ec_scalar.go", "internal/point.go BigInt2Ed25519Scalar", "pkg/core/mod.go In", "pkg/core/curves/native/field.go SetBigInt"]}
{"id": "C84", "title": "Hashing to a curve lands on the curve", "statement": "For every field element, the map used by Point.Hash of K256, P256 and BLS12-381 G1 (simplified SWU, 3 mod 4 variant) returns coordinates that satisfy the curve equation: on P-256 itself, on the 3-isogenous curve for K256 and on the 11-isogenous curve for G1; the second coordinate has the parity of the input unless it is zero. The K256 isogeny maps every point of its source curve to secp256k1 and its denominators never vanish there, so the map of K256 always lands on y^2 = x^3 + 7. The native and the BLS12-381 versions of the map are the same function. The constants are those in the source.", "quantifier": "every field element of a field of the published order, including the exceptional inputs", "why_tests_cant": "The exceptional inputs (0 and the roots of Zu^2 = -1) and a wrong branch occur with negligible probability in random tests, and no test covers all field elements.", "anchors": ["pkg/core/curves/native/osswu.go: Osswu3mod4", "pkg/core/curves/native/isogeny.go: Map", "pkg/core/curves/native/k256/point.go: Hash, k256PointSswuParams, k256PointIsogenyParams", "pkg/core/curves/native/p256/point.go: Hash, p256PointSswuParams", "pkg/core/curves/native/bls12381/g1.go: osswu3mod4"]}
{"id": "C85", "title": "Legacy curves are initialised when returned", "statement": "After any sequence of calls in any order, the curve returned by Bls12381G1() and Ed25519() of the v1 sharing package has its parameters, immediately and forever, and every call returns the same curve. Finding: Bls12381G2() returns the G1 curve, and with nil parameters until someone calls Bls12381G1(), so that reading the group order through it panics in exactly the histories without such a call.", "quantifier": "every history of calls before and after the one considered", "why_tests_cant": "The defect depends on which other constructors ran earlier in the process; a test binary that touches G1 anywhere hides it.", "anchors": ["pkg/sharing/v1/bls12381g1curve.go: Bls12381G1", "pkg/sharing/v1/bls12381g2curve.go: Bls12381G2", "pkg/sharing/v1/ed25519curve.go: Ed25519"]}
{"id": "C86", "title": "The G2 map stage of hashing lands on the curve", "statement": "Hashing to BLS12-381 G2 maps two field elements with the simplified SWU map. With the constants of the source, every non-zero element of fp2 goes to a point of y^2 = x^3 + 240i x + 1012(1+i), and the second coordinate has the sign of the input. Finding: the test for the exceptional input comes after one has been added, so the input 0 is not recognised and goes to (0, 0), which is not on the curve.", "quantifier": "every element of fp2, every sign function that negation flips, the field of the published prime order", "why_tests_cant": "The exceptional input 0 is not found by hashing test messages; the other inputs are about 2^762 field elements and need the argument that one of two candidates is a square.", "anchors": ["pkg/core/curves/native/bls12381/g2.go: (G2).sswu, Hash, sswuMapA, sswuMapB, sswuMapZ, sswuMapZInv, swwuMapMbDivA", "pkg/core/curves/native/bls12381/fp2.go: Sgn0, Sqrt, CNeg"]}
