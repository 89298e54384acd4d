{
 "claims": [
  {
   "property": "C01",
   "status": "proved",
   "theorems": [
    "C01_shamir_reconstruct",
    "C01_shamir_split_total"
   ],
   "note": "Model: Sharing/Model. Proof: Lagrange interpolation over mathcomp polynomials; Split's output is the evaluation of the drawn polynomial. Theorems in Sharing/Props.v."
  },
  {
   "property": "C02",
   "status": "proved",
   "theorems": [
    "C02_shamir_secrecy"
   ],
   "note": "Model: Sharing/Model. Proof: bijection between coefficient choices and share values (Lagrange uniqueness). Theorems in Sharing/Props.v."
  },
  {
   "property": "C03",
   "status": "proved",
   "theorems": [
    "C03_combine_validation",
    "C03_new_shamir",
    "C03_zero_share_refuted"
   ],
   "note": "Model: Sharing/Model. Proof: case analysis of every check in Combine; the accepted set is given by an independent predicate. Theorems in Sharing/Props.v."
  },
  {
   "property": "C04",
   "status": "proved",
   "theorems": [
    "C04_feldman_exact",
    "C04_feldman_complete"
   ],
   "note": "Model: Sharing/Model. Proof: Horner/commitment evaluation by induction, injectivity of k -> kG. Theorems in Sharing/Props.v."
  },
  {
   "property": "C05",
   "status": "proved",
   "theorems": [
    "C05_pedersen_complete",
    "C05_pedersen_binding",
    "C05_pedersen_blind_id_ignored",
    "C05_new_pedersen_nil_panics"
   ],
   "note": "Model: Sharing/Model. Proof: algebra on the Pedersen equation, explicit discrete log. Theorems in Sharing/Props.v."
  },
  {
   "property": "C06",
   "status": "proved",
   "theorems": [
    "C06_lagrange_coeffs"
   ],
   "note": "Model: Sharing/Model. Proof: Lagrange basis identity. Theorems in Sharing/Props.v."
  },
  {
   "property": "C07",
   "status": "proved",
   "theorems": [
    "C07_v1_reconstruct",
    "C07_v1_same_integer",
    "C07_v1_ignores_rest",
    "C07_v1_duplicate_err",
    "C07_v1_feldman_exact"
   ],
   "note": "Model: SharingV1/Model. Proof: interpolation, loop invariants of collect/interpolate over the first t shares. Theorems in SharingV1/Props.v."
  },
  {
   "property": "C08",
   "status": "proved",
   "theorems": [
    "C08_gennaro_agreement"
   ],
   "note": "Model: Gennaro/Model. Proof: state machine of rounds 1-4; invariant over the processing order; sum of polynomials. Theorems in Gennaro/Props.v."
  },
  {
   "property": "C09",
   "status": "proved",
   "theorems": [
    "C09_gennaro_public_shares_refuted"
   ],
   "note": "Model: Gennaro/Model. Proof: exact value of the published W_j; counter-run for all n >= t >= 2. Theorems in Gennaro/Props.v."
  },
  {
   "property": "C10",
   "status": "proved",
   "theorems": [
    "C10_frost_dkg_agreement",
    "C10_frost_dkg_partial_view"
   ],
   "note": "Model: Frost/DkgModel. Proof: state machine, sum of polynomials; divergence run. Theorems in Frost/PropsDkg.v."
  },
  {
   "property": "C11",
   "status": "proved",
   "theorems": [
    "C11_frost_round2_checks",
    "C11_frost_wrong_point_accepted_refuted",
    "C11_gennaro_round2_checks",
    "C11_gennaro_round3_checks",
    "C11_gennaro_wrong_point_accepted_refuted"
   ],
   "note": "Model: Gennaro/Model, Frost/DkgModel. Proof: inversion of a successful round over arbitrary inputs; accepting run with a foreign identifier. Theorems in Frost/PropsDkg.v, Gennaro/Props.v."
  },
  {
   "property": "C12",
   "status": "proved",
   "theorems": [
    "C12_frost_pok_checked",
    "C12_frost_pok_special_sound",
    "C12_frost_context_collision_refuted",
    "C12_frost_context_exact",
    "C12_frost_id_truncated"
   ],
   "note": "Model: Frost/DkgModel. Proof: exact acceptance equation, special soundness, parsing of the context string. Theorems in Frost/PropsDkg.v."
  },
  {
   "property": "C13",
   "status": "proved",
   "theorems": [
    "C13_frost_sign_correct",
    "C13_frost_negative_R_fails"
   ],
   "note": "Model: Frost/SignModel. Proof: algebra over the Lagrange weights; exact condition on IsNegative. Theorems in Frost/PropsSign.v."
  },
  {
   "property": "C14",
   "status": "proved",
   "theorems": [
    "C14_frost_round3_sound",
    "C14_frost_blame",
    "C14_frost_culprit_not_identified_refuted"
   ],
   "note": "Model: Frost/SignModel. Proof: inversion of SignRound3 for arbitrary messages; explicit bad VkShare. Theorems in Frost/PropsSign.v."
  },
  {
   "property": "C15",
   "status": "proved",
   "theorems": [
    "C15_frost_rounds_once",
    "C15_frost_nonce_single_use",
    "C15_frost_nonces_erased"
   ],
   "note": "Model: Frost/SignModel. Proof: invariant over arbitrary call histories. Theorems in Frost/PropsSign.v."
  },
  {
   "property": "C16",
   "status": "proved",
   "theorems": [
    "C16_ted_vss_exact",
    "C16_ted_vss_small_ids",
    "C16_ted_vss_id16_refuted"
   ],
   "note": "Model: Ted/Model. Proof: byte-level model of the buffer; value of big-endian bytes read little-endian. Theorems in Ted/Props.v."
  },
  {
   "property": "C17",
   "status": "proved",
   "theorems": [
    "C17_ted_threshold_sign_correct",
    "C17_ted_shared_key_public_key",
    "C17_ted_plain_sign_verify",
    "C17_ted_zero_share_panics",
    "C17_ted_bad_partial_undetected"
   ],
   "note": "Model: Ted/Model. Proof: Lagrange weights, Ed25519 equation; panic case. Theorems in Ted/Props.v."
  },
  {
   "property": "C18",
   "status": "proved",
   "theorems": [
    "C18_schnorr_complete",
    "C18_schnorr_verify_exact",
    "C18_schnorr_special_sound",
    "C18_schnorr_session_binding"
   ],
   "note": "Model: Schnorr/Model. Proof: algebra. Theorems in Schnorr/Props.v."
  },
  {
   "property": "C19",
   "status": "proved",
   "theorems": [
    "C19_schnorr_hash_range",
    "C19_schnorr_refused_count"
   ],
   "note": "Model: Schnorr/Model. Proof: exact failure set of SetBytes; counting of 32-byte strings. Theorems in Schnorr/Props.v."
  },
  {
   "property": "C20",
   "status": "proved",
   "theorems": [
    "C20_paillier_decrypt_encrypt",
    "C20_paillier_bad_nonce"
   ],
   "note": "Model: Paillier/Model. Proof: Carmichael/Euler, (1+N)^m = 1+mN mod N^2. Theorems in Paillier/Props.v."
  },
  {
   "property": "C21",
   "status": "proved",
   "theorems": [
    "C21_paillier_homomorphic",
    "C21_paillier_homomorphic_all"
   ],
   "note": "Model: Paillier/Model. Proof: same, for arbitrary accepted ciphertexts. Theorems in Paillier/Props.v."
  },
  {
   "property": "C22",
   "status": "proved",
   "theorems": [
    "C22_paillier_input_checks",
    "C22_paillier_decrypt_domain",
    "C22_equal_primes_refuted"
   ],
   "note": "Model: Paillier/Model. Proof: exact accepted sets. Theorems in Paillier/Props.v."
  },
  {
   "property": "C23",
   "status": "proved",
   "theorems": [
    "C23_psf_complete",
    "C23_candidate_range",
    "C23_challenges_in_range",
    "C23_psf_sound",
    "C23_psf_short_proof_panics",
    "C23_challenges_ignore_modulus"
   ],
   "note": "Model: Paillier/Model. Proof: orders in the unit group, residue characterisation. Theorems in Paillier/Props.v."
  },
  {
   "property": "C24",
   "status": "proved",
   "theorems": [
    "C24_add_mul_neg",
    "C24_exp",
    "C24_inv",
    "C24_exp_nil_without_error",
    "C24_in_and_equality",
    "C24_rand"
   ],
   "note": "Model: Core/ModModel. Proof: Z arithmetic, extended Euclid. Theorems in Core/PropsMod.v."
  },
  {
   "property": "C25",
   "status": "proved",
   "theorems": [
    "C25_commit_opens",
    "C25_commit_binding",
    "C25_open_errors"
   ],
   "note": "Model: Core/HashModel. Proof: HMAC unfolded to the hash; collision extraction. Theorems in Core/PropsHash.v."
  },
  {
   "property": "C26",
   "status": "proved",
   "theorems": [
    "C26_i2osp",
    "C26_i2osp_truncates"
   ],
   "note": "Model: Core/HashModel. Proof: positional notation over byte lists. Theorems in Core/PropsHash.v."
  },
  {
   "property": "C27",
   "status": "proved",
   "theorems": [
    "C27_ot_correct",
    "C27_ot_transfer",
    "C27_ot_choice_hidden",
    "C27_ot_acceptance",
    "C27_ot_short_messages_panic"
   ],
   "note": "Model: OT/SimplestModel. Proof: algebra, all choice bits. Theorems in OT/PropsSimplest.v."
  },
  {
   "property": "C28",
   "status": "proved",
   "theorems": [
    "C28_cot_correct",
    "C28_cot_complete",
    "C28_cot_tamper",
    "C28_seed_from_base_ot"
   ],
   "note": "Model: OT/KosModel. Proof: xor algebra on bit matrices, for all sizes. Theorems in OT/PropsKos.v."
  },
  {
   "property": "C29",
   "status": "proved",
   "theorems": [
    "C29_gf_mul_product",
    "C29_gf_mul_ring",
    "C29_gf_mul_field"
   ],
   "note": "Model: OT/GfModel. Proof: 64-bit word loops against polynomials over F_2. Theorems in OT/PropsGf.v."
  },
  {
   "property": "C30",
   "status": "proved",
   "theorems": [
    "C30_multiply_correct",
    "C30_multiply_complete"
   ],
   "note": "Model: Dkls/MulModel. Proof: sums over the gadget vector. Theorems in Dkls/PropsMul.v."
  },
  {
   "property": "C31",
   "status": "proved",
   "theorems": [
    "C31_sign_correct",
    "C31_sign_checked",
    "C31_sign_complete"
   ],
   "note": "Model: Dkls/SignModel. Proof: ECDSA equation through the shares; inversion of Round4. Theorems in Dkls/PropsSign.v."
  },
  {
   "property": "C32",
   "status": "proved",
   "theorems": [
    "C32_sign_s_value",
    "C32_low_s_refuted",
    "C32_window"
   ],
   "note": "Model: Dkls/SignModel. Proof: exact set of s, windows computed for the two orders. Theorems in Dkls/PropsSign.v."
  },
  {
   "property": "C33",
   "status": "proved",
   "theorems": [
    "C33_refresh_correct",
    "C33_refresh_not_atomic_refuted"
   ],
   "note": "Model: Dkls/DkgModel. Proof: algebra and state after failures. Theorems in Dkls/PropsDkg.v."
  },
  {
   "property": "C34",
   "status": "proved",
   "theorems": [
    "C34_iterator",
    "C34_refresh_version_refuted"
   ],
   "note": "Model: Dkls/DkgModel. Proof: induction over arbitrary sequences of Next calls. Theorems in Dkls/PropsDkg.v."
  },
  {
   "property": "C35",
   "status": "proved",
   "theorems": [
    "C35_mta_correct",
    "C35_mta_wraps"
   ],
   "note": "Model: Gg20/SignModel. Proof: Paillier homomorphism in Z, exact wrap condition. Theorems in Gg20/PropsSign.v."
  },
  {
   "property": "C36",
   "status": "proved",
   "theorems": [
    "C36_prepare_signers",
    "C36_runs_exist",
    "C36_sign_correct"
   ],
   "note": "Model: Gg20/SignModel. Proof: whole six-round run for any signer set; ECDSA equation. Theorems in Gg20/PropsPrepare.v, Gg20/PropsRun.v, Gg20/PropsSign.v."
  },
  {
   "property": "C37",
   "status": "proved",
   "theorems": [
    "C37_new_signer",
    "C37_output_any_sum",
    "C37_output_verified_refuted"
   ],
   "note": "Model: Gg20/SignModel. Proof: for all messages of the cosigners; explicit attack. Theorems in Gg20/PropsPrepare.v, Gg20/PropsSign.v."
  },
  {
   "property": "C38",
   "status": "proved",
   "theorems": [
    "C38_step",
    "C38_rounds_once_in_order"
   ],
   "note": "Model: Gg20/SignModel. Proof: induction over arbitrary call histories. Theorems in Gg20/PropsRounds.v."
  },
  {
   "property": "C39",
   "status": "proved",
   "theorems": [
    "C39_dkg_correct",
    "C39_public_shares",
    "C39_public_shares_refuted",
    "C39_wrong_recipient_refuted",
    "C39_runs_exist"
   ],
   "note": "Model: Gg20/DkgModel. Proof: whole run, sum of polynomials; exact published shares. Theorems in Gg20/PropsDkg.v, Gg20/PropsDkg2.v."
  },
  {
   "property": "C40",
   "status": "proved",
   "theorems": [
    "C40_round3_effect",
    "C40_retry_refuted"
   ],
   "note": "Model: Gg20/DkgModel. Proof: effect of a failed call for every outcome. Theorems in Gg20/PropsDkg2.v."
  },
  {
   "property": "C41",
   "status": "proved",
   "theorems": [
    "C41_range1_binding",
    "C41_range2_binding",
    "C41_pdl_binding",
    "C41_range1_verdict",
    "C41_range1_prove",
    "C41_range1_bounds_nothing_refuted",
    "C41_range2_verdict",
    "C41_range2_bounds_nothing_refuted",
    "C41_pdl_verdict"
   ],
   "note": "Model: Gg20/ZkModel. Proof: exact verdict on prover-made proofs from any integer; transcript binding. Theorems in Gg20/PropsBind.v, Gg20/PropsZk.v."
  },
  {
   "property": "C42",
   "status": "proved",
   "theorems": [
    "C42_native",
    "C42_pippenger",
    "C42_pippenger_reduced",
    "C42_pallas",
    "C42_length_mismatch_refuted",
    "C42_empty",
    "C42_foreign"
   ],
   "note": "Model: Curves/MsmModel. Proof: loop invariants for both algorithms against the sum of multiples. Theorems in Curves/PropsMsm.v."
  },
  {
   "property": "C43",
   "status": "proved",
   "theorems": [
    "C43_mul",
    "C43_mul_scalar"
   ],
   "note": "Model: Curves/MsmModel. Proof: loop invariant over the 64 windows. Theorems in Curves/PropsMsm.v."
  },
  {
   "property": "C44",
   "status": "proved",
   "theorems": [
    "C44_k256_add",
    "C44_p256_add",
    "C44_k256_double",
    "C44_p256_double",
    "C44_bls_add",
    "C44_bls_double",
    "C44_mul3b",
    "C44_neg",
    "C44_bls_neg_valid",
    "C44_sub",
    "C44_alias_refuted",
    "C44_equal",
    "C44_on_curve",
    "C44_bls_on_curve",
    "C44_to_affine",
    "C44_pallas_double",
    "C44_pallas_add",
    "C44_pallas_equal",
    "C44_pallas_on_curve"
   ],
   "note": "Model: Curves/AddModel. Proof: chord-and-tangent specification (AddSpec), RCB formulas over any field without 2-torsion. Theorems in Curves/PropsAdd.v."
  },
  {
   "property": "C45",
   "status": "proved",
   "theorems": [
    "C45_set_bytes_wide",
    "C45_bytes",
    "C45_set_bytes_canonical",
    "C45_round_trip",
    "C45_set_bigint",
    "C45_pasta_set_bytes",
    "C45_pasta_canonical",
    "C45_pasta_round_trip_refuted",
    "C45_pasta_set_bigint",
    "C45_pasta_noncanonical_accepted"
   ],
   "note": "Model: Limbs/FieldModel. Proof: limb code verified by a checker proved sound (Checker, Elim); exact accepted sets. Theorems in Limbs/PropsCodec.v."
  },
  {
   "property": "C46",
   "status": "proved",
   "theorems": [
    "C46_native_order",
    "C46_numeric_order_refuted",
    "C46_pasta_order",
    "C46_pasta_cycle"
   ],
   "note": "Model: Limbs/FieldModel. Proof: exact comparison functions, cycles by witness. Theorems in Limbs/PropsCodec.v."
  },
  {
   "property": "C47",
   "status": "proved",
   "theorems": [
    "C47_compressed_decode",
    "C47_compressed_round_trip",
    "C47_uncompressed_decode",
    "C47_uncompressed_round_trip",
    "C47_uncompressed_on_curve_refuted",
    "C47_identity_encoding",
    "C47_k256_identity_round_trip",
    "C47_p256_identity_round_trip_refuted",
    "C47_set",
    "C47_pallas_compressed_decode",
    "C47_pallas_uncompressed_decode",
    "C47_pallas_compressed_round_trip",
    "C47_pallas_round_trip_refuted",
    "C47_pallas_unique_encoding_refuted",
    "C47_pallas_identity_round_trip_refuted"
   ],
   "note": "Model: Limbs/PointModel. Proof: square roots (RootProofs), exact decoders. Theorems in Limbs/PropsPoint.v."
  },
  {
   "property": "C48",
   "status": "proved",
   "theorems": [
    "C48_round_trip",
    "C48_pallas_round_trip_refuted",
    "C48_text_accepted",
    "C48_text_panics",
    "C48_overlong_text_refuted",
    "C48_truncated_text_refuted",
    "C48_full_length_text",
    "C48_binary_accepted",
    "C48_json_accepted",
    "C48_receiver",
    "C48_json_group_refuted",
    "C48_points",
    "C48_points_accepted",
    "C48_point_round_trip"
   ],
   "note": "Model: Limbs/TextModel. Proof: exact accepted sets of the binary/text/JSON forms. Theorems in Limbs/PropsText.v."
  },
  {
   "property": "C49",
   "status": "proved",
   "theorems": [
    "C49_verify_iff",
    "C49_sign_verify",
    "C49_blind_issuance",
    "C49_blind_index_refuted",
    "C49_blind_proof_count_refuted"
   ],
   "note": "Model: Bbs/Model. Proof: bilinear algebra, all splits and map orders. Theorems in Bbs/Props.v."
  },
  {
   "property": "C50",
   "status": "proved",
   "theorems": [
    "C50_generators_equal_refuted",
    "C50_binding_refuted",
    "C50_permutation_refuted"
   ],
   "note": "Model: Bbs/Model. Proof: equality of all generators, forged vectors. Theorems in Bbs/Props.v."
  },
  {
   "property": "C51",
   "status": "proved",
   "theorems": [
    "C51_pok_complete",
    "C51_sig_pok_iff",
    "C51_short_proof_refuted",
    "C51_special_soundness"
   ],
   "note": "Model: Bbs/Model. Proof: completeness for every transcript, special soundness extractor. Theorems in Bbs/Props.v."
  },
  {
   "property": "C52",
   "status": "proved",
   "theorems": [
    "C52_verify_iff",
    "C52_new_verifies",
    "C52_history"
   ],
   "note": "Model: Accum/Model. Proof: induction over histories of updates, product formula. Theorems in Accum/Props.v."
  },
  {
   "property": "C53",
   "status": "proved",
   "theorems": [
    "C53_update_exact",
    "C53_update_valid",
    "C53_deleted_fails",
    "C53_update_iff",
    "C53_empty_update_refuted",
    "C53_nil_slice_refuted",
    "C53_multi_update",
    "C53_multi_history"
   ],
   "note": "Model: Accum/Model. Proof: polynomial identities dA, dD, induction over batches. Theorems in Accum/Props.v."
  },
  {
   "property": "C54",
   "status": "proved",
   "theorems": [
    "C54_proof_exact",
    "C54_proof_complete",
    "C54_special_soundness",
    "C54_zero_element_refuted",
    "C54_challenge_binding",
    "C54_proof_binds_accumulator"
   ],
   "note": "Model: Accum/Model. Proof: algebra and special soundness; transcript binding. Theorems in Accum/Props.v, Accum/PropsBind.v."
  },
  {
   "property": "C55",
   "status": "proved",
   "theorems": [
    "C55_honest_exact",
    "C55_complete",
    "C55_bad_lengths",
    "C55_coefficients_agree",
    "C55_verify_iff"
   ],
   "note": "Model: Bulletproof/Model. Proof: induction on halving; bit-indexed coefficients. Theorems in Bulletproof/Props.v."
  },
  {
   "property": "C56",
   "status": "proved",
   "theorems": [
    "C56_honest_exact",
    "C56_complete",
    "C56_upper_bound_refuted",
    "C56_big_endian_refuted",
    "C56_prove_panics",
    "C56_verify_panics"
   ],
   "note": "Model: Bulletproof/Model. Proof: polynomial identity t(x); exact verdict for every value. Theorems in Bulletproof/Props.v."
  },
  {
   "property": "C57",
   "status": "proved",
   "theorems": [
    "C57_honest_exact",
    "C57_complete",
    "C57_single_value_refuted"
   ],
   "note": "Model: Bulletproof/Model. Proof: same, z-weighted. Theorems in Bulletproof/Props.v."
  },
  {
   "property": "C58",
   "status": "proved",
   "theorems": [
    "C58_decrypt_encrypt",
    "C58_roundtrip",
    "C58_range_check_refuted",
    "C58_encrypt_rejects",
    "C58_decrypt_sound",
    "C58_decrypt_panics",
    "C58_proof_complete",
    "C58_unproved_components_refuted",
    "C58_long_proof_panics",
    "C58_proof_codec_iff",
    "C58_response_sign",
    "C58_response_leaks",
    "C58_group_roundtrip",
    "C58_even_modulus_panics",
    "C58_group_hash_binding",
    "C58_group_hash_refuses",
    "C58_challenge_binding",
    "C58_challenge_lengths_refuted"
   ],
   "note": "Model: Verenc/CsModel. Proof: integers modulo n^2, signs and transcripts. Theorems in Verenc/PropsCs.v, Verenc/PropsCsBind.v."
  },
  {
   "property": "C59",
   "status": "proved",
   "theorems": [
    "C59_hom_decrypt",
    "C59_hom_sum",
    "C59_hom_sum_plain",
    "C59_hct_decrypt_agrees",
    "C59_encrypt_iff",
    "C59_decrypt_encrypt",
    "C59_decrypt_encrypt_domain",
    "C59_decrypt_iff",
    "C59_long_nonce_panics",
    "C59_verify_iff",
    "C59_proof_complete",
    "C59_domain_verdict",
    "C59_domain_complete",
    "C59_domain_refuted",
    "C59_special_soundness",
    "C59_proof_leaks_point",
    "C59_proof_leaks_plaintext_refuted",
    "C59_params_reuse_refuted",
    "C59_rejects"
   ],
   "note": "Model: Verenc/ElgModel. Proof: module algebra, special soundness. Theorems in Verenc/PropsElg.v."
  },
  {
   "property": "C60",
   "status": "proved",
   "theorems": [
    "C60_public_key",
    "C60_verify_exact",
    "C60_verify_rejects",
    "C60_sign_verify",
    "C60_unique",
    "C60_aug_sign_verify",
    "C60_aggregate_exact",
    "C60_aggregate_complete",
    "C60_aug_aggregate_exact",
    "C60_pop_complete",
    "C60_fast_aggregate_exact",
    "C60_multisig_complete",
    "C60_rogue_key",
    "C60_aggregate_exact",
    "C60_aggregate_perm",
    "C60_pop_tags"
   ],
   "note": "Model: Bls/Model. Proof: pairing algebra, off-subgroup points included. Theorems in Bls/Props.v, Bls/PropsAgg.v."
  },
  {
   "property": "C61",
   "status": "proved",
   "theorems": [
    "C61_verify_iff",
    "C61_verify_no_panic",
    "C61_sign_verify",
    "C61_sign_no_panic",
    "C61_sign_errors",
    "C61_special_soundness",
    "C61_zero_suffix_refuted",
    "C61_zero_suffix_cases",
    "C61_nonce_input_injective",
    "C61_txn_sign_verify",
    "C61_unknown_network_panics",
    "C61_txn_binding",
    "C61_long_memo_refuted"
   ],
   "note": "Model: Mina/Model. Proof: random-oracle input lists, sponge, Schnorr algebra. Theorems in Mina/Props.v, Mina/PropsTxn.v."
  },
  {
   "property": "C62",
   "status": "proved",
   "theorems": [
    "C62_marshal_unmarshal",
    "C62_roundtrip",
    "C62_long_memo_refuted",
    "C62_memo_panics",
    "C62_unmarshal_cases",
    "C62_version_ignored",
    "C62_flag_bytes",
    "C62_trailing_ignored",
    "C62_derive_challenge_mainnet",
    "C62_derive_challenge_network",
    "C62_signature_roundtrip",
    "C62_address_roundtrip",
    "C62_address_malleable",
    "C62_json_always_fails"
   ],
   "note": "Model: Mina/Model. Proof: byte codecs, base58 check. Theorems in Mina/PropsCodec.v."
  },
  {
   "property": "C63",
   "status": "proved",
   "theorems": [
    "C63_verify_iff",
    "C63_verify_no_panic",
    "C63_sign_verify",
    "C63_errors",
    "C63_unique_response",
    "C63_foreign_public_key_leaks",
    "C63_neutral_key_accepts_all",
    "C63_short_key_panics",
    "C63_secret_clamped"
   ],
   "note": "Model: Nem/Model. Proof: abelian group with cofactor, clamping arithmetic. Theorems in Nem/Props.v."
  },
  {
   "property": "C64",
   "status": "proved",
   "theorems": [
    "C64_instantiate",
    "C64_seed_split_refuted",
    "C64_reseed",
    "C64_read_exact",
    "C64_read_panics_refuted",
    "C64_read_fills"
   ],
   "note": "Model: Drbg/Model. Proof: loop over the output blocks against SP 800-90A. Theorems in Drbg/Props.v."
  },
  {
   "property": "C65",
   "status": "proved",
   "theorems": [
    "C65_hash_binding",
    "C65_fiat_shamir_binding",
    "C65_fiat_shamir_sign_ignored",
    "C65_hash_errors",
    "C65_prefixes_distinct"
   ],
   "note": "Model: Core/HashModel. Proof: injective framing, collision extraction. Theorems in Core/PropsHash.v."
  },
  {
   "property": "C66",
   "status": "proved",
   "theorems": [
    "C66_expand_xmd_rfc",
    "C66_expand_xmd_limits"
   ],
   "note": "Model: Core/HashModel. Proof: block loop against RFC 9380. Theorems in Core/PropsHash.v."
  },
  {
   "property": "C67",
   "status": "proved",
   "theorems": [
    "C67_multiply_check_refuted"
   ],
   "note": "Model: Dkls/MulModel. Proof: explicit deviating sender for every row and choice. Theorems in Dkls/PropsMul.v."
  },
  {
   "property": "C68",
   "status": "proved",
   "theorems": [
    "C68_dkg_correct",
    "C68_dkg_commitment_binding",
    "C68_dealer_correct"
   ],
   "note": "Model: Dkls/DkgModel. Proof: honest run, commitment binding. Theorems in Dkls/PropsDkg.v."
  },
  {
   "property": "C69",
   "status": "proved",
   "theorems": [
    "C69_cdl_complete",
    "C69_cdl_degenerate_refuted",
    "C69_cdl_short_panics"
   ],
   "note": "Model: Gg20/ZkModel. Proof: bitwise loop, degenerate parameters. Theorems in Gg20/PropsZk.v."
  },
  {
   "property": "C70",
   "status": "proved",
   "theorems": [
    "C70_blind_nonce_reuse_refuted"
   ],
   "note": "Model: Bbs/Model. Proof: linear combination of two issuances. Theorems in Bbs/Props.v."
  },
  {
   "property": "C71",
   "status": "proved",
   "theorems": [
    "C71_combine_exact",
    "C71_threshold_complete",
    "C71_identifier_zero_refuted",
    "C71_too_few_not_detected",
    "C71_combine_rejects",
    "C71_empty_message_refuted",
    "C71_thresholdize_iff",
    "C71_aug_partial"
   ],
   "note": "Model: Bls/Model. Proof: Lagrange in the exponent. Theorems in Bls/Props.v."
  },
  {
   "property": "C72",
   "status": "proved",
   "theorems": [
    "C72_share_roundtrip",
    "C72_share_unmarshal_iff",
    "C72_share_length_refuted",
    "C72_secret_key_iff",
    "C72_secret_key_roundtrip",
    "C72_generate_exact"
   ],
   "note": "Model: Bls/Model. Proof: byte codecs, slice aliasing. Theorems in Bls/Props.v."
  },
  {
   "property": "C73",
   "status": "proved",
   "theorems": [
    "C73_append",
    "C73_element",
    "C73_history",
    "C73_new",
    "C73_append_panics"
   ],
   "note": "Model: Mina/BitModel. Proof: refinement of byte operations to list operations. Theorems in Mina/PropsBits.v."
  },
  {
   "property": "C74",
   "status": "proved",
   "theorems": [
    "C74_representation",
    "C74_ring",
    "C74_bls_neg_zero_refuted",
    "C74_bls_select",
    "C74_conversions",
    "C74_tests",
    "C74_exp",
    "C74_invert",
    "C74_pasta_invert",
    "C74_sqrt",
    "C74_pasta_sqrt"
   ],
   "note": "Model: Limbs/*Code, FieldModel, ChainCode, FieldInst. Proof: transcribed limb programs, symbolic checker proved sound, hand proof of the BLS12-381 scalar limbs, Fermat for Invert/Sqrt. Theorems in Limbs/PropsField.v."
  },
  {
   "property": "C75",
   "status": "proved",
   "theorems": [
    "C75_2p_new",
    "C75_2p_agreement",
    "C75_2p_generators",
    "C75_2p_key_unbiased_refuted"
   ],
   "note": "Model: Gennaro/TwoModel. Proof: honest run from C08; explicit attacking message. Theorems in Gennaro/PropsTwo.v."
  },
  {
   "property": "C76",
   "status": "proved",
   "theorems": [
    "C76_fp2",
    "C76_fp6",
    "C76_fp12",
    "C76_invert",
    "C76_isone_refuted",
    "C76_equal",
    "C76_cneg_refuted",
    "C76_sqrt",
    "C76_frobenius"
   ],
   "note": "Model: Tower/TowerModel, Literals. Proof: ring tactic at each level over an abstract field; norms for Invert; Fermat in fp2 for Sqrt; literals checked in Z. Theorems in Tower/PropsTower.v."
  },
  {
   "property": "C77",
   "status": "proved",
   "theorems": [
    "C77_literals",
    "C77_final_exponentiation",
    "C77_outputs",
    "C77_other_elements_refuted",
    "C77_mul_refuted",
    "C77_invert"
   ],
   "note": "Model: Tower/TowerModel. Proof: closed form of the addition chain on cyclotomic elements; explicit counterexamples. Theorems in Tower/PropsGt.v."
  },
  {
   "property": "C78",
   "status": "proved",
   "theorems": [
    "C78_product",
    "C78_check",
    "C78_miller",
    "C78_sign",
    "C78_equality_test",
    "C78_representation",
    "C78_steps",
    "C78_indices"
   ],
   "note": "Model: Tower/PairModel. Proof: induction over pairs and parameter bits; ring for the step formulas; Example over F_19. Theorems in Tower/PropsPair.v."
  },
  {
   "property": "C79",
   "status": "proved",
   "theorems": [
    "C79_base_mult",
    "C79_scalar_mult_reversed",
    "C79_scalar_mult_right_iff",
    "C79_scalar_mult_refuted",
    "C79_scalar_mult_panics",
    "C79_feldman_small",
    "C79_feldman_refuted"
   ],
   "note": "Model: bls12381g1curve.go ScalarMult and ScalarBaseMult, EcPoint.ScalarMult, NewScalarBaseMult and Feldman.Verify over the order-n subgroup as a module (SharingV1/BlsModel.v). Proof: byte-string lemmas on reversal; exact multiplier; induction over the commitments. Theorems in SharingV1/PropsBls.v."
  },
  {
   "property": "C80",
   "status": "proved",
   "theorems": [
    "C80_round_trip",
    "C80_g1_exact",
    "C80_g2_exact",
    "C80_canonical_refuted",
    "C80_g2_bigint_refuted",
    "C80_g1_bigint"
   ],
   "note": "Model: Tower/CodecModel: fp/fp2 byte forms, Sqrt, sign, G1/G2 codecs over the prime field of the modulus; subgroup test a parameter. Proof: codec proofs over an abstract coordinate ring, instantiated; square roots by Fermat; integral domain from -1 being a non-square. Theorems in Tower/PropsCodec.v."
  },
  {
   "property": "C81",
   "status": "proved",
   "theorems": [
    "C81_predicates",
    "C81_valid_results",
    "C81_scalar_reduced",
    "C81_from_bytes_exact",
    "C81_bytes_round_trip",
    "C81_binary_round_trip",
    "C81_unmarshal_binary_exact",
    "C81_decoded_valid_refuted",
    "C81_json_round_trip",
    "C81_neg"
   ],
   "note": "Model: Curves/EcPointModel. Proof: case analysis over outcomes; big-endian arithmetic lemmas; divisibility for Neg; Example over five toy curves. Theorems in Curves/PropsEcPoint.v."
  },
  {
   "property": "C82",
   "status": "proved",
   "theorems": [
    "C82_group",
    "C82_identity_refuted",
    "C82_neg_refuted",
    "C82_raw_scalar",
    "C82_coordinates"
   ],
   "note": "Model: SharingV1/EdModel over Curves/EcPointModel. Proof: byte arithmetic and reduction lemmas; parity argument for Neg; Example over a group of order twelve. Theorems in SharingV1/PropsEd.v."
  },
  {
   "property": "C83",
   "status": "proved",
   "theorems": [
    "C83_weierstrass",
    "C83_bls",
    "C83_ed25519",
    "C83_ed25519_refuted",
    "C83_valid",
    "C83_div_zero_refuted"
   ],
   "note": "Model: Curves/EcScalarModel. Proof: modular arithmetic over int; Bezout and Fermat for Div; Example modulo 13. Theorems in Curves/PropsEcScalar.v."
  },
  {
   "property": "C84",
   "status": "proved",
   "theorems": [
    "C84_map",
    "C84_p256",
    "C84_k256",
    "C84_isogeny",
    "C84_g1"
   ],
   "note": "Model: Curves/SswuModel, SswuParams. Proof: field identities and Euler's criterion over an abstract finite field of 3 mod 4 elements; the constants are checked by computation on binary numbers (SswuConst, SswuIso: polynomial identity of the isogeny, non-square at its pole); Example over seven elements. Theorems in Curves/PropsSswu.v."
  },
  {
   "property": "C85",
   "status": "proved",
   "theorems": [
    "C85_initialised",
    "C85_g2_refuted"
   ],
   "note": "Model: SharingV1/InitModel. Proof: induction over call histories on the package state. Theorems in SharingV1/PropsInit.v."
  },
  {
   "property": "C86",
   "status": "proved",
   "theorems": [
    "C86_map",
    "C86_zero_refuted"
   ],
   "note": "Model: Tower/SswuG2Model (over TowerModel). Proof: squares of fp2 through the norm and Euler's criterion, the SWU identity by ring, the constants by computation on binary numbers; Sqrt by C76. Theorems in Tower/PropsSswuG2.v."
  }
 ]
}