{
 "claims": [
  {
   "property": "C01",
   "status": "proved",
   "theorems": [
    "C01_pairing_inner_product",
    "C01_schedule_independent"
   ],
   "note": ""
  },
  {
   "property": "C02",
   "status": "proved",
   "theorems": [
    "C02_pairing_outcome",
    "C02_multiexp_outcome",
    "C02_scalar_outcome"
   ],
   "note": ""
  },
  {
   "property": "C03",
   "status": "proved",
   "theorems": [
    "C03_pairing_bilinear",
    "C03_multiexp_bilinear",
    "C03_scalar_bilinear"
   ],
   "note": ""
  },
  {
   "property": "C04",
   "status": "proved",
   "theorems": [
    "C04_product_of_pairings_with_coeffs",
    "C04_product_of_pairings"
   ],
   "note": ""
  },
  {
   "property": "C05",
   "status": "proved",
   "theorems": [
    "C05_pedersen",
    "C05_afgho_g1",
    "C05_afgho_g2",
    "C05_identity"
   ],
   "note": ""
  },
  {
   "property": "C06",
   "status": "proved",
   "theorems": [
    "C06_pedersen",
    "C06_afgho_g1",
    "C06_afgho_g2",
    "C06_identity"
   ],
   "note": ""
  },
  {
   "property": "C07",
   "status": "proved",
   "theorems": [
    "C07_pedersen",
    "C07_afgho_g1",
    "C07_afgho_g2",
    "C07_identity_perfectly_binding"
   ],
   "note": ""
  },
  {
   "property": "C08",
   "status": "proved",
   "theorems": [
    "C08_pedersen",
    "C08_afgho_g1",
    "C08_afgho_g2",
    "C08_identity",
    "C08_setups_total",
    "C08_gipa_setup"
   ],
   "note": ""
  },
  {
   "property": "C09",
   "status": "proved",
   "theorems": [
    "C09_gipa_complete",
    "C09_gipa_complete_live",
    "C09_pairing_instance",
    "C09_multiexp_instance",
    "C09_scalar_instance"
   ],
   "note": ""
  },
  {
   "property": "C10",
   "status": "proved",
   "theorems": [
    "C10_prove_ok_sound",
    "C10_wrong_value",
    "C10_mismatched_lengths",
    "C10_not_power_of_two",
    "C10_wrong_commitment"
   ],
   "note": ""
  },
  {
   "property": "C11",
   "status": "proved",
   "theorems": [
    "C11_malformed_keys",
    "C11_answer_means_log_rounds",
    "C11_wrong_rounds_panic"
   ],
   "note": ""
  },
  {
   "property": "C12",
   "status": "proved",
   "theorems": [
    "C12_accepts_iff_group",
    "C12_accepts_iff_identity"
   ],
   "note": ""
  },
  {
   "property": "C13",
   "status": "proved",
   "theorems": [
    "C13_same_challenges"
   ],
   "note": ""
  },
  {
   "property": "C14",
   "status": "proved",
   "theorems": [
    "C14_folded_keys",
    "C14_folded_messages"
   ],
   "note": ""
  },
  {
   "property": "C15",
   "status": "proved",
   "theorems": [
    "C15_logarithmic"
   ],
   "note": ""
  },
  {
   "property": "C16",
   "status": "proved",
   "theorems": [
    "C16_round_bytes_injective",
    "C16_fixed_length_encodings",
    "C16_identity_output"
   ],
   "note": ""
  },
  {
   "property": "C17",
   "status": "partial",
   "theorems": [
    "C17_challenges_ignore_statement",
    "C17_forged_value_refuted",
    "C17_forged_commitment_refuted",
    "C17_bind_rounds_partial",
    "C17_forging_program_refuted"
   ],
   "note": "The property as users expect it is refuted: challenges are independent of the statement, and for every honest proof other claimed values and commitments are accepted (theorems _refuted; C17_forging_program_refuted gives the program). Proved part: the challenges bind the round commitments (C17_bind_rounds_partial). Missing: binding of the statement, which the code does not do."
  },
  {
   "property": "C18",
   "status": "proved",
   "theorems": [
    "C18_special_sound_group",
    "C18_special_sound_identity",
    "C18_pairing_instance",
    "C18_multiexp_instance",
    "C18_scalar_instance"
   ],
   "note": ""
  },
  {
   "property": "C19",
   "status": "partial",
   "theorems": [
    "C19_unique_group",
    "C19_unique_identity_partial",
    "C19_trailing_elements_refuted"
   ],
   "note": "Proved for commitments with group outputs (C19_unique_group). For IdentityCommitment it is refuted (trailing elements are ignored); C19_unique_identity_partial proves uniqueness among outputs of one element."
  },
  {
   "property": "C20",
   "status": "proved",
   "theorems": [
    "C20_gipa_first_usable",
    "C20_gipa_challenge_shape",
    "C20_rand_first_decodable",
    "C20_fuel_irrelevant"
   ],
   "note": ""
  },
  {
   "property": "C21",
   "status": "proved",
   "theorems": [
    "C21_setup_structure",
    "C21_setup_succeeds",
    "C21_size_zero",
    "C21_keys"
   ],
   "note": ""
  },
  {
   "property": "C22",
   "status": "proved",
   "theorems": [
    "C22_tipa_complete",
    "C22_tipa_complete_live",
    "C22_pairing_instance",
    "C22_multiexp_instance",
    "C22_scalar_instance"
   ],
   "note": ""
  },
  {
   "property": "C23",
   "status": "proved",
   "theorems": [
    "C23_tipa_complete_shift",
    "C23_tipa_complete_shift_live",
    "C23_shift_commitment"
   ],
   "note": ""
  },
  {
   "property": "C24",
   "status": "proved",
   "theorems": [
    "C24_coefficients"
   ],
   "note": ""
  },
  {
   "property": "C25",
   "status": "proved",
   "theorems": [
    "C25_g2_check",
    "C25_g1_check",
    "C25_openings_accepted"
   ],
   "note": ""
  },
  {
   "property": "C26",
   "status": "proved",
   "theorems": [
    "C26_wrong_key_g2",
    "C26_wrong_key_g1",
    "C26_few_trapdoors",
    "C26_few_points"
   ],
   "note": ""
  },
  {
   "property": "C27",
   "status": "partial",
   "theorems": [
    "C27_sizes_from_two_partial",
    "C27_size_one_refuted"
   ],
   "note": "Refuted at size 1: setup succeeds, prove panics for every message (C27_size_one_refuted). C27_sizes_from_two_partial proves the property for all other powers of two."
  },
  {
   "property": "C28",
   "status": "proved",
   "theorems": [
    "C28_structured_scalar_power",
    "C28_structured_generators"
   ],
   "note": ""
  },
  {
   "property": "C29",
   "status": "proved",
   "theorems": [
    "C29_gssm_complete",
    "C29_gssm_complete_live",
    "C29_multiexp_instance"
   ],
   "note": ""
  },
  {
   "property": "C30",
   "status": "proved",
   "theorems": [
    "C30_tssm_complete",
    "C30_tssm_complete_live",
    "C30_multiexp_instance"
   ],
   "note": ""
  },
  {
   "property": "C31",
   "status": "proved",
   "theorems": [
    "C31_final_scalar",
    "C31_zero_challenge",
    "C31_is_prover_fold"
   ],
   "note": ""
  },
  {
   "property": "C32",
   "status": "proved",
   "theorems": [
    "C32_kzg_complete",
    "C32_too_large"
   ],
   "note": ""
  },
  {
   "property": "C33",
   "status": "proved",
   "theorems": [
    "C33_acceptance",
    "C33_two_openings",
    "C33_one_evaluation_per_proof"
   ],
   "note": ""
  },
  {
   "property": "C34",
   "status": "proved",
   "theorems": [
    "C34_bivariate_complete",
    "C34_bivariate_complete_live"
   ],
   "note": ""
  },
  {
   "property": "C35",
   "status": "proved",
   "theorems": [
    "C35_bivariate_evaluation"
   ],
   "note": ""
  },
  {
   "property": "C36",
   "status": "proved",
   "theorems": [
    "C36_embedding",
    "C36_overlong"
   ],
   "note": ""
  },
  {
   "property": "C37",
   "status": "partial",
   "theorems": [
    "C37_exact_partial",
    "C37_degrees_partial",
    "C37_degree_zero_refuted",
    "C37_rounding_refuted"
   ],
   "note": "Proved for 1 <= d < 2^52 (C37_degrees_partial). Refuted at d = 0 (division by zero panics, C37_degree_zero_refuted) and at d = 2^52 (rounding to a double, C37_rounding_refuted). C37_exact_partial: for every 1 <= d < 2^64 - 1 exactly which degrees are covered; only those with 4^k < d + 1 < 4^k + 1.5 * 4^(k-26), k >= 26, are not. Nothing is missing except the refuted cases."
  },
  {
   "property": "C38",
   "status": "proved",
   "theorems": [
    "C38_univariate_complete",
    "C38_univariate_complete_live"
   ],
   "note": ""
  },
  {
   "property": "C39",
   "status": "partial",
   "theorems": [
    "C39_dropped_coefficients_refuted",
    "C39_commitment_value_partial",
    "C39_binding_partial",
    "C39_transparent_dropped_refuted"
   ],
   "note": "Refuted: coefficients beyond the capacity are dropped without an error, in both schemes (theorems _refuted). C39_commitment_value_partial and C39_binding_partial prove the property for polynomials within the capacity."
  },
  {
   "property": "C40",
   "status": "proved",
   "theorems": [
    "C40_setup",
    "C40_bivariate_complete",
    "C40_bivariate_complete_live",
    "C40_univariate_complete",
    "C40_univariate_complete_live"
   ],
   "note": ""
  },
  {
   "property": "C41",
   "status": "proved",
   "theorems": [
    "C41_groth16_complete",
    "C41_groth16_complete_live"
   ],
   "note": ""
  },
  {
   "property": "C42",
   "status": "partial",
   "theorems": [
    "C42_other_inputs_refuted",
    "C42_accept_iff_partial",
    "C42_invalid_inputs_accepted_refuted",
    "C42_honest_aggregate_partial"
   ],
   "note": "Refuted: the challenge is not bound to the public inputs, so every aggregate proof gets the same answer for other inputs (C42_other_inputs_refuted), and the aggregate of valid proofs is accepted for inputs for which two of them are invalid (C42_invalid_inputs_accepted_refuted). Proved part: exactly what acceptance means (C42_accept_iff_partial, C42_honest_aggregate_partial). Missing: soundness for the given inputs, which the code does not provide."
  },
  {
   "property": "C43",
   "status": "proved",
   "theorems": [
    "C43_few_challenges"
   ],
   "note": ""
  },
  {
   "property": "C44",
   "status": "partial",
   "theorems": [
    "C44_verify_one_refuted",
    "C44_verify_zero_refuted",
    "C44_verify_partial",
    "C44_aggregate_partial",
    "C44_honest_one_refuted",
    "C44_aggregate_zero_refuted"
   ],
   "note": "Refuted at r = 1 (verify divides by zero) and r = 0 (aggregate unwraps None; verify never answers). Proved for the other challenges (C44_verify_partial for every proof with at least one round and fitting rows, C44_aggregate_partial)."
  },
  {
   "property": "C45",
   "status": "proved",
   "theorems": [
    "C45_prove",
    "C45_complete"
   ],
   "note": ""
  },
  {
   "property": "C46",
   "status": "proved",
   "theorems": [
    "C46_few_bad_challenges",
    "C46_sound"
   ],
   "note": ""
  },
  {
   "property": "C47",
   "status": "proved",
   "theorems": [
    "C47_verify_equation"
   ],
   "note": ""
  },
  {
   "property": "C48",
   "status": "proved",
   "theorems": [
    "C48_verify_outcome",
    "C48_prove_validates"
   ],
   "note": ""
  },
  {
   "property": "C49",
   "status": "partial",
   "theorems": [
    "C49_length_one_refuted",
    "C49_short_coefficients_refuted",
    "C49_provable_is_verifiable_partial"
   ],
   "note": "Refuted at length 1 for all inputs (C49_length_one_refuted) and for fewer coefficients than elements (C49_short_coefficients_refuted): prove returns a proof, verify panics. C49_provable_is_verifiable_partial proves the property for at least two elements and enough coefficients."
  },
  {
   "property": "C50",
   "status": "proved",
   "theorems": [
    "C50_seed_binding",
    "C50_transcript_binding",
    "C50_challenges"
   ],
   "note": ""
  },
  {
   "property": "C51",
   "status": "proved",
   "theorems": [
    "C51_state_is_hash_chain",
    "C51_draws_do_not_matter",
    "C51_seed_absorb",
    "C51_state",
    "C51_outputs"
   ],
   "note": ""
  },
  {
   "property": "C52",
   "status": "partial",
   "theorems": [
    "C52_extra_elements_refuted",
    "C52_malformed_not_accepted_partial",
    "C52_malformed_panics_refuted",
    "C52_row_count_refuted"
   ],
   "note": "Refuted: trailing elements of rows other than the first are ignored, the number of rows is not compared with the number of proofs, and malformed rows panic instead of being rejected. C52_malformed_not_accepted_partial: missing rows, a wrong first row and short rows are never accepted."
  },
  {
   "property": "C53",
   "status": "proved",
   "theorems": [
    "C53_tipa_accepts_iff_group",
    "C53_tipa_accepts_iff_identity",
    "C53_pairing_instance"
   ],
   "note": ""
  },
  {
   "property": "C54",
   "status": "proved",
   "theorems": [
    "C54_tssm_accepts_iff",
    "C54_multiexp_instance"
   ],
   "note": ""
  },
  {
   "property": "C55",
   "status": "proved",
   "theorems": [
    "C55_gssm_accepts_iff",
    "C55_multiexp_instance"
   ],
   "note": ""
  },
  {
   "property": "C56",
   "status": "proved",
   "theorems": [
    "C56_right_keys_sound",
    "C56_right_keys_complete",
    "C56_algebraic_soundness"
   ],
   "note": ""
  },
  {
   "property": "C57",
   "status": "partial",
   "theorems": [
    "C57_tipa_no_rounds_refuted",
    "C57_tssm_no_rounds_refuted",
    "C57_tipa_zero_shift_refuted",
    "C57_tipa_partial",
    "C57_tssm_partial"
   ],
   "note": "Refuted: every proof without rounds panics in both verifiers, and the shift 0 is never answered (theorems _refuted). C57_tipa_partial and C57_tssm_partial: all other proofs get a boolean answer, unless no usable nonce is found (Loop)."
  },
  {
   "property": "C58",
   "status": "proved",
   "theorems": [
    "C58_bivariate_accepts_iff",
    "C58_univariate_accepts_iff"
   ],
   "note": ""
  },
  {
   "property": "C59",
   "status": "proved",
   "theorems": [
    "C59_transparent_accepts_iff",
    "C59_transparent_univariate_accepts_iff"
   ],
   "note": ""
  },
  {
   "property": "C60",
   "status": "proved",
   "theorems": [
    "C60_groth16_accepts_iff",
    "C60_outputs_determined",
    "C60_other_inputs_iff"
   ],
   "note": ""
  },
  {
   "property": "C61",
   "status": "partial",
   "theorems": [
    "C61_bivariate_forged_refuted",
    "C61_univariate_forged_refuted",
    "C61_transparent_forged_refuted",
    "C61_transparent_univariate_forged_refuted",
    "C61_one_value_per_proof_partial",
    "C61_same_row_commitment_partial",
    "C61_transparent_one_value_per_proof_partial"
   ],
   "note": "Refuted in all four schemes by the programs of Forger.v (theorems _forged_refuted). Proved part: one proof is accepted for at most one value, and two openings with the same y_eval_comm to different values give g / (alpha - y). Missing: binding of the value across proofs, which the code does not provide."
  },
  {
   "property": "C62",
   "status": "proved",
   "theorems": [
    "C62_batch_accepts_iff",
    "C62_batch_complete",
    "C62_no_bases_panics"
   ],
   "note": ""
  },
  {
   "property": "C63",
   "status": "partial",
   "theorems": [
    "C63_inputs_without_proof_refuted",
    "C63_no_proofs_refuted",
    "C63_forged_refuted",
    "C63_single_proof_partial",
    "C63_few_scalars_partial"
   ],
   "note": "Refuted: batch_forger makes accepted proofs for any two or more rows of inputs from public data (C63_forged_refuted), and rows without a proof are unchecked. Proved part: exact for a single proof (C63_single_proof_partial); with all other scalars fixed, an invalid proof passes for at most one value of its scalar (C63_few_scalars_partial). Missing: soundness for the scalars of the fixed seed, which the code does not provide."
  },
  {
   "property": "C64",
   "status": "proved",
   "theorems": [
    "C64_inner_products",
    "C64_gipa",
    "C64_tipa",
    "C64_poly_commit"
   ],
   "note": ""
  },
  {
   "property": "C65",
   "status": "partial",
   "theorems": [
    "C65_scaling_example_partial",
    "C65_size_one_refuted",
    "C65_large_refuted"
   ],
   "note": "Refuted for log_min = 0 (C65_size_one_refuted) and for log_max >= 31 (C65_large_refuted). Proved for 1 <= log_min, log_max < 31 (C65_scaling_example_partial) under the hypothesis that no challenge is 0."
  },
  {
   "property": "C66",
   "status": "partial",
   "theorems": [
    "C66_numbers",
    "C66_numerals",
    "C66_help",
    "C66_scaling_help_refuted",
    "C66_poly_commit",
    "C66_scaling",
    "C66_groth16_partial",
    "C66_monolithic_refuted",
    "C66_one_argument_refuted",
    "C66_not_a_number"
   ],
   "note": "Refuted: C66_monolithic_refuted, C66_scaling_help_refuted, C66_one_argument_refuted. Proved: numbers, help of the two benchmarks, poly_commit and scaling arguments, and exactly what the Groth16 benchmark reads (C66_groth16_partial)."
  },
  {
   "property": "C67",
   "status": "proved",
   "theorems": [
    "C67_gipa_roundtrip",
    "C67_gipa_canonical",
    "C67_gipa_size",
    "C67_tipa_roundtrip",
    "C67_tipa_canonical",
    "C67_tssm_roundtrip",
    "C67_tssm_canonical",
    "C67_identity_output",
    "C67_placeholder",
    "C67_placeholder_keys"
   ],
   "note": ""
  },
  {
   "property": "C68",
   "status": "proved",
   "theorems": [
    "C68_example_snark_error",
    "C68_bench_snark_error",
    "C68_aggregate_sizes",
    "C68_example_sizes",
    "C68_bench_sizes",
    "C68_example_complete",
    "C68_bench_complete"
   ],
   "note": ""
  },
  {
   "property": "C69",
   "status": "partial",
   "theorems": [
    "C69_pairing_forged_refuted",
    "C69_multiexp_forged_refuted",
    "C69_ssm_forged_refuted",
    "C69_special_sound_partial"
   ],
   "note": "Refuted for every prover-chosen proof: C69_pairing_forged_refuted, C69_multiexp_forged_refuted, C69_ssm_forged_refuted give an explicit forging program. Proved part: special soundness from a tree of accepted TIPA proofs whose final keys are the folded ones (C69_special_sound_partial). Missing: soundness of a single proof, which the code does not provide."
  },
  {
   "property": "C70",
   "status": "proved",
   "theorems": [
    "C70_statement",
    "C70_shape",
    "C70_relation",
    "C70_honest",
    "C70_every_statement"
   ],
   "note": ""
  },
  {
   "property": "C71",
   "status": "partial",
   "theorems": [
    "C71_encode",
    "C71_injective",
    "C71_relation",
    "C71_honest",
    "C71_zip",
    "C71_same_low",
    "C71_other_inputs_refuted"
   ],
   "note": "Refuted: C71_other_inputs_refuted (other public inputs satisfy the constraints; C71_same_low says which). Proved: conversion, injectivity, and the relation for public inputs that are converted hashes (C71_encode, C71_injective, C71_relation, C71_honest, C71_zip). The Blake2s gadget is modelled by the hash function it computes."
  },
  {
   "property": "C72",
   "status": "partial",
   "theorems": [
    "C72_inputs",
    "C72_relation",
    "C72_injective",
    "C72_other_inputs_refuted"
   ],
   "note": "Refuted: C72_other_inputs_refuted (an encoded element plus the modulus is decoded to the same element). Proved: C72_inputs, C72_relation, C72_injective. The Groth16 verifier gadget is modelled by the pairing equation it computes."
  },
  {
   "property": "C73",
   "status": "proved",
   "theorems": [
    "C73_example_complete",
    "C73_bench_complete"
   ],
   "note": ""
  },
  {
   "property": "C74",
   "status": "proved",
   "theorems": [
    "C74_gssm_special_sound",
    "C74_tssm_special_sound"
   ],
   "note": ""
  },
  {
   "property": "C75",
   "status": "proved",
   "theorems": [
    "C75_aggregate_special_sound"
   ],
   "note": ""
  },
  {
   "property": "C76",
   "status": "proved",
   "theorems": [
    "C76_transparent_special_sound",
    "C76_univariate_special_sound"
   ],
   "note": ""
  },
  {
   "property": "C77",
   "status": "proved",
   "theorems": [
    "C77_bivariate_evaluation_binding",
    "C77_univariate_evaluation_binding"
   ],
   "note": ""
  },
  {
   "property": "C78",
   "status": "proved",
   "theorems": [
    "C78_bivariate_commit",
    "C78_kzg_open",
    "C78_transparent_commit",
    "C78_univariate_commit_total",
    "C78_transparent_univariate_commit"
   ],
   "note": ""
  },
  {
   "property": "C79",
   "status": "partial",
   "theorems": [
    "C79_gipa_pairing",
    "C79_gipa_multiexp",
    "C79_gipa_scalar",
    "C79_tipa_pairing",
    "C79_tipa_multiexp",
    "C79_tipa_scalar",
    "C79_gssm_multiexp",
    "C79_gssm_scalar",
    "C79_tssm_multiexp",
    "C79_bivariate",
    "C79_univariate",
    "C79_transparent",
    "C79_transparent_univariate",
    "C79_groth16",
    "C79_sipp_verify",
    "C79_sipp_prove_partial",
    "C79_sipp_prove_two_threads_refuted",
    "C79_product_of_pairings_refuted"
   ],
   "note": "Proved for all calls except product_of_pairings on vectors of different lengths and SIPP prove with fewer coefficients than group elements, for which the claim is refuted: C79_product_of_pairings_refuted (one thread panics, two return) and C79_sipp_prove_two_threads_refuted (two threads panic for 16 elements and 15 coefficients; one thread returns, C79_example_one_thread)."
  },
  {
   "property": "C80",
   "status": "proved",
   "theorems": [
    "C80_opening_value",
    "C80_complete",
    "C80_large_degrees_refuted",
    "C80_transparent_opening_value",
    "C80_transparent_complete",
    "C80_transparent_large_degrees_refuted"
   ],
   "note": ""
  },
  {
   "property": "C81",
   "status": "proved",
   "theorems": [
    "C81_pedersen_test",
    "C81_afgho_g1_test",
    "C81_afgho_g2_test",
    "C81_gipa_tests",
    "C81_tipa_tests",
    "C81_tipa_shift_test",
    "C81_poly_commit_tests",
    "C81_transparent_tests",
    "C81_sipp_test"
   ],
   "note": ""
  },
  {
   "property": "C82",
   "status": "proved",
   "theorems": [
    "C82_no_error_inner_products",
    "C82_no_error_gipa",
    "C82_no_error_tipa",
    "C82_no_error_poly_commit",
    "C82_no_error_groth16_example",
    "C82_no_error_groth16_bench",
    "C82_gipa",
    "C82_tipa",
    "C82_poly_commit",
    "C82_groth16_example",
    "C82_groth16_bench",
    "C82_scaling"
   ],
   "note": ""
  },
  {
   "property": "C83",
   "status": "proved",
   "theorems": [
    "C83_same_programs",
    "C83_tipa_verify",
    "C83_tssm_verify",
    "C83_opening_verify",
    "C83_groth16_verify",
    "C83_gipa_verify",
    "C83_transparent_verify",
    "C83_sipp_verify",
    "C83_gipa_prove",
    "C83_sipp_prove",
    "C83_tipa_succinct",
    "C83_groth16_succinct"
   ],
   "note": ""
  },
  {
   "property": "C84",
   "status": "partial",
   "theorems": [
    "C84_gipa_overlong",
    "C84_gipa_work_refuted",
    "C84_gipa_work_partial",
    "C84_transparent_overlong"
   ],
   "note": "Refuted: C84_gipa_work_refuted (no constant works) and C84_gipa_overlong (exact count and outcome for every wrong number of rounds). Proved part: C84_gipa_work_partial (right number of rounds, or an answer is returned). C84_transparent_overlong: the same for the transparent polynomial commitment."
  },
  {
   "property": "C85",
   "status": "partial",
   "theorems": [
    "C85_poly_commit_outcome",
    "C85_poly_commit_table",
    "C85_poly_commit_no_table",
    "C85_poly_commit_verify_rows",
    "C85_poly_commit_run",
    "C85_groth16_outcome",
    "C85_groth16_table",
    "C85_groth16_no_table",
    "C85_groth16_verify_row_refuted",
    "C85_groth16_verify_rows_partial",
    "C85_groth16_recursive_rows_partial"
   ],
   "note": "The table of both programs, that writing it does not change the outcome, and that verify rows of the polynomial commitment benchmark come only after acceptance are proved. The Groth16 benchmark writes the verify row before it looks at the result (refuted); there the check was passed as soon as a further row follows."
  },
  {
   "property": "C86",
   "status": "proved",
   "theorems": [
    "C86_gipa",
    "C86_tipa",
    "C86_gssm",
    "C86_tssm",
    "C86_groth16",
    "C86_poly_commit",
    "C86_transparent"
   ],
   "note": ""
  },
  {
   "property": "C87",
   "status": "proved",
   "theorems": [
    "C87_gipa_panics",
    "C87_gipa_refuses",
    "C87_gipa_proves",
    "C87_gipa_iff",
    "C87_tipa_proves",
    "C87_tipa_ok",
    "C87_tipa_loop",
    "C87_tipa_iff",
    "C87_gssm_ends",
    "C87_gssm_iff",
    "C87_tssm_proves",
    "C87_tssm_ok",
    "C87_tssm_loop",
    "C87_tssm_iff",
    "C87_groth16_ok",
    "C87_groth16_outcome",
    "C87_groth16_live"
   ],
   "note": ""
  },
  {
   "property": "C88",
   "status": "partial",
   "theorems": [
    "C88_kzg",
    "C88_gipa",
    "C88_tipa",
    "C88_tipa_pairing",
    "C88_gssm",
    "C88_tssm_scalar_refuted",
    "C88_tssm_partial",
    "C88_bivariate_scalar_refuted",
    "C88_univariate_scalar_refuted",
    "C88_groth16_scalar_refuted",
    "C88_bivariate_partial",
    "C88_univariate_partial",
    "C88_transparent",
    "C88_groth16_partial"
   ],
   "note": "Refuted: C88_tssm_scalar_refuted, C88_bivariate_scalar_refuted, C88_univariate_scalar_refuted, C88_groth16_scalar_refuted (TIPAWithSSM never reads the scalar of r_base). Proved for everything else: C88_kzg, C88_gipa, C88_tipa, C88_tipa_pairing, C88_gssm, C88_transparent and, for the parts other than that scalar, the _partial theorems."
  },
  {
   "property": "C89",
   "status": "proved",
   "theorems": [
    "C89_kzg",
    "C89_gipa_pairing",
    "C89_gipa_multiexp",
    "C89_gipa_scalar",
    "C89_gssm_multiexp",
    "C89_gssm_scalar",
    "C89_tipa",
    "C89_tssm",
    "C89_bivariate",
    "C89_univariate",
    "C89_transparent",
    "C89_transparent_univariate",
    "C89_groth16"
   ],
   "note": ""
  },
  {
   "property": "C90",
   "status": "partial",
   "theorems": [
    "C90_sum_partial",
    "C90_multiple",
    "C90_laws_partial",
    "C90_default_refuted",
    "C90_neutral_partial",
    "C90_commit_partial",
    "C90_tail_lost_refuted"
   ],
   "note": "Refuted for different lengths (C90_default_refuted, C90_tail_lost_refuted). The laws that hold, the exact elements of a sum and the exact neutral values are proved."
  },
  {
   "property": "C91",
   "status": "proved",
   "theorems": [
    "C91_file",
    "C91_times"
   ],
   "note": ""
  },
  {
   "property": "C92",
   "status": "partial",
   "theorems": [
    "C92_text_partial",
    "C92_lengths_partial",
    "C92_origin_refuted"
   ],
   "note": "Refuted: two errors share their texts (C92_origin_refuted). Proved: the text determines everything else."
  },
  {
   "property": "C93",
   "status": "proved",
   "theorems": [
    "C93_same_programs",
    "C93_tipa_prove",
    "C93_tssm_prove",
    "C93_setup",
    "C93_commit",
    "C93_open",
    "C93_transparent_open",
    "C93_groth16_aggregate"
   ],
   "note": ""
  },
  {
   "property": "C94",
   "status": "proved",
   "theorems": [
    "C94_gipa_knowledge",
    "C94_gssm_knowledge",
    "C94_tipa_knowledge",
    "C94_tssm_knowledge",
    "C94_sipp_sound",
    "C94_sipp_sound_nonzero",
    "C94_sipp_gamble"
   ],
   "note": ""
  },
  {
   "property": "C95",
   "status": "proved",
   "theorems": [
    "C95_sipp_sound",
    "C95_sipp_sound_separated",
    "C95_separated"
   ],
   "note": ""
  },
  {
   "property": "C96",
   "status": "proved",
   "theorems": [
    "C96_aggregate_knowledge",
    "C96_transparent_knowledge"
   ],
   "note": ""
  },
  {
   "property": "C97",
   "status": "proved",
   "theorems": [
    "C97_tipa_knowledge",
    "C97_tssm_knowledge",
    "C97_aggregate_knowledge"
   ],
   "note": ""
  },
  {
   "property": "C98",
   "status": "proved",
   "theorems": [
    "C98_bivariate_knowledge",
    "C98_univariate_knowledge",
    "C98_bivariate_binding",
    "C98_univariate_binding",
    "C98_relation_rare"
   ],
   "note": ""
  },
  {
   "property": "C99",
   "status": "proved",
   "theorems": [
    "C99_gipa_prove",
    "C99_gipa_verify",
    "C99_gipa_ssm",
    "C99_tipa",
    "C99_tipa_ssm",
    "C99_bivariate",
    "C99_univariate",
    "C99_transparent",
    "C99_transparent_univariate",
    "C99_groth16",
    "C99_all_digests"
   ],
   "note": ""
  },
  {
   "property": "C100",
   "status": "proved",
   "theorems": [
    "C100_gipa_pairing",
    "C100_gipa_multiexp",
    "C100_gipa_scalar",
    "C100_gipa_ssm",
    "C100_tipa",
    "C100_tipa_ssm",
    "C100_bivariate",
    "C100_univariate",
    "C100_transparent",
    "C100_transparent_univariate",
    "C100_groth16",
    "C100_tipa_multiexp",
    "C100_tipa_scalar",
    "C100_tipa_shift"
   ],
   "note": ""
  },
  {
   "property": "C101",
   "status": "proved",
   "theorems": [
    "C101_gipa_sound",
    "C101_pairing",
    "C101_multiexp",
    "C101_scalar",
    "C101_spread"
   ],
   "note": ""
  },
  {
   "property": "C102",
   "status": "proved",
   "theorems": [
    "C102_gipa_ssm",
    "C102_tipa_ssm"
   ],
   "note": ""
  },
  {
   "property": "C103",
   "status": "proved",
   "theorems": [
    "C103_tipa",
    "C103_pairing",
    "C103_multiexp",
    "C103_scalar",
    "C103_tipa_ssm"
   ],
   "note": ""
  },
  {
   "property": "C104",
   "status": "proved",
   "theorems": [
    "C104_gipa_verify",
    "C104_gipa_prove",
    "C104_gssm_verify",
    "C104_gssm_prove",
    "C104_tipa_verify",
    "C104_tipa_prove",
    "C104_tssm_verify",
    "C104_tssm_prove",
    "C104_poly_verify",
    "C104_transparent_verify",
    "C104_groth16_verify",
    "C104_groth16_aggregate",
    "C104_input_determines_use",
    "C104_groth16_uses",
    "C104_bls12_sizes",
    "C104_no_separation_refuted"
   ],
   "note": ""
  },
  {
   "property": "C105",
   "status": "proved",
   "theorems": [
    "C105_tipa",
    "C105_pairing",
    "C105_multiexp",
    "C105_scalar",
    "C105_tipa_ssm"
   ],
   "note": ""
  },
  {
   "property": "C106",
   "status": "proved",
   "theorems": [
    "C106_exactly",
    "C106_same_columns",
    "C106_chosen",
    "C106_relation"
   ],
   "note": ""
  },
  {
   "property": "C107",
   "status": "proved",
   "theorems": [
    "C107_bls12_381",
    "C107_bls12_377",
    "C107_spread",
    "C107_gipa",
    "C107_tipa",
    "C107_bls_pairing",
    "C107_bls_multiexp",
    "C107_bls_scalar",
    "C107_gipa_ssm",
    "C107_tipa_ssm",
    "C107_bls_ssm"
   ],
   "note": ""
  },
  {
   "property": "C108",
   "status": "proved",
   "theorems": [
    "C108_rejected",
    "C108_unusable_381",
    "C108_unusable_377",
    "C108_stuck",
    "C108_honest",
    "C108_honest_gipa",
    "C108_groth16"
   ],
   "note": ""
  },
  {
   "property": "C109",
   "status": "proved",
   "theorems": [
    "C109_tipa_other_scalar",
    "C109_tipa_scalars",
    "C109_gipa_scalars",
    "C109_bivariate",
    "C109_univariate",
    "C109_other_degree",
    "C109_transparent"
   ],
   "note": ""
  },
  {
   "property": "C110",
   "status": "partial",
   "theorems": [
    "C110_drawings",
    "C110_complete",
    "C110_ticks",
    "C110_short_times_refuted",
    "C110_runs"
   ],
   "note": "Refuted: times that are 0 milliseconds have no point on a logarithmic axis, and a plot without any point ends the script (C110_short_times_refuted). Proved: the exact points of every plot up to the first empty one (C110_runs, C110_drawings), and the full claim when all averages are positive (C110_complete, C110_ticks)."
  },
  {
   "property": "C111",
   "status": "proved",
   "theorems": [
    "C111_kzg",
    "C111_tipa_pairing",
    "C111_tipa_multiexp",
    "C111_tipa_scalar",
    "C111_vectors",
    "C111_ssm",
    "C111_bivariate",
    "C111_univariate"
   ],
   "note": ""
  },
  {
   "property": "C112",
   "status": "proved",
   "theorems": [
    "C112_shortened_srs",
    "C112_pairing",
    "C112_multiexp",
    "C112_scalar",
    "C112_ssm"
   ],
   "note": ""
  },
  {
   "property": "C113",
   "status": "proved",
   "theorems": [
    "C113_gipa",
    "C113_tipa",
    "C113_inner_products",
    "C113_gipa_all",
    "C113_tipa_all",
    "C113_groth16_example",
    "C113_scaling",
    "C113_scaling_help_refuted",
    "C113_scaling_reports"
   ],
   "note": ""
  },
  {
   "property": "C114",
   "status": "proved",
   "theorems": [
    "C114_kzg_commit",
    "C114_bivariate_commit",
    "C114_univariate_commit",
    "C114_transparent_commit",
    "C114_transparent_univariate_commit",
    "C114_kzg_open",
    "C114_bivariate_open",
    "C114_univariate_open",
    "C114_transparent_univariate_open"
   ],
   "note": ""
  },
  {
   "property": "C115",
   "status": "proved",
   "theorems": [
    "C115_kzg",
    "C115_tipa",
    "C115_groth16",
    "C115_ssm",
    "C115_bivariate",
    "C115_univariate",
    "C115_transparent",
    "C115_transparent_univariate"
   ],
   "note": ""
  },
  {
   "property": "C116",
   "status": "proved",
   "theorems": [
    "C116_hash_elements",
    "C116_blake_accepts",
    "C116_blake_other_inputs_refuted",
    "C116_accepts",
    "C116_other_key",
    "C116_public_inputs",
    "C116_relation",
    "C116_injective",
    "C116_other_inputs_refuted"
   ],
   "note": ""
  },
  {
   "property": "C117",
   "status": "proved",
   "theorems": [
    "C117_few_sequences",
    "C117_one_invalid",
    "C117_all_sequences",
    "C117_level"
   ],
   "note": ""
  },
  {
   "property": "C118",
   "status": "proved",
   "theorems": [
    "C118_honest",
    "C118_wrong_value",
    "C118_level",
    "C118_honest_level"
   ],
   "note": ""
  },
  {
   "property": "C119",
   "status": "proved",
   "theorems": [
    "C119_bivariate",
    "C119_cross_open",
    "C119_transparent"
   ],
   "note": ""
  },
  {
   "property": "C120",
   "status": "proved",
   "theorems": [
    "C120_tipa",
    "C120_tipa_prove",
    "C120_prove_then_convert",
    "C120_tssm",
    "C120_tssm_prove"
   ],
   "note": ""
  },
  {
   "property": "C121",
   "status": "partial",
   "theorems": [
    "C121_nonces",
    "C121_coefficients",
    "C121_gipa_verify",
    "C121_setup_partial",
    "C121_setup_debug",
    "C121_setup_release_refuted",
    "C121_degrees",
    "C121_degrees_max",
    "C121_bivariate_setup",
    "C121_univariate",
    "C121_bivariate_form",
    "C121_sipp",
    "C121_poly_commit_bench",
    "C121_poly_commit_bench_max",
    "C121_poly_commit",
    "C121_transparent",
    "C121_empty_key_refuted",
    "C121_empty_key_partial",
    "C121_sipp_verify",
    "C121_gipa_prove",
    "C121_tipa",
    "C121_ssm",
    "C121_groth16"
   ],
   "note": "Refuted in part: in release builds setup of the TIPA reference strings wraps around for sizes above 2^63 (C121_setup_release_refuted). C121_setup_partial: sizes below 2^63; C121_setup_debug: builds with overflow checks panic otherwise. C121_empty_key_refuted: transparent univariate commit with an empty key returns the commitment to zero in release builds. C121_empty_key_partial: with a reference string commit panics in both builds. Items (1)-(7) and (10) are proved in full."
  },
  {
   "property": "C122",
   "status": "proved",
   "theorems": [
    "C122_csv_round_trip",
    "C122_csv_lengths",
    "C122_csv_refused",
    "C122_csv_injective",
    "C122_poly_commit",
    "C122_poly_commit_help",
    "C122_poly_commit_cases",
    "C122_groth16",
    "C122_groth16_help",
    "C122_groth16_cases"
   ],
   "note": ""
  }
 ]
}