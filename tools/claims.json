{
 "C17": {
  "status": "partial",
  "note": "The property as users expect it is refuted: challenges are independent of the statement, and for every honest proof other claimed values and commitments are accepted (theorems _refuted; C17_forging_program_refuted gives the program). Proved part: the challenges bind the round commitments (C17_bind_rounds_partial). Missing: binding of the statement, which the code does not do."
 },
 "C19": {
  "status": "partial",
  "note": "Proved for commitments with group outputs (C19_unique_group). For IdentityCommitment it is refuted (trailing elements are ignored); C19_unique_identity_partial proves uniqueness among outputs of one element."
 },
 "C27": {
  "status": "partial",
  "note": "Refuted at size 1: setup succeeds, prove panics for every message (C27_size_one_refuted). C27_sizes_from_two_partial proves the property for all other powers of two."
 },
 "C37": {
  "status": "partial",
  "note": "Proved for 1 <= d < 2^52 (C37_degrees_partial). Refuted at d = 0 (division by zero panics, C37_degree_zero_refuted) and at d = 2^52 (rounding to a double, C37_rounding_refuted). C37_exact_partial: for every 1 <= d < 2^64 - 1 exactly which degrees are covered; only those with 4^k < d + 1 < 4^k + 1.5 * 4^(k-26), k >= 26, are not. Nothing is missing except the refuted cases."
 },
 "C39": {
  "status": "partial",
  "note": "Refuted: coefficients beyond the capacity are dropped without an error, in both schemes (theorems _refuted). C39_commitment_value_partial and C39_binding_partial prove the property for polynomials within the capacity."
 },
 "C49": {
  "status": "partial",
  "note": "Refuted at length 1 for all inputs (C49_length_one_refuted) and for fewer coefficients than elements (C49_short_coefficients_refuted): prove returns a proof, verify panics. C49_provable_is_verifiable_partial proves the property for at least two elements and enough coefficients."
 },
 "C42": {
  "status": "partial",
  "note": "Refuted: the challenge is not bound to the public inputs, so every aggregate proof gets the same answer for other inputs (C42_other_inputs_refuted), and the aggregate of valid proofs is accepted for inputs for which two of them are invalid (C42_invalid_inputs_accepted_refuted). Proved part: exactly what acceptance means (C42_accept_iff_partial, C42_honest_aggregate_partial). Missing: soundness for the given inputs, which the code does not provide."
 },
 "C44": {
  "status": "partial",
  "note": "Refuted at r = 1 (verify divides by zero) and r = 0 (aggregate unwraps None; verify never answers). Proved for the other challenges (C44_verify_partial for every proof with at least one round and fitting rows, C44_aggregate_partial)."
 },
 "C52": {
  "status": "partial",
  "note": "Refuted: trailing elements of rows other than the first are ignored, the number of rows is not compared with the number of proofs, and malformed rows panic instead of being rejected. C52_malformed_not_accepted_partial: missing rows, a wrong first row and short rows are never accepted."
 },
 "C57": {
  "status": "partial",
  "note": "Refuted: every proof without rounds panics in both verifiers, and the shift 0 is never answered (theorems _refuted). C57_tipa_partial and C57_tssm_partial: all other proofs get a boolean answer, unless no usable nonce is found (Loop)."
 },
 "C61": {
  "status": "partial",
  "note": "Refuted in all four schemes by the programs of Forger.v (theorems _forged_refuted). Proved part: one proof is accepted for at most one value, and two openings with the same y_eval_comm to different values give g / (alpha - y). Missing: binding of the value across proofs, which the code does not provide."
 },
 "C63": {
  "status": "partial",
  "note": "Refuted: batch_forger makes accepted proofs for any two or more rows of inputs from public data (C63_forged_refuted), and rows without a proof are unchecked. Proved part: exact for a single proof (C63_single_proof_partial); with all other scalars fixed, an invalid proof passes for at most one value of its scalar (C63_few_scalars_partial). Missing: soundness for the scalars of the fixed seed, which the code does not provide."
 },
 "C65": {
  "status": "partial",
  "note": "Refuted for log_min = 0 (C65_size_one_refuted) and for log_max >= 31 (C65_large_refuted). Proved for 1 <= log_min, log_max < 31 (C65_scaling_example_partial) under the hypothesis that no challenge is 0."
 },
 "C66": {
  "status": "partial",
  "note": "Refuted: C66_monolithic_refuted, C66_scaling_help_refuted, C66_one_argument_refuted. Proved: numbers, help of the two benchmarks, poly_commit and scaling arguments, and exactly what the Groth16 benchmark reads (C66_groth16_partial)."
 },
 "C69": {
  "status": "partial",
  "note": "Refuted for every prover-chosen proof: C69_pairing_forged_refuted, C69_multiexp_forged_refuted, C69_ssm_forged_refuted give an explicit forging program. Proved part: special soundness from a tree of accepted TIPA proofs whose final keys are the folded ones (C69_special_sound_partial). Missing: soundness of a single proof, which the code does not provide."
 },
 "C71": {
  "status": "partial",
  "note": "Refuted: C71_other_inputs_refuted (other public inputs satisfy the constraints; C71_same_low says which). Proved: conversion, injectivity, and the relation for public inputs that are converted hashes (C71_encode, C71_injective, C71_relation, C71_honest, C71_zip). The Blake2s gadget is modelled by the hash function it computes."
 },
 "C72": {
  "status": "partial",
  "note": "Refuted: C72_other_inputs_refuted (an encoded element plus the modulus is decoded to the same element). Proved: C72_inputs, C72_relation, C72_injective. The Groth16 verifier gadget is modelled by the pairing equation it computes."
 },
 "C79": {
  "status": "partial",
  "note": "Proved for all calls except product_of_pairings on vectors of different lengths and SIPP prove with fewer coefficients than group elements, for which the claim is refuted: C79_product_of_pairings_refuted (one thread panics, two return) and C79_sipp_prove_two_threads_refuted (two threads panic for 16 elements and 15 coefficients; one thread returns, C79_example_one_thread)."
 },
 "C84": {
  "status": "partial",
  "note": "Refuted: C84_gipa_work_refuted (no constant works) and C84_gipa_overlong (exact count and outcome for every wrong number of rounds). Proved part: C84_gipa_work_partial (right number of rounds, or an answer is returned). C84_transparent_overlong: the same for the transparent polynomial commitment."
 },
 "C85": {
  "status": "partial",
  "note": "The table of both programs, that writing it does not change the outcome, and that verify rows of the polynomial commitment benchmark come only after acceptance are proved. The Groth16 benchmark writes the verify row before it looks at the result (refuted); there the check was passed as soon as a further row follows."
 },
 "C88": {
  "status": "partial",
  "note": "Refuted: C88_tssm_scalar_refuted, C88_bivariate_scalar_refuted, C88_univariate_scalar_refuted, C88_groth16_scalar_refuted (TIPAWithSSM never reads the scalar of r_base). Proved for everything else: C88_kzg, C88_gipa, C88_tipa, C88_tipa_pairing, C88_gssm, C88_transparent and, for the parts other than that scalar, the _partial theorems."
 },
 "C90": {
  "status": "partial",
  "note": "Refuted for different lengths (C90_default_refuted, C90_tail_lost_refuted). The laws that hold, the exact elements of a sum and the exact neutral values are proved."
 },
 "C92": {
  "status": "partial",
  "note": "Refuted: two errors share their texts (C92_origin_refuted). Proved: the text determines everything else."
 },
 "C110": {
  "status": "partial",
  "note": "Refuted: times that are 0 milliseconds have no point on a logarithmic axis, and a plot without any point ends the script (C110_short_times_refuted). Proved: the exact points of every plot up to the first empty one (C110_runs, C110_drawings), and the full claim when all averages are positive (C110_complete, C110_ticks)."
 },
 "C121": {
  "status": "partial",
  "note": "Refuted in part: in release builds setup of the TIPA reference strings wraps around for sizes above 2^63 (C121_setup_release_refuted). C121_setup_partial: sizes below 2^63; C121_setup_debug: builds with overflow checks panic otherwise. C121_empty_key_refuted: transparent univariate commit with an empty key returns the commitment to zero in release builds. C121_empty_key_partial: with a reference string commit panics in both builds. Items (1)-(7) and (10) are proved in full."
 }
}