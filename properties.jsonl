{"id": "C01", "title": "Pairing inner product is the pairing sum for every thread count and schedule", "statement": "PairingInnerProduct::inner_product(l, r) on vectors of equal length n returns Ok of the sum over i<n of e(l_i, r_i). The result does not depend on the number of worker threads (hence on the chunk size), nor on the order in which the partial products are combined, and the call does not panic.", "quantifier": "all bilinear groups, all vectors l, r of the same length (including 0), all thread counts >= 1, all reduction trees of the parallel product", "why_tests_cant": "the chunking depends on rayon::current_num_threads() and the reduction on scheduling; a test sees one machine and one interleaving", "anchors": ["inner_products/src/lib.rs: PairingInnerProduct::inner_product, cfg_multi_pairing"]}
{"id": "C02", "title": "Inner products reject exactly the mismatched lengths", "statement": "Each of the three InnerProduct implementations (pairing, multiexponentiation, scalar) returns Err(MessageLengthInvalid(l.len(), r.len())) if and only if the two slices have different lengths; otherwise it returns Ok(sum of the pairwise products). It never panics.", "quantifier": "all vectors of all lengths, all thread counts and reduction orders", "why_tests_cant": "lengths are unbounded and the error path must be exact in both directions", "anchors": ["inner_products/src/lib.rs: InnerProduct::inner_product (3 impls)"]}
{"id": "C03", "title": "Inner products are bilinear and split over concatenation", "statement": "For the three inner products: ip(l+l', r) = ip(l,r)+ip(l',r), ip(l, r+r') = ip(l,r)+ip(l,r'), ip(x*l, r) = x*ip(l,r) = ip(l, x*r), and ip(l++l', r++r') = ip(l,r)+ip(l',r') for vectors of matching lengths.", "quantifier": "all scalars and all vectors of matching lengths", "why_tests_cant": "an algebraic law over an infinite family of inputs", "anchors": ["inner_products/src/lib.rs: InnerProduct impls"]}
{"id": "C04", "title": "SIPP pairing products are schedule independent", "statement": "product_of_pairings_with_coeffs(a, b, r) equals the sum over i of r_i * e(a_i, b_i) and product_of_pairings(a, b) equals the sum of e(a_i, b_i), for every thread count and reduction order, whenever a and b have the same length and r is at least as long.", "quantifier": "all inputs with a.len() = b.len() <= r.len(), all thread counts >= 1, all reduction trees", "why_tests_cant": "depends on the thread pool and the schedule", "anchors": ["sipp/src/lib.rs: product_of_pairings_with_coeffs, product_of_pairings"]}
{"id": "C05", "title": "The commitments are doubly homomorphic", "statement": "For PedersenCommitment, AFGHOCommitmentG1 and AFGHOCommitmentG2: commit(k, m+m') = commit(k,m)+commit(k,m'), commit(k+k', m) = commit(k,m)+commit(k',m), commit(k, x*m) = x*commit(k,m) = commit(x*k, m). For IdentityCommitment the same holds in the message.", "quantifier": "all keys, messages of matching length, all scalars", "why_tests_cant": "an algebraic law over all inputs and lengths", "anchors": ["dh_commitments/src/afgho16/mod.rs: AFGHOCommitmentG1, AFGHOCommitmentG2", "dh_commitments/src/pedersen/mod.rs: PedersenCommitment", "dh_commitments/src/identity/mod.rs: IdentityCommitment, IdentityOutput"]}
{"id": "C06", "title": "Commitment verification is exact", "statement": "DoublyHomomorphicCommitment::verify(k, m, com) returns Ok(true) iff k and m have equal lengths and com equals the pairwise sum; Ok(false) iff lengths are equal and com differs; Err(MessageLengthInvalid) iff the lengths differ (Pedersen, AFGHO G1/G2). IdentityCommitment::verify returns Ok(com == m) and never errs.", "quantifier": "all keys, messages, commitments", "why_tests_cant": "needs all three outcomes to be exact for all inputs", "anchors": ["dh_commitments/src/lib.rs: DoublyHomomorphicCommitment::verify", "dh_commitments/src/afgho16/mod.rs", "dh_commitments/src/pedersen/mod.rs", "dh_commitments/src/identity/mod.rs"]}
{"id": "C07", "title": "Opening a commitment two ways gives a discrete-log style relation", "statement": "If two different messages m <> m' of the right length both verify against the same commitment and key, then the non-zero difference vector is a relation among the keys: sum of key_i paired with (m_i - m'_i) is zero. IdentityCommitment admits no such pair at all (perfect binding).", "quantifier": "all keys, message pairs, commitments", "why_tests_cant": "quantifies over adversarial message pairs", "anchors": ["dh_commitments/src/afgho16/mod.rs", "dh_commitments/src/pedersen/mod.rs", "dh_commitments/src/identity/mod.rs: IdentityCommitment::commit"]}
{"id": "C08", "title": "Key generation returns exactly the requested number of keys", "statement": "setup(rng, n) of each commitment scheme returns Ok of a vector of n keys, in the order sampled from rng; GIPA::setup returns n left keys, n right keys and one inner-product key; none of them errs or panics.", "quantifier": "all sizes n, all random generators", "why_tests_cant": "unbounded n", "anchors": ["dh_commitments/src/lib.rs: random_generators", "dh_commitments/src/afgho16/mod.rs", "dh_commitments/src/pedersen/mod.rs", "dh_commitments/src/identity/mod.rs", "ip_proofs/src/gipa.rs: GIPA::setup"]}
{"id": "C09", "title": "GIPA completeness", "statement": "For every length n = 2^k (k >= 0) and all vectors, keys and commitments that honestly commit to them, GIPA::prove returns Ok(proof) and GIPA::verify on that proof returns Ok(true), for every choice of inner product and commitments that is bilinear; in particular for the pairing, multiexponentiation and scalar instantiations. Prover and verifier may run with different thread counts and schedules.", "quantifier": "all k, all message vectors, keys, hash functions for which the challenge loop ends, thread counts and schedules", "why_tests_cant": "unit tests use size 8 with fixed randomness", "anchors": ["ip_proofs/src/gipa.rs: GIPA::prove, GIPA::verify, _prove, _compute_recursive_challenges, _compute_final_commitment_keys, _verify_base_commitment"]}
{"id": "C10", "title": "GIPA::prove never proves a false or malformed statement", "statement": "If GIPA::prove returns Ok then the lengths agree and are a power of two, the claimed value is the inner product of the two vectors, and the three commitments open to the two vectors and the value. With a wrong value it returns Err(InnerProductInvalid); with a non-power-of-two length Err(MessageLengthInvalid).", "quantifier": "all inputs to prove", "why_tests_cant": "must hold for all inputs, including adversarial ones", "anchors": ["ip_proofs/src/gipa.rs: GIPA::prove"]}
{"id": "C11", "title": "GIPA::verify rejects proofs with the wrong number of rounds and malformed keys", "statement": "GIPA::verify returns Err(MessageLengthInvalid) when the key vectors have unequal lengths or a length that is not a power of two. If it returns Ok(_) the proof has exactly log2(n) rounds (a proof with another number of rounds makes it panic, never accept).", "quantifier": "all keys, commitments and proofs", "why_tests_cant": "quantifies over all adversarial proofs", "anchors": ["ip_proofs/src/gipa.rs: GIPA::verify, _compute_final_commitment_keys"]}
{"id": "C12", "title": "GIPA::verify accepts exactly when the folded equations hold", "statement": "With challenges c_1..c_k derived from the proof, GIPA::verify returns Ok(true) iff the final messages (a, b) satisfy: commit(folded left key, a) = com_a + sum c_j com_1.a_j + c_j^-1 com_2.a_j, the same for b, and commit(key_t, a*b) equals the folded inner-product commitment, where the folded keys are the closed-form multi-exponentiations sum_i s_i ck_i with s_i the product over the bits of i of the challenges.", "quantifier": "all keys, commitments, proofs", "why_tests_cant": "an iff over all proofs, honest or not; both directions matter (a verifier that accepts too much passes completeness tests)", "anchors": ["ip_proofs/src/gipa.rs: GIPA::verify"]}
{"id": "C13", "title": "Prover and verifier derive the same challenges", "statement": "The transcript in the auxiliary output of prove_with_aux equals the transcript returned by verify_recursive_challenge_transcript on the produced proof, for any commitments passed to the latter, and every challenge in it is invertible.", "quantifier": "all vectors of power-of-two length, all hash functions", "why_tests_cant": "depends on the hash; must hold for all transcripts", "anchors": ["ip_proofs/src/gipa.rs: prove_with_aux, verify_recursive_challenge_transcript"]}
{"id": "C14", "title": "The prover's folded key is the verifier's closed-form key", "statement": "The final commitment keys in the auxiliary output of prove_with_aux equal sum_i s_i ck_i computed from the transcript, s_i being the subset product of (inverse) challenges selected by the bits of i.", "quantifier": "all key vectors of power-of-two length and all challenge sequences", "why_tests_cant": "index/bit bookkeeping over all sizes", "anchors": ["ip_proofs/src/gipa.rs: _prove, _compute_final_commitment_keys"]}
{"id": "C15", "title": "GIPA proofs are logarithmic", "statement": "A proof produced for vectors of length 2^k contains exactly k rounds of two commitment triples and one pair of final messages.", "quantifier": "all k", "why_tests_cant": "unbounded sizes", "anchors": ["ip_proofs/src/gipa.rs: GIPAProof, _prove"]}
{"id": "C16", "title": "Each round challenge commits to the previous challenge and to all six round commitments", "statement": "The bytes hashed in two rounds are equal only if nonce, previous challenge and all six commitments are equal, for every serialization that is prefix-free and injective per component.", "quantifier": "all pairs of rounds", "why_tests_cant": "an injectivity claim over all pairs of inputs", "anchors": ["ip_proofs/src/gipa.rs: _prove, _compute_recursive_challenges (hash_input)"]}
{"id": "C17", "title": "GIPA challenges bind the statement being proved", "statement": "The challenges depend on the statement (the commitments and keys), so that a prover cannot choose the claimed inner product after seeing them. [Expected by users; the code violates it: see theorem _refuted.]", "quantifier": "all keys, vectors and proofs", "why_tests_cant": "absence of a dependency is a property of all runs", "anchors": ["ip_proofs/src/gipa.rs: _compute_recursive_challenges, _prove"]}
{"id": "C18", "title": "GIPA is special sound", "statement": "From a 4-ary tree of accepting transcripts with pairwise distinct challenges at each node one can compute either vectors a, b that open the two commitments and whose inner product opens the third, or two different openings of one commitment under the given keys.", "quantifier": "all keys, all accepting transcript trees of all depths", "why_tests_cant": "quantifies over all adversarial provers' transcript trees", "anchors": ["ip_proofs/src/gipa.rs: GIPA::verify"]}
{"id": "C19", "title": "The inner-product commitment accepted by GIPA::verify is unique", "statement": "For a fixed proof and fixed com_a, com_b at most one inner-product commitment value is accepted. [For IdentityCommitment the code violates it: trailing elements are ignored.]", "quantifier": "all proofs and commitments", "why_tests_cant": "quantifies over adversarial encodings", "anchors": ["dh_commitments/src/identity/mod.rs: IdentityOutput::add", "ip_proofs/src/gipa.rs: _compute_recursive_challenges"]}
{"id": "C20", "title": "The challenge loops return the first usable nonce", "statement": "The rejection-sampling loops return the challenge for the least nonce whose digest gives an invertible (resp. decodable) scalar, run forever exactly when no nonce works, and the returned GIPA challenge is the inverse of a 128-bit integer embedded in the field.", "quantifier": "all hash functions and inputs", "why_tests_cant": "termination and minimality over all hash functions", "anchors": ["ip_proofs/src/gipa.rs: 'challenge loop", "ip_proofs/src/tipa/mod.rs: KZG challenge loop", "ip_proofs/src/tipa/structured_scalar_message.rs", "ip_proofs/src/applications/groth16_aggregation.rs"]}
{"id": "C21", "title": "The TIPA SRS has the documented structure", "statement": "TIPA::setup(rng, n) with trapdoors alpha, beta returns g^(alpha^i) and h^(beta^i) for i < 2n-1, g^beta, h^alpha; get_commitment_keys returns the n even powers h^(beta^(2i)), g^(alpha^(2i)); get_verifier_key returns g, h, g^beta, h^alpha.", "quantifier": "all sizes n >= 1 and all trapdoors", "why_tests_cant": "unbounded sizes; exponents are hidden in group elements", "anchors": ["ip_proofs/src/tipa/mod.rs: TIPA::setup, SRS::get_commitment_keys, SRS::get_verifier_key, structured_generators_scalar_power"]}
{"id": "C22", "title": "TIPA completeness", "statement": "For every n = 2^k with k >= 1, every SRS from TIPA::setup(n), all message vectors of length n and their honest commitments under the SRS keys, TIPA::prove returns Ok(proof) and TIPA::verify returns Ok(true).", "quantifier": "all k >= 1, all trapdoors, messages, hash functions whose loops end", "why_tests_cant": "unit tests use size 8 only", "anchors": ["ip_proofs/src/tipa/mod.rs: TIPA::prove, TIPA::verify"]}
{"id": "C23", "title": "TIPA completeness with an SRS shift", "statement": "prove_with_srs_shift with the left key rescaled by r^-i verifies under verify_with_srs_shift with the same non-zero r; the commitment to the rescaled message under the rescaled key equals the commitment to the original one.", "quantifier": "all k >= 1, all non-zero r, trapdoors, messages", "why_tests_cant": "unbounded sizes, all r", "anchors": ["ip_proofs/src/tipa/mod.rs: prove_with_srs_shift, verify_with_srs_shift"]}
{"id": "C24", "title": "The commitment-key polynomial is evaluated correctly in product form", "statement": "The logarithmic product formula used by the verifier equals the evaluation at z of the coefficient vector used by the prover, whose odd coefficients are zero and whose length is 2^(k+1)-1.", "quantifier": "all transcripts of all lengths, all z and shifts", "why_tests_cant": "polynomial identity for all sizes", "anchors": ["ip_proofs/src/tipa/mod.rs: polynomial_evaluation_product_form_from_transcript, polynomial_coefficients_from_transcript"]}
{"id": "C25", "title": "The commitment-key KZG check accepts exactly the correct openings", "statement": "verify_commitment_key_g2_kzg_opening (resp. g1) returns Ok(true) iff ck_final - f(z) h = (beta - z) * opening (resp. with g, alpha), f being the key polynomial of the transcript, for a verifier key with trapdoor beta (alpha) and a non-degenerate pairing. The opening made by prove_commitment_key_kzg_opening is accepted for the true folded key.", "quantifier": "all transcripts, points, openings, trapdoors", "why_tests_cant": "iff over all openings", "anchors": ["ip_proofs/src/tipa/mod.rs: verify_commitment_key_g2_kzg_opening, verify_commitment_key_g1_kzg_opening, prove_commitment_key_kzg_opening"]}
{"id": "C26", "title": "A wrong final commitment key is caught (algebraic soundness)", "statement": "If a prover supplies ck_final = p(beta) h and opening q(beta) h for known polynomials p, q and the check accepts at point z, then p(z) = f(z), or the explicit polynomial p(X) - f(z) - (X - z) q(X) is non-zero and has the trapdoor beta as a root.", "quantifier": "all polynomials p, q, all transcripts and points", "why_tests_cant": "quantifies over algebraic adversaries", "anchors": ["ip_proofs/src/tipa/mod.rs: verify_commitment_key_g2_kzg_opening"]}
{"id": "C27", "title": "TIPA works for every size its setup accepts", "statement": "For every size for which setup succeeds and that is a power of two, prove succeeds. [Violated at size 1: transcript.first().unwrap() panics.]", "quantifier": "all power-of-two sizes", "why_tests_cant": "a boundary case that no unit test runs", "anchors": ["ip_proofs/src/tipa/mod.rs: prove_with_srs_shift", "ip_proofs/src/tipa/structured_scalar_message.rs: TIPAWithSSM::prove_with_structured_scalar_message"]}
{"id": "C28", "title": "Powers helpers return the geometric sequence", "statement": "structured_scalar_power(n, s) returns 1, s, ..., s^(n-1) for n >= 1 and structured_generators_scalar_power(n, g, s) returns g, g^s, ..., g^(s^(n-1)); the latter panics for n = 0 and the former returns one element for n = 0.", "quantifier": "all n, s, g", "why_tests_cant": "unbounded n", "anchors": ["ip_proofs/src/tipa/structured_scalar_message.rs: structured_scalar_power", "ip_proofs/src/tipa/mod.rs: structured_generators_scalar_power"]}
{"id": "C29", "title": "GIPAWithSSM completeness", "statement": "For every n = 2^k, every scalar b and every left vector, the proof for right message (1, b, ..., b^(n-1)) verifies given only the scalar b.", "quantifier": "all k >= 0, scalars, vectors", "why_tests_cant": "unbounded sizes", "anchors": ["ip_proofs/src/tipa/structured_scalar_message.rs: GIPAWithSSM::prove_with_structured_scalar_message, verify_with_structured_scalar_message"]}
{"id": "C30", "title": "TIPAWithSSM completeness", "statement": "For every n = 2^k with k >= 1, SRS from setup, scalar b and left vector committed under the SRS key, the proof for right message (1, b, ..., b^(n-1)) verifies given only b.", "quantifier": "all k >= 1, scalars, vectors, trapdoors", "why_tests_cant": "unbounded sizes", "anchors": ["ip_proofs/src/tipa/structured_scalar_message.rs: TIPAWithSSM::*"]}
{"id": "C31", "title": "The verifier's final scalar is the fold of the power vector", "statement": "The product prod_j (1 + x_j^-1 b^(2^j)) computed by the SSM verifiers equals the result of folding (1, b, ..., b^(2^k-1)) with the k challenges.", "quantifier": "all k, all challenge sequences, all b", "why_tests_cant": "polynomial identity for all sizes", "anchors": ["ip_proofs/src/tipa/structured_scalar_message.rs: verify_with_structured_scalar_message"]}
{"id": "C32", "title": "KZG completeness", "statement": "For every degree bound D, every polynomial of degree <= D and every point z, KZG::open's proof verifies under KZG::verify with the evaluation p(z); commit returns p(alpha) g.", "quantifier": "all D, polynomials (including 0), points, trapdoors", "why_tests_cant": "all polynomials and points; depends on long division", "anchors": ["ip_proofs/src/applications/poly_commit/mod.rs: KZG::setup, commit, open, verify"]}
{"id": "C33", "title": "KZG evaluation binding reduces to inverting in the exponent", "statement": "If KZG::verify accepts two different evaluations at one point z of one commitment, then the scaled difference of the two proofs equals 1/(alpha - z) * g, an explicit solution to the SDH problem (or alpha = z). Acceptance is exactly com - eval*g = (alpha - z)*proof.", "quantifier": "all commitments, points, evaluations and proofs", "why_tests_cant": "quantifies over adversarial proofs", "anchors": ["ip_proofs/src/applications/poly_commit/mod.rs: KZG::verify"]}
{"id": "C34", "title": "Bivariate commitment completeness", "statement": "For x_degree + 1 = 2^k with k >= 1 and any y_degree, every bivariate polynomial within those degrees and every point, open's proof verifies with the polynomial's evaluation.", "quantifier": "all k >= 1, y_degree, polynomials, points, trapdoors", "why_tests_cant": "unit test uses one size", "anchors": ["ip_proofs/src/applications/poly_commit/mod.rs: BivariatePolynomialCommitment::*"]}
{"id": "C35", "title": "Bivariate evaluation is the double sum", "statement": "BivariatePolynomial::evaluate((x, y)) equals sum_ij c_ij x^i y^j, in both the trusted and the transparent module.", "quantifier": "all polynomials and points", "why_tests_cant": "all sizes", "anchors": ["ip_proofs/src/applications/poly_commit/mod.rs: BivariatePolynomial::evaluate", "ip_proofs/src/applications/poly_commit/transparent.rs: BivariatePolynomial::evaluate"]}
{"id": "C36", "title": "The univariate to bivariate embedding preserves evaluation", "statement": "For every polynomial that fits in (x_degree+1)(y_degree+1) coefficients, evaluating its bivariate form at (z^(y_degree+1), z) gives p(z).", "quantifier": "all degree pairs, polynomials, points", "why_tests_cant": "index arithmetic over all sizes", "anchors": ["ip_proofs/src/applications/poly_commit/mod.rs: UnivariatePolynomialCommitment::bivariate_form, open", "ip_proofs/src/applications/poly_commit/transparent.rs"]}
{"id": "C37", "title": "The degree split covers the requested degree", "statement": "bivariate_degrees(d) returns (x, y) with x+1 and y+1 powers of two, x+1 >= 2 and (x+1)(y+1) = S^2 >= d+1, S the least power of two with S^2 >= d+1, although S is computed in floating point. [Holds for 1 <= d < 2^52; violated at d = 0 (division by zero) and d = 2^52 (rounding).]", "quantifier": "all usize degrees", "why_tests_cant": "floating-point rounding over a 64-bit domain", "anchors": ["ip_proofs/src/applications/poly_commit/mod.rs: bivariate_degrees", "ip_proofs/src/applications/poly_commit/transparent.rs: bivariate_degrees"]}
{"id": "C38", "title": "Univariate commitment completeness", "statement": "For every maximum degree d (1 <= d < 2^52), every polynomial of degree <= d and every point, setup, commit, open, verify accept the evaluation.", "quantifier": "all d, polynomials, points, trapdoors", "why_tests_cant": "the only unit test for this is ignored", "anchors": ["ip_proofs/src/applications/poly_commit/mod.rs: UnivariatePolynomialCommitment::*"]}
{"id": "C39", "title": "A commitment binds the whole polynomial", "statement": "UnivariatePolynomialCommitment::commit commits to every coefficient of the polynomial or fails. [Violated: coefficients beyond the capacity are silently dropped, so p and p + X^cap commit identically.]", "quantifier": "all polynomials, all degrees", "why_tests_cant": "oversized inputs are not tested", "anchors": ["ip_proofs/src/applications/poly_commit/mod.rs: bivariate_form, commit", "ip_proofs/src/applications/poly_commit/transparent.rs"]}
{"id": "C40", "title": "Transparent bivariate and univariate completeness", "statement": "For the transparent scheme with x_degree+1 and y_degree+1 powers of two: commit, open, verify accept the evaluation of every polynomial that fits, at every point; likewise the univariate wrapper for 1 <= d < 2^52.", "quantifier": "all sizes, polynomials, points, keys", "why_tests_cant": "unit test uses one size; the univariate one is ignored", "anchors": ["ip_proofs/src/applications/poly_commit/transparent.rs: BivariatePolynomialCommitment::*, UnivariatePolynomialCommitment::*"]}
{"id": "C41", "title": "Groth16 aggregation completeness", "statement": "If n = 2^k (k >= 1) Groth16 proofs each satisfy the verification equation for their public inputs, the aggregate of the n proofs verifies for these inputs, whenever the derived challenge r is neither 0 nor 1.", "quantifier": "all n, proofs, verifying keys, public inputs, trapdoors", "why_tests_cant": "the repo has no unit test of aggregation at all", "anchors": ["ip_proofs/src/applications/groth16_aggregation.rs: setup_inner_product, aggregate_proofs, verify_aggregate_proof"]}
{"id": "C42", "title": "An accepted aggregate certifies the given public inputs", "statement": "If verify_aggregate_proof accepts then each proof satisfies its Groth16 equation for its public inputs. [Violated: r is not bound to the public inputs, so other inputs with the same r-combination are accepted with the same proof.]", "quantifier": "all aggregates and public inputs", "why_tests_cant": "quantifies over adversarial inputs", "anchors": ["ip_proofs/src/applications/groth16_aggregation.rs: verify_aggregate_proof"]}
{"id": "C43", "title": "The random linear combination catches invalid proofs", "statement": "If some proof in a batch of n is invalid for its public inputs, the aggregated pairing equation holds for at most n-1 values of the challenge r.", "quantifier": "all batches, keys, inputs", "why_tests_cant": "counts bad challenges over a whole field", "anchors": ["ip_proofs/src/applications/groth16_aggregation.rs: verify_aggregate_proof"]}
{"id": "C44", "title": "Aggregation does not panic on degenerate challenges", "statement": "aggregate and verify return a Result for every value of the challenge. [Violated: r = 1 makes verification divide by zero; r = 0 makes aggregation of n >= 2 proofs unwrap None.]", "quantifier": "all challenge values", "why_tests_cant": "cannot be reached by sampling: probability 2^-255", "anchors": ["ip_proofs/src/applications/groth16_aggregation.rs"]}
{"id": "C45", "title": "SIPP completeness", "statement": "For every n = 2^k with k >= 1 and all a, b, r, SIPP::verify accepts the proof SIPP::prove makes for the true value, unless a challenge is zero (in which case prove panics).", "quantifier": "all k >= 1, vectors, hash functions, stream ciphers, schedules", "why_tests_cant": "unit test: one size, fixed seed", "anchors": ["sipp/src/lib.rs: SIPP::prove, SIPP::verify"]}
{"id": "C46", "title": "SIPP soundness", "statement": "If SIPP::verify accepts a wrong value, then in some round the challenge lies in a set of at most 3 field elements that is determined by the statement and the proof elements up to and including that round.", "quantifier": "all statements, all proofs, all sizes", "why_tests_cant": "quantifies over all adversarial proofs", "anchors": ["sipp/src/lib.rs: SIPP::verify"]}
{"id": "C47", "title": "SIPP::verify accepts exactly when the folded pairing equation holds", "statement": "SIPP::verify returns Ok(true) iff e(sum_i s_i r_i a_i, sum_i s_i^-1 b_i) = value + sum_j (x_j z_l_j + x_j^-1 z_r_j), s_i the product over set bits of i of the challenges (first challenge on the top bit).", "quantifier": "all statements and proofs", "why_tests_cant": "iff over all inputs", "anchors": ["sipp/src/lib.rs: SIPP::verify"]}
{"id": "C48", "title": "SIPP input validation", "statement": "SIPP::verify and prove panic on lengths that are not a power of two or unequal; verify never accepts a proof with a number of rounds other than log2(n) although the comparison is done in f32, and never accepts when r is shorter than a.", "quantifier": "all lengths and proofs", "why_tests_cant": "all lengths; float comparison", "anchors": ["sipp/src/lib.rs: SIPP::prove, SIPP::verify"]}
{"id": "C49", "title": "SIPP works for every length its prover accepts", "statement": "Every statement for which prove returns a proof can be verified. [Violated at n = 1: prove succeeds, verify panics. Violated when r has fewer elements than a: prove may return a proof, verify panics.]", "quantifier": "all power-of-two lengths", "why_tests_cant": "boundary case not covered by unit tests", "anchors": ["sipp/src/lib.rs"]}
{"id": "C50", "title": "The SIPP seed binds the whole statement", "statement": "Two statements (a, b, r, value) give equal seed bytes only if they are equal; each later challenge binds the previous state and both round elements.", "quantifier": "all pairs of statements", "why_tests_cant": "injectivity over all pairs", "anchors": ["sipp/src/lib.rs: seed", "sipp/src/rng.rs: absorb"]}
{"id": "C51", "title": "FiatShamirRng is a deterministic function of the absorbed messages", "statement": "After from_seed(s) and absorb(m1)...absorb(mk), all outputs depend only on H(mk || ... H(m1 || H(s))), not on how much output was drawn before the last absorb; from_seed(s).absorb(m) is the same state as from_seed(m || H(s)).", "quantifier": "all histories of seed, absorb and draw operations", "why_tests_cant": "an operation-history property", "anchors": ["sipp/src/rng.rs: FiatShamirRng"]}
{"id": "C52", "title": "Public inputs of the aggregate are validated", "statement": "verify_aggregate_proof rejects public-input rows whose length does not match the verifying key. [Only row 0 is checked: extra trailing elements in other rows are ignored; short rows panic.]", "quantifier": "all public input matrices", "why_tests_cant": "ragged inputs are not tested", "anchors": ["ip_proofs/src/applications/groth16_aggregation.rs: verify_aggregate_proof"]}
{"id": "C53", "title": "TIPA::verify accepts exactly when its equations hold", "statement": "For every verifier key with trapdoors alpha and beta, commitments, proof and nonzero shift r, TIPA::verify_with_srs_shift returns Ok(true) exactly when: the round challenges c_1..c_k exist and k >= 1; z is the point decoded from the hash of c_k and the final keys; both openings satisfy ck - f(z) * generator = (trapdoor - z) * opening, where f is the key polynomial of the challenges with the shift r^-1 on the left key; and the three base commitments equal the folded commitments. In the pairing instantiation the latter are pairing equations.", "quantifier": "all keys, statements, proofs, shifts, digests and thread counts", "why_tests_cant": "acceptance is a statement about all proofs, tests only run honest ones", "anchors": ["ip_proofs/src/tipa/mod.rs: verify, verify_with_srs_shift, verify_commitment_key_g2_kzg_opening, verify_commitment_key_g1_kzg_opening"]}
{"id": "C54", "title": "TIPAWithSSM::verify accepts exactly when its equations hold", "statement": "For every verifier key, commitment pair, scalar b and proof, TIPAWithSSM::verify_with_structured_scalar_message returns Ok(true) exactly when: the challenges exist and there is at least one round; the opening of the final key holds at the hashed point; the base element commits to the folded left commitment under the final key; and prod_j (1 + c_(k-j)^-1 b^(2^j)) times the base element is the folded inner-product value. The scalar in the proof's base is not looked at.", "quantifier": "all keys, statements, scalars and proofs", "why_tests_cant": "acceptance is a statement about all proofs, tests only run honest ones", "anchors": ["ip_proofs/src/tipa/structured_scalar_message.rs: TIPAWithSSM::verify_with_structured_scalar_message"]}
{"id": "C55", "title": "GIPAWithSSM::verify accepts exactly when its equations hold", "statement": "For every key, commitment pair, scalar b and proof, GIPAWithSSM::verify_with_structured_scalar_message returns Ok(true) exactly when: the challenges exist; the key length is 2^rounds; the placeholder scalars of the rounds fold to zero; the base element commits to the folded left commitment under the folded key; and both the scalar of the proof's base and prod_j (1 + c_(k-j)^-1 b^(2^j)), times the base element, equal the folded inner-product value.", "quantifier": "all keys, statements, scalars and proofs", "why_tests_cant": "acceptance is a statement about all proofs, tests only run honest ones", "anchors": ["ip_proofs/src/tipa/structured_scalar_message.rs: GIPAWithSSM::verify_with_structured_scalar_message"]}
{"id": "C56", "title": "TIPA is as sound as GIPA with the full keys", "statement": "If the final keys of a TIPA proof are the folded SRS keys then TIPA::verify accepts only if GIPA::verify accepts the inner proof with the (shifted) full keys, and conversely when the openings hold. If the final keys and openings are known combinations of SRS elements and TIPA accepts, then GIPA accepts with the full keys, or the hashed point z is one where two different polynomials agree, or a trapdoor is a root of an explicit nonzero polynomial.", "quantifier": "all SRS, shifts, statements and proofs", "why_tests_cant": "soundness is about all dishonest provers", "anchors": ["ip_proofs/src/tipa/mod.rs: verify_with_srs_shift", "ip_proofs/src/gipa.rs: verify"]}
{"id": "C57", "title": "Verifying an untrusted TIPA proof does not panic", "statement": "For every statement and proof TIPA::verify and TIPAWithSSM::verify return a boolean or an error, never panic. [Violated: a proof without rounds panics in transcript.first().unwrap(), the shift 0 in inverse().unwrap().]", "quantifier": "all statements and proofs, as deserialised from the network", "why_tests_cant": "malformed proofs are not tested", "anchors": ["ip_proofs/src/tipa/mod.rs: verify_with_srs_shift", "ip_proofs/src/tipa/structured_scalar_message.rs: TIPAWithSSM::verify_with_structured_scalar_message"]}
{"id": "C58", "title": "What the polynomial-commitment verifiers accept", "statement": "verify(v_srs, com, point, eval, proof) of BivariatePolynomialCommitment returns true exactly when the final key opens at the hashed point to the folded key polynomial, the folded commitment equals the pairing of the base element with the final key, the folded y_eval_comm equals the base element times prod_j (1 + c_j^-1 x^(2^j)), and y_eval_comm - eval g = (alpha - y) kzg_proof. The univariate verifier does the same with x = point^(number of KZG powers in the SRS for that degree).", "quantifier": "all trapdoors, commitments, points, values and proofs", "why_tests_cant": "rejecting all bad proofs is a claim about all proofs", "anchors": ["ip_proofs/src/applications/poly_commit/mod.rs: BivariatePolynomialCommitment::verify, UnivariatePolynomialCommitment::verify, KZG::verify"]}
{"id": "C59", "title": "What the transparent polynomial-commitment verifiers accept", "statement": "verify of the transparent bivariate scheme returns true exactly when both inner arguments hold for the round challenges: the outer one for (com, y_eval_comm, x) with the second key and the inner one for (y_eval_comm, eval, y) with the first key, each including that the unused scalar component folds to zero and that both the base scalar and the recomputed scalar fit. The univariate verifier does the same with x = point^(size of the first key).", "quantifier": "all keys, commitments, points, values and proofs", "why_tests_cant": "rejecting all bad proofs is a claim about all proofs", "anchors": ["ip_proofs/src/applications/poly_commit/transparent.rs: verify"]}
{"id": "C60", "title": "What the aggregate Groth16 verifier accepts", "statement": "verify_aggregate_proof returns Ok(true) exactly when: there is at least one row of public inputs, the first has one element less than gamma_abc_g1 and none is shorter; the challenge r hashed from com_a, com_b, com_c is neither 0 nor 1; the TIPA argument for (com_a, com_b, ip_ab) shifted by r and the structured argument for (com_c, agg_c, r) satisfy their folded group equations and key openings; and ip_ab = sum_i r^i (e(alpha, beta) + e(abc_0 + sum_j x_ij abc_(j+1), gamma)) + e(agg_c, delta). Hence ip_ab and agg_c are determined by the rest of an accepted proof, and an accepted proof is accepted for exactly the usable inputs with the same random combination.", "quantifier": "all trapdoors, verifying keys, public inputs and aggregate proofs, honest or not", "why_tests_cant": "rejecting all bad proofs is a claim about all proofs", "anchors": ["ip_proofs/src/applications/groth16_aggregation.rs: verify_aggregate_proof"]}
{"id": "C61", "title": "A polynomial commitment opens to one value per point", "statement": "It is infeasible to make two proofs that a commitment opens at a point to different values. [Violated in all four schemes: the claimed value and y_eval_comm are not hashed into the challenges, and an explicit program that uses only public data and the library's functions makes an accepted opening to another value for every committed polynomial and point.]", "quantifier": "all polynomials within the capacity, all points", "why_tests_cant": "tests run honest provers only", "anchors": ["ip_proofs/src/applications/poly_commit/mod.rs: open, verify", "ip_proofs/src/applications/poly_commit/transparent.rs: open, verify", "ip_proofs/src/gipa.rs: _compute_recursive_challenges"]}
{"id": "C62", "title": "What batch verification of Groth16 proofs accepts", "statement": "For a verifying key with at least one element in gamma_abc_g1, batch_verify_proof always returns a boolean, and it is true exactly when sum_i rho_i e(A_i, B_i) = (sum_i rho_i) e(alpha, beta) + e(sum_i rho_i (abc_0 + sum_j x_ij abc_(j+1)), gamma) + sum_i rho_i e(C_i, delta), rho_i being the i-th scalar drawn from the generator. Hence it accepts every list of valid proofs with their inputs. With an empty gamma_abc_g1 it panics.", "quantifier": "all generators, verifying keys, public inputs and proofs, honest or not", "why_tests_cant": "an exact acceptance condition concerns all proofs", "anchors": ["benches/benches/groth16_aggregation/bench.rs: batch_verify_proof"]}
{"id": "C63", "title": "Batch verification accepts only valid proofs", "statement": "If batch_verify_proof accepts, every proof is a valid Groth16 proof for its public inputs. [Violated: the scalars come from a generator with the fixed seed 0 and do not depend on the proofs, so an explicit program makes accepted proofs for any two or more rows of inputs from the verifying key alone; rows of inputs beyond the number of proofs are not checked. For one proof the check is exact, and an invalid proof is accepted for at most one value of its scalar when the others are fixed.]", "quantifier": "all generators, verifying keys, public inputs and proofs", "why_tests_cant": "the benchmark only verifies honest proofs; soundness concerns all others", "anchors": ["benches/benches/groth16_aggregation/bench.rs: batch_verify_proof"]}
{"id": "C64", "title": "The benchmark programs verify what they prove", "statement": "For every generator, every length 2^k (k >= 1 for TIPA) and every number of trials, the GIPA, TIPA (plain, multiexponentiation, shifted SRS, structured message) and inner-product benchmarks run to the end with every verification returning true, and the polynomial-commitment benchmark (KZG, IPA, transparent IPA at degrees 4^i - 1, up to 26 data points) never fails its assertion. The only exception is a scalar 0 drawn for the SRS shift, which panics.", "quantifier": "all generators, lengths, degrees and numbers of trials; any digest whose challenge loops end", "why_tests_cant": "the GIPA and TIPA benchmarks drop the boolean, use one length and one seed", "anchors": ["benches/benches/gipa.rs: bench_gipa, main", "benches/benches/tipa.rs: bench_tipa, bench_tipa_srs_shift, bench_tipa_ssm, main", "benches/benches/inner_products.rs: bench_inner_product, main", "benches/benches/poly_commit.rs: main"]}
{"id": "C65", "title": "The SIPP scaling example accepts every range of sizes", "statement": "For every 0 <= log_min <= log_max < 64 the example proves and verifies all sizes without panicking, unless a challenge is 0. [Violated for log_min = 0: the prover makes a proof for one pair and the verifier panics on it. Violated for log_max >= 31: the number of elements `1 << max_num_inputs` is computed as an i32, so the vectors are empty or too short (or the shift panics) and every such run panics.]", "quantifier": "all sizes, generators and shuffles", "why_tests_cant": "the example is not a test", "anchors": ["sipp/examples/scaling-ipp.rs: main", "sipp/src/lib.rs: verify"]}
{"id": "C66", "title": "Command lines are read as the usage text says", "statement": "Each program asked for help prints its usage and stops without panicking; with arguments as in the usage text it gets exactly these numbers and flags (missing flags are true), also when cargo appends --bench. [Violated: <monolithic_proof> of the Groth16 benchmark is never read, <generate_all_proofs> is used in its place; the scaling example panics after its help text; one number instead of two panics.]", "quantifier": "all argument lists of the given form, all numbers below 2^64", "why_tests_cant": "command lines are not tested", "anchors": ["benches/benches/groth16_aggregation/bench.rs: main", "benches/benches/poly_commit.rs: main", "sipp/examples/scaling-ipp.rs: main"]}
{"id": "C67", "title": "Serialized proofs are read back unchanged", "statement": "For GIPAProof, TIPAProof and TIPAWithSSMProof, over any element encodings that round-trip: deserializing a serialized proof followed by any bytes returns exactly that proof and leaves exactly those bytes; if the element encodings are canonical, the only bytes read as a proof are the bytes written for it; with element encodings of constant size a proof with k rounds takes 8 + 2k(|output_a| + |output_b| + |output_t|) + |base_a| + |base_b| bytes. Placeholder keys round-trip, take no bytes, and a vector of them takes 8 bytes.", "quantifier": "all proofs (honest or not) with vectors shorter than 2^64, all inputs, all element encodings", "why_tests_cant": "no test serializes a proof; holds for all proofs and all byte strings", "anchors": ["ip_proofs/src/gipa.rs: GIPAProof", "ip_proofs/src/tipa/mod.rs: TIPAProof", "ip_proofs/src/tipa/structured_scalar_message.rs: TIPAWithSSMProof", "dh_commitments/src/identity/mod.rs: IdentityOutput, HomomorphicPlaceholderValue", "dh_commitments/src/identity/mod.rs:17-18"]}
{"id": "C68", "title": "Groth16 aggregation programs run to the end for 2, 4, 8, ... proofs", "statement": "The Groth16 aggregation example and the Groth16 aggregation benchmark (every number of trials, all options: recursion, all proofs, monolithic) run to their end with every assertion satisfied whenever the number of proofs is a power of two greater than 1, the underlying SNARK is complete for their circuits and no challenge is 0 or 1; and for any other number of proofs (and at least one trial) they never reach their end, whatever the SNARK does. If the setup of the SNARK, or the proof for one of the drawn circuits of the example, or the first proof of the benchmark returns an error, the program panics.", "quantifier": "all numbers of proofs, inputs and trials, all options, all generator states, all pairings, all thread environments, all SNARKs", "why_tests_cant": "the programs are run by hand for single sizes", "anchors": ["benches/examples/groth16_aggregation.rs: main, TestCircuit", "benches/benches/groth16_aggregation/bench.rs: main", "ip_proofs/src/applications/groth16_aggregation.rs: aggregate_proofs"]}
{"id": "C69", "title": "An accepted TIPA proof certifies the claimed inner product of the committed vectors", "statement": "If TIPA::verify (or verify_with_srs_shift, or TIPAWithSSM::verify_with_structured_scalar_message) accepts a proof for commitments to vectors a and b and a claimed value t, then t is the inner product of a and b. [Violated: the claimed value is not hashed into the challenges; an explicit program using only the SRS makes, for all vectors, every shift and every d, a proof that is accepted for the honest commitments and a value other than the inner product.] From a tree of accepted proofs with distinct challenges and correct final keys, vectors that open the commitments and have inner product t are extracted, or a relation between the key elements.", "quantifier": "all setups, all sizes 2^k with k >= 1, all vectors, all shifts, all differences d <> 0, all hash functions and thread counts; all trees of accepted proofs", "why_tests_cant": "tests only run the honest prover and a changed value against an honest proof; the claim is about all provers", "anchors": ["ip_proofs/src/tipa/mod.rs: TIPA::verify, verify_with_srs_shift", "ip_proofs/src/tipa/structured_scalar_message.rs: verify_with_structured_scalar_message", "ip_proofs/src/gipa.rs: verify_recursive_challenge_transcript"]}
{"id": "C70", "title": "The test circuit of the Groth16 example states that the last input is the witness plus the sum of the others", "statement": "TestCircuit of the aggregation example allocates its public inputs in order followed by the sum, and one witness; its constraints depend only on the number of inputs; for any values of the public inputs x, s and the witness w they are satisfied exactly when s = w + sum x. The circuits made by the program are satisfied; and for every x and s some witness satisfies the constraints, so the circuit excludes no statement.", "quantifier": "all fields, all numbers and values of inputs, all witnesses", "why_tests_cant": "the program runs a single honest circuit per size; the relation is about all assignments", "anchors": ["benches/examples/groth16_aggregation.rs: TestCircuit::generate_constraints"]}
{"id": "C71", "title": "The public inputs of the Blake2s circuits stand for exactly one list of hashes", "statement": "The conversion of a hash to field elements (ToConstraintField for [u8]) never fails, is the little-endian value of consecutive chunks, has ceil(len/fit) elements, and is injective; with the converted hashes as public inputs the constraints of SingleBlake2SCircuit and ManyBlake2SCircuit are satisfied exactly when each hash is the Blake2s hash of its witness; the circuits satisfied by public inputs are only those of converted hashes. [Last part violated: the circuit drops the bits above the bytes of each element, so public inputs which are not the conversion of any hash also satisfy it.]", "quantifier": "all prime fields, all hash functions with 32-byte outputs, all lists of hashes and witnesses", "why_tests_cant": "the benchmark only uses honest inputs and outputs", "anchors": ["benches/benches/groth16_aggregation/bench.rs: SingleBlake2SCircuit, ManyBlake2SCircuit"]}
{"id": "C72", "title": "The recursive verifier circuit states that each proof is valid for its hash", "statement": "The public inputs which AggregateBlake2SCircuitVerificationCircuit allocates are the ones the benchmark computes outside (get_verifier_input), it panics exactly when the numbers of hashes and proofs differ, different lists of hashes have different public inputs, and its constraints hold exactly when each Groth16 proof is valid for its hash; no other public inputs satisfy them. [Last part violated: adding the modulus to an encoded element gives other public inputs which also satisfy the constraints.]", "quantifier": "all pairs of prime fields, all pairings, all verifying keys, all lists of hashes and proofs", "why_tests_cant": "the benchmark only uses honest proofs and inputs", "anchors": ["benches/benches/groth16_aggregation/bench.rs: AggregateBlake2SCircuitVerificationCircuit, AggregateBlake2SCircuitVerificationCircuitInput"]}
{"id": "C73", "title": "The Groth16 programs only need a Groth16 that is complete for satisfied constraint systems", "statement": "If setup and proving of the underlying Groth16 succeed and give valid proofs for every satisfied constraint system of the shape that was set up, then the aggregation example and the aggregation benchmark (with every option) run to their end with every assertion satisfied for 2, 4, 8, ... proofs: all circuits which they synthesize are satisfied, have the shape that was set up, and have the public inputs used for verification.", "quantifier": "all numbers of trials, powers of two, options, generator states, pairings, thread environments, hash functions", "why_tests_cant": "the programs are run by hand for single sizes and seeds", "anchors": ["benches/examples/groth16_aggregation.rs: main, TestCircuit", "benches/benches/groth16_aggregation/bench.rs: main, circuits"]}
{"id": "C74", "title": "From accepted proofs for a public scalar base with enough different challenges an opening is computed", "statement": "Given a tree of accepted proofs of GIPAWithSSM (or of TIPAWithSSM with the folded final keys) for one commitment com and one public scalar b, with four different challenges at each round, an explicit program computes a vector a which opens com under the key and whose inner product with 1, b, b^2, ... is the claimed value, or a non-zero vector which commits to zero (a collision of the commitment).", "quantifier": "all linear commitments and inner products, keys, commitments, scalars and trees of accepted proofs (which may come from different hash functions)", "why_tests_cant": "extraction is a claim about all provers", "anchors": ["ip_proofs/src/tipa/structured_scalar_message.rs: GIPAWithSSM::verify_with_structured_scalar_message, TIPAWithSSM::verify_with_structured_scalar_message"]}
{"id": "C75", "title": "From accepted aggregates valid Groth16 proofs are computed", "statement": "Given accepted aggregate proofs with the same three commitments for at least as many different challenges r as there are rows of public inputs, and for each r a tree of round challenges as in C69 and C74 for the two inner arguments (final keys being the folded ones), an explicit program computes Groth16 proofs, valid for every row of public inputs and opening the three commitments, or two different openings of one commitment.", "quantifier": "all SRS, verifying keys, rows of public inputs, commitments and families of accepted aggregate proofs", "why_tests_cant": "knowledge soundness is a claim about all provers", "anchors": ["ip_proofs/src/applications/groth16_aggregation.rs: verify_aggregate_proof"]}
{"id": "C76", "title": "From accepted openings of the transparent scheme the committed polynomial is computed", "statement": "Given accepted openings of one commitment of the transparent polynomial commitment at points with at least as many different x-coordinates as the second key has elements (and at any number of further points), each with a tree of round challenges for its two inner arguments as in C74, an explicit program computes a polynomial of the size of the keys whose commitment is the given one and which takes all the claimed values, or two different openings of a Pedersen or AFGHO commitment. For the univariate scheme the point z is used as (z^m, z), m the length of the first key, and the polynomial is univariate of degree below the product of the key lengths.", "quantifier": "all keys, commitments, families of points, claimed values and accepted openings (with any hash functions)", "why_tests_cant": "extraction is a claim about all provers", "anchors": ["ip_proofs/src/applications/poly_commit/transparent.rs: BivariatePolynomialCommitment::verify, UnivariatePolynomialCommitment::verify"]}
{"id": "C77", "title": "Two accepted values for one point of the trusted-setup scheme break an assumption", "statement": "Given a setup with trapdoor alpha and accepted openings of one commitment at one point (x, y) to two different values, each with a tree of round challenges for its inner argument with the folded final key, an explicit program computes two different openings of the AFGHO commitment to the row commitments, or the group element g/(alpha - y), a solution of the strong Diffie-Hellman problem. The same holds for the univariate scheme with y the point.", "quantifier": "all setups and degrees, commitments, points, pairs of different values and accepted openings (with any hash functions)", "why_tests_cant": "binding of the evaluation is a claim about all provers", "anchors": ["ip_proofs/src/applications/poly_commit/mod.rs: BivariatePolynomialCommitment::verify, UnivariatePolynomialCommitment::verify"]}
{"id": "C78", "title": "Outcome of the polynomial commitment functions for every polynomial", "statement": "After a setup for degrees (x_degree, y_degree), commit of the bivariate scheme returns the commitment sum_i p_i(alpha) beta^(2i) e(g, h) with the row commitments p_i(alpha) g when p has at most x_degree + 1 rows of degree at most y_degree, and panics otherwise. KZG::open of a polynomial of degree at most the setup's returns the quotient commitment and panics for any higher degree. The transparent commit returns the two-tier Pedersen/AFGHO commitment when the coefficient matrix fits the keys and panics otherwise. The univariate commit functions always return on a key made by setup (for non-empty keys in the transparent scheme), whatever the degree of the polynomial.", "quantifier": "all setups, keys, polynomials (of any size), points", "why_tests_cant": "tests commit only to polynomials of exactly the setup degree", "anchors": ["ip_proofs/src/applications/poly_commit/mod.rs: KZG::open, BivariatePolynomialCommitment::commit, UnivariatePolynomialCommitment::commit", "ip_proofs/src/applications/poly_commit/transparent.rs: commit"]}
{"id": "C79", "title": "Number of threads and schedule do not change any outcome", "statement": "For every two thread counts of at least one and every two shapes of the parallel reductions, each of these calls has the same outcome (same value, same error, or both panic): prove and verify of GIPA and TIPA (with and without shift) with each inner product, the arguments with a structured scalar, commit/open/verify of the four polynomial commitments, aggregate_proofs and verify_aggregate_proof, and SIPP verify and prove, as well as product_of_pairings.", "quantifier": "all inputs, thread counts >= 1, reduction shapes, hash functions", "why_tests_cant": "a test run sees one thread count and one schedule", "anchors": ["inner_products/src/lib.rs: cfg_multi_pairing, ScalarInnerProduct", "sipp/src/lib.rs: product_of_pairings_with_coeffs, prove, verify", "ip_proofs/src/gipa.rs", "ip_proofs/src/tipa/mod.rs"]}
{"id": "C80", "title": "A univariate opening proves the value of exactly the coefficients that fit the key", "statement": "For both univariate polynomial commitments (UnivariatePolynomialCommitment in poly_commit/mod.rs and its transparent variant), for every degree d with 1 <= d and d + 1 < 2^64 given to setup, setup succeeds with a key for some number cap of coefficients. For every polynomial p of any length and every point z, commit succeeds, and the opening the prover computes for p at z is accepted by verify for a claimed value e if and only if e is the value at z of the first cap coefficients of p. cap is at least d + 1 exactly when the float square root of d + 1 does not lose coefficients (d + 1 is not within 1.5 units in the last place above a power 4^k with 26 <= k <= 31). So for all other d a polynomial of degree at most d is opened to its value and to no other, also beyond d = 2^52; and for the exceptional d the honest opening of X^d at any non-zero point is accepted for 0 and not for its value.", "quantifier": "all d with 1 <= d and d + 1 < 2^64, all polynomials of any length, points, claimed values, generators' randomness, thread counts of prover and verifier, digests with at least 16 bytes of output", "why_tests_cant": "The tests use two small degrees and polynomials that fit; the exceptional degrees are far too large to run, and acceptance for exactly one value is a statement about every field element.", "anchors": ["ip_proofs/src/applications/poly_commit/mod.rs:291-377", "ip_proofs/src/applications/poly_commit/transparent.rs:220-305"]}
{"id": "C81", "title": "The unit tests of the repository pass for every randomness, with the exceptions named", "statement": "The unit tests of the crates, as programs over any seed: the three GIPA tests and the test of GIPA with a structured scalar message never fail, for vectors of any power-of-two length (also 1); the three TIPA tests without shift and the test of TIPA with a structured scalar message never fail, for any power-of-two length from 2; the TIPA test with a shifted key never fails unless the random shift scalar is zero, and then panics at the inverse; the bivariate and univariate polynomial commitment tests (also transparent) never fail, for 2^a rows (transparent: 2^b columns) respectively any degree d from 1 with d + 1 < 2^64 for which the split of C37 covers d; the Pedersen and AFGHO tests pass if the two random messages have different commitments and otherwise panic; the SIPP test passes for 2^k elements with 1 <= k < 64, or panics and then one of the verifier's challenges is zero. Not failing means ending without a panic or searching for a usable challenge for ever.", "quantifier": "all seeds (states of the random generator), lengths and degrees in the stated ranges, pairings, thread counts, digests with at least 16 bytes of output", "why_tests_cant": "These are the tests: each run of one is one seed and one length.", "anchors": ["dh_commitments/src/pedersen/mod.rs:29-55", "dh_commitments/src/afgho16/mod.rs:50-94", "ip_proofs/src/gipa.rs:445-562", "ip_proofs/src/tipa/mod.rs:424-580", "ip_proofs/src/tipa/structured_scalar_message.rs:342-424", "ip_proofs/src/applications/poly_commit/mod.rs:379-472", "ip_proofs/src/applications/poly_commit/transparent.rs:307-393", "sipp/src/lib.rs:226-255"]}
{"id": "C82", "title": "Outcome of the benchmark and example programs without assuming anything about the challenges", "statement": "For a power-of-two length, `benches/benches/gipa.rs` either searches for ever for a usable challenge or reports both proofs as verified; `benches/benches/tipa.rs` (length from 2) does the same for its four proofs, or panics and then some scalar drawn from its random source is 0; `benches/benches/poly_commit.rs` with at most 31 data points and any number of trials finishes or searches for ever, it never panics. The Groth16 aggregation example and benchmark, with 2^k proofs (k >= 1) of the shipped circuits and a complete SNARK, are decided by the first combination challenge r derived from the commitments to the proofs: no r found, the program does not end; r = 0, it panics; r = 1, it panics or does not end; otherwise it finishes or does not end, and it never panics. With no trials the benchmark finishes. The SIPP scaling example for 2^lo..2^hi elements, 1 <= lo, hi < 31, finishes, or panics and then some challenge computed from an honest run is 0. \"Searches for ever\" includes every challenge loop of the program. For all lengths, numbers and options, none of these programs ends with an error value: they unwrap what they call.", "quantifier": "all pairings, digests with at least 16 bytes of output, random sources, thread counts, lengths, trials and options in the stated ranges; no assumption that challenge loops end or that challenges differ from 0 and 1", "why_tests_cant": "The exceptional values 0 and 1 have probability about 2^-255 under a real hash; running the programs never meets them.", "anchors": ["benches/benches/gipa.rs:19-95", "benches/benches/tipa.rs:25-249", "benches/benches/poly_commit.rs:51-278", "benches/benches/groth16_aggregation/bench.rs:242-526", "benches/examples/groth16_aggregation.rs:41-110", "sipp/examples/scaling-ipp.rs:40-84"]}
{"id": "C83", "title": "Number of expensive operations of provers and verifiers; SIPP verifies with a single pairing", "statement": "Let k be the number of rounds of the submitted proof. TIPA verification performs at most 4 pairings, 4 scalar multiplications of group elements, 6k scalar multiplications of commitments, one inner product and three commitments of one element, whatever the proof and whatever the outcome; an accepted proof costs exactly that, plus at least one digest call per challenge. The structured-scalar variant needs 2 pairings, 2 scalings and two one-element commitments, an opening of the polynomial commitment 4 and 4; an aggregated Groth16 proof 9 pairings, 8+l scalings, and field work linear in the number of rows times the number l of public inputs. A proof produced by the prover for n = 2^k values has exactly k rounds, so these verifiers are logarithmic in n and need no key of length n. GIPA and the transparent commitment additionally build exponent vectors and fold the keys (linear in n when the number of rounds is right). SIPP verification performs exactly one pairing, two multi-exponentiations of n elements, 2 log n multiplications in the target group and 1 + log n digest calls. GIPA proving of n values performs 4(n-1) scalings, commits to 4(n-1) messages in all and multiplies 2(n-1) elements in inner products; SIPP proving performs n + 4(n-1) scalings and 2(n-1) pairings.", "quantifier": "all pairings, commitment schemes, digests, keys, statements and proofs (also malformed ones), all n = 2^k; every assignment of prices to the counted operations", "why_tests_cant": "Benchmarks measure time for a few sizes and honest proofs; the bound must hold for every size and every submitted proof, and the exact counts are invisible in timings.", "anchors": ["ip_proofs/src/gipa.rs:135-160", "ip_proofs/src/gipa.rs:181-415", "ip_proofs/src/tipa/mod.rs:242-301", "ip_proofs/src/tipa/mod.rs:340-370", "ip_proofs/src/tipa/structured_scalar_message.rs:86-127", "ip_proofs/src/tipa/structured_scalar_message.rs:270-331", "ip_proofs/src/applications/poly_commit/mod.rs:108-117", "ip_proofs/src/applications/poly_commit/mod.rs:264-283", "ip_proofs/src/applications/poly_commit/transparent.rs:188-212", "ip_proofs/src/applications/groth16_aggregation.rs:162-231", "sipp/src/lib.rs:42-224"]}
{"id": "C84", "title": "Work of GIPA::verify and of transparent verification is bounded by the sizes of the arguments", "statement": "The number of field elements GIPA::verify, and the verification of a transparent opening, computes is at most a constant times the lengths of the commitment keys plus the number of rounds of the proof. (Refuted: for k submitted rounds it computes 2(2^k - 1) elements before it compares their number with the length of the keys, and then panics; a short message of k rounds costs the verifier exponential time and memory. True when the number of rounds is the logarithm of the key length, in particular whenever verify returns an answer.)", "quantifier": "all commitment schemes, digests for which the challenge loops end, keys of equal power-of-two length, commitments and proofs with any number of rounds", "why_tests_cant": "The tests verify honest proofs only; the cost for malformed proofs is a statement about every number of rounds.", "anchors": ["ip_proofs/src/gipa.rs:135-160", "ip_proofs/src/gipa.rs:365-399", "ip_proofs/src/tipa/structured_scalar_message.rs:86-127", "ip_proofs/src/applications/poly_commit/transparent.rs:188-212"]}
{"id": "C85", "title": "Benchmark tables: one row per measurement, verify rows only for accepted checks", "statement": "The CSV printed by the polynomial commitment benchmark and by the Groth16 benchmark is the header followed by a beginning of a fixed table determined by the command line (scheme, function, trial, degree or number of proofs, in order); it is the whole table if the program ends normally, and nothing is printed if no numbers were given. Writing the table does not change the outcome. A row \"verify\" is printed only for a check that accepted. [Violated by the Groth16 benchmark: it prints the row and then panics if the result is false.]", "quantifier": "all argument lists, clocks, generators, digests, SNARKs; normal end, panic and non-termination of the programs", "why_tests_cant": "benchmarks are not tested and the failing path needs an invalid proof", "anchors": ["benches/benches/poly_commit.rs: main", "benches/benches/groth16_aggregation/bench.rs: main"]}
{"id": "C86", "title": "Exact size of honest proofs, and reading them back", "statement": "A proof returned by the GIPA prover for 2^k values takes exactly 8 + 2k(oA + oB + oT) + sA + sB bytes, where the letters are the sizes of the commitments and of the messages; TIPA adds two elements of each source group, the structured-scalar TIPA two elements of G2. An inner-product commitment of an honest proof is a vector with one element (8 bytes and the element). Reading the bytes of an honest proof, followed by anything, returns that proof and leaves what follows. This holds for the proofs inside Groth16 aggregates of 2^k proofs and inside the openings of both polynomial commitments: their size is linear in k, not in 2^k.", "quantifier": "all k, messages, keys, digests, commitment schemes and element codecs of fixed size; all successful prover runs", "why_tests_cant": "tests never serialize a proof; the size for every number of values is a statement about all of them", "anchors": ["ip_proofs/src/gipa.rs: GIPAProof (derive CanonicalSerialize), _prove", "ip_proofs/src/tipa/mod.rs: TIPAProof", "ip_proofs/src/tipa/structured_scalar_message.rs: TIPAWithSSMProof", "dh_commitments/src/identity/mod.rs: IdentityOutput"]}
{"id": "C87", "title": "For which inputs the argument provers return a proof", "statement": "GIPA::prove_with_aux, for messages and keys of any lengths: it panics if the number of left messages is not a power of two or one of the other three vectors has fewer than half as many elements (none, for a single message); it returns an error naming two different lengths if none is that short but not all four lengths agree; otherwise it returns a proof or is still searching a challenge. One message with longer (non-empty) other vectors counts as well-formed. TIPA::prove_with_srs_shift returns a proof only if all four vectors have the same length 2, 4, 8, ..., both vectors of the reference string have exactly 2n-1 elements and the shift is not 0, and then always unless a challenge search goes on; it searches only if the four lengths agree. The provers for a public scalar base behave in the same way. aggregate_proofs returns an aggregate only for 2, 4, 8, ... proofs and a reference string of exactly that size, whatever it contains; for those it panics if its first challenge is 0, and else returns an aggregate unless a search goes on.", "quantifier": "all lengths of all vectors, all contents, all reference strings (honest or not), all digests, all commitment schemes that refuse vectors of different lengths, all thread environments", "why_tests_cant": "the tests only call the provers with matching powers of two and an honest reference string of the right size", "anchors": ["ip_proofs/src/gipa.rs: prove_with_aux, _prove", "ip_proofs/src/tipa/mod.rs: prove_with_srs_shift, prove_commitment_key_kzg_opening", "ip_proofs/src/tipa/structured_scalar_message.rs: prove_with_structured_scalar_message", "ip_proofs/src/applications/groth16_aggregation.rs: aggregate_proofs"]}
{"id": "C88", "title": "An accepted proof cannot be altered by a third party without redoing its rounds", "statement": "Two proofs accepted by the same verifier call that agree on the rounds (and, for TIPA, on the final keys) are equal: the KZG opening, the last messages and the key openings are determined unless a challenge hits a trapdoor or a key is degenerate; for aggregates also ip_ab and agg_c, for polynomial openings also y_eval_comm. [For verify_with_structured_scalar_message of TIPAWithSSM the code violates it: the scalar in r_base is never read, so polynomial openings and aggregated Groth16 proofs stay accepted with any other scalar there.]", "quantifier": "all keys, statements, rounds, last messages, openings, digests and thread counts", "why_tests_cant": "the alternatives range over all group elements and scalars; a test alters one field of one proof", "anchors": ["ip_proofs/src/tipa/structured_scalar_message.rs", "ip_proofs/src/tipa/mod.rs", "ip_proofs/src/gipa.rs", "ip_proofs/src/applications/poly_commit/mod.rs", "ip_proofs/src/applications/groth16_aggregation.rs"]}
{"id": "C89", "title": "Which proofs each verifier answers", "statement": "Unless a search for a challenge goes on, each verifier either returns a boolean or panics, and which of the two depends only on the following. GIPA::verify: error for keys of unequal or non-power-of-two length, else it answers if the number of rounds is the logarithm of the key length. With a public scalar base (GIPAWithSSM): answers if the key has 2^rounds elements. TIPA: at least one round and a shift other than 0. TIPAWithSSM and the bivariate polynomial commitment: at least one round; the univariate one: also a maximal degree of at least 1. The transparent schemes: both keys have 2^rounds elements. Aggregated Groth16: both arguments have rounds, the combination challenge is neither 0 nor 1, there is a row of inputs, the first row fits the verifying key and no other row is shorter. KZG: always. Only GIPA::verify returns errors.", "quantifier": "all keys, statements, proofs, public inputs, digests and thread counts (max_degree < 2^52)", "why_tests_cant": "the input space is unbounded; the unit tests verify honest proofs only", "anchors": ["ip_proofs/src/gipa.rs", "ip_proofs/src/tipa/mod.rs", "ip_proofs/src/tipa/structured_scalar_message.rs", "ip_proofs/src/applications/poly_commit/mod.rs", "ip_proofs/src/applications/poly_commit/transparent.rs", "ip_proofs/src/applications/groth16_aggregation.rs"]}
{"id": "C90", "title": "Outputs of the identity commitment add up like the committed vectors", "statement": "`IdentityOutput` is added and scaled like a vector: sums are commutative, associative, scaling distributes over both sums, `Default` is the neutral element, and adding the commitments of two messages gives the commitment of their sum. [Violated for different lengths: addition silently truncates to the shorter output, so the tail of the longer message leaves no trace, and `Default` (the empty vector) absorbs every output instead of being neutral. The remaining laws hold for all lengths; the neutral values of x are the zero vectors at least as long as x.]", "quantifier": "all modules, all outputs of arbitrary (also different) lengths, all scalars", "why_tests_cant": "unit tests only add outputs of equal length", "anchors": ["dh_commitments/src/identity/mod.rs: Add, MulAssign, Default of IdentityOutput"]}
{"id": "C91", "title": "The file of the SIPP scaling example", "statement": "Started with log_min, log_max < 64 and a directory, the program writes <directory>/ipp-<threads>-threads.csv, where the number of threads is RAYON_NUM_THREADS if set (it panics without a file if that is no number) and the size of the pool otherwise. With overflow checks and log_max >= 32 it panics before it creates the file. The file is a beginning of a fixed table: a header (only if there is a row), then one row per size 2^log_min, 2^(log_min+1), .. with the binary64 averages of the direct, prover and verifier times of that size (20, 10, 5 or 1 repetitions; size 2^6 is measured once). A size has a row exactly if all proofs up to it were accepted; the table is complete exactly if the program ends normally. Writing it does not change the outcome. No time is negative or NaN.", "quantifier": "all clocks, generators, shuffles, digests, arguments, environment values, both build profiles; normal end and panic", "why_tests_cant": "the example is not a test, and a panic half way through is not exercised", "anchors": ["sipp/examples/scaling-ipp.rs: main"]}
{"id": "C92", "title": "Error texts identify the error", "statement": "The `Display` text of an error about lengths contains both lengths in order, from which they can be read off unambiguously, and differs from the text of the other error; the text identifies the error. [Violated: InnerProductError::MessageLengthInvalid and InnerProductArgumentError::MessageLengthInvalid have the same text, so which of them occurred is not told.]", "quantifier": "all errors with all lengths", "why_tests_cant": "texts are not tested; unboundedly many lengths", "anchors": ["inner_products/src/lib.rs: Display for InnerProductError", "ip_proofs/src/lib.rs: Display for InnerProductArgumentError"]}
{"id": "C93", "title": "Number of expensive operations of the TIPA provers, polynomial commitment, opening, Groth16 aggregation and setups", "statement": "TIPA proving of n = 2^k values performs what GIPA proving performs (4(n-1) scalings, commitments to 4(n-1) messages in all, inner products over 2(n-1) elements), plus two multi-exponentiations over 2n-1 bases, one per folded key, and 2(n-1) field elements for their exponents; the structured-scalar variant needs one of those. Setup for n values computes 2(2n-1)+2 multiples of the generators. Committing to a polynomial with nx rows and ny columns performs one multi-exponentiation over ny bases per row and one commitment to nx elements. Opening it performs three multi-exponentiations over 2ny + 2nx - 1 bases in all, 4(nx-1) scalings and commits to 4(nx-1) messages: the group work is linear in nx + ny, only field multiplications are proportional to nx*ny. The transparent opening is linear in nx + ny as well. Aggregating n Groth16 proofs performs five pairing products of n elements outside the two proofs, 2n + 8(n-1) scalings in all, and four multi-exponentiations over n + 3(2n-1) bases. The bounds hold for failing runs too; no run computes a single pairing outside a product.", "quantifier": "all pairings, commitment schemes, digests, reference strings, keys, messages, polynomials, points and numbers n = 2^k; every assignment of prices to the counted operations; all outcomes (upper bounds), all successful runs (exact counts up to repeated draws of a challenge)", "why_tests_cant": "Benchmarks time a few sizes; which operations are performed, and how often for every size, is not visible in timings.", "anchors": ["ip_proofs/src/tipa/mod.rs:150-231", "ip_proofs/src/tipa/mod.rs:304-337", "ip_proofs/src/tipa/mod.rs:372-422", "ip_proofs/src/tipa/structured_scalar_message.rs:70-84", "ip_proofs/src/tipa/structured_scalar_message.rs:211-268", "ip_proofs/src/applications/poly_commit/mod.rs:76-106", "ip_proofs/src/applications/poly_commit/mod.rs:153-262", "ip_proofs/src/applications/poly_commit/transparent.rs:101-186", "ip_proofs/src/applications/groth16_aggregation.rs:77-160"]}
{"id": "C94", "title": "How often a prover can convince by luck", "statement": "Take any deterministic prover that answers the challenges as they come, and N candidate challenges. (a) GIPA, GIPA with structured scalars, TIPA and TIPA with structured scalars: if of the N^k sequences of k challenges more than 3k N^(k-1) lead to acceptance (a share above 3k/N; in TIPA with the right final commitment keys, see C56), then a program that rewinds the prover finds vectors that open the commitments and have the claimed inner product, or a collision of a commitment key. (b) SIPP: for a wrong value at most 3k N^(k-1) sequences lead to acceptance, at most 2k N^(k-1) if 0 is not among the challenges; this is attained for k = 1. A prover betting on two challenges is given: for every value it convinces whenever one of the k challenges is one of the two and none is 0.", "quantifier": "all pairings, linear commitment schemes, keys, commitments, values, provers (functions from the challenges so far to the next message), finite sets of candidate challenges, numbers of rounds k; every hash function producing the challenges", "why_tests_cant": "A statement about every cheating prover and the share of its lucky challenges; tests run the honest prover with one challenge sequence.", "anchors": ["ip_proofs/src/gipa.rs:135-160", "ip_proofs/src/tipa/mod.rs:242-301", "ip_proofs/src/tipa/structured_scalar_message.rs:86-120", "ip_proofs/src/tipa/structured_scalar_message.rs:270-330", "sipp/src/lib.rs:109-180"]}
{"id": "C95", "title": "SIPP proofs of wrong values with a random hash function", "statement": "Let an adversary ask for Q hash values, each query depending on the answers so far, and then claim a statement (vectors, coefficients, value) and a proof, having asked for everything SIPP::verify hashes. Let the answers be from a set of M digests of equal size such that at most beta of them lead to the same 128-bit challenge. Then of the M^Q sequences of answers at most (3 beta + 2 Q) Q M^(Q-1) let the verifier accept a wrong value, provided the encoding of a statement never has the form of a pair of elements followed by a digest, which is so when all encodings have sizes divisible by 16; without that at most (3 beta + 2) Q^2 M^(Q-1).", "quantifier": "all pairings with prefix-free encodings, generators, adversaries, numbers of queries, sets of digests, vector lengths chosen by the adversary", "why_tests_cant": "Soundness of the non-interactive protocol against every adversary; a share of all hash functions, not an execution.", "anchors": ["sipp/src/lib.rs:109-180", "sipp/src/rng.rs:46-72"]}
{"id": "C96", "title": "How often a prover of aggregates or of transparent openings can convince by luck", "statement": "Take a deterministic prover for fixed commitments, Q first challenges (the combination challenge r of an aggregate; the point z of an opening), N candidate round challenges and k1 + k2 rounds in its two arguments. (a) aggregate_proofs for n proofs (k1 = k2 = log n): if more than (n-1) N^(2k) + 6k Q N^(2k-1) of the Q N^(2k) runs are accepted by verify_aggregate_proof with the right final commitment keys (see C56), then a program that rewinds the prover finds n Groth16 proofs, each accepted for its public inputs, whose elements open com_a, com_b and com_c; or a collision of a commitment key. (b) transparent univariate openings with an n x m key: if more than (n-1) m N^(k1+k2) + 3(k1+k2) Q N^(k1+k2-1) runs are accepted by UnivariatePolynomialCommitment::verify, then a program that rewinds the prover finds one polynomial with the given commitment which has the claimed value at every point where more than 3(k1+k2) N^(k1+k2-1) runs are accepted; or a collision of a commitment key.", "quantifier": "all pairings, keys, commitments, verification keys, public inputs, provers (functions from the challenges so far to the next message), finite sets of candidate challenges and points; every hash function producing the challenges", "why_tests_cant": "A statement about every cheating prover and the share of its lucky challenges; tests run the honest prover with one challenge sequence.", "anchors": ["ip_proofs/src/applications/groth16_aggregation.rs:162-231", "ip_proofs/src/applications/poly_commit/transparent.rs:188-315", "ip_proofs/src/gipa.rs:135-160"]}
{"id": "C97", "title": "How often a prover restricted to SRS elements can convince, with no assumption on its final keys", "statement": "Take a deterministic prover for fixed commitments whose final commitment keys and key openings are combinations, with coefficients it knows, of the elements of the structured reference string of size n = 2^k (all powers, and the elements g^beta and h^alpha). Let N be the number of candidate round challenges and Z that of candidate points for the key opening. (a) TIPA::verify_with_srs_shift and (b) TIPAWithSSM::verify_with_structured_scalar_message: if more than 3k N^(k-1) Z + (2n-2) N^k of the N^k Z runs are accepted, then a program finds from the prover an explicit non-zero polynomial in the two trapdoors, of degree at most 2n-1 in one and at most 1 in the other, which vanishes at them; or vectors with the claimed commitments and inner product; or a collision of a commitment key. (c) verify_aggregate_proof, with Q combination challenges r: the same with n accepted Groth16 proofs, if more than ((n-1) N^(2k) + 6k Q N^(2k-1)) Z^2 + (2n-2) Q N^(2k) Z of the Q N^(2k) Z^2 runs are accepted. Nothing is assumed about the final keys (C94 and C96 count only runs with the right ones).", "quantifier": "all pairings with non-zero generators, trapdoors, commitments, verification keys, public inputs, provers (functions from the challenges so far to messages and coefficients), finite sets of candidate challenges and points; every hash function producing them", "why_tests_cant": "A statement about every cheating prover and the share of its lucky challenges, including provers with wrong final keys; tests run the honest prover with one challenge sequence.", "anchors": ["ip_proofs/src/tipa/mod.rs:242-301", "ip_proofs/src/tipa/mod.rs:304-370", "ip_proofs/src/tipa/structured_scalar_message.rs:270-330", "ip_proofs/src/applications/groth16_aggregation.rs:162-231"]}
{"id": "C98", "title": "How often a prover of polynomial evaluations restricted to SRS elements can convince", "statement": "Take a deterministic prover for a fixed commitment, point and claimed value, whose last message, final commitment key, key opening and KZG opening are combinations, with coefficients it knows, of the elements of the SRS (KZG powers of alpha and g^beta in G1; powers of beta and h^alpha in G2); its round messages and y_eval_comm are arbitrary. With an SRS of n = 2^k rows and m KZG powers, N candidate round challenges and Z candidate points of the key opening: if more than 3k N^(k-1) Z + (2n-2) N^k of the N^k Z runs are accepted by BivariatePolynomialCommitment::verify, then a program finds from the prover either an explicit non-zero polynomial in (alpha, beta), with at most m+1 coefficients in alpha and 2n in beta, that vanishes at the trapdoors; or n rows of coefficients such that the polynomial they form has the claimed value at the point, and the given commitment is the commitment of this polynomial times terms in g^beta that cancel at x. The same for UnivariatePolynomialCommitment::verify. Two provers for one commitment and point and different values always give such a vanishing polynomial. A given polynomial with at most dx and dy coefficients vanishes for at most (dx-1)|B| + |A|(dy-1) of the pairs of trapdoors in A x B.", "quantifier": "all pairings with non-zero generators, trapdoors, degrees, commitments, points, values, provers (functions from the challenges so far to messages and coefficients), finite sets of candidate challenges and points; every hash function producing them", "why_tests_cant": "A statement about every cheating prover and the share of its lucky challenges; tests run the honest prover with one challenge sequence.", "anchors": ["ip_proofs/src/applications/poly_commit/mod.rs:264-292", "ip_proofs/src/applications/poly_commit/mod.rs:364-385", "ip_proofs/src/applications/poly_commit/mod.rs:108-122", "ip_proofs/src/tipa/structured_scalar_message.rs:270-330"]}
{"id": "C99", "title": "For all but a small share of hash functions the searches for challenges end", "statement": "Every public prover and verifier which derives challenges (GIPA, GIPA and TIPA with structured scalar message, TIPA, the bivariate and univariate polynomial commitments, the transparent ones, Groth16 aggregation) tries nonces 0, 1, 2, ... until the digest gives a usable challenge. Let Y be any list of digests of at least 16 bytes, of which b are unusable (their first 16 bytes are zero in the field, or - where a random field element is drawn - from_random_bytes rejects them), X any list of distinct queries, and consider the |Y|^|X| hash functions that answer the queries of X by digests of Y and all other queries by usable digests. For fixed inputs, whatever they are (also malformed keys and proofs), the number of these functions for which the call is still searching after t nonces in some search is at most n * (b / |Y|)^t * |Y|^|X|, where n is the number of searches: log2 of the length for a GIPA prover, the number of steps of the proof for a GIPA verifier, one more for the KZG challenge of TIPA, the sum over both sub-proofs (and one more for the batching challenge of the aggregation) for the composed protocols. If Y is all strings of L >= 16 bytes and no number 0 < c < 2^128 is zero in the field, then for the calls which only look for invertible challenges the share is at most n / 2^(128 t). So a call ends for all but a share of hash functions which vanishes geometrically, and no input can change that.", "quantifier": "for all pairings, inputs (values, keys, proofs, commitments, points), sets of queries X and digests Y, and nonce bounds t <= 2^64; counting all hash functions on X with digests in Y", "why_tests_cant": "A test runs one hash function; the nonce loops are almost never entered twice with Blake2b and their termination is a statement about the share of all hash functions, for each input.", "anchors": ["ip_proofs/src/gipa.rs:235-258", "ip_proofs/src/gipa.rs:330-353", "ip_proofs/src/tipa/mod.rs:195-209", "ip_proofs/src/tipa/mod.rs:258-272", "ip_proofs/src/tipa/structured_scalar_message.rs:238-251", "ip_proofs/src/tipa/structured_scalar_message.rs:289-302", "ip_proofs/src/applications/groth16_aggregation.rs:105-116", "ip_proofs/src/applications/groth16_aggregation.rs:173-184"]}
{"id": "C100", "title": "Honest runs are accepted for all but a small share of hash functions", "statement": "For honest inputs (GIPA for pairings, multiexponentiations and scalars, n = 2^k, k >= 0; GIPA with a public scalar base; TIPA for the same three inner products, TIPA for pairings with any non-zero SRS shift, and TIPA with a public scalar base, k >= 1, with the keys of setup; openings of every polynomial within the degrees by the bivariate, univariate and both transparent schemes) run the prover and then the verifier on its proof with the same hash function, each search giving up after t nonces. Among the |Y|^|X| hash functions which answer the queries X by digests of Y and all others by usable digests (digests have at least 16 bytes), at most a share n (b/|Y|)^t does not end with Ok(true), where b counts the unusable digests of Y and n the searches of the prover (k, k+1, ...). For aggregate_proofs and verify_aggregate_proof on 2^k valid Groth16 proofs, k >= 1, the share is at most (2k + 3) (b/|Y|)^t + d/(|Y| - b), where d counts the digests of Y that give the batching challenge 0 or 1 (for which C44 shows a panic). No assumption is made that the searches end.", "quantifier": "for all pairings, sizes, messages, polynomials, points, trapdoors, valid proofs, thread environments of prover and verifier, sets of queries X and digests Y, bounds t <= 2^64; counting all hash functions on X with digests in Y", "why_tests_cant": "The completeness tests run one hash function; the statement counts the functions for which completeness can fail, for every input.", "anchors": ["ip_proofs/src/gipa.rs:108-180", "ip_proofs/src/gipa.rs:235-258", "ip_proofs/src/gipa.rs:330-353", "ip_proofs/src/tipa/mod.rs:166-301", "ip_proofs/src/tipa/structured_scalar_message.rs:66-330", "ip_proofs/src/applications/poly_commit/mod.rs:104-360", "ip_proofs/src/applications/poly_commit/transparent.rs:60-330", "ip_proofs/src/applications/groth16_aggregation.rs:77-230"]}
{"id": "C101", "title": "GIPA proofs of wrong inner products with a random hash function", "statement": "Fix keys, commitments to vectors a and b with these openings, and a claimed value different from their inner product. Let a prover ask for Q hash values, each query depending on the answers so far, give with every query that is a GIPA hash input openings under the whole keys of the commitments in it, and then send a proof, having asked for everything GIPA::verify hashes. Let the answers be from a set of M digests of which at most beta lead to the same challenge (for all digests of at least 16 bytes, in a field in which the integers below 2^128 differ, the share beta/M is at most 2^-128). Then of the M^Q sequences of answers at most beta (2 Q + 2) Q M^(Q-1) let the verifier accept without a given program finding, from the queries and the proof, two openings of one commitment. (C17 shows that this fails for statements chosen after the queries.)", "quantifier": "all inner products with linear commitments and identity output, prefix-free encodings, keys, vectors, claims, provers, numbers of queries, sets of digests, numbers of rounds", "why_tests_cant": "Soundness of the non-interactive protocol against every such prover; a share of all hash functions, not an execution.", "anchors": ["ip_proofs/src/gipa.rs:135-163", "ip_proofs/src/gipa.rs:235-258", "ip_proofs/src/gipa.rs:315-399"]}
{"id": "C102", "title": "Arguments for structured scalar messages with a random hash function", "statement": "Fix a key, a commitment to a vector a with this opening, a scalar b, and a claimed value different from the inner product of a with the powers of b. Let a prover ask for Q hash values, each query depending on the answers so far, give with every query that is a GIPA hash input openings under the whole key of the two commitments to the first vector in it, and then send a proof, having asked for everything hashed in the rounds. Let the answers be from a set of M digests of which at most beta lead to the same challenge. Then of the M^Q sequences of answers at most beta (2 Q + 2) Q M^(Q-1) let verify_with_structured_scalar_message of GIPAWithSSM accept without a given program finding two openings of one commitment; the same for TIPAWithSSM and proofs that contain the right final key.", "quantifier": "all inner products with scalars and linear commitments, prefix-free encodings, keys, vectors, scalars, claims, provers, numbers of queries, sets of digests, numbers of rounds", "why_tests_cant": "Soundness of the non-interactive protocol against every such prover; a share of all hash functions, not an execution.", "anchors": ["ip_proofs/src/tipa/structured_scalar_message.rs:86-127", "ip_proofs/src/tipa/structured_scalar_message.rs:270-331"]}
{"id": "C103", "title": "TIPA as a non-interactive argument with a random hash function, with no assumption on the final keys", "statement": "Fix keys generated by TIPA::setup for n elements, a shift r and a false statement: commitments to known vectors a, b of length n under the (shifted) keys and a value that is not their inner product. A prover asks Q hash queries, chosen adaptively; it can give openings of the commitments in each query that is the input of a round, and coefficients over the structured reference string of the final keys in each query that is the input for drawing the opening point, and of the key openings in its proof. Let at most s of the M digests lead to the same challenge and at most g decode to the same point. Then for at most (s (3Q + 2) + g (2n - 2)) Q M^(Q-1) of the M^Q sequences of answers does TIPA::verify_with_srs_shift accept the prover's proof (with log2 n rounds, all hashes needed being among the queries), unless explicit programs that only read the run find two openings of one commitment, or a non-zero polynomial (degree at most 2n - 1 in one variable, 1 in the other) that vanishes at the trapdoors. The same for TIPAWithSSM::verify_with_structured_scalar_message, a committed vector and the powers of b. Instances: the pairing, multiexponentiation and scalar inner products. C102 covered only structured scalar messages and only proofs with the right final key.", "quantifier": "all pairings with non-zero generators, inner products, key sizes, trapdoors, shifts, false statements, provers, numbers of queries, sets of digests, prefix-free serialisations", "why_tests_cant": "A count over all sequences of answers of a hash function for every adaptive prover, including provers with wrong final keys.", "anchors": ["ip_proofs/src/tipa/mod.rs:242-301", "ip_proofs/src/tipa/mod.rs:304-370", "ip_proofs/src/tipa/structured_scalar_message.rs:270-331", "ip_proofs/src/gipa.rs:312-367"]}
{"id": "C104", "title": "Which bytes are hashed, and what each hash input is for", "statement": "Verifying a proof depends on the hash function only through its values at the inputs of that proof: for GIPA and GIPAWithSSM a nonce, a field element and the two commitment triples of one of the proof's rounds; for TIPA and TIPAWithSSM also a nonce, a field element and the proof's final keys; for the Groth16 aggregation also a nonce and com_a, com_b, com_c. Hence two hash functions that agree on these give the same outcome, whatever the statement: the claimed value, the verifying key, the public inputs, ip_ab, agg_c, the evaluation point, the value, and the commitment to the partial evaluation are never hashed. In the same way a proof that a prover returns with one hash function is returned with every hash function that agrees on the inputs of that proof. When all encodings are injective and of fixed size, and the sizes keep the lengths of the five kinds of input of the Groth16 aggregation apart, as those of BLS12-381 and BLS12-377 (32, 96, 192, 576 bytes) do for vectors of any length, then a hash input determines the nonce, what it is hashed for, and all its contents. Only the sizes separate the kinds: the claim without the condition on the sizes is false.", "quantifier": "all pairings and encodings, hash functions, keys, statements, proofs (also malformed ones), values, bounds on the search for nonces", "why_tests_cant": "A statement about all pairs of hash functions and all byte strings; tests run one hash function and never compare hash inputs of different purposes.", "anchors": ["ip_proofs/src/gipa.rs:235-258", "ip_proofs/src/gipa.rs:330-353", "ip_proofs/src/tipa/mod.rs:195-209", "ip_proofs/src/tipa/mod.rs:258-272", "ip_proofs/src/tipa/structured_scalar_message.rs:238-251", "ip_proofs/src/tipa/structured_scalar_message.rs:289-302", "ip_proofs/src/applications/groth16_aggregation.rs:105-116", "ip_proofs/src/applications/groth16_aggregation.rs:173-184"]}
{"id": "C105", "title": "TIPA as a non-interactive argument with a random hash function, for proofs with any number of rounds", "statement": "TIPA::verify does not know the length of the committed vectors: the number of rounds is chosen by the prover. Fix keys generated by TIPA::setup for n elements (n any positive number), a shift r and a false statement about known vectors of length n, as in C103, and some N >= n. The bound of C103 then also holds for proofs with any number of rounds up to log2 N, more or fewer than log2 n: for at most (s (3Q + 3 log2 n) + g (2N - 2)) Q M^(Q-1) of the M^Q sequences of answers does TIPA::verify_with_srs_shift accept the proof, unless explicit programs that only read the run find two openings of one commitment (an opening for the folded first 2^k key elements counts as one for the whole key, padded with zeros) or a non-zero polynomial that vanishes at the trapdoors. The same for TIPAWithSSM::verify_with_structured_scalar_message. So proofs with an unexpected number of rounds do not help a prover. Instances: the pairing, multiexponentiation and scalar inner products.", "quantifier": "all pairings with non-zero generators, inner products, key sizes including those that are not powers of two, numbers of rounds, trapdoors, shifts, false statements, provers, numbers of queries, sets of digests, prefix-free serialisations", "why_tests_cant": "A count over all sequences of answers of a hash function for every adaptive prover, including provers that choose the number of rounds after seeing answers.", "anchors": ["ip_proofs/src/tipa/mod.rs:242-301", "ip_proofs/src/tipa/mod.rs:304-370", "ip_proofs/src/tipa/mod.rs:393-406", "ip_proofs/src/tipa/structured_scalar_message.rs:270-331", "ip_proofs/src/gipa.rs:312-367"]}
{"id": "C106", "title": "For exactly which public inputs an aggregate proof is accepted", "statement": "Let verify_aggregate_proof accept an aggregate for some public inputs, and let r be the scalar derived from its three commitments. For any other well-formed public inputs the verifier answers, and accepts exactly when an explicit linear equation between the elements of the verifying key holds, whose coefficients are the differences of the sums of r^i over the rows and of the r-weighted sums of the columns. So the inputs only count through one weighted sum per column: with equal sums every aggregate proof, accepted or not, gets the same answer. In particular the inputs of all proofs but one can be replaced by freely chosen ones: a given formula computes a row for the remaining proof such that the answer is the same. Conversely, inputs with the same number of rows and other sums are only accepted if the differences are coefficients of a relation between the elements of the key.", "quantifier": "all pairings, verifying keys, SRS, aggregate proofs, well-formed public inputs, hash functions", "why_tests_cant": "A characterization of all accepted public inputs for every proof; a test can only try some inputs.", "anchors": ["ip_proofs/src/applications/groth16_aggregation.rs:162-231"]}
{"id": "C107", "title": "The security level of GIPA and TIPA in numbers, for the scalar fields of BLS12-381 and BLS12-377", "statement": "For the scalar fields of BLS12-381 and BLS12-377 (their moduli are proved prime, from_random_bytes is modelled byte for byte) and a hash function whose digests are all strings of at least 32 bytes: a round challenge (first 16 digest bytes) takes each value for at most a share 2^-128 of the digests, and a KZG challenge (from_random_bytes) each value for at most a share 2^-255 (BLS12-381) or 2^-253 (BLS12-377). Consequently, of all M^Q sequences of answers to Q queries at most a share (2Q+2) Q / 2^128 makes a GIPA prover with a false statement succeed, and at most a share (3Q + 3 log2 n) Q / 2^128 + (2N-2) Q / 2^bits a TIPA prover with keys of n elements and proofs for up to N elements, in the sense of C101 and C105 (unless the run yields two openings of a commitment or a polynomial that vanishes at the trapdoors). With at most 2^40 queries and 2^40 elements, the share for TIPA is at most 2^-45. The same numbers hold for GIPA and TIPA with a structured scalar message (C102, C105), the argument used by the polynomial commitments and the aggregation.", "quantifier": "all pairings over these two scalar fields, all false statements, provers, numbers of queries, digest lengths of at least 32 bytes, key sizes, trapdoors", "why_tests_cant": "A count over all sequences of digests for every adaptive prover; the numbers involved exceed 2^128.", "anchors": ["ip_proofs/src/gipa.rs:235-258", "ip_proofs/src/gipa.rs:330-353", "ip_proofs/src/tipa/mod.rs:195-209", "ip_proofs/src/tipa/mod.rs:258-301"]}
{"id": "C108", "title": "How many nonces the searches for challenges need, for the scalar fields of BLS12-381 and BLS12-377", "statement": "from_random_bytes rejects exactly a share (2^bits - p) / 2^bits of the digests of a given length of at least 32 bytes, p being the order of the field and bits = 255 for BLS12-381, 253 for BLS12-377. Together with the digests whose first 16 bytes are zero, at most one digest in c is unusable, c = 10 for BLS12-381 and c = 2 for BLS12-377. So for every call that C99 covers at most a share n / c^t of the hash functions on any set of queries leaves the call searching after t nonces, n the number of searches; for every honest run that C100 covers the verifier accepts for all but a share n / c^t; for GIPA alone, which only needs invertible challenges, for all but n / 2^(128 t). An aggregate of 2^(k+1) valid Groth16 proofs is produced and accepted for all but a share (2k+5) / c^t + 4 / 2^bits of the hash functions.", "quantifier": "all pairings over these two scalar fields, all inputs of the calls, sets of queries, digest lengths of at least 32 bytes, nonce bounds t <= 2^64", "why_tests_cant": "A test runs one hash function; these are shares of all hash functions, with exact counts of digests.", "anchors": ["ip_proofs/src/gipa.rs:235-258", "ip_proofs/src/tipa/mod.rs:195-209", "ip_proofs/src/tipa/structured_scalar_message.rs:238-251", "ip_proofs/src/applications/groth16_aggregation.rs:105-116", "ip_proofs/src/applications/groth16_aggregation.rs:173-184"]}
{"id": "C109", "title": "At which points one given proof is accepted", "statement": "Take a statement and a proof and vary only the point. A TIPAWithSSM proof with n rounds accepted for some scalar is accepted for every scalar if its base message is zero, and for at most 2^n - 1 scalars otherwise; accepted for b, it is accepted for b' exactly if the base message is zero or the folded powers of b and b' are equal. A GIPAWithSSM proof for keys of length N >= 2 is accepted for every scalar or for at most N - 1. An opening of the bivariate commitment with non-zero KZG proof and non-zero base message is accepted for one given value only at points with one y, and at most 2^n - 1 of them. A univariate opening is accepted for one given value at one point only if its KZG proof is not zero, and at most (2^n - 1)(y_degree + 1) points if its base message is not zero; a transparent one at most at (length of the first key - 1) points or (length of the second key - 1) * (length of the first key) points, according to which base message is not zero. A univariate opening accepted with one max_degree is accepted with another max_degree exactly if its base message is zero or the folded powers of point^(y_degree + 1) are equal for both.", "quantifier": "all pairings, hash functions, keys made from trapdoors or arbitrary transparent keys, commitments, proofs (honest or not), values, lists of points", "why_tests_cant": "A test checks an opening at one point; the bound is about all points and all proofs, including forged ones.", "anchors": ["ip_proofs/src/tipa/structured_scalar_message.rs:86-127", "ip_proofs/src/tipa/structured_scalar_message.rs:270-331", "ip_proofs/src/applications/poly_commit/mod.rs:264-283", "ip_proofs/src/applications/poly_commit/mod.rs:364-376", "ip_proofs/src/applications/poly_commit/transparent.rs:188-212", "ip_proofs/src/applications/poly_commit/transparent.rs:293-304"]}
{"id": "C110", "title": "What the plotting script shows of the measurements", "statement": "Run the scaling example with 1, 2, 4 and 8 threads for the sizes 2^lo .. 2^hi into the directory data. If all four runs come to their end, the plotting script reads exactly the files they wrote and draws six plots: the average direct, prover and verifier times of one thread; each of the three times for the four numbers of threads; the quotient of direct and verifier time for the four numbers of threads; and the three times of one thread again with linear axes without the 2nd to 13th size. Every measured size has its point in every line, and for the sizes 2^1 .. 2^17 the points of the last plot lie exactly at its ticks 2, 2^14, .., 2^17.", "quantifier": "all pairings, hash functions, generators, clocks, argument values lo <= hi < 64", "why_tests_cant": "No test runs the script; it depends on names, columns and line numbers of a file that another program writes.", "anchors": ["sipp/plot/ipp-scaling.gnuplot:1-127", "sipp/examples/scaling-ipp.rs:21-102"]}
{"id": "C111", "title": "What the trapdoors of a setup allow", "statement": "The trapdoors of a setup are the first two scalars alpha, beta drawn by it. Whoever knows them can prove false statements. A KZG commitment can be opened to a value at a point exactly if the point is not alpha or the commitment is the value times the generator. For TIPA (pairing, multi-exponentiation and scalar products, with any shift) an explicit program makes, for commitments with known logarithms, any claimed inner product and any number of rounds >= 1, a proof that the verifier accepts unless the point drawn for the key openings is alpha or beta; in particular for the honest commitments of any two vectors of known multiples of the generators and any claimed value. For TIPAWithSSM the same holds unless that point is beta or the folded powers of the public scalar are zero. The honest commitment of every polynomial, bivariate or univariate, is opened to every value at every point under the same condition.", "quantifier": "all pairings, setups, sizes, vectors, polynomials, points, claimed values, shifts, numbers of rounds, hash functions whose searches end", "why_tests_cant": "Tests sample the trapdoors inside setup and never use them; the claim is about all statements and needs an adversarial prover.", "anchors": ["ip_proofs/src/tipa/mod.rs:150-164", "ip_proofs/src/tipa/mod.rs:233-301", "ip_proofs/src/tipa/mod.rs:340-370", "ip_proofs/src/tipa/structured_scalar_message.rs:270-331", "ip_proofs/src/applications/poly_commit/mod.rs:56-117", "ip_proofs/src/applications/poly_commit/mod.rs:153-174", "ip_proofs/src/applications/poly_commit/mod.rs:264-283", "ip_proofs/src/applications/poly_commit/mod.rs:364-376"]}
{"id": "C112", "title": "One reference string serves all smaller sizes, and zeros at the end of vectors change nothing", "statement": "Let TIPA::setup(rng, m) return a reference string. For every n with 0 < n <= m, TIPA::setup(rng, n) with the same randomness returns the first 2n-1 powers of that string, the same inner-product key and leaves the generator in the same state; its commitment keys are the first n elements of the keys for m and its verifier key is the same. For vectors of n = 2^(j+1) elements and m = 2^(k+1) >= n: the commitments and the inner product do not change when both vectors are filled with zeros up to m elements, and TIPA::prove succeeds both with the shortened string for the short vectors and with the full string for the filled ones; TIPA::verify with the one verifier key accepts both proofs for the same commitments (pairing, multi-exponentiation and scalar products). The same for TIPAWithSSM with the first n or m powers of the public scalar. So the commitments do not fix the length of the vectors.", "quantifier": "all pairings, sizes n <= m, randomness, vectors, public scalars, thread counts, hash functions whose searches end", "why_tests_cant": "Tests generate a fresh reference string for one fixed size; the claim relates all pairs of sizes.", "anchors": ["ip_proofs/src/tipa/mod.rs:114-127", "ip_proofs/src/tipa/mod.rs:150-164", "ip_proofs/src/tipa/mod.rs:166-173", "ip_proofs/src/tipa/mod.rs:233-301", "ip_proofs/src/tipa/mod.rs:372-391", "ip_proofs/src/tipa/structured_scalar_message.rs:195-331", "ip_proofs/src/tipa/structured_scalar_message.rs:334-343"]}
{"id": "C113", "title": "What the benchmarks and examples print, for every way they can end", "statement": "For every generator state, length and clock: the main functions of benches/benches/gipa.rs, tipa.rs and inner_products.rs, of the Groth16 aggregation example and of the scaling example end exactly as their computation ends, and what they print is a beginning of a fixed text. gipa.rs and tipa.rs: the title with the vector length, then for each run its title, a proving time if and only if a proof was made and a verification time if and only if the verification answered; nothing after a run that failed. For a power of two as length (at least 2 for TIPA) the whole text is printed and all proofs were accepted, or a challenge loop does not end; TIPA can also stop after the title of its third run, because the random scalar is 0. inner_products.rs always prints its seven lines. The Groth16 example prints nothing if a setup fails, one line if a proof fails, two if the aggregation fails, three if the aggregate is not accepted and all six, with the three times, if and only if it is accepted. The scaling example prints a report of five lines for each row of its file, with the same size, the same three times and the thread count of the file's name; asked for help it prints the help text and then panics (finding).", "quantifier": "all pairings, digests, random samplers, SNARKs, vector lengths, numbers of proofs, clocks, command lines and environments", "why_tests_cant": "The programs discard the answer of the verifiers, so a test sees only times; that a printed verification time implies acceptance holds for all inputs only by proof.", "anchors": ["benches/benches/gipa.rs:19-98", "benches/benches/tipa.rs:25-249", "benches/benches/inner_products.rs:10-46", "benches/examples/groth16_aggregation.rs:42-110", "sipp/examples/scaling-ipp.rs:21-102"]}
{"id": "C114", "title": "Polynomial commitments are linear, and combinations of commitments can be opened", "statement": "For polynomials p_1, ..., p_m and scalars c_1, ..., c_m, let p be a polynomial whose coefficients are the combinations of their coefficients (p may be shorter: leading terms may cancel). Whenever commit succeeds on each p_k, commit on p returns the combination of the m commitments, together with the combination, entry by entry, of the auxiliary data: for KZG, for the bivariate and univariate scheme with a trusted setup and for both transparent schemes, for every key, honest or not (for the univariate schemes p and the p_k may exceed the capacity; for the others p must fit). With keys from setup, open on p with the combined auxiliary data returns a proof that verify accepts against the combined commitment and the combination of the values p_k(z), or a challenge loop does not end.", "quantifier": "all pairings, keys, numbers of polynomials, polynomials, scalars, points, digests, thread counts and random samplers", "why_tests_cant": "Linearity over all keys, polynomials and scalars, including cancelling leading coefficients and rows that disappear, is an algebraic identity through two tiers of commitments; the tests commit to one polynomial each.", "anchors": ["ip_proofs/src/applications/poly_commit/mod.rs:76-126", "ip_proofs/src/applications/poly_commit/mod.rs:176-283", "ip_proofs/src/applications/poly_commit/mod.rs:306-376", "ip_proofs/src/applications/poly_commit/transparent.rs:101-212", "ip_proofs/src/applications/poly_commit/transparent.rs:235-304"]}
{"id": "C115", "title": "What each setup function draws from the generator and returns", "statement": "For every generator state and size: KZG::setup, TIPA setup (also as used by TIPAWithSSM and by setup_inner_product for Groth16 aggregation), and the bivariate and univariate setups draw a scalar alpha and then a scalar beta, return exactly the powers of alpha times g and of beta times h in the numbers the interface promises, and beta g, alpha h; they leave the generator advanced by exactly these two draws (TIPA: followed by the draws of its inner-product key). GIPAWithSSM::setup draws the left keys and then the key for the product. The transparent setups draw the yd+1 (or 2^j) keys in G1 and then the xd+1 (or 2^i) keys in G2, each sample becoming one key in order. For degrees 1 <= d < 2^52 the univariate setups have 2^i rows of 2^j coefficients with i >= 1 and d + 1 <= 2^i 2^j.", "quantifier": "all pairings, generators, samplers, sizes and degrees", "why_tests_cant": "A swapped order of draws, a value drawn twice or a power too few gives keys that still look random and, for swapped draws, still pass every test.", "anchors": ["ip_proofs/src/applications/poly_commit/mod.rs:56-74", "ip_proofs/src/applications/poly_commit/mod.rs:153-174", "ip_proofs/src/applications/poly_commit/mod.rs:331-334", "ip_proofs/src/applications/poly_commit/transparent.rs:91-99", "ip_proofs/src/applications/poly_commit/transparent.rs:260-263", "ip_proofs/src/applications/groth16_aggregation.rs:68-75", "ip_proofs/src/tipa/structured_scalar_message.rs:66-68", "ip_proofs/src/tipa/structured_scalar_message.rs:195-198", "ip_proofs/src/tipa/mod.rs:150-170"]}
{"id": "C116", "title": "The benchmark's circuits over BLS12-377 and BW6-761, for every value of the public inputs", "statement": "With the scalar fields of BLS12-377 (253 bits, 32 bytes) and BW6-761 (377 bits): a 32-byte hash becomes exactly two inner scalars, its first 31 bytes and its last byte. For arbitrary public inputs the Blake2s circuit accepts a witness exactly when the low 31 bytes of the first input and the low byte of the second are the hash of the witness; so besides the inputs of the hash it accepts others. The recursive circuit has exactly two public inputs per hash, of which the verifier computes the first as the hash with a zero byte inserted before its last byte and the second as zero; for arbitrary public inputs it accepts exactly when each proof is valid for the two 32-byte numbers read from its two inputs; a key for another number of inputs panics, different lists of hashes have different inputs, and for each hash 196 different pairs of inputs are accepted with the same proof, one of which is the verifier's.", "quantifier": "for all lists of hashes, proofs and verifying keys, all values of the public inputs, all hash functions with 32 bytes of output, all pairings with these scalar fields", "why_tests_cant": "The benchmark runs the circuits with its own honest assignments only; the values of the public inputs form a space of 2^754 pairs, and acceptance of wrong inputs is never exercised.", "anchors": ["benches/benches/groth16_aggregation/bench.rs:36-75", "benches/benches/groth16_aggregation/bench.rs:77-201"]}
{"id": "C117", "title": "Batch verification with scalars the proofs do not depend on: how often an invalid batch is accepted", "statement": "Run the benchmark's batch_verify_proof with an arbitrary sequence of 128-bit scalars in place of its fixed seed. If at least one of the n proofs is invalid for its row, then for every set of N candidate scalars that are distinct in the field at most N^(n-1) of the N^n sequences lead to acceptance; over the scalar fields of BLS12-381 and BLS12-377 with all 128-bit scalars at most one sequence in 2^128. If all other proofs are valid, the accepted sequences are exactly those whose scalar at the place of the invalid proof is zero, so the bound is attained. A batch is accepted for all sequences of zeros and ones exactly when every proof is valid.", "quantifier": "for all pairings, verifying keys with a non-empty gamma_abc, all rows and proofs (equally many), all candidate sets, all sets of accepted sequences", "why_tests_cant": "A bound on the number of accepting scalar sequences is a count over (2^128)^n sequences, for arbitrary invalid proofs; a test would never hit an accepting one.", "anchors": ["benches/benches/groth16_aggregation/bench.rs:529-595"]}
{"id": "C118", "title": "SIPP in numbers: how many hash functions let the honest prover fail, and how many let a wrong value pass", "statement": "Let b of the digests Y lead to the challenge zero. Of the |Y|^|X| hash functions that answer the queries X by digests of Y (and others by digests that do not lead to zero), at most a share (k+1) b / |Y| does not end with SIPP::prove returning a proof for the true value of 2^k elements which SIPP::verify accepts. Over the scalar fields of BLS12-381 and BLS12-377, with 32-byte digests, encodings of groups of sizes divisible by 16, and a generator that maps at most c 2^128 of the 2^256 seeds to the same first two 64-bit outputs: this share is at most c (k+1) / 2^128; and of the sequences of answers to Q queries at most a share (3 c 2^128 + 2 Q) Q / 2^256 lets a prover that chooses statement and proof itself succeed with a wrong value; for c = 1 and Q <= 2^64 less than 2^-62.", "quantifier": "for all pairings over these fields, vectors of 2^k elements (k >= 1), coefficients, thread environments, sets of queries, provers choosing queries, statement and proof adaptively; the first statement for all fields and generators", "why_tests_cant": "The failing hash functions are too rare to be met by a test, and the bound is a count over all hash functions and all adversaries.", "anchors": ["sipp/src/lib.rs:42-106", "sipp/src/lib.rs:109-180", "sipp/src/rng.rs:49-73"]}
{"id": "C119", "title": "A bivariate polynomial commitment does not depend on the size of the reference string", "statement": "Two calls of BivariatePolynomialCommitment::setup from the same generator state for different degrees leave the generator in the same state and give the same verifier key. A polynomial that fits both strings is committed to by the same target group element with either, with row commitments that differ only by zeros at the end; an opening made with one string is accepted for the commitment made with the other. In the transparent scheme keys that are prefixes of longer ones give the same commitment and the first of its row commitments.", "quantifier": "for all pairings, generators and states, degrees, polynomials that fit both sizes, points, thread environments, digests of at least 16 bytes; keys and prefixes of any length", "why_tests_cant": "The tests use one size per polynomial; the statement relates all pairs of sizes and all polynomials.", "anchors": ["ip_proofs/src/applications/poly_commit/mod.rs:153-283", "ip_proofs/src/applications/poly_commit/transparent.rs:101-127"]}
{"id": "C120", "title": "What a TIPA proof has more than a GIPA proof is computed from public data", "statement": "There is a program that gets only the reference string, the commitments, the shift and a GIPA proof, and turns every proof that GIPA::verify accepts for the (shifted) keys of the string into a proof that TIPA::verify_with_srs_shift accepts for the same commitments and that contains the GIPA proof; it fails only if the search for the KZG challenge does not end. TIPA::prove_with_srs_shift has for every input of fitting size the outcome of the GIPA prover followed by this program. The same holds for GIPAWithSSM and TIPAWithSSM.", "quantifier": "for all pairings, commitments and inner products, reference strings of size 2 or more with any trapdoors, nonzero shifts, commitments, GIPA proofs (honest or not), digests of at least 16 bytes; for the provers all vectors of the size of the keys", "why_tests_cant": "It is a statement about every accepted GIPA proof, including those no prover of the repository makes, and about the equality of two programs on all inputs.", "anchors": ["ip_proofs/src/tipa/mod.rs:176-337", "ip_proofs/src/tipa/structured_scalar_message.rs:211-331", "ip_proofs/src/gipa.rs:135-180", "ip_proofs/src/gipa.rs:315-399"]}
{"id": "C121", "title": "Overflows of usize arithmetic do not change what the library computes", "statement": "With 64-bit words, in builds with and without overflow checks: (1) the challenge loops draw what they draw with an unbounded counter (with checks unless 2^64 - 1 nonces fail); (2) GIPA::verify answers, panics or errs the same as with unbounded integers for every proof with any number of rounds, although 2_usize.pow(i) overflows from round 64 on; (3) the prover's key polynomials, for at most 64 rounds, and the coefficients of SIPP's verifier, for at most 64 rounds, are the exact ones; (4) the degree split, and UnivariatePolynomialCommitment's setup and evaluation point, are the exact ones for every degree below usize::MAX, and the split panics for usize::MAX; (5) bivariate_form is exact when (x+1)(y+1) < 2^64 and panics otherwise; (6) the provers and verifiers of GIPA, TIPA, the structured-scalar arguments and the Groth16 aggregation return what they return with unbounded integers, for vectors, keys and rows of inputs with fewer than 2^64 - 1 elements and proofs with any number of rounds; (7) so do setup, commit, open and verify of the polynomial commitments, for nonempty keys whose coefficients can be counted in 64 bits, and SIPP::verify; (8) commit with an empty key panics; (9) TIPA::setup(size) returns the reference string for size; (10) benches/poly_commit.rs, for fewer than usize::MAX trials, writes the rows and ends as with unbounded integers for at most 31 data points, and for more writes the rows of 31 data points and then panics, in both builds; for usize::MAX trials it panics after the first setup with overflow checks and runs no trial without. (9) is refuted for release builds: for 2^63 < size < 2^64 it returns, without an error, the string for size - 2^63; it holds for 1 <= size < 2^63, and with checks it panics outside. (8) is refuted for release builds of the transparent univariate scheme: every polynomial gets the commitment to the zero polynomial. With a reference string it holds in both builds.", "quantifier": "both builds, all digests, fields, commitment schemes, keys with fewer than 2^64 elements, proofs with any number of rounds, transcripts, polynomials, degrees, sizes and samplers (word size arbitrary where no nonce or float is involved)", "why_tests_cant": "Overflows need more than 2^63 elements, degrees near usize::MAX or 64 rounds; tests cannot build such inputs, and run with one setting of the overflow checks only.", "anchors": ["ip_proofs/src/gipa.rs:162-312", "ip_proofs/src/tipa/mod.rs:176-301", "ip_proofs/src/tipa/structured_scalar_message.rs:86-331", "ip_proofs/src/applications/groth16_aggregation.rs:77-231", "ip_proofs/src/gipa.rs:207-258", "ip_proofs/src/gipa.rs:365-399", "ip_proofs/src/tipa/mod.rs:150-164", "ip_proofs/src/tipa/mod.rs:195-209", "ip_proofs/src/tipa/mod.rs:407-422", "ip_proofs/src/applications/poly_commit/mod.rs:153-174", "ip_proofs/src/applications/poly_commit/mod.rs:292-334", "ip_proofs/src/applications/poly_commit/mod.rs:364-376", "sipp/src/lib.rs:160-170", "ip_proofs/src/applications/poly_commit/mod.rs:200-376", "ip_proofs/src/applications/poly_commit/transparent.rs:91-304", "sipp/src/lib.rs:109-180", "benches/benches/poly_commit.rs:22-279"]}
{"id": "C122", "title": "The text the two benchmarks with arguments print is their table and nothing else", "statement": "(1) What csv::Writer writes for any nonempty records of equal length, whatever characters their cells contain, a CSV reader reads back as exactly these records; a record of another length than the first is refused, after the records before it have been written. (2) With valid arguments, what benches/poly_commit.rs and benches/groth16_aggregation print is a sequence of lines of five cells separated by single commas, without any quotation mark, even if a later step panics; reading it back gives the header and an initial part of the table of C85, all of it if the program ends normally; no call of write_record fails. (3) If the arguments ask for help or are missing, exactly the usage line is printed. (4) If the arguments are invalid nothing is printed. (5) So the output shows which of the three cases it was: the usage line is not an output of case (2), nor is the empty output.", "quantifier": "all records and cells; all argument lists, clocks, pairings, hash functions, generators and proof systems", "why_tests_cant": "The tests do not run the benchmarks; times and numbers of trials are unbounded, and cells with quotes, commas and line breaks have infinitely many forms.", "anchors": ["benches/benches/poly_commit.rs:22-279", "benches/benches/groth16_aggregation/bench.rs:203-525"]}
