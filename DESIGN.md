# Formal model of arkworks-rs/ripp

Everything is in `rocq/theories` (Rocq/Coq 8.16.1). `/repo` was only read, never built or run.

## Trusted base

* Coq's kernel (with `vm_compute` in Examples).
* `Print Assumptions` prints "Closed under the global context" for every theorem named in MANIFEST.json: the theorems use
  no axiom at all, neither of this development nor of the standard library. Every `Props*.v` file ends its sections with the
  `Print Assumptions` commands, so the build log shows it. (Floating point uses the computational specification
  `Coq.Floats.SpecFloat`, not the primitive floats and not the Reals.) The checker `coqchk` additionally lists seven axioms `Coq.ssr.ssrunder.Under_rel.*`: they are
  the fields of a sealed module of a standard library file that `Coq.ssr` loads indirectly; no theorem depends on them.
* That the Gallina functions are a faithful transcription of the Rust code they cite, and that the dependencies
  behave as the interfaces below say.

### Modelled code
Function by function, with file and lines in the comments:
* all non-test code of `inner_products`, `dh_commitments`, `ip_proofs/src/{lib,gipa}.rs`, `ip_proofs/src/tipa/*`,
  `ip_proofs/src/applications/*`, `sipp/src/{lib,rng}.rs`; the derived serialization of the proof types;
* `benches/benches/{gipa,tipa,inner_products,poly_commit}.rs`, the main program, `batch_verify_proof` and
  the command line of `benches/benches/groth16_aggregation/bench.rs`, `benches/examples/groth16_aggregation.rs`,
  `sipp/examples/scaling-ipp.rs`;
* the unit tests (`#[cfg(test)]` modules) of all crates, generic in the length or degree they use (Tests.v).

### Not modelled, or modelled by an interface
* Finite fields and groups (ark-ff, ark-ec): records `field`, `module`, `pairing` (operations, decidable equality and
  the algebraic laws). Everything is proved for every instance of the records; a concrete executable instance (Z_p as
  field and as all groups, pairing = product) shows the records are inhabited and runs the Examples.
* Serialization of field and group elements: a function to byte strings (for reading proofs back: a pair of functions); injectivity/prefix-freeness is a hypothesis of
  the theorems that need it only.
* Hash functions (`D: Digest`): an arbitrary function from byte strings to byte strings. No randomness assumption.
  ChaCha and Blake2s inside `FiatShamirRng` likewise.
* Random generators: an arbitrary state machine.
* rayon: an explicit environment (number of threads, shape of every reduction tree); theorems quantify over it.
* `usize`/`u64`: lengths are `nat`; the nonce counter is unbounded (`nat`) and serialized modulo 2^64. Where a computation
  could leave the 64-bit range (degree split of the univariate commitments, command-line numbers) it is modelled in `Z`.
  Words.v, WordsTop.v, WordsPc.v and WordsBench.v have the functions that compute with lengths, degrees and nonces again with 64-bit words, for builds with and without
  overflow checks; C121 compares the two. Memory is unlimited in both.
* Challenge loops (`loop {}` in Rust): fuel, with an explicit "out of fuel" outcome distinct from Ok/Err/panic.
* `VariableBaseMSM::msm`, `multi_miller_loop`, `FixedBase::msm`, `DensePolynomial` (strip, evaluate, division):
  modelled by their documented functional behaviour (ark 0.4). `f32::log2` is assumed exact on powers of two.
* Groth16 proving (ark-groth16): a proof is any triple of group elements; "valid" means it satisfies the Groth16 pairing
  equation. In the main programs setup and prove are an arbitrary `snark` over an arbitrary type of circuits; completeness
  of it (for satisfied constraint systems: C73) is a hypothesis where needed.
* The circuits of the example and benchmark (Circuits.v): TestCircuit is modelled constraint by constraint (ark-relations:
  instance, witness, linear combinations). Of the Blake2s and verifier circuits the allocation of public inputs, the
  conversion of bytes and bits, the loops and assertions are modelled; the gadgets of ark-crypto-primitives inside them
  (Blake2s, Groth16 verifier) by the function they compute.
* Cost.v and CostProve.v list the operations that dominate the running time (digest calls, scalings, pairings, commitments, inner
  products, multi-exponentiations, elements appended to exponent vectors). Additions, inversions, other field arithmetic,
  copies and serialization are not listed (in particular the divisions of polynomials and the window tables of fixed-base multiplication); scaling a vector commitment (`IdentityOutput`) is one operation.
* The clock is an arbitrary function (Report.v). `csv::Writer` (Stdout.v) is modelled by its documented behaviour: quoting when necessary, records of equal length, each flushed; writing to the standard output succeeds. The file of `scaling-ipp` is modelled with its numbers as binary64
  values (Scaling.v), not their decimal form. Not modelled at all: memory, side channels, styles and labels of the plots.
* The plotting script (Plot.v) is a list of commands, run by a small model of gnuplot: named columns, undefined points left out, non-positive
  values left out on logarithmic axes, an error for a plot without points. This behaviour of gnuplot is assumed, as is `sed 'a,bd'`.

## Outcomes
`res A := Ok a | Err e | Panic | Loop`. `unwrap`, `assert!`, slice indexing and division by zero give `Panic`.

## Files
| file | content |
|---|---|
| Outcome.v, Algebra.v, Rust.v | result monad; algebraic records; Vec/slice/bit/byte operations |
| InnerProducts.v, Commitments.v, Gipa.v, Poly.v, Tipa.v, Ssm.v, Floats.v, PolyCommit.v, Transparent.v, Groth16.v, Rng.v, Sipp.v, Batch.v, Bench.v, Cli.v, Wire.v, GrothMain.v, Circuits.v, Tests.v, Cost.v, CostProve.v, Report.v, Scaling.v, Plot.v, Display.v, Words.v, WordsTop.v, WordsPc.v, WordsBench.v, Stdout.v | the model, no proofs |
| Spec.v | specification vocabulary, independent from the model: index sums, polynomial evaluation, powers |
| ListFacts.v, RustFacts.v, InnerProductFacts.v, CommitFacts.v, GipaFacts.v, GipaComplete.v, GipaTop.v, SerFacts.v, PolyFacts.v, KeyFacts.v, TipaFacts.v, SsmFacts.v, FloatFacts.v, FloatLarge.v, PcFacts.v, PcDegrees.v, UpcFacts.v, TransparentFacts.v, RootFacts.v, SippFacts.v, VerifyFacts.v, Groth16Facts.v, SpecialFacts.v, SsmSpecial.v, PcSpecial.v, CircuitFacts.v, Schedule.v, CostFacts.v, Forking.v, ForkingTwo.v, Oracle.v, Algebraic.v, PcAlgebraic.v, Searches.v, OracleValues.v, Rounds.v | lemmas |
| GipaAttack.v, PcAttack.v, Forger.v, TipaForge.v, Trapdoor.v | explicit programs that forge openings and proofs, used by the `_refuted` theorems |
| Zp.v, ZpBig.v | concrete instances for the Examples |
| Pocklington.v | Pocklington's criterion, Fermat's theorem, a test that factors a third of n - 1; the scalar field orders of BLS12-381 and BLS12-377 are prime |
| PrimeQ377.v | the scalar field order of BW6-761 is prime |
| PropsCurveCircuits.v | C116: the circuits of the benchmark over BLS12-377 and BW6-761 |
| PropsBatchCount.v | C117: batch verification with scalars the proofs do not depend on |
| PropsLevelSipp.v | C118: SIPP in numbers, honest runs and wrong values |
| PropsPcSizes.v | C119: bivariate commitments and the size of the string |
| PropsConvert.v | C120: from GIPA proofs to TIPA proofs |
| PropsWords.v | C121: overflows of usize arithmetic |
| PropsWordsTop.v | C121 continued: provers and verifiers |
| PropsWordsPc.v | C121 continued: polynomial commitments and SIPP |
| PropsWordsBench.v | C121 continued: the benchmark program poly_commit.rs |
| PropsStdout.v | C122: the text the two benchmarks with arguments print |
| PrimeFields.v | these two fields with the encodings of ark-ff: k-byte little-endian serialisation, `from_random_bytes` (read k bytes, clear the bits above `bits`, reject values that are not below p) |
| Props*.v | the theorems named in MANIFEST.json, each with an Example that meets its hypotheses |

Theorem names: `Cnn_…` proves (part of) property Cnn, `…_partial` a part of a property whose full statement fails or is
out of reach, `…_refuted` that the faithful model violates the property as stated.

`tools/gen_manifest.py` writes MANIFEST.json from the theorem names and `tools/claims.json`.

## Tests of the theorems against wrong programs
`seeded/LOG.jsonl` has one line per edited program: definition, edit, claim that becomes false, theorems whose proofs fail.
The edits are made in a copy of the development; lemmas whose proofs break are admitted there so that the build reaches
the property files; a claim counts as guarded when one of its theorems no longer proves or rests on an admitted lemma.

## Plan per property
* C01, C02, C03, C04: model chunking, per-chunk Miller loop, reduction tree, final exponentiation; induction on
  the tree; chunk partition lemma.
* C05, C06, C07: commitments are the inner products; follow from C03; identity commitment directly.
* C08: rng as state machine, induction on n.
* C09, C13, C14, C15: GIPA generic over commitments; `lawful` predicates state bilinearity; invariant of the
  prover loop; closed form for the folded keys by induction over rounds. Instantiated for the concrete schemes.
* C10, C11, C12: case analysis of prove/verify plus the closed form.
* C16, C50: injectivity of concatenation of prefix-free codes.
* C17: refuted; a concrete forged proof construction for every instance. Positive part: challenges bind all round messages (C16).
* C18: extractor on trees of accepting transcripts, interpolation.
* C19: positive for group outputs, refuted for IdentityOutput.
* C20: least-nonce search specification.
* C21, C28: induction on powers.
* C22, C23, C24, C25, C30: closed forms + polynomial division by X - z.
* C26, C33: algebraic rearrangement; polynomial evaluation.
* C27, C44, C49, C39, C42, C52: refutations with concrete or generic counterexamples, and the positive part.
* C29, C31: product form by induction.
* C32: long division modelled as in ark-poly; remainder theorem.
* C34, C35, C36, C38, C40: composition of the above.
* C37: SpecFloat binary64 model of `sqrt`, `ceil`, casts.
* C41, C43: field sums, polynomial root counting.
* C45, C46, C47, C48: as GIPA; soundness by root counting of the degree-2 round polynomial.
* C51: state machine.
* C53, C54, C55, C58, C59, C60, C62: acceptance of each verifier is equivalent to an explicit list of equations, for arbitrary proofs.
* C56: reduction of TIPA to GIPA when the final keys are correct.
* C57, C61, C63: refuted by explicit panicking inputs or forging programs; the part that holds is proved.
* C64, C65: the benchmark programs as compositions of the above.
* C66: string processing.
* C67: combinators for encoders and decoders; induction over vectors.
* C68: induction over the loops of the programs, with completeness of aggregation.
* C69: the GIPA forger carried through TIPA; C56 and C18 for the part that holds.
* C70–C73: bytes of little-endian numbers; chunks and their concatenation; C68 with the satisfied circuits.
* C74: the extractor of C18 applied to pairs (key element, power of b); C75: C69 and C74 per challenge, roots of the defect polynomial.
* C76: C74 for the two arguments at each point, interpolation in x of the extracted coefficients; C77: C74 and the binding of KZG.
* C78: the length tests of commit and the spec of the keys made by setup.
* C79: congruence of every function in its commitments and inner product (Schedule.v), C01 and C02 for those; refutations for the SIPP prover by computation on the chunks.
* C80: the exact split of C37, bivariate completeness applied to the bivariate form of the first cap coefficients, and one value per proof (C61).
* C81: the completeness theorems applied to what the tests draw.
* C82: the same programs as C64, C65, C68 and C73 without the assumptions about challenges; the possible outcomes by the value of the first combination challenge.
* C83, C84: instrumented copies of the programs (Cost.v), a proof that they compute the same results, and upper and lower bounds on
  the bill for an arbitrary price list by a small calculus for sequencing; C84 by evaluating the order of operations.
* C85: the programs with their rows (Report.v), a calculus for printed prefixes of a table, erasure.
* C86: the commitments in the steps of an honest proof are outputs of the commitment schemes, hence of known size (PropsProofSize.v); number of rounds from C83.
* C87: sizes decide the outcome of the first round; then completeness lemmas of GIPA and the length of the key polynomial (PropsProvers.v).
* C88: the accept-iff theorems C33, C12, C53 - C55, C58 - C60 give equations in which all but one unknown is fixed; non-degeneracy of the pairing (PropsMalleable.v).
* C89: totality of every step once the challenges are found, combined by a rule for sequencing (PropsAnswers.v).
* C90: lists by index (PropsOutput.v). C91: one induction over the sizes for file, outcome and number of rows; sign analysis of SpecFloat (PropsScaling.v).
* C92: decimal numerals contain no comma and determine the number (PropsDisplay.v).
* C93: the remaining provers instrumented (CostProve.v), the calculus of C83 with both bounds at once (PropsCostProve.v); sizes of the reference string from C87.
* C94: counting along the prefixes of challenge sequences and a rewinding program that builds a tree of transcripts (Forking.v), then the extractors of C18, C69 and C74; the bad challenges of C46; the betting prover by a closed form for what is missing from the value (PropsForking.v).
* C95: queries in time order; an answer is bad if an earlier query ends with it, if it was given before, or if its challenge is bad for the chain of queries it continues, which is then unique (Oracle.v); bad challenges from C46, encodings from C50, counting from C94 (PropsOracle.v).
* C96: the counting of C94 for a first challenge followed by two arguments (ForkingTwo.v), then the extractors of C75 and C76; at most m points have the same m-th power (PropsForkingTwo.v).
* C97: a run accepted at a point z with coefficients for the final key and its opening is a polynomial identity at the trapdoors; if it is not an identity of polynomials it is the relation, and if it is one at more than 2n-2 points the key is the right one (Algebraic.v). Challenge sequences with that many points are counted, the rest is C94 and C96 (PropsAlgebraic.v).
* C98: the extractor of C75 is run on the coefficients of the last messages instead of on group elements (they form a module, and the verifier's equations are bilinear in them through the evaluation at the trapdoors); the extracted rows are compared with the KZG opening (PcAlgebraic.v, PropsPcAlgebraic.v). Any difference is a polynomial in the two trapdoors.
* C99: the programs are written as trees that ask for the result of a search (`Searches.v`: a tree and the program agree for every
  hash function and every bound on the nonces).  The tables of hash answers are split at the queries `nonce ++ payload` of each
  search; the search runs out only if all t answers are unusable.  Different searches of one run may have the same payload, so the
  count is a union bound over the tree and not a product.
* C100: C99 and the completeness theorems, whose only other outcome is `Loop`.  For the aggregation the tables whose batching
  challenge is 0 or 1 are counted by induction over the nonces. (PropsLive.v, PropsLiveTipa.v)
* C101: as C95, but a query contains the challenge derived from the answer before, so an answer is also bad if its challenge
  was given before (OracleValues.v).  The openings given with the queries fold to an opening of the folded commitment; a claim
  that is wrong before a round becomes right for at most three challenges (Rounds.v), and at the end an accepted claim is right
  or the folded opening and the proof's last messages are two openings (PropsGipaOracle.v).
* C102: as C101 with the folded powers of b, known to the verifier, in place of the second vector (PropsSsmOracle.v).
* C103: the game of C101 and C102 with one more query, for the opening point (section Final of OracleValues.v). The prover gives coefficients of its final keys with that query; wrong key polynomials agree with the right ones at at most 2n - 2 points, and with the right keys C56 reduces to GIPA (PropsTipaOracle.v).
* C104: agreement of two hash functions on a set of inputs is pushed through every verifier and prover; the five kinds of input of the Groth16 aggregation as an inductive type whose encoding is injective when the sizes keep the lengths apart (PropsHashed.v).
* C105: the state of C103 with claims about the first 2^k entries for every 2^k <= n, the other entries being zero; at most 3 log2 n challenges make one of these claims right. A key polynomial of higher degree than the SRS allows is not a known combination, because its leading coefficient is a product of challenges (PropsTipaRounds.v).
* C106: the right side of the pairing equation is a combination of key elements with the sum of the r^i and the r-weighted column sums as coefficients; compare two of them (PropsGrothInputs.v).
* C107: digests are counted by their low bits (`count_low`); insert the counts and the real moduli into the bounds of C101, C102 and C105 (PropsLevel.v, PropsLevelSsm.v). The pairing is any pairing over the field, the curves themselves are not modelled.
* C108: the counts of C107 for both sides of p give the exact number of rejected digests; insert into C99 and C100 (PropsTrials.v).
* C109: the folded powers are a polynomial of degree 2^n - 1 in the scalar with non-zero coefficients, so C54, C55, C58 and C59 allow few points (PropsPoints.v).
* C110: each line of a plot is a filter of the sizes; the file is the table of C91 (PropsPlot.v).
* C111: with empty rounds and freely chosen final keys the equations of C53, C54 are solved; the openings of these keys are computed with the trapdoors (Trapdoor.v, PropsTrapdoor.v).
* C112: both setups are the powers of the same trapdoors; sums with zeros at the end; then C22, C30 for both sizes (PropsPadding.v).
* C113: each measured function is a part that makes the proof, a line, a part that verifies, a line; the number of lines is a function of the
  outcomes of the parts, and C82 decides them for powers of two (Print.v, PropsPrint.v). A line keeps numbers as binary64 values.
* C114: a commitment to the coefficients is a sum over the key, so it commutes with combinations; the rows of the univariate form are taken coefficient by
  coefficient; the openings are C32, C34, C38, C40 for the combination (PropsLinear.v).
* C115: the definitions run on an arbitrary generator; the n-th state of the generator is that of C08 (PropsSetups.v).
* C116: the bytes of a number split at any place; each circuit reads numbers from its inputs, compare them with those of the hash (PropsCurveCircuits.v).
  The prime fields are the real ones; the groups of the curves are any groups of that order.
* C117: two accepted sequences that differ only at the invalid proof contradict C63's partial statement; delete that place and count (PropsBatchCount.v).
* C118: an adaptive sequence of n queries meets one of b bad answers for at most a share n b / |Y| of the hash functions (induction, fixing one query at a time); C45 says when the honest
  prover fails; the second part is C95 with real sizes (PropsLevelSipp.v). That ChaCha20 is even (`even_stream`) is a hypothesis.
* C119: C78 gives the commitment as a sum over the rows; rows past the end are zero; then C34 for the size of the opening (PropsPcSizes.v). The univariate forms split the
  coefficients by the size of the string, so their commitments do depend on it.
* C120: the challenges and final keys that the verifier computes from a GIPA proof are those of the prover (C13, C14); openings of the right keys are accepted (C25); then C56 (PropsConvert.v).
* C121: Words.v against the model; overlong proofs fail the comparison of lengths in either build, the nonce is hashed modulo
  2^64, C37 bounds the degree split; setup wraps around in release builds (PropsWords.v).
  A round of a prover halves its vector, so 64 rounds suffice below 2^64 elements (PropsWordsTop.v).
  `len() - 1` and `+ 1` of an empty key cancel in release builds (PropsWordsPc.v).
  In the benchmark program 4^32 is the first degree to overflow; both builds stop there, by different panics (PropsWordsBench.v).
* C122: a small CSV reader (state machine) is the specification; induction over the text of a cell, a record, a file. The tables come from C85; their cells are digits and fixed words (PropsStdout.v).
* C68, C82, errors: every call of the programs is unwrapped, so an error is a panic (PropsErrors.v).

No property of the list is inexpressible; computational soundness (negligible probability, hardness assumptions) is
expressed as reductions (explicit extractors, explicit relations) and as numbers of lucky challenge or answer sequences (C94, C95, C96, C97, C98, C99, C100, C101, C102, C103, C105, C107, C108, C117, C118), not as probabilities.
