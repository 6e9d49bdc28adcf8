{"id": "C01", "title": "Multi-exponentiation computes the inner product under every schedule", "statement": "best_multiexp(coeffs, bases) and small_multiexp(coeffs, bases) return exactly sum_i coeffs[i]*bases[i], whatever the number of worker threads (sequential or bucket-parallel path) and whatever the order in which partial bucket sums are reduced; unequal lengths panic.", "quantifier": "all coefficient/base vectors of any length, all 256-bit little-endian encodings, all thread counts, all reduction orders", "why_tests_cant": "the window width, number of segments and code path depend on length and thread count; tests sample a few sizes on one machine", "anchors": ["halo2_proofs/src/arithmetic.rs: Bucket, Buckets, best_multiexp, small_multiexp, multiexp_serial path", "halo2_proofs/src/multicore.rs: TheBestReduce"]}
{"id": "C02", "title": "best_fft is the discrete Fourier transform under every schedule", "statement": "best_fft(a, omega, log_n) replaces a by the vector whose i-th entry is sum_j a[j]*omega^(i*j), for field elements and for curve points alike, in both the iterative and the recursive (multi-threaded) code path.", "quantifier": "all log_n, all input vectors of length 2^log_n over any module, all omega with omega^(2^(log_n-1)) = -1, all thread counts", "why_tests_cant": "bit reversal, twiddle strides and recursion are size and thread dependent; tests compare a few sizes against themselves", "anchors": ["halo2_proofs/src/arithmetic.rs: best_fft, recursive_butterfly_arithmetic"]}
{"id": "C03", "title": "Lagrange/coefficient conversion is exact interpolation", "statement": "EvaluationDomain::lagrange_to_coeff returns the coefficients of the unique polynomial of degree < n whose value at omega^i is the i-th input value; eval_polynomial of the result at omega^i gives back the input.", "quantifier": "all k, all value vectors of length 2^k", "why_tests_cant": "must hold for every vector and every domain size supported by the field", "anchors": ["halo2_proofs/src/poly/domain.rs: EvaluationDomain::new, lagrange_to_coeff, ifft", "halo2_proofs/src/arithmetic.rs: best_fft, eval_polynomial"]}
{"id": "C04", "title": "Extended-domain conversion evaluates on the coset and is invertible", "statement": "coeff_to_extended returns the evaluations of the polynomial at zeta*extended_omega^i; extended_to_coeff inverts it (returning the same coefficients padded with zeros to n*quotient_poly_degree); rotate_extended by r is the extended form of p(omega^r X).", "quantifier": "all degree parameters j, all k, all coefficient vectors, all rotations", "why_tests_cant": "coset powers, truncation length and rotation scaling depend on j and k; tests use a single configuration", "anchors": ["halo2_proofs/src/poly/domain.rs: coeff_to_extended, extended_to_coeff, rotate_extended, distribute_powers_zeta"]}
{"id": "C05", "title": "Division by the vanishing polynomial is exact", "statement": "For every polynomial f = q*(X^n - 1) of degree < extended_n, divide_by_vanishing_poly followed by extended_to_coeff returns the coefficients of q (padded), and the divisors used are never zero.", "quantifier": "all domains and all polynomials divisible by X^n-1 within the extended size", "why_tests_cant": "the period of the stored inverse evaluations depends on extended_k - k", "anchors": ["halo2_proofs/src/poly/domain.rs: divide_by_vanishing_poly, t_evaluations"]}
{"id": "C06", "title": "l_i_range returns Lagrange basis evaluations", "statement": "l_i_range(x, x^n, rotations) returns, for each rotation i in order, the value at x of the degree < n polynomial that is 1 at omega^i and 0 at the other domain points, for every x outside the domain (including negative rotations).", "quantifier": "all k, all rotation lists, all x with x^n != 1", "why_tests_cant": "for all x and rotations; a test evaluates a handful", "anchors": ["halo2_proofs/src/poly/domain.rs: l_i_range, rotate_omega"]}
{"id": "C07", "title": "Polynomial evaluation, division by a linear factor and interpolation are exact", "statement": "eval_polynomial(p,x) = sum p_i x^i; kate_division(a,b) is the quotient of a by (X-b) (so q*(X-b) = a - a(b)); lagrange_interpolate(points, evals) is the unique polynomial of degree < #points through the given points when they are distinct; compute_inner_product is the inner product.", "quantifier": "all coefficient vectors and points", "why_tests_cant": "for all inputs; the functions are loops with index arithmetic", "anchors": ["halo2_proofs/src/arithmetic.rs: eval_polynomial, kate_division, lagrange_interpolate, compute_inner_product"]}
{"id": "C08", "title": "Parallel polynomial evaluator is schedule independent", "statement": "Evaluator::evaluate(ast, domain) gives, for every thread count, the same vector as evaluating the AST pointwise over the whole polynomials, with rotations interpreted cyclically, constants and linear terms interpreted in the basis (coefficient, Lagrange, extended Lagrange).", "quantifier": "all ASTs, all polynomial lengths, all thread counts (chunk sizes), all three bases", "why_tests_cant": "chunk boundaries depend on thread count; a test runs on one machine", "anchors": ["halo2_proofs/src/poly/evaluator.rs: evaluate, get_chunk_params, BasisOps", "halo2_proofs/src/poly.rs: get_chunk_of_rotated, get_chunk_of_rotated_helper"]}
{"id": "C09", "title": "Assigned arithmetic is exact rational arithmetic with deferred inversion", "statement": "Every operation on Assigned values (add, sub, mul, neg, double, square, cube, invert, equality, is_zero) commutes with evaluate(), where a value x/0 evaluates to 0; invert of zero is zero.", "quantifier": "all combinations of Zero/Trivial/Rational operands including zero denominators", "why_tests_cant": "case analysis over three variants and zero denominators for all field elements", "anchors": ["halo2_proofs/src/plonk/assigned.rs"]}
{"id": "C10", "title": "Batch inversion equals element-wise evaluation", "statement": "batch_invert_assigned(columns)[c][r] = columns[c][r].evaluate() for every column and row, regardless of how Zero/Trivial/Rational entries and zero denominators are interleaved across columns.", "quantifier": "all lists of columns of any length", "why_tests_cant": "flattening, iterator consumption and zero-skipping must line up for every pattern", "anchors": ["halo2_proofs/src/poly.rs: batch_invert_assigned, Polynomial::invert"]}
{"id": "C11", "title": "Commitments in Lagrange and coefficient form agree and are homomorphic", "statement": "For parameters with generators g, params.commit_lagrange(values, r) = params.commit(lagrange_to_coeff(values), r) for every value vector and blind; commit is additive and scales linearly in polynomial and blind.", "quantifier": "all k, generator vectors, value vectors, blinds", "why_tests_cant": "relies on the inverse group FFT for all sizes", "anchors": ["halo2_proofs/src/poly/commitment.rs: Params::new, commit, commit_lagrange"]}
{"id": "C12", "title": "Params serialisation round-trips", "statement": "Params::read(Params::write(p)) = p for every parameter set, leaves trailing bytes unread, and truncated input is rejected with an error.", "quantifier": "all k, all generator encodings, all trailing data", "why_tests_cant": "must hold for all sizes and contents", "anchors": ["halo2_proofs/src/poly/commitment.rs: Params::write, Params::read", "halo2_proofs/src/helpers.rs"]}
{"id": "C13", "title": "MSM accumulates exactly the claimed group element", "statement": "After any sequence of append_term, add_constant_term, add_to_g_scalars, add_to_w_scalar, add_to_u_scalar, scale and add_msm, MSM::eval() is true iff the corresponding formal linear combination of points is the identity; terms with equal or opposite points merge correctly and the identity point is ignored.", "quantifier": "all operation sequences over all points and scalars", "why_tests_cant": "merging by x-coordinate depends on history", "anchors": ["halo2_proofs/src/poly/commitment/msm.rs"]}
{"id": "C14", "title": "Inner-product argument is complete", "statement": "For every polynomial, blind, evaluation point and randomness, the proof written by commitment::create_proof makes commitment::verify_proof (with the commitment [P] and the true evaluation as claimed value) return a guard whose MSM (use_challenges) evaluates to the identity, provided no squeezed round challenge is zero.", "quantifier": "all k >= 1, all polynomials, blinds, points, randomness and all (nonzero) challenge values", "why_tests_cant": "k rounds of folding for every input", "anchors": ["halo2_proofs/src/poly/commitment/prover.rs: create_proof", "halo2_proofs/src/poly/commitment/verifier.rs: verify_proof, Guard"]}
{"id": "C15", "title": "IPA verifier's folded generator and b-value are consistent", "statement": "compute_b(x,u) equals the inner product of compute_s(u,1) with (1,x,x^2,...); compute_g() equals the inner product of compute_s with the generators; use_challenges and use_g(compute_g()) accept exactly the same proofs.", "quantifier": "all challenge vectors and points", "why_tests_cant": "for every k and every challenge vector", "anchors": ["halo2_proofs/src/poly/commitment/verifier.rs: compute_b, compute_s, Guard::use_challenges, use_g, compute_g"]}
{"id": "C16", "title": "Multiopen query grouping is faithful", "statement": "construct_intermediate_sets groups the queries by commitment and point set so that every query (commitment, point, eval) appears exactly once in the output with its own evaluation, every commitment is assigned the set of exactly its queried points, and equal point sets share one index; it returns None iff a (commitment, point) pair is queried twice.", "quantifier": "all finite query lists", "why_tests_cant": "depends on order and repetition of queries", "anchors": ["halo2_proofs/src/poly/multiopen.rs: construct_intermediate_sets"]}
{"id": "C17", "title": "Multiopen prover and verifier agree", "statement": "For every list of prover queries, the verifier's final commitment and claimed evaluation are the commitment to, and true evaluation of, the prover's final polynomial, so multiopen::create_proof output is accepted by multiopen::verify_proof for every choice of challenges for which the verifier's divisions are defined.", "quantifier": "all query lists, polynomials, blinds, challenges", "why_tests_cant": "the prover and verifier accumulate powers of x_1..x_4 in different orders", "anchors": ["halo2_proofs/src/poly/multiopen/prover.rs", "halo2_proofs/src/poly/multiopen/verifier.rs"]}
{"id": "C18", "title": "Transcript reader replays transcript writer", "statement": "For any sequence of write_point/write_scalar/common_point/common_scalar/squeeze_challenge operations, a reader over the produced bytes performing the matching reads obtains the same points and scalars and squeezes the same challenges; any trailing data is left unread.", "quantifier": "all operation sequences, all points and scalars, any hash function", "why_tests_cant": "all interleavings of reads and squeezes", "anchors": ["halo2_proofs/src/transcript.rs: Blake2bRead, Blake2bWrite, TranscriptRead, TranscriptWrite, read_n_points, read_n_scalars"]}
{"id": "C19", "title": "Fiat-Shamir absorption is unambiguous", "statement": "Two different sequences of absorbed items (points, scalars, challenge squeezes) of a transcript produce different hash input streams: no two distinct histories are absorbed as the same byte string.", "quantifier": "all pairs of operation histories", "why_tests_cant": "injectivity over all histories", "anchors": ["halo2_proofs/src/transcript.rs: BLAKE2B_PREFIX_CHALLENGE/POINT/SCALAR, common_point, common_scalar, squeeze_challenge"]}
{"id": "C20", "title": "Expression degree bound is sound", "statement": "If every queried column polynomial has degree < n then the polynomial obtained by evaluating an Expression has degree <= degree()*(n-1); evaluate commutes with substitution of polynomials and point evaluation.", "quantifier": "all expressions, all column polynomials", "why_tests_cant": "structural induction over all expressions", "anchors": ["halo2_proofs/src/plonk/circuit.rs: Expression::degree, Expression::evaluate"]}
{"id": "C21", "title": "Constraint-system queries are deduplicated and stable", "statement": "query_advice/fixed/instance return for each (column, rotation) an index that is the same at every later time, distinct pairs get distinct indices, the recorded query at the index is the pair, and num_advice_queries counts the distinct rotations per column.", "quantifier": "all sequences of query operations", "why_tests_cant": "depends on the whole configuration history", "anchors": ["halo2_proofs/src/plonk/circuit.rs: query_advice_index, query_fixed_index, query_instance_index, get_any_query_index"]}
{"id": "C22", "title": "Selector compression preserves gate semantics", "statement": "compress_selectors replaces each virtual selector by an expression over new fixed columns that, on every row, is zero iff the selector is disabled there and is a nonzero constant iff enabled, so that every gate holds on a row after compression iff it held before; the resulting degree does not exceed the system's max degree; every selector is replaced exactly once.", "quantifier": "all numbers of selectors, all activation patterns, all degrees (field characteristic larger than the combination size)", "why_tests_cant": "greedy combination depends on activations of all selectors on all rows", "anchors": ["halo2_proofs/src/plonk/circuit/compress_selectors.rs: process", "halo2_proofs/src/plonk/circuit.rs: compress_selectors, replace_selectors"]}
{"id": "C23", "title": "Copy constraints accumulate to exactly their equivalence closure", "statement": "After any sequence of successful copy calls, the stored mapping is a permutation of the cells, and two cells lie on the same cycle iff they are related by the equivalence closure of the copies made; failing calls (unknown column, out of range row) change nothing.", "quantifier": "all numbers of columns and rows, all finite sequences of copies", "why_tests_cant": "union of cycles depends on the entire history of copies", "anchors": ["halo2_proofs/src/plonk/permutation/keygen.rs: Assembly::new, Assembly::copy"]}
{"id": "C24", "title": "Permutation labels are injective", "statement": "The permutation polynomials built at key generation label cell (i,j) with delta^i*omega^j, all labels are distinct, and the value at (i,j) of the i-th sigma polynomial is the label of the cell that (i,j) is mapped to.", "quantifier": "all k, all column counts within delta's order, all assemblies", "why_tests_cant": "for all sizes and mappings", "anchors": ["halo2_proofs/src/plonk/permutation/keygen.rs: build_vk, build_pk"]}
{"id": "C25", "title": "Permutation argument is complete", "statement": "For every assignment in which copy-constrained cells are equal, and for every beta, gamma for which the denominators are invertible, the product polynomials committed by the prover satisfy all permutation constraints on every row, including the chaining across column chunks and whatever blinding is used.", "quantifier": "all column counts, chunk lengths, assignments respecting the mapping, blinding values, challenges", "why_tests_cant": "products over all rows and chunks", "anchors": ["halo2_proofs/src/plonk/permutation/prover.rs: commit, construct", "halo2_proofs/src/plonk/permutation/verifier.rs: expressions"]}
{"id": "C26", "title": "Permutation argument is sound", "statement": "If some product polynomials satisfy the permutation constraints on every row for challenges (beta,gamma), then either all copy-constrained usable cells are equal, or (beta,gamma) belongs to a set of exceptional challenges whose size is bounded explicitly.", "quantifier": "all assignments, all candidate product columns, all challenges", "why_tests_cant": "a universally quantified algebraic statement over adversarial columns", "anchors": ["halo2_proofs/src/plonk/permutation/verifier.rs: expressions"]}
{"id": "C27", "title": "Lookup permutation is total and correct", "statement": "permute_expression_pair succeeds iff every usable input value occurs in the usable table; on success the outputs are permutations of the usable inputs/table, the first rows agree, every further row repeats the previous input or equals its table entry, and no internal assertion fires; otherwise it returns ConstraintSystemFailure.", "quantifier": "all input/table vectors, all usable row counts, all blinding", "why_tests_cant": "sorting and multiset bookkeeping for all inputs", "anchors": ["halo2_proofs/src/plonk/lookup/prover.rs: permute_expression_pair"]}
{"id": "C28", "title": "Lookup argument is complete", "statement": "For every lookup whose usable inputs are all contained in the table, the prover's permuted columns and product column satisfy all five lookup constraints on every row for all challenges with invertible denominators and all blinding.", "quantifier": "all tables, inputs, blinding and challenges", "why_tests_cant": "products over all rows", "anchors": ["halo2_proofs/src/plonk/lookup/prover.rs: commit_permuted, commit_product, construct"]}
{"id": "C29", "title": "Lookup argument is sound", "statement": "If columns A', S', z satisfy the five lookup constraints on every row for (beta,gamma), then every usable compressed input occurs among the usable compressed table entries, unless (beta,gamma) lies in an explicitly bounded exceptional set; and compressed equality implies tuple equality except for a bounded set of theta.", "quantifier": "all adversarial columns, all challenges", "why_tests_cant": "universally quantified algebraic statement", "anchors": ["halo2_proofs/src/plonk/lookup/verifier.rs: expressions", "halo2_proofs/src/plonk/lookup/prover.rs: compress_expressions"]}
{"id": "C30", "title": "Vanishing argument ties h to the constraints", "statement": "The quotient pieces committed by the prover recombine (with powers of x^n) to h(x) with h*(X^n-1) = sum y^i*expr_i whenever all expressions vanish on the domain; the verifier's expected_h_eval is that same value; and if some expression does not vanish on some row the verifier's identity fails at all but a bounded number of y and x.", "quantifier": "all expression lists, all y, x, all piece counts", "why_tests_cant": "for every constraint system and challenge", "anchors": ["halo2_proofs/src/plonk/vanishing/prover.rs", "halo2_proofs/src/plonk/vanishing/verifier.rs"]}
{"id": "C31", "title": "Prover and verifier process the same transcript, constraints and openings", "statement": "For every constraint system, the prover's and verifier's transcripts have the same shape (same absorbed items in the same order), the verifier evaluates the same ordered list of constraint expressions at x that the prover divides, and the prover's opening queries correspond one-to-one and in order to the verifier's.", "quantifier": "all constraint systems, numbers of proofs, permutation chunks and lookups", "why_tests_cant": "shape depends on the configuration; tests use a fixed circuit", "anchors": ["halo2_proofs/src/plonk/prover.rs: create_proof", "halo2_proofs/src/plonk/verifier.rs: verify_proof"]}
{"id": "C32", "title": "Proofs of satisfied circuits verify", "statement": "For every constraint system and witness satisfying all gates, copies and lookups, for every randomness, the proof produced by create_proof is accepted by verify_proof with the same instances (for challenges outside an explicit exceptional set).", "quantifier": "all circuits, witnesses, randomness, challenges", "why_tests_cant": "end-to-end completeness over all circuits", "anchors": ["halo2_proofs/src/plonk/prover.rs: create_proof", "halo2_proofs/src/plonk/verifier.rs: verify_proof, SingleVerifier"]}
{"id": "C33", "title": "SimpleFloorPlanner never overlaps regions", "statement": "For every sequence of regions, SimpleFloorPlanner places each region at one start row so that cells of different regions never collide in a column (selectors included), relative offsets inside a region are preserved, and constants are written to cells no region uses and copied to the requested advice cell.", "quantifier": "all sequences of regions, shapes and constants", "why_tests_cant": "placement depends on all previous regions", "anchors": ["halo2_proofs/src/circuit/floor_planner/single_pass.rs", "halo2_proofs/src/circuit/layouter.rs: RegionShape"]}
{"id": "C34", "title": "V1 floor planner never overlaps regions and always finds a placement", "statement": "slot_in/slot_in_biggest_advice_first assign every region a start row such that regions sharing a column occupy disjoint row intervals, none of its internal assertions or expects can fire, each region is placed at the least feasible row given the previously placed ones, start rows are returned in region order, and constants go to distinct fixed cells used by no region (or NotEnoughColumnsForConstants).", "quantifier": "all lists of region shapes, all constant lists", "why_tests_cant": "interval bookkeeping depends on all regions", "anchors": ["halo2_proofs/src/circuit/floor_planner/v1/strategy.rs", "halo2_proofs/src/circuit/floor_planner/v1.rs"]}
{"id": "C35", "title": "Lookup tables are assigned completely", "statement": "assign_table succeeds only if every used table column has all cells up to one common length assigned, row 0 exactly once, and is not reused from an earlier table; the remaining usable rows are filled with the row-0 value, so the tuples over the usable rows are exactly the assigned rows. Only row 0 is protected against a second assignment (contrary to the method's documentation): of any other cell the last value counts. At least one usable row must remain after the table.", "quantifier": "all sequences of cell assignments", "why_tests_cant": "depends on order, gaps and repetition of assignments", "anchors": ["halo2_proofs/src/circuit/table_layouter.rs", "halo2_proofs/src/circuit/floor_planner/single_pass.rs: assign_table", "halo2_proofs/src/plonk/keygen.rs: fill_from_row"]}
{"id": "C36", "title": "Assignments outside usable rows are rejected", "statement": "Key generation, proving and MockProver reject every call they do not ignore (key generation ignores advice, the prover everything but advice) that touches a row outside the usable rows with an error, so the last blinding_factors+1 rows of every advice column contain only prover randomness; every cell holds the last value written to it and every selector is on exactly where it was enabled; key generation and MockProver record the same fixed cells, selectors and copies for the same circuit.", "quantifier": "all circuits (assignment sequences), all k", "why_tests_cant": "for all assignment sequences", "anchors": ["halo2_proofs/src/plonk/keygen.rs: Assembly", "halo2_proofs/src/plonk/prover.rs: WitnessCollection", "halo2_proofs/src/dev.rs: MockProver"]}
{"id": "C37", "title": "MockProver gate check is sound for all blinding", "statement": "If MockProver reports no ConstraintNotSatisfied/ConstraintPoisoned for a gate, the gate polynomial evaluates to zero on every row of the real trace for every value of the blinding rows; if a gate evaluates to a non-zero real value on some row, MockProver reports it.", "quantifier": "all expressions, all cell assignments, all blinding values", "why_tests_cant": "quantifies over all blinding values", "anchors": ["halo2_proofs/src/dev.rs: MockProver::verify, Value", "halo2_proofs/src/dev/util.rs: load"]}
{"id": "C38", "title": "MockProver lookup check is exact membership", "statement": "MockProver::verify reports a Lookup failure for input row r iff the input tuple of row r equals no table tuple of a usable row; its sorting and fill-row optimisation never changes the verdict nor trips its internal assertion.", "quantifier": "all tables and inputs, all orders", "why_tests_cant": "merge over sorted data for all inputs", "anchors": ["halo2_proofs/src/dev.rs: MockProver::verify (lookup_errors)"]}
{"id": "C39", "title": "MockProver permutation check is exact", "statement": "MockProver::verify reports no Permutation failure iff all cells related by the copies made hold equal cell values; and a circuit that passes has equal values in the real trace. The converse of the second part is false: a cell never assigned is not equal to an assigned 0 for MockProver, but is 0 in the real trace.", "quantifier": "all copy sequences and assignments", "why_tests_cant": "checks only successive cells on each cycle; must imply all pairs", "anchors": ["halo2_proofs/src/dev.rs: MockProver::verify (perm_errors)"]}
{"id": "C40", "title": "A circuit accepted by MockProver can be proven", "statement": "If MockProver::run succeeds and verify() is Ok, and the synthesis only queries instance values that were provided, then key generation and create_proof's synthesis for the same circuit and instances succeed, and the prover's table satisfies every gate, lookup and copy constraint for every value of the blinding rows. Without the condition on instance queries this is false: MockProver answers 0 for a cell past the provided values, where the prover returns an error.", "quantifier": "all configured circuits, instances and blinding values", "why_tests_cant": "relates two independent Assignment implementations on all circuits", "anchors": ["halo2_proofs/src/dev.rs: MockProver", "halo2_proofs/src/plonk/prover.rs: WitnessCollection::query_instance"]}
{"id": "C41", "title": "Batch verification agrees with individual verification", "statement": "BatchVerifier::finalize returns true whenever every proof verifies individually, under every thread schedule and randomness; it returns false whenever some proof is rejected with an error; and if some proof's MSM is not the identity it returns true for at most a fraction m/|F| of the random scalars, m being the number of accumulation steps.", "quantifier": "all batches, all fold/reduce schedules, all random scalars", "why_tests_cant": "schedule and randomness dependent", "anchors": ["halo2_proofs/src/plonk/verifier/batch.rs", "halo2_proofs/src/multicore.rs: TryFoldAndReduce"]}
{"id": "C42", "title": "Poseidon sponge hashing equals its specification", "statement": "For every rate, width, permutation and message of length L, Hash::<ConstantLength<L>>::hash equals: start from state with capacity L*2^64, add successive RATE-sized zero-padded blocks and permute after each, output the first word; different lengths start from different capacity elements; incremental absorption order does not matter to the block structure.", "quantifier": "all messages, rates, permutations", "why_tests_cant": "block boundary behaviour for all lengths", "anchors": ["halo2_poseidon/src/lib.rs: Sponge, Hash, ConstantLength, poseidon_sponge, permute"]}
{"id": "C43", "title": "Running-sum and range-check gates enforce the range", "statement": "If the range_check gate holds on all windows of a strict running-sum decomposition (bit-gate or lookup based), the decomposed element is < 2^(K*W) and the windows are its unique base-2^K digits; the short lookup check enforces < 2^s; conversely the prover's assignment for an in-range element satisfies the gates.", "quantifier": "all field elements, window sizes, window counts (within field capacity)", "why_tests_cant": "all adversarial advice values", "anchors": ["halo2_gadgets/src/utilities.rs: range_check, decompose_word, bitrange_subset", "halo2_gadgets/src/utilities/decompose_running_sum.rs", "halo2_gadgets/src/utilities/lookup_range_check.rs"]}
{"id": "C44", "title": "Conditional swap and mux enforce selection", "statement": "If the swap gate holds then swap is boolean and (a', b') is (b, a) when swap = 1 and (a, b) when swap = 0; the prover's assignment always satisfies the gate.", "quantifier": "all field values", "why_tests_cant": "all adversarial advice values", "anchors": ["halo2_gadgets/src/utilities/cond_swap.rs", "halo2_gadgets/src/utilities.rs: ternary, bool_check"]}
{"id": "C45", "title": "Point-witnessing and point-addition gates enforce the group law", "statement": "The witness-point gates hold iff the pair is on the curve (or the (0,0) identity encoding); the incomplete addition gate with x_p != x_q forces the chord sum; the complete addition gate forces R = P + Q for all curve points including identity, doubling and inverse cases; the prover's assignments satisfy the gates.", "quantifier": "all field elements/curve points of y^2 = x^3 + b with no point of order 2 and no point with x = 0", "why_tests_cant": "all adversarial advice values and all exceptional cases", "anchors": ["halo2_gadgets/src/ecc/chip/witness_point.rs", "halo2_gadgets/src/ecc/chip/add_incomplete.rs", "halo2_gadgets/src/ecc/chip/add.rs"]}
{"id": "C46", "title": "Poseidon chip constrains the permutation", "statement": "If the Pow5 chip's full-round, partial-round and pad-and-add gates hold along a region then the output row is the Poseidon permutation of the input row (and the sponge output equals the primitive's), and the chip's own assignment satisfies the gates.", "quantifier": "all states, round constants, MDS matrices, numbers of rounds", "why_tests_cant": "all adversarial advice values over all rounds", "anchors": ["halo2_gadgets/src/poseidon/pow5.rs", "halo2_gadgets/src/poseidon.rs", "halo2_poseidon/src/lib.rs"]}
{"id": "C47", "title": "Circuit Value operations propagate unknown and compute pointwise", "statement": "Every Value combinator/operator yields unknown iff an argument is unknown, and otherwise the operation applied to the contents; assign fails iff unknown.", "quantifier": "all operations and values", "why_tests_cant": "all combinations", "anchors": ["halo2_proofs/src/circuit/value.rs"]}
{"id": "C48", "title": "Bit and word conversions are mutually inverse", "statement": "lebs2ip(i2lebsp(x)) = x mod 2^L, i2lebsp(lebs2ip(b)) = b; decompose_word(x, n, w) yields digits < 2^w with sum digit_i*2^(w*i) = x mod 2^n; bitrange_subset(x, a..b) = floor(x/2^a) mod 2^(b-a).", "quantifier": "all words, widths and ranges", "why_tests_cant": "all widths and values", "anchors": ["halo2_gadgets/src/utilities.rs: lebs2ip, i2lebsp, decompose_word, bitrange_subset"]}
{"id": "C49", "title": "MDS generation returns an MDS matrix together with its inverse", "statement": "Whenever generate_mds returns (mds, mds_inv), both are T by T, mds * mds_inv and mds_inv * mds are the identity, and mds is maximum distance separable: every square submatrix, for any choice of distinct rows and distinct columns, is invertible.", "quantifier": "all widths T, all streams of field elements, all numbers of skipped matrices", "why_tests_cant": "the tests check the shipped parameter sets only; the inverse is computed by a separate closed formula that must agree for every point set", "anchors": ["halo2_poseidon/src/mds.rs: generate_mds"]}
{"id": "C50", "title": "Variable-base scalar multiplication returns [alpha] base", "statement": "If a finished table meets every copy constraint, gate and lookup that EccInstructions::mul lays out, the returned point's cells hold [alpha] base, for the value of alpha's cell and the point in base's cells. (Refuted: the rows of incomplete double-and-add hold a copy of the base point that no constraint ties to base, so a prover may use another point there.)", "quantifier": "all tables, scalars and base points of the curve's prime order group", "why_tests_cant": "tests run the honest prover, whose table always satisfies the missing constraint", "anchors": ["halo2_gadgets/src/ecc/chip/mul.rs: Config::assign", "halo2_gadgets/src/ecc/chip/mul/incomplete.rs: Config::double_and_add", "halo2_gadgets/src/ecc/chip/mul/complete.rs", "halo2_gadgets/src/ecc/chip/mul/overflow.rs"]}
{"id": "C51", "title": "Key generation succeeds exactly when the circuit's synthesis does, and ignores the witness", "statement": "For a configured circuit whose domain exists, keygen_vk returns exactly the outcome of laying the circuit out: if that succeeds both keys exist, their fixed columns hold the last values assigned (0 elsewhere) followed by columns that are non-zero wherever a selector was enabled, and the verifying key commits to them; otherwise the error is that of the layout. Circuits that differ only in their advice values give the same keys.", "quantifier": "all configured constraint systems, synthesis programs, witnesses and parameters", "why_tests_cant": "ranges over all circuits and all call sequences a synthesis can make", "anchors": ["halo2_proofs/src/plonk/keygen.rs: keygen_vk, keygen_pk, create_domain", "halo2_proofs/src/plonk.rs: VerifyingKey::from_parts"]}
{"id": "C52", "title": "An accepted proof of a false statement needs a false opening claim or an unlikely challenge", "statement": "Let the keys be those of a configured circuit, and let a prover commit to advice polynomials for which the table of some circuit (advice values, fixed values of the key, public inputs) violates a gate, a lookup or a copy constraint. Then for all but few values of theta, whatever permuted lookup polynomials are committed to next, for all but few beta and gamma, whatever product polynomials and random polynomial come next, for all but few y, whatever quotient pieces come next, and for all but few x: every run of verify_proof with these challenges, on any bytes, that reaches the opening argument asks it to check an evaluation that the committed polynomials do not have. The numbers of bad challenges are explicit polynomials in the sizes of the circuit.", "quantifier": "all configured circuits, keys, public inputs, committed polynomials of degree below n, challenges and proof bytes", "why_tests_cant": "ranges over all cheating provers; a test can only try particular bad witnesses, and with honest later messages", "anchors": ["halo2_proofs/src/plonk/verifier.rs: verify_proof", "halo2_proofs/src/plonk/permutation/verifier.rs: expressions, queries", "halo2_proofs/src/plonk/lookup/verifier.rs: expressions, queries", "halo2_proofs/src/plonk/vanishing/verifier.rs: verify"]}
{"id": "C53", "title": "Challenges bind the key, the public inputs and every earlier message", "statement": "Whenever verify_proof reaches the opening argument, each of its challenges theta, beta, gamma, y and x is the hash of an explicit encoding of the verifying key's digest, the commitments to the (zero-padded) public inputs and all the messages read before it, in the protocol's order; the opening argument starts from the hash state that also contains every evaluation, and is run on exactly those commitments (and those of the key) and evaluations. The proof bytes read are exactly the encoding of the messages. Two runs with the same key and equal hash inputs have the same public-input commitments and messages; equal first inputs mean equal key digests.", "quantifier": "all verifying keys, public inputs and proof bytes", "why_tests_cant": "a transcript that forgets a message still verifies every honest proof; the claim is about all pairs of runs", "anchors": ["halo2_proofs/src/plonk/verifier.rs: verify_proof", "halo2_proofs/src/transcript.rs: Blake2bRead", "halo2_proofs/src/plonk.rs: VerifyingKey::hash_into"]}
{"id": "C54", "title": "The Sinsemilla gadget computes the Sinsemilla hash", "statement": "Let the circuit's constraints hold (the chip's gates, its lookup into the generator table, and the copy and constant constraints of the calls) and let the message have at least one piece. Then every piece cell holds an integer that fits the piece's declared number of K-bit words, the running sums returned are that integer shifted right word by word, and the point returned is the Sinsemilla hash of the words of the message from Q (repeated incomplete addition acc := (acc + S(word)) + acc) whenever that hash is defined. The same holds from a private initial point, which a chip not configured for it refuses with an error. Conversely, for every message whose pieces fit and whose hash is defined, the calls succeed and an honest prover's table satisfies all these constraints and holds the hash. For the empty message the gadget accepts it and does not constrain the y-coordinate of its result.", "quantifier": "all prime fields of odd characteristic, word sizes K, generator tables, initial points, messages of any number of pieces and words, tables (honest or not) and placements of regions", "why_tests_cant": "soundness ranges over all witnesses of a cheating prover; completeness over all messages", "anchors": ["halo2_gadgets/src/sinsemilla/chip.rs: SinsemillaChip::configure, hash_to_point, hash_to_point_with_private_init", "halo2_gadgets/src/sinsemilla/chip/hash_to_point.rs", "halo2_gadgets/src/sinsemilla/chip/generator_table.rs", "halo2_gadgets/src/sinsemilla.rs: HashDomain"]}
{"id": "C55", "title": "The Merkle path gadget computes a root of the leaf", "statement": "Let the circuit's constraints hold for every Merkle chip given to the gadget, in any number and with shared or separate columns. If calculate_root returns a cell, then there are a sibling and a side for each of the PATH_LENGTH levels such that hashing up from the value in the leaf's cell gives the value in that cell: each node is the MerkleCRH of its level number, its left child and its right child, each child written as some NUM_BITS-bit integer that represents it, whenever that hash is defined. Conversely, for every leaf, position and path whose hashes are defined, the call succeeds, the prover knows the root that the protocol defines for that position and path, and an honest prover's table satisfies all the constraints and holds that root.", "quantifier": "all prime fields of odd characteristic, generator tables, path lengths, numbers of chips, positions, paths, leaves, tables (honest or not) and placements of regions; word size K = 2s and nodes of K(w+1)+s bits (Pallas: K = 10, s = 5, w = 24)", "why_tests_cant": "soundness ranges over all witnesses of a cheating prover; completeness over all leaves, positions and paths", "anchors": ["halo2_gadgets/src/sinsemilla/merkle.rs: MerklePath::construct, calculate_root", "halo2_gadgets/src/sinsemilla/merkle/chip.rs: MerkleChip::configure, hash_layer, swap", "halo2_gadgets/src/sinsemilla/message.rs", "halo2_gadgets/src/utilities/cond_swap.rs"]}
{"id": "C56", "title": "The honest prover can multiply any point by any scalar", "statement": "EccInstructions::mul, given cells that hold a field element alpha and a point B of the curve's prime order group, never fails or panics: it returns the point [alpha] B and alpha's own cell, and when the prover fills the table as told, every copy constraint is met, every gate of the chip vanishes in every row, every looked-up value is a K-bit word, and the returned cells hold [alpha] B. This includes alpha = 0 and those alpha for which alpha + t_q overflows 2^254.", "quantifier": "all prime fields, curves y^2 = x^3 + b with group order q = 2^(bits-1) + t_q, all bit lengths that fit, all scalars in the field, all points B with [q] B = O, all layouts", "why_tests_cant": "incomplete addition divides by a difference of x coordinates; only the order of the group, not examples, shows that no scalar makes it zero, and the overflow check has a case that random scalars reach with probability 2^-128", "anchors": ["halo2_gadgets/src/ecc/chip/mul.rs: Config::assign, process_lsb, decompose_for_scalar_mul", "halo2_gadgets/src/ecc/chip/mul/incomplete.rs: Config::double_and_add", "halo2_gadgets/src/ecc/chip/mul/complete.rs: Config::assign_region", "halo2_gadgets/src/ecc/chip/mul/overflow.rs: Config::overflow_check"]}
{"id": "C57", "title": "Full-width fixed-base multiplication returns [k] B for the k its window cells hold", "statement": "FixedPoint::mul of a full-width scalar: in every table that meets the chip's gates and the constraints the call makes, whatever the prover wrote, the returned window cells hold numbers k_0 .. k_(n-1) below 2^w, and the returned cells hold the point [k_0 + k_1 2^w + ... ] B, where B is the generator the fixed base was built from. The base's constants need only be those compute_lagrange_coeffs gives for B and z values for which no z - y is a square.", "quantifier": "all prime fields, curves, bases B of the scalar field's order, window sizes and counts that fit, scalars, layouts and tables (all choices of a cheating prover)", "why_tests_cant": "a test runs the honest prover; this is about every assignment of the advice cells, including the wrong sign of y, windows out of range and x coordinates that collide in incomplete addition", "anchors": ["halo2_gadgets/src/ecc/chip/mul_fixed.rs: Config::coords_check, assign_region_inner, process_window, process_msb", "halo2_gadgets/src/ecc/chip/mul_fixed/full_width.rs: Config::create_gate, witness, assign", "halo2_gadgets/src/ecc/chip/constants.rs: compute_window_table, compute_lagrange_coeffs"]}
{"id": "C58", "title": "An honest prover can multiply a fixed base by any full-width scalar", "statement": "FixedPoint::mul of a full-width scalar: for every scalar s the call succeeds (no panic, no error), returns the point [s] B together with the base-2^w windows of s, and the table that holds what it assigned meets every copy constraint and, in every row, every gate of the fixed-base, incomplete-addition and complete-addition chips. The base's constants must be those compute_lagrange_coeffs gives, with u^2 = y + z for every entry of the window table.", "quantifier": "all prime fields, curves, bases B of the scalar field's order, window sizes and counts that fit, all scalars including 0, layouts, and tables with the honest values", "why_tests_cant": "tests multiply by a handful of scalars; an exceptional case of incomplete addition, a point with a zero coordinate or a wrong offset could hit any one of the 2^255 others", "anchors": ["halo2_gadgets/src/ecc/chip/mul_fixed.rs: assign_fixed_constants, process_window, process_lower_bits, process_msb, assign_region_inner", "halo2_gadgets/src/ecc/chip/mul_fixed/full_width.rs: Config::witness, decompose_scalar_fixed, assign", "halo2_gadgets/src/utilities.rs: decompose_word"]}
{"id": "C59", "title": "Fixed-base multiplication by a short signed scalar returns [sign * magnitude] B", "statement": "FixedPointShort::mul: in every table that meets the chip's gates and the constraints the call makes, whatever the prover wrote, the magnitude cell holds a number k below 2^(w (n-1) + 1) (2^64 in the code), the sign cell holds 1 or -1, and the returned cells hold [k] B if the sign is 1 and -[k] B if it is -1. Multiplying any point P by a sign with the same gate likewise returns P or -P and forces the sign to be 1 or -1.", "quantifier": "all prime fields, curves, bases of the scalar field's order, window sizes and counts that fit, magnitude and sign cells, layouts and tables (all choices of a cheating prover)", "why_tests_cant": "tests try a few magnitudes and signs out of range; a cheating prover chooses every running-sum cell, point and sign freely", "anchors": ["halo2_gadgets/src/ecc/chip/mul_fixed/short.rs: Config::create_gate, decompose, assign, assign_scalar_sign", "halo2_gadgets/src/ecc/chip/mul_fixed.rs: Config::running_sum_coords_gate, ScalarFixed::windows_field", "halo2_gadgets/src/utilities/decompose_running_sum.rs: RunningSumConfig::copy_decompose"]}
{"id": "C60", "title": "An honest prover can multiply a fixed base by every short signed scalar", "statement": "FixedPointShort::mul: for every magnitude below 2^(w (n-1) + 1) (2^64 in the code) and sign 1 or -1 the program returns [sign * magnitude] B and the running sums magnitude / 2^(w i), without panicking; in a table filled from what it assigned every copy constraint and, in every row, every gate holds. Multiplying any point by a sign 1 or -1 likewise succeeds and returns P or -P.", "quantifier": "all magnitudes in range, signs, bases with u^2 = y + z, prime fields, window sizes and counts, layouts and honest tables", "why_tests_cant": "there are 2^65 scalars per base; a scalar for which an addition is exceptional or a gate cannot be met would only show up when someone uses it", "anchors": ["halo2_gadgets/src/ecc/chip/mul_fixed/short.rs: Config::decompose, assign, assign_scalar_sign", "halo2_gadgets/src/ecc/chip/mul_fixed.rs: Config::assign_region_inner, ScalarFixed::windows_field", "halo2_gadgets/src/utilities/decompose_running_sum.rs: RunningSumConfig::copy_decompose"]}
{"id": "C61", "title": "Sinsemilla commitments are M + [r] R and an honest prover can always make one", "statement": "CommitDomain::commit returns, in every table that meets the constraints, a point equal to SinsemillaHashToPoint(message) + [r] R for one integer r in the range of the scalar's windows, whenever that hash is defined, together with the running sums of pieces that fit their number of words; short_commit returns its x-coordinate (0 for the identity) and blinding_factor returns [r] R. For every scalar r and every message of pieces in range whose hash is defined, the honest prover's run returns exactly that point and fills a table that meets every copy constraint, gate and lookup; the final addition has no exceptional case.", "quantifier": "all messages, scalars, generators and initial points on the curve, fixed bases, prime fields, window sizes and counts, word sizes, layouts and tables", "why_tests_cant": "tests try a few messages and blinding scalars; a commitment that opens to another message or a scalar for which the final addition fails is one point in a space of 2^255", "anchors": ["halo2_gadgets/src/sinsemilla.rs: CommitDomain::commit, CommitDomain::short_commit, CommitDomain::blinding_factor"]}
{"id": "C62", "title": "Multiplying a fixed base by a base-field element returns the multiple by its canonical representative", "statement": "FixedPointBaseField::mul: in every table that meets the copy constraints, gates and lookups, the returned point is [alpha] B, where alpha is the canonical representative in [0, p) of the field element in the caller's cell. A prover cannot use the windows of alpha + p in its place, although alpha + p may also fit the windows.", "quantifier": "all scalars, fixed bases with the documented window tables, prime fields p = 2^(w (n-1) + 2) + t, window sizes and counts, range-check word sizes, layouts and tables", "why_tests_cant": "tests run the honest prover; a second decomposition of alpha exists only for a few residues, and a missing canonicity constraint leaves every honest run unchanged", "anchors": ["halo2_gadgets/src/ecc/chip/mul_fixed/base_field_elem.rs: Config::create_gate, Config::assign", "halo2_gadgets/src/ecc/chip/mul_fixed.rs: running_sum_coords_gate, assign_region_inner"]}
