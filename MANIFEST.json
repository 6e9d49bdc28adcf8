{
 "claims": [
  {
   "property": "C01",
   "status": "proved",
   "theorems": [
    "C01_best_multiexp_inner_product",
    "C01_best_multiexp_unequal_lengths_panic",
    "C01_small_multiexp_inner_product"
   ],
   "note": "All lengths, thread counts and window widths."
  },
  {
   "property": "C02",
   "status": "proved",
   "theorems": [
    "C02_best_fft_is_dft",
    "C02_best_fft_length_panics"
   ],
   "note": ""
  },
  {
   "property": "C03",
   "status": "proved",
   "theorems": [
    "C03_domain_new",
    "C03_lagrange_to_coeff",
    "C03_lagrange_to_coeff_wrong_length_panics"
   ],
   "note": "Every field with the assumed constants, every k, thread count."
  },
  {
   "property": "C04",
   "status": "proved",
   "theorems": [
    "C04_coeff_to_extended",
    "C04_extended_to_coeff",
    "C04_extended_roundtrip",
    "C04_extended_wrong_length_panics",
    "C04_rotate_extended",
    "C04_poly_rotate",
    "C04_rotate_omega",
    "C04_roundtrip_j1_refuted"
   ],
   "note": "The inverse relation needs j >= 2; for j = 1 the result is truncated to the empty vector (refuted). Rotations are limited to |r| <= n (the code panics beyond)."
  },
  {
   "property": "C05",
   "status": "proved",
   "theorems": [
    "C05_no_zero_divisor",
    "C05_divide_by_vanishing_poly"
   ],
   "note": ""
  },
  {
   "property": "C06",
   "status": "proved",
   "theorems": [
    "C06_l_i_range",
    "C06_basis_exists"
   ],
   "note": ""
  },
  {
   "property": "C07",
   "status": "proved",
   "theorems": [
    "C07_eval_polynomial",
    "C07_inner_product",
    "C07_kate_division",
    "C07_kate_division_empty_panics",
    "C07_lagrange_interpolate",
    "C07_lagrange_interpolate_duplicates_panic_refuted"
   ],
   "note": "The documented panic on duplicate points is refuted."
  },
  {
   "property": "C08",
   "status": "proved",
   "theorems": [
    "C08_evaluate_rows_lagrange",
    "C08_evaluate_rows_extended",
    "C08_evaluate_poly_lagrange",
    "C08_evaluate_poly_extended",
    "C08_coeff_linear_term_refuted"
   ],
   "note": "Lagrange and extended bases, every thread count and Ast. The coefficient-basis linear term panics for chunk size 1 (refuted); that basis is never used by the prover."
  },
  {
   "property": "C09",
   "status": "proved",
   "theorems": [
    "C09_evaluate",
    "C09_is_zero",
    "C09_eq",
    "C09_neg",
    "C09_add",
    "C09_sub",
    "C09_mul",
    "C09_field_operand",
    "C09_double",
    "C09_square",
    "C09_cube",
    "C09_invert",
    "C09_zero_denominator"
   ],
   "note": ""
  },
  {
   "property": "C10",
   "status": "proved",
   "theorems": [
    "C10_batch_invert_assigned"
   ],
   "note": "The external batch inversion of ff is modelled as pointwise inversion with 0 unchanged."
  },
  {
   "property": "C11",
   "status": "proved",
   "theorems": [
    "C11_params_new",
    "C11_params_new_panics",
    "C11_commit",
    "C11_commit_wrong_length_panics",
    "C11_commit_additive",
    "C11_commit_scales",
    "C11_commit_lagrange_agrees"
   ],
   "note": ""
  },
  {
   "property": "C12",
   "status": "proved",
   "theorems": [
    "C12_params_roundtrip",
    "C12_params_truncated",
    "C12_params_read_sound"
   ],
   "note": "k < 64 (1 << k on u64)."
  },
  {
   "property": "C13",
   "status": "proved",
   "theorems": [
    "C13_msm_eval",
    "C13_merge"
   ],
   "note": ""
  },
  {
   "property": "C14",
   "status": "proved",
   "theorems": [
    "C14_ipa_complete",
    "C14_ipa_create_no_panic"
   ],
   "note": "create_proof/verify_proof of the inner product argument for every polynomial, blind, point, MSM history, transcript and random tape; also decides wrong claims about honest proofs. Soundness against dishonest provers is not expressible without a computational model."
  },
  {
   "property": "C15",
   "status": "proved",
   "theorems": [
    "C15_compute_s",
    "C15_compute_b",
    "C15_compute_g",
    "C15_guards_agree",
    "C15_compute_s_empty_panics"
   ],
   "note": "Guards from arbitrary (also dishonest) proofs."
  },
  {
   "property": "C16",
   "status": "proved",
   "theorems": [
    "C16_sets_total",
    "C16_sets_shape",
    "C16_sets_faithful",
    "C16_sets_pattern"
   ],
   "note": "construct_intermediate_sets: never panics, None iff a (commitment, point) pair repeats; regroups exactly the given queries; grouping depends only on which queries share a commitment or a point"
  },
  {
   "property": "C17",
   "status": "proved",
   "theorems": [
    "C17_multiopen_complete",
    "C17_one_wrong_evaluation_rejected",
    "C17_duplicate_query_refused",
    "C17_create_no_panic"
   ],
   "note": "prover and verifier agree for all queries/blinds/tapes; accepted with true evaluations, rejected with one wrong evaluation; exception: x_3 equal to a queried point makes the verifier panic"
  },
  {
   "property": "C18",
   "status": "proved",
   "theorems": [
    "C18_reader_replays_writer",
    "C18_events",
    "C18_identity_rejected",
    "C18_truncated_rejected"
   ],
   "note": ""
  },
  {
   "property": "C19",
   "status": "proved",
   "theorems": [
    "C19_absorption_unambiguous",
    "C19_challenge_binds_history",
    "C19_after_error_refuted"
   ],
   "note": "For call sequences without an error; a caller that continues after the identity error can make histories collide (refuted)."
  },
  {
   "property": "C20",
   "status": "proved",
   "theorems": [
    "C20_degree_bound",
    "C20_evaluate_at_point",
    "C20_evaluate_natural"
   ],
   "note": "Degree bound over all expressions and column polynomials; evaluation commutes with point evaluation and with any operation-preserving map."
  },
  {
   "property": "C21",
   "status": "proved",
   "theorems": [
    "C21_advice_index_stable",
    "C21_instance_index_stable",
    "C21_fixed_index_stable",
    "C21_queries_exact",
    "C21_advice_counts",
    "C21_query_no_panic",
    "C21_expressions_stay_valid"
   ],
   "note": "All sequences of ConstraintSystem calls."
  },
  {
   "property": "C22",
   "status": "proved",
   "theorems": [
    "C22_compress",
    "C22_operators",
    "C22_configured"
   ],
   "note": "For every constraint system built by the API's operators, compression succeeds, keeps the degree and every query index, removes all selectors, and each gate polynomial vanishes at a row iff it did before (lookup expressions keep their exact value). Needs char > degree."
  },
  {
   "property": "C23",
   "status": "proved",
   "theorems": [
    "C23_copies",
    "C23_failed_copy_changes_nothing"
   ],
   "note": "Theorem over any sequence of copy calls, in range or not: result of each call, the mapping stays a permutation of the cells, and two cells are on the same cycle iff related by the equivalence closure of the successful calls."
  },
  {
   "property": "C24",
   "status": "proved",
   "theorems": [
    "C24_labels_distinct",
    "C24_build_pk",
    "C24_build_vk"
   ],
   "note": "Labels delta^i*omega^j are distinct for at most ord(delta) columns; the sigma columns, their coefficient and coset forms and their commitments, for the mapping after any sequence of copies."
  },
  {
   "property": "C25",
   "status": "proved",
   "theorems": [
    "C25_permutation_complete"
   ],
   "note": "For any copies between usable rows, any satisfying values, any blinding; degenerate_few counts the excluded gammas."
  },
  {
   "property": "C26",
   "status": "proved",
   "theorems": [
    "C26_permutation_sound"
   ],
   "note": "Few bad betas and gammas, explicit counts."
  },
  {
   "property": "C27",
   "status": "proved",
   "theorems": [
    "C27_permute_expression_pair"
   ],
   "note": "permute_expression_pair for all inputs, tables, usable row counts and random values"
  },
  {
   "property": "C28",
   "status": "proved",
   "theorems": [
    "C28_lookup_compressed",
    "C28_lookup_complete",
    "C28_lookup_rejected"
   ],
   "note": "commit_permuted, commit_product and construct; degenerate (beta,gamma) excluded explicitly"
  },
  {
   "property": "C29",
   "status": "proved",
   "theorems": [
    "C29_lookup_sound"
   ],
   "note": "stated on the prover's expressions over arbitrary leaf polynomials; counts of exceptional theta, beta, gamma explicit"
  },
  {
   "property": "C30",
   "status": "proved",
   "theorems": [
    "C30_random_commitment",
    "C30_quotient",
    "C30_evaluate",
    "C30_h_commitment",
    "C30_expected_value",
    "C30_vanishing_sound"
   ],
   "note": "Vanishing argument of prover and verifier; degree and vanishing on the domain imply the committed pieces recombine to the quotient; soundness counts the bad y and x. The size hypothesis on expressions is discharged for real constraint systems in C32."
  },
  {
   "property": "C31",
   "status": "proved",
   "theorems": [
    "C31_same_run"
   ],
   "note": "For keys made by keygen for a configured circuit with at least one column: create_proof (up to the opening argument) never panics, fails only on an identity point or a lookup that does not hold, and otherwise verify_proof replays it: same bytes, absorbed stream, challenges, constraint values at x, opening queries with commitments to the prover's polynomials. Exception: x is an n-th root of unity, for which the verifier panics."
  },
  {
   "property": "C32",
   "status": "proved",
   "theorems": [
    "C32_complete",
    "C32_exceptional_few",
    "C32_mock_accepted"
   ],
   "note": "Exceptional challenges are explicit: x an n-th root of unity, a zero denominator in the permutation or a lookup argument (bounded by C32_exceptional_few), x_3 equal to an opening point. C32_mock_accepted concludes from MockProver's verdict."
  },
  {
   "property": "C33",
   "status": "proved",
   "theorems": [
    "C33_simple_floor_planner",
    "C33_plan_carries_out",
    "C33_simple_carries_out"
   ],
   "note": "For every circuit whose region closures use the same cells when measured. The calls made on the back-end are exactly those of a plan whose regions do not overlap and whose constants lie apart; and a table agreeing with those calls respects every region, which is the hypothesis of the gadget theorems C43-C50."
  },
  {
   "property": "C34",
   "status": "proved",
   "theorems": [
    "C34_v1_floor_planner",
    "C34_first_fit",
    "C34_default_order",
    "C34_v1_carries_out"
   ],
   "note": "For every list of shapes and every order of placement that is a permutation: no assertion fires, each region is at the least feasible row, starts are in region order, constants go to distinct cells outside the regions."
  },
  {
   "property": "C35",
   "status": "proved",
   "theorems": [
    "C35_simple_tables",
    "C35_v1_tables",
    "C35_contents",
    "C35_needs_spare_row",
    "C35_reassign_refuted"
   ],
   "note": "Acceptance and contents of lookup tables under both floor planners; the documented error on assigning a cell twice is refuted for rows other than 0."
  },
  {
   "property": "C36",
   "status": "proved",
   "theorems": [
    "C36_rejects",
    "C36_keygen",
    "C36_prover",
    "C36_mock",
    "C36_mock_keygen_agree"
   ],
   "note": "All three back-ends, for every synthesis."
  },
  {
   "property": "C37",
   "status": "proved",
   "theorems": [
    "C37_gates",
    "C37_sound",
    "C37_poisoned"
   ],
   "note": "the hypothesis mp_ok holds after every run (C40_run_ok); concrete runs in Ex_Mock"
  },
  {
   "property": "C38",
   "status": "proved",
   "theorems": [
    "C38_lookup",
    "C38_traces",
    "C38_sound"
   ],
   "note": "exact on cell values for every total order; concrete runs in Ex_Mock"
  },
  {
   "property": "C39",
   "status": "proved",
   "theorems": [
    "C39_copies",
    "C39_traces",
    "C39_unassigned_refuted"
   ],
   "note": "the check is stricter than the real trace: C39_unassigned_refuted"
  },
  {
   "property": "C40",
   "status": "proved",
   "theorems": [
    "C40_verify_sound",
    "C40_verify_panics",
    "C40_run_ok",
    "C40_accepted_can_be_proven",
    "C40_padding_refuted"
   ],
   "note": "needs that the synthesis queries only provided instance values; without it the claim is false (C40_padding_refuted)"
  },
  {
   "property": "C41",
   "status": "proved",
   "theorems": [
    "C41_sequential_items",
    "C41_rayon_items",
    "C41_all_valid",
    "C41_unreadable",
    "C41_all_tapes",
    "C41_random"
   ],
   "note": "all rayon split trees and the sequential fallback; the bound counts the scalar tapes on which a batch with a readable but rejected proof is accepted"
  },
  {
   "property": "C42",
   "status": "proved",
   "theorems": [
    "C42_permute",
    "C42_hash",
    "C42_hash_empty",
    "C42_squeeze",
    "C42_capacity"
   ],
   "note": "the sponge, padding and permutation for every width, rate, S-box, matrix and message; Hash::<ConstantLength<0>> panics (C42_hash_empty)"
  },
  {
   "property": "C43",
   "status": "proved",
   "theorems": [
    "C43_range_check",
    "C43_running_sum_sound",
    "C43_running_sum_complete",
    "C43_lookup_sound",
    "C43_lookup_complete",
    "C43_short_sound",
    "C43_short_complete",
    "C43_lookup45_sound",
    "C43_short45_sound",
    "C43_short45_complete",
    "C43_copy_check_sound",
    "C43_copy_short_check_sound",
    "C43_copy_decompose_sound"
   ],
   "note": "Running-sum decomposition, lookup range check, short checks and the 4/5-bit variant: sound for every table satisfying the gates, lookups and equality constraints; complete for the honest assignment. The non-wrapping bound is an explicit hypothesis for the running sum and proved from the code's own assertion for the lookup variant."
  },
  {
   "property": "C44",
   "status": "proved",
   "theorems": [
    "C44_swap_sound",
    "C44_swap_complete",
    "C44_mux_sound",
    "C44_mux_complete"
   ],
   "note": "Gate semantics of CondSwap swap and mux, sound and complete for the assigned regions."
  },
  {
   "property": "C45",
   "status": "proved",
   "theorems": [
    "C45_witness_sound",
    "C45_witness_non_id_sound",
    "C45_constant_point",
    "C45_witness_complete",
    "C45_witness_non_id_complete",
    "C45_witness_non_id_identity",
    "C45_add_incomplete_sound",
    "C45_add_incomplete_complete",
    "C45_add_incomplete_exceptional",
    "C45_add_sound",
    "C45_add_complete",
    "padd_on_curve"
   ],
   "note": "Witness-point, incomplete and complete addition regions of the ECC chip (M_Ecc), over any field and any curve y^2 = x^3 + b of the kind good_curve (S_Curve); group law in S_Curve."
  },
  {
   "property": "C46",
   "status": "proved",
   "theorems": [
    "C46_permute_sound",
    "C46_permute_complete",
    "C46_hash_sound",
    "C46_hash_complete"
   ],
   "note": "Pow5 chip (M_Pow5) and the Poseidon sponge gadget over the layouter calls of M_Layout; specification S_Poseidon and the primitive of C42. The chip hard-codes x^5, so the specification's S-box must be x^5."
  },
  {
   "property": "C47",
   "status": "proved",
   "theorems": [
    "C47_known_or_unknown",
    "C47_assign",
    "C47_assert",
    "C47_error_if",
    "C47_map",
    "C47_and_then",
    "C47_zip",
    "C47_unzip",
    "C47_transpose_array",
    "C47_transpose_vec",
    "C47_from_iter",
    "C47_unknown",
    "C47_known",
    "C47_into_field"
   ],
   "note": "circuit::Value: every combinator propagates unknown, computes the underlying function on known values, and the two panicking cases are exactly those documented."
  },
  {
   "property": "C48",
   "status": "proved",
   "theorems": [
    "C48_lebs2ip",
    "C48_roundtrip",
    "C48_bitrange_subset",
    "C48_bitrange_subset_panics",
    "C48_decompose_word",
    "C48_decompose_word_panics"
   ],
   "note": "utilities.rs bit and word conversions over any prime field representation; panicking inputs characterised."
  },
  {
   "property": "C49",
   "status": "proved",
   "theorems": [
    "C49_inverse",
    "C49_shape",
    "C49_mds"
   ],
   "note": "the Grain stream is an arbitrary stream; the rejection loop is bounded by fuel and the theorems speak of the runs that return"
  },
  {
   "property": "C50",
   "status": "partial",
   "theorems": [
    "C50_mul_sound_partial",
    "C50_mul_sound_refuted",
    "C50_incomplete_base_free"
   ],
   "note": "The claim is false of the code: incomplete.rs assigns x_p, y_p without copying them from base, so double_and_add lays down the same constraints whatever base it is given (C50_incomplete_base_free), and a table over a 79-point curve meets every constraint yet returns [4] base for alpha = 5 (C50_mul_sound_refuted). Proved: every table that meets the constraints and holds the base in the first row of both incomplete blocks returns [alpha] base, for all field sizes, bit lengths and t_q of a prime order group (C50_mul_sound_partial)."
  },
  {
   "property": "C51",
   "status": "proved",
   "theorems": [
    "C51_keygen_outcome",
    "C51_keys_witness_independent"
   ],
   "note": "create_domain succeeding is a hypothesis (it panics otherwise)."
  },
  {
   "property": "C52",
   "status": "proved",
   "theorems": [
    "C52_sound"
   ],
   "note": "Algebraic soundness of the whole verifier relative to the opening argument; bounds on bad challenges are explicit."
  },
  {
   "property": "C53",
   "status": "proved",
   "theorems": [
    "C53_transcript",
    "C53_binding",
    "C53_key_binds"
   ],
   "note": "Fiat-Shamir order and binding for the verifier; the prover is tied to it by C31."
  },
  {
   "property": "C54",
   "status": "proved",
   "theorems": [
    "C54_hash_to_point_sound",
    "C54_private_init_sound",
    "C54_private_init_refused",
    "C54_hash_sound",
    "C54_hash_to_point_complete",
    "C54_private_init_complete",
    "C54_empty_message_refuted"
   ],
   "note": "soundness for any table and placement; completeness for messages that fit; the clause about the empty message is C54_empty_message_refuted (a table meeting every constraint with a wrong y-coordinate)"
  },
  {
   "property": "C55",
   "status": "proved",
   "theorems": [
    "C55_calculate_root_sound",
    "C55_calculate_root_complete"
   ],
   "note": "The path of the soundness theorem is existential: leaf_pos and path are private witnesses, so the circuit constrains neither. Nodes may be written by any NUM_BITS-bit representative, as in the protocol. Completeness needs at most 64 levels (i2lebsp takes a u64). Sinsemilla tables loaded and range checks not sharing rows with running sums are hypotheses (merkle_holds). Example: two levels and two chips over F_97 (Ex_Merkle)."
  },
  {
   "property": "C56",
   "status": "proved",
   "theorems": [
    "C56_mul_complete"
   ],
   "note": "For every prime field, curve, scalar and base point of order dividing the prime q: mul returns [alpha] B, and an honest table meets every copy constraint, gate and lookup. mul_params_fit lists what the bit lengths must satisfy; pallas_fit shows that the code's lengths do, for any primes just above 2^254."
  },
  {
   "property": "C57",
   "status": "proved",
   "theorems": [
    "C57_mul_fixed_sound"
   ],
   "note": "soundness of full-width fixed-base multiplication for every table; hypotheses on the base's constants are met by Ex_EccFixed.base163_ok, with honest runs checked there"
  },
  {
   "property": "C58",
   "status": "proved",
   "theorems": [
    "C58_mul_fixed_complete"
   ],
   "note": "Hypotheses about the constants: fixed_base_ok (C57) and fixed_base_us (u^2 = y + z, right lengths); window bits <= 8 and windows * bits = scalar bits, as in the code (3 * 85 = 255). Selectors of the three chips distinct. Instance over F_163 with a base of order 181, applied to every scalar in Ex_EccFixed.fixed163."
  },
  {
   "property": "C59",
   "status": "proved",
   "theorems": [
    "C59_mul_short_sound",
    "C59_sign_sound"
   ],
   "note": "Same hypotheses about the fixed base as C57. Concrete case over F_163 in Ex_EccShort (7-bit magnitudes, both signs; an 8-bit magnitude fails)."
  },
  {
   "property": "C60",
   "status": "proved",
   "theorems": [
    "C60_mul_short_complete",
    "C60_sign_complete"
   ],
   "note": "Same hypotheses about the fixed base as C58; the field's characteristic is odd. Applied to every 7-bit magnitude and both signs over F_163 in Ex_EccShort (short163)."
  },
  {
   "property": "C61",
   "status": "proved",
   "theorems": [
    "C61_commit_sound",
    "C61_short_commit_sound",
    "C61_blinding_factor_sound",
    "C61_commit_complete",
    "C61_short_commit_complete",
    "C61_blinding_factor_complete"
   ],
   "note": "For any prime field, curve y^2 = x^3 + b without points with x or y zero, generators and base on the curve. In soundness r is an existentially quantified integer below 2^(windows): ScalarFixed::new assigns no cell, so nothing else ties it to the caller's value. The message is not claimed when the hash meets an exceptional case (hash undefined), as in C54."
  },
  {
   "property": "C62",
   "status": "proved",
   "theorems": [
    "C62_mul_base_sound"
   ],
   "note": "For any window size above 1, p = 2^(w (n-1) + 2) + t with t at most 2^(K l) and K l = w m + 1, as in the code (3, 85, 43, 10, 13). The base's z values are those of the documented precomputation (u^2 = z - y has no root); the search that finds them is not modelled."
  }
 ]
}