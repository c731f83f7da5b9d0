{
 "claims": [
  {
   "property": "C01",
   "status": "proved",
   "theorems": [
    "C01_ffint_ring_operations_exact",
    "C01_mod_mul_exact_for_all_uint64"
   ],
   "note": "all moduli below 2^63 (x87 long double), DEFAULT backend"
  },
  {
   "property": "C02",
   "status": "proved",
   "theorems": [
    "C02_ffint_division_is_field_division",
    "C02_ffint_division_assign_agrees",
    "C02_ffint_division_by_zero_is_zero"
   ],
   "note": ""
  },
  {
   "property": "C03",
   "status": "proved",
   "theorems": [
    "C03_pow_integer_exponent",
    "C03_pow_negative_integer_exponent",
    "C03_pow_field_exponent",
    "C03_pow_field_exponent_zero_base",
    "C03_pow_zero_base_refuted"
   ],
   "note": "FFInt-exponent overload with base 0 characterised exactly and refuted at e=p-1 (p<>3)"
  },
  {
   "property": "C04",
   "status": "proved",
   "theorems": [
    "C04_integer_constructor_nonnegative",
    "C04_integer_constructor_negative",
    "C04_integer_constructor_negative_multiple",
    "C04_integer_constructor_refuted",
    "C04_mpz_constructor",
    "C04_replacement_constructor",
    "C04_replacement_constructor_refuted"
   ],
   "note": "property as stated (incl. the two violations): violations shown by _refuted theorems"
  },
  {
   "property": "C05",
   "status": "proved",
   "theorems": [
    "C05_increment_does_not_modify_refuted",
    "C05_increment_returned_values"
   ],
   "note": "the expected behaviour is refuted for every element; what is returned is characterised"
  },
  {
   "property": "C06",
   "status": "proved",
   "theorems": [
    "C06_decimal_string_constructor",
    "C06_other_strings_rejected",
    "C06_blank_minus_refuted"
   ],
   "note": "all digit strings; rejection proved for strings not starting with white space or '+'; \" -5\" is accepted (refuted)"
  },
  {
   "property": "C07",
   "status": "proved",
   "theorems": [
    "C07_vector_operators_componentwise",
    "C07_integral_powers_componentwise",
    "C07_bunch_evaluation_equals_single_evaluation",
    "C07_scalar_minus_vector_refuted",
    "C07_scalar_over_vector_refuted",
    "C07_commuting_scalar_operators",
    "C07_at_rejects_last_component_refuted"
   ],
   "note": "Component-wise operators, integral and vector powers, and whole expressions proved for every size; FFInt - FFIntVec, FFInt / FFIntVec and at(last) are refuted."
  },
  {
   "property": "C08",
   "status": "proved",
   "theorems": [
    "C08_chinese_remainder",
    "C08_chinese_remainder_unique",
    "C08_negative_residue_refuted"
   ],
   "note": "non-negative residues; a negative first residue can give a negative result (refuted)"
  },
  {
   "property": "C09",
   "status": "proved",
   "theorems": [
    "C09_rational_reconstruction_sound",
    "C09_rational_reconstruction_complete",
    "C09_rational_reconstruction_total",
    "C09_reconstructed_fraction_unique"
   ],
   "note": ""
  },
  {
   "property": "C10",
   "status": "proved",
   "theorems": [
    "C10_mqrr_sound",
    "C10_mqrr_complete",
    "C10_mqrr_zero",
    "C10_mqrr_total"
   ],
   "note": "completeness under an explicit margin |n|*d*(max(T,|n|,d)+2)<=p with T=1024*bits(p)"
  },
  {
   "property": "C11",
   "status": "proved",
   "theorems": [
    "C11_constructor",
    "C11_operators_exact_on_every_history",
    "C11_equality_is_value_equality",
    "C11_gcd_of_rationals",
    "C11_zero_denominator_refuted",
    "C11_binary_multiplication_modifies_operand_refuted"
   ],
   "note": "zero denominators and operator* mutating its operand shown by _refuted theorems"
  },
  {
   "property": "C12",
   "status": "proved",
   "theorems": [
    "C12_a_grt_b_is_colexicographic",
    "C12_a_grt_b_strict_total_order",
    "C12_a_eq_b_is_equality",
    "C12_a_grt_b_s_strict_total_order",
    "C12_a_grt_b_s_degree_first",
    "C12_monomial_orders"
   ],
   "note": "equal-length vectors (a shorter second vector is read out of bounds: model result None); a_grt_b_s is a strict total order even when the uint32 degree sum wraps"
  },
  {
   "property": "C13",
   "status": "proved",
   "theorems": [
    "C13_enumerates_every_tuple_once",
    "C13_order_of_enumeration",
    "C13_stops_exactly_at_all_ones"
   ],
   "note": ""
  },
  {
   "property": "C14",
   "status": "proved",
   "theorems": [
    "C14_all_shifts_listed_once_sorted",
    "C14_more_than_32_variables_refuted"
   ],
   "note": "1<=r<=32; r>32 loops forever / throws (refuted)"
  },
  {
   "property": "C15",
   "status": "proved",
   "theorems": [
    "C15_bunch_size_bounds",
    "C15_job_number_bounds",
    "C15_empty_queue_refuted",
    "C15_huge_queue_refuted"
   ],
   "note": "queue/threads < 2^31; the empty queue and the 2^31 boundary are refuted"
  },
  {
   "property": "C16",
   "status": "proved",
   "theorems": [
    "C16_calc_is_the_polynomial_value",
    "C16_calc_n_m_1",
    "C16_addition",
    "C16_subtraction",
    "C16_scalars",
    "C16_no_zero_coefficients",
    "C16_remove_zero_coefs"
   ],
   "note": "any iteration order of the unordered_map; calc_n_m_1 for at most 50 terms (Horner shortcut: see C37)"
  },
  {
   "property": "C17",
   "status": "proved",
   "theorems": [
    "C17_product_without_collisions",
    "C17_product_with_a_single_term",
    "C17_product_refuted"
   ],
   "note": "no colliding term pairs; refuted for (x+1)^2 in every field and order"
  },
  {
   "property": "C18",
   "status": "proved",
   "theorems": [
    "C18_add_shift",
    "C18_add_shift_ffint",
    "C18_add_shift_wrong_size",
    "C18_constant_term_refuted"
   ],
   "note": "exponents below p; the constant term is dropped (characterised and refuted)"
  },
  {
   "property": "C19",
   "status": "proved",
   "theorems": [
    "C19_mul_by_variable",
    "C19_homogenize_terms",
    "C19_homogenize_evaluation_refuted"
   ],
   "note": "homogenize leaves n unchanged: calc on the returned object refuted; the terms themselves are right"
  },
  {
   "property": "C20",
   "status": "proved",
   "theorems": [
    "C20_solve_vandermonde_system",
    "C20_unique_solution",
    "C20_no_equation_refuted"
   ],
   "note": "empty system is out-of-range access"
  },
  {
   "property": "C21",
   "status": "proved",
   "theorems": [
    "C21_ffint_is_a_field",
    "C21_gauss_returns_the_solution",
    "C21_gauss_exit_means_singular",
    "C21_singular_system_refuted"
   ],
   "note": "Solution and uniqueness for every non-singular system, exit only on singular ones; for singular systems a wrong vector can be returned (refuted)."
  },
  {
   "property": "C22",
   "status": "proved",
   "theorems": [
    "C22_lu_decomposition",
    "C22_solve_lu",
    "C22_calc_inverse_lu",
    "C22_calc_inverse",
    "C22_determinant"
   ],
   "note": "PA=LU for every matrix, solve/inverse (both algorithms) for every non-singular matrix, determinant equals the Laplace determinant for every matrix."
  },
  {
   "property": "C23",
   "status": "proved",
   "theorems": [
    "C23_result_interpolates",
    "C23_result_is_the_function",
    "C23_termination_test",
    "C23_prediction_reproduces_fed_values",
    "C23_last_value",
    "C23_misuse_is_undefined_refuted",
    "C23_breakdown_refuted",
    "C23_common_root_refuted"
   ],
   "note": "Proved when no inverse difference breaks down: every fed value is reproduced as num = f*den, completeness for every rational function of matching degrees, exact characterisation of the termination flag. Refuted without the side condition (silent division by zero), and the denominator can vanish at a fed point (x/x)."
  },
  {
   "property": "C24",
   "status": "proved",
   "theorems": [
    "C24_newton_takes_every_value",
    "C24_newton_recovers_the_polynomial",
    "C24_newton_terminates",
    "C24_early_termination_refuted"
   ],
   "note": "Newton session incl. degree bound: every used value reproduced, recovery of every polynomial once deg+1 values are used, termination after deg+2 probes. Recovery from fewer values (accidental zero difference) refuted."
  },
  {
   "property": "C25",
   "status": "proved",
   "theorems": [
    "C25_generator_valid_and_minimal",
    "C25_success_flag",
    "C25_ben_or_tiwari_recovers_sparse_polynomials",
    "C25_first_value_zero_refuted",
    "C25_early_success_refuted"
   ],
   "note": "every field satisfying the FFInt laws; the vanishing first probe and the early-success case are refuted"
  },
  {
   "property": "C26",
   "status": "proved",
   "theorems": [
    "C26_add_sub",
    "C26_mul",
    "C26_scalar",
    "C26_get_deg",
    "C26_empty_throws",
    "C26_division",
    "C26_division_unique",
    "C26_zero_dividend_refuted",
    "C26_division_by_zero_refuted",
    "C26_gcd",
    "C26_gcd_refuted"
   ],
   "note": "all coefficient vectors over every field satisfying the FFInt laws; the unconditional division/gcd claims are refuted (zero dividend with constant divisor, zero divisor: undefined behaviour) and proved under the exact complement. ceil(log2(double)) modelled exactly; aliased operands not modelled."
  },
  {
   "property": "C27",
   "status": "proved",
   "theorems": [
    "C27_constructor_then_evaluate_pre",
    "C27_functions_of_a_file",
    "C27_parentheses",
    "C27_mismatch_exits",
    "C27_undeclared_name_exits",
    "C27_leading_zero_refuted",
    "C27_leading_zero_throws_refuted",
    "C27_large_exponent_refuted",
    "C27_large_negative_exponent_refuted",
    "C27_undeclared_digit_name_refuted",
    "C27_blank_in_string_refuted"
   ],
   "note": "the documented language as concrete syntax trees of any size; limits of the representation (exponent below p-1, negative exponent below 2^31, no leading zero in long literals, names of at most 16 characters) are hypotheses, each with a refutation beyond it"
  },
  {
   "property": "C28",
   "status": "proved",
   "theorems": [
    "C28_precomputed_equals_direct",
    "C28_prime_changes",
    "C28_nested_quotient_refuted",
    "C28_added_function_ignored_refuted",
    "C28_forced_precompute_loses_functions_refuted",
    "C28_evaluate_pre_2",
    "C28_evaluate_pre_2_overflow_refuted"
   ],
   "note": "every token list in one prime field; the history of prime changes is proved for every tree except a single variable divided by a parenthesised quotient of numbers (nq_e), which is refuted by x/(2/3); evaluate_pre_2 is right unless a function is a lone variable or a constant quotient and overflows its stack for every function that is a single word"
  },
  {
   "property": "C29",
   "status": "proved",
   "theorems": [
    "C29_evaluate",
    "C29_default_constructor_refuted",
    "C29_default_constructor_check_refuted",
    "C29_negative_exponent_refuted"
   ],
   "note": "with the notation kept evaluate() returns the values iff no exponent is negative and exits otherwise; refuted for the default constructor (README usage) and negative exponents"
  },
  {
   "property": "C30",
   "status": "proved",
   "theorems": [
    "C30_one_result_per_function",
    "C30_own_values",
    "C30_collision_refuted",
    "C30_add_otf_after_construction_refuted",
    "C30_trim",
    "C30_trim_with_check",
    "C30_trim_then_prime_change_refuted",
    "C30_trim_default_refuted"
   ],
   "note": "with check_is_equal: one value per function, that of a function with the same fingerprint; trim for every keep set; refutations for colliding fingerprints, add_otf after construction, trim followed by a prime change, trim with the defaults"
  },
  {
   "property": "C31",
   "status": "proved",
   "theorems": [
    "C31_values_are_nonzero_field_elements",
    "C31_get_rand_32_returns",
    "C31_get_rand_64_returns_after_seeding",
    "C31_seed_determines_the_state",
    "C31_different_seeds_differ",
    "C31_unseeded_get_rand_64_refuted",
    "C31_reset_does_not_reset_refuted"
   ],
   "note": "unseeded get_rand_64 and reset() refuted; get_rand_64 returns within 85 draws for every modulus in (2^64/3,2^63)"
  },
  {
   "property": "C32",
   "status": "proved",
   "theorems": [
    "C32_exactly_once",
    "C32_start_order",
    "C32_destructor_finishes_everything",
    "C32_left_alone_everything_finishes",
    "C32_no_threads"
   ],
   "note": "all schedules and thread numbers; tasks that throw are not modelled"
  },
  {
   "property": "C33",
   "status": "proved",
   "theorems": [
    "C33_kill_all",
    "C33_wait_false",
    "C33_one_client_never_stuck",
    "C33_wait_false_with_queued_task_refuted",
    "C33_two_clients_refuted"
   ],
   "note": "wait() as completion test and concurrent wait()/kill_all() refuted"
  },
  {
   "property": "C34",
   "status": "proved",
   "theorems": [
    "C34_exactly_once_in_order",
    "C34_accepted_when_fed",
    "C34_feed_one_is_bunch_of_one",
    "C34_one_thread_at_a_time",
    "C34_nothing_left",
    "C34_no_deadlock",
    "C34_handed_probe_is_current",
    "C34_discarded_probe_is_stale",
    "C34_empty_bunch_refuted",
    "C34_tag_window_refuted",
    "C34_poly_exactly_once_in_order",
    "C34_poly_one_thread_at_a_time",
    "C34_poly_nothing_left",
    "C34_poly_stale_probe_refuted"
   ],
   "note": "non-empty bunches (the Reconstructor never feeds an empty one); empty bunch, the tag window at a prime change and PolyReconst stale probes are refuted"
  },
  {
   "property": "C35",
   "status": "proved",
   "theorems": [
    "C35_vector_round_trip",
    "C35_field_vector_round_trip",
    "C35_rational_round_trip",
    "C35_file_name_round_trip",
    "C35_state_round_trip",
    "C35_zero_state_round_trip",
    "C35_initial_file_round_trip",
    "C35_probe_file_round_trip",
    "C35_large_exponent_is_not_read",
    "C35_state_nonvacuous",
    "C35_tag_named_like_a_variable_is_lost"
   ],
   "note": "Vectors, field elements, rational numbers, file names, probe files, and the whole state file (all members, all sizes) are read back; limits proved: components >= 2^31 make std::stoi throw, a tag named like a variable of the file is lost. The numbers of the shift are drawn anew, only their zero pattern is kept. gzip compression is not modelled."
  },
  {
   "property": "C36",
   "status": "proved",
   "theorems": [
    "C36_every_entry_is_prime",
    "C36_three_hundred_strictly_decreasing",
    "C36_every_entry_fits_63_bits",
    "C36_the_largest_63_bit_primes",
    "C36_field_for_every_entry",
    "C36_rational_number_recovered_from_the_first_primes"
   ],
   "note": "certificates checked by Coq with primitive 63-bit integers (standard library axioms PrimInt63/Uint63); primes_128() is not used by the library and is not covered"
  },
  {
   "property": "C37",
   "status": "proved",
   "theorems": [
    "C37_polynomialff_to_string",
    "C37_polynomial_to_string",
    "C37_horner_ff",
    "C37_horner_rn",
    "C37_polynomial_horner",
    "C37_rational_function_to_string",
    "C37_rational_function_horner",
    "C37_constant_denominator_prime_change_refuted",
    "C37_calc_n_m_1_horner",
    "C37_calc_n_m_1_history"
   ],
   "note": "polynomials and Horner forms: all primes, also across prime changes; rational functions: at the prime of parsing (no prime change), with a refutation for constant denominators after a prime change; calc_n_m_1 Horner cache for all histories"
  },
  {
   "property": "C38",
   "status": "proved",
   "theorems": [
    "C38_same_protocol_as_C34",
    "C38_each_probe_in_one_place",
    "C38_index_always_found",
    "C38_results_belong_to_points",
    "C38_fed_values_are_black_box_values",
    "C38_every_function_sees_every_probe_once",
    "C38_no_point_requested_twice",
    "C38_counters_exact",
    "C38_requested_probes_have_tasks",
    "C38_waiting_for_a_probe_is_served",
    "C38_idle_means_everything_processed"
   ],
   "note": "thread-pool version without MPI, saved states and early results; functions start fresh; the effect of the interpolation on an object is: nothing, done, or next prime, chosen arbitrarily; the have-tasks and waiting theorems assume fewer than 2^31 requested probes (C15 refutes the bunch size beyond that)"
  },
  {
   "property": "C39",
   "status": "proved",
   "theorems": [
    "C39_zero_function_iff",
    "C39_zero_function_done_after_three",
    "C39_never_otherwise",
    "C39_no_read_past_primes"
   ],
   "note": "every history of events with non-empty bunches"
  },
  {
   "property": "C40",
   "status": "proved",
   "theorems": [
    "C40_rational_number_recovered_from_several_primes"
   ],
   "note": ""
  },
  {
   "property": "C41",
   "status": "proved",
   "theorems": [
    "C41_functions_counted_once",
    "C41_new_prime_only_if_all_agree",
    "C41_new_prime_is_clean",
    "C41_ends_only_if_all_done"
   ],
   "note": "same model as C38"
  },
  {
   "property": "C42",
   "status": "proved",
   "theorems": [
    "C42_no_deadlock",
    "C42_jobs_can_finish"
   ],
   "note": "same model as C38; possibility of progress (some schedule of the workers), below the exit at 300 primes; the thread pool itself is C32/C33"
  },
  {
   "property": "C43",
   "status": "proved",
   "theorems": [
    "C43_roots",
    "C43_roots_hang"
   ],
   "note": "partial correctness for every sequence of random numbers plus absence of exceptions/UB; non-termination proved for polynomials without roots. Termination with probability one for split polynomials is not claimed."
  },
  {
   "property": "C44",
   "status": "proved",
   "theorems": [
    "C44_one_state_file_old_or_new",
    "C44_no_prime_combined_twice",
    "C44_probes_of_the_right_prime",
    "C44_resume_outside_the_windows",
    "C44_crash_in_probe_exchange_refuted",
    "C44_stale_probe_file_refuted",
    "C44_cut_probe_file_refuted",
    "C44_cut_zero_file_refuted",
    "C44_nonzero_resumed_as_zero_refuted",
    "C44_probes_of_another_function_refuted"
   ],
   "note": "Holds for every crash point as far as the state files go; the complete statement holds outside the crash windows named by `risky` (Crash.v), and for each window a refutation shows the harm: unresumable run, stale probe file, cut line read beyond its end, nonzero function resumed as zero, probes handed to another function. Coefficient contents of a state file are C35's."
  },
  {
   "property": "C45",
   "status": "proved",
   "theorems": [
    "C45_result_is_the_function",
    "C45_finishes",
    "C45_small_coefficients_have_no_impostor",
    "C45_few_arguments_accept_a_wrong_guess",
    "C45_three_zeros_give_zero",
    "C45_coincidence_gives_a_wrong_result_refuted",
    "C45_no_recovery_from_a_wrong_coefficient_refuted"
   ],
   "note": "Conditions on primes and arguments (no breakdown of Thiele's scheme, solvable systems, no coincidences) are hypotheses of the run (good_run in RatUniSpec.v); C45_hypotheses_met gives a run with 63-bit primes of the table that meets them."
  },
  {
   "property": "C46",
   "status": "proved",
   "theorems": [
    "C46_almost_all_anchors_are_suitable",
    "C46_almost_all_runs_recover",
    "C46_suitable_anchors_exist",
    "C46_polynomial_recovered",
    "C46_result_is_there",
    "C46_homogenized_result",
    "C46_zero_polynomial",
    "C46_anchor_at_a_root_refuted",
    "C46_equal_anchors_refuted"
   ],
   "note": "Suitable anchor points (distinct powers, no vanishing coefficient, different values of different monomials, no early coincidence) are a hypothesis; C46_hypotheses_met meets it, the refutations show what happens without it."
  },
  {
   "property": "C47",
   "status": "proved",
   "theorems": [
    "C47_rational_polynomial_recovered",
    "C47_reconstruction_ends",
    "C47_one_guess",
    "C47_zero_polynomial",
    "C47_large_coefficient_refuted",
    "C47_lost_polynomial_refuted"
   ],
   "note": "Rational polynomials over several primes (PolyReconst on its own): C47_rational_polynomial_recovered (soundness of every run), C47_reconstruction_ends (termination once the product of the primes is large enough), C47_one_guess, C47_zero_polynomial; refutations show what goes wrong when a coefficient exceeds the product of the primes used. Hypothesis not_fooled speaks about the single possible wrong guess. Queue protocol is C34."
  },
  {
   "property": "C48",
   "status": "proved",
   "theorems": [
    "C48_almost_all_anchors_suit_the_homogeneous_parts",
    "C48_rational_function_recovered",
    "C48_result_is_there",
    "C48_what_the_first_prime_leaves"
   ],
   "note": "one prime (the first); scan, skip_thiele and prime changes are not in this model; conditions on points are the record `interpolable` of RatMultiSpec.v"
  },
  {
   "property": "C49",
   "status": "proved",
   "theorems": [
    "C49_almost_all_anchors_tell_monomials_apart",
    "C49_result_is_the_function",
    "C49_reconstruction_ends",
    "C49_zero_function",
    "C49_zero_first_value_refuted"
   ],
   "note": "non-singular case (the normalising monomial is alone in its degree); scan, skip_thiele and the singular-system branch are not in this model; the claim fails when the first value over the first prime is zero and the function is not constant: C49_zero_first_value_refuted"
  },
  {
   "property": "C50",
   "status": "proved",
   "theorems": [
    "C50_insertion",
    "C50_sum_of_basis_functions",
    "C50_value_preserved",
    "C50_files",
    "C50_two_rules_exit",
    "C50_unknown_function_exits",
    "C50_second_expression_refuted",
    "C50_second_check_refuted",
    "C50_function_name_in_coefficient_refuted",
    "C50_other_input_refuted",
    "C50_order_of_functions_refuted",
    "C50_empty_expression_refuted"
   ],
   "note": "Expressions and rules in the documented format (names of letters and digits; FUNCTION*coefficient). Refuted outside of it: a second expression or a second check_for_unreplaced_masters for one object, names of functions in coefficients, FUNCTION/x, constant terms, the longer name listed first, an empty expression."
  },
  {
   "property": "C51",
   "status": "proved",
   "theorems": [
    "C51_sparsest_shift_found",
    "C51_found_shift_normalises",
    "C51_function_recovered_from_degrees",
    "C51_result_is_there"
   ],
   "note": "Thiele's interpolation is assumed to meet no division by zero in each round (otherwise the program draws new points); two or more variables."
  },
  {
   "property": "C52",
   "status": "proved",
   "theorems": [
    "C52_variable_order",
    "C52_probe_points",
    "C52_points_distinct",
    "C52_factor_text",
    "C52_early_results_once",
    "C52_result_complete",
    "C52_get_result_after_early_refuted",
    "C52_printed_result_is_the_black_box"
   ],
   "note": "That the interpolated function has the values of the probes is a hypothesis here (C45-C48, C51); get_result after get_early_results pairs functions with wrong factors (refuted)."
  },
  {
   "property": "C53",
   "status": "proved",
   "theorems": [
    "C53_supplied_probes_are_read",
    "C53_fed_exactly_once",
    "C53_requests_and_answers",
    "C53_one_variable_refuted",
    "C53_no_repetition_refuted"
   ],
   "note": "several variables: reading, histories, requests and answers; refuted for one variable (every non-empty file is rejected) and refuted: supplied probes are not requested again"
  },
  {
   "property": "C54",
   "status": "proved",
   "theorems": [
    "C54_order_survives",
    "C54_factors_survive",
    "C54_factor_parsers_survive",
    "C54_validation"
   ],
   "note": "order of the variables, factors (as rational functions and as parsers) and the validation point; compression and directory access by contract"
  },
  {
   "property": "C55",
   "status": "proved",
   "theorems": [
    "C55_counters_and_verdict",
    "C55_counters_exact",
    "C55_after_early_results_refuted",
    "C55_all_ready_but_fails_refuted"
   ],
   "note": "Conformance of attempt_to_continue for every set of answers of the objects; counters exact for all histories without a call after get_early_results; the other histories are refuted (run cannot end, exception although all functions are ready)."
  },
  {
   "property": "C56",
   "status": "proved",
   "theorems": [
    "C56_prime_of_a_shifted_system"
   ],
   "note": "One further prime of a system in which the variables are shifted. Hypotheses: the monomials still to be found and the subtraction terms known from the prime before are right (known_side: what the first prime leaves), the anchor points separate the monomials of equal degree, no probe hits a pole, the linear systems of the rays are regular (determined). The number of equations of a ray, fixed by the first prime, is taken to be the number of unknown powers of t."
  },
  {
   "property": "C57",
   "status": "proved",
   "theorems": [
    "C57_shifted_run_gives_the_function",
    "C57_shifted_run_ends"
   ],
   "note": "From the first prime on; what the first prime leaves for the next ones is computed by the model. Hypotheses: the function has no constants (when the shift is needed the side that is set to one has none; the other side may have one, which is not covered); the conditions of C48 for the first prime and, for every further prime, no pole, the same monomials after the shift, regular ray systems, separating anchor points and no coincidence that makes a wrong guess agree with a probe. Primes whose first value is zero over the very first prime: C49."
  },
  {
   "property": "C58",
   "status": "proved",
   "theorems": [
    "C58_sorted_list_is_unique",
    "C58_polynomial_result_is_canonical",
    "C58_unfinished",
    "C58_rational_result",
    "C58_rational_text_depends_on_the_order_refuted"
   ],
   "note": "Proved for PolyReconst and for the terms returned by RatReconst; the independence of the text is refuted for RatReconst (sort is commented out in lines 1854-1855)."
  }
 ]
}