{
 "claims": [
  {
   "property": "C01",
   "status": "proved",
   "theorems": [
    "C01_add_sub",
    "C01_add_sub_number",
    "C01_mul",
    "C01_neg",
    "C01_mul_number",
    "C01_pow"
   ],
   "note": ""
  },
  {
   "property": "C02",
   "status": "proved",
   "theorems": [
    "C02_simplify_value",
    "C02_simplify_normal_form",
    "C02_simplify_canonical",
    "C02_simplify_idempotent"
   ],
   "note": ""
  },
  {
   "property": "C03",
   "status": "proved",
   "theorems": [
    "C03_derive",
    "C03_derive_independent"
   ],
   "note": ""
  },
  {
   "property": "C04",
   "status": "proved",
   "theorems": [
    "C04_replace_nested",
    "C04_nested_zero_refuted",
    "C04_replace"
   ],
   "note": "Expression trees: C04_replace_nested, refuted for value 0 with expression-valued coefficients (C04_nested_zero_refuted)."
  },
  {
   "property": "C05",
   "status": "proved",
   "theorems": [
    "C05_refactorize_value",
    "C05_refactorize_minimal",
    "C05_col_min_is_minimum",
    "C05_refactorize_other_parameters",
    "C05_refactorize_idempotent"
   ],
   "note": ""
  },
  {
   "property": "C06",
   "status": "proved",
   "theorems": [
    "C06_derive",
    "C06_derive_any"
   ],
   "note": "Real numbers; the sympy zero test of ProductRule.derive is a parameter assumed sound. ExponentiatedPolynomials without duplicate rows, as in C07."
  },
  {
   "property": "C07",
   "status": "proved",
   "theorems": [
    "C07_simplify",
    "C07_simplify_any",
    "C07_no_duplicates",
    "C07_duplicate_terms_refuted"
   ],
   "note": "Refuted without the no-duplicates condition on ExponentiatedPolynomial: C07_duplicate_terms_refuted."
  },
  {
   "property": "C08",
   "status": "proved",
   "theorems": [
    "C08_flatten",
    "C08_denest",
    "C08_exponent_lost_refuted"
   ],
   "note": "C08_flatten for every depth and every nest; C08_denest for nests of plain polynomials; C08_exponent_lost_refuted: denest drops the exponent of a coefficient that is an ExponentiatedPolynomial (deviation). C08_ex: a concrete case."
  },
  {
   "property": "C09",
   "status": "proved",
   "theorems": [
    "C09_recorded",
    "C09_compute_derivatives",
    "C09_order",
    "C09_chain_rule",
    "C09_derive_succeeds",
    "C09_more_arguments_refuted"
   ],
   "note": "C09_recorded, C09_compute_derivatives, C09_order, C09_chain_rule, C09_derive_succeeds, C09_ex. C09_more_arguments_refuted: with more arguments than variables derive raises an IndexError (the multi-index has number_of_variables entries), hence the hypothesis on the number of arguments. In-place simplify of the arguments and the names of derivatives are not modelled."
  },
  {
   "property": "C10",
   "status": "proved",
   "theorems": [
    "C10_history",
    "C10_order",
    "C10_to_sum"
   ],
   "note": "All histories; the domain is that of the product of the factors."
  },
  {
   "property": "C11",
   "status": "proved",
   "theorems": [
    "C11_powerset_members",
    "C11_powerset_multiples",
    "C11_powerset_multiples_refuted",
    "C11_powerset_once_in_order",
    "C11_powerset_by_position",
    "C11_combinations_lexicographic"
   ],
   "note": "C11_*_refuted documents that sizes are not multiples of stride when min_length is not."
  },
  {
   "property": "C12",
   "status": "proved",
   "theorems": [
    "C12_rangecomb_members",
    "C12_rangecomb_count"
   ],
   "note": ""
  },
  {
   "property": "C13",
   "status": "proved",
   "theorems": [
    "C13_missing_multiset_difference",
    "C13_missing_error"
   ],
   "note": ""
  },
  {
   "property": "C14",
   "status": "proved",
   "theorems": [
    "C14_all_pairs_matchings",
    "C14_all_pairs_once",
    "C14_all_pairs_by_position",
    "C14_all_pairs_count"
   ],
   "note": ""
  },
  {
   "property": "C15",
   "status": "proved",
   "theorems": [
    "C15_det",
    "C15_parallel_det"
   ],
   "note": ""
  },
  {
   "property": "C16",
   "status": "proved",
   "theorems": [
    "C16_argsort_2D",
    "C16_argsort_2D_unique",
    "C16_argsort_3D",
    "C16_equal_rows_adjacent"
   ],
   "note": ""
  },
  {
   "property": "C17",
   "status": "proved",
   "theorems": [
    "C17_chunks"
   ],
   "note": ""
  },
  {
   "property": "C18",
   "status": "proved",
   "theorems": [
    "C18_Pak_sort_permutes",
    "C18_Pak_sort_default_permutes",
    "C18_light_Pak_sort_permutes",
    "C18_iterative_sort_terminates",
    "C18_iterative_sort_permutes"
   ],
   "note": ""
  },
  {
   "property": "C19",
   "status": "proved",
   "theorems": [
    "C19_Pak_sort_smallest",
    "C19_Pak_sort_default_smallest",
    "C19_Pak_sort_canonical",
    "C19_single_column_refuted"
   ],
   "note": "C19_single_column_refuted: with a single column (default indices) the rows are not sorted, so the theorem needs two columns."
  },
  {
   "property": "C20",
   "status": "proved",
   "theorems": [
    "C20_terminates",
    "C20_distinguishes",
    "C20_no_collision"
   ],
   "note": ""
  },
  {
   "property": "C21",
   "status": "proved",
   "theorems": [
    "C21_sort_functions",
    "C21_terminates",
    "C21_outputs_are_inputs",
    "C21_sum_preserved",
    "C21_integral_preserved",
    "C21_Pak_finds_all",
    "C21_ignored_variables_refuted",
    "C21_dreadnaut_sum_preserved"
   ],
   "note": "The Jacobian must not contain variables excluded by `indices`: C21_ignored_variables_refuted shows a wrong merge otherwise. Integral identity for natural-number exponents (and for every additive, renaming-invariant functional). dreadnaut itself is an oracle (hypothesis dreadnaut_sound)."
  },
  {
   "property": "C22",
   "status": "proved",
   "theorems": [
    "C22_graph_encodes_array",
    "C22_number_of_terms"
   ],
   "note": "Coefficients are compared as objects; the code compares their str()."
  },
  {
   "property": "C23",
   "status": "proved",
   "theorems": [
    "C23_primary_decomposition",
    "C23_default_indices"
   ],
   "note": ""
  },
  {
   "property": "C24",
   "status": "proved",
   "theorems": [
    "C24_remap_parameters",
    "C24_partial_derivatives",
    "C24_jacobian_determinant"
   ],
   "note": ""
  },
  {
   "property": "C25",
   "status": "proved",
   "theorems": [
    "C25_iteration_step",
    "C25_image_of_cube",
    "C25_cover_and_overlap",
    "C25_integral_preserved"
   ],
   "note": ""
  },
  {
   "property": "C26",
   "status": "proved",
   "theorems": [
    "C26_find_singular_set",
    "C26_prefers_highest_powers",
    "C26_most_polynomials_refuted"
   ],
   "note": "C26_most_polynomials_refuted: the announced preference for sets nullifying most polynomials is not implemented."
  },
  {
   "property": "C27",
   "status": "proved",
   "theorems": [
    "C27_standard_form_and_tiling",
    "C27_every_field",
    "C27_standard_form_unchanged",
    "C27_integral_preserved",
    "C27_initial_sectors"
   ],
   "note": "Statement about finished runs; termination is not claimed (the heuristic need not terminate). Integral identity for polynomial integrands."
  },
  {
   "property": "C28",
   "status": "proved",
   "theorems": [
    "C28_value",
    "C28_involution",
    "C28_negative_exponent_fails"
   ],
   "note": ""
  },
  {
   "property": "C29",
   "status": "proved",
   "theorems": [
    "C29_sectors",
    "C29_choices",
    "C29_tiling",
    "C29_integral_preserved"
   ],
   "note": "numpy random generator not modelled: the splitting points are universally quantified. Integral identity for polynomial integrands."
  },
  {
   "property": "C30",
   "status": "proved",
   "theorems": [
    "C30_singular_sets",
    "C30_appears",
    "C30_split_parameters"
   ],
   "note": ""
  },
  {
   "property": "C31",
   "status": "proved",
   "theorems": [
    "C31_transform_value",
    "C31_composition"
   ],
   "note": ""
  },
  {
   "property": "C32",
   "status": "proved",
   "theorems": [
    "C32_points_belong_to_product",
    "C32_contains_every_vertex",
    "C32_coefficients_irrelevant",
    "C32_repeated_monomials_refuted"
   ],
   "note": "C32_repeated_monomials_refuted: the statement needs distinct monomials: a vertex is lost for unsimplified input."
  },
  {
   "property": "C33",
   "status": "proved",
   "theorems": [
    "C33_Cheng_Wu"
   ],
   "note": ""
  },
  {
   "property": "C34",
   "status": "proved",
   "theorems": [
    "C34_apply_region",
    "C34_other_exponents"
   ],
   "note": ""
  },
  {
   "property": "C35",
   "status": "proved",
   "theorems": [
    "C35_derive_prod",
    "C35_ex"
   ],
   "note": "C35_derive_prod, C35_ex. Exponents are real numbers (the value for given regulators); the exponents of the polynomials do not depend on the expansion variable."
  },
  {
   "property": "C36",
   "status": "proved",
   "theorems": [
    "C36_by_parts",
    "C36_sample"
   ],
   "note": "C36_by_parts: for every product of the documented shape and fuel large enough; the sum of the continued integrals, the goals and the errors. Integrands: expression trees (polynomials with numerical coefficients, powers, logs, exponentials, products, sums, product rules) in which no power is a positive integer at the given regulator values; with positive integer powers simplify may change the value (C07_duplicate_terms_refuted). C36_sample: a concrete case."
  },
  {
   "property": "C37",
   "status": "proved",
   "theorems": [
    "C37_pole_part",
    "C37_pole_structure",
    "C37_value_integral",
    "C37_sample",
    "C37_integrable_error_refuted"
   ],
   "note": "C37_pole_part: sum of the continued integrals, zeros of the remainder, errors; C37_value_integral: for exponents above -1 the value is the improper integral; C37_integrable_error_refuted: ValueError also for the integrable x^(-1/2). C37_sample: a concrete case."
  },
  {
   "property": "C38",
   "status": "proved",
   "theorems": [
    "C38_Taylor",
    "C38_free",
    "C38_approximates",
    "C38_errors",
    "C38_nested_refuted"
   ],
   "note": "C38_Taylor: coefficients for any number of variables; C38_free: independent of the expansion variables; C38_approximates: remainder o(t^order) in one variable; C38_errors; C38_nested_refuted: a polynomial with polynomial coefficients keeps the expansion variable in the coefficient (deviation inherited from Polynomial.replace). C38_ex1, C38_ex2: concrete cases."
  },
  {
   "property": "C39",
   "status": "proved",
   "theorems": [
    "C39_one_variable",
    "C39_several_variables",
    "C39_only_OrderError",
    "C39_errors",
    "C39_zero_refuted",
    "C39_zero_coefficient_refuted"
   ],
   "note": "C39_one_variable (lowest order, OrderError exactly below it, expansion with remainder), C39_several_variables (iterated expansion), C39_only_OrderError, C39_errors (TypeError). C39_zero_refuted, C39_zero_coefficient_refuted: 1/(y(1+x^2)) to orders (2,-1) raises OrderError because of the vanishing coefficient of x (deviation). C39_ex: hypotheses met by that expression."
  },
  {
   "property": "C40",
   "status": "proved",
   "theorems": [
    "C40_spanning_trees",
    "C40_homogeneous",
    "C40_vertex_order_irrelevant",
    "C40_errors"
   ],
   "note": "C40_spanning_trees, C40_homogeneous, C40_vertex_order_irrelevant, C40_errors (AssertionError/KeyError exactly when there is no loop, an external line off the graph, or a disconnected graph). int64 overflow of the matrix power is not modelled. C40_ex: two-loop sunrise."
  },
  {
   "property": "C41",
   "status": "proved",
   "theorems": [
    "C41_two_forests",
    "C41_homogeneous",
    "C41_unconserved_order_dependent_refuted"
   ],
   "note": "C41_two_forests, C41_homogeneous under momentum conservation (needed: C41_unconserved_order_dependent_refuted shows that otherwise F depends on the python set order). C41_ex."
  },
  {
   "property": "C42",
   "status": "proved",
   "theorems": [
    "C42_power_split",
    "C42_removed_consistent",
    "C42_positive_fraction_refuted"
   ],
   "note": "C42_power_split, C42_removed_consistent. C42_positive_fraction_refuted: for power 1/2 a derivative is taken although the power is already positive. Regulator dependence of a power is modelled as linear."
  },
  {
   "property": "C43",
   "status": "proved",
   "theorems": [
    "C43_measure",
    "C43_projective",
    "C43_graph"
   ],
   "note": "C43_measure, C43_projective (any U, F homogeneous of degree L, L+1 and any numerator of rank r), C43_graph (LoopIntegralFromGraph). Hypothesis U_dependence: for each differentiated parameter either U depends on it or U_derivatives leaves it out; C68_bridge_refuted shows that LoopIntegralFromGraph violates it for a bridge with negative power."
  },
  {
   "property": "C44",
   "status": "proved",
   "theorems": [
    "C44_returned_lattice",
    "C44_fails_above_maximum",
    "C44_too_many_variables",
    "C44_monotone",
    "C44_stable"
   ],
   "note": ""
  },
  {
   "property": "C45",
   "status": "proved",
   "theorems": [
    "C45_accepted",
    "C45_result",
    "C45_default",
    "C45_idempotent",
    "C45_macros",
    "C45_macros_injective",
    "C45_macro_arguments",
    "C45_instantiation_files"
   ],
   "note": ""
  },
  {
   "property": "C46",
   "status": "proved",
   "theorems": [
    "C46_accepts_exactly_legal_names",
    "C46_characters",
    "C46_comma_refuted",
    "C46_newline_refuted"
   ],
   "note": "C46_comma_refuted, C46_newline_refuted: a comma (it is inside the character class) and a trailing newline ($ matches before it) are accepted."
  },
  {
   "property": "C47",
   "status": "proved",
   "theorems": [
    "C47_split",
    "C47_call",
    "C47_names_distinct",
    "C47_short",
    "C47_succeeds",
    "C47_number_coefficient_refuted"
   ],
   "note": "Lengths of string representations are an arbitrary function; texts of unsplit expressions stand for the expression. C47_number_coefficient_refuted: a single term with a number as coefficient longer than the limit ends in an AttributeError."
  },
  {
   "property": "C48",
   "status": "proved",
   "theorems": [
    "C48_answers_reach_their_callers",
    "C48_nothing_lost",
    "C48_exactly_once",
    "C48_tokens",
    "C48_calls_are_safe",
    "C48_idle_multicall_is_safe",
    "C48_multicall_token_reuse_refuted",
    "C48_multicall_result",
    "C48_empty_multicall_refuted",
    "C48_two_errors_refuted"
   ],
   "note": "Callbacks are assumed not to raise (the multicall callback is modelled separately). C48_multicall_token_reuse_refuted: multicall starts at the token of the latest call, so a multicall while that call is outstanding misdelivers answers and ends the reader; C48_empty_multicall_refuted, C48_two_errors_refuted."
  },
  {
   "property": "C49",
   "status": "proved",
   "theorems": [
    "C49_npending_exact",
    "C49_drain",
    "C49_cancelled_never_runs",
    "C49_double_cancel_refuted"
   ],
   "note": "C49_double_cancel_refuted: cancelling the same request twice is counted twice."
  },
  {
   "property": "C50",
   "status": "proved",
   "theorems": [
    "C50_cauchy_product",
    "C50_general"
   ],
   "note": ""
  },
  {
   "property": "C51",
   "status": "proved",
   "theorems": [
    "C51_pass",
    "C51_strictly_larger_lattices",
    "C51_stop",
    "C51_second_phase_stays_in_tables",
    "C51_start_tabled",
    "C51_first_phase_leaves_tables_refuted",
    "C51_gives_up_early_refuted",
    "C51_value_is_average",
    "C51_noninteger_lattice_refuted",
    "C51_update",
    "C51_error_grows_refuted",
    "C51_median_candidate",
    "C51_make_odd",
    "C51_even_candidates_refuted",
    "C51_stop_first_phase"
   ],
   "note": "Real numbers instead of floats; workers are an oracle. Refuted strengthenings, as theorems: C51_first_phase_leaves_tables_refuted (phase 1 ignores the maximal lattice and goes on without a generating vector), C51_gives_up_early_refuted (rounding makes it give up far below the largest lattice), C51_noninteger_lattice_refuted (with standard_lattices off phase 1 proposes a non-integer number of points and the constant 1 integrates to something else), C51_error_grows_refuted (complex variances compared lexicographically), C51_even_candidates_refuted."
  },
  {
   "property": "C52",
   "status": "proved",
   "theorems": [
    "C52_unlimited",
    "C52_capped",
    "C52_never_above_cap",
    "C52_returned",
    "C52_truncation_refuted",
    "C52_below_floor_refuted",
    "C52_all_amplitudes"
   ],
   "note": "Real numbers instead of floats. C52_truncation_refuted: the truncation to integers can miss the target; C52_below_floor_refuted: with caps that make the target unreachable the answer can be below the floor (propose_lattices2 clips it)."
  },
  {
   "property": "C53",
   "status": "proved",
   "theorems": [
    "C53_array_shorthand",
    "C53_array_single",
    "C53_unit",
    "C53_no_unit",
    "C53_timeout",
    "C53_round_down",
    "C53_round_up",
    "C53_human_readable",
    "C53_parse_number",
    "C53_parse_plain_number"
   ],
   "note": "Python float/int parsing of digits is abstract; log10 is exact (integer) and human-readable rounding is for x >= 100."
  },
  {
   "property": "C54",
   "status": "proved",
   "theorems": [
    "C54_add",
    "C54_sub",
    "C54_neg",
    "C54_scale",
    "C54_unscale",
    "C54_scalar",
    "C54_mul",
    "C54_div",
    "C54_product_exists",
    "C54_quotient_exists",
    "C54_add_largest",
    "C54_sub_largest",
    "C54_mul_largest",
    "C54_mismatch",
    "C54_equal"
   ],
   "note": "Coefficients in a field without rounding; nested Series (several regulators) and printing not modelled."
  },
  {
   "property": "C55",
   "status": "proved",
   "theorems": [
    "C55_convert",
    "C55_negation",
    "C55_add_number",
    "C55_sub_number",
    "C55_mul_number",
    "C55_div_number",
    "C55_add",
    "C55_sub",
    "C55_mul",
    "C55_expression",
    "C55_formulas",
    "C55_complex_mul",
    "C55_complex_add",
    "C55_complex_left",
    "C55_complex_number",
    "C55_self_assignment_refuted",
    "C55_complex_chain_refuted"
   ],
   "note": "Over the reals (no rounding). C55_self_assignment_refuted: x *= x on the same object gives an uncertainty different from x * x; C55_complex_chain_refuted: repeated multiplication with complex numbers loses the correlation of real and imaginary part."
  },
  {
   "property": "C56",
   "status": "proved",
   "theorems": [
    "C56_monotone",
    "C56_no_recompute",
    "C56_request",
    "C56_not_refinable",
    "C56_get_next_n",
    "C56_lattices_grow",
    "C56_best",
    "C56_not_a_number_refuted",
    "C56_failure_at_largest_lattice_refuted"
   ],
   "note": "C56_not_a_number_refuted: a first result that is not a number is never replaced by a later numeric one; C56_failure_at_largest_lattice_refuted: if the integration with the largest lattice fails the repeat loop ends without ever computing the integral."
  },
  {
   "property": "C57",
   "status": "proved",
   "theorems": [
    "C57_rec_subs_fixed_point"
   ],
   "note": ""
  },
  {
   "property": "C58",
   "status": "proved",
   "theorems": [
    "C58_geometric_ku",
    "C58_geometric_ku_complete",
    "C58_ku_image",
    "C58_geometric",
    "C58_jacobian_determinant",
    "C58_jacobian_terms_refuted"
   ],
   "note": "normaliz is an oracle: its output is an argument with the hypotheses stated in the theorem; numpy floating point det = exact det. C58_jacobian_terms_refuted: geometric_decomposition gives a wrong Jacobian when the Jacobian factor has several terms (hence the monomial hypothesis)."
  },
  {
   "property": "C59",
   "status": "proved",
   "theorems": [
    "C59_cone_is_region",
    "C59_fan_covers_once",
    "C59_indices_counted_twice_refuted"
   ],
   "note": "C59_indices_counted_twice_refuted: with `indices` given, restricted exponents may coincide and a cone is then returned (and integrated) twice."
  },
  {
   "property": "C60",
   "status": "proved",
   "theorems": [
    "C60_find_regions",
    "C60_unsorted_indices_refuted",
    "C60_negative_index_refuted"
   ],
   "note": "C60_unsorted_indices_refuted, C60_negative_index_refuted: unsorted indices permute the region vector; without indices a negative position addresses the constant of an equation."
  },
  {
   "property": "C61",
   "status": "proved",
   "theorems": [
    "C61_template_file",
    "C61_python_rules",
    "C61_escaped_reference_refuted"
   ],
   "note": "C61_escaped_reference_refuted: an escaped %% directly before ( is treated as a reference start by the regular expression."
  },
  {
   "property": "C62",
   "status": "proved",
   "theorems": [
    "C62_template_tree",
    "C62_parents_first"
   ],
   "note": ""
  },
  {
   "property": "C63",
   "status": "proved",
   "theorems": [
    "C63_weights",
    "C63_truncation_is_harmless"
   ],
   "note": ""
  },
  {
   "property": "C64",
   "status": "proved",
   "theorems": [
    "C64_mul_variance",
    "C64_amplitude_variance",
    "C64_correlated_refuted"
   ],
   "note": "C64_correlated_refuted: when real and imaginary part are correlated the propagated value is not the variance."
  },
  {
   "property": "C65",
   "status": "proved",
   "theorems": [
    "C65_terminates",
    "C65_goal_min_prec",
    "C65_goal_error",
    "C65_time_up",
    "C65_points",
    "C65_increase_factor_one_refuted"
   ],
   "note": "The optimisation formula of ensure_error_goal is an arbitrary oracle. C65_increase_factor_one_refuted: with maxincreasefac = 1 the loop need not end."
  },
  {
   "property": "C66",
   "status": "proved",
   "theorems": [
    "C66_ends",
    "C66_parameters",
    "C66_factor_one_refuted"
   ],
   "note": "C66_factor_one_refuted: a factor of one repeats forever."
  },
  {
   "property": "C67",
   "status": "proved",
   "theorems": [
    "C67_add",
    "C67_mul",
    "C67_div",
    "C67_neg",
    "C67_sub",
    "C67_once",
    "C67_once_scaled",
    "C67_value",
    "C67_sum",
    "C67_repeated_integral_refuted"
   ],
   "note": "C67_repeated_integral_refuted: a list containing an integral twice gets too small an uncertainty."
  },
  {
   "property": "C68",
   "status": "proved",
   "theorems": [
    "C68_U_F_at_zero",
    "C68_numerator_is_derivative",
    "C68_bridge_refuted"
   ],
   "note": "C68_numerator_is_derivative, C68_U_F_at_zero. C68_bridge_refuted: LoopIntegralFromGraph never adjusts U_derivatives, so for a bridge line with a negative power exponent_U is too small by the number of derivatives."
  },
  {
   "property": "C69",
   "status": "proved",
   "theorems": [
    "C69_expand_region",
    "C69_ex",
    "C69_zero_exponent_refuted",
    "C69_region",
    "C69_region_ex"
   ],
   "note": "C69_expand_region, C69_region (prefactors, no superfluous term, remainder beyond the requested order), C69_ex, C69_region_ex. C69_zero_exponent_refuted: with exponent 0 the term of order zero replaces the base by 1 although the numerator refers to it by name; hence the hypothesis on zero exponents. find_regions itself is C30-C34."
  },
  {
   "property": "C70",
   "status": "proved",
   "theorems": [
    "C70_zero_powers",
    "C70_zero_loop_refuted"
   ],
   "note": "C70_zero_powers; C70_ex (triangle to bubble). C70_zero_loop_refuted: when the lines with power zero form a closed loop (scaleless integral) the code silently computes a different integral with fewer loops instead of zero; hence the hypothesis."
  },
  {
   "property": "C71",
   "status": "proved",
   "theorems": [
    "C71_maxdegrees",
    "C71_polynomial_function",
    "C71_nested_refuted"
   ],
   "note": "C71_maxdegrees, C71_polynomial_function (the hypothesis of C09_chain_rule), C71_ex. C71_nested_refuted: for a Polynomial whose coefficients are expressions in the same variables the degrees are wrong."
  },
  {
   "property": "C72",
   "status": "proved",
   "theorems": [
    "C72_mulmod",
    "C72_mul_mod",
    "C72_range"
   ],
   "note": "Doubles are modelled by Flocq rounding to nearest even with 53 bits."
  },
  {
   "property": "C73",
   "status": "proved",
   "theorems": [
    "C73_cpu_sum",
    "C73_cpu_fail",
    "C73_cpu_exact",
    "C73_cuda",
    "C73_tiles",
    "C73_cuda_tiles",
    "C73_cpu_extra_lane_refuted",
    "C73_package",
    "C73_packages_cover",
    "C73_batching"
   ],
   "note": "Real arithmetic except in mulmod; the integrand is an arbitrary partial function. C73_cpu_extra_lane_refuted: the sign checks of the masked lanes after the end of the range are not masked, so a range of the CPU worker can give NaN although all its points pass."
  },
  {
   "property": "C74",
   "status": "proved",
   "theorems": [
    "C74_korobov",
    "C74_sidi",
    "C74_baker",
    "C74_none",
    "C74_dist_korobov",
    "C74_dist_baker",
    "C74_dist_none",
    "C74_dist_same",
    "C74_integrable",
    "C74_korobov_boundary",
    "C74_sidi_boundary",
    "C74_baker_periodic"
   ],
   "note": "Real arithmetic; integrals are iterated Riemann integrals (Coquelicot). Only the call operator for one point is modelled; the batched operator of the even Sidi transform multiplies a pointer (qmc.hpp, line 1080) and cannot be instantiated."
  },
  {
   "property": "C75",
   "status": "proved",
   "theorems": [
    "C75_adjugate",
    "C75_complete_square",
    "C75_homogeneous",
    "C75_routing",
    "C75_linear_propagator"
   ],
   "note": "sympy's coeff/expand/subs are represented on lists of expanded terms; replacement rules are identities of scalar products and hold by evaluation. preliminary_numerator is a separate property (C76)."
  },
  {
   "property": "C76",
   "status": "proved",
   "theorems": [
    "C76_contraction_keeps_value",
    "C76_contraction_complete",
    "C76_gamma_recursion",
    "C76_numerator_is_isserlis",
    "C76_order_of_factors",
    "C76_k_squared",
    "C76_term_factors_found",
    "C76_index_more_than_twice_rejected",
    "C76_term_value"
   ],
   "note": "polynomials are represented by their values, vectors by their components, replacement rules are identities between scalar products applied by evaluation; sympy's matching in _numerator_tensors is represented on lists of factors (FnumTermModel). C76_k_squared is the worked example."
  },
  {
   "property": "C77",
   "status": "proved",
   "theorems": [
    "C77_order_values",
    "C77_lowest_orders",
    "C77_sum_exact",
    "C77_disteval_orders",
    "C77_pylink_orders",
    "C77_pylink_leading_order_two_refuted",
    "C77_two_regulators_two_sums_refuted",
    "C77_leading_orders",
    "C77_leading_order_above_maxorder_refuted"
   ],
   "note": "The expansion routines are parameters with the contract proved in C38/C39; ginsh is a parameter. Deviations: C77_two_regulators_two_sums_refuted (python's min of lists is lexicographic, orders needed by the second sum are not computed), C77_pylink_leading_order_two_refuted (compiled interface: a coefficient starting at eps^2 is dropped), C77_leading_order_above_maxorder_refuted (0 instead of maxorder). The prefactor is assumed to start at the order used for it before its expansion, which fails for prefactors such as 1/(a+b) in two regulators."
  },
  {
   "property": "C78",
   "status": "proved",
   "theorems": [
    "C78_one_normal_per_internal_facet",
    "C78_region_vertices",
    "C78_small_parameter_column",
    "C78_search",
    "C78_suggestion",
    "C78_primes_exist",
    "C78_constant_constraint_refuted",
    "C78_indices_refuted",
    "C78_called_twice_refuted"
   ],
   "note": "normaliz and sympy.prime are parameters with stated contracts (C78_primes_exist meets the latter). Deviations: C78_indices_refuted (extra_regulator_constraints with `indices` puts entries into wrong columns, since exp_param_index is overwritten by its position in the list), C78_called_twice_refuted (loop_regions inserts the regulator into the caller's loop integral every time it is called), C78_constant_constraint_refuted (for constraint matrices not coming from polytopes the search need not end although a solution exists)."
  },
  {
   "property": "C79",
   "status": "proved",
   "theorems": [
    "C79_pooled_statistics",
    "C79_sample",
    "C79_packages_of_shifts",
    "C79_complex"
   ],
   "note": "Floating point numbers are real numbers."
  },
  {
   "property": "C80",
   "status": "proved",
   "theorems": [
    "C80_every_point_once",
    "C80_serial",
    "C80_no_race",
    "C80_terminates",
    "C80_package_size",
    "C80_evaluate",
    "C80_lattice_rule"
   ],
   "note": "A thread's step is a load, an evaluation or a store; the memory model is sequentially consistent; the integrand is a function of the point. CUDA kernels are represented by their lanes."
  },
  {
   "property": "C81",
   "status": "proved",
   "theorems": [
    "C81_goal",
    "C81_goal_all",
    "C81_goal_all_refuted",
    "C81_goal_largest",
    "C81_get_next_n",
    "C81_update",
    "C81_integrate",
    "C81_maxeval_refuted",
    "C81_median",
    "C81_integrate_complex"
   ],
   "note": "C81_goal_all_refuted: with errormode all and epsabs = 0 a part known exactly makes the ratio NaN and ends the loop although the other part is not accurate. C81_maxeval_refuted: the last round can exceed maxeval (2020 of 100 evaluations). Evaluations of candidates for median lattices are not counted by the code; the new number of shifts is computed from the last round's, not from the total."
  },
  {
   "property": "C82",
   "status": "proved",
   "theorems": [
    "C82_point",
    "C82_jacobian",
    "C82_integral",
    "C82_idelta",
    "C82_split"
   ],
   "note": "Exact arithmetic; regulators and kinematics are numbers. The integral theorem is for natural powers of the factored monomials and for a remaining integrand that is holomorphic on all contours from t=0 (undeformed) to t=1, which for a threshold inside the region is the integrand with F - i delta (C82_idelta, integer powers of F); the limit delta -> 0 is not taken and non-integer powers of F are covered only through the holomorphy hypothesis of C82_integral. For regulator-dependent powers of the factored monomials C82_split proves the factorisation at every interior point."
  },
  {
   "property": "C83",
   "status": "proved",
   "theorems": [
    "C83_first_order",
    "C83_first_phase",
    "C83_terminates",
    "C83_deterministic",
    "C83_displacement",
    "C83_no_presamples",
    "C83_all_samples_refuted"
   ],
   "note": "C83_all_samples_refuted: the sign check of the second phase can fail at an earlier sample for the returned parameters. Exact arithmetic (with NaN the code's while loop does not end); the Sobol samples are an arbitrary list of points, the same in both phases."
  },
  {
   "property": "C84",
   "status": "proved",
   "theorems": [
    "C84_read_back",
    "C84_ginac",
    "C84_sympy",
    "C84_maple",
    "C84_mathematica",
    "C84_single",
    "C84_mathematica_brackets_refuted",
    "C84_json",
    "C84_json_regulators_refuted"
   ],
   "note": "C84_mathematica_brackets_refuted: nested series in an untruncated series are written without brackets for Mathematica, (1+2 eps) n and 1+2 eps n give the same text. C84_json_regulators_refuted: a regulator that is not printed becomes None. Conversion between text and float (float(), %.18g) is assumed exact; inf and nan are not literals of the target systems and outside the theorem."
  },
  {
   "property": "C85",
   "status": "proved",
   "theorems": [
    "C85_convert",
    "C85_mathematica",
    "C85_mathematica_single",
    "C85_read",
    "C85_nan_refuted",
    "C85_empty_refuted"
   ],
   "note": "C85_nan_refuted: lines with nan or inf do not match the regular expression and are skipped; the order disappears without an error. C85_empty_refuted: a sum without terms (written as 0) makes _parse_disteval_series raise for the whole text. The conversion theorems evaluate the texts with the order terms set to zero; C85_read has the truncation orders."
  },
  {
   "property": "C86",
   "status": "proved",
   "theorems": [
    "C86_calc",
    "C86_calc_fixed",
    "C86_scale_total",
    "C86_scale_budget",
    "C86_scale_largest",
    "C86_package",
    "C86_human",
    "C86_parse"
   ],
   "note": "scale factors are exact rationals (Python: doubles); the formula of the estimate itself is FORM-specific and is only pinned by the model and the examples ex_default; parse_number is modelled for integers with a suffix"
  },
  {
   "property": "C87",
   "status": "proved",
   "theorems": [
    "C87_file",
    "C87_lines",
    "C87_range",
    "C87_exit",
    "C87_terminates",
    "C87_raises",
    "C87_message",
    "C87_progress",
    "C87_alone",
    "C87_package",
    "C87_decreases_refuted",
    "C87_last_line_refuted"
   ],
   "note": "C87_decreases_refuted: the work space may fall when a stale value is renamed over a larger one (lost update); C87_last_line_refuted: a last line without newline is spoilt. FORM is specified by form_says: it complains exactly when its work space is too small"
  },
  {
   "property": "C88",
   "status": "proved",
   "theorems": [
    "C88_pending",
    "C88_consistent",
    "C88_no_stale",
    "C88_frame",
    "C88_terminates",
    "C88_progress",
    "C88_timeout_mixed_refuted",
    "C88_error_refuted"
   ],
   "note": "C88_timeout_mixed_refuted: at the deadline a kernel may count as done although its values belong to two different deformation parameters (values of the abandoned attempt are not reset). C88_error_refuted: an error answer raises in the callback and ends the reader of that worker, so that the wait only ends at the deadline. Factors 0.9 are exact rationals; the median construction of lattices (same protocol) and the timing counters are not modelled."
  },
  {
   "property": "C89",
   "status": "proved",
   "theorems": [
    "C89_integral",
    "C89_finished",
    "C89_corners",
    "C89_unchanged"
   ],
   "note": "Iterative strategy only (decomposition_method iterative or iterative_no_primary); splitting points are an arbitrary function into the open unit interval instead of a random generator; termination is not claimed, the theorems are about finished runs (fuel)."
  },
  {
   "property": "C90",
   "status": "proved",
   "theorems": [
    "C90_prefactor",
    "C90_succeeds",
    "C90_negative_order_refuted",
    "C90_missing_order",
    "C90_parameters"
   ],
   "note": "The text of a coefficient (ccode) is one token; sympy.poly and ginsh are represented by the list of terms of the result. C90_negative_order_refuted: for negative required orders the conversion can fail on a zero coefficient (empty Polynomial). C90_missing_order: a polynomial with missing orders (not produced by the expansion) makes the constructor throw."
  },
  {
   "property": "C91",
   "status": "proved",
   "theorems": [
    "C91_files",
    "C91_every_order",
    "C91_derivatives",
    "C91_different_functions_refuted"
   ],
   "note": "The order of the entries and the Makefile syntax are not modelled. C91_different_functions_refuted: derivatives of different functions can share a name (f and dfd0), the code does not exclude such function names here."
  }
 ]
}