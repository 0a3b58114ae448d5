{
 "claims": [
  {
   "property": "C01",
   "status": "proved",
   "theorems": [
    "C01_add_pointwise",
    "C01_sub_neg_scale_pointwise",
    "C01_add_removes_zeros",
    "C01_div_pointwise",
    "C01_number_power_stored"
   ],
   "note": "Over exact reals, any key type."
  },
  {
   "property": "C02",
   "status": "proved",
   "theorems": [
    "C02_hash_never_stale",
    "C02_equal_items_equal_hash"
   ],
   "note": "Any key, value and item-hash function."
  },
  {
   "property": "C03",
   "status": "proved",
   "theorems": [
    "C03_arithmetic_is_real_arithmetic",
    "C03_posynomial_arithmetic_total"
   ],
   "note": "Units aside (see C14)."
  },
  {
   "property": "C04",
   "status": "proved",
   "theorems": [
    "C04_canonical_form"
   ],
   "note": ""
  },
  {
   "property": "C05",
   "status": "proved",
   "theorems": [
    "C05_class_tells_the_truth",
    "C05_signomial_raises_unless_enabled",
    "C05_results_positive_when_disabled",
    "C05_posynomials_closed"
   ],
   "note": "Outside SignomialsEnabled a result with no terms at all (x/x + (-1)) is the only nonpositive one; C05_empty_corner exhibits it."
  },
  {
   "property": "C06",
   "status": "proved",
   "theorems": [
    "C06_equality_decides_functions",
    "C06_equality_of_expressions",
    "C06_equality_with_number"
   ],
   "note": ""
  },
  {
   "property": "C07",
   "status": "proved",
   "theorems": [
    "C07_diff_is_partial_derivative",
    "C07_diff_of_expression",
    "C07_diff_absent_is_zero",
    "C07_diff_canonical"
   ],
   "note": ""
  },
  {
   "property": "C08",
   "status": "proved",
   "theorems": [
    "C08_posy_negy",
    "C08_chop",
    "C08_chop_of_posynomial_returns"
   ],
   "note": ""
  },
  {
   "property": "C09",
   "status": "proved",
   "theorems": [
    "C09_sub_evaluates",
    "C09_sub_evaluates_positive",
    "C09_any_order_same_result",
    "C09_sub_canonical"
   ],
   "note": ""
  },
  {
   "property": "C10",
   "status": "partial",
   "theorems": [
    "C10_zero_removes_terms_partial",
    "C10_zero_negative_exponent_refuted"
   ],
   "note": ""
  },
  {
   "property": "C11",
   "status": "partial",
   "theorems": [
    "C11_fractions_without_merging_partial",
    "C11_fractions_one_variable_partial",
    "C11_fractions_lost_refuted"
   ],
   "note": ""
  },
  {
   "property": "C12",
   "status": "proved",
   "theorems": [
    "C12_mono_approximation_exists",
    "C12_mono_approximation_tangent"
   ],
   "note": ""
  },
  {
   "property": "C13",
   "status": "proved",
   "theorems": [
    "C13_mono_lower_bound"
   ],
   "note": ""
  },
  {
   "property": "C14",
   "status": "partial",
   "theorems": [
    "C14_units_arithmetic",
    "C14_sum_in_left_units",
    "C14_sum_raises_iff_dimensions_differ_partial",
    "C14_units_stay_proper",
    "C14_dimensionless_product_has_no_units",
    "C14_dimensionless_sum_refuted",
    "C14_to",
    "C14_constraint_partial"
   ],
   "note": ""
  },
  {
   "property": "C15",
   "status": "partial",
   "theorems": [
    "C15_diff_units_partial",
    "C15_diff_units_off_by_ratio_partial",
    "C15_diff_units_refuted"
   ],
   "note": ""
  },
  {
   "property": "C16",
   "status": "partial",
   "theorems": [
    "C16_product_cache",
    "C16_conversion_history_partial",
    "C16_conversion_history_refuted"
   ],
   "note": ""
  },
  {
   "property": "C17",
   "status": "partial",
   "theorems": [
    "C17_sum_value",
    "C17_prod_value",
    "C17_sum_succeeds_partial",
    "C17_prod_succeeds_partial",
    "C17_sum_of_zero_refuted",
    "C17_sum_of_opposite_numbers_refuted",
    "C17_prod_units_refuted"
   ],
   "note": ""
  },
  {
   "property": "C18",
   "status": "partial",
   "theorems": [
    "C18_posynomial_inequality_partial",
    "C18_clash_drops_a_term_refuted"
   ],
   "note": ""
  },
  {
   "property": "C19",
   "status": "partial",
   "theorems": [
    "C19_constant_inequality_partial",
    "C19_constant_part_partial",
    "C19_false_constant_dropped_refuted"
   ],
   "note": ""
  },
  {
   "property": "C20",
   "status": "proved",
   "theorems": [
    "C20_monomial_equality"
   ],
   "note": ""
  },
  {
   "property": "C21",
   "status": "partial",
   "theorems": [
    "C21_signomial_inequality_partial",
    "C21_clash_drops_a_term_refuted"
   ],
   "note": ""
  },
  {
   "property": "C22",
   "status": "partial",
   "theorems": [
    "C22_approximation_partial",
    "C22_clash_drops_a_term_refuted",
    "C22_tolerance_refuted"
   ],
   "note": "The statement holds of approximations whose terms do not clash; the two refutations show that terms that clash are lost, and that an approximation whose constants agree within the tolerance becomes no constraint."
  },
  {
   "property": "C23",
   "status": "partial",
   "theorems": [
    "C23_relaxed_at_one",
    "C23_relaxing_never_tightens_partial",
    "C23_relaxing_can_tighten_refuted"
   ],
   "note": ""
  },
  {
   "property": "C24",
   "status": "partial",
   "theorems": [
    "C24_equally_relaxed",
    "C24_relaxed_is_feasible",
    "C24_each_relaxed_partial",
    "C24_each_relaxed_refuted",
    "C24_constants_relaxed_partial",
    "C24_constants_refuted",
    "C24_bounded_partial",
    "C24_bounded_zero_refuted",
    "C24_bounded_setup_refuted"
   ],
   "note": "All sets, costs and points: relaxed points, constants and bounds characterised exactly. Refuted for sets with more constraints than members, for constants that print alike (only one of them is relaxed towards its value), for a lower bound of 0, and for variables made in a model's own setup, which Bounded leaves unbounded."
  },
  {
   "property": "C25",
   "status": "partial",
   "theorems": [
    "C25_flat_partial",
    "C25_array_refuted",
    "C25_whole_set",
    "C25_processed_once",
    "C25_numbering_partial",
    "C25_flat_list",
    "C25_numbering_raises",
    "C25_numbering_refuted"
   ],
   "note": "Sets nested in any way whose arrays hold constraints; what a whole set constrains and the order of processing results included. Refuted for arrays of sets, and for ConstraintsRelaxed on sets with more constraints than members, which raises IndexError."
  },
  {
   "property": "C26",
   "status": "proved",
   "theorems": [
    "C26_rows_evaluate_posynomials",
    "C26_slices_partition_rows",
    "C26_columns"
   ],
   "note": ""
  },
  {
   "property": "C27",
   "status": "proved",
   "theorems": [
    "C27_equality_pairs"
   ],
   "note": ""
  },
  {
   "property": "C28",
   "status": "proved",
   "theorems": [
    "C28_check_bounds_exact",
    "C28_order_irrelevant"
   ],
   "note": "For every order in which varlocs, meq_idxs and the sets of bounds are visited. Only the keys of missingbounds are modelled, not the explanation texts."
  },
  {
   "property": "C29",
   "status": "partial",
   "theorems": [
    "C29_bounds_are_the_closure",
    "C29_inequality_bounds",
    "C29_equality_conditions",
    "C29_single_variable_equality_refuted"
   ],
   "note": "The closure theorem holds for every nesting; refuted for equalities with a single variable, which contribute no bounds."
  },
  {
   "property": "C30",
   "status": "proved",
   "theorems": [
    "C30_la_from_nu",
    "C30_nu_from_la",
    "C30_neither"
   ],
   "note": "Both ways of completing the dual, for generated programs of any size."
  },
  {
   "property": "C31",
   "status": "proved",
   "theorems": [
    "C31_exact_pass_is_optimal",
    "C31_tolerant_pass_bounds_cost"
   ],
   "note": "Weak duality through generate_nula and check_solution; the tolerant version assumes no multiplier is negative and carries the first la as a factor."
  },
  {
   "property": "C32",
   "status": "partial",
   "theorems": [
    "C32_posynomial_inequality_partial",
    "C32_no_like_terms_partial",
    "C32_leaves_nothing",
    "C32_leftover_constant_refuted",
    "C32_monomial_equality",
    "C32_signomial_one_side_partial",
    "C32_signomial_records",
    "C32_signomial_double_count_refuted"
   ],
   "note": "Posynomial inequalities, monomial equalities and signomial inequalities. Refuted for constraint objects with a leftover constant part, and for signomial inequalities with a variable on both sides (counted twice)."
  },
  {
   "property": "C33",
   "status": "partial",
   "theorems": [
    "C33_chain_rule_partial",
    "C33_overwritten_total_refuted"
   ],
   "note": "Refuted when a linked variable of the cost has an input in the cost before its last; proved otherwise. Scalar values."
  },
  {
   "property": "C34",
   "status": "proved",
   "theorems": [
    "C34_problem",
    "C34_multipliers",
    "C34_optimize"
   ],
   "note": "C34_problem: CVXOPT's problem (meaning given in SolversSpec) has the GP's feasible points and log cost, with and without use_leqs; C34_multipliers: the reassigned multipliers give the GP the same Lagrangian as CVXOPT's; C34_optimize: with a solver that is honest about optima, the answer is an optimum. Hypotheses: positive coefficients, nonempty posynomials, and that the equality indices name consecutive reciprocal pairs."
  },
  {
   "property": "C35",
   "status": "proved",
   "theorems": [
    "C35_problem",
    "C35_optima",
    "C35_duals",
    "C35_optimize"
   ],
   "note": "C35_problem and C35_optima: the exponential cone problem has (x, t, z) feasible with objective v just when x is feasible for the GP and its cost is at most exp(v), and optima agree; C35_duals: each multiplier returned is that of the bound whose move relaxes that constraint; C35_optimize: with a solver that is honest about optima, the answer is an optimum of the GP, its cost, and one multiplier per constraint."
  },
  {
   "property": "C36",
   "status": "partial",
   "theorems": [
    "C36_visited_points_feasible_partial",
    "C36_costs_descend_partial",
    "C36_exact_feasibility_refuted",
    "C36_equalities_refuted",
    "C36_gained_term_refuted"
   ],
   "note": "Without slack and with a solver that returns true optima: every visited point satisfies the signomial inequalities within the tolerance 1e-3 with which constant comparisons are dropped, and the cost does not rise from a point that satisfies all signomial constraints exactly, if approximations keep their numbers of terms, no in-place division collides, and (for descent) the columns are listed in sgpvks and the start leaves substituted variables alone. Refuted: exact feasibility, equalities, approximations that gain a term. Convergence to within reltol of the returned costs is C58/C37."
  },
  {
   "property": "C37",
   "status": "proved",
   "theorems": [
    "C37_localsolve_stops"
   ],
   "note": "The loop of localsolve with any solver: stops, and stops for one of the stated reasons."
  },
  {
   "property": "C38",
   "status": "partial",
   "theorems": [
    "C38_update_matches_rebuild_partial",
    "C38_gained_term_refuted",
    "C38_lost_term_refuted",
    "C38_unlisted_variable_refuted"
   ],
   "note": "Proved when every updated approximation keeps its number of terms and all variables given are ones the first approximation mentioned; refuted for approximations that gain or lose a term and for variables the first approximation lacks."
  },
  {
   "property": "C39",
   "status": "partial",
   "theorems": [
    "C39_reads_last_write_partial",
    "C39_numeric_writes_succeed_partial",
    "C39_names_partial",
    "C39_filled_vector_refuted",
    "C39_integer_list_refuted",
    "C39_writes_succeed_refuted"
   ],
   "note": "Any histories of reads and writes, without rounding (nothing stored in integer or single-precision arrays, or every number exact there). Refuted for vectors filled with one number (single precision) and element writes into lists of integers."
  },
  {
   "property": "C40",
   "status": "partial",
   "theorems": [
    "C40_delete_exact_partial",
    "C40_delete_element_refuted",
    "C40_name_stays_refuted",
    "C40_shared_name_refuted",
    "C40_delete_names_partial",
    "C40_delete_only_element_partial"
   ],
   "note": "Deletion of scalars and whole vectors by variable; by name, in histories where all deletions are by name; of a vector's only element. Refuted for other elements, for the name of a deleted scalar, and for names shared with another key."
  },
  {
   "property": "C41",
   "status": "partial",
   "theorems": [
    "C41_copy_leaves_original_partial",
    "C41_original_changes_copy_refuted",
    "C41_deleted_element_refuted",
    "C41_merged_refuted"
   ],
   "note": "The copy can be changed without changing the original. Refuted the other way round, for deletions of elements, and for updates of non-empty dictionaries."
  },
  {
   "property": "C42",
   "status": "partial",
   "theorems": [
    "C42_each_variable_in_its_class_partial",
    "C42_mixed_vector_refuted",
    "C42_order_refuted",
    "C42_dict_partial",
    "C42_two_keys_refuted",
    "C42_swept_element_refuted",
    "C42_clean"
   ],
   "note": "KeyDicts, other dicts and already parsed ones, in every order of the sets. Refuted for vectors that mix swept elements and numbers (order-dependent), for dicts with two keys for one variable, and for sweeps of single elements in plain dicts."
  },
  {
   "property": "C43",
   "status": "partial",
   "theorems": [
    "C43_sweep_partial",
    "C43_generation_refuted",
    "C43_linked_refuted"
   ],
   "note": "Proved for every number of swept variables and values, every pattern of failures and both settings of skipsweepfailures, when linked functions read only constants that are not linked and programs can be made for every combination (C43_sweep_partial). Without the first a linked constant is stale (C43_linked_refuted); without the second skipsweepfailures does not skip (C43_generation_refuted)."
  },
  {
   "property": "C44",
   "status": "partial",
   "theorems": [
    "C44_sweep_partial",
    "C44_autosweep_partial",
    "C44_sweep_zero_refuted",
    "C44_autosweep_zero_refuted",
    "C44_sweep_failure_refuted",
    "C44_autosweep_failure_refuted"
   ],
   "note": "Proved for Model.sweep of any variables and autosweep of one when no solve fails and no original value is zero (C44_sweep_partial, C44_autosweep_partial); each condition is shown to be needed by the refutations."
  },
  {
   "property": "C45",
   "status": "partial",
   "theorems": [
    "C45_lists_partial",
    "C45_arrays_partial",
    "C45_swept_partial",
    "C45_missing_key_refuted",
    "C45_new_key_refuted",
    "C45_single_refuted",
    "C45_swept_refuted"
   ],
   "note": "Proved before and after conversion to arrays for any number of solutions that all have the same keys, with any nesting, key order and values, except that a single solution may hold no arrays (C45_lists_partial, C45_arrays_partial), and for sweeps whose constants are numbers (C45_swept_partial). Each condition is shown to be needed."
  },
  {
   "property": "C46",
   "status": "partial",
   "theorems": [
    "C46_bounds_partial",
    "C46_upper",
    "C46_lower_factor",
    "C46_solved",
    "C46_zero_refuted",
    "C46_straight_refuted"
   ],
   "note": "For every log-log convex cost with sensitivities that are subgradients, every tree recurse_splits makes and every value: the bounds hold wherever they differ (C46_bounds_partial), the upper bound always holds (C46_upper), all are exact at solved points (C46_solved), and elsewhere the lower bound is off by a factor within exp(1e-7 ...) unless splitlb is 0.0 (C46_lower_factor). Refuted in those two cases."
  },
  {
   "property": "C47",
   "status": "proved",
   "theorems": [
    "C47_partition",
    "C47_autosweep"
   ],
   "note": "For any history of add_split and add_splitcost anywhere in a tree with positive bounds, and for autosweep_1d."
  },
  {
   "property": "C48",
   "status": "partial",
   "theorems": [
    "C48_restored_partial",
    "C48_restored_refuted",
    "C48_others_restored",
    "C48_passes_on"
   ],
   "note": "Any nesting of the three kinds of blocks, loops unrolled, with exceptions and handlers. Refuted for SignomialsEnabled within SignomialsEnabled: leaving the inner disables the outer (as ConstraintsRelaxed, ConstantsRelaxed and Tight do inside a user's block)."
  },
  {
   "property": "C49",
   "status": "partial",
   "theorems": [
    "C49_unique_partial",
    "C49_unique_refuted"
   ],
   "note": "All sessions, including models that fail and are retried. Refuted for sessions that reset the model numbers."
  },
  {
   "property": "C50",
   "status": "partial",
   "theorems": [
    "C50_identity_partial",
    "C50_identity_refuted",
    "C50_units_refuted",
    "C50_equivalence"
   ],
   "note": "All variables whose names have no brackets, parentheses or quotes. Refuted for a variable called x[0], which equals the first element of a vector x, and for units spelled differently."
  },
  {
   "property": "C51",
   "status": "proved",
   "theorems": [
    "C51_exp",
    "C51_secant",
    "C51_secant_stops_at_table",
    "C51_tangent"
   ],
   "note": "Values at every positive point are those of the Taylor polynomials, defined by the derivatives at 0 (Coquelicot's is_derive_n); posynomials give posynomials. C51_secant covers the table's 12 terms; beyond it the result is not a Taylor polynomial (C51_secant_stops_at_table), which the property does not claim."
  },
  {
   "property": "C52",
   "status": "partial",
   "theorems": [
    "C52_texts_are_read_back_partial",
    "C52_texts_differ_partial",
    "C52_trees_are_of_the_values",
    "C52_powers_of_posynomials_refuted",
    "C52_parentheses_left_out_refuted",
    "C52_rounded_numbers_refuted",
    "C52_signs_of_bases_refuted"
   ],
   "note": "The text of an expression is read back by an independent grammar (PrintSpec.v) as what the expression denotes, and so expressions with the same text denote the same function, when operands are in parentheses wherever they need to be, only Monomials are raised to powers, bases of powers begin with no minus sign and numbers are printed exactly. Each of the four is needed (four refutations)."
  },
  {
   "property": "C53",
   "status": "partial",
   "theorems": [
    "C53_values",
    "C53_errors_raised",
    "C53_no_errors",
    "C53_order_partial",
    "C53_order_refuted"
   ],
   "note": "Proved when linked functions read only constants that are not linked, along with the values computed (C53_values, C53_order_partial); refuted otherwise (C53_order_refuted)."
  },
  {
   "property": "C54",
   "status": "partial",
   "theorems": [
    "C54_tight_partial",
    "C54_tight_refuted",
    "C54_loose_partial",
    "C54_loose_refuted",
    "C54_bounded",
    "C54_summary_one",
    "C54_summary_refuted",
    "C54_relaxed_partial",
    "C54_relaxed_refuted"
   ],
   "note": "Tight, Loose, Bounded and get_relaxed characterised exactly for all solutions and nestings. Refuted for a tolerance of 0 (taken for none), for the result's boundedness summary of two Bounded sets with the same bounds (the second replaces the first), and for get_relaxed of nothing (IndexError)."
  },
  {
   "property": "C55",
   "status": "partial",
   "theorems": [
    "C55_round_trip",
    "C55_other_lines",
    "C55_line_ends",
    "C55_unterminated_refuted"
   ],
   "note": "All dictionaries of well-formed names and values. Files written by hand without a final newline lose their last character (refuted extension)."
  },
  {
   "property": "C56",
   "status": "partial",
   "theorems": [
    "C56_total_is_the_sum",
    "C56_cost_in_order_partial",
    "C56_simple_cost_partial",
    "C56_misplaced_duals_refuted"
   ],
   "note": "Proved when substitution keeps the order of the cost's terms (one term, or no constant in the cost); refuted in general."
  },
  {
   "property": "C57",
   "status": "proved",
   "theorems": [
    "C57_sensitivities_bound_changes",
    "C57_stationary_is_optimal"
   ],
   "note": "Posynomial inequalities; the hypotheses on the parts are the conclusions of C32 and C56."
  },
  {
   "property": "C58",
   "status": "partial",
   "theorems": [
    "C58_verbosity_from_zero_partial",
    "C58_silent_differs_refuted"
   ],
   "note": "Proved for verbosities of zero and more; refuted for -1, where a rising cost ends the search."
  },
  {
   "property": "C59",
   "status": "partial",
   "theorems": [
    "C59_debug_frees_partial",
    "C59_debug_frees_refuted"
   ],
   "note": "Constants declared without constant=True. Refuted with it: the relaxation variable copies the value and is fixed."
  },
  {
   "property": "C60",
   "status": "partial",
   "theorems": [
    "C60_own_partial",
    "C60_own_refuted",
    "C60_all_left_partial"
   ],
   "note": "All sessions without a reset of the model numbers; refuted with one."
  },
  {
   "property": "C61",
   "status": "partial",
   "theorems": [
    "C61_ends",
    "C61_ends_refuted",
    "C61_tolerance_partial",
    "C61_bounds_close",
    "C61_tolerance_refuted"
   ],
   "note": "Termination and the reported tolerance are proved (C61_ends, C61_bounds_close); costs are within it wherever the bounds differ (C61_tolerance_partial). Refuted where splitlb is 0.0, and termination for a tolerance of zero."
  },
  {
   "property": "C62",
   "status": "partial",
   "theorems": [
    "C62_unchanged_partial",
    "C62_again_partial",
    "C62_only_small_elements",
    "C62_unchanged_refuted",
    "C62_again_refuted"
   ],
   "note": "Holds if no array of sensitivities has elements of magnitude both up to 0.001 and over it. In general only elements up to 0.001 change, to nan. Refuted otherwise: summary() of a solution with seven constants changes it, and the second summary() prints something else."
  },
  {
   "property": "C63",
   "status": "partial",
   "theorems": [
    "C63_most_sensitive_partial",
    "C63_no_rows_refuted",
    "C63_unused_element_refuted",
    "C63_rows",
    "C63_insensitive_partial",
    "C63_insensitive_refuted"
   ],
   "note": "Table of sensitivities: exact. Top table: for sensitivities without nan and at least one row asked for. Table of insensitive variables: exact for sensitivities without nan. Refuted for nvars=0 (all are shown), for arrays with an unused element (left out however sensitive) and for the insensitive table, which leaves out the variables with the smallest sensitivities."
  },
  {
   "property": "C64",
   "status": "partial",
   "theorems": [
    "C64_almost_equal_partial",
    "C64_vectors_refuted",
    "C64_nan_refuted",
    "C64_symmetry_refuted"
   ],
   "note": "For solutions of scalar numbers. Refuted: arrays raise ValueError, nan passes for close to anything, and the relation is not symmetric at the default tolerances."
  },
  {
   "property": "C65",
   "status": "proved",
   "theorems": [
    "C65_saving_leaves_solution",
    "C65_what_is_saved"
   ],
   "note": ""
  },
  {
   "property": "C66",
   "status": "partial",
   "theorems": [
    "C66_every_element",
    "C66_lines_partial",
    "C66_more_dimensions_partial",
    "C66_lines_refuted",
    "C66_latex_partial",
    "C66_latex_refuted"
   ],
   "note": "Every element once: for all shapes. Lines along a dimension: vectors, matrices, and more dimensions if none of the leading ones that fits is longer than the longer fitting one of the last two. Refuted for shape (4,2,3). LaTeX tables: only the first line."
  },
  {
   "property": "C67",
   "status": "partial",
   "theorems": [
    "C67_what_is_substituted",
    "C67_value_holds_partial",
    "C67_second_model_refuted"
   ],
   "note": "Holds for constants, and for variables used directly in a model after having been used in another only together with a model that has them. Refuted in general: the first model built takes the value out of the variable, and a second model built separately leaves it free. What is substituted is characterised exactly."
  },
  {
   "property": "C68",
   "status": "partial",
   "theorems": [
    "C68_carried_over_partial",
    "C68_constants_in_cost_refuted",
    "C68_order_of_constraints"
   ],
   "note": "For variables not declared constant=True. Refuted for these: the declared value comes back."
  },
  {
   "property": "C69",
   "status": "partial",
   "theorems": [
    "C69_declared_partial",
    "C69_similar_rows_refuted",
    "C69_short_underlines_refuted",
    "C69_quotes_in_labels_refuted",
    "C69_trailing_space_refuted"
   ],
   "note": "declared_partial: for docstrings described by DocstringSpec.v (ASCII; labels and units without backslashes; the text of no row part of an earlier line; ...). The refutations show that these conditions are needed."
  },
  {
   "property": "C70",
   "status": "partial",
   "theorems": [
    "C70_exact_partial",
    "C70_foreign_variables_refuted"
   ],
   "note": "exact_partial, accepted_partial: for docstrings that name variables of the model only; foreign_variables_refuted shows that with others a missing bound can go unnoticed."
  },
  {
   "property": "C71",
   "status": "partial",
   "theorems": [
    "C71_read_partial",
    "C71_last_list_refuted",
    "C71_spaces_in_empty_line_refuted",
    "C71_empty_list_refuted",
    "C71_comma_at_end_refuted"
   ],
   "note": "read_partial, expected_partial, missing_partial: for docstrings laid out as in UnboundedSpec.v (spaces only, lists that end at an empty line or are the last one, with one line). The refutations show that other layouts are misread."
  },
  {
   "property": "C72",
   "status": "proved",
   "theorems": [
    "C72_file"
   ],
   "note": "The file is read by an independent reader of the format (MosekCliSpec.v). Printing and reading of numbers are arguments of the theorem, with the hypothesis that the numbers of the problem survive them."
  },
  {
   "property": "C73",
   "status": "partial",
   "theorems": [
    "C73_read",
    "C73_status",
    "C73_cut_partial",
    "C73_cut_refuted",
    "C73_exit"
   ],
   "note": "Proved except that a file that is cut off within the dual values is taken for a solution (refuted); exit codes and what is returned for them proved."
  },
  {
   "property": "C74",
   "status": "partial",
   "theorems": [
    "C74_removed_partial",
    "C74_others",
    "C74_given_kept",
    "C74_infeasible_refuted"
   ],
   "note": "Proved when a solution is returned, and for other and given directories; refuted when an exception is raised: the temporary directory stays."
  },
  {
   "property": "C75",
   "status": "partial",
   "theorems": [
    "C75_no_defaults_partial",
    "C75_defaults_partial",
    "C75_carried_over_refuted"
   ],
   "note": "Holds for solvers without default options (C75_no_defaults_partial). For CVXOPT, the only one with them, each option is the last that any solve by it was given (C75_defaults_partial, exactly), so options of one solve are used in another (C75_carried_over_refuted)."
  },
  {
   "property": "C76",
   "status": "partial",
   "theorems": [
    "C76_streams",
    "C76_raised_partial",
    "C76_infeasible_returns_refuted",
    "C76_no_model_refuted",
    "C76_base_class_refuted"
   ],
   "note": "Printing and the log are right in all outcomes (C76_streams). Failures raise what they should if the solve is silent or slow (C76_raised_partial); otherwise an infeasible problem makes debug()'s solution be returned as if it were the model's (C76_infeasible_returns_refuted), or raises AttributeError without a model (C76_no_model_refuted); a solver that raises Infeasible itself makes for UnboundLocalError (C76_base_class_refuted)."
  },
  {
   "property": "C77",
   "status": "partial",
   "theorems": [
    "C77_result_partial",
    "C77_first_partial",
    "C77_stale_refuted"
   ],
   "note": "Holds for a solve that returned a result (C77_result_partial) and for the first without gen_result (C77_first_partial); otherwise an earlier one is returned (C77_stale_refuted)."
  },
  {
   "property": "C78",
   "status": "partial",
   "theorems": [
    "C78_variable_partial",
    "C78_vector_partial",
    "C78_fourth_word_refuted",
    "C78_two_values_refuted"
   ],
   "note": "Names, units and labels for all arguments, and the value if there is one (C78_variable_partial, C78_vector_partial). Not every argument is used: a fourth word is ignored (C78_fourth_word_refuted), and of two values one is (C78_two_values_refuted)."
  },
  {
   "property": "C79",
   "status": "partial",
   "theorems": [
    "C79_elements",
    "C79_values_partial",
    "C79_length_partial",
    "C79_number_partial",
    "C79_precision_refuted",
    "C79_transposed_refuted",
    "C79_list_refuted",
    "C79_linked_partial",
    "C79_linked_number_refuted"
   ],
   "note": "Elements: C79_elements. Values: outside of vectorized environments, and in them for arrays of at most one dimension (C79_values_partial); functions that return the whole shape (C79_linked_partial); numbers up to single precision (C79_number_partial). Otherwise: C79_precision_refuted, C79_transposed_refuted, C79_list_refuted, C79_linked_number_refuted."
  },
  {
   "property": "C80",
   "status": "proved",
   "theorems": [
    "C80_view",
    "C80_vectorized"
   ],
   "note": "For all expressions of items and attributes; C80_vectorized is for variables declared in environments."
  },
  {
   "property": "C81",
   "status": "partial",
   "theorems": [
    "C81_names",
    "C81_variable_partial",
    "C81_vector_partial",
    "C81_vector_refuted"
   ],
   "note": "Names: full, for any history. Variables and elements by themselves: full. Vectors: only once something was asked for by name; before that a vector is not found (refuted)."
  },
  {
   "property": "C82",
   "status": "partial",
   "theorems": [
    "C82_item_partial",
    "C82_element_refuted"
   ],
   "note": "None, one, a vector's elements, several: all cases. Refuted for the name of one element: the item is an array with nan in all other places."
  },
  {
   "property": "C83",
   "status": "partial",
   "theorems": [
    "C83_name_partial",
    "C83_failed_lookup_refuted",
    "C83_several_refuted"
   ],
   "note": "For names not looked up before: none is false, one is whether it is substituted. Refuted: after a failed lookup the name is there; a name of several substituted variables is not."
  },
  {
   "property": "C84",
   "status": "partial",
   "theorems": [
    "C84_optimum_partial",
    "C84_nearly_partial",
    "C84_found_partial",
    "C84_all_fixed_refuted",
    "C84_cvxopt",
    "C84_mosek"
   ],
   "note": "From constraints as written to returned values, for any solver that returns optima of GPs, and CVXOPT and MOSEK do if their own optimizers do (C34, C35). Partial: constraints without the clash of C18, flat lists, real numbers. Refuted where every variable is substituted: nothing is ever returned."
  },
  {
   "property": "C85",
   "status": "partial",
   "theorems": [
    "C85_comparison",
    "C85_in_program_partial",
    "C85_negative_number_refuted",
    "C85_equality_raises_refuted"
   ],
   "note": "Partial: the meaning in a program is proved for comparisons that geometric programs allow (positive numbers), without the clashes of C18. Refuted: with signomials enabled x <= -1 becomes -x <= 1, which is dropped where x is a constant; x == 0 and x == 2*x raise instead of being False."
  },
  {
   "property": "C86",
   "status": "partial",
   "theorems": [
    "C86_elementwise",
    "C86_accepted_partial",
    "C86_numbers_refuted",
    "C86_truth",
    "C86_inequality"
   ],
   "note": "Partial: sets are proved to accept array constraints whose pairs all make constraints. Refuted: with a pair of numbers in order, numpy makes all elements truth values (or that one), and the set rejects it. Units and numpy's own numbers on the left are not modelled."
  },
  {
   "property": "C87",
   "status": "partial",
   "theorems": [
    "C87_cost",
    "C87_violation_partial",
    "C87_feasible",
    "C87_exact_violation_refuted"
   ],
   "note": "Proved of every program reachable by building and updating in place (with the conditions of C38: listed variables, steady numbers of terms). The bound on violations holds within a thousandth and for inequalities only; the thousandth is shown to be needed."
  },
  {
   "property": "C88",
   "status": "partial",
   "theorems": [
    "C88_evaluated_partial",
    "C88_same_set_refuted",
    "C88_part_of_vector_refuted"
   ],
   "note": "Proved when functions read nothing that is evaluated in their own model or in models around it, and vectors are solved for as a whole or not at all. Refuted otherwise: reading what another function of the same model evaluates works or raises KeyError depending on the order of a Python set (with a default: too early a value); a partly solved vector's solved elements are replaced."
  },
  {
   "property": "C89",
   "status": "partial",
   "theorems": [
    "C89_table_partial",
    "C89_tight_partial",
    "C89_loose_partial",
    "C89_memory_partial",
    "C89_text_refuted",
    "C89_memory_refuted",
    "C89_breaks_partial",
    "C89_breaks_refuted"
   ],
   "note": "Proved for constraints whose texts do not contain their model's name; the order of tight tables proved independent of memory addresses when texts differ. Refuted: the model's name is removed from within names of variables, so that different constraints print alike; the order of models in the table of insensitive constraints depends on memory addresses. Lines are proved broken only at operators or with 77 characters at least; refuted that this keeps names whole: the place after a product's star is one character into the next name."
  },
  {
   "property": "C90",
   "status": "partial",
   "theorems": [
    "C90_shown",
    "C90_apart_partial",
    "C90_vectors_refuted",
    "C90_dots_refuted",
    "C90_units_refuted"
   ],
   "note": "C90_shown: models are shown in front of a printed name exactly when two variables are called by the name; C90_apart_partial: same printed name, same variable, for plain names, unless both are elements of vectors. Refuted: elements of vectors with one name in different models (never shown with their models), names with dots, variables that differ only in units."
  },
  {
   "property": "C91",
   "status": "partial",
   "theorems": [
    "C91_mat_partial",
    "C91_frame_partial",
    "C91_order",
    "C91_showvars_partial",
    "C91_showvars_refuted",
    "C91_mat_refuted",
    "C91_units_refuted"
   ],
   "note": "C91_mat_partial, C91_frame_partial, C91_showvars_partial for variables told apart by plain names and models. Refuted: underscores in names (savemat), variables that differ only in units (all), names that are not found (everything is exported)."
  },
  {
   "property": "C92",
   "status": "partial",
   "theorems": [
    "C92_read_partial",
    "C92_zero_refuted",
    "C92_comma_refuted"
   ],
   "note": "C92_read_partial: a reader (small specification) gets back every variable with a value, for all shapes and numbers of columns. Refuted: variables that are 0 are left out, commas in labels are not quoted."
  },
  {
   "property": "C93",
   "status": "partial",
   "theorems": [
    "C93_multiplier_partial",
    "C93_last",
    "C93_models",
    "C93_repeated_refuted",
    "C93_signomial_equality_refuted"
   ],
   "note": "Proved where no constraint is stated twice and no equality is of signomials; exact characterisation in general (C93_last, C93_models); refuted for repeated constraints and signomial equalities."
  },
  {
   "property": "C94",
   "status": "partial",
   "theorems": [
    "C94_constraints",
    "C94_untouched_partial",
    "C94_merged_refuted"
   ],
   "note": "Sensitivities of constraints are always the same again; those of variables and models where substitution changed no terms; refuted where terms were merged."
  },
  {
   "property": "C95",
   "status": "partial",
   "theorems": [
    "C95_bound_partial",
    "C95_solved_again_partial",
    "C95_slope_partial",
    "C95_no_effect_partial",
    "C95_cvxopt",
    "C95_misplaced_refuted"
   ],
   "note": "Proved from written constraints to reported sensitivities for monomial costs and costs without constants, where constraints' terms stay distinct or one constant is substituted; variables linked to others are left out; refuted for other costs. CVXOPT with optimal multipliers is shown to be such a solver; for MOSEK it is a hypothesis."
  },
  {
   "property": "C96",
   "status": "partial",
   "theorems": [
    "C96_flow_partial",
    "C96_shown",
    "C96_again_refuted",
    "C96_keys_refuted",
    "C96_dots_refuted"
   ],
   "note": "Proved for diagrams of a new Sankey, with labels of sets that are no integers, up to the EPS shown for zero sensitivities. Refuted: a set made of a dict with integer keys shows the wrong constraints; diagrams accumulate over calls; with too many links, a diagram of a model whose label has a dot is emptied, and otherwise may show more links than asked for."
  },
  {
   "property": "C97",
   "status": "partial",
   "theorems": [
    "C97_layout_partial",
    "C97_empty_refuted",
    "C97_lines_refuted",
    "C97_keys_refuted",
    "C97_latex_partial",
    "C97_latex_lists_refuted",
    "C97_latex_empty_refuted",
    "C97_latex_again_refuted"
   ],
   "note": "SetLayout.v models recursively_line, lines_without, str_without, _rootlines and latex. C97_layout_partial: an independent reader that goes by indentation only (SetLayoutSpec.v) finds in the printed text each constraint once, in order, below the names it is in; hypotheses: texts and names of one line without outer spaces, no named group that is empty. C97_latex_partial: one row for each constraint. Refuted: an empty named group reads as a constraint; texts of several lines read as headings; keys of models in dictionaries are not printed; LaTeX of lists is Python's str; empty sets make a row; a list given as `excluded` is changed, and the same call then prints something else."
  },
  {
   "property": "C98",
   "status": "partial",
   "theorems": [
    "C98_shown_partial",
    "C98_sweep_refuted",
    "C98_zero_refuted",
    "C98_largest_refuted",
    "C98_senss_refuted"
   ],
   "note": "Proved for values of the same shape, or a number against an array, with no zeros in the baseline if relative differences are asked for, and with sensitivities for all shown variables if their differences are; refuted for sweeps against single solutions (elements are compared to the wrong ones, or ValueError), for values that are zero in both (TypeError, or ignored by the largest) and for variables without sensitivities (KeyError). Differences of constraints, the order and text of rows, and reading files are not modelled."
  },
  {
   "property": "C99",
   "status": "partial",
   "theorems": [
    "C99_results_partial",
    "C99_returned",
    "C99_checks_refuted",
    "C99_told"
   ],
   "note": "Costs and values proved for every search (with a slack that is free and has a column, for what is returned); the last sentence is proved for results made at once (C99_told) and refuted otherwise: results made afterwards are checked against the last approximations. Sensitivities in results are not modelled."
  },
  {
   "property": "C100",
   "status": "partial",
   "theorems": [
    "C100_meets_partial",
    "C100_start_partial"
   ],
   "note": "Both parts under the conditions of C36: approximations keep their numbers of terms and divisions are clean (both known faults otherwise), exact solvers; the starting point's signomial variables must be listed by the program (C38). Signomial equalities are left out (refuted in C36)."
  },
  {
   "property": "C101",
   "status": "partial",
   "theorems": [
    "C101_shown_partial",
    "C101_single",
    "C101_new_refuted",
    "C101_missing_refuted",
    "C101_values_refuted"
   ],
   "note": "Proved for single solves (C101_single) and, but for the values on constraints, for sweeps whose solutions all have warnings of the same kinds; refuted otherwise: a kind of warning that the first point does not have makes the sweep fail with KeyError, one that a later point does not have is shown for the wrong points, and values on constraints are those of the last point."
  },
  {
   "property": "C102",
   "status": "partial",
   "theorems": [
    "C102_constraints_partial",
    "C102_nested_refuted",
    "C102_keys_refuted",
    "C102_aligned_partial",
    "C102_aligned_refuted",
    "C102_equally",
    "C102_equally_refuted",
    "C102_constants_partial",
    "C102_constants_refuted",
    "C102_sensitivities"
   ],
   "note": "Reports of relaxed constraints, for flat sets without integer keys; the equal relaxation's report with its exact threshold and a percentage within one; reports of constants when some are relaxed; sensitivities moved back. Refuted: members that are lists or sets (AttributeError after the solve), integer keys (the report is about another constraint), alignment when the relaxed side is printed shorter, nearest percentage for equal relaxation, no constant relaxed (IndexError). Printing of expressions, %i and %.4g are parameters; scalars only for constants."
  },
  {
   "property": "C103",
   "status": "partial",
   "theorems": [
    "C103_expressions_partial",
    "C103_not_positive",
    "C103_variables_partial",
    "C103_elements",
    "C103_absent_are_one",
    "C103_expressions_refuted",
    "C103_signomials_refuted",
    "C103_variables_refuted",
    "C103_first_point_refuted",
    "C103_absent_refuted"
   ],
   "note": "SolRead.v models SolutionArray.__len__, subinto and __call__ with KeyDict's in and getitem for variables and the substitution of a solution's variables. C103_expressions_partial: an expression of the solution's variables gives its value there, or constants of its values at each point of a sweep, in order, when these are positive. C103_not_positive (C103_expressions_refuted, C103_signomials_refuted): otherwise InvalidPosynomial is raised or, with signomials enabled, a nomial returned. C103_variables_partial: variables and vectors give their values at all points; elements of vectors in single solutions. C103_elements (C103_variables_refuted, C103_first_point_refuted): in sweeps an element's index selects a point. C103_absent_are_one (C103_absent_refuted): a Monomial's variables that the solution lacks are taken to be 1. Not modelled: names, units, nan values, arrays of expressions."
  },
  {
   "property": "C104",
   "status": "partial",
   "theorems": [
    "C104_number_partial",
    "C104_not_positive",
    "C104_posynomials",
    "C104_number_refuted",
    "C104_variable_partial",
    "C104_variable_refuted"
   ],
   "note": "NomValue.v models Nomial.value (core.py:88-100) over the substitution model of Sub.v. Proved for every expression and every order of substitution: when every variable of an expression has a positive number as its value, .value is the value of the expression at those numbers (C104_number_partial: within SignomialsEnabled, or when that is positive; otherwise it raises, C104_not_positive); of a posynomial some of whose variables have numbers, .value is the posynomial in the others (C104_posynomials). Refuted without the conditions: C104_number_refuted, C104_variable_refuted. Units and nan are not modelled."
  },
  {
   "property": "C105",
   "status": "partial",
   "theorems": [
    "C105_reads_partial",
    "C105_coefficients",
    "C105_ones_refuted",
    "C105_exponents_refuted"
   ],
   "note": "Latex.v models nomial_latex_helper and Nomial.latex as lists of tokens; LatexSem.v reads such texts as mathematics and says what '%.ng' prints (Flocq's rounding to nearest even in radix 10). Proved for every expression, every printf that rounds so and every order of sorting: the text reads as the expression with four digits of each coefficient and two of each exponent, if no exponent needs scientific notation and no coefficient that is +-1 to two digits differs from it in the next two (C105_reads_partial); without the second condition coefficients are within a twentieth (C105_coefficients). Both conditions are needed: C105_ones_refuted, C105_exponents_refuted. Units and the LaTeX of variables are left out."
  },
  {
   "property": "C106",
   "status": "partial",
   "theorems": [
    "C106_sliders_partial",
    "C106_sliders_refuted",
    "C106_sweeps_partial",
    "C106_sweeps_refuted",
    "C106_moves_partial",
    "C106_instances_refuted",
    "C106_names_refuted",
    "C106_ranges_partial",
    "C106_ranges_refuted",
    "C106_steps_refuted",
    "C106_shared_names_refuted"
   ],
   "note": "Widgets.v models modelinteract (widgets.py:10-93) for scalar variables, with names looked up as in Lookup.v. Proved for every model: without ranges each constant has one slider with its value, from half to twice it, and sweeps become numbers (C106_sliders_partial, for constants that are not negative); these cover a sweep within that range (C106_sweeps_partial); ranges asked for by name are used (C106_ranges_partial); moving sliders changes just their variables (C106_moves_partial, for variables of first instances of models whose name is theirs alone). Each condition is shown to be needed by a refutation. How FloatSlider treats its arguments is assumed, as ipywidgets is not part of the code."
  },
  {
   "property": "C107",
   "status": "partial",
   "theorems": [
    "C107_reads",
    "C107_close",
    "C107_windows_partial",
    "C107_windows_refuted"
   ],
   "note": "PlainStr.v models the text of nomials without a syntax tree (core.py:46-68) as tokens, on Windows and elsewhere. Proved: for every canonical expression, read by a separate reader the text is the expression with three digits of each coefficient and two of each exponent (C107_reads), which are within 0.5% and 5% (C107_close). That texts keep to ASCII on Windows holds unless a term with several variables has coefficient -1 (C107_windows_partial, C107_windows_refuted). The names of variables are tokens (C90 says when they can be told apart); units are left out."
  },
  {
   "property": "C108",
   "status": "partial",
   "theorems": [
    "C108_same",
    "C108_saves_partial",
    "C108_value_partial",
    "C108_sweeps_refuted",
    "C108_functions_refuted",
    "C108_saves_refuted",
    "C108_unnamed_partial",
    "C108_unnamed_refuted"
   ],
   "note": "Pickle.v models making VarKeys, __getstate__ and __setstate__ (varkey.py:22-61); what pickle does to numbers, texts, tuples and functions is assumed as its manual has it. Proved: what is read back is equal, has the same hash, names, texts and vector (C108_same, for every variable made, elements of vectors too); it can be saved unless it is swept by a function that has no name in a module (C108_saves_partial, C108_saves_refuted); numbers and texts keep their use as values, sweeps and functions do not (C108_value_partial, C108_sweeps_refuted, C108_functions_refuted); variables without names differ from those made later in the same process, but not in others (C108_unnamed_partial, C108_unnamed_refuted)."
  },
  {
   "property": "C109",
   "status": "partial",
   "theorems": [
    "C109_grid_partial",
    "C109_unchanged_partial",
    "C109_made_partial",
    "C109_words_refuted",
    "C109_names_refuted",
    "C109_mixed_refuted",
    "C109_unchanged_refuted"
   ],
   "note": "PlotGrid.v models plot_1dsweepgrid (interactive/plot_sweep.py:53-97) on top of the sweeps of Sweep.v; drawing is a list of curves and dots. Proved: column i has the curves of sweep i, row j those of expression j, all solved with the substitutions of the model but for the swept variable, and nothing else is drawn (C109_grid_partial, unless what is shown is one text of several letters: C109_words_refuted); the model is unchanged when nothing is raised (C109_unchanged_partial; otherwise C109_unchanged_refuted); a grid is made for variables all or none of which have values (C109_made_partial; names and mixes: C109_names_refuted, C109_mixed_refuted)."
  },
  {
   "property": "C110",
   "status": "partial",
   "theorems": [
    "C110_models_partial",
    "C110_models_refuted",
    "C110_cells_partial",
    "C110_power",
    "C110_cells_refuted",
    "C110_lines",
    "C110_shown_partial",
    "C110_shown_refuted"
   ],
   "note": "ModelTable.v models the sums of sensitivities by name of model (gp.py:310, 320-324) and their table (solution_array.py:61-89). Proved: the sum by name is that of the model's constraints and variables if names of models have no dots and do not end in digits (C110_models_partial; Wing1: C110_models_refuted); what is printed is true to its precision unless a sensitivity is a power of ten (C110_cells_partial, C110_cells_refuted), and the power of ten printed is the least that none exceeds (C110_power); lines are sorted by mean (C110_lines); every named model has its line if there are two (C110_shown_partial, C110_shown_refuted)."
  },
  {
   "property": "C111",
   "status": "partial",
   "theorems": [
    "C111_index_partial",
    "C111_to_zero_refuted",
    "C111_backwards_refuted",
    "C111_long_refuted",
    "C111_ellipsis_refuted",
    "C111_empty_refuted"
   ],
   "note": "IndexStr.v models the text between the brackets of an indexed array (repr_conventions.py:145-167) as tokens; the reading of it, and Python's slices, are in the specification. Proved: the text means the same index if slices count up, do not stop at 0 and do not stop at 1e6 (sys.maxsize in tuples) before the end, for numbers and tuples of them (C111_index_partial). Refuted otherwise: x[:0] (C111_to_zero_refuted), x[0::-1] (C111_backwards_refuted), the first million of more (C111_long_refuted), an ellipsis in a tuple (C111_ellipsis_refuted), the empty tuple (C111_empty_refuted)."
  },
  {
   "property": "C112",
   "status": "partial",
   "theorems": [
    "C112_compare_partial",
    "C112_text_refuted",
    "C112_lone_refuted",
    "C112_units_refuted",
    "C112_sampled"
   ],
   "note": "Proved for all models and things asked, if no text stands alone, no text has as many letters as there are models, and no posynomial has the cost's terms with other units; sampled values are proved without these conditions. Each condition is needed (refuted without it)."
  },
  {
   "property": "C113",
   "status": "partial",
   "theorems": [
    "C113_half_percent",
    "C113_multiples",
    "C113_divisions",
    "C113_digits_partial",
    "C113_digits_refuted",
    "C113_only_near",
    "C113_near_partial",
    "C113_near_refuted"
   ],
   "note": "Half a percent holds for all numbers, and exact multiples are proved exact; three digits are proved for texts without pi, and refuted for those with it; closeness to a multiple is proved from above and refuted from below."
  },
  {
   "property": "C114",
   "status": "partial",
   "theorems": [
    "C114_latex_partial",
    "C114_str_partial",
    "C114_told_apart_partial",
    "C114_numbered_refuted",
    "C114_dots_refuted",
    "C114_braces_refuted"
   ],
   "note": "Proved for every choice of excluded fields, for names that cannot be taken for printed structure and classes that do not end with a digit; refuted without each of these conditions."
  },
  {
   "property": "C115",
   "status": "partial",
   "theorems": [
    "C115_diagnosis_partial",
    "C115_modifications",
    "C115_quiet_partial",
    "C115_no_constants_refuted",
    "C115_verbose_refuted",
    "C115_quiet_refuted",
    "C115_verbosity_refuted"
   ],
   "note": "The diagnosis is proved for models with constants at verbosities up to 1, what is printed of modifications for all verbosities; refuted for models without constants, for higher verbosities, and silence at verbosity 0."
  },
  {
   "property": "C116",
   "status": "partial",
   "theorems": [
    "C116_equal_hash",
    "C116_found_partial",
    "C116_arrays_partial",
    "C116_numbers_refuted",
    "C116_broadcast_refuted",
    "C116_lookup_refuted"
   ],
   "note": "Proved for nomials with any hash functions, for arrays of one shape, and for dictionaries whose hashes do not collide; refuted for numbers, for arrays of different shapes and for lookups of arrays."
  },
  {
   "property": "C117",
   "status": "partial",
   "theorems": [
    "C117_reported_partial",
    "C117_la_reported_partial",
    "C117_unreported_refuted",
    "C117_la_unreported_refuted"
   ],
   "note": "Proved: if the check passes, the cost, every nu and la and every variable of the cost are numbers when the solver returns nu; when it returns la, so are la and the variables of every posynomial whose la is not zero. Refuted: a nan in a variable that only constraints have passes, as a sum that is nan is not greater than 1 + tol; with la from the solver it passes where la is zero, together with the nan that it makes in nu. Left out: rounding and overflow to infinity."
  },
  {
   "property": "C118",
   "status": "proved",
   "theorems": [
    "C118_warned",
    "C118_named"
   ],
   "note": "Proved, with the texts of the messages; numbers are reals or nan as in C117, and a posynomial that is nan does not count as violated. Left out: rounding, infinities, and the times printed at higher verbosities."
  },
  {
   "property": "C119",
   "status": "partial",
   "theorems": [
    "C119_kept",
    "C119_lines_partial",
    "C119_shown_partial",
    "C119_lines_refuted"
   ],
   "note": "Proved: but for line ends nothing is lost from the log; lines printed whole are the lines of the log; nothing is shown at verbosities up to 2, and over that what is shown is what was written if and only if no write ends a line other than by itself. Refuted: lines written with their ends are shown on one line, empty prints are not in the log, and the arguments of one print are on lines of their own in it."
  },
  {
   "property": "C120",
   "status": "partial",
   "theorems": [
    "C120_backslash_partial",
    "C120_valid_partial",
    "C120_kept_refuted",
    "C120_collision_refuted"
   ],
   "note": "Proved: no backslash is left in a name; labels and variables of valid characters are kept, and have different files. Refuted: of the nine characters only the backslash is replaced, and five others if they are in a row, so that a variable called W/S is to be saved in a folder that is not there; variables that differ by a backslash and an underscore have the same file."
  }
 ]
}