{
 "claims": [
  {
   "property": "C01",
   "status": "proved",
   "theorems": [
    "C01_cross_nested_refuted",
    "C01_probabilities_sum_to_one",
    "C01_none_available"
   ],
   "note": "For every tree; C01_cross_nested_refuted shows that alternatives placed in two nests break it."
  },
  {
   "property": "C02",
   "status": "proved",
   "theorems": [
    "C02_probability_bounds"
   ],
   "note": ""
  },
  {
   "property": "C03",
   "status": "partial",
   "theorems": [
    "C03_logsum",
    "C03_alternative_utility",
    "C03_mu_zero_value",
    "C03_mu_zero_max_refuted"
   ],
   "note": "Logsum proved for every non-zero mu; refuted for mu=0 (value is max of 0 and the children)."
  },
  {
   "property": "C04",
   "status": "proved",
   "theorems": [
    "C04_mnl_closed_form",
    "C04_translation_invariance"
   ],
   "note": ""
  },
  {
   "property": "C05",
   "status": "proved",
   "theorems": [
    "C05_collapse_to_mnl"
   ],
   "note": ""
  },
  {
   "property": "C06",
   "status": "proved",
   "theorems": [
    "C06_loglike",
    "C06_chosen_unavailable"
   ],
   "note": ""
  },
  {
   "property": "C07",
   "status": "partial",
   "theorems": [
    "C07_root_logsum_refuted",
    "C07_shared_logsum_refuted",
    "C07_gradient_partial",
    "C07_from_data_partial",
    "C07_held_gradient_zero"
   ],
   "note": "Gradient = derivative proved when the root has no logsum parameter, no nest parameter is reused below the nest, and chosen probabilities are at least 1e-250; refuted for the first two excluded cases."
  },
  {
   "property": "C08",
   "status": "proved",
   "theorems": [
    "C08_bhhh_symmetric_psd",
    "C08_single_choice_outer_product",
    "C08_bhhh_outer_of_gradient_partial"
   ],
   "note": "Symmetric PSD and outer product proved for all inputs; that the vector is the gradient of log P carries the C07 provisos (C08_bhhh_outer_of_gradient_partial)."
  },
  {
   "property": "C09",
   "status": "proved",
   "theorems": [
    "C09_iia"
   ],
   "note": ""
  },
  {
   "property": "C10",
   "status": "proved",
   "theorems": [
    "C10_availability_cascade",
    "C10_choice_cascade"
   ],
   "note": ""
  },
  {
   "property": "C11",
   "status": "proved",
   "theorems": [
    "C11_utility_is_linear",
    "C11_reported_derivative",
    "C11_derivative_is_derivative"
   ],
   "note": ""
  },
  {
   "property": "C12",
   "status": "proved",
   "theorems": [
    "C12_sparse_equals_dense",
    "C12_same_results",
    "C12_unsorted_refuted"
   ],
   "note": "For rows sorted by alternative; C12_unsorted_refuted shows that unsorted rows land on the wrong alternative."
  },
  {
   "property": "C13",
   "status": "partial",
   "theorems": [
    "C13_size_value",
    "C13_derivative_partial",
    "C13_held_derivative_zero",
    "C13_repeated_parameter_refuted"
   ],
   "note": "Value proved; derivative proved when no free parameter occurs in two quantity terms; refuted otherwise (C13_repeated_parameter_refuted)."
  },
  {
   "property": "C14",
   "status": "partial",
   "theorems": [
    "C14_sparse_to_dense_partial",
    "C14_availability_partial",
    "C14_pointer_forms",
    "C14_empty_case_refuted"
   ],
   "note": "Proved for pointers in which every case has a row (all pointers from_idce builds); refuted for empty cases."
  },
  {
   "property": "C15",
   "status": "partial",
   "theorems": [
    "C15_blocks_have_one_case",
    "C15_pointers_delimit_cases_partial",
    "C15_index_from_pointers",
    "C15_unsorted_refuted",
    "C15_unused_level_refuted"
   ],
   "note": "Proved when rows are sorted by case and every case id has rows; blocks hold one case each for every input; refuted for unsorted rows and unused levels."
  },
  {
   "property": "C16",
   "status": "partial",
   "theorems": [
    "C16_dissolved_value_is_the_constant_partial",
    "C16_dissolves_constants_partial",
    "C16_empty_case_refuted",
    "C16_dense_within_tolerance",
    "C16_dense_constant",
    "C16_dense_small_values_refuted"
   ],
   "note": "Sparse: proved for pointers without empty cases, refuted otherwise. Dense branch: exact for constants, tolerance bound proved, refuted for small values."
  },
  {
   "property": "C18",
   "status": "proved",
   "theorems": [
    "C18_standard_order",
    "C18_elemental_order"
   ],
   "note": ""
  },
  {
   "property": "C19",
   "status": "partial",
   "theorems": [
    "C19_cycle_reported_refuted",
    "C19_acyclic_no_error_partial"
   ],
   "note": "Refuted for the code as it is: C19_cycle_reported_refuted shows that every node on or above a cycle is silently dropped and no error is ever raised; only the acyclic half holds."
  },
  {
   "property": "C20",
   "status": "proved",
   "theorems": [
    "C20_kernel_arrays_from_graph",
    "C20_slot_arrays"
   ],
   "note": ""
  },
  {
   "property": "C21",
   "status": "proved",
   "theorems": [
    "C21_no_orphans",
    "C21_all_under_root",
    "C21_explicit_link_drops_implied",
    "C21_unknown_parent_refuted",
    "C21_reroot_refuted"
   ],
   "note": "Histories that name existing parents. The refuted theorems show why the restriction is needed (unknown parent; re-rooting on an existing child)."
  },
  {
   "property": "C22",
   "status": "proved",
   "theorems": [
    "C22_fresh_code",
    "C22_explicit_code",
    "C22_rejected_unchanged"
   ],
   "note": ""
  },
  {
   "property": "C23",
   "status": "partial",
   "theorems": [
    "C23_caches_fresh_partial",
    "C23_suggest_refuted",
    "C23_bulk_add_refuted",
    "C23_stale_suggestion_refuted"
   ],
   "note": "Holds for the documented edit methods; refuted for suggest_elemental_order after a read, for inherited networkx bulk methods, and a stale suggestion makes reads fail."
  },
  {
   "property": "C25",
   "status": "partial",
   "theorems": [
    "C25_array_sets_free",
    "C25_array_sets_all",
    "C25_bad_array_changes_nothing",
    "C25_keywords",
    "C25_no_best_raises",
    "C25_scalar",
    "C25_dict",
    "C25_nan_accepted_refuted",
    "C25_early_set_value_holds_refuted"
   ],
   "note": "Array, keyword, scalar and dict forms proved for every frame; refuted: NaN is accepted as scalar or in a dict, and a parameter given a value before the model mentions it is silently held."
  },
  {
   "property": "C26",
   "status": "partial",
   "theorems": [
    "C26_ensure_names",
    "C26_full_scan",
    "C26_order_independent",
    "C26_order_kept_refuted"
   ],
   "note": "No duplicates, defaults, existing rows kept, idempotent and independent of set iteration order; refuted: rows are re-sorted, so they do not keep their order."
  },
  {
   "property": "C27",
   "status": "proved",
   "theorems": [
    "C27_locked_stays_locked",
    "C27_locked_value",
    "C27_override_refuted"
   ],
   "note": "For every history of modelled calls that do not set the parameter by name; with respect_holdfast=False it does move (C27_override_refuted)."
  },
  {
   "property": "C28",
   "status": "partial",
   "theorems": [
    "C28_cap_is_intersection_partial",
    "C28_every_row",
    "C28_missing_bounds",
    "C28_one_missing_bound_refuted"
   ],
   "note": "Proved when both bounds are present and ordered or both missing; refuted when exactly one bound is missing."
  },
  {
   "property": "C29",
   "status": "partial",
   "theorems": [
    "C29_loglike_null_restores",
    "C29_stale_null_refuted",
    "C29_nan_not_restored_refuted",
    "C29_likelihood_ratio_one",
    "C29_likelihood_ratio_all"
   ],
   "note": "Restoration and value proved; refuted: stale cached null value after null values change, and a free NaN parameter makes loglike_null raise with the parameters left at null."
  },
  {
   "property": "C30",
   "status": "partial",
   "theorems": [
    "C30_best_is_best",
    "C30_restores_best",
    "C30_cython_partial",
    "C30_cython_folds_refuted"
   ],
   "note": "Proved for every history of the numba engine; for the cython engine only when no cross-validation fold is evaluated (refuted otherwise)."
  },
  {
   "property": "C32",
   "status": "partial",
   "theorems": [
    "C32_simple_fit_climbs",
    "C32_move_meaning",
    "C32_fit_bhhh_climbs",
    "C32_simple_step",
    "C32_nan_step_accepted_refuted",
    "C32_jumpstart_refuted",
    "C32_simple_step_fold_refuted"
   ],
   "note": "Proved for objectives that are never NaN, without jumpstart, and (simple_step_bhhh) on the full sample; refuted for NaN, jumpstart and folds."
  },
  {
   "property": "C33",
   "status": "partial",
   "theorems": [
    "C33_initial_penalty",
    "C33_initial_penalty_numba",
    "C33_returned_loglike_partial",
    "C33_no_worse_partial",
    "C33_returned_loglike_refuted",
    "C33_worse_than_start_refuted"
   ],
   "note": "Proved for every run whose reported steps are all at least minimum_steplen; refuted otherwise: a failed line search keeps the failed point's log likelihood, and the fit can end worse than it started."
  },
  {
   "property": "C34",
   "status": "proved",
   "theorems": [
    "C34_update_is_set_values",
    "C34_direction_zero",
    "C34_simple_fit",
    "C34_simple_step",
    "C34_fit_bhhh",
    "C34_fit_numba",
    "C34_scipy",
    "C34_jumpstart_chunks_cover"
   ],
   "note": "For every optimizer, jumpstart and any sequence of scipy evaluations, over every value vector the model is given."
  },
  {
   "property": "C35",
   "status": "partial",
   "theorems": [
    "C35_default_method",
    "C35_infinite_minimum_refuted",
    "C35_given_method",
    "C35_restored",
    "C35_restored_absent_refuted",
    "C35_returns_loglike",
    "C35_method_used",
    "C35_default_fallback",
    "C35_method_used_after_start"
   ],
   "note": "Method choice proved unless a minimum is +inf or a maximum is -inf (refuted); restoration proved for models that have the attributes, refuted for models that do not."
  },
  {
   "property": "C36",
   "status": "partial",
   "theorems": [
    "C36_function_sign_is_the_inequality_partial",
    "C36_linear_form_agrees",
    "C36_linear_form_same_parameter_refuted",
    "C36_jacobian_is_exact",
    "C36_binding_order",
    "C36_binding_fixed",
    "C36_binding_ratio",
    "C36_one_sided_ratio_always_binding_refuted",
    "C36_one_sided_ratio_note_and_gradient_refuted",
    "C36_negative_ratio_inverted_refuted",
    "C36_zero_ratio_raises_refuted",
    "C36_stale_link_refuted"
   ],
   "note": "Function, linear form, gradient and binding proved for linked constraints with positive ratios and a denominator on its declared side; refuted: one-sided ratios always binding, negative ratios inverted, zero ratio raises, same parameter twice, links stale after the frame grows."
  },
  {
   "property": "C38",
   "status": "partial",
   "theorems": [
    "C38_never_two_equal_partial",
    "C38_inserted_is_present",
    "C38_insert_position",
    "C38_appended_is_linked",
    "C38_delete_only_that",
    "C38_replace_only_that",
    "C38_assignment_keeps_duplicates_refuted",
    "C38_reverse_does_nothing_refuted",
    "C38_replace_by_duplicate_ignored_refuted",
    "C38_negative_insert_links_another_refuted",
    "C38_insert_past_end_raises_refuted"
   ],
   "note": "Every history of append/insert/set/delete/reverse proved; refuted: whole-list assignment keeps duplicates, reverse() does nothing, insert at a negative or too large index does not link the new constraint."
  },
  {
   "property": "C39",
   "status": "proved",
   "theorems": [
    "C39_held_parameters_zero",
    "C39_inverse_of_free_block",
    "C39_covariance_psd",
    "C39_robust_sandwich",
    "C39_binding_constraints",
    "C39_no_binding",
    "C39_reported",
    "C39_binding_order"
   ],
   "note": ""
  },
  {
   "property": "C40",
   "status": "partial",
   "theorems": [
    "C40_softplus_tracks_violation",
    "C40_softplus_small_inside",
    "C40_softplus_increasing_partial",
    "C40_not_monotone_at_switch_refuted",
    "C40_discontinuous_at_switch_refuted",
    "C40_bounds_gradient_exact_partial",
    "C40_bounds_gradient_exact_when_feasible",
    "C40_bounds_gradient_error",
    "C40_penalty_not_positive",
    "C40_penalty_small_when_feasible",
    "C40_constraint_gradient_exact_partial",
    "C40_fixed_bound_unsupported_refuted"
   ],
   "note": "Size of the penalty, exact gradient below the switch and an error bound above it proved for every sharpness; refuted: the penalty jumps down at the switch, so it is neither continuous nor monotone there."
  },
  {
   "property": "C41",
   "status": "partial",
   "theorems": [
    "C41_meaning_partial",
    "C41_value_unique",
    "C41_zero_minus_parameter_refuted",
    "C41_double_zero_refuted",
    "C41_parameter_times_component_refuted",
    "C41_negative_base_refuted",
    "C41_null_parameter_refuted",
    "C41_boolean_product_refuted"
   ],
   "note": "Every expression Python can build has the arithmetic value, except four trapped shapes (each refuted): 0 - parameter, \"00\" + data, parameter * component with a parameter, negative base of a power; and the null parameter must be 1 and boolean texts must be honest (both refuted otherwise)."
  },
  {
   "property": "C42",
   "status": "partial",
   "theorems": [
    "C42_value_partial",
    "C42_printed_partial",
    "C42_prints",
    "C42_printed_subtraction_refuted",
    "C42_printed_division_refuted"
   ],
   "note": "Values proved under the conditions of C41; the printed form proved when no sum/difference is subtracted and no product/quotient divided by (both refuted otherwise: _parenthize_repr omits the parentheses)."
  },
  {
   "property": "C43",
   "status": "partial",
   "theorems": [
    "C43_probability_is_mixture",
    "C43_distribution",
    "C43_loglike",
    "C43_gradient",
    "C43_class_names_refuted",
    "C43_negative_stop_refuted"
   ],
   "note": "Mixture, distribution, log likelihood and gradient proved for every valid case range and every set of classes keyed 1..K; refuted: any other class keys raise KeyError, and a negative stop other than -1 raises IndexError although documented."
  },
  {
   "property": "C44",
   "status": "partial",
   "theorems": [
    "C44_parameters",
    "C44_loglike",
    "C44_totals",
    "C44_delete_and_insert",
    "C44_gradient",
    "C44_gradient_is_derivative",
    "C44_held_in_member_is_not_set_refuted",
    "C44_nan_gradient_is_hidden_refuted",
    "C44_parameter_of_no_member_refuted",
    "C44_set_before_first_use_is_lost_refuted"
   ],
   "note": "Parameters, log likelihood, gradient by name (also as the derivative of the sum), n_cases and weights proved for every group whose members are well formed; refuted: a parameter held in a member is not set there, a NaN gradient is hidden by another member, a parameter of no member (left behind by deleting one) raises KeyError, values set by name before the first use are lost."
  },
  {
   "property": "C45",
   "status": "partial",
   "theorems": [
    "C45_gradient",
    "C45_nested_logit_bhhh",
    "C45_latent_class_bhhh_partial",
    "C45_latent_class_bhhh_fourfold_refuted"
   ],
   "note": "Both kernels give the exact gradient and the nested logit kernel the sum of outer products; for the latent class model the returned matrix is characterised exactly, and the claim is refuted: one buffer is passed twice, which makes it four times too large for unweighted single choices."
  },
  {
   "property": "C46",
   "status": "partial",
   "theorems": [
    "C46_mass_unchanged",
    "C46_loglike_unchanged",
    "C46_average_one",
    "C46_totals",
    "C46_norm",
    "C46_again",
    "C46_unscale",
    "C46_unscale_embedded_refuted",
    "C46_total_weight",
    "C46_history",
    "C46_scale_without_weights_refuted",
    "C46_casewise_refuted"
   ],
   "note": "Proved for non-negative choices, a nonzero scale and any history of calls when weights are present; refuted: unscale does not restore embedded weights, scale_weights without weights multiplies the log likelihood, casewise values are not normalised."
  },
  {
   "property": "C47",
   "status": "partial",
   "theorems": [
    "C47_each_case_once",
    "C47_equal_splits",
    "C47_sizes",
    "C47_simple_in_order",
    "C47_shuffle_keeps_rows",
    "C47_part_rows",
    "C47_alternatives_follow",
    "C47_renumbered",
    "C47_nested_idca_refuted",
    "C47_loglike_adds",
    "C47_normalization_lost_refuted",
    "C47_single_part_raises"
   ],
   "note": "Partition, sizes, order and alternatives proved for every split; refuted: the parts lose the weight normalization, and idca parts keep the old case codes so a nested split selects wrong rows."
  },
  {
   "property": "C48",
   "status": "partial",
   "theorems": [
    "C48_lookup",
    "C48_lookup_exact",
    "C48_every_row",
    "C48_own_row_partial",
    "C48_array_own_row_partial",
    "C48_repeated_pair_refuted",
    "C48_unused_alternative_raises_refuted",
    "C48_co_as_ce_refuted",
    "C48_missing_case_shifts_refuted",
    "C48_every_case_present_partial",
    "C48_availability_from_rows",
    "C48_ce_as_ca"
   ],
   "note": "Lookup proved for every index; values land on their own row when no pair is repeated and every case has rows; refuted: repeated pairs leave zeros, an unused last alternative makes array_to_ce raise, data_co_as_ce fails for more than one variable, a case without rows shifts the values of later cases."
  },
  {
   "property": "C50",
   "status": "partial",
   "theorems": [
    "C50_unavailable_partial",
    "C50_zero_quantity_partial",
    "C50_nothing_chosen",
    "C50_star_keeps_mass_partial",
    "C50_repaired_partial",
    "C50_healthy_unchanged",
    "C50_report_only",
    "C50_reported",
    "C50_second_run_partial",
    "C50_plus_leaves_zero_quantity_refuted",
    "C50_unweighted_not_checked_refuted",
    "C50_star_no_weight_left_refuted",
    "C50_nest_available",
    "C50_wide_minus",
    "C50_wide_plus_raises_refuted",
    "C50_wide_without_model_raises_refuted"
   ],
   "note": "Proved for non-negative choices of the shape of the availability (and for wide choices with -): reports are exact, repairs fix what they report, healthy data unchanged, a second run finds nothing; refuted: + leaves chosen zero-quantity alternatives, + raises for wide choices, unweighted data are not checked, * divides by zero when no weight is left."
  },
  {
   "property": "C51",
   "status": "proved",
   "theorems": [
    "C51_legs_add_up",
    "C51_within",
    "C51_only_consecutive",
    "C51_slope",
    "C51_every_point_has_a_segment",
    "C51_equal_parameters",
    "C51_infer_roundtrip",
    "C51_infer_sound",
    "C51_unsorted_breaks_refuted"
   ],
   "note": "For break points in increasing order; C51_unsorted_breaks_refuted shows that unsorted break points do not add up."
  },
  {
   "property": "C52",
   "status": "proved",
   "theorems": [
    "C52_masks",
    "C52_disjoint",
    "C52_all_bits",
    "C52_pack_extract",
    "C52_min_masks",
    "C52_overflow_refuted"
   ],
   "note": "Up to 63 bits in total; C52_overflow_refuted shows what happens beyond."
  },
  {
   "property": "C53",
   "status": "partial",
   "theorems": [
    "C53_codes_identify",
    "C53_unique_in_case",
    "C53_masks_recover_partial",
    "C53_power_of_two_refuted",
    "C53_overflow_refuted",
    "C53_recode_same_frame",
    "C53_recode_other_frame_refuted",
    "C53_frames_coded_alike",
    "C53_frames_all_coded",
    "C53_multiple_codes_lost_refuted"
   ],
   "note": "Unique codes proved, also across several frames coded together (same code iff same categories and ordinal; every frame gets its codes); masks recover the category except for the sentinel cases; refuted: category counts that are powers of two share bits, more than 63 bits overflow, frames coded together record only the last one's codes, two codes per alternative."
  },
  {
   "property": "C54",
   "status": "partial",
   "theorems": [
    "C54_sorted",
    "C54_above_all_refuted",
    "C54_unsorted",
    "C54_unsorted_right_iff",
    "C54_unsorted_refuted",
    "C54_unsorted_above_refuted",
    "C54_duplicates_raise"
   ],
   "note": "Proved for labels in increasing order and values not above them all; exact characterisation for unsorted labels; refuted: unsorted labels are looked up at the wrong position, values above all labels are out of range or raise, duplicates raise NameError."
  },
  {
   "property": "C55",
   "status": "proved",
   "theorems": [
    "C55_simple_fit_terminates",
    "C55_fit_bhhh_terminates",
    "C55_fit_numba_terminates",
    "C55_zero_minimum_steplen_refuted"
   ],
   "note": "For every objective when the minimum step length is positive; C55_zero_minimum_steplen_refuted shows why it must be."
  },
  {
   "property": "C56",
   "status": "partial",
   "theorems": [
    "C56_edges",
    "C56_one_parent",
    "C56_same_nest",
    "C56_parent_name",
    "C56_self_loop_refuted"
   ],
   "note": "Edges, one parent each, shared nests proved up to 62 bits when no category count fills its mask; self loop refuted otherwise."
  },
  {
   "property": "C57",
   "status": "partial",
   "theorems": [
    "C57_one_hot",
    "C57_empty_raises",
    "C57_compress_expand",
    "C57_ids",
    "C57_expansion_inplace",
    "C57_drop_keeps_column_refuted",
    "C57_single_column_refuted"
   ],
   "note": "One-hot columns, compression and ids proved for all inputs; refuted: drop=True drops nothing and a one-column frame always fails."
  },
  {
   "property": "C58",
   "status": "partial",
   "theorems": [
    "C58_aligned_partial",
    "C58_weights_aligned_partial",
    "C58_weights_misaligned_refuted"
   ],
   "note": "Case data, choices and availability proved aligned for any row order; weights named as a case column only when the ids are increasing, and refuted in every other case."
  },
  {
   "property": "C59",
   "status": "partial",
   "theorems": [
    "C59_columns",
    "C59_kept_columns",
    "C59_moved_columns_partial",
    "C59_one_row_per_case",
    "C59_nan_cell_lost_refuted"
   ],
   "note": "Proved for all cells that are not NaN; refuted: NaN cells of a moved column are replaced by a number."
  },
  {
   "property": "C61",
   "status": "partial",
   "theorems": [
    "C61_set_value_reaches_all_parts_partial",
    "C61_first_value_wins_partial",
    "C61_given_frame_is_not_shared_refuted",
    "C61_new_parameters_never_appear_refuted"
   ],
   "note": "Proved when no part by itself knows all the parameters; refuted: a complete frame given to the latent class model is shared with no part, and parameters introduced after the first join never appear."
  },
  {
   "property": "C62",
   "status": "proved",
   "theorems": [
    "C62_totals",
    "C62_rows",
    "C62_dropped_rows",
    "C62_deterministic",
    "C62_leave_and_keep",
    "C62_folds_add_up",
    "C62_gradient_is_derivative",
    "C62_negative_stop_refuted"
   ],
   "note": "Multinomial logit kernel, exact numbers; persisted quantity arrays and a stop beyond the last case are not modelled. The documented meaning of negative stops other than -1 is refuted (every negative value means all cases); this is stated separately."
  },
  {
   "property": "C63",
   "status": "partial",
   "theorems": [
    "C63_root_logsum_refuted",
    "C63_two_parent_nest_refuted",
    "C63_arrays_from_graph",
    "C63_engines_agree",
    "C63_engines_agree_gradient_partial",
    "C63_logsum",
    "C63_probabilities",
    "C63_none_available",
    "C63_loglike",
    "C63_unavailable_dprob_nan_refuted",
    "C63_gradient_partial",
    "C63_dutility_dprobability_partial",
    "C63_translation",
    "C63_translation_gradient_partial"
   ],
   "note": "Logsums, probabilities, log likelihood, allocations, translation and agreement with the numba engine proved for every network; the gradient is proved under grad_ok (a free logsum parameter is not the root's, not used twice on a path, its nest has one parent, and allocated children of its nest have logsum parameter 1). Outside, the reported gradient is wrong: C63_root_logsum_refuted, C63_two_parent_nest_refuted; an unavailable child of a nest with a free logsum parameter gets a NaN derivative of its probability (C63_unavailable_dprob_nan_refuted)."
  },
  {
   "property": "C64",
   "status": "partial",
   "theorems": [
    "C64_engines_agree",
    "C64_engines_agree_sparse",
    "C64_ce_rows",
    "C64_row_order",
    "C64_stale_scale_refuted",
    "C64_repeated_parameter_refuted",
    "C64_missing_row_derivative_refuted",
    "C64_nested_from_data",
    "C64_nested_gradient_partial",
    "C64_utility",
    "C64_no_overflow",
    "C64_same_utilities",
    "C64_quantity",
    "C64_derivative_partial",
    "C64_held_derivative_zero",
    "C64_unavailable_derivative_zero",
    "C64_reread",
    "C64_reread_after_link",
    "C64_fresh_link",
    "C64_zero_quantity",
    "C64_not_flagged"
   ],
   "note": "Utilities, quantities, overflow guard, row lookup, rereading of parameters, zero quantities and engine agreement proved for all data (positive sizes). Derivatives proved except for a parameter occurring in two quantity terms, where the code is wrong (C64_repeated_parameter_refuted); nested logit gradient under the conditions of C63. link_to_model_parameters leaves the scale of the quantity stale (C64_stale_scale_refuted); an available alternative without a row has minus infinite utility but a non-zero derivative (C64_missing_row_derivative_refuted)."
  },
  {
   "property": "C60",
   "status": "partial",
   "theorems": [
    "C60_reads_what_it_says_partial",
    "C60_fixed_bounds",
    "C60_orderings_and_ratios",
    "C60_never_misread",
    "C60_unambiguous",
    "C60_numbers",
    "C60_numbers_only",
    "C60_function_follows_text_partial",
    "C60_append_text",
    "C60_unread_text_changes_nothing",
    "C60_ordering_string",
    "C60_two_readers_agree",
    "C60_exponent_name_refuted",
    "C60_digit_name_refuted",
    "C60_ratio_on_the_right_refuted",
    "C60_downward_chain_refuted",
    "C60_negative_fraction_refuted"
   ],
   "note": "Reading and non-misreading proved for all texts of the documented forms whose parameter names are not made of digits with at most one e/E. Outside it the code is refuted: a name such as E1 on the right of < raises (C60_exponent_name_refuted), a name of digits is taken for a number (C60_digit_name_refuted); ratios on the right, downward chains and negative fractions are refused. Linked constraints carry the same restriction as C36 (positive ratios). Text beyond Latin-1 and rounding of numerals are not modelled."
  },
  {
   "property": "C65",
   "status": "partial",
   "theorems": [
    "C65_each_row_in_its_cell",
    "C65_no_other_cases",
    "C65_availability",
    "C65_fill_value",
    "C65_fill_makes_available_refuted",
    "C65_fill_never_fails",
    "C65_fill_by_variable_refuted",
    "C65_own_availability_name_refuted",
    "C65_absent_pairs",
    "C65_absent_alternatives_chosen_refuted",
    "C65_row_order",
    "C65_accepted_exactly",
    "C65_names_must_match",
    "C65_unlisted_name_refuted",
    "C65_spare_name_refuted",
    "C65_unsigned_codes_refuted",
    "C65_second_reading_refuted",
    "C65_integer_table_untouched",
    "C65_mapping_ignores_names_refuted",
    "C65_mapping_of_constructor",
    "C65_given_availability_refuted",
    "C65_fill_by_type"
   ],
   "note": "Placement, availability, row order, accepted tables and fill values (single, or by data type) proved for all tables and options. Refuted: a fill value is also written into the availability (C65_fill_makes_available_refuted), a mapping of variables raises KeyError, an availability name of one's own cannot be combined with filling, booleans are true where there is no row, a label missing from the names overwrites the last alternative, spare names raise, unsigned codes are replaced, the caller's index is changed so a second reading loses the names, alts_mapping ignores the names attached, and a given availability of ones is dissolved. A missing float in a dissolved variable takes the value of its case (as in C59)."
  },
  {
   "property": "C66",
   "status": "partial",
   "theorems": [
    "C66_answers_ignore_history",
    "C66_same_question_same_answer",
    "C66_settings_follow_operations",
    "C66_loglike_fits_probability",
    "C66_probability_rows_sum_to_one",
    "C66_held_probabilities",
    "C66_held_utilities",
    "C66_probabilities_spared",
    "C66_old_arrays_are_safe",
    "C66_copies_never_change",
    "C66_held_array_overwritten_refuted",
    "C66_quantity_overwrites_utility_refuted",
    "C66_slice_selects",
    "C66_slice_valid",
    "C66_slice_reversed",
    "C66_slice_rows",
    "C66_parts_add",
    "C66_interleaved_slices_share",
    "C66_cut_shares",
    "C66_documented_defaults_refuted",
    "C66_leave_out_ignored_refuted",
    "C66_penalty_counts_once_per_case",
    "C66_zero_penalty_squares_weights_refuted",
    "C66_quantity_is_size",
    "C66_absent_quantity_refuted",
    "C66_frames_are_labelled_rightly",
    "C66_quantity_slice_refuted",
    "C66_probability_dataarray_refuted",
    "C66_idce_refuted"
   ],
   "note": "Answers proved independent of history, for all histories, slices and penalties; parts add up; labels proved right. Refuted: probability, utility and logsums return views that later calls at other values rewrite (C66_held_array_overwritten_refuted); quantity rewrites an array returned by utility; the defaults documented for slices leave out the last case; leave_out/keep_only/subsample are ignored; a penalty is counted once per case, not once, and squares the weights in bhhh; quantity is one, not zero, for an alternative without a row in sparse data; labelled quantity raises for a slice, probability as a DataArray and the idce form always raise."
  },
  {
   "property": "C67",
   "status": "partial",
   "theorems": [
    "C67_changes_take_effect",
    "C67_nothing_compiled",
    "C67_force_repairs",
    "C67_evaluation_keeps_settings",
    "C67_set_value",
    "C67_settings_are_stored",
    "C67_assigned_functions",
    "C67_assigned_entries",
    "C67_assigned_dict",
    "C67_edited_functions",
    "C67_remove_unused",
    "C67_constraints_apply_to_names",
    "C67_constraint_added",
    "C67_sorted_frame",
    "C67_frame_and_constraints_stored",
    "C67_weight_unheard_refuted",
    "C67_weight_cleared_unheard_refuted",
    "C67_choice_unheard_refuted",
    "C67_availability_unheard_refuted",
    "C67_dicts_unheard_refuted",
    "C67_dict_assigned_again_unheard_refuted",
    "C67_functions_unheard_refuted",
    "C67_refused_assignment_unheard_refuted",
    "C67_node_parameter_unheard_refuted",
    "C67_new_data_unheard_refuted",
    "C67_dataset_refuted",
    "C67_shared_function_refuted",
    "C67_flow_names_refuted",
    "C67_constraint_moves_refuted",
    "C67_refused_constraint_refuted",
    "C67_scale_without_quantity_refuted",
    "C67_parameter_None_refuted",
    "C67_remove_unused_refuted"
   ],
   "note": "Proved for all sessions whose changes the model is told of, for any number of models; a forced unmangle repairs any state. Refuted for changes that are not told: weight, deleting choice_co_vars, choice_any, availability_any, availability_ca_var = None over a dict, dicts edited in place (also when assigned again), remove_data/remove_param, functions reached through values(), half-applied refused assignments, node attributes, data changed inside a tree, function objects shared by two models; m.dataset = d makes evaluation fail. Flow names collide: other expressions then give the old data or an error (C67_flow_names_refuted). Constraints keep positions: a new parameter shifts them (C67_constraint_moves_refuted), a refused one stays. remove_unused_parameters can lose every value (C67_remove_unused_refuted)."
  },
  {
   "property": "C68",
   "status": "partial",
   "theorems": [
    "C68_reference_unique",
    "C68_answers",
    "C68_evaluates",
    "C68_stops",
    "C68_own_data",
    "C68_sorted_alternatives",
    "C68_suggested_order",
    "C68_data_without_alternatives",
    "C68_mnl_any_order",
    "C68_default_graph",
    "C68_default_labels",
    "C68_root_code_clash",
    "C68_unknown_choice_refuted",
    "C68_nested_order_refuted",
    "C68_labels_refuted",
    "C68_other_alternatives_refuted"
   ],
   "note": "Proved: the exact answer for every order (C68_answers: each node carries the data standing at its position); right for every node when the orders agree (sorted codes, suggested order, or data without alternatives); multinomial logit right position by position and in log likelihood in any order. Refuted: nested models with another order get the log likelihood of other alternatives; column labels are the sorted codes whatever the order of the data; data for other codes, equal in number, is accepted; an unknown choice code counts as no choice. Missing: single-alternative broadcast, sparse idca rows, Cython engine."
  },
  {
   "property": "C69",
   "status": "partial",
   "theorems": [
    "C69_check_exact",
    "C69_check_without_penalty",
    "C69_message_true",
    "C69_solver_problem",
    "C69_solver_exact",
    "C69_solver_keeps_feasible",
    "C69_default_method",
    "C69_success_is_feasible",
    "C69_success_infeasible_refuted",
    "C69_cobyla_ignores_bounds_refuted",
    "C69_constraints_not_passed_refuted",
    "C69_nan_passes_refuted",
    "C69_stale_constraint_refuted"
   ],
   "note": "The check, its messages, what every scipy method is told and the default method proved for all frames and constraints; a successful BHHH run is feasible or has zero penalty. Refuted: BHHH with the default penalty intensity 0 walks out of the bounds and reports success (C69_success_infeasible_refuted); COBYLA is not given the bounds, the other methods not the constraints; NaN bounds are never violated; a constraint linked before the frame changed checks other parameters."
  },
  {
   "property": "C70",
   "status": "partial",
   "theorems": [
    "C70_values_kept",
    "C70_standard_errors",
    "C70_unconstrained",
    "C70_constraints_never_widen",
    "C70_held",
    "C70_notes",
    "C70_notes_true",
    "C70_at_bound",
    "C70_likelihood_ratios",
    "C70_held_looks_significant_refuted",
    "C70_quiet_keeps_notes",
    "C70_note_stale_refuted",
    "C70_robust_ignores_binding_refuted",
    "C70_null_at_bound_refuted",
    "C70_no_bhhh_refuted"
   ],
   "note": "Standard errors, t statistics, unconstrained and robust columns, notes and likelihood ratios proved for all tables. Refuted: without constraints or bounds a held parameter gets standard error 0 and an infinite t statistic (C70_held_looks_significant_refuted); notes of an earlier estimation stay when nothing binds; robust statistics ignore binding constraints; at a bound equal to the null value the standard error is 0 and t NaN; a model without bhhh gets robust standard error 0. Missing: rounding, the over-specification warning."
  },
  {
   "property": "C71",
   "status": "partial",
   "theorems": [
    "C71_multinomial",
    "C71_total_is_cases",
    "C71_chosen_but_not_available",
    "C71_nested",
    "C71_nested_not_available",
    "C71_not_available_total_refuted",
    "C71_incomplete_data_refuted",
    "C71_weights_raise_refuted",
    "C71_weighted_not_available_raises_refuted",
    "C71_weights_misplaced_refuted",
    "C71_labels_by_position_refuted"
   ],
   "note": "Counts, totals and the column of unavailable choices proved for all unweighted data and trees. Refuted: with a tree the total of the unavailable choices is not their sum (C71_not_available_total_refuted); weights are lined up with the alternatives instead of the cases, so the summary raises or shows wrong numbers under wrong labels (C71_weights_*); data without choices or availability raises; the tree version ignores the codes of the data."
  },
  {
   "property": "C72",
   "status": "partial",
   "theorems": [
    "C72_restored",
    "C72_same_answers",
    "C72_same_as_original",
    "C72_lives_on",
    "C72_constraints_lost_refuted",
    "C72_copy_refuted",
    "C72_copy",
    "C72_load_refuted"
   ],
   "note": "Proved for every state of every session: all settings and values come back, the restored model given the data answers as the original, and both live on independently (C72_lives_on). Refuted: constraints are not saved, so the penalty is lost (C72_constraints_lost_refuted); copy() raises for a model without a data service, as every model on a datatree is; Model.load hands the file name to pickle.load, so it never gives a model but from a workbook. Missing: models with DataFrames, cached results and titles; that pickle and gzip give back what went in is assumed."
  },
  {
   "property": "C73",
   "status": "partial",
   "theorems": [
    "C73_ordered_table",
    "C73_one_place",
    "C73_no_ordering",
    "C73_ordering",
    "C73_significance",
    "C73_marks_agree",
    "C73_joint_rows",
    "C73_joint_cells",
    "C73_same_title_refuted"
   ],
   "note": "One row for each parameter, its category, the order of rows, the stars and the joint table proved for all orderings, frames and statistics; stars of t and of likelihood ratios agree but within 0.0002 of a threshold (C73_marks_agree). Refuted: two models of one title get one column with mixed values (C73_same_title_refuted). Missing: number formatting; patterns are an abstract matching test; the log likelihood and rho-squared rows of the joint summary."
  },
  {
   "property": "C74",
   "status": "partial",
   "theorems": [
    "C74_answers",
    "C74_raises",
    "C74_always",
    "C74_one_answer",
    "C74_plain",
    "C74_name_settles",
    "C74_reference_refuted",
    "C74_nested_list_refuted",
    "C74_first_model",
    "C74_dict_source_refuted"
   ],
   "note": "Proved for all nestings and expressions at every model that has been scanned, and at any model when asked by plain names. Refuted: a reference (P.b) is looked up before the model is scanned, so it raises KeyError where the plain name gives the value, and the answer depends on what was asked before (C74_reference_refuted); a list in a list raises TypeError (C74_nested_list_refuted); a dict without the name ends a search through several sources (C74_dict_source_refuted). Missing: formatted texts, zero divisors, the old classes of roles.py."
  },
  {
   "property": "C75",
   "status": "partial",
   "theorems": [
    "C75_labels",
    "C75_array_partial",
    "C75_length",
    "C75_one_label",
    "C75_nan",
    "C75_boundary",
    "C75_mapping_kept",
    "C75_mapping_changed_refuted",
    "C75_array_refuted"
   ],
   "note": "Proved for all numbers and NaN, all sections, Series, arrays without a default, and arrays whose labels are no longer than the default. Refuted: an array of texts keeps only as many letters as the default has, so two sections get one label (C75_array_refuted); a list given as mapping is extended in place, so the keywords of one call act in the next (C75_mapping_changed_refuted). Missing: infinite values, categories and index of the Series, labels other than texts."
  },
  {
   "property": "C76",
   "status": "partial",
   "theorems": [
    "C76_columns",
    "C76_periodic",
    "C76_names",
    "C76_name_says",
    "C76_series",
    "C76_expression_refuted",
    "C76_rising",
    "C76_falling",
    "C76_step",
    "C76_sigmoid",
    "C76_missing_refuted"
   ],
   "note": "Proved for all reals, lengths and bounds; names read as expressions for a variable with a plain name. Refuted: for a variable that is an expression (a+b) the factor takes only its last part (C76_expression_refuted); with equal bounds a missing value becomes 0 (C76_missing_refuted). None or array bounds, which the docstring allows, raise and are not modelled; nor the data frame options column and inplace."
  }
 ]
}