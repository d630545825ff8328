(** Generated list: the axioms every theorem rests on (output is summarised in DESIGN.md). *)
From Verif Require AltsProps BhhhMoreProps BhhhProps BitsProps CEProps CeProps ConsListProps ConsProps CovProps CstrProps CyuExProps CyuNetProps CyuProps DenseProps DocProps FeasProps FourierProps GroupProps IdcaProps LabelProps LcProps LcSyncProps LinProps LogitExProps LogitProps NetEx2Props NetEx3Props NetExProps NetProps ParamProps PenaltyProps PeriodProps PickleProps PieceProps PvalProps SchedProps SessProps SplitProps StatProps SumProps TableProps TouchProps TreeLogitProps TreeProps UtilityProps WtProps.
Print Assumptions AltsProps.C68_reference_unique.
Print Assumptions AltsProps.C68_answers.
Print Assumptions AltsProps.C68_evaluates.
Print Assumptions AltsProps.C68_stops.
Print Assumptions AltsProps.C68_own_data.
Print Assumptions AltsProps.C68_sorted_alternatives.
Print Assumptions AltsProps.C68_suggested_order.
Print Assumptions AltsProps.C68_data_without_alternatives.
Print Assumptions AltsProps.C68_mnl_any_order.
Print Assumptions AltsProps.C68_default_graph.
Print Assumptions AltsProps.C68_default_labels.
Print Assumptions AltsProps.C68_root_code_clash.
Print Assumptions AltsProps.C68_unknown_choice_refuted.
Print Assumptions AltsProps.C68_nested_order_refuted.
Print Assumptions AltsProps.C68_labels_refuted.
Print Assumptions AltsProps.C68_other_alternatives_refuted.
Print Assumptions BhhhMoreProps.C34_update_is_set_values.
Print Assumptions BhhhMoreProps.C34_direction_zero.
Print Assumptions BhhhMoreProps.C34_simple_fit.
Print Assumptions BhhhMoreProps.C34_simple_step.
Print Assumptions BhhhMoreProps.C34_fit_bhhh.
Print Assumptions BhhhMoreProps.C34_fit_numba.
Print Assumptions BhhhMoreProps.C34_scipy.
Print Assumptions BhhhMoreProps.C55_simple_fit_terminates.
Print Assumptions BhhhMoreProps.C55_fit_bhhh_terminates.
Print Assumptions BhhhMoreProps.C55_fit_numba_terminates.
Print Assumptions BhhhMoreProps.C55_zero_minimum_steplen_refuted.
Print Assumptions BhhhMoreProps.C34_jumpstart_chunks_cover.
Print Assumptions BhhhMoreProps.C35_default_method.
Print Assumptions BhhhMoreProps.C35_infinite_minimum_refuted.
Print Assumptions BhhhMoreProps.C35_given_method.
Print Assumptions BhhhMoreProps.C35_restored.
Print Assumptions BhhhMoreProps.C35_restored_absent_refuted.
Print Assumptions BhhhMoreProps.C35_returns_loglike.
Print Assumptions BhhhMoreProps.C35_method_used.
Print Assumptions BhhhMoreProps.C35_default_fallback.
Print Assumptions BhhhMoreProps.C35_method_used_after_start.
Print Assumptions BhhhMoreProps.C33_initial_penalty.
Print Assumptions BhhhMoreProps.C33_initial_penalty_numba.
Print Assumptions BhhhProps.C32_simple_fit_climbs.
Print Assumptions BhhhProps.C32_move_meaning.
Print Assumptions BhhhProps.C32_fit_bhhh_climbs.
Print Assumptions BhhhProps.C32_simple_step.
Print Assumptions BhhhProps.C32_nan_step_accepted_refuted.
Print Assumptions BhhhProps.C32_jumpstart_refuted.
Print Assumptions BhhhProps.C32_simple_step_fold_refuted.
Print Assumptions BhhhProps.C33_returned_loglike_partial.
Print Assumptions BhhhProps.C33_no_worse_partial.
Print Assumptions BhhhProps.C33_returned_loglike_refuted.
Print Assumptions BhhhProps.C33_worse_than_start_refuted.
Print Assumptions BitsProps.C52_masks.
Print Assumptions BitsProps.C52_disjoint.
Print Assumptions BitsProps.C52_all_bits.
Print Assumptions BitsProps.C52_pack_extract.
Print Assumptions BitsProps.C52_min_masks.
Print Assumptions BitsProps.C52_overflow_refuted.
Print Assumptions BitsProps.C53_codes_identify.
Print Assumptions BitsProps.C53_unique_in_case.
Print Assumptions BitsProps.C53_masks_recover_partial.
Print Assumptions BitsProps.C53_power_of_two_refuted.
Print Assumptions BitsProps.C53_overflow_refuted.
Print Assumptions BitsProps.C53_recode_same_frame.
Print Assumptions BitsProps.C53_recode_other_frame_refuted.
Print Assumptions BitsProps.C53_frames_coded_alike.
Print Assumptions BitsProps.C53_frames_all_coded.
Print Assumptions BitsProps.C53_multiple_codes_lost_refuted.
Print Assumptions BitsProps.C56_edges.
Print Assumptions BitsProps.C56_one_parent.
Print Assumptions BitsProps.C56_same_nest.
Print Assumptions BitsProps.C56_parent_name.
Print Assumptions BitsProps.C56_self_loop_refuted.
Print Assumptions CEProps.C14_sparse_to_dense_partial.
Print Assumptions CEProps.C14_availability_partial.
Print Assumptions CEProps.C14_pointer_forms.
Print Assumptions CEProps.C14_empty_case_refuted.
Print Assumptions CEProps.C15_blocks_have_one_case.
Print Assumptions CEProps.C15_pointers_delimit_cases_partial.
Print Assumptions CEProps.C15_index_from_pointers.
Print Assumptions CEProps.C15_unsorted_refuted.
Print Assumptions CEProps.C15_unused_level_refuted.
Print Assumptions CEProps.C16_dissolved_value_is_the_constant_partial.
Print Assumptions CEProps.C16_dissolves_constants_partial.
Print Assumptions CEProps.C16_empty_case_refuted.
Print Assumptions CeProps.C48_lookup.
Print Assumptions CeProps.C48_lookup_exact.
Print Assumptions CeProps.C48_every_row.
Print Assumptions CeProps.C48_own_row_partial.
Print Assumptions CeProps.C48_array_own_row_partial.
Print Assumptions CeProps.C48_repeated_pair_refuted.
Print Assumptions CeProps.C48_unused_alternative_raises_refuted.
Print Assumptions CeProps.C48_co_as_ce_refuted.
Print Assumptions CeProps.C48_missing_case_shifts_refuted.
Print Assumptions CeProps.C48_every_case_present_partial.
Print Assumptions CeProps.C48_availability_from_rows.
Print Assumptions CeProps.C48_ce_as_ca.
Print Assumptions CeProps.C58_aligned_partial.
Print Assumptions CeProps.C58_weights_aligned_partial.
Print Assumptions CeProps.C58_weights_misaligned_refuted.
Print Assumptions CeProps.C59_columns.
Print Assumptions CeProps.C59_kept_columns.
Print Assumptions CeProps.C59_moved_columns_partial.
Print Assumptions CeProps.C59_one_row_per_case.
Print Assumptions CeProps.C59_nan_cell_lost_refuted.
Print Assumptions ConsListProps.C38_never_two_equal_partial.
Print Assumptions ConsListProps.C38_inserted_is_present.
Print Assumptions ConsListProps.C38_insert_position.
Print Assumptions ConsListProps.C38_appended_is_linked.
Print Assumptions ConsListProps.C38_delete_only_that.
Print Assumptions ConsListProps.C38_replace_only_that.
Print Assumptions ConsListProps.C38_assignment_keeps_duplicates_refuted.
Print Assumptions ConsListProps.C38_reverse_does_nothing_refuted.
Print Assumptions ConsListProps.C38_replace_by_duplicate_ignored_refuted.
Print Assumptions ConsListProps.C38_negative_insert_links_another_refuted.
Print Assumptions ConsListProps.C38_insert_past_end_raises_refuted.
Print Assumptions ConsProps.C36_function_sign_is_the_inequality_partial.
Print Assumptions ConsProps.C36_linear_form_agrees.
Print Assumptions ConsProps.C36_linear_form_same_parameter_refuted.
Print Assumptions ConsProps.C36_jacobian_is_exact.
Print Assumptions ConsProps.C36_binding_order.
Print Assumptions ConsProps.C36_binding_fixed.
Print Assumptions ConsProps.C36_binding_ratio.
Print Assumptions ConsProps.C36_one_sided_ratio_always_binding_refuted.
Print Assumptions ConsProps.C36_one_sided_ratio_note_and_gradient_refuted.
Print Assumptions ConsProps.C36_negative_ratio_inverted_refuted.
Print Assumptions ConsProps.C36_zero_ratio_raises_refuted.
Print Assumptions ConsProps.C36_stale_link_refuted.
Print Assumptions CovProps.C39_held_parameters_zero.
Print Assumptions CovProps.C39_inverse_of_free_block.
Print Assumptions CovProps.C39_covariance_psd.
Print Assumptions CovProps.C39_robust_sandwich.
Print Assumptions CovProps.C39_binding_constraints.
Print Assumptions CovProps.C39_no_binding.
Print Assumptions CovProps.C39_reported.
Print Assumptions CovProps.C39_binding_order.
Print Assumptions CstrProps.C60_reads_what_it_says_partial.
Print Assumptions CstrProps.C60_fixed_bounds.
Print Assumptions CstrProps.C60_orderings_and_ratios.
Print Assumptions CstrProps.C60_never_misread.
Print Assumptions CstrProps.C60_unambiguous.
Print Assumptions CstrProps.C60_numbers.
Print Assumptions CstrProps.C60_numbers_only.
Print Assumptions CstrProps.C60_function_follows_text_partial.
Print Assumptions CstrProps.C60_append_text.
Print Assumptions CstrProps.C60_unread_text_changes_nothing.
Print Assumptions CstrProps.C60_ordering_string.
Print Assumptions CstrProps.C60_two_readers_agree.
Print Assumptions CstrProps.C60_exponent_name_refuted.
Print Assumptions CstrProps.C60_digit_name_refuted.
Print Assumptions CstrProps.C60_ratio_on_the_right_refuted.
Print Assumptions CstrProps.C60_downward_chain_refuted.
Print Assumptions CstrProps.C60_negative_fraction_refuted.
Print Assumptions CyuExProps.C64_engines_agree.
Print Assumptions CyuExProps.C64_engines_agree_sparse.
Print Assumptions CyuExProps.C64_ce_rows.
Print Assumptions CyuExProps.C64_row_order.
Print Assumptions CyuExProps.C64_stale_scale_refuted.
Print Assumptions CyuExProps.C64_repeated_parameter_refuted.
Print Assumptions CyuExProps.C64_missing_row_derivative_refuted.
Print Assumptions CyuNetProps.C64_nested_from_data.
Print Assumptions CyuNetProps.C64_nested_gradient_partial.
Print Assumptions CyuProps.C64_utility.
Print Assumptions CyuProps.C64_no_overflow.
Print Assumptions CyuProps.C64_same_utilities.
Print Assumptions CyuProps.C64_quantity.
Print Assumptions CyuProps.C64_derivative_partial.
Print Assumptions CyuProps.C64_held_derivative_zero.
Print Assumptions CyuProps.C64_unavailable_derivative_zero.
Print Assumptions CyuProps.C64_reread.
Print Assumptions CyuProps.C64_reread_after_link.
Print Assumptions CyuProps.C64_fresh_link.
Print Assumptions CyuProps.C64_zero_quantity.
Print Assumptions CyuProps.C64_not_flagged.
Print Assumptions DenseProps.C16_dense_within_tolerance.
Print Assumptions DenseProps.C16_dense_constant.
Print Assumptions DenseProps.C16_dense_small_values_refuted.
Print Assumptions DocProps.C50_unavailable_partial.
Print Assumptions DocProps.C50_zero_quantity_partial.
Print Assumptions DocProps.C50_nothing_chosen.
Print Assumptions DocProps.C50_star_keeps_mass_partial.
Print Assumptions DocProps.C50_repaired_partial.
Print Assumptions DocProps.C50_healthy_unchanged.
Print Assumptions DocProps.C50_report_only.
Print Assumptions DocProps.C50_reported.
Print Assumptions DocProps.C50_second_run_partial.
Print Assumptions DocProps.C50_plus_leaves_zero_quantity_refuted.
Print Assumptions DocProps.C50_unweighted_not_checked_refuted.
Print Assumptions DocProps.C50_star_no_weight_left_refuted.
Print Assumptions DocProps.C50_nest_available.
Print Assumptions DocProps.C50_wide_minus.
Print Assumptions DocProps.C50_wide_plus_raises_refuted.
Print Assumptions DocProps.C50_wide_without_model_raises_refuted.
Print Assumptions FeasProps.C69_check_exact.
Print Assumptions FeasProps.C69_check_without_penalty.
Print Assumptions FeasProps.C69_message_true.
Print Assumptions FeasProps.C69_solver_problem.
Print Assumptions FeasProps.C69_solver_exact.
Print Assumptions FeasProps.C69_solver_keeps_feasible.
Print Assumptions FeasProps.C69_default_method.
Print Assumptions FeasProps.C69_success_is_feasible.
Print Assumptions FeasProps.C69_success_infeasible_refuted.
Print Assumptions FeasProps.C69_cobyla_ignores_bounds_refuted.
Print Assumptions FeasProps.C69_constraints_not_passed_refuted.
Print Assumptions FeasProps.C69_nan_passes_refuted.
Print Assumptions FeasProps.C69_stale_constraint_refuted.
Print Assumptions FourierProps.C76_columns.
Print Assumptions FourierProps.C76_periodic.
Print Assumptions FourierProps.C76_names.
Print Assumptions FourierProps.C76_name_says.
Print Assumptions FourierProps.C76_series.
Print Assumptions FourierProps.C76_expression_refuted.
Print Assumptions FourierProps.C76_rising.
Print Assumptions FourierProps.C76_falling.
Print Assumptions FourierProps.C76_step.
Print Assumptions FourierProps.C76_sigmoid.
Print Assumptions FourierProps.C76_missing_refuted.
Print Assumptions GroupProps.C44_parameters.
Print Assumptions GroupProps.C44_loglike.
Print Assumptions GroupProps.C44_totals.
Print Assumptions GroupProps.C44_delete_and_insert.
Print Assumptions GroupProps.C44_gradient.
Print Assumptions GroupProps.C44_gradient_is_derivative.
Print Assumptions GroupProps.C44_held_in_member_is_not_set_refuted.
Print Assumptions GroupProps.C44_nan_gradient_is_hidden_refuted.
Print Assumptions GroupProps.C44_parameter_of_no_member_refuted.
Print Assumptions GroupProps.C44_set_before_first_use_is_lost_refuted.
Print Assumptions IdcaProps.C65_each_row_in_its_cell.
Print Assumptions IdcaProps.C65_no_other_cases.
Print Assumptions IdcaProps.C65_availability.
Print Assumptions IdcaProps.C65_fill_value.
Print Assumptions IdcaProps.C65_fill_makes_available_refuted.
Print Assumptions IdcaProps.C65_fill_never_fails.
Print Assumptions IdcaProps.C65_fill_by_variable_refuted.
Print Assumptions IdcaProps.C65_own_availability_name_refuted.
Print Assumptions IdcaProps.C65_absent_pairs.
Print Assumptions IdcaProps.C65_absent_alternatives_chosen_refuted.
Print Assumptions IdcaProps.C65_row_order.
Print Assumptions IdcaProps.C65_accepted_exactly.
Print Assumptions IdcaProps.C65_names_must_match.
Print Assumptions IdcaProps.C65_unlisted_name_refuted.
Print Assumptions IdcaProps.C65_spare_name_refuted.
Print Assumptions IdcaProps.C65_unsigned_codes_refuted.
Print Assumptions IdcaProps.C65_second_reading_refuted.
Print Assumptions IdcaProps.C65_integer_table_untouched.
Print Assumptions IdcaProps.C65_mapping_ignores_names_refuted.
Print Assumptions IdcaProps.C65_mapping_of_constructor.
Print Assumptions IdcaProps.C65_given_availability_refuted.
Print Assumptions IdcaProps.C65_fill_by_type.
Print Assumptions LabelProps.C54_sorted.
Print Assumptions LabelProps.C54_above_all_refuted.
Print Assumptions LabelProps.C54_unsorted.
Print Assumptions LabelProps.C54_unsorted_right_iff.
Print Assumptions LabelProps.C54_unsorted_refuted.
Print Assumptions LabelProps.C54_unsorted_above_refuted.
Print Assumptions LabelProps.C54_duplicates_raise.
Print Assumptions LabelProps.C57_one_hot.
Print Assumptions LabelProps.C57_empty_raises.
Print Assumptions LabelProps.C57_compress_expand.
Print Assumptions LabelProps.C57_ids.
Print Assumptions LabelProps.C57_expansion_inplace.
Print Assumptions LabelProps.C57_drop_keeps_column_refuted.
Print Assumptions LabelProps.C57_single_column_refuted.
Print Assumptions LcProps.C43_probability_is_mixture.
Print Assumptions LcProps.C43_distribution.
Print Assumptions LcProps.C43_loglike.
Print Assumptions LcProps.C43_gradient.
Print Assumptions LcProps.C43_class_names_refuted.
Print Assumptions LcProps.C43_negative_stop_refuted.
Print Assumptions LcProps.C45_gradient.
Print Assumptions LcProps.C45_nested_logit_bhhh.
Print Assumptions LcProps.C45_latent_class_bhhh_partial.
Print Assumptions LcProps.C45_latent_class_bhhh_fourfold_refuted.
Print Assumptions LcSyncProps.C61_set_value_reaches_all_parts_partial.
Print Assumptions LcSyncProps.C61_first_value_wins_partial.
Print Assumptions LcSyncProps.C61_given_frame_is_not_shared_refuted.
Print Assumptions LcSyncProps.C61_new_parameters_never_appear_refuted.
Print Assumptions LinProps.C41_meaning_partial.
Print Assumptions LinProps.C41_value_unique.
Print Assumptions LinProps.C41_zero_minus_parameter_refuted.
Print Assumptions LinProps.C41_double_zero_refuted.
Print Assumptions LinProps.C41_parameter_times_component_refuted.
Print Assumptions LinProps.C41_negative_base_refuted.
Print Assumptions LinProps.C41_null_parameter_refuted.
Print Assumptions LinProps.C41_boolean_product_refuted.
Print Assumptions LinProps.C42_value_partial.
Print Assumptions LinProps.C42_printed_partial.
Print Assumptions LinProps.C42_prints.
Print Assumptions LinProps.C42_printed_subtraction_refuted.
Print Assumptions LinProps.C42_printed_division_refuted.
Print Assumptions LogitExProps.C07_root_logsum_refuted.
Print Assumptions LogitExProps.C07_shared_logsum_refuted.
Print Assumptions LogitExProps.C01_cross_nested_refuted.
Print Assumptions LogitProps.C01_probabilities_sum_to_one.
Print Assumptions LogitProps.C01_none_available.
Print Assumptions LogitProps.C02_probability_bounds.
Print Assumptions LogitProps.C03_logsum.
Print Assumptions LogitProps.C03_alternative_utility.
Print Assumptions LogitProps.C03_mu_zero_value.
Print Assumptions LogitProps.C03_mu_zero_max_refuted.
Print Assumptions LogitProps.C05_collapse_to_mnl.
Print Assumptions LogitProps.C04_mnl_closed_form.
Print Assumptions LogitProps.C04_translation_invariance.
Print Assumptions LogitProps.C06_loglike.
Print Assumptions LogitProps.C06_chosen_unavailable.
Print Assumptions LogitProps.C07_gradient_partial.
Print Assumptions LogitProps.C08_bhhh_symmetric_psd.
Print Assumptions LogitProps.C08_single_choice_outer_product.
Print Assumptions LogitProps.C08_bhhh_outer_of_gradient_partial.
Print Assumptions LogitProps.C09_iia.
Print Assumptions LogitProps.C10_availability_cascade.
Print Assumptions LogitProps.C10_choice_cascade.
Print Assumptions NetEx2Props.C63_root_logsum_refuted.
Print Assumptions NetEx3Props.C63_two_parent_nest_refuted.
Print Assumptions NetExProps.C63_arrays_from_graph.
Print Assumptions NetExProps.C63_engines_agree.
Print Assumptions NetExProps.C63_engines_agree_gradient_partial.
Print Assumptions NetProps.C63_logsum.
Print Assumptions NetProps.C63_probabilities.
Print Assumptions NetProps.C63_none_available.
Print Assumptions NetProps.C63_loglike.
Print Assumptions NetProps.C63_unavailable_dprob_nan_refuted.
Print Assumptions NetProps.C63_gradient_partial.
Print Assumptions NetProps.C63_dutility_dprobability_partial.
Print Assumptions NetProps.C63_translation.
Print Assumptions NetProps.C63_translation_gradient_partial.
Print Assumptions ParamProps.C25_array_sets_free.
Print Assumptions ParamProps.C25_array_sets_all.
Print Assumptions ParamProps.C25_bad_array_changes_nothing.
Print Assumptions ParamProps.C25_keywords.
Print Assumptions ParamProps.C25_no_best_raises.
Print Assumptions ParamProps.C25_scalar.
Print Assumptions ParamProps.C25_dict.
Print Assumptions ParamProps.C25_nan_accepted_refuted.
Print Assumptions ParamProps.C25_early_set_value_holds_refuted.
Print Assumptions ParamProps.C26_ensure_names.
Print Assumptions ParamProps.C26_full_scan.
Print Assumptions ParamProps.C26_order_independent.
Print Assumptions ParamProps.C26_order_kept_refuted.
Print Assumptions ParamProps.C27_locked_stays_locked.
Print Assumptions ParamProps.C27_locked_value.
Print Assumptions ParamProps.C27_override_refuted.
Print Assumptions ParamProps.C28_cap_is_intersection_partial.
Print Assumptions ParamProps.C28_every_row.
Print Assumptions ParamProps.C28_missing_bounds.
Print Assumptions ParamProps.C28_one_missing_bound_refuted.
Print Assumptions ParamProps.C29_loglike_null_restores.
Print Assumptions ParamProps.C29_stale_null_refuted.
Print Assumptions ParamProps.C29_nan_not_restored_refuted.
Print Assumptions ParamProps.C29_likelihood_ratio_one.
Print Assumptions ParamProps.C29_likelihood_ratio_all.
Print Assumptions ParamProps.C30_best_is_best.
Print Assumptions ParamProps.C30_restores_best.
Print Assumptions ParamProps.C30_cython_partial.
Print Assumptions ParamProps.C30_cython_folds_refuted.
Print Assumptions PenaltyProps.C40_softplus_tracks_violation.
Print Assumptions PenaltyProps.C40_softplus_small_inside.
Print Assumptions PenaltyProps.C40_softplus_increasing_partial.
Print Assumptions PenaltyProps.C40_not_monotone_at_switch_refuted.
Print Assumptions PenaltyProps.C40_discontinuous_at_switch_refuted.
Print Assumptions PenaltyProps.C40_bounds_gradient_exact_partial.
Print Assumptions PenaltyProps.C40_bounds_gradient_exact_when_feasible.
Print Assumptions PenaltyProps.C40_bounds_gradient_error.
Print Assumptions PenaltyProps.C40_penalty_not_positive.
Print Assumptions PenaltyProps.C40_penalty_small_when_feasible.
Print Assumptions PenaltyProps.C40_constraint_gradient_exact_partial.
Print Assumptions PenaltyProps.C40_fixed_bound_unsupported_refuted.
Print Assumptions PeriodProps.C75_labels.
Print Assumptions PeriodProps.C75_array_partial.
Print Assumptions PeriodProps.C75_length.
Print Assumptions PeriodProps.C75_one_label.
Print Assumptions PeriodProps.C75_nan.
Print Assumptions PeriodProps.C75_boundary.
Print Assumptions PeriodProps.C75_mapping_kept.
Print Assumptions PeriodProps.C75_mapping_changed_refuted.
Print Assumptions PeriodProps.C75_array_refuted.
Print Assumptions PickleProps.C72_restored.
Print Assumptions PickleProps.C72_same_answers.
Print Assumptions PickleProps.C72_same_as_original.
Print Assumptions PickleProps.C72_lives_on.
Print Assumptions PickleProps.C72_constraints_lost_refuted.
Print Assumptions PickleProps.C72_copy_refuted.
Print Assumptions PickleProps.C72_copy.
Print Assumptions PickleProps.C72_load_refuted.
Print Assumptions PieceProps.C51_legs_add_up.
Print Assumptions PieceProps.C51_within.
Print Assumptions PieceProps.C51_only_consecutive.
Print Assumptions PieceProps.C51_slope.
Print Assumptions PieceProps.C51_every_point_has_a_segment.
Print Assumptions PieceProps.C51_equal_parameters.
Print Assumptions PieceProps.C51_infer_roundtrip.
Print Assumptions PieceProps.C51_infer_sound.
Print Assumptions PieceProps.C51_unsorted_breaks_refuted.
Print Assumptions PvalProps.C74_answers.
Print Assumptions PvalProps.C74_raises.
Print Assumptions PvalProps.C74_always.
Print Assumptions PvalProps.C74_one_answer.
Print Assumptions PvalProps.C74_plain.
Print Assumptions PvalProps.C74_name_settles.
Print Assumptions PvalProps.C74_reference_refuted.
Print Assumptions PvalProps.C74_nested_list_refuted.
Print Assumptions PvalProps.C74_first_model.
Print Assumptions PvalProps.C74_dict_source_refuted.
Print Assumptions SchedProps.C62_totals.
Print Assumptions SchedProps.C62_rows.
Print Assumptions SchedProps.C62_dropped_rows.
Print Assumptions SchedProps.C62_deterministic.
Print Assumptions SchedProps.C62_leave_and_keep.
Print Assumptions SchedProps.C62_folds_add_up.
Print Assumptions SchedProps.C62_gradient_is_derivative.
Print Assumptions SchedProps.C62_negative_stop_refuted.
Print Assumptions SessProps.C66_answers_ignore_history.
Print Assumptions SessProps.C66_same_question_same_answer.
Print Assumptions SessProps.C66_settings_follow_operations.
Print Assumptions SessProps.C66_loglike_fits_probability.
Print Assumptions SessProps.C66_probability_rows_sum_to_one.
Print Assumptions SessProps.C66_held_probabilities.
Print Assumptions SessProps.C66_held_utilities.
Print Assumptions SessProps.C66_probabilities_spared.
Print Assumptions SessProps.C66_old_arrays_are_safe.
Print Assumptions SessProps.C66_copies_never_change.
Print Assumptions SessProps.C66_held_array_overwritten_refuted.
Print Assumptions SessProps.C66_quantity_overwrites_utility_refuted.
Print Assumptions SessProps.C66_slice_selects.
Print Assumptions SessProps.C66_slice_valid.
Print Assumptions SessProps.C66_slice_reversed.
Print Assumptions SessProps.C66_slice_rows.
Print Assumptions SessProps.C66_parts_add.
Print Assumptions SessProps.C66_interleaved_slices_share.
Print Assumptions SessProps.C66_cut_shares.
Print Assumptions SessProps.C66_documented_defaults_refuted.
Print Assumptions SessProps.C66_leave_out_ignored_refuted.
Print Assumptions SessProps.C66_penalty_counts_once_per_case.
Print Assumptions SessProps.C66_zero_penalty_squares_weights_refuted.
Print Assumptions SessProps.C66_quantity_is_size.
Print Assumptions SessProps.C66_absent_quantity_refuted.
Print Assumptions SessProps.C66_frames_are_labelled_rightly.
Print Assumptions SessProps.C66_quantity_slice_refuted.
Print Assumptions SessProps.C66_probability_dataarray_refuted.
Print Assumptions SessProps.C66_idce_refuted.
Print Assumptions SplitProps.C47_each_case_once.
Print Assumptions SplitProps.C47_equal_splits.
Print Assumptions SplitProps.C47_sizes.
Print Assumptions SplitProps.C47_simple_in_order.
Print Assumptions SplitProps.C47_shuffle_keeps_rows.
Print Assumptions SplitProps.C47_part_rows.
Print Assumptions SplitProps.C47_alternatives_follow.
Print Assumptions SplitProps.C47_renumbered.
Print Assumptions SplitProps.C47_nested_idca_refuted.
Print Assumptions SplitProps.C47_loglike_adds.
Print Assumptions SplitProps.C47_normalization_lost_refuted.
Print Assumptions SplitProps.C47_single_part_raises.
Print Assumptions StatProps.C70_values_kept.
Print Assumptions StatProps.C70_standard_errors.
Print Assumptions StatProps.C70_unconstrained.
Print Assumptions StatProps.C70_constraints_never_widen.
Print Assumptions StatProps.C70_held.
Print Assumptions StatProps.C70_notes.
Print Assumptions StatProps.C70_notes_true.
Print Assumptions StatProps.C70_at_bound.
Print Assumptions StatProps.C70_likelihood_ratios.
Print Assumptions StatProps.C70_held_looks_significant_refuted.
Print Assumptions StatProps.C70_quiet_keeps_notes.
Print Assumptions StatProps.C70_note_stale_refuted.
Print Assumptions StatProps.C70_robust_ignores_binding_refuted.
Print Assumptions StatProps.C70_null_at_bound_refuted.
Print Assumptions StatProps.C70_no_bhhh_refuted.
Print Assumptions SumProps.C71_multinomial.
Print Assumptions SumProps.C71_total_is_cases.
Print Assumptions SumProps.C71_chosen_but_not_available.
Print Assumptions SumProps.C71_nested.
Print Assumptions SumProps.C71_nested_not_available.
Print Assumptions SumProps.C71_not_available_total_refuted.
Print Assumptions SumProps.C71_incomplete_data_refuted.
Print Assumptions SumProps.C71_weights_raise_refuted.
Print Assumptions SumProps.C71_weighted_not_available_raises_refuted.
Print Assumptions SumProps.C71_weights_misplaced_refuted.
Print Assumptions SumProps.C71_labels_by_position_refuted.
Print Assumptions TableProps.C73_ordered_table.
Print Assumptions TableProps.C73_one_place.
Print Assumptions TableProps.C73_no_ordering.
Print Assumptions TableProps.C73_ordering.
Print Assumptions TableProps.C73_significance.
Print Assumptions TableProps.C73_marks_agree.
Print Assumptions TableProps.C73_joint_rows.
Print Assumptions TableProps.C73_joint_cells.
Print Assumptions TableProps.C73_same_title_refuted.
Print Assumptions TouchProps.C67_changes_take_effect.
Print Assumptions TouchProps.C67_nothing_compiled.
Print Assumptions TouchProps.C67_force_repairs.
Print Assumptions TouchProps.C67_evaluation_keeps_settings.
Print Assumptions TouchProps.C67_set_value.
Print Assumptions TouchProps.C67_settings_are_stored.
Print Assumptions TouchProps.C67_assigned_functions.
Print Assumptions TouchProps.C67_assigned_entries.
Print Assumptions TouchProps.C67_assigned_dict.
Print Assumptions TouchProps.C67_edited_functions.
Print Assumptions TouchProps.C67_remove_unused.
Print Assumptions TouchProps.C67_constraints_apply_to_names.
Print Assumptions TouchProps.C67_constraint_added.
Print Assumptions TouchProps.C67_sorted_frame.
Print Assumptions TouchProps.C67_frame_and_constraints_stored.
Print Assumptions TouchProps.C67_weight_unheard_refuted.
Print Assumptions TouchProps.C67_weight_cleared_unheard_refuted.
Print Assumptions TouchProps.C67_choice_unheard_refuted.
Print Assumptions TouchProps.C67_availability_unheard_refuted.
Print Assumptions TouchProps.C67_dicts_unheard_refuted.
Print Assumptions TouchProps.C67_dict_assigned_again_unheard_refuted.
Print Assumptions TouchProps.C67_functions_unheard_refuted.
Print Assumptions TouchProps.C67_refused_assignment_unheard_refuted.
Print Assumptions TouchProps.C67_node_parameter_unheard_refuted.
Print Assumptions TouchProps.C67_new_data_unheard_refuted.
Print Assumptions TouchProps.C67_dataset_refuted.
Print Assumptions TouchProps.C67_shared_function_refuted.
Print Assumptions TouchProps.C67_flow_names_refuted.
Print Assumptions TouchProps.C67_constraint_moves_refuted.
Print Assumptions TouchProps.C67_refused_constraint_refuted.
Print Assumptions TouchProps.C67_scale_without_quantity_refuted.
Print Assumptions TouchProps.C67_parameter_None_refuted.
Print Assumptions TouchProps.C67_remove_unused_refuted.
Print Assumptions TreeLogitProps.C20_kernel_arrays_from_graph.
Print Assumptions TreeProps.C18_standard_order.
Print Assumptions TreeProps.C18_elemental_order.
Print Assumptions TreeProps.C19_cycle_reported_refuted.
Print Assumptions TreeProps.C19_acyclic_no_error_partial.
Print Assumptions TreeProps.C20_slot_arrays.
Print Assumptions TreeProps.C21_no_orphans.
Print Assumptions TreeProps.C21_all_under_root.
Print Assumptions TreeProps.C21_explicit_link_drops_implied.
Print Assumptions TreeProps.C21_unknown_parent_refuted.
Print Assumptions TreeProps.C21_reroot_refuted.
Print Assumptions TreeProps.C22_fresh_code.
Print Assumptions TreeProps.C22_explicit_code.
Print Assumptions TreeProps.C22_rejected_unchanged.
Print Assumptions TreeProps.C23_caches_fresh_partial.
Print Assumptions TreeProps.C23_suggest_refuted.
Print Assumptions TreeProps.C23_bulk_add_refuted.
Print Assumptions TreeProps.C23_stale_suggestion_refuted.
Print Assumptions UtilityProps.C11_utility_is_linear.
Print Assumptions UtilityProps.C11_reported_derivative.
Print Assumptions UtilityProps.C11_derivative_is_derivative.
Print Assumptions UtilityProps.C12_sparse_equals_dense.
Print Assumptions UtilityProps.C12_same_results.
Print Assumptions UtilityProps.C12_unsorted_refuted.
Print Assumptions UtilityProps.C13_size_value.
Print Assumptions UtilityProps.C13_derivative_partial.
Print Assumptions UtilityProps.C13_held_derivative_zero.
Print Assumptions UtilityProps.C13_repeated_parameter_refuted.
Print Assumptions UtilityProps.C07_from_data_partial.
Print Assumptions UtilityProps.C07_held_gradient_zero.
Print Assumptions WtProps.C46_mass_unchanged.
Print Assumptions WtProps.C46_loglike_unchanged.
Print Assumptions WtProps.C46_average_one.
Print Assumptions WtProps.C46_totals.
Print Assumptions WtProps.C46_norm.
Print Assumptions WtProps.C46_again.
Print Assumptions WtProps.C46_unscale.
Print Assumptions WtProps.C46_unscale_embedded_refuted.
Print Assumptions WtProps.C46_total_weight.
Print Assumptions WtProps.C46_history.
Print Assumptions WtProps.C46_scale_without_weights_refuted.
Print Assumptions WtProps.C46_casewise_refuted.
