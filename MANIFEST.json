{
 "claims": [
  {
   "property": "C01",
   "status": "proved",
   "theorems": [
    "C01_offered_column_varies"
   ],
   "note": ""
  },
  {
   "property": "C02",
   "status": "proved",
   "theorems": [
    "C02_offered_exactly",
    "C02_offered_sorted",
    "C02_two_rows_offer_nothing",
    "C02_documented_refuted",
    "C02_row_order_refuted"
   ],
   "note": ""
  },
  {
   "property": "C03",
   "status": "proved",
   "theorems": [
    "C03_caches_invisible",
    "C03_answers_mean"
   ],
   "note": ""
  },
  {
   "property": "C04",
   "status": "proved",
   "theorems": [
    "C04_proportion_of_occurring_value",
    "C04_proportion_of_absent_value",
    "C04_absent_value_refuted"
   ],
   "note": ""
  },
  {
   "property": "C05",
   "status": "proved",
   "theorems": [
    "C05_split_value_separates",
    "C05_exception_iff_not_splittable"
   ],
   "note": ""
  },
  {
   "property": "C06",
   "status": "proved",
   "theorems": [
    "C06_first_non_maximal_draw",
    "C06_some_draw_ends_the_loop"
   ],
   "note": ""
  },
  {
   "property": "C07",
   "status": "proved",
   "theorems": [
    "C07_children_partition_rows",
    "C07_split_node_partition_rows",
    "C07_nan_row_in_both_children_refuted",
    "C07_nan_row_always_in_both"
   ],
   "note": ""
  },
  {
   "property": "C08",
   "status": "proved",
   "theorems": [
    "C08_reported_count_exact",
    "C08_counts_add_up",
    "C08_nan_refuted"
   ],
   "note": ""
  },
  {
   "property": "C09",
   "status": "proved",
   "theorems": [
    "C09_sum_exact"
   ],
   "note": ""
  },
  {
   "property": "C10",
   "status": "proved",
   "theorems": [
    "C10_fresh_condition_exact",
    "C10_reused_condition_reports_old_node",
    "C10_reuse_refuted"
   ],
   "note": ""
  },
  {
   "property": "C11",
   "status": "proved",
   "theorems": [
    "C11_normalised_range",
    "C11_constant_target_nan"
   ],
   "note": ""
  },
  {
   "property": "C12",
   "status": "proved",
   "theorems": [
    "C12_normalisation_affine",
    "C12_unnormalise_affine",
    "C12_same_failures"
   ],
   "note": ""
  },
  {
   "property": "C13",
   "status": "proved",
   "theorems": [
    "C13_selected_rows_exact",
    "C13_conjunction",
    "C13_order_irrelevant",
    "C13_built_iff_known_variables",
    "C13_unclean_row_rejected",
    "C13_empty_condition_refuted"
   ],
   "note": ""
  },
  {
   "property": "C14",
   "status": "proved",
   "theorems": [
    "C14_in_sample_equals_out_of_sample",
    "C14_reached_nodes_agree",
    "C14_minus_inf_refuted"
   ],
   "note": ""
  },
  {
   "property": "C15",
   "status": "proved",
   "theorems": [
    "C15_most_recent_is_last_added",
    "C15_root_has_none"
   ],
   "note": ""
  },
  {
   "property": "C16",
   "status": "proved",
   "theorems": [
    "C16_proper_binary_tree",
    "C16_children_listed",
    "C16_leaf_count"
   ],
   "note": ""
  },
  {
   "property": "C17",
   "status": "proved",
   "theorems": [
    "C17_rows_in_exactly_one_leaf",
    "C17_no_empty_leaf"
   ],
   "note": ""
  },
  {
   "property": "C18",
   "status": "proved",
   "theorems": [
    "C18_walks_down_the_tree",
    "C18_unclean_row_predicts_zero",
    "C18_too_few_columns"
   ],
   "note": ""
  },
  {
   "property": "C19",
   "status": "proved",
   "theorems": [
    "C19_ensemble_rowwise",
    "C19_ensemble_concatenation",
    "C19_ensemble_pick",
    "C19_estimator_rowwise",
    "C19_estimator_concatenation",
    "C19_estimator_pick",
    "C19_tree_rowwise"
   ],
   "note": ""
  },
  {
   "property": "C20",
   "status": "proved",
   "theorems": [
    "C20_grow_then_prune_restores",
    "C20_predictions"
   ],
   "note": ""
  },
  {
   "property": "C21",
   "status": "proved",
   "theorems": [
    "C21_mutation_is_local"
   ],
   "note": ""
  },
  {
   "property": "C22",
   "status": "proved",
   "theorems": [
    "C22_prunable_nodes",
    "C22_only_stumps_unprunable"
   ],
   "note": ""
  },
  {
   "property": "C23",
   "status": "proved",
   "theorems": [
    "C23_prune_mutation_checked",
    "C23_grow_mutation_checked",
    "C23_proposals_never_rejected"
   ],
   "note": ""
  },
  {
   "property": "C24",
   "status": "proved",
   "theorems": [
    "C24_absent_node_rejected",
    "C24_half_done_prune",
    "C24_not_atomic_refuted"
   ],
   "note": ""
  },
  {
   "property": "C25",
   "status": "proved",
   "theorems": [
    "C25_current_values",
    "C25_set_value_ignored",
    "C25_set_value_refuted"
   ],
   "note": ""
  },
  {
   "property": "C26",
   "status": "proved",
   "theorems": [
    "C26_first_prediction",
    "C26_fails_after_first_grow",
    "C26_wrong_buffer_is_never_repaired"
   ],
   "note": ""
  },
  {
   "property": "C27",
   "status": "proved",
   "theorems": [
    "C27_in_sample_equals_out_of_sample"
   ],
   "note": ""
  },
  {
   "property": "C28",
   "status": "proved",
   "theorems": [
    "C28_update_y"
   ],
   "note": ""
  },
  {
   "property": "C29",
   "status": "proved",
   "theorems": [
    "C29_trees_say",
    "C29_running_prediction",
    "C29_gibbs_targets",
    "C29_pass_targets"
   ],
   "note": ""
  },
  {
   "property": "C30",
   "status": "proved",
   "theorems": [
    "C30_abandoned_step",
    "C30_abandoned_pass",
    "C30_forever",
    "C30_targets",
    "C30_drift_exists",
    "C30_refuted"
   ],
   "note": ""
  },
  {
   "property": "C31",
   "status": "proved",
   "theorems": [
    "C31_predicts_zero",
    "C31_no_target"
   ],
   "note": ""
  },
  {
   "property": "C32",
   "status": "proved",
   "theorems": [
    "C32_leaf_draw",
    "C32_posterior_unique"
   ],
   "note": ""
  },
  {
   "property": "C33",
   "status": "proved",
   "theorems": [
    "C33_sigma_draw",
    "C33_in_step"
   ],
   "note": ""
  },
  {
   "property": "C34",
   "status": "proved",
   "theorems": [
    "C34_opposite",
    "C34_opposite_sampled"
   ],
   "note": ""
  },
  {
   "property": "C35",
   "status": "proved",
   "theorems": [
    "C35_should_be",
    "C35_exact",
    "C35_exact_grow",
    "C35_exact_prune",
    "C35_bias",
    "C35_integrated_when_one",
    "C35_integrated_when_one_tree",
    "C35_integrated_refuted"
   ],
   "note": ""
  },
  {
   "property": "C36",
   "status": "proved",
   "theorems": [
    "C36_grow",
    "C36_prune",
    "C36_round_trip",
    "C36_opposite_refuted"
   ],
   "note": ""
  },
  {
   "property": "C37",
   "status": "proved",
   "theorems": [
    "C37_rule",
    "C37_effect",
    "C37_metropolis_refuted"
   ],
   "note": ""
  },
  {
   "property": "C38",
   "status": "proved",
   "theorems": [
    "C38_no_prune",
    "C38_frozen"
   ],
   "note": ""
  },
  {
   "property": "C39",
   "status": "proved",
   "theorems": [
    "C39_proposals_legal"
   ],
   "note": ""
  },
  {
   "property": "C40",
   "status": "proved",
   "theorems": [
    "C40_no_move_never_returns",
    "C40_two_row_training_sets",
    "C40_some_draw_returns"
   ],
   "note": ""
  },
  {
   "property": "C41",
   "status": "proved",
   "theorems": [
    "C41_visits",
    "C41_no_cut"
   ],
   "note": ""
  },
  {
   "property": "C42",
   "status": "proved",
   "theorems": [
    "C42_late_binding"
   ],
   "note": ""
  },
  {
   "property": "C43",
   "status": "proved",
   "theorems": [
    "C43_infinite",
    "C43_count",
    "C43_one_in_k",
    "C43_zero",
    "C43_fraction_refuted"
   ],
   "note": ""
  },
  {
   "property": "C44",
   "status": "proved",
   "theorems": [
    "C44_aligned",
    "C44_counts"
   ],
   "note": ""
  },
  {
   "property": "C45",
   "status": "proved",
   "theorems": [
    "C45_rates",
    "C45_rates_in_unit_interval"
   ],
   "note": ""
  },
  {
   "property": "C46",
   "status": "proved",
   "theorems": [
    "C46_stored_samples_never_change",
    "C46_sampling_run"
   ],
   "note": ""
  },
  {
   "property": "C47",
   "status": "proved",
   "theorems": [
    "C47_linked",
    "C47_refuted"
   ],
   "note": ""
  },
  {
   "property": "C48",
   "status": "proved",
   "theorems": [
    "C48_order",
    "C48_each_once",
    "C48_empty_cache"
   ],
   "note": ""
  },
  {
   "property": "C49",
   "status": "proved",
   "theorems": [
    "C49_predict_is_predict_train",
    "C49_fit_predict"
   ],
   "note": ""
  },
  {
   "property": "C50",
   "status": "proved",
   "theorems": [
    "C50_mean_of_samples",
    "C50_chain_order",
    "C50_count",
    "C50_one_in_k"
   ],
   "note": ""
  },
  {
   "property": "C51",
   "status": "proved",
   "theorems": [
    "C51_affine",
    "C51_reflected",
    "C51_degenerate"
   ],
   "note": ""
  },
  {
   "property": "C52",
   "status": "proved",
   "theorems": [
    "C52_fitted",
    "C52_never_fitted"
   ],
   "note": ""
  },
  {
   "property": "C53",
   "status": "proved",
   "theorems": [
    "C53_residuals",
    "C53_defined",
    "C53_squares",
    "C53_rmse_is_sum",
    "C53_training_residuals",
    "C53_root_mean_square_refuted"
   ],
   "note": ""
  },
  {
   "property": "C54",
   "status": "proved",
   "theorems": [
    "C54_unnormalized_residuals",
    "C54_without_normalisation"
   ],
   "note": ""
  },
  {
   "property": "C55",
   "status": "proved",
   "theorems": [
    "C55_models_hold_previous_samples",
    "C55_run_models",
    "C55_first_model_unusable",
    "C55_own_samples_refuted"
   ],
   "note": ""
  },
  {
   "property": "C56",
   "status": "proved",
   "theorems": [
    "C56_groups",
    "C56_chain_of_group",
    "C56_no_chains"
   ],
   "note": ""
  },
  {
   "property": "C57",
   "status": "proved",
   "theorems": [
    "C57_never_readable"
   ],
   "note": ""
  },
  {
   "property": "C58",
   "status": "proved",
   "theorems": [
    "C58_unfitted",
    "C58_predict_adds",
    "C58_error_is_tree_error",
    "C58_residuals_subtract_base_twice",
    "C58_ols",
    "C58_residuals_refuted"
   ],
   "note": ""
  },
  {
   "property": "C59",
   "status": "proved",
   "theorems": [
    "C59_samples_are_trees",
    "C59_used_columns",
    "C59_given_columns",
    "C59_sum",
    "C59_not_the_share",
    "C59_unfitted"
   ],
   "note": ""
  },
  {
   "property": "C60",
   "status": "proved",
   "theorems": [
    "C60_is_kept",
    "C60_kept_features",
    "C60_partition",
    "C60_missing_threshold"
   ],
   "note": ""
  },
  {
   "property": "C61",
   "status": "proved",
   "theorems": [
    "C61_cutoff",
    "C61_most_are_above",
    "C61_local_thresholds",
    "C61_documented_share_refuted",
    "C61_global_fails",
    "C61_out_of_range",
    "C61_in_range",
    "C61_interpolation",
    "C61_share",
    "C61_ends",
    "C61_monotone"
   ],
   "note": ""
  },
  {
   "property": "C62",
   "status": "proved",
   "theorems": [
    "C62_import",
    "C62_sklearn_prediction_unique",
    "C62_in_sample",
    "C62_first_prediction",
    "C62_other_objects",
    "C62_single_node",
    "C62_single_node_refuted",
    "C62_model"
   ],
   "note": ""
  },
  {
   "property": "C63",
   "status": "proved",
   "theorems": [
    "C63_perfect",
    "C63_covered",
    "C63_same_or_disjoint",
    "C63_partition_iff",
    "C63_step",
    "C63_accepted_grow",
    "C63_grow_ratio",
    "C63_prune_ratio",
    "C63_unsplittable_root",
    "C63_empty_prune",
    "C63_predict_last_leaf",
    "C63_predict_out_agrees",
    "C63_partition_refuted",
    "C63_oblivious_refuted"
   ],
   "note": ""
  },
  {
   "property": "C64",
   "status": "proved",
   "theorems": [
    "C64_tasks",
    "C64_scores",
    "C64_untrained",
    "C64_uneven_folds",
    "C64_original_errors"
   ],
   "note": ""
  },
  {
   "property": "C65",
   "status": "proved",
   "theorems": [
    "C65_models",
    "C65_estimators"
   ],
   "note": ""
  },
  {
   "property": "C66",
   "status": "proved",
   "theorems": [
    "C66_refused",
    "C66_constant_fit_stuck",
    "C66_step_failures",
    "C66_samples_failures",
    "C66_samples_possible",
    "C66_constant_data_stuck",
    "C66_fit_possible"
   ],
   "note": ""
  },
  {
   "property": "C69",
   "status": "proved",
   "theorems": [
    "C69_initialize_tree_raises",
    "C69_default_initializer_fails",
    "C69_base_initializer"
   ],
   "note": ""
  },
  {
   "property": "C70",
   "status": "proved",
   "theorems": [
    "C70_null_distribution",
    "C70_selection",
    "C70_roles_swapped",
    "C70_unfitted",
    "C70_other_methods",
    "C70_possible",
    "C70_n_trees",
    "C70_trees_per_sample"
   ],
   "note": ""
  },
  {
   "property": "C71",
   "status": "proved",
   "theorems": [
    "C71_split_mask",
    "C71_null_mask",
    "C71_transform",
    "C71_selects_columns_refuted"
   ],
   "note": ""
  },
  {
   "property": "C67",
   "status": "proved",
   "theorems": [
    "C67_monotone_recoding",
    "C67_non_strict_refuted"
   ],
   "note": ""
  },
  {
   "property": "C68",
   "status": "proved",
   "theorems": [
    "C68_backend"
   ],
   "note": ""
  },
  {
   "property": "C73",
   "status": "proved",
   "theorems": [
    "C73_refit"
   ],
   "note": ""
  },
  {
   "property": "C72",
   "status": "proved",
   "theorems": [
    "C72_grow",
    "C72_prune",
    "C72_only_possible_methods"
   ],
   "note": ""
  },
  {
   "property": "C74",
   "status": "proved",
   "theorems": [
    "C74_grow_probability",
    "C74_prune_probability",
    "C74_chance_unique",
    "C74_code_understates"
   ],
   "note": ""
  },
  {
   "property": "C75",
   "status": "proved",
   "theorems": [
    "C75_grow",
    "C75_prune",
    "C75_hastings_refuted"
   ],
   "note": ""
  },
  {
   "property": "C76",
   "status": "proved",
   "theorems": [
    "C76_tree_depth",
    "C76_no_trees",
    "C76_acceptance",
    "C76_acceptance_missing",
    "C76_sigma",
    "C76_sigma_has_no_units",
    "C76_residuals",
    "C76_unfitted",
    "C76_diagnostics"
   ],
   "note": ""
  },
  {
   "property": "C77",
   "status": "proved",
   "theorems": [
    "C77_criterion",
    "C77_first_row_kept",
    "C77_row_order_refuted"
   ],
   "note": ""
  },
  {
   "property": "C78",
   "status": "proved",
   "theorems": [
    "C78_no_growth",
    "C78_single_leaves",
    "C78_constant_predictions",
    "C78_acceptance_zero",
    "C78_otherwise",
    "C78_oblivious_no_growth",
    "C78_oblivious_single_leaves",
    "C78_oblivious_constant_predictions",
    "C78_oblivious_acceptance_zero"
   ],
   "note": ""
  },
  {
   "property": "C79",
   "status": "proved",
   "theorems": [
    "C79_selection",
    "C79_addresses",
    "C79_recording",
    "C79_fit"
   ],
   "note": ""
  },
  {
   "property": "C80",
   "status": "proved",
   "theorems": [
    "C80_burn_in",
    "C80_resumed",
    "C80_phase_refuted"
   ],
   "note": ""
  },
  {
   "property": "C81",
   "status": "proved",
   "theorems": [
    "C81_parameters",
    "C81_history",
    "C81_params_describe",
    "C81_clone",
    "C81_set",
    "C81_set_value",
    "C81_tree_sampler_ignored",
    "C81_never_grows",
    "C81_reported_sampler_refuted",
    "C81_extension_set",
    "C81_extension_clone",
    "C81_extension_clone_refuted"
   ],
   "note": ""
  },
  {
   "property": "C82",
   "status": "proved",
   "theorems": [
    "C82_left_over",
    "C82_reproducible",
    "C82_seed_ignored",
    "C82_reseeding_refuted"
   ],
   "note": ""
  },
  {
   "property": "C83",
   "status": "proved",
   "theorems": [
    "C83_unfitted",
    "C83_never_returns",
    "C83_type_error"
   ],
   "note": ""
  },
  {
   "property": "C84",
   "status": "proved",
   "theorems": [
    "C84_isolated",
    "C84_default_base",
    "C84_shared",
    "C84_independent_refuted"
   ],
   "note": ""
  },
  {
   "property": "C85",
   "status": "proved",
   "theorems": [
    "C85_grow",
    "C85_prune",
    "C85_large_noise",
    "C85_first_split"
   ],
   "note": ""
  },
  {
   "property": "C86",
   "status": "proved",
   "theorems": [
    "C86_trees",
    "C86_running_prediction",
    "C86_targets",
    "C86_drift_exists",
    "C86_abandoned_step",
    "C86_forever",
    "C86_visits",
    "C86_no_cut",
    "C86_rates",
    "C86_predict",
    "C86_aligned",
    "C86_stored",
    "C86_unsplittable_root",
    "C86_possible"
   ],
   "note": ""
  },
  {
   "property": "C87",
   "status": "proved",
   "theorems": [
    "C87_default_mask",
    "C87_sum",
    "C87_count",
    "C87_splittable",
    "C87_hidden_for_ever",
    "C87_unique",
    "C87_checked_refuted"
   ],
   "note": ""
  },
  {
   "property": "C88",
   "status": "proved",
   "theorems": [
    "C88_grow_ratio",
    "C88_prune_ratio",
    "C88_all_splittable",
    "C88_climbs",
    "C88_never_returns",
    "C88_stops",
    "C88_no_undo"
   ],
   "note": ""
  },
  {
   "property": "C89",
   "status": "proved",
   "theorems": [
    "C89_thin_zero",
    "C89_thin_infinite",
    "C89_new_rows",
    "C89_fit_possible",
    "C89_fit_unsplittable",
    "C89_predict_is_predict_train",
    "C89_mean_of_samples",
    "C89_chain_order",
    "C89_count",
    "C89_no_predictions",
    "C89_samples_are_states"
   ],
   "note": ""
  },
  {
   "property": "C90",
   "status": "proved",
   "theorems": [
    "C90_result",
    "C90_untrained",
    "C90_two_even_folds",
    "C90_possible"
   ],
   "note": ""
  },
  {
   "property": "C91",
   "status": "proved",
   "theorems": [
    "C91_same_side",
    "C91_no_extrapolation",
    "C91_grid",
    "C91_one_column"
   ],
   "note": ""
  },
  {
   "property": "C92",
   "status": "proved",
   "theorems": [
    "C92_fitted_trees",
    "C92_thresholds",
    "C92_constant_column",
    "C92_search_tree",
    "C92_size",
    "C92_stored_size"
   ],
   "note": ""
  },
  {
   "property": "C93",
   "status": "proved",
   "theorems": [
    "C93_defined",
    "C93_value",
    "C93_beats_constants",
    "C93_same_ranking",
    "C93_duplicated",
    "C93_units",
    "C93_extension"
   ],
   "note": ""
  },
  {
   "property": "C94",
   "status": "proved",
   "theorems": [
    "C94_affine",
    "C94_reflected",
    "C94_monotone_recoding",
    "C94_backend",
    "C94_refit"
   ],
   "note": ""
  },
  {
   "property": "C95",
   "status": "proved",
   "theorems": [
    "C95_constant_column",
    "C95_constant_column_oblivious"
   ],
   "note": ""
  },
  {
   "property": "C96",
   "status": "proved",
   "theorems": [
    "C96_column",
    "C96_probability",
    "C96_possible"
   ],
   "note": ""
  },
  {
   "property": "C97",
   "status": "proved",
   "theorems": [
    "C97_thresholds",
    "C97_same_side",
    "C97_no_extrapolation",
    "C97_grid",
    "C97_regions",
    "C97_size_refuted"
   ],
   "note": ""
  },
  {
   "property": "C98",
   "status": "proved",
   "theorems": [
    "C98_split_selection",
    "C98_null_selection",
    "C98_importance"
   ],
   "note": ""
  },
  {
   "property": "C99",
   "status": "proved",
   "theorems": [
    "C99_grow_ratio",
    "C99_prune_ratio",
    "C99_finite",
    "C99_climbs",
    "C99_never_returns",
    "C99_idle",
    "C99_stops_refuted"
   ],
   "note": ""
  },
  {
   "property": "C100",
   "status": "proved",
   "theorems": [
    "C100_selection",
    "C100_addresses",
    "C100_recording",
    "C100_fit",
    "C100_burn_in",
    "C100_resumed",
    "C100_phase_refuted"
   ],
   "note": ""
  },
  {
   "property": "C101",
   "status": "proved",
   "theorems": [
    "C101_normalised",
    "C101_order",
    "C101_exact_model",
    "C101_constant",
    "C101_missing",
    "C101_overflow",
    "C101_round_trip",
    "C101_empty",
    "C101_round_trip_refuted",
    "C101_distinct_refuted"
   ],
   "note": ""
  },
  {
   "property": "C102",
   "status": "proved",
   "theorems": [
    "C102_drift",
    "C102_handed",
    "C102_never_repaired",
    "C102_exact_refuted",
    "C102_repaired_refuted"
   ],
   "note": ""
  },
  {
   "property": "C103",
   "status": "proved",
   "theorems": [
    "C103_node_sum",
    "C103_spoilt",
    "C103_prediction",
    "C103_order_refuted"
   ],
   "note": ""
  },
  {
   "property": "C104",
   "status": "proved",
   "theorems": [
    "C104_column_order",
    "C104_column_order_oblivious",
    "C104_as_likely",
    "C104_as_likely_oblivious"
   ],
   "note": ""
  },
  {
   "property": "C105",
   "status": "proved",
   "theorems": [
    "C105_chains",
    "C105_chains_oblivious",
    "C105_in_sample",
    "C105_chain_order",
    "C105_chain_order_oblivious"
   ],
   "note": ""
  },
  {
   "property": "C106",
   "status": "proved",
   "theorems": [
    "C106_row_order",
    "C106_row_order_oblivious",
    "C106_no_ties",
    "C106_paired",
    "C106_ties_refuted",
    "C106_as_likely",
    "C106_as_likely_oblivious"
   ],
   "note": ""
  },
  {
   "property": "C107",
   "status": "proved",
   "theorems": [
    "C107_copied_columns",
    "C107_copied_columns_oblivious",
    "C107_same_reports",
    "C107_same_reports_oblivious",
    "C107_weight",
    "C107_weight_refuted"
   ],
   "note": ""
  },
  {
   "property": "C108",
   "status": "proved",
   "theorems": [
    "C108_accurate",
    "C108_exact_model",
    "C108_shrinks",
    "C108_no_noise",
    "C108_only_noise",
    "C108_missing",
    "C108_both_vanish",
    "C108_draw_exists"
   ],
   "note": ""
  },
  {
   "property": "C109",
   "status": "proved",
   "theorems": [
    "C109_scale",
    "C109_missing",
    "C109_overflow"
   ],
   "note": ""
  },
  {
   "property": "C110",
   "status": "proved",
   "theorems": [
    "C110_grow",
    "C110_prune",
    "C110_copies",
    "C110_large_noise",
    "C110_large_noise_prune"
   ],
   "note": ""
  },
  {
   "property": "C111",
   "status": "proved",
   "theorems": [
    "C111_accurate",
    "C111_exact_model",
    "C111_decision",
    "C111_vanishing_grow",
    "C111_vanishing_prune",
    "C111_exploding",
    "C111_missing",
    "C111_value_exists",
    "C111_vanishing_refuted"
   ],
   "note": ""
  },
  {
   "property": "C112",
   "status": "proved",
   "theorems": [
    "C112_grow",
    "C112_prune",
    "C112_decision",
    "C112_exact_model_grow",
    "C112_exact_model_prune",
    "C112_one_leaf",
    "C112_value_exists"
   ],
   "note": ""
  },
  {
   "property": "C113",
   "status": "proved",
   "theorems": [
    "C113_accurate",
    "C113_moderate",
    "C113_exact_model",
    "C113_shape",
    "C113_reported",
    "C113_overflow",
    "C113_zero_draw",
    "C113_missing",
    "C113_for_ever",
    "C113_draw_exists"
   ],
   "note": ""
  },
  {
   "property": "C114",
   "status": "proved",
   "theorems": [
    "C114_sum",
    "C114_right_sum",
    "C114_exact_sum",
    "C114_leaf",
    "C114_right_leaf",
    "C114_row",
    "C114_grow",
    "C114_prune",
    "C114_turn_exists"
   ],
   "note": ""
  },
  {
   "property": "C115",
   "status": "proved",
   "theorems": [
    "C115_accurate",
    "C115_rows",
    "C115_exact_model",
    "C115_missing",
    "C115_overflow",
    "C115_vanishing",
    "C115_each_row",
    "C115_predictions",
    "C115_value_exists"
   ],
   "note": ""
  },
  {
   "property": "C116",
   "status": "proved",
   "theorems": [
    "C116_not_scored",
    "C116_never_proposed",
    "C116_never_proposed_oblivious",
    "C116_applied",
    "C116_left_broken"
   ],
   "note": ""
  },
  {
   "property": "C117",
   "status": "proved",
   "theorems": [
    "C117_accurate",
    "C117_decision",
    "C117_exact_model_grow",
    "C117_exact_model_prune",
    "C117_exact_cut",
    "C117_impossible_cut",
    "C117_missing",
    "C117_exploding",
    "C117_vanishing_grow",
    "C117_nothing",
    "C117_value_exists"
   ],
   "note": ""
  },
  {
   "property": "C118",
   "status": "proved",
   "theorems": [
    "C118_same_rows",
    "C118_told_apart",
    "C118_told_apart_refuted",
    "C118_equivalence",
    "C118_nan",
    "C118_bounds"
   ],
   "note": ""
  },
  {
   "property": "C119",
   "status": "proved",
   "theorems": [
    "C119_stored",
    "C119_chains",
    "C119_predict",
    "C119_prior",
    "C119_possible"
   ],
   "note": ""
  },
  {
   "property": "C120",
   "status": "proved",
   "theorems": [
    "C120_ratio",
    "C120_decision",
    "C120_empty_side",
    "C120_empty_leaf",
    "C120_turn_exists"
   ],
   "note": ""
  },
  {
   "property": "C121",
   "status": "proved",
   "theorems": [
    "C121_floats",
    "C121_compare",
    "C121_order",
    "C121_merges",
    "C121_fit_keeps",
    "C121_fit_mixed",
    "C121_same_model",
    "C121_told_apart_refuted",
    "C121_splittable",
    "C121_mixed_bool"
   ],
   "note": ""
  },
  {
   "property": "C122",
   "status": "proved",
   "theorems": [
    "C122_normalised",
    "C122_order",
    "C122_wraps",
    "C122_as_floats",
    "C122_shift",
    "C122_constant",
    "C122_back",
    "C122_unsigned"
   ],
   "note": ""
  },
  {
   "property": "C123",
   "status": "proved",
   "theorems": [
    "C123_normalised",
    "C123_order",
    "C123_exact_model",
    "C123_constant",
    "C123_missing",
    "C123_overflow",
    "C123_round_trip",
    "C123_predictions",
    "C123_empty",
    "C123_round_trip_refuted",
    "C123_distinct_refuted"
   ],
   "note": ""
  },
  {
   "property": "C124",
   "status": "proved",
   "theorems": [
    "C124_numbers",
    "C124_as_floats",
    "C124_errors",
    "C124_as_floats_refuted"
   ],
   "note": ""
  },
  {
   "property": "C125",
   "status": "proved",
   "theorems": [
    "C125_same_numbers",
    "C125_narrow",
    "C125_left",
    "C125_right",
    "C125_new",
    "C125_new_refuted",
    "C125_rows"
   ],
   "note": ""
  }
 ]
}