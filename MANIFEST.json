{
 "claims": [
  {
   "property": "C01",
   "status": "proved",
   "theorems": [
    "C01_incidence_entries",
    "C01_incidence_proper",
    "C01_self_loop_refuted"
   ],
   "note": ""
  },
  {
   "property": "C02",
   "status": "proved",
   "theorems": [
    "C02_accepts_iff",
    "C02_index_error_iff",
    "C02_value_error_iff",
    "C02_outcomes"
   ],
   "note": ""
  },
  {
   "property": "C03",
   "status": "proved",
   "theorems": [
    "C03_triangle_column",
    "C03_triangle_signs"
   ],
   "note": ""
  },
  {
   "property": "C04",
   "status": "proved",
   "theorems": [
    "C04_boundary_zero_iff",
    "C04_boundary_zero_refuted"
   ],
   "note": ""
  },
  {
   "property": "C05",
   "status": "proved",
   "theorems": [
    "C05_exactly_the_three_cliques",
    "C05_presentation_independent",
    "C05_enumeration_order"
   ],
   "note": ""
  },
  {
   "property": "C06",
   "status": "proved",
   "theorems": [
    "C06_all_triangles",
    "C06_all_triangles_fails_iff",
    "C06_given_triangles",
    "C06_given_triangles_succeeds_iff",
    "C06_ascending_chain_complex",
    "C06_chain_complex_refuted"
   ],
   "note": ""
  },
  {
   "property": "C07",
   "status": "proved",
   "theorems": [
    "C07_selection",
    "C07_any_other_condition",
    "C07_missing_key",
    "C07_text_distance",
    "C07_documented_condition_refuted",
    "C07_descending_edge_refuted"
   ],
   "note": ""
  },
  {
   "property": "C08",
   "status": "proved",
   "theorems": [
    "C08_simplices",
    "C08_max_dim"
   ],
   "note": ""
  },
  {
   "property": "C09",
   "status": "proved",
   "theorems": [
    "C09_faces",
    "C09_faces_ordered",
    "C09_faces_count",
    "C09_faces_order_independent"
   ],
   "note": ""
  },
  {
   "property": "C10",
   "status": "proved",
   "theorems": [
    "C10_adjacency_failure_iff",
    "C10_adjacency_entries"
   ],
   "note": ""
  },
  {
   "property": "C11",
   "status": "proved",
   "theorems": [
    "C11_node_laplacian",
    "C11_degree_minus_adjacency"
   ],
   "note": ""
  },
  {
   "property": "C12",
   "status": "proved",
   "theorems": [
    "C12_lower_laplacian_entries"
   ],
   "note": ""
  },
  {
   "property": "C13",
   "status": "proved",
   "theorems": [
    "C13_upper_laplacian_entries",
    "C13_triangle_laplacian_diagonal"
   ],
   "note": ""
  },
  {
   "property": "C14",
   "status": "proved",
   "theorems": [
    "C14_symmetric_psd",
    "C14_quadratic_forms"
   ],
   "note": ""
  },
  {
   "property": "C15",
   "status": "proved",
   "theorems": [
    "C15_hodge_splits",
    "C15_ranks",
    "C15_rank0",
    "C15_hodge_rank2_refuted",
    "C15_annihilation_iff"
   ],
   "note": ""
  },
  {
   "property": "C16",
   "status": "proved",
   "theorems": [
    "C16_steps",
    "C16_wrong_length",
    "C16_linear",
    "C16_documented_count_refuted"
   ],
   "note": ""
  },
  {
   "property": "C17",
   "status": "proved",
   "theorems": [
    "C17_divergence",
    "C17_curl",
    "C17_linear",
    "C17_wrong_length"
   ],
   "note": ""
  },
  {
   "property": "C18",
   "status": "proved",
   "theorems": [
    "C18_curl_grad_iff",
    "C18_div_circulation_iff"
   ],
   "note": ""
  },
  {
   "property": "C19",
   "status": "proved",
   "theorems": [
    "C19_decomposition",
    "C19_orthogonal"
   ],
   "note": ""
  },
  {
   "property": "C20",
   "status": "proved",
   "theorems": [
    "C20_solver_independent",
    "C20_unique",
    "C20_linear",
    "C20_projections",
    "C20_closest"
   ],
   "note": ""
  },
  {
   "property": "C21",
   "status": "proved",
   "theorems": [
    "C21_energy"
   ],
   "note": ""
  },
  {
   "property": "C22",
   "status": "proved",
   "theorems": [
    "C22_incoherent_refuted",
    "C22_reader_refuted"
   ],
   "note": ""
  },
  {
   "property": "C23",
   "status": "proved",
   "theorems": [
    "C23_rounding",
    "C23_rounded_sum_refuted"
   ],
   "note": ""
  },
  {
   "property": "C24",
   "status": "proved",
   "theorems": [
    "C24_eigenpair_component_names",
    "C24_flow_component_names"
   ],
   "note": ""
  },
  {
   "property": "C25",
   "status": "proved",
   "theorems": [
    "C25_gradient_eigenpairs",
    "C25_curl_eigenpairs",
    "C25_harmonic_eigenpairs"
   ],
   "note": ""
  },
  {
   "property": "C26",
   "status": "proved",
   "theorems": [
    "C26_orthonormal_each",
    "C26_curl_gradient_orthonormal",
    "C26_orthonormal_all",
    "C26_eigenvalue_tolerance_refuted"
   ],
   "note": ""
  },
  {
   "property": "C27",
   "status": "proved",
   "theorems": [
    "C27_dimensions"
   ],
   "note": ""
  },
  {
   "property": "C28",
   "status": "proved",
   "theorems": [
    "C28_embeddings"
   ],
   "note": ""
  },
  {
   "property": "C29",
   "status": "proved",
   "theorems": [
    "C29_spectral_equals_least_squares"
   ],
   "note": ""
  },
  {
   "property": "C30",
   "status": "proved",
   "theorems": [
    "C30_method_always_fails",
    "C30_total_variance_function"
   ],
   "note": ""
  },
  {
   "property": "C31",
   "status": "proved",
   "theorems": [
    "C31_masks_partition",
    "C31_rejections"
   ],
   "note": ""
  },
  {
   "property": "C32",
   "status": "proved",
   "theorems": [
    "C32_ideal_filter_harmonic",
    "C32_ideal_filter_gradient_curl",
    "C32_shared_eigenvalue_refuted"
   ],
   "note": ""
  },
  {
   "property": "C33",
   "status": "proved",
   "theorems": [
    "C33_lowpass_is_regularised_minimiser"
   ],
   "note": ""
  },
  {
   "property": "C34",
   "status": "proved",
   "theorems": [
    "C34_lowpass_run",
    "C34_rejections"
   ],
   "note": ""
  },
  {
   "property": "C35",
   "status": "proved",
   "theorems": [
    "C35_grid_runs_complete",
    "C35_ls_type_one",
    "C35_ls_type_two",
    "C35_grid_denoise",
    "C35_grid_extraction",
    "C35_polynomial_filters_keep_components",
    "C35_rejections"
   ],
   "note": ""
  },
  {
   "property": "C36",
   "status": "proved",
   "theorems": [
    "C36_type_two_exact",
    "C36_nonsingular_laplacian_loses_a_mode",
    "C36_one_edge_refuted"
   ],
   "note": ""
  },
  {
   "property": "C37",
   "status": "proved",
   "theorems": [
    "C37_ls_parts",
    "C37_grid_parts",
    "C37_completes",
    "C37_ls_exact"
   ],
   "note": ""
  },
  {
   "property": "C38",
   "status": "proved",
   "theorems": [
    "C38_ls_keeps_both_runs",
    "C38_grid_one_dictionary",
    "C38_grid_gradient_run_lost",
    "C38_grid_keeps_both_runs_refuted"
   ],
   "note": ""
  },
  {
   "property": "C39",
   "status": "proved",
   "theorems": [
    "C39_history_is_the_last_run",
    "C39_rejected_component_wipes_history",
    "C39_failed_run_changes_nothing",
    "C39_ls_histories_are_persistent",
    "C39_one_dictionary_for_all_runs",
    "C39_grid_stale_entries"
   ],
   "note": ""
  },
  {
   "property": "C40",
   "status": "proved",
   "theorems": [
    "C40_grid_samples",
    "C40_low_pass_response"
   ],
   "note": ""
  },
  {
   "property": "C41",
   "status": "proved",
   "theorems": [
    "C41_power_iteration_value",
    "C41_rayleigh_quotients",
    "C41_equal_row_sums",
    "C41_estimates_largest_eigenvalue_refuted",
    "C41_no_triangles"
   ],
   "note": ""
  },
  {
   "property": "C42",
   "status": "proved",
   "theorems": [
    "C42_truncated_series",
    "C42_other_shapes"
   ],
   "note": ""
  },
  {
   "property": "C43",
   "status": "proved",
   "theorems": [
    "C43_stack",
    "C43_position_is_order_refuted",
    "C43_apply",
    "C43_single_edge_rejected"
   ],
   "note": ""
  },
  {
   "property": "C44",
   "status": "proved",
   "theorems": [
    "C44_nrmse"
   ],
   "note": ""
  },
  {
   "property": "C45",
   "status": "proved",
   "theorems": [
    "C45_logistic",
    "C45_negative_steepness",
    "C45_odds",
    "C45_logistic_real",
    "C45_odds_real",
    "C45_logistic_limits"
   ],
   "note": ""
  },
  {
   "property": "C46",
   "status": "proved",
   "theorems": [
    "C46_orders",
    "C46_kernel"
   ],
   "note": ""
  },
  {
   "property": "C47",
   "status": "proved",
   "theorems": [
    "C47_l2_estimates",
    "C47_component_ignored",
    "C47_rejections",
    "C47_curl_is_regularised_refuted"
   ],
   "note": ""
  },
  {
   "property": "C48",
   "status": "proved",
   "theorems": [
    "C48_observed_edges_kept",
    "C48_unobserved_edges",
    "C48_ratios"
   ],
   "note": ""
  },
  {
   "property": "C49",
   "status": "proved",
   "theorems": [
    "C49_l1_estimates"
   ],
   "note": ""
  },
  {
   "property": "C50",
   "status": "proved",
   "theorems": [
    "C50_power_noise",
    "C50_energy_of_the_noise"
   ],
   "note": ""
  },
  {
   "property": "C51",
   "status": "proved",
   "theorems": [
    "C51_column_names",
    "C51_network_meaning",
    "C51_read_csv",
    "C51_read_tntp",
    "C51_rejections"
   ],
   "note": ""
  },
  {
   "property": "C52",
   "status": "proved",
   "theorems": [
    "C52_row_order"
   ],
   "note": ""
  },
  {
   "property": "C53",
   "status": "proved",
   "theorems": [
    "C53_one_based_is_decremented",
    "C53_zero_id"
   ],
   "note": ""
  },
  {
   "property": "C54",
   "status": "proved",
   "theorems": [
    "C54_features_by_position",
    "C54_sorted_tables",
    "C54_own_row_refuted",
    "C54_tntp_features_by_position"
   ],
   "note": ""
  },
  {
   "property": "C55",
   "status": "proved",
   "theorems": [
    "C55_feature_cols",
    "C55_default_never_works"
   ],
   "note": ""
  },
  {
   "property": "C56",
   "status": "proved",
   "theorems": [
    "C56_columns",
    "C56_signs_ignored",
    "C56_round_trip",
    "C56_unsorted_columns_refuted",
    "C56_isolated_last_node_refuted"
   ],
   "note": ""
  },
  {
   "property": "C57",
   "status": "proved",
   "theorems": [
    "C57_coordinates",
    "C57_completes"
   ],
   "note": ""
  },
  {
   "property": "C58",
   "status": "proved",
   "theorems": [
    "C58_net_flow",
    "C58_ascending",
    "C58_no_file",
    "C58_unsorted_refuted"
   ],
   "note": ""
  },
  {
   "property": "C59",
   "status": "proved",
   "theorems": [
    "C59_listing",
    "C59_dispatch",
    "C59_no_folder",
    "C59_transportation_loads",
    "C59_transportation_coordinates",
    "C59_forex_flow",
    "C59_missing_file",
    "C59_paper",
    "C59_incidence_files",
    "C59_wsn"
   ],
   "note": ""
  },
  {
   "property": "C60",
   "status": "proved",
   "theorems": [
    "C60_edges",
    "C60_monotone_in_p",
    "C60_random_complex",
    "C60_monotone_in_threshold",
    "C60_same_seed_refuted"
   ],
   "note": ""
  },
  {
   "property": "C61",
   "status": "proved",
   "theorems": [
    "C61_positive_semidefinite",
    "C61_entries",
    "C61_spectrum",
    "C61_non_hc_ignored"
   ],
   "note": ""
  },
  {
   "property": "C62",
   "status": "proved",
   "theorems": [
    "C62_diagonal",
    "C62_default_never_works"
   ],
   "note": ""
  },
  {
   "property": "C63",
   "status": "proved",
   "theorems": [
    "C63_serialize"
   ],
   "note": ""
  },
  {
   "property": "C64",
   "status": "proved",
   "theorems": [
    "C64_normalize",
    "C64_constant"
   ],
   "note": ""
  },
  {
   "property": "C65",
   "status": "proved",
   "theorems": [
    "C65_split",
    "C65_rejects"
   ],
   "note": ""
  },
  {
   "property": "C66",
   "status": "proved",
   "theorems": [
    "C66_untrained",
    "C66_trained",
    "C66_parameters"
   ],
   "note": ""
  },
  {
   "property": "C67",
   "status": "proved",
   "theorems": [
    "C67_matern_matrix",
    "C67_prior_covariance",
    "C67_non_hc_refuted"
   ],
   "note": ""
  },
  {
   "property": "C68",
   "status": "proved",
   "theorems": [
    "C68_unknown_keyword",
    "C68_forwarding"
   ],
   "note": ""
  },
  {
   "property": "C69",
   "status": "proved",
   "theorems": [
    "C69_flow_colours",
    "C69_colour_list",
    "C69_empty_flow",
    "C69_empty_string",
    "C69_colour_names_refuted"
   ],
   "note": ""
  },
  {
   "property": "C70",
   "status": "proved",
   "theorems": [
    "C70_panels",
    "C70_nothing",
    "C70_unknown"
   ],
   "note": ""
  },
  {
   "property": "C71",
   "status": "proved",
   "theorems": [
    "C71_cases",
    "C71_direction",
    "C71_near_midpoint",
    "C71_moved"
   ],
   "note": ""
  },
  {
   "property": "C72",
   "status": "proved",
   "theorems": [
    "C72_without_coordinates",
    "C72_generated",
    "C72_with_coordinates"
   ],
   "note": ""
  },
  {
   "property": "C73",
   "status": "proved",
   "theorems": [
    "C73_feature_by_name",
    "C73_feature_default",
    "C73_stored_features"
   ],
   "note": ""
  },
  {
   "property": "C74",
   "status": "proved",
   "theorems": [
    "C74_defaults_are_shared",
    "C74_write_is_visible",
    "C74_complex_shares_with_builder",
    "C74_frame",
    "C74_defaults_are_distinct",
    "C74_independent_builders_refuted"
   ],
   "note": ""
  },
  {
   "property": "C75",
   "status": "proved",
   "theorems": [
    "C75_plots_refuse_without_run",
    "C75_edge_plot",
    "C75_cheb_plot"
   ],
   "note": ""
  },
  {
   "property": "C76",
   "status": "proved",
   "theorems": [
    "C76_correlation",
    "C76_history_entries",
    "C76_history_is_last_completed_call"
   ],
   "note": ""
  },
  {
   "property": "C77",
   "status": "proved",
   "theorems": [
    "C77_names",
    "C77_hyperparameters"
   ],
   "note": ""
  },
  {
   "property": "C78",
   "status": "proved",
   "theorems": [
    "C78_mode_after_predict",
    "C78_mode_before_predict",
    "C78_steps",
    "C78_training_mode_refuted"
   ],
   "note": ""
  },
  {
   "property": "C79",
   "status": "proved",
   "theorems": [
    "C79_trainer_matrices",
    "C79_eigenpairs_and_prior"
   ],
   "note": ""
  },
  {
   "property": "C80",
   "status": "proved",
   "theorems": [
    "C80_axes",
    "C80_current_axes",
    "C80_hodge_panels",
    "C80_eigenvector_panels",
    "C80_node_labels_refuted"
   ],
   "note": ""
  },
  {
   "property": "C81",
   "status": "proved",
   "theorems": [
    "C81_coordinates",
    "C81_inside",
    "C81_layout_kept",
    "C81_limits"
   ],
   "note": ""
  },
  {
   "property": "C82",
   "status": "proved",
   "theorems": [
    "C82_flow_dictionary",
    "C82_edges_argument",
    "C82_picture"
   ],
   "note": ""
  },
  {
   "property": "C83",
   "status": "proved",
   "theorems": [
    "C83_three_panels",
    "C83_sum",
    "C83_one_panel",
    "C83_no_component"
   ],
   "note": ""
  },
  {
   "property": "C84",
   "status": "proved",
   "theorems": [
    "C84_divergence_and_curl_carried",
    "C84_determined_by_divergence",
    "C84_kinds_of_flow"
   ],
   "note": ""
  },
  {
   "property": "C85",
   "status": "proved",
   "theorems": [
    "C85_components_exist",
    "C85_gradient_count",
    "C85_euler_count",
    "C85_forest",
    "C85_spectral_gap",
    "C85_default_tolerance_small_graphs",
    "C85_default_tolerance_refuted"
   ],
   "note": ""
  },
  {
   "property": "C86",
   "status": "proved",
   "theorems": [
    "C86_order",
    "C86_renumbering",
    "C86_reversal",
    "C86_reversal_of_curl_refuted"
   ],
   "note": ""
  },
  {
   "property": "C87",
   "status": "proved",
   "theorems": [
    "C87_predictive",
    "C87_determined",
    "C87_covariance",
    "C87_best",
    "C87_span",
    "C87_accepts",
    "C87_metrics",
    "C87_r2_coincides",
    "C87_r2_refuted"
   ],
   "note": ""
  },
  {
   "property": "C88",
   "status": "proved",
   "theorems": [
    "C88_points",
    "C88_filter_interpolates_logistic",
    "C88_divergence_free_flow_is_kept",
    "C88_plot",
    "C88_other_parts_are_removed_refuted"
   ],
   "note": ""
  },
  {
   "property": "C89",
   "status": "proved",
   "theorems": [
    "C89_linear",
    "C89_components",
    "C89_chebyshev"
   ],
   "note": ""
  },
  {
   "property": "C90",
   "status": "proved",
   "theorems": [
    "C90_lowpass_components",
    "C90_lowpass_smoothing"
   ],
   "note": ""
  },
  {
   "property": "C91",
   "status": "proved",
   "theorems": [
    "C91_order",
    "C91_chebyshev_order",
    "C91_renumbering",
    "C91_reversal",
    "C91_grid_reversal_refuted"
   ],
   "note": ""
  },
  {
   "property": "C92",
   "status": "proved",
   "theorems": [
    "C92_filters",
    "C92_chebyshev",
    "C92_kernels",
    "C92_embeddings",
    "C92_ideal_filter_refuted"
   ],
   "note": ""
  },
  {
   "property": "C93",
   "status": "proved",
   "theorems": [
    "C93_training_order",
    "C93_test_edges",
    "C93_test_order",
    "C93_labels",
    "C93_more_data",
    "C93_observed_edge"
   ],
   "note": ""
  },
  {
   "property": "C94",
   "status": "proved",
   "theorems": [
    "C94_order",
    "C94_renumbering",
    "C94_reversal",
    "C94_r2_refuted",
    "C94_constant_refuted",
    "C94_triangle_refuted"
   ],
   "note": ""
  },
  {
   "property": "C95",
   "status": "proved",
   "theorems": [
    "C95_part",
    "C95_signals",
    "C95_lowpass",
    "C95_gp",
    "C95_grid_refuted",
    "C95_l2_trend",
    "C95_l1_trend_refuted"
   ],
   "note": ""
  },
  {
   "property": "C96",
   "status": "proved",
   "theorems": [
    "C96_signals",
    "C96_filters",
    "C96_l2_trend",
    "C96_l1_trend",
    "C96_l1_interpolation",
    "C96_gp_targets",
    "C96_rounding_refuted"
   ],
   "note": ""
  },
  {
   "property": "C97",
   "status": "proved",
   "theorems": [
    "C97_l1_large_weight",
    "C97_l1_more_weight",
    "C97_interpolation_more_weight",
    "C97_interpolation_large_weight",
    "C97_l2_weight"
   ],
   "note": ""
  },
  {
   "property": "C98",
   "status": "proved",
   "theorems": [
    "C98_l2_order",
    "C98_l1_order",
    "C98_interpolation_order",
    "C98_l2_renumbering",
    "C98_l1_renumbering",
    "C98_reversal",
    "C98_correlation_refuted"
   ],
   "note": ""
  },
  {
   "property": "C99",
   "status": "proved",
   "theorems": [
    "C99_polynomial_filters",
    "C99_chebyshev",
    "C99_shifts",
    "C99_lowpass_refuted",
    "C99_lowpass_decay",
    "C99_row_sums"
   ],
   "note": ""
  }
 ]
}