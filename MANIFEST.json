{
 "claims": [
  {
   "property": "C01",
   "status": "proved",
   "theorems": [
    "C01_step_counts",
    "C01_reference_counts"
   ],
   "note": ""
  },
  {
   "property": "C02",
   "status": "proved",
   "theorems": [
    "C02_scalar_array_agree_refuted",
    "C02_scalar_array_agree_partial",
    "C02_argument_kinds"
   ],
   "note": "The unconditional property is refuted (see the _refuted theorem); the true part and the exact faulty behaviour are proved."
  },
  {
   "property": "C03",
   "status": "proved",
   "theorems": [
    "C03_steps_staircase"
   ],
   "note": ""
  },
  {
   "property": "C04",
   "status": "proved",
   "theorems": [
    "C04_step_terminates",
    "C04_step_nan_hangs",
    "C04_steps_nan_hangs"
   ],
   "note": ""
  },
  {
   "property": "C05",
   "status": "proved",
   "theorems": [
    "C05_construct_sorted",
    "C05_construct_order_independent"
   ],
   "note": ""
  },
  {
   "property": "C06",
   "status": "proved",
   "theorems": [
    "C06_make_1d_shapes",
    "C06_constructor_dispatch",
    "C06_constructor_exact"
   ],
   "note": ""
  },
  {
   "property": "C07",
   "status": "proved",
   "theorems": [
    "C07_spacings"
   ],
   "note": ""
  },
  {
   "property": "C08",
   "status": "proved",
   "theorems": [
    "C08_reads_pure",
    "C08_originals_isolated",
    "C08_steps_fresh_after_write_refuted"
   ],
   "note": "The unconditional property is refuted (see the _refuted theorem); the true part and the exact faulty behaviour are proved."
  },
  {
   "property": "C09",
   "status": "proved",
   "theorems": [
    "C09_labels_one_end",
    "C09_fails_only_empty"
   ],
   "note": ""
  },
  {
   "property": "C10",
   "status": "proved",
   "theorems": [
    "C10_trim_iterations",
    "C10_max_trim_respected"
   ],
   "note": ""
  },
  {
   "property": "C11",
   "status": "proved",
   "theorems": [
    "C11_rows_shrink_partial",
    "C11_rows_shrink_refuted"
   ],
   "note": "The unconditional property is refuted (see the _refuted theorem); the true part and the exact faulty behaviour are proved."
  },
  {
   "property": "C12",
   "status": "proved",
   "theorems": [
    "C12_trim_indices_inclusive",
    "C12_documented_slice_refuted"
   ],
   "note": "The unconditional property is refuted (see the _refuted theorem); the true part and the exact faulty behaviour are proved."
  },
  {
   "property": "C13",
   "status": "proved",
   "theorems": [
    "C13_percentages_add_up",
    "C13_percentages_ties_refuted"
   ],
   "note": "The unconditional property is refuted (see the _refuted theorem); the true part and the exact faulty behaviour are proved."
  },
  {
   "property": "C14",
   "status": "proved",
   "theorems": [
    "C14_score"
   ],
   "note": ""
  },
  {
   "property": "C15",
   "status": "proved",
   "theorems": [
    "C15_fails",
    "C15_selection_partial",
    "C15_selection_refuted"
   ],
   "note": "The unconditional property is refuted (see the _refuted theorem); the true part and the exact faulty behaviour are proved."
  },
  {
   "property": "C16",
   "status": "proved",
   "theorems": [
    "C16_best_overall_refuted",
    "C16_get_best_trimmed_refuted",
    "C16_get_best_trimmed_any_refuted"
   ],
   "note": "The unconditional property is refuted (see the _refuted theorem); the true part and the exact faulty behaviour are proved."
  },
  {
   "property": "C17",
   "status": "proved",
   "theorems": [
    "C17_trim_manually",
    "C17_use_trim_iteration"
   ],
   "note": ""
  },
  {
   "property": "C18",
   "status": "proved",
   "theorems": [
    "C18_marchenko_pastur",
    "C18_missing_sizes"
   ],
   "note": ""
  },
  {
   "property": "C19",
   "status": "proved",
   "theorems": [
    "C19_zero_trimming",
    "C19_corner_cases"
   ],
   "note": ""
  },
  {
   "property": "C20",
   "status": "proved",
   "theorems": [
    "C20_transpose_trick",
    "C20_direct_matrix_entries"
   ],
   "note": ""
  },
  {
   "property": "C21",
   "status": "proved",
   "theorems": [
    "C21_returns_small_entries",
    "C21_from_correlations_refuted"
   ],
   "note": "The unconditional property is refuted (see the _refuted theorem); the true part and the exact faulty behaviour are proved."
  },
  {
   "property": "C22",
   "status": "proved",
   "theorems": [
    "C22_correlate_fast"
   ],
   "note": ""
  },
  {
   "property": "C23",
   "status": "proved",
   "theorems": [
    "C23_matrices",
    "C23_full_entries"
   ],
   "note": ""
  },
  {
   "property": "C24",
   "status": "proved",
   "theorems": [
    "C24_same_scale_refuted"
   ],
   "note": "The unconditional property is refuted (see the _refuted theorem); the true part and the exact faulty behaviour are proved."
  },
  {
   "property": "C25",
   "status": "proved",
   "theorems": [
    "C25_seed_reproducible",
    "C25_no_seed_only_advances_partial",
    "C25_no_seed_poisson_refuted",
    "C25_generated_ascending"
   ],
   "note": "The unconditional property is refuted (see the _refuted theorem); the true part and the exact faulty behaviour are proved."
  },
  {
   "property": "C26",
   "status": "proved",
   "theorems": [
    "C26_semicircle_unfolding"
   ],
   "note": ""
  },
  {
   "property": "C27",
   "status": "proved",
   "theorems": [
    "C27_poisson_unfolding_refuted"
   ],
   "note": "The unconditional property is refuted (see the _refuted theorem); the true part and the exact faulty behaviour are proved."
  },
  {
   "property": "C28",
   "status": "proved",
   "theorems": [
    "C28_unfold_sorted",
    "C28_default_smoother",
    "C28_trimmed_keeps_order"
   ],
   "note": ""
  },
  {
   "property": "C29",
   "status": "proved",
   "theorems": [
    "C29_evaluate_smoother",
    "C29_evaluate_smoother_refuted"
   ],
   "note": "The unconditional property is refuted (see the _refuted theorem); the true part and the exact faulty behaviour are proved."
  },
  {
   "property": "C30",
   "status": "proved",
   "theorems": [
    "C30_emd_detrend_shifted_refuted",
    "C30_errors"
   ],
   "note": "The unconditional property is refuted (see the _refuted theorem); the true part and the exact faulty behaviour are proved."
  },
  {
   "property": "C31",
   "status": "proved",
   "theorems": [
    "C31_detrend_applied_twice_refuted"
   ],
   "note": "The unconditional property is refuted (see the _refuted theorem); the true part and the exact faulty behaviour are proved."
  },
  {
   "property": "C32",
   "status": "proved",
   "theorems": [
    "C32_at_most_once",
    "C32_result"
   ],
   "note": ""
  },
  {
   "property": "C33",
   "status": "proved",
   "theorems": [
    "C33_bad_arguments_raise",
    "C33_only_bad_arguments_raise"
   ],
   "note": ""
  },
  {
   "property": "C34",
   "status": "proved",
   "theorems": [
    "C34_columns_line_up",
    "C34_heuristic_names_refuted",
    "C34_names_distinct",
    "C34_names"
   ],
   "note": "The unconditional property is refuted (see the _refuted theorem); the true part and the exact faulty behaviour are proved."
  },
  {
   "property": "C35",
   "status": "proved",
   "theorems": [
    "C35_population_variance"
   ],
   "note": ""
  },
  {
   "property": "C36",
   "status": "proved",
   "theorems": [
    "C36_iterations",
    "C36_flag"
   ],
   "note": ""
  },
  {
   "property": "C37",
   "status": "proved",
   "theorems": [
    "C37_min_iters_refuted",
    "C37_minimum_100"
   ],
   "note": "The unconditional property is refuted (see the _refuted theorem); the true part and the exact faulty behaviour are proved."
  },
  {
   "property": "C38",
   "status": "proved",
   "theorems": [
    "C38_exact",
    "C38_binary64"
   ],
   "note": ""
  },
  {
   "property": "C39",
   "status": "proved",
   "theorems": [
    "C39_iterations",
    "C39_running_mean"
   ],
   "note": ""
  },
  {
   "property": "C40",
   "status": "proved",
   "theorems": [
    "C40_last_means",
    "C40_short_runs_refuted"
   ],
   "note": "The unconditional property is refuted (see the _refuted theorem); the true part and the exact faulty behaviour are proved."
  },
  {
   "property": "C41",
   "status": "proved",
   "theorems": [
    "C41_least_squares",
    "C41_recovers_line",
    "C41_constant_x"
   ],
   "note": ""
  },
  {
   "property": "C42",
   "status": "proved",
   "theorems": [
    "C42_trapezoid_exact",
    "C42_simpson_exact",
    "C42_simpson_cubic",
    "C42_linear",
    "C42_two_points_refuted"
   ],
   "note": "The unconditional property is refuted (see the _refuted theorem); the true part and the exact faulty behaviour are proved."
  },
  {
   "property": "C43",
   "status": "proved",
   "theorems": [
    "C43_nonnegative",
    "C43_defined",
    "C43_any_line",
    "C43_translation"
   ],
   "note": ""
  },
  {
   "property": "C44",
   "status": "proved",
   "theorems": [
    "C44_levelvariance",
    "C44_rigidity"
   ],
   "note": ""
  },
  {
   "property": "C45",
   "status": "proved",
   "theorems": [
    "C45_levelvariance_auto",
    "C45_rigidity_auto",
    "C45_no_L",
    "C45_levelvariance_limit",
    "C45_rigidity_limit"
   ],
   "note": ""
  },
  {
   "property": "C46",
   "status": "proved",
   "theorems": [
    "C46_laws",
    "C46_negative_refuted",
    "C46_sampled"
   ],
   "note": "The unconditional property is refuted (see the _refuted theorem); the true part and the exact faulty behaviour are proved."
  },
  {
   "property": "C47",
   "status": "proved",
   "theorems": [
    "C47_densities"
   ],
   "note": ""
  },
  {
   "property": "C48",
   "status": "proved",
   "theorems": [
    "C48_explicit",
    "C48_default"
   ],
   "note": ""
  },
  {
   "property": "C49",
   "status": "proved",
   "theorems": [
    "C49_poisson",
    "C49_relation",
    "C49_increasing",
    "C49_default_grid"
   ],
   "note": ""
  },
  {
   "property": "C50",
   "status": "proved",
   "theorems": [
    "C50_points",
    "C50_points_refuted"
   ],
   "note": "The unconditional property is refuted (see the _refuted theorem); the true part and the exact faulty behaviour are proved."
  },
  {
   "property": "C51",
   "status": "proved",
   "theorems": [
    "C51_law",
    "C51_endpoints",
    "C51_mean"
   ],
   "note": ""
  },
  {
   "property": "C52",
   "status": "proved",
   "theorems": [
    "C52_log_refuted"
   ],
   "note": "The unconditional property is refuted (see the _refuted theorem); the true part and the exact faulty behaviour are proved."
  },
  {
   "property": "C53",
   "status": "proved",
   "theorems": [
    "C53_dispatch",
    "C53_evaluate",
    "C53_unfolded"
   ],
   "note": ""
  },
  {
   "property": "C54",
   "status": "proved",
   "theorems": [
    "C54_mean_sq",
    "C54_mean_abs",
    "C54_permutes"
   ],
   "note": ""
  },
  {
   "property": "C55",
   "status": "proved",
   "theorems": [
    "C55_first_entry",
    "C55_base_refuted"
   ],
   "note": "The unconditional property is refuted (see the _refuted theorem); the true part and the exact faulty behaviour are proved."
  },
  {
   "property": "C56",
   "status": "proved",
   "theorems": [
    "C56_construct",
    "C56_lengths",
    "C56_unlabelled"
   ],
   "note": ""
  },
  {
   "property": "C57",
   "status": "proved",
   "theorems": [
    "C57_rows",
    "C57_rows_any",
    "C57_dimension"
   ],
   "note": ""
  },
  {
   "property": "C58",
   "status": "proved",
   "theorems": [
    "C58_mean",
    "C58_linear_refuted"
   ],
   "note": "The unconditional property is refuted (see the _refuted theorem); the true part and the exact faulty behaviour are proved."
  },
  {
   "property": "C59",
   "status": "proved",
   "theorems": [
    "C59_linear",
    "C59_affine",
    "C59_class_linear",
    "C59_difference",
    "C59_emd",
    "C59_quadratic"
   ],
   "note": ""
  },
  {
   "property": "C60",
   "status": "proved",
   "theorems": [
    "C60_effect",
    "C60_failure",
    "C60_missing_home_refuted"
   ],
   "note": "The unconditional property is refuted (see the _refuted theorem); the true part and the exact faulty behaviour are proved."
  },
  {
   "property": "C61",
   "status": "proved",
   "theorems": [
    "C61_saves",
    "C61_result",
    "C61_effects"
   ],
   "note": ""
  },
  {
   "property": "C62",
   "status": "proved",
   "theorems": [
    "C62_length",
    "C62_affine",
    "C62_quadratic"
   ],
   "note": ""
  },
  {
   "property": "C63",
   "status": "proved",
   "theorems": [
    "C63_increasing",
    "C63_inverse_refuted",
    "C63_what_it_inverts"
   ],
   "note": "The unconditional property is refuted (see the _refuted theorem); the true part and the exact faulty behaviour are proved."
  },
  {
   "property": "C64",
   "status": "proved",
   "theorems": [
    "C64_find_first_last"
   ],
   "note": ""
  },
  {
   "property": "C65",
   "status": "proved",
   "theorems": [
    "C65_names",
    "C65_matrix_kinds"
   ],
   "note": ""
  },
  {
   "property": "C66",
   "status": "proved",
   "theorems": [
    "C66_time_axis"
   ],
   "note": ""
  },
  {
   "property": "C67",
   "status": "proved",
   "theorems": [
    "C67_stored_endpoints_refuted"
   ],
   "note": "The unconditional property is refuted (see the _refuted theorem); the true part and the exact faulty behaviour are proved."
  },
  {
   "property": "C68",
   "status": "proved",
   "theorems": [
    "C68_spectrum_bounds"
   ],
   "note": ""
  },
  {
   "property": "C69",
   "status": "proved",
   "theorems": [
    "C69_correlate",
    "C69_lengths"
   ],
   "note": ""
  },
  {
   "property": "C70",
   "status": "proved",
   "theorems": [
    "C70_histogram_refuted"
   ],
   "note": "The unconditional property is refuted (see the _refuted theorem); the true part and the exact faulty behaviour are proved."
  },
  {
   "property": "C71",
   "status": "proved",
   "theorems": [
    "C71_mle_refuted"
   ],
   "note": "The unconditional property is refuted (see the _refuted theorem); the true part and the exact faulty behaviour are proved."
  },
  {
   "property": "C72",
   "status": "proved",
   "theorems": [
    "C72_counts",
    "C72_degenerate"
   ],
   "note": ""
  },
  {
   "property": "C73",
   "status": "proved",
   "theorems": [
    "C73_scores",
    "C73_gue_gse",
    "C73_defaults_refuted"
   ],
   "note": "The unconditional property is refuted (see the _refuted theorem); the true part and the exact faulty behaviour are proved."
  },
  {
   "property": "C74",
   "status": "proved",
   "theorems": [
    "C74_summary_table",
    "C74_repeated_smoother_refuted"
   ],
   "note": "The unconditional property is refuted (see the _refuted theorem); the true part and the exact faulty behaviour are proved."
  },
  {
   "property": "C75",
   "status": "proved",
   "theorems": [
    "C75_auto_provenance",
    "C75_auto_selects",
    "C75_auto_heuristic_refuted"
   ],
   "note": "The unconditional property is refuted (see the _refuted theorem); the true part and the exact faulty behaviour are proved."
  },
  {
   "property": "C76",
   "status": "proved",
   "theorems": [
    "C76_regex_columns"
   ],
   "note": ""
  },
  {
   "property": "C77",
   "status": "proved",
   "theorems": [
    "C77_figure",
    "C77_errors"
   ],
   "note": ""
  },
  {
   "property": "C78",
   "status": "proved",
   "theorems": [
    "C78_method_refuted"
   ],
   "note": "The unconditional property is refuted (see the _refuted theorem); the true part and the exact faulty behaviour are proved."
  },
  {
   "property": "C79",
   "status": "proved",
   "theorems": [
    "C79_figure",
    "C79_too_few"
   ],
   "note": ""
  },
  {
   "property": "C80",
   "status": "proved",
   "theorems": [
    "C80_figure",
    "C80_negatives_refuted"
   ],
   "note": "The unconditional property is refuted (see the _refuted theorem); the true part and the exact faulty behaviour are proved."
  },
  {
   "property": "C81",
   "status": "proved",
   "theorems": [
    "C81_never_drawn_refuted"
   ],
   "note": "The unconditional property is refuted (see the _refuted theorem); the true part and the exact faulty behaviour are proved."
  },
  {
   "property": "C82",
   "status": "proved",
   "theorems": [
    "C82_figure",
    "C82_scaling",
    "C82_scaling_refuted",
    "C82_columns"
   ],
   "note": "The unconditional property is refuted (see the _refuted theorem); the true part and the exact faulty behaviour are proved."
  },
  {
   "property": "C83",
   "status": "proved",
   "theorems": [
    "C83_figure",
    "C83_labels",
    "C83_reordered_refuted",
    "C83_repeated",
    "C83_columns"
   ],
   "note": "The unconditional property is refuted (see the _refuted theorem); the true part and the exact faulty behaviour are proved."
  },
  {
   "property": "C84",
   "status": "proved",
   "theorems": [
    "C84_staircase",
    "C84_equal_refuted",
    "C84_degenerate"
   ],
   "note": "The unconditional property is refuted (see the _refuted theorem); the true part and the exact faulty behaviour are proved."
  },
  {
   "property": "C85",
   "status": "proved",
   "theorems": [
    "C85_panels",
    "C85_one_panel_refuted",
    "C85_summary"
   ],
   "note": "The unconditional property is refuted (see the _refuted theorem); the true part and the exact faulty behaviour are proved."
  },
  {
   "property": "C86",
   "status": "proved",
   "theorems": [
    "C86_off_by_one_refuted"
   ],
   "note": "The unconditional property is refuted (see the _refuted theorem); the true part and the exact faulty behaviour are proved."
  },
  {
   "property": "C87",
   "status": "proved",
   "theorems": [
    "C87_panels",
    "C87_automatic",
    "C87_no_spacing"
   ],
   "note": ""
  },
  {
   "property": "C88",
   "status": "proved",
   "theorems": [
    "C88_variance",
    "C88_lengths",
    "C88_mismatch",
    "C88_rigidity",
    "C88_rigidity_data_refuted"
   ],
   "note": "The unconditional property is refuted (see the _refuted theorem); the true part and the exact faulty behaviour are proved."
  },
  {
   "property": "C89",
   "status": "proved",
   "theorems": [
    "C89_values",
    "C89_as_generate",
    "C89_which_matrix"
   ],
   "note": ""
  },
  {
   "property": "C90",
   "status": "proved",
   "theorems": [
    "C90_rows",
    "C90_perfect",
    "C90_negative_refuted"
   ],
   "note": "The unconditional property is refuted (see the _refuted theorem); the true part and the exact faulty behaviour are proved."
  },
  {
   "property": "C91",
   "status": "proved",
   "theorems": [
    "C91_middle",
    "C91_scale_refuted",
    "C91_fails"
   ],
   "note": "The unconditional property is refuted (see the _refuted theorem); the true part and the exact faulty behaviour are proved."
  },
  {
   "property": "C92",
   "status": "proved",
   "theorems": [
    "C92_level_variance",
    "C92_rigidity"
   ],
   "note": ""
  },
  {
   "property": "C93",
   "status": "proved",
   "theorems": [
    "C93_level_variance",
    "C93_rigidity_refuted"
   ],
   "note": "The unconditional property is refuted (see the _refuted theorem); the true part and the exact faulty behaviour are proved."
  },
  {
   "property": "C94",
   "status": "proved",
   "theorems": [
    "C94_inside",
    "C94_refuted"
   ],
   "note": "The unconditional property is refuted (see the _refuted theorem); the true part and the exact faulty behaviour are proved."
  },
  {
   "property": "C95",
   "status": "proved",
   "theorems": [
    "C95_lower_triangle_refuted",
    "C95_option_refuted"
   ],
   "note": "The unconditional property is refuted (see the _refuted theorem); the true part and the exact faulty behaviour are proved."
  },
  {
   "property": "C96",
   "status": "proved",
   "theorems": [
    "C96_square",
    "C96_not_square_refuted"
   ],
   "note": "The unconditional property is refuted (see the _refuted theorem); the true part and the exact faulty behaviour are proved."
  },
  {
   "property": "C97",
   "status": "proved",
   "theorems": [
    "C97_nd_find",
    "C97_flatten",
    "C97_variance"
   ],
   "note": ""
  },
  {
   "property": "C98",
   "status": "proved",
   "theorems": [
    "C98_steps",
    "C98_curves"
   ],
   "note": ""
  },
  {
   "property": "C99",
   "status": "proved",
   "theorems": [
    "C99_exact",
    "C99_mean",
    "C99_errors_fall"
   ],
   "note": ""
  },
  {
   "property": "C100",
   "status": "proved",
   "theorems": [
    "C100_affine",
    "C100_mirror"
   ],
   "note": ""
  },
  {
   "property": "C101",
   "status": "proved",
   "theorems": [
    "C101_pinned",
    "C101_default_refuted"
   ],
   "note": "The unconditional property is refuted (see the _refuted theorem); the true part and the exact faulty behaviour are proved."
  },
  {
   "property": "C102",
   "status": "proved",
   "theorems": [
    "C102_uniform",
    "C102_refused",
    "C102_implemented"
   ],
   "note": ""
  },
  {
   "property": "C103",
   "status": "proved",
   "theorems": [
    "C103_positional_refuted",
    "C103_keywords",
    "C103_errors"
   ],
   "note": "The unconditional property is refuted (see the _refuted theorem); the true part and the exact faulty behaviour are proved."
  },
  {
   "property": "C104",
   "status": "proved",
   "theorems": [
    "C104_constructor"
   ],
   "note": ""
  },
  {
   "property": "C105",
   "status": "proved",
   "theorems": [
    "C105_stripes"
   ],
   "note": ""
  },
  {
   "property": "C106",
   "status": "proved",
   "theorems": [
    "C106_sorted_figure"
   ],
   "note": ""
  },
  {
   "property": "C107",
   "status": "proved",
   "theorems": [
    "C107_time_series_eigs"
   ],
   "note": ""
  },
  {
   "property": "C108",
   "status": "proved",
   "theorems": [
    "C108_near_line",
    "C108_between",
    "C108_evenly_spaced",
    "C108_refuted"
   ],
   "note": "The unconditional property is refuted (see the _refuted theorem); the true part and the exact faulty behaviour are proved."
  },
  {
   "property": "C109",
   "status": "proved",
   "theorems": [
    "C109_grid",
    "C109_staircase",
    "C109_refuted"
   ],
   "note": "The unconditional property is refuted (see the _refuted theorem); the true part and the exact faulty behaviour are proved."
  },
  {
   "property": "C110",
   "status": "proved",
   "theorems": [
    "C110_centre",
    "C110_rigidity",
    "C110_half_open_refuted"
   ],
   "note": "The unconditional property is refuted (see the _refuted theorem); the true part and the exact faulty behaviour are proved."
  },
  {
   "property": "C111",
   "status": "proved",
   "theorems": [
    "C111_spacings"
   ],
   "note": ""
  },
  {
   "property": "C112",
   "status": "proved",
   "theorems": [
    "C112_rigidity_mean",
    "C112_level_variance"
   ],
   "note": ""
  },
  {
   "property": "C113",
   "status": "proved",
   "theorems": [
    "C113_matrix",
    "C113_too_small_refuted",
    "C113_time_axis_refuted"
   ],
   "note": "The unconditional property is refuted (see the _refuted theorem); the true part and the exact faulty behaviour are proved."
  },
  {
   "property": "C114",
   "status": "proved",
   "theorems": [
    "C114_ordered",
    "C114_small_L_refuted"
   ],
   "note": "The unconditional property is refuted (see the _refuted theorem); the true part and the exact faulty behaviour are proved."
  },
  {
   "property": "C115",
   "status": "proved",
   "theorems": [
    "C115_counts",
    "C115_complement_refuted"
   ],
   "note": "The unconditional property is refuted (see the _refuted theorem); the true part and the exact faulty behaviour are proved."
  },
  {
   "property": "C116",
   "status": "proved",
   "theorems": [
    "C116_mkdirp",
    "C116_make_directory_refuted"
   ],
   "note": "The unconditional property is refuted (see the _refuted theorem); the true part and the exact faulty behaviour are proved."
  },
  {
   "property": "C117",
   "status": "proved",
   "theorems": [
    "C117_agree",
    "C117_jump"
   ],
   "note": ""
  },
  {
   "property": "C118",
   "status": "proved",
   "theorems": [
    "C118_inner",
    "C118_outer_refuted",
    "C118_ties_refuted"
   ],
   "note": "The unconditional property is refuted (see the _refuted theorem); the true part and the exact faulty behaviour are proved."
  },
  {
   "property": "C119",
   "status": "proved",
   "theorems": [
    "C119_mean",
    "C119_bias",
    "C119_edge_refuted"
   ],
   "note": "The unconditional property is refuted (see the _refuted theorem); the true part and the exact faulty behaviour are proved."
  },
  {
   "property": "C120",
   "status": "proved",
   "theorems": [
    "C120_forwarding",
    "C120_spacings",
    "C120_defaults_refuted"
   ],
   "note": "The unconditional property is refuted (see the _refuted theorem); the true part and the exact faulty behaviour are proved."
  },
  {
   "property": "C121",
   "status": "proved",
   "theorems": [
    "C121_mean_square",
    "C121_expected_refuted",
    "C121_number_variance"
   ],
   "note": "The unconditional property is refuted (see the _refuted theorem); the true part and the exact faulty behaviour are proved."
  },
  {
   "property": "C122",
   "status": "proved",
   "theorems": [
    "C122_integrable",
    "C122_expected_refuted",
    "C122_delta_grid"
   ],
   "note": "The unconditional property is refuted (see the _refuted theorem); the true part and the exact faulty behaviour are proved."
  },
  {
   "property": "C123",
   "status": "proved",
   "theorems": [
    "C123_pandey",
    "C123_determined"
   ],
   "note": ""
  },
  {
   "property": "C124",
   "status": "proved",
   "theorems": [
    "C124_max_trim",
    "C124_boundary_refuted"
   ],
   "note": "The unconditional property is refuted (see the _refuted theorem); the true part and the exact faulty behaviour are proved."
  },
  {
   "property": "C125",
   "status": "proved",
   "theorems": [
    "C125_counts",
    "C125_level_variance",
    "C125_tie_refuted"
   ],
   "note": "The unconditional property is refuted (see the _refuted theorem); the true part and the exact faulty behaviour are proved."
  },
  {
   "property": "C126",
   "status": "proved",
   "theorems": [
    "C126_variances",
    "C126_goe_score_refuted"
   ],
   "note": "The unconditional property is refuted (see the _refuted theorem); the true part and the exact faulty behaviour are proved."
  },
  {
   "property": "C127",
   "status": "proved",
   "theorems": [
    "C127_exact",
    "C127_rate",
    "C127_limit",
    "C127_average"
   ],
   "note": ""
  },
  {
   "property": "C128",
   "status": "proved",
   "theorems": [
    "C128_error",
    "C128_delta_grid",
    "C128_documented"
   ],
   "note": ""
  },
  {
   "property": "C129",
   "status": "proved",
   "theorems": [
    "C129_error",
    "C129_consistent"
   ],
   "note": ""
  },
  {
   "property": "C130",
   "status": "proved",
   "theorems": [
    "C130_closed_form",
    "C130_evenly_spaced",
    "C130_sampled"
   ],
   "note": ""
  },
  {
   "property": "C131",
   "status": "proved",
   "theorems": [
    "C131_rigidity",
    "C131_level_variance"
   ],
   "note": ""
  },
  {
   "property": "C132",
   "status": "proved",
   "theorems": [
    "C132_gaps",
    "C132_binomial",
    "C132_nearest",
    "C132_next_nearest",
    "C132_next_nearest_refuted"
   ],
   "note": "The unconditional property is refuted (see the _refuted theorem); the true part and the exact faulty behaviour are proved."
  },
  {
   "property": "C133",
   "status": "proved",
   "theorems": [
    "C133_report",
    "C133_auto"
   ],
   "note": ""
  },
  {
   "property": "C134",
   "status": "proved",
   "theorems": [
    "C134_laplace",
    "C134_normal_refuted"
   ],
   "note": "The unconditional property is refuted (see the _refuted theorem); the true part and the exact faulty behaviour are proved."
  },
  {
   "property": "C135",
   "status": "proved",
   "theorems": [
    "C135_full",
    "C135_tridiagonal"
   ],
   "note": ""
  },
  {
   "property": "C136",
   "status": "proved",
   "theorems": [
    "C136_gue"
   ],
   "note": ""
  },
  {
   "property": "C137",
   "status": "proved",
   "theorems": [
    "C137_curve",
    "C137_intercept_refuted"
   ],
   "note": "The unconditional property is refuted (see the _refuted theorem); the true part and the exact faulty behaviour are proved."
  },
  {
   "property": "C138",
   "status": "proved",
   "theorems": [
    "C138_goe",
    "C138_gue",
    "C138_sign"
   ],
   "note": ""
  },
  {
   "property": "C139",
   "status": "proved",
   "theorems": [
    "C139_full",
    "C139_tridiagonal",
    "C139_gue",
    "C139_band"
   ],
   "note": ""
  },
  {
   "property": "C140",
   "status": "proved",
   "theorems": [
    "C140_correlations",
    "C140_covariances",
    "C140_unit_refuted"
   ],
   "note": "The unconditional property is refuted (see the _refuted theorem); the true part and the exact faulty behaviour are proved."
  },
  {
   "property": "C141",
   "status": "proved",
   "theorems": [
    "C141_tridiagonal",
    "C141_full",
    "C141_scale",
    "C141_zeros",
    "C141_band",
    "C141_full_refuted",
    "C141_gue"
   ],
   "note": "The unconditional property is refuted (see the _refuted theorem); the true part and the exact faulty behaviour are proved."
  },
  {
   "property": "C142",
   "status": "proved",
   "theorems": [
    "C142_noise",
    "C142_law"
   ],
   "note": ""
  },
  {
   "property": "C143",
   "status": "proved",
   "theorems": [
    "C143_raises",
    "C143_full_bins",
    "C143_counts",
    "C143_shifted",
    "C143_never_right_refuted",
    "C143_errors"
   ],
   "note": "The unconditional property is refuted (see the _refuted theorem); the true part and the exact faulty behaviour are proved."
  },
  {
   "property": "C144",
   "status": "proved",
   "theorems": [
    "C144_steps",
    "C144_one_column_refuted",
    "C144_defaults_refuted"
   ],
   "note": "The unconditional property is refuted (see the _refuted theorem); the true part and the exact faulty behaviour are proved."
  },
  {
   "property": "C145",
   "status": "proved",
   "theorems": [
    "C145_double_precision",
    "C145_edge_refuted"
   ],
   "note": "The unconditional property is refuted (see the _refuted theorem); the true part and the exact faulty behaviour are proved."
  },
  {
   "property": "C146",
   "status": "proved",
   "theorems": [
    "C146_sample",
    "C146_rigidity",
    "C146_small_window_refuted"
   ],
   "note": "The unconditional property is refuted (see the _refuted theorem); the true part and the exact faulty behaviour are proved."
  },
  {
   "property": "C147",
   "status": "proved",
   "theorems": [
    "C147_imports",
    "C147_elsewhere",
    "C147_windows_refuted",
    "C147_difference"
   ],
   "note": "The unconditional property is refuted (see the _refuted theorem); the true part and the exact faulty behaviour are proved."
  },
  {
   "property": "C148",
   "status": "proved",
   "theorems": [
    "C148_levelvariance",
    "C148_rigidity",
    "C148_counter_refuted",
    "C148_percentages",
    "C148_messages",
    "C148_platform",
    "C148_in_order",
    "C148_last_refuted",
    "C148_zeros_refuted",
    "C148_counted",
    "C148_percent_double",
    "C148_trim",
    "C148_kept"
   ],
   "note": "The unconditional property is refuted (see the _refuted theorem); the true part and the exact faulty behaviour are proved."
  },
  {
   "property": "C149",
   "status": "proved",
   "theorems": [
    "C149_rigidity",
    "C149_levelvar",
    "C149_levelvar_error",
    "C149_rigidity_method",
    "C149_variance_method",
    "C149_given_refuted",
    "C149_given",
    "C149_data"
   ],
   "note": "The unconditional property is refuted (see the _refuted theorem); the true part and the exact faulty behaviour are proved."
  },
  {
   "property": "C150",
   "status": "proved",
   "theorems": [
    "C150_generate",
    "C150_unfold",
    "C150_detrend",
    "C150_trimmed_refuted",
    "C150_generated",
    "C150_constructed_refuted",
    "C150_detrended",
    "C150_message_refuted"
   ],
   "note": "The unconditional property is refuted (see the _refuted theorem); the true part and the exact faulty behaviour are proved."
  },
  {
   "property": "C151",
   "status": "proved",
   "theorems": [
    "C151_full",
    "C151_tridiagonal",
    "C151_gue",
    "C151_band"
   ],
   "note": ""
  },
  {
   "property": "C152",
   "status": "proved",
   "theorems": [
    "C152_when",
    "C152_once",
    "C152_subclasses_refuted"
   ],
   "note": "The unconditional property is refuted (see the _refuted theorem); the true part and the exact faulty behaviour are proved."
  },
  {
   "property": "C153",
   "status": "proved",
   "theorems": [
    "C153_full",
    "C153_gue",
    "C153_odd",
    "C153_values",
    "C153_full_limit",
    "C153_gue_limit",
    "C153_band",
    "C153_ratio_refuted"
   ],
   "note": "The unconditional property is refuted (see the _refuted theorem); the true part and the exact faulty behaviour are proved."
  },
  {
   "property": "C154",
   "status": "proved",
   "theorems": [
    "C154_full",
    "C154_gue",
    "C154_unfold_refuted",
    "C154_gue_unfold_refuted",
    "C154_scaled"
   ],
   "note": "The unconditional property is refuted (see the _refuted theorem); the true part and the exact faulty behaviour are proved."
  },
  {
   "property": "C155",
   "status": "proved",
   "theorems": [
    "C155_symmetric",
    "C155_hermitian",
    "C155_routine",
    "C155_generate",
    "C155_unfolded"
   ],
   "note": ""
  },
  {
   "property": "C156",
   "status": "proved",
   "theorems": [
    "C156_columns",
    "C156_succeeds"
   ],
   "note": ""
  },
  {
   "property": "C157",
   "status": "proved",
   "theorems": [
    "C157_averages",
    "C157_same",
    "C157_law",
    "C157_unfold",
    "C157_density"
   ],
   "note": ""
  },
  {
   "property": "C158",
   "status": "proved",
   "theorems": [
    "C158_tridiagonal",
    "C158_full_refuted",
    "C158_construct",
    "C158_gue_refuted"
   ],
   "note": "The unconditional property is refuted (see the _refuted theorem); the true part and the exact faulty behaviour are proved."
  },
  {
   "property": "C159",
   "status": "proved",
   "theorems": [
    "C159_averages",
    "C159_law",
    "C159_trim",
    "C159_default"
   ],
   "note": ""
  },
  {
   "property": "C160",
   "status": "proved",
   "theorems": [
    "C160_law",
    "C160_trim",
    "C160_default",
    "C160_null"
   ],
   "note": ""
  },
  {
   "property": "C161",
   "status": "proved",
   "theorems": [
    "C161_nonneg",
    "C161_law",
    "C161_trim",
    "C161_default"
   ],
   "note": ""
  },
  {
   "property": "C162",
   "status": "proved",
   "theorems": [
    "C162_law",
    "C162_trim",
    "C162_default"
   ],
   "note": ""
  },
  {
   "property": "C163",
   "status": "proved",
   "theorems": [
    "C163_found",
    "C163_group",
    "C163_few",
    "C163_zero_trimming",
    "C163_sum"
   ],
   "note": ""
  },
  {
   "property": "C164",
   "status": "proved",
   "theorems": [
    "C164_found",
    "C164_sum",
    "C164_shift_refuted"
   ],
   "note": "The unconditional property is refuted (see the _refuted theorem); the true part and the exact faulty behaviour are proved."
  }
 ]
}