{
 "claims": [
  {
   "property": "C01",
   "status": "proved",
   "theorems": [
    "C01_mean_history",
    "C01_covariance_mean_history",
    "C01_histories_succeed"
   ],
   "note": ""
  },
  {
   "property": "C02",
   "status": "proved",
   "theorems": [
    "C02_covariance_history"
   ],
   "note": ""
  },
  {
   "property": "C03",
   "status": "proved",
   "theorems": [
    "C03_mean_order_invariant",
    "C03_covariance_order_invariant"
   ],
   "note": ""
  },
  {
   "property": "C04",
   "status": "proved",
   "theorems": [
    "C04_covariance_sym_psd"
   ],
   "note": ""
  },
  {
   "property": "C05",
   "status": "proved",
   "theorems": [
    "C05_infinite_iff_too_few",
    "C05_mean_nan_iff_empty"
   ],
   "note": ""
  },
  {
   "property": "C06",
   "status": "proved",
   "theorems": [
    "C06_bad_shape_rejected",
    "C06_empty_batch_on_fresh",
    "C06_empty_batch_poisons_mean",
    "C06_empty_batch_poisons_covariance",
    "C06_empty_batch_noop_refuted"
   ],
   "note": "Part of the claim is settled negatively: see the _refuted theorem(s)."
  },
  {
   "property": "C07",
   "status": "proved",
   "theorems": [
    "C07_interval_value",
    "C07_centered_ordered",
    "C07_equivariant",
    "C07_rejections"
   ],
   "note": ""
  },
  {
   "property": "C08",
   "status": "proved",
   "theorems": [
    "C08_estimator_history",
    "C08_delta_history",
    "C08_fresh_delta",
    "C08_histories_succeed"
   ],
   "note": ""
  },
  {
   "property": "C09",
   "status": "proved",
   "theorems": [
    "C09_scalar_estimate_is_snapshot",
    "C09_vector_estimate_is_live",
    "C09_writing_a_result",
    "C09_heap_refines_values",
    "C09_vector_snapshot_refuted",
    "C09_record_without_writes",
    "C09_record_is_snapshot_refuted"
   ],
   "note": "Part of the claim is settled negatively: see the _refuted theorem(s)."
  },
  {
   "property": "C10",
   "status": "proved",
   "theorems": [
    "C10_fixed_alpha_estimate",
    "C10_zero_alpha_plain_mean",
    "C10_alpha_length"
   ],
   "note": ""
  },
  {
   "property": "C11",
   "status": "proved",
   "theorems": [
    "C11_estimated_alpha_least_squares"
   ],
   "note": ""
  },
  {
   "property": "C12",
   "status": "proved",
   "theorems": [
    "C12_tolerance_never_fires",
    "C12_tolerance_default_raises",
    "C12_knee_never_fires",
    "C12_confidence_raises",
    "C12_single_first_sample_raises"
   ],
   "note": ""
  },
  {
   "property": "C13",
   "status": "proved",
   "theorems": [
    "C13_or_and_not_values",
    "C13_exceptions_surface",
    "C13_algebra",
    "C13_commutative"
   ],
   "note": ""
  },
  {
   "property": "C14",
   "status": "proved",
   "theorems": [
    "C14_count_exact",
    "C14_count_monotone",
    "C14_nonpositive_count"
   ],
   "note": ""
  },
  {
   "property": "C15",
   "status": "proved",
   "theorems": [
    "C15_tolerance_exact",
    "C15_empty_never_fires",
    "C15_order0_fires_on_empty",
    "C15_zero_tolerances_never",
    "C15_first_batch"
   ],
   "note": ""
  },
  {
   "property": "C16",
   "status": "proved",
   "theorems": [
    "C16_confidence_exact",
    "C16_zero_mean",
    "C16_never_before_three",
    "C16_vector_raises",
    "C16_no_covariance_raises",
    "C16_margin_smaller_than_interval",
    "C16_margin_is_interval_halfwidth_refuted"
   ],
   "note": "Part of the claim is settled negatively: see the _refuted theorem(s)."
  },
  {
   "property": "C17",
   "status": "proved",
   "theorems": [
    "C17_knee_exact",
    "C17_knee_needs_record",
    "C17_knee_nonpositive_sensitivity",
    "C17_knee_scale_invariant",
    "C17_running_means_refuted"
   ],
   "note": "Part of the claim is settled negatively: see the _refuted theorem(s)."
  },
  {
   "property": "C18",
   "status": "proved",
   "theorems": [
    "C18_object_unchanged",
    "C18_case_insensitive",
    "C18_unknown_rejected",
    "C18_other_keywords_ignored",
    "C18_count",
    "C18_tolerance",
    "C18_confidence",
    "C18_knee"
   ],
   "note": ""
  },
  {
   "property": "C19",
   "status": "proved",
   "theorems": [
    "C19_kwargs_partition",
    "C19_kwargs_lookup"
   ],
   "note": ""
  },
  {
   "property": "C20",
   "status": "proved",
   "theorems": [
    "C20_chunks",
    "C20_bad_length",
    "C20_ndarray_three_pieces",
    "C20_ndarray_chunks_refuted"
   ],
   "note": "Part of the claim is settled negatively: see the _refuted theorem(s)."
  },
  {
   "property": "C21",
   "status": "proved",
   "theorems": [
    "C21_hutch_mean_of_probes"
   ],
   "note": ""
  },
  {
   "property": "C22",
   "status": "proved",
   "theorems": [
    "C22_count_draws",
    "C22_count_default_mode"
   ],
   "note": ""
  },
  {
   "property": "C23",
   "status": "proved",
   "theorems": [
    "C23_or_count_terminates",
    "C23_default_terminates"
   ],
   "note": ""
  },
  {
   "property": "C24",
   "status": "proved",
   "theorems": [
    "C24_knee_without_record_diverges",
    "C24_zero_tolerance_diverges",
    "C24_diag_knee_without_record_diverges",
    "C24_diag_zero_tolerance_diverges"
   ],
   "note": ""
  },
  {
   "property": "C25",
   "status": "proved",
   "theorems": [
    "C25_hutch_unbiased",
    "C25_hutch_unbiased_grid"
   ],
   "note": ""
  },
  {
   "property": "C26",
   "status": "proved",
   "theorems": [
    "C26_diagonal_exact",
    "C26_empty_operator"
   ],
   "note": ""
  },
  {
   "property": "C27",
   "status": "proved",
   "theorems": [
    "C27_hutch_variance"
   ],
   "note": ""
  },
  {
   "property": "C28",
   "status": "proved",
   "theorems": [
    "C28_columns_split",
    "C28_probes_independent_of_batching",
    "C28_runs_share_probes"
   ],
   "note": ""
  },
  {
   "property": "C29",
   "status": "proved",
   "theorems": [
    "C29_pair_iff_full_or_callback",
    "C29_callback_observations",
    "C29_no_callback_no_calls",
    "C29_result_estimate_always_zero"
   ],
   "note": ""
  },
  {
   "property": "C30",
   "status": "proved",
   "theorems": [
    "C30_additive",
    "C30_homogeneous",
    "C30_transpose"
   ],
   "note": ""
  },
  {
   "property": "C31",
   "status": "proved",
   "theorems": [
    "C31_sketch_divisible_iff",
    "C31_sketch_divisible_refuted",
    "C31_exceptions"
   ],
   "note": "Part of the claim is settled negatively: see the _refuted theorem(s)."
  },
  {
   "property": "C32",
   "status": "proved",
   "theorems": [
    "C32_exact_if_range_captured",
    "C32_exact_if_rank",
    "C32_exact_if_square"
   ],
   "note": ""
  },
  {
   "property": "C33",
   "status": "proved",
   "theorems": [
    "C33_hutchpp_unbiased_given_sketch",
    "C33_hutchpp_unbiased"
   ],
   "note": ""
  },
  {
   "property": "C34",
   "status": "proved",
   "theorems": [
    "C34_modes_agree",
    "C34_reported",
    "C34_samples_refuted"
   ],
   "note": "Part of the claim is settled negatively: see the _refuted theorem(s)."
  },
  {
   "property": "C35",
   "status": "proved",
   "theorems": [
    "C35_update_trinv_inverse",
    "C35_update_trinv_shapes",
    "C35_insertion_sequence",
    "C35_insertion_complete"
   ],
   "note": ""
  },
  {
   "property": "C36",
   "status": "proved",
   "theorems": [
    "C36_helper_leave_one_out",
    "C36_projector_exists",
    "C36_xtrace_leave_one_out",
    "C36_leave_one_out_unbiased"
   ],
   "note": ""
  },
  {
   "property": "C37",
   "status": "proved",
   "theorems": [
    "C37_n_probes",
    "C37_iterations_needed",
    "C37_criterion_ignored",
    "C37_stopping_rule_refuted",
    "C37_batch_checked",
    "C37_probes_independent_of_batch"
   ],
   "note": "Part of the claim is settled negatively: see the _refuted theorem(s)."
  },
  {
   "property": "C38",
   "status": "proved",
   "theorems": [
    "C38_rescaled_exact",
    "C38_unrescaled_value",
    "C38_sphere_exact_refuted"
   ],
   "note": "Part of the claim is settled negatively: see the _refuted theorem(s)."
  },
  {
   "property": "C39",
   "status": "proved",
   "theorems": [
    "C39_callback_sees_nothing",
    "C39_final_result",
    "C39_empty_operator_nan"
   ],
   "note": ""
  },
  {
   "property": "C40",
   "status": "proved",
   "theorems": [
    "C40_diag_value",
    "C40_diagonal_exact",
    "C40_sign_probes_weighted_mean",
    "C40_weights_sum_to_one",
    "C40_weights_decrease",
    "C40_plain_mean_refuted",
    "C40_diag_unbiased"
   ],
   "note": "Part of the claim is settled negatively: see the _refuted theorem(s)."
  },
  {
   "property": "C41",
   "status": "proved",
   "theorems": [
    "C41_reporting_irrelevant",
    "C41_record_irrelevant",
    "C41_builtin_criteria_ignore_record",
    "C41_pair_iff_full_or_callback",
    "C41_callback_once_per_probe",
    "C41_result_carries_estimate"
   ],
   "note": ""
  },
  {
   "property": "C42",
   "status": "proved",
   "theorems": [
    "C42_leave_one_out_average",
    "C42_fails_iff_dependent",
    "C42_leave_one_out_unbiased"
   ],
   "note": ""
  },
  {
   "property": "C43",
   "status": "proved",
   "theorems": [
    "C43_probe_count",
    "C43_no_probes_nan",
    "C43_negative_rejected"
   ],
   "note": ""
  },
  {
   "property": "C44",
   "status": "proved",
   "theorems": [
    "C44_mod_is_python_modulus",
    "C44_param_deg",
    "C44_param_ncv",
    "C44_param_orth",
    "C44_validate_ranges",
    "C44_validate_accepts_iff",
    "C44_validate_tolerances",
    "C44_effective_parameters",
    "C44_nonpositive_rejected",
    "C44_orth_normalised"
   ],
   "note": ""
  },
  {
   "property": "C45",
   "status": "proved",
   "theorems": [
    "C45_kernel_in_bounds",
    "C45_lanczos_in_bounds",
    "C45_nonsquare_undefined"
   ],
   "note": ""
  },
  {
   "property": "C46",
   "status": "proved",
   "theorems": [
    "C46_window_is_enough",
    "C46_steps_exist_uniquely"
   ],
   "note": ""
  },
  {
   "property": "C47",
   "status": "proved",
   "theorems": [
    "C47_krylov_basis"
   ],
   "note": ""
  },
  {
   "property": "C48",
   "status": "proved",
   "theorems": [
    "C48_kernel_reorth_idle",
    "C48_lanczos_orth_irrelevant"
   ],
   "note": ""
  },
  {
   "property": "C49",
   "status": "proved",
   "theorems": [
    "C49_output_shape",
    "C49_sparse_is_tridiagonal"
   ],
   "note": ""
  },
  {
   "property": "C50",
   "status": "proved",
   "theorems": [
    "C50_early_stop",
    "C50_ritz_spurious_zero_refuted"
   ],
   "note": "Part of the claim is settled negatively: see the _refuted theorem(s)."
  },
  {
   "property": "C51",
   "status": "proved",
   "theorems": [
    "C51_shift",
    "C51_start_vector_scale",
    "C51_start_vector_sign",
    "C51_matrix_scale",
    "C51_matrix_scale_refuted"
   ],
   "note": "Part of the claim is settled negatively: see the _refuted theorem(s)."
  },
  {
   "property": "C52",
   "status": "proved",
   "theorems": [
    "C52_tridiag",
    "C52_lanczos",
    "C52_quadrature",
    "C52_matvec",
    "C52_quad",
    "C52_history",
    "C52_new",
    "C52_copies_needed"
   ],
   "note": ""
  },
  {
   "property": "C53",
   "status": "proved",
   "theorems": [
    "C53_ritz_values_in_range"
   ],
   "note": ""
  },
  {
   "property": "C54",
   "status": "proved",
   "theorems": [
    "C54_golub_welsch"
   ],
   "note": ""
  },
  {
   "property": "C55",
   "status": "proved",
   "theorems": [
    "C55_gauss",
    "C55_exact",
    "C55_columns"
   ],
   "note": ""
  },
  {
   "property": "C56",
   "status": "proved",
   "theorems": [
    "C56_krylov",
    "C56_exact"
   ],
   "note": ""
  },
  {
   "property": "C57",
   "status": "proved",
   "theorems": [
    "C57_fttr_weights",
    "C57_fttr_is_golub_welsch"
   ],
   "note": ""
  },
  {
   "property": "C58",
   "status": "proved",
   "theorems": [
    "C58_gw",
    "C58_fttr_length_refuted",
    "C58_fttr_1x1_refuted",
    "C58_negative_degree",
    "C58_rejects"
   ],
   "note": "Part of the claim is settled negatively: see the _refuted theorem(s)."
  },
  {
   "property": "C59",
   "status": "proved",
   "theorems": [
    "C59_quad",
    "C59_matvec",
    "C59_exact_stop",
    "C59_stale_refuted",
    "C59_tolerance_refuted"
   ],
   "note": "Part of the claim is settled negatively: see the _refuted theorem(s)."
  },
  {
   "property": "C60",
   "status": "proved",
   "theorems": [
    "C60_size",
    "C60_columns",
    "C60_scale"
   ],
   "note": ""
  },
  {
   "property": "C61",
   "status": "proved",
   "theorems": [
    "C61_finite",
    "C61_inverse_refuted",
    "C61_ritz_refuted"
   ],
   "note": "Part of the claim is settled negatively: see the _refuted theorem(s)."
  },
  {
   "property": "C62",
   "status": "proved",
   "theorems": [
    "C62_accepts_iff",
    "C62_rejects",
    "C62_fields",
    "C62_dtype_refuted"
   ],
   "note": "Part of the claim is settled negatively: see the _refuted theorem(s)."
  },
  {
   "property": "C63",
   "status": "proved",
   "theorems": [
    "C63_terminates",
    "C63_sweep",
    "C63_run",
    "C63_run_values"
   ],
   "note": ""
  },
  {
   "property": "C64",
   "status": "proved",
   "theorems": [
    "C64_stall_refuted",
    "C64_nonfinite_refuted",
    "C64_diagonal"
   ],
   "note": "Part of the claim is settled negatively: see the _refuted theorem(s)."
  },
  {
   "property": "C65",
   "status": "proved",
   "theorems": [
    "C65_rejects",
    "C65_both_lengths",
    "C65_auto",
    "C65_mrrr",
    "C65_correct",
    "C65_maxiter_dropped_refuted"
   ],
   "note": "Part of the claim is settled negatively: see the _refuted theorem(s)."
  },
  {
   "property": "C66",
   "status": "proved",
   "theorems": [
    "C66_symmetric",
    "C66_symmetric_part",
    "C66_row_refuted",
    "C66_errors"
   ],
   "note": "Part of the claim is settled negatively: see the _refuted theorem(s)."
  },
  {
   "property": "C67",
   "status": "proved",
   "theorems": [
    "C67_matrix",
    "C67_spectrum",
    "C67_interval_refuted",
    "C67_errors"
   ],
   "note": "Part of the claim is settled negatively: see the _refuted theorem(s)."
  },
  {
   "property": "C68",
   "status": "proved",
   "theorems": [
    "C68_signs",
    "C68_exact"
   ],
   "note": ""
  },
  {
   "property": "C69",
   "status": "proved",
   "theorems": [
    "C69_sphere"
   ],
   "note": ""
  },
  {
   "property": "C70",
   "status": "proved",
   "theorems": [
    "C70_probes_isotropic",
    "C70_probes_centred",
    "C70_probes_uncorrelated"
   ],
   "note": ""
  },
  {
   "property": "C71",
   "status": "proved",
   "theorems": [
    "C71_schedule",
    "C71_deterministic",
    "C71_single",
    "C71_complete",
    "C71_init"
   ],
   "note": ""
  },
  {
   "property": "C72",
   "status": "proved",
   "theorems": [
    "C72_layout",
    "C72_symmetric",
    "C72_spectrum",
    "C72_drawn",
    "C72_pd_refuted",
    "C72_errors"
   ],
   "note": "Part of the claim is settled negatively: see the _refuted theorem(s)."
  },
  {
   "property": "C73",
   "status": "proved",
   "theorems": [
    "C73_haar",
    "C73_frozen"
   ],
   "note": ""
  },
  {
   "property": "C74",
   "status": "proved",
   "theorems": [
    "C74_elementwise",
    "C74_formula",
    "C74_softsign",
    "C74_converges"
   ],
   "note": ""
  },
  {
   "property": "C75",
   "status": "proved",
   "theorems": [
    "C75_smoothstep",
    "C75_degree",
    "C75_equal_ends"
   ],
   "note": ""
  },
  {
   "property": "C76",
   "status": "proved",
   "theorems": [
    "C76_step",
    "C76_numrank"
   ],
   "note": ""
  },
  {
   "property": "C77",
   "status": "proved",
   "theorems": [
    "C77_builtin",
    "C77_softsign_rejected_refuted",
    "C77_names"
   ],
   "note": "Part of the claim is settled negatively: see the _refuted theorem(s)."
  },
  {
   "property": "C78",
   "status": "proved",
   "theorems": [
    "C78_results_reach_caller",
    "C78_results_lost_refuted"
   ],
   "note": "Part of the claim is settled negatively: see the _refuted theorem(s)."
  },
  {
   "property": "C79",
   "status": "proved",
   "theorems": [
    "C79_valid_iff",
    "C79_rejects",
    "C79_dtype_refuted",
    "C79_linear_op",
    "C79_linear_op_refuted"
   ],
   "note": "Part of the claim is settled negatively: see the _refuted theorem(s)."
  },
  {
   "property": "C80",
   "status": "proved",
   "theorems": [
    "C80_hutch_callable",
    "C80_callables_refuted",
    "C80_names"
   ],
   "note": "Part of the claim is settled negatively: see the _refuted theorem(s)."
  },
  {
   "property": "C81",
   "status": "proved",
   "theorems": [
    "C81_diag_confidence_raises",
    "C81_diag_count"
   ],
   "note": ""
  },
  {
   "property": "C82",
   "status": "proved",
   "theorems": [
    "C82_fortran",
    "C82_normal",
    "C82_c_order",
    "C82_errors",
    "C82_same_array_refuted"
   ],
   "note": "Part of the claim is settled negatively: see the _refuted theorem(s)."
  },
  {
   "property": "C83",
   "status": "proved",
   "theorems": [
    "C83_contiguous",
    "C83_exception",
    "C83_flip_refuted",
    "C83_column_refuted",
    "C83_column_identity",
    "C83_short_result",
    "C83_scipy_transparent",
    "C83_toeplitz"
   ],
   "note": "Part of the claim is settled negatively: see the _refuted theorem(s)."
  },
  {
   "property": "C84",
   "status": "proved",
   "theorems": [
    "C84_reference",
    "C84_front",
    "C84_zero_start_refuted",
    "C84_one_column",
    "C84_broadcast"
   ],
   "note": "Part of the claim is settled negatively: see the _refuted theorem(s)."
  },
  {
   "property": "C85",
   "status": "proved",
   "theorems": [
    "C85_coefficients",
    "C85_nonfinite",
    "C85_isclose0",
    "C85_breakdown_refuted"
   ],
   "note": "Part of the claim is settled negatively: see the _refuted theorem(s)."
  },
  {
   "property": "C86",
   "status": "proved",
   "theorems": [
    "C86_variance_nonneg",
    "C86_margin_defined",
    "C86_exact_arithmetic",
    "C86_exact_results",
    "C86_constant_exact",
    "C86_constant_batch_refuted"
   ],
   "note": "Part of the claim is settled negatively: see the _refuted theorem(s)."
  },
  {
   "property": "C87",
   "status": "proved",
   "theorems": [
    "C87_mean_forward_error",
    "C87_quad_forward_error"
   ],
   "note": ""
  },
  {
   "property": "C88",
   "status": "proved",
   "theorems": [
    "C88_quad_exact",
    "C88_constant_int_exact",
    "C88_diagonal_exact"
   ],
   "note": ""
  },
  {
   "property": "C89",
   "status": "proved",
   "theorems": [
    "C89_message_total",
    "C89_confidence_message",
    "C89_count_knee_message",
    "C89_tolerance_message",
    "C89_default_message_refuted",
    "C89_confidence_message_raises",
    "C89_control_variate_message",
    "C89_long_estimate"
   ],
   "note": "Part of the claim is settled negatively: see the _refuted theorem(s)."
  },
  {
   "property": "C90",
   "status": "proved",
   "theorems": [
    "C90_running_average",
    "C90_points_match",
    "C90_not_recorded",
    "C90_true_error_refuted",
    "C90_error_curve",
    "C90_csm",
    "C90_csm_large_refuted",
    "C90_jacobi"
   ],
   "note": "Part of the claim is settled negatively: see the _refuted theorem(s)."
  },
  {
   "property": "C91",
   "status": "proved",
   "theorems": [
    "C91_minorant",
    "C91_quad_error",
    "C91_matvec_error"
   ],
   "note": ""
  },
  {
   "property": "C92",
   "status": "proved",
   "theorems": [
    "C92_builtin",
    "C92_inverse_lower",
    "C92_inverse_monotone",
    "C92_solve_best"
   ],
   "note": ""
  },
  {
   "property": "C93",
   "status": "proved",
   "theorems": [
    "C93_slq_is_hutch",
    "C93_run_error",
    "C93_run_inverse",
    "C93_unbiased",
    "C93_bias",
    "C93_inverse_bias",
    "C93_stale_refuted"
   ],
   "note": "Part of the claim is settled negatively: see the _refuted theorem(s)."
  },
  {
   "property": "C94",
   "status": "proved",
   "theorems": [
    "C94_tail",
    "C94_sample_size",
    "C94_slq_tail"
   ],
   "note": ""
  },
  {
   "property": "C95",
   "status": "proved",
   "theorems": [
    "C95_matvec",
    "C95_rmatvec",
    "C95_adjoint",
    "C95_matmat",
    "C95_matmat_columns",
    "C95_gram",
    "C95_gram_shape_refuted",
    "C95_gram_matmat_refuted",
    "C95_affine"
   ],
   "note": "Part of the claim is settled negatively: see the _refuted theorem(s)."
  },
  {
   "property": "C96",
   "status": "proved",
   "theorems": [
    "C96_hutch",
    "C96_diag",
    "C96_hutchpp",
    "C96_xtrace",
    "C96_symmetric",
    "C96_xdiag_refuted",
    "C96_small_hutchpp"
   ],
   "note": "Part of the claim is settled negatively: see the _refuted theorem(s)."
  },
  {
   "property": "C97",
   "status": "proved",
   "theorems": [
    "C97_diag",
    "C97_hutchpp",
    "C97_hutchpp_full_refuted",
    "C97_xdiag",
    "C97_xtrace",
    "C97_diag_error",
    "C97_diag_error_count"
   ],
   "note": "Part of the claim is settled negatively: see the _refuted theorem(s)."
  },
  {
   "property": "C98",
   "status": "proved",
   "theorems": [
    "C98_diag_variance",
    "C98_mean_of_samples_refuted",
    "C98_diag_tail",
    "C98_mf_diag_tail"
   ],
   "note": "Part of the claim is settled negatively: see the _refuted theorem(s)."
  },
  {
   "property": "C99",
   "status": "proved",
   "theorems": [
    "C99_variance_given_sketch",
    "C99_tail_given_sketch",
    "C99_hutchpp_tail"
   ],
   "note": ""
  },
  {
   "property": "C100",
   "status": "proved",
   "theorems": [
    "C100_hutch_tolerance",
    "C100_hutch_tolerance_relative",
    "C100_hutch_confidence",
    "C100_hutch_confidence_relative",
    "C100_diag_tolerance",
    "C100_diag_tolerance_relative",
    "C100_confidence_without_atol_refuted"
   ],
   "note": "Part of the claim is settled negatively: see the _refuted theorem(s)."
  },
  {
   "property": "C101",
   "status": "proved",
   "theorems": [
    "C101_confidence_refuted",
    "C101_default_refuted",
    "C101_tolerance_refuted",
    "C101_diag_refuted"
   ],
   "note": "Part of the claim is settled negatively: see the _refuted theorem(s)."
  },
  {
   "property": "C102",
   "status": "proved",
   "theorems": [
    "C102_hutch",
    "C102_diag",
    "C102_hutchpp",
    "C102_hutchpp_budget_refuted",
    "C102_xdiag",
    "C102_xdiag_budget_refuted",
    "C102_xtrace"
   ],
   "note": "Part of the claim is settled negatively: see the _refuted theorem(s)."
  },
  {
   "property": "C103",
   "status": "proved",
   "theorems": [
    "C103_agrees",
    "C103_mean",
    "C103_batching_refuted",
    "C103_covariance",
    "C103_criteria",
    "C103_count",
    "C103_hutch",
    "C103_default",
    "C103_default_ends",
    "C103_endless",
    "C103_hutch_agrees",
    "C103_diag",
    "C103_diag_returns",
    "C103_diag_agrees"
   ],
   "note": "Part of the claim is settled negatively: see the _refuted theorem(s)."
  },
  {
   "property": "C104",
   "status": "proved",
   "theorems": [
    "C104_accepts",
    "C104_columns",
    "C104_set",
    "C104_set_call",
    "C104_exact",
    "C104_public",
    "C104_single",
    "C104_public_raises",
    "C104_assign",
    "C104_matrix_function",
    "C104_hutch",
    "C104_hutch_single",
    "C104_accepted_refuted"
   ],
   "note": "Part of the claim is settled negatively: see the _refuted theorem(s)."
  },
  {
   "property": "C105",
   "status": "proved",
   "theorems": [
    "C105_agrees",
    "C105_mean",
    "C105_finite",
    "C105_default",
    "C105_scalar_refuted",
    "C105_default_ends",
    "C105_few_refuted"
   ],
   "note": "Part of the claim is settled negatively: see the _refuted theorem(s)."
  },
  {
   "property": "C106",
   "status": "proved",
   "theorems": [
    "C106_finite_iff",
    "C106_value",
    "C106_returns",
    "C106_independent_returns",
    "C106_probes",
    "C106_singular",
    "C106_repeated",
    "C106_singular_refuted",
    "C106_sign_pairs",
    "C106_xdiag_singular"
   ],
   "note": "Part of the claim is settled negatively: see the _refuted theorem(s)."
  },
  {
   "property": "C107",
   "status": "proved",
   "theorems": [
    "C107_run_error",
    "C107_first_order",
    "C107_same_probes",
    "C107_returns",
    "C107_default",
    "C107_exact",
    "C107_count",
    "C107_diagonal",
    "C107_tail",
    "C107_batch_size_refuted"
   ],
   "note": "Part of the claim is settled negatively: see the _refuted theorem(s)."
  },
  {
   "property": "C108",
   "status": "proved",
   "theorems": [
    "C108_run_error",
    "C108_first_order",
    "C108_returns",
    "C108_count",
    "C108_exact",
    "C108_diagonal_exact",
    "C108_saturation",
    "C108_tail",
    "C108_many_probes_refuted"
   ],
   "note": "Part of the claim is settled negatively: see the _refuted theorem(s)."
  },
  {
   "property": "C109",
   "status": "proved",
   "theorems": [
    "C109_scatter_error",
    "C109_variance_error",
    "C109_first_order",
    "C109_margin_error",
    "C109_stopping",
    "C109_relative_refuted"
   ],
   "note": "Part of the claim is settled negatively: see the _refuted theorem(s)."
  }
 ]
}