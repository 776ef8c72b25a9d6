{
 "claims": [
  {
   "property": "C01",
   "status": "proved",
   "theorems": [
    "weighted_median_is_weighted_median",
    "weighted_median_terminates"
   ],
   "note": ""
  },
  {
   "property": "C02",
   "status": "proved",
   "theorems": [
    "weighted_median_zero_weights",
    "weighted_median_empty",
    "weighted_median_terminates"
   ],
   "note": ""
  },
  {
   "property": "C03",
   "status": "proved",
   "theorems": [
    "l1median_step_descent",
    "l1median_result"
   ],
   "note": "the second theorem covers whole runs: any returned value is finite, at most as costly as the mean and inside the bounding box; convergence of the iteration is not claimed"
  },
  {
   "property": "C04",
   "status": "proved",
   "theorems": [
    "l1median_diverges",
    "l1median_diverges_at_observation"
   ],
   "note": ""
  },
  {
   "property": "C05",
   "status": "proved",
   "theorems": [
    "l1median_step_box",
    "l1median_shift"
   ],
   "note": ""
  },
  {
   "property": "C06",
   "status": "proved",
   "theorems": [
    "maha_affine_invariant",
    "maha_posdef",
    "maha_singular"
   ],
   "note": ""
  },
  {
   "property": "C07",
   "status": "proved",
   "theorems": [
    "inverse_submatrix_proper",
    "inverse_submatrix_full",
    "inverse_submatrix_permuted_refuted"
   ],
   "note": ""
  },
  {
   "property": "C08",
   "status": "proved",
   "theorems": [
    "tukey_psi_is_derivative",
    "tukey_rho_shape",
    "tukey_psi_shape"
   ],
   "note": ""
  },
  {
   "property": "C09",
   "status": "proved",
   "theorems": [
    "huber_psi_is_derivative",
    "huber_rho_shape",
    "huber_psi_shape"
   ],
   "note": ""
  },
  {
   "property": "C10",
   "status": "proved",
   "theorems": [
    "sd_seed_single_direction"
   ],
   "note": ""
  },
  {
   "property": "C11",
   "status": "proved",
   "theorems": [
    "sd_values",
    "sd_affine_invariant",
    "sd_duplicate_nan"
   ],
   "note": "for n_points other than 2 the SVD direction is assumed to be unchanged up to sign when all rows are multiplied by a constant; also: a sampled pair of equal observations makes every outlyingness NaN"
  },
  {
   "property": "C12",
   "status": "proved",
   "theorems": [
    "get_logger_one_handler",
    "get_logger_shared"
   ],
   "note": ""
  },
  {
   "property": "C13",
   "status": "proved",
   "theorems": [
    "qn_is_kth_pairwise_distance",
    "qn_scale_factors",
    "kth_smallest_determined"
   ],
   "note": ""
  },
  {
   "property": "C14",
   "status": "proved",
   "theorems": [
    "qn_rejects_small_samples",
    "qn_total"
   ],
   "note": ""
  },
  {
   "property": "C15",
   "status": "proved",
   "theorems": [
    "qn_permutation_invariant",
    "qn_affine_equivariant"
   ],
   "note": ""
  },
  {
   "property": "C16",
   "status": "proved",
   "theorems": [
    "qn_resists_contamination",
    "qn_zero_iff_ties"
   ],
   "note": ""
  },
  {
   "property": "C17",
   "status": "proved",
   "theorems": [
    "umcd_minimises_variance"
   ],
   "note": ""
  },
  {
   "property": "C18",
   "status": "proved",
   "theorems": [
    "umcd_h_in_range",
    "umcd_h_none",
    "umcd_h_int",
    "umcd_h_float",
    "umcd_h_one",
    "umcd_h_rejects"
   ],
   "note": ""
  },
  {
   "property": "C19",
   "status": "proved",
   "theorems": [
    "umcd_exact_fit_nan",
    "umcd_reweighted_finite"
   ],
   "note": "the consistency factor of the raw variance is assumed to be at least 1 and the chi-square cutoff to be larger than 1"
  },
  {
   "property": "C20",
   "status": "proved",
   "theorems": [
    "umcd_equivariant",
    "umcd_raw_variance_reflection",
    "umcd_location_reflection_refuted"
   ],
   "note": "for positive factors; for negative factors the raw variance is still equivariant but the location is not (tie breaking), with a witness"
  },
  {
   "property": "C21",
   "status": "proved",
   "theorems": [
    "onestep_weights_proper",
    "huber_onestep_bounds",
    "cellwise_onestep_bounds"
   ],
   "note": "the normal quantile dividing the MAD is any number in (0,1]"
  },
  {
   "property": "C22",
   "status": "proved",
   "theorems": [
    "onestep_shift",
    "onestep_affine",
    "onestep_scaling_zero_mad_refuted"
   ],
   "note": "scaling equivariance needs a MAD that is at least min_abs_scale before and after; for a degenerate MAD it is refuted"
  },
  {
   "property": "C23",
   "status": "proved",
   "theorems": [
    "cellwise_resists_contamination",
    "huber_resists_contamination"
   ],
   "note": ""
  },
  {
   "property": "C24",
   "status": "proved",
   "theorems": [
    "wrapping_weights",
    "wrapping_location_range",
    "wrapping_regular",
    "wrapping_exact_fit_nan",
    "wrapping_singleton_nan"
   ],
   "note": "tanh is any function that is non-negative on the non-negative numbers"
  },
  {
   "property": "C25",
   "status": "proved",
   "theorems": [
    "tau_weights_proper",
    "tau_bounds",
    "tau_zero_mad",
    "tau_equivariant"
   ],
   "note": ""
  },
  {
   "property": "C26",
   "status": "proved",
   "theorems": [
    "fit_rejects_multivariate",
    "fit_rejects_nan",
    "fit_ignore_nan",
    "fit_handles_nan",
    "fit_history"
   ],
   "note": ""
  },
  {
   "property": "C27",
   "status": "proved",
   "theorems": [
    "boxplot_ordered",
    "boxplot_fliers",
    "boxplot_whiskers",
    "boxplot_reflection"
   ],
   "note": "exp is any positive function, the medcouple any number"
  },
  {
   "property": "C28",
   "status": "proved",
   "theorems": [
    "scaler_round_trip",
    "scaler_zero_scale",
    "scaler_flags"
   ],
   "note": ""
  },
  {
   "property": "C29",
   "status": "proved",
   "theorems": [
    "scaler_isolation",
    "scaler_fit_depends_on_data",
    "scaler_failed_fit_overwrites"
   ],
   "note": "also: a fit that raises half-way has already overwritten the parameters of the previous fit"
  },
  {
   "property": "C30",
   "status": "proved",
   "theorems": [
    "wrapping_pointwise",
    "wrapping_divisors"
   ],
   "note": "tanh is any function bounded by 1"
  },
  {
   "property": "C31",
   "status": "proved",
   "theorems": [
    "wrapping_rescaled"
   ],
   "note": "the mean holds for every scale; np.std is the square root of the population variance"
  },
  {
   "property": "C32",
   "status": "proved",
   "theorems": [
    "boxcox_round_trip",
    "boxcox_rejects_nonpositive"
   ],
   "note": ""
  },
  {
   "property": "C33",
   "status": "proved",
   "theorems": [
    "yeojohnson_round_trip"
   ],
   "note": ""
  },
  {
   "property": "C34",
   "status": "proved",
   "theorems": [
    "boxcox_transform_order",
    "yeojohnson_transform_order"
   ],
   "note": ""
  },
  {
   "property": "C35",
   "status": "proved",
   "theorems": [
    "boxcox_inverse_clamps",
    "yeojohnson_inverse_clamps",
    "boxcox_inverse_at_bound",
    "boxcox_inverse_not_monotone",
    "yeojohnson_inverse_not_monotone"
   ],
   "note": "behaviour exactly at the bound stated for Box-Cox without standardization"
  },
  {
   "property": "C36",
   "status": "proved",
   "theorems": [
    "boxcox_rectified_smooth",
    "yeojohnson_rectified_smooth",
    "yeojohnson_rectified_smooth_centred",
    "yeojohnson_rectified_jump_refuted",
    "yeojohnson_rectified_order_refuted"
   ],
   "note": "Yeo-Johnson for |lambda| <= 100000, where the eps of the changepoint search is small enough"
  },
  {
   "property": "C37",
   "status": "proved",
   "theorems": [
    "power_fit_single_round",
    "power_fit_margin",
    "boxcox_fit_type_error",
    "yeojohnson_fit_type_error"
   ],
   "note": "for any optimiser, Huber estimator, rho function and quantile functions"
  },
  {
   "property": "C38",
   "status": "proved",
   "theorems": [
    "auto_fit_history",
    "auto_method_final",
    "auto_failed_fit_switches",
    "explicit_refit_fresh"
   ],
   "note": ""
  },
  {
   "property": "C39",
   "status": "proved",
   "theorems": [
    "cleaner_subtable",
    "cleaner_min_rows"
   ],
   "note": "column labels are assumed distinct"
  },
  {
   "property": "C40",
   "status": "proved",
   "theorems": [
    "cleaner_rows_first_columns",
    "cleaner_columns_first_rows",
    "cleaner_rows_first_rows_refuted",
    "cleaner_columns_first_output_refuted"
   ],
   "note": "both guarantees for objects that have not transformed before"
  },
  {
   "property": "C41",
   "status": "proved",
   "theorems": [
    "cleaner_automatic_once",
    "cleaner_stale_rows_keyerror",
    "cleaner_stale_columns_keyerror",
    "cleaner_second_transform_differs"
   ],
   "note": ""
  },
  {
   "property": "C42",
   "status": "proved",
   "theorems": [
    "ddc_impute_frame",
    "ddc_impute_complete"
   ],
   "note": "any scale estimator, regression and rounding; completeness needs finite fitted parameters, C91 shows that this is necessary"
  },
  {
   "property": "C43",
   "status": "proved",
   "theorems": [
    "ddc_predict_stack",
    "ddc_prediction_local"
   ],
   "note": ""
  },
  {
   "property": "C44",
   "status": "proved",
   "theorems": [
    "ddc_prediction_convex",
    "ddc_prediction_location"
   ],
   "note": ""
  },
  {
   "property": "C45",
   "status": "proved",
   "theorems": [
    "ddc_min_correlation_inert",
    "ddc_min_correlation_shrinks"
   ],
   "note": "for regressions that return finite slopes"
  },
  {
   "property": "C46",
   "status": "proved",
   "theorems": [
    "ddc_predict_agrees_with_fit",
    "ddc_flags"
   ],
   "note": ""
  },
  {
   "property": "C47",
   "status": "proved",
   "theorems": [
    "ddc_unfitted",
    "ddc_fitted_no_attribute_error"
   ],
   "note": ""
  },
  {
   "property": "C48",
   "status": "proved",
   "theorems": [
    "ddc_correlation_matrix"
   ],
   "note": ""
  },
  {
   "property": "C49",
   "status": "proved",
   "theorems": [
    "lts_h_subset_optimal",
    "lts_c_step_monotone",
    "least_squares_exists"
   ],
   "note": ""
  },
  {
   "property": "C50",
   "status": "proved",
   "theorems": [
    "lts_c_steps_terminate",
    "lts_negative_tolerance_diverges"
   ],
   "note": ""
  },
  {
   "property": "C51",
   "status": "proved",
   "theorems": [
    "lts_selects_best",
    "lts_raw_fit"
   ],
   "note": ""
  },
  {
   "property": "C52",
   "status": "proved",
   "theorems": [
    "lts_subset_size",
    "lts_raw_fit_errors"
   ],
   "note": ""
  },
  {
   "property": "C53",
   "status": "proved",
   "theorems": [
    "lts_factor_alpha_range",
    "lts_factor_full_sample",
    "lts_factor_continuous",
    "lts_factor_ge1_or_negative",
    "lts_factor_positive_refuted",
    "lts_factor_one_regressor",
    "lts_factor_calibration"
   ],
   "note": "the sign claim is the refuted one: a negative factor exists"
  },
  {
   "property": "C54",
   "status": "proved",
   "theorems": [
    "lts_fit_unweighted",
    "lts_reweight_result",
    "lts_reweight_keeps_outliers",
    "lts_reweight_exact_fit"
   ],
   "note": ""
  },
  {
   "property": "C55",
   "status": "proved",
   "theorems": [
    "s_scale_equation_unsolvable",
    "s_scale_shrinks"
   ],
   "note": ""
  },
  {
   "property": "C56",
   "status": "proved",
   "theorems": [
    "s_first_step_failure",
    "s_candidate_outcome",
    "s_fit_outcome"
   ],
   "note": "weighted least squares, argsort and the random choices are arbitrary functions"
  },
  {
   "property": "C57",
   "status": "proved",
   "theorems": [
    "s_scale_no_iterations",
    "s_scale_last_iterate",
    "s_scale_equivariant",
    "s_scale_nonnegative"
   ],
   "note": ""
  },
  {
   "property": "C58",
   "status": "proved",
   "theorems": [
    "mm_step_criterion",
    "mm_step_equal_weights",
    "mm_step_slope_equivariant",
    "mm_step_weighted_refuted",
    "mm_step_shift_refuted",
    "mm_fit_trace"
   ],
   "note": "any solver meeting the least-squares contract; the two _refuted theorems give witnesses for the negative part"
  },
  {
   "property": "C59",
   "status": "proved",
   "theorems": [
    "mm_fit_no_zero_residual",
    "mm_fit_exact_observation_fails",
    "mm_fit_trace"
   ],
   "note": "any initial estimator; psi(0) = 0"
  },
  {
   "property": "C60",
   "status": "proved",
   "theorems": [
    "mm_fitted_is_independent",
    "mm_shares_estimator",
    "mm_zero_iterations_keeps_estimator",
    "mm_default_estimator_shared",
    "mm_predict_unfitted"
   ],
   "note": ""
  },
  {
   "property": "C61",
   "status": "proved",
   "theorems": [
    "closest_rows_determinant",
    "mcd_c_step"
   ],
   "note": "any argsort; np.linalg.inv and det are exact"
  },
  {
   "property": "C62",
   "status": "proved",
   "theorems": [
    "mcd_final_loop",
    "fast_mcd_selected",
    "fast_mcd_tolerance_irrelevant",
    "det_mcd_selected",
    "det_mcd_tolerance_irrelevant",
    "mcd_not_converged_refuted"
   ],
   "note": "mcd_not_converged_refuted is the witness for the last part; the preliminary estimates of DetMCD are an oracle"
  },
  {
   "property": "C63",
   "status": "proved",
   "theorems": [
    "fast_mcd_integer_alpha_fails",
    "mcd_alpha_single_partition"
   ],
   "note": "at least five initial subsets and one initial C-step, more than one column"
  },
  {
   "property": "C64",
   "status": "proved",
   "theorems": [
    "mcd_h_size",
    "mcd_h_bounds"
   ],
   "note": ""
  },
  {
   "property": "C65",
   "status": "proved",
   "theorems": [
    "mcd_consistency"
   ],
   "note": ""
  },
  {
   "property": "C66",
   "status": "proved",
   "theorems": [
    "mcd_partitions"
   ],
   "note": ""
  },
  {
   "property": "C67",
   "status": "proved",
   "theorems": [
    "ogk_covariance_psd",
    "ogk_covariance_posdef",
    "ogk_zero_scale_rejected"
   ],
   "note": ""
  },
  {
   "property": "C68",
   "status": "proved",
   "theorems": [
    "kendall_covariance_psd",
    "kendall_monotone_invariant",
    "kendall_constant_column_fails"
   ],
   "note": ""
  },
  {
   "property": "C69",
   "status": "proved",
   "theorems": [
    "truncated_covariance_spec"
   ],
   "note": ""
  },
  {
   "property": "C70",
   "status": "proved",
   "theorems": [
    "correlation_normalised",
    "correlation_nan"
   ],
   "note": ""
  },
  {
   "property": "C71",
   "status": "proved",
   "theorems": [
    "cov_fit_distances",
    "nonrobust_distances_classical",
    "assume_centered_overridden"
   ],
   "note": ""
  },
  {
   "property": "C72",
   "status": "proved",
   "theorems": [
    "cellmcd_delta"
   ],
   "note": ""
  },
  {
   "property": "C73",
   "status": "proved",
   "theorems": [
    "cellmcd_update_column",
    "cellmcd_update_W",
    "cellmcd_update_keeps_h"
   ],
   "note": ""
  },
  {
   "property": "C74",
   "status": "proved",
   "theorems": [
    "cellmcd_returned_W",
    "cellmcd_returned_W_refuted",
    "cellmcd_c_steps"
   ],
   "note": "cellmcd_returned_W_refuted is the witness that the returned W need not belong to the returned estimates"
  },
  {
   "property": "C75",
   "status": "proved",
   "theorems": [
    "cellmcd_objective_values",
    "cellmcd_no_step",
    "cellmcd_c_steps"
   ],
   "note": ""
  },
  {
   "property": "C76",
   "status": "proved",
   "theorems": [
    "cellmcd_imputation",
    "cellmcd_predictions",
    "cellmcd_conditional_unique"
   ],
   "note": ""
  },
  {
   "property": "C77",
   "status": "proved",
   "theorems": [
    "cellmcd_all_missing",
    "cellmcd_all_missing_refuted"
   ],
   "note": "the witness has covariance 2 I"
  },
  {
   "property": "C78",
   "status": "proved",
   "theorems": [
    "cellmcd_no_missing_clean",
    "cellmcd_no_missing_clean_refuted"
   ],
   "note": "the witness for a cutoff above 3 is at the level of the first update of W; what numpy does with the NaNs afterwards is not modelled"
  },
  {
   "property": "C79",
   "status": "proved",
   "theorems": [
    "cellmcd_alpha",
    "cellmcd_alpha_history"
   ],
   "note": ""
  },
  {
   "property": "C80",
   "status": "proved",
   "theorems": [
    "cellmcd_objective"
   ],
   "note": ""
  },
  {
   "property": "C81",
   "status": "proved",
   "theorems": [
    "initddcw_cap",
    "initddcw_imputed",
    "initddcw_cap_refuted"
   ],
   "note": "the witness has 12 rows and alpha 11/12; W and the imputed table are distinguished: a cell flagged by the cap only keeps its value"
  },
  {
   "property": "C82",
   "status": "proved",
   "theorems": [
    "pca_pythagoras",
    "pca_orth_dist_nearest",
    "pca_project_linear",
    "pca_project_twice"
   ],
   "note": ""
  },
  {
   "property": "C83",
   "status": "proved",
   "theorems": [
    "pca_select_k",
    "pca_select_k_reached",
    "pca_select_k_zero"
   ],
   "note": "for eigenvalues with a positive total; all zero: one component"
  },
  {
   "property": "C84",
   "status": "proved",
   "theorems": [
    "robpca_location",
    "robpca_location_moves"
   ],
   "note": ""
  },
  {
   "property": "C85",
   "status": "proved",
   "theorems": [
    "robpca_fit_state",
    "robpca_refit",
    "spca_fit_state",
    "spca_refit",
    "spca_refit_explicit",
    "spca_refit_none_refuted"
   ],
   "note": "the refuted claim is that a refit with n_components=None equals a fresh fit"
  },
  {
   "property": "C86",
   "status": "proved",
   "theorems": [
    "robpca_components"
   ],
   "note": ""
  },
  {
   "property": "C87",
   "status": "proved",
   "theorems": [
    "drawn_on_ellipse",
    "ellipse_is_drawn",
    "annotated_iff_outside_ellipse",
    "ellipse_singular",
    "drawn_ellipse_annotation_refuted"
   ],
   "note": "eigh is any correct eigendecomposition; the polygon has 201 vertices on the ellipse"
  },
  {
   "property": "C88",
   "status": "proved",
   "theorems": [
    "annotated_iff_outside",
    "annote_nan_coordinates",
    "annote_nan_refuted",
    "annote_default_thresholds",
    "annote_short_names",
    "thresholds_symmetric",
    "thresholds_ignore_nan",
    "thresholds_error",
    "thresholds_exact_fit_nan"
   ],
   "note": "the claim that NaN coordinates exclude a point is refuted by a witness"
  },
  {
   "property": "C89",
   "status": "proved",
   "theorems": [
    "yeojohnson_integer_input_truncated",
    "yeojohnson_integer_round_trip_refuted"
   ],
   "note": ""
  },
  {
   "property": "C90",
   "status": "proved",
   "theorems": [
    "nan_disables_clamping",
    "nan_disables_positivity_check"
   ],
   "note": ""
  },
  {
   "property": "C91",
   "status": "proved",
   "theorems": [
    "ddc_one_joint_row_blinds"
   ],
   "note": ""
  },
  {
   "property": "C92",
   "status": "proved",
   "theorems": [
    "cleaner_fit_lists"
   ],
   "note": ""
  },
  {
   "property": "C93",
   "status": "proved",
   "theorems": [
    "s_exact_fit_zero_weights",
    "s_exact_fit_cycles"
   ],
   "note": "the fit of WLS with zero weights and with the weights of y are hypotheses of s_exact_fit_cycles"
  },
  {
   "property": "C94",
   "status": "proved",
   "theorems": [
    "s_predict_columns",
    "s_predict_single_row_fails",
    "s_predict_unfitted"
   ],
   "note": ""
  },
  {
   "property": "C95",
   "status": "proved",
   "theorems": [
    "ddc_rejects_few_values"
   ],
   "note": ""
  },
  {
   "property": "C96",
   "status": "proved",
   "theorems": [
    "fast_mcd_univariate_fails",
    "det_mcd_univariate_fails"
   ],
   "note": ""
  },
  {
   "property": "C97",
   "status": "proved",
   "theorems": [
    "fast_mcd_affine_equivariant"
   ],
   "note": ""
  },
  {
   "property": "C98",
   "status": "proved",
   "theorems": [
    "fast_mcd_exact_fit_fails",
    "det_mcd_exact_fit_fails"
   ],
   "note": ""
  },
  {
   "property": "C99",
   "status": "proved",
   "theorems": [
    "mcd_reweighted",
    "mcd_raw"
   ],
   "note": ""
  },
  {
   "property": "C100",
   "status": "proved",
   "theorems": [
    "ogk_rescaling_equivariant"
   ],
   "note": ""
  },
  {
   "property": "C101",
   "status": "proved",
   "theorems": [
    "ogk_reweighting_count",
    "ogk_zero_median_fails",
    "ogk_reweighted_estimates"
   ],
   "note": ""
  },
  {
   "property": "C102",
   "status": "proved",
   "theorems": [
    "ogk_of_classical_estimators"
   ],
   "note": ""
  },
  {
   "property": "C103",
   "status": "proved",
   "theorems": [
    "kendall_wrapping_location_is_mean",
    "unassigned_location_breaks_down"
   ],
   "note": ""
  },
  {
   "property": "C104",
   "status": "proved",
   "theorems": [
    "wrapping_covariance_diagonal"
   ],
   "note": ""
  },
  {
   "property": "C105",
   "status": "proved",
   "theorems": [
    "singular_classical_covariance_fails",
    "stale_distances_plotted",
    "univariate_fit_fails"
   ],
   "note": ""
  },
  {
   "property": "C106",
   "status": "proved",
   "theorems": [
    "cellmcd_step_descends",
    "cellmcd_c_steps"
   ],
   "note": ""
  },
  {
   "property": "C107",
   "status": "proved",
   "theorems": [
    "initddcw_missing_keeps_all",
    "initddcw_complete_cases"
   ],
   "note": ""
  },
  {
   "property": "C108",
   "status": "proved",
   "theorems": [
    "initddcw_covariance",
    "initddcw_no_rejection"
   ],
   "note": ""
  },
  {
   "property": "C109",
   "status": "proved",
   "theorems": [
    "robpca_outlier_map"
   ],
   "note": ""
  },
  {
   "property": "C110",
   "status": "proved",
   "theorems": [
    "robpca_h_subset",
    "robpca_small_sample"
   ],
   "note": ""
  },
  {
   "property": "C111",
   "status": "proved",
   "theorems": [
    "robpca_univariate"
   ],
   "note": ""
  },
  {
   "property": "C112",
   "status": "proved",
   "theorems": [
    "robpca_bad_alpha"
   ],
   "note": ""
  },
  {
   "property": "C113",
   "status": "proved",
   "theorems": [
    "robpca_full_rank"
   ],
   "note": "exact arithmetic; float rounding noise can make the distances differ from 0"
  },
  {
   "property": "C114",
   "status": "proved",
   "theorems": [
    "robpca_exact_fit"
   ],
   "note": "exact arithmetic; float rounding noise can untie the distances"
  },
  {
   "property": "C115",
   "status": "proved",
   "theorems": [
    "robpca_equivariant"
   ],
   "note": ""
  },
  {
   "property": "C116",
   "status": "proved",
   "theorems": [
    "spca_sign_cov",
    "spca_sign_influence",
    "spca_sign_rotation"
   ],
   "note": ""
  },
  {
   "property": "C117",
   "status": "proved",
   "theorems": [
    "spca_fit_spec"
   ],
   "note": ""
  },
  {
   "property": "C118",
   "status": "proved",
   "theorems": [
    "spca_at_median"
   ],
   "note": ""
  },
  {
   "property": "C119",
   "status": "proved",
   "theorems": [
    "spca_variances_descend_refuted"
   ],
   "note": "the claim that the variances descend is refuted by a witness"
  },
  {
   "property": "C120",
   "status": "proved",
   "theorems": [
    "np_index_spec",
    "np_index_error",
    "plot_not_fitted",
    "plot_needs_second",
    "plot_unknown_type",
    "plot_bad_variable"
   ],
   "note": ""
  },
  {
   "property": "C121",
   "status": "proved",
   "theorems": [
    "indexplot_figure",
    "bivariate_figure",
    "annotation_quantile_only_texts",
    "no_names_no_texts"
   ],
   "note": ""
  },
  {
   "property": "C122",
   "status": "proved",
   "theorems": [
    "annotation_monotone"
   ],
   "note": ""
  },
  {
   "property": "C123",
   "status": "proved",
   "theorems": [
    "det_preliminary_correlations",
    "det_ranks"
   ],
   "note": ""
  },
  {
   "property": "C124",
   "status": "proved",
   "theorems": [
    "det_preliminary_scatters"
   ],
   "note": ""
  },
  {
   "property": "C125",
   "status": "proved",
   "theorems": [
    "det_rank_estimates_invariant"
   ],
   "note": ""
  },
  {
   "property": "C126",
   "status": "proved",
   "theorems": [
    "det_initial_estimate"
   ],
   "note": ""
  },
  {
   "property": "C127",
   "status": "proved",
   "theorems": [
    "det_mcd_rescaling"
   ],
   "note": ""
  },
  {
   "property": "C128",
   "status": "proved",
   "theorems": [
    "det_mcd_median_observation_fails",
    "det_mcd_tied_variable_fails"
   ],
   "note": ""
  },
  {
   "property": "C129",
   "status": "proved",
   "theorems": [
    "det_mcd_small_sample_fails"
   ],
   "note": ""
  },
  {
   "property": "C130",
   "status": "proved",
   "theorems": [
    "det_mcd_succeeds"
   ],
   "note": ""
  },
  {
   "property": "C131",
   "status": "proved",
   "theorems": [
    "standardized_unit_scale"
   ],
   "note": ""
  },
  {
   "property": "C132",
   "status": "proved",
   "theorems": [
    "standardized_exact_fit"
   ],
   "note": ""
  },
  {
   "property": "C133",
   "status": "proved",
   "theorems": [
    "classical_map_masks"
   ],
   "note": ""
  },
  {
   "property": "C134",
   "status": "proved",
   "theorems": [
    "robust_map_shows"
   ],
   "note": ""
  },
  {
   "property": "C135",
   "status": "proved",
   "theorems": [
    "outlier_map_single_regressor_fails"
   ],
   "note": ""
  },
  {
   "property": "C136",
   "status": "proved",
   "theorems": [
    "outlier_map_equivariant"
   ],
   "note": ""
  },
  {
   "property": "C137",
   "status": "proved",
   "theorems": [
    "outlier_map_contents",
    "outlier_map_failures"
   ],
   "note": ""
  },
  {
   "property": "C138",
   "status": "proved",
   "theorems": [
    "robpca_one_component",
    "robpca_final_rank"
   ],
   "note": ""
  },
  {
   "property": "C139",
   "status": "proved",
   "theorems": [
    "s_initial_candidates",
    "s_too_few_observations",
    "s_no_candidates"
   ],
   "note": ""
  },
  {
   "property": "C140",
   "status": "proved",
   "theorems": [
    "s_best_candidates"
   ],
   "note": ""
  },
  {
   "property": "C141",
   "status": "proved",
   "theorems": [
    "mcd_classical_alpha"
   ],
   "note": ""
  },
  {
   "property": "C142",
   "status": "proved",
   "theorems": [
    "fast_mcd_no_subsets",
    "fast_mcd_no_best",
    "fast_mcd_no_partition",
    "fast_mcd_small_partition"
   ],
   "note": ""
  },
  {
   "property": "C143",
   "status": "proved",
   "theorems": [
    "fast_mcd_no_initial_steps"
   ],
   "note": ""
  },
  {
   "property": "C144",
   "status": "proved",
   "theorems": [
    "cellmcd_fit_units"
   ],
   "note": ""
  },
  {
   "property": "C145",
   "status": "proved",
   "theorems": [
    "cellmcd_small_units",
    "cellmcd_units_refuted"
   ],
   "note": ""
  },
  {
   "property": "C146",
   "status": "proved",
   "theorems": [
    "cellmcd_fit_succeeds"
   ],
   "note": ""
  },
  {
   "property": "C147",
   "status": "proved",
   "theorems": [
    "cellmcd_fit_predictions"
   ],
   "note": ""
  }
 ]
}