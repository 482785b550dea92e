{
 "claims": [
  {
   "property": "C01",
   "status": "proved",
   "theorems": [
    "C01_exact_crps"
   ],
   "note": ""
  },
  {
   "property": "C02",
   "status": "proved",
   "theorems": [
    "C02_fair_crps",
    "C02_single_member"
   ],
   "note": ""
  },
  {
   "property": "C03",
   "status": "proved",
   "theorems": [
    "C03_fair_unbiased",
    "C03_nrg_bias"
   ],
   "note": ""
  },
  {
   "property": "C04",
   "status": "proved",
   "theorems": [
    "C04_backends_agree",
    "C04_akr_value",
    "C04_unknown_estimator",
    "C04_unknown_estimator_refuted"
   ],
   "note": "Two internal names are found by the numba dictionary and raise TypeError instead of ValueError: C04_unknown_estimator_refuted."
  },
  {
   "property": "C05",
   "status": "proved",
   "theorems": [
    "C05_weighted_backends_agree",
    "C05_circperm_refuted"
   ],
   "note": "True for all estimators except akr_circperm with an even number of members; the counterexample is C05_circperm_refuted."
  },
  {
   "property": "C06",
   "status": "proved",
   "theorems": [
    "C06_uniform_weights"
   ],
   "note": ""
  },
  {
   "property": "C07",
   "status": "proved",
   "theorems": [
    "C07_weighted_exact",
    "C07_weighted_fair",
    "C07_weighted_pwm",
    "C07_pwm_refuted"
   ],
   "note": "nrg, qd, int and fair are the scores claimed. pwm is not the weighted fair score: C07_weighted_pwm gives its exact value, C07_pwm_refuted a case where they differ."
  },
  {
   "property": "C08",
   "status": "proved",
   "theorems": [
    "C08_weight_scale",
    "C08_negative_weight",
    "C08_wrong_shape",
    "C08_normalised"
   ],
   "note": ""
  },
  {
   "property": "C09",
   "status": "proved",
   "theorems": [
    "C09_zero_weights",
    "C09_repetition"
   ],
   "note": ""
  },
  {
   "property": "C10",
   "status": "proved",
   "theorems": [
    "C10_permutation",
    "C10_permutation_weighted",
    "C10_akr_order_refuted"
   ],
   "note": "The akr estimators do depend on the order: C10_akr_order_refuted."
  },
  {
   "property": "C11",
   "status": "proved",
   "theorems": [
    "C11_affine",
    "C11_affine_weighted",
    "C11_pwm_negative_refuted"
   ],
   "note": "Weighted pwm with negative scale is the exception: C11_pwm_negative_refuted."
  },
  {
   "property": "C12",
   "status": "proved",
   "theorems": [
    "C12_nonnegative",
    "C12_nonnegative_weighted",
    "C12_all_nonnegative",
    "C12_fair_zero_refuted",
    "C12_fair_weighted_refuted"
   ],
   "note": "fair can be zero or negative without equality: C12_fair_zero_refuted, C12_fair_weighted_refuted."
  },
  {
   "property": "C13",
   "status": "proved",
   "theorems": [
    "C13_proper"
   ],
   "note": ""
  },
  {
   "property": "C14",
   "status": "proved",
   "theorems": [
    "C14_omit_deletes",
    "C14_omit_deletes_weighted"
   ],
   "note": ""
  },
  {
   "property": "C15",
   "status": "proved",
   "theorems": [
    "C15_propagate",
    "C15_propagate_any",
    "C15_weight_nan"
   ],
   "note": ""
  },
  {
   "property": "C16",
   "status": "proved",
   "theorems": [
    "C16_raise_error",
    "C16_raise_same",
    "C16_policy_names"
   ],
   "note": ""
  },
  {
   "property": "C17",
   "status": "proved",
   "theorems": [
    "C17_batching",
    "C17_batching_weighted",
    "C17_bad_shape",
    "C17_axis_range_refuted"
   ],
   "note": "An axis out of range is not always rejected: C17_axis_range_refuted."
  },
  {
   "property": "C18",
   "status": "proved",
   "theorems": [
    "C18_sorted_flag",
    "C18_flag_ignored"
   ],
   "note": ""
  },
  {
   "property": "C19",
   "status": "proved",
   "theorems": [
    "C19_threshold",
    "C19_threshold_weighted",
    "C19_default",
    "C19_chaining"
   ],
   "note": ""
  },
  {
   "property": "C20",
   "status": "proved",
   "theorems": [
    "C20_value",
    "C20_value_weighted",
    "C20_unit",
    "C20_agree",
    "C20_negative"
   ],
   "note": ""
  },
  {
   "property": "C21",
   "status": "proved",
   "theorems": [
    "C21_value",
    "C21_value_weighted",
    "C21_unit",
    "C21_rank1_refuted",
    "C21_rank3_refuted"
   ],
   "note": "False for the array implementation on ensembles that are not two-dimensional: C21_rank1_refuted, C21_rank3_refuted."
  },
  {
   "property": "C22",
   "status": "proved",
   "theorems": [
    "C22_omit_last",
    "C22_axis_refuted",
    "C22_axis_silent_refuted"
   ],
   "note": "False as stated: C22_axis_refuted, C22_axis_silent_refuted; true for the last axis (C22_omit_last)."
  },
  {
   "property": "C23",
   "status": "proved",
   "theorems": [
    "C23_array",
    "C23_numba",
    "C23_obs_refuted",
    "C23_weights_refuted"
   ],
   "note": "False for numba observations and for weights: C23_obs_refuted, C23_weights_refuted; the positive cases are C23_array, C23_numba."
  },
  {
   "property": "C24",
   "status": "proved",
   "theorems": [
    "C24_value",
    "C24_level",
    "C24_length",
    "C24_ensemble"
   ],
   "note": ""
  },
  {
   "property": "C25",
   "status": "proved",
   "theorems": [
    "C25_value",
    "C25_sign",
    "C25_level",
    "C25_consistent"
   ],
   "note": ""
  },
  {
   "property": "C26",
   "status": "proved",
   "theorems": [
    "C26_value",
    "C26_levels",
    "C26_shapes",
    "C26_decomposition",
    "C26_proper"
   ],
   "note": ""
  },
  {
   "property": "C27",
   "status": "proved",
   "theorems": [
    "C27_agree_refuted",
    "C27_array_value"
   ],
   "note": "False as stated: C27_agree_refuted."
  },
  {
   "property": "C28",
   "status": "proved",
   "theorems": [
    "C28_value",
    "C28_quantiles"
   ],
   "note": ""
  },
  {
   "property": "C29",
   "status": "proved",
   "theorems": [
    "C29_value",
    "C29_validation",
    "C29_proper"
   ],
   "note": ""
  },
  {
   "property": "C30",
   "status": "proved",
   "theorems": [
    "C30_value",
    "C30_onehot",
    "C30_category_refuted",
    "C30_proper",
    "C30_errors"
   ],
   "note": "Categories outside 1..K are accepted: C30_category_refuted."
  },
  {
   "property": "C31",
   "status": "proved",
   "theorems": [
    "C31_value",
    "C31_proper",
    "C31_ranked",
    "C31_ranked_proper"
   ],
   "note": ""
  },
  {
   "property": "C32",
   "status": "proved",
   "theorems": [
    "C32_energy_crps",
    "C32_energy_crps_weighted"
   ],
   "note": ""
  },
  {
   "property": "C33",
   "status": "proved",
   "theorems": [
    "C33_values",
    "C33_agree",
    "C33_agree_weighted",
    "C33_circperm_refuted",
    "C33_uniform"
   ],
   "note": "akr_circperm with weights disagrees for odd M: C33_circperm_refuted."
  },
  {
   "property": "C34",
   "status": "proved",
   "theorems": [
    "C34_similarity",
    "C34_similarity_weighted",
    "C34_orthogonal_maps",
    "C34_permutation",
    "C34_permutation_weighted"
   ],
   "note": ""
  },
  {
   "property": "C35",
   "status": "proved",
   "theorems": [
    "C35_nonnegative",
    "C35_proper"
   ],
   "note": ""
  },
  {
   "property": "C36",
   "status": "proved",
   "theorems": [
    "C36_values",
    "C36_values_weighted",
    "C36_agree",
    "C36_default",
    "C36_kernel",
    "C36_uniform",
    "C36_nonnegative",
    "C36_perfect",
    "C36_affine",
    "C36_affine_weighted",
    "C36_permutation",
    "C36_proper"
   ],
   "note": ""
  },
  {
   "property": "C37",
   "status": "proved",
   "theorems": [
    "C37_uv_values",
    "C37_mv_values",
    "C37_agree",
    "C37_uv_weighted",
    "C37_mv_weighted",
    "C37_fair_weighted_array",
    "C37_fair_weighted_refuted",
    "C37_circperm_weighted_refuted",
    "C37_uniform",
    "C37_bounds",
    "C37_perfect",
    "C37_permutation",
    "C37_isometry",
    "C37_one_variable",
    "C37_proper",
    "C37_numba_integer_refuted"
   ],
   "note": "False for the weighted fair array estimator (C37_fair_weighted_refuted), the weighted univariate akr_circperm array estimator (C37_circperm_weighted_refuted) and integer observations with numba (C37_numba_integer_refuted)."
  },
  {
   "property": "C38",
   "status": "proved",
   "theorems": [
    "C38_dss_value",
    "C38_dss_agree",
    "C38_dss_equal_members",
    "C38_dss_permutation",
    "C38_dss_affine",
    "C38_dss_proper",
    "C38_dss_unbiased_refuted",
    "C38_dss_numba_integer_refuted",
    "C38_ess_value",
    "C38_ess_agree",
    "C38_ess_unit_axis",
    "C38_ess_shape_refuted",
    "C38_ess_undefined",
    "C38_ess_permutation",
    "C38_ess_affine",
    "C38_ess_nonnegative"
   ],
   "note": "False for integer observations with numba (C38_dss_numba_integer_refuted) and, for the error-spread score, batch axes of length one (C38_ess_shape_refuted). Also: propriety with bias=True, not with bias=False (C38_dss_unbiased_refuted)."
  },
  {
   "property": "C39",
   "status": "proved",
   "theorems": [
    "C39_exponential",
    "C39_exponentialM",
    "C39_2pexponential",
    "C39_laplace",
    "C39_logistic",
    "C39_uniform",
    "C39_gpd"
   ],
   "note": "Improper integral (Coquelicot is_RInt_gen) over the whole line; finite parameters and observations. gpd: all shapes below 1. exponentialM: float observations of the full shape."
  },
  {
   "property": "C40",
   "status": "proved",
   "theorems": [
    "C40_normal",
    "C40_logistic",
    "C40_laplace",
    "C40_t",
    "C40_gpd",
    "C40_uniform",
    "C40_gtclogistic",
    "C40_tlogistic",
    "C40_clogistic",
    "C40_gtcnormal",
    "C40_tnormal",
    "C40_cnormal",
    "C40_gtct",
    "C40_tt",
    "C40_ct",
    "C40_2pexponential",
    "C40_2pnormal",
    "C40_exponential",
    "C40_gamma",
    "C40_csg0",
    "C40_lognormal",
    "C40_loglogistic",
    "C40_loglaplace",
    "C40_gev",
    "C40_exponentialM",
    "C40_beta"
   ],
   "note": "One theorem per family; the argument arrays broadcast, the translation and the scale factor may vary per entry (gev: constants). All values including infinities and NaN, except exponentialM (finite values, float observations of the full shape, positive scales) and beta (finite bounds, lower < upper). Log families: scaling of the observation. exponential and gamma: scaling by a rate. mixnorm and binomial, poisson, negbinom, hypergeometric are not in the claim."
  },
  {
   "property": "C41",
   "status": "proved",
   "theorems": [
    "C41_exponential",
    "C41_2pexponential",
    "C41_laplace",
    "C41_logistic",
    "C41_normal",
    "C41_2pnormal",
    "C41_lognormal",
    "C41_loglaplace",
    "C41_loglogistic",
    "C41_uniform",
    "C41_exponential2",
    "C41_gpd",
    "C41_gev",
    "C41_tnormal",
    "C41_tlogistic",
    "C41_mixnorm",
    "C41_gibbs",
    "C41_gibbs_discrete",
    "C41_gamma",
    "C41_gamma_scale",
    "C41_beta",
    "C41_t",
    "C41_tt",
    "C41_gamma_exponential_refuted",
    "C41_fraction_refuted",
    "C41_poisson",
    "C41_binomial",
    "C41_hypergeometric",
    "C41_negbinom",
    "C41_negbinom_mean",
    "C41_negbinom_small_size_refuted",
    "C41_binomial_certain_refuted"
   ],
   "note": "All 25 families. Exceptions, each with a counterexample: negative binomial with size below one (C41_negbinom_small_size_refuted), binomial with success probability one (C41_binomial_certain_refuted), binomial and hypergeometric at non-integer observations (C41_fraction_refuted), gamma at 0 (C41_gamma_exponential_refuted). Beta excludes observations at the two ends of the support."
  },
  {
   "property": "C42",
   "status": "proved",
   "theorems": [
    "C42_reduction",
    "C42_log_score",
    "C42_likelihood_scores",
    "C42_conditional_mass",
    "C42_silverman",
    "C42_silverman_one_member",
    "C42_silverman_ties_refuted",
    "C42_array_bounds_refuted",
    "C42_array_bounds_mixed_refuted"
   ],
   "note": "Scalar bounds, finite inputs; also the values of the scores for finite or infinite scalar bounds and Silverman's bandwidths. Array bounds align with the ensemble axis (C42_array_bounds_refuted, C42_array_bounds_mixed_refuted)."
  },
  {
   "property": "C43",
   "status": "proved",
   "theorems": [
    "C43_crps_gamma",
    "C43_crps_csg0",
    "C43_logs_gamma",
    "C43_crps_negbinom",
    "C43_logs_negbinom",
    "C43_gamma_scale",
    "C43_negbinom_mean",
    "C43_crps_beta",
    "C43_gpd_nan",
    "C43_negative_scale_refuted",
    "C43_exponentialM_scalar_obs_refuted",
    "C43_exponentialM_integer_refuted"
   ],
   "note": "Not checked by the library: the sign of the scale (C43_negative_scale_refuted). crps_exponentialM refuses some broadcastable or integer arguments: C43_exponentialM_scalar_obs_refuted, C43_exponentialM_integer_refuted."
  },
  {
   "property": "C44",
   "status": "proved",
   "theorems": [
    "C44_exponentialM_after",
    "C44_exponentialM_refuted",
    "C44_logs_exponential2_after",
    "C44_logs_exponential2_refuted"
   ],
   "note": "False for crps_exponentialM and logs_exponential2: C44_exponentialM_refuted, C44_logs_exponential2_refuted. The other scores assign to no argument in place, by inspection: the model gives them no memory."
  },
  {
   "property": "C45",
   "status": "proved",
   "theorems": [
    "C45_import",
    "C45_numpy_registered",
    "C45_registered_usable",
    "C45_get",
    "C45_get_stable",
    "C45_register_again_refuted",
    "C45_active",
    "C45_active_usable",
    "C45_set_active_unchecked_refuted",
    "C45_register"
   ],
   "note": "set_active accepts names that are not available (C45_set_active_unchecked_refuted); registering again replaces the instance (C45_register_again_refuted)."
  },
  {
   "property": "C46",
   "status": "proved",
   "theorems": [
    "C46_weights",
    "C46_last_axis_refuted",
    "C46_transposed_refuted"
   ],
   "note": "False when the variable axis precedes the ensemble axis: C46_last_axis_refuted, C46_transposed_refuted."
  },
  {
   "property": "C47",
   "status": "proved",
   "theorems": [
    "C47_point_forecast",
    "C47_between"
   ],
   "note": ""
  },
  {
   "property": "C48",
   "status": "proved",
   "theorems": [
    "C48_chain",
    "C48_outcome_weighted",
    "C48_vertical",
    "C48_weighted_array",
    "C48_unit",
    "C48_nonnegative",
    "C48_numba_refuted"
   ],
   "note": "The compiled implementation with weights never runs: C48_numba_refuted."
  },
  {
   "property": "C49",
   "status": "proved",
   "theorems": [
    "C49_array_types",
    "C49_numba_types_refuted"
   ],
   "note": "False for the compiled implementation: C49_numba_types_refuted."
  },
  {
   "property": "C50",
   "status": "proved",
   "theorems": [
    "C50_shapes",
    "C50_negative_function",
    "C50_negative_weight",
    "C50_weight_shape",
    "C50_estimator",
    "C50_internal_names"
   ],
   "note": "The two internal numba names raise TypeError: C50_internal_names."
  },
  {
   "property": "C51",
   "status": "proved",
   "theorems": [
    "C51_chain",
    "C51_outcome_weighted",
    "C51_vertical",
    "C51_weighted",
    "C51_unit",
    "C51_nonnegative"
   ],
   "note": ""
  },
  {
   "property": "C52",
   "status": "proved",
   "theorems": [
    "C52_array_types",
    "C52_numba_integer_refuted"
   ],
   "note": "False for the compiled implementation: C52_numba_integer_refuted."
  },
  {
   "property": "C53",
   "status": "proved",
   "theorems": [
    "C53_chain",
    "C53_chain_weighted",
    "C53_default",
    "C53_mv_chain",
    "C53_outcome",
    "C53_vertical",
    "C53_weighted",
    "C53_mv_weighted",
    "C53_mv_numba_refuted",
    "C53_unit",
    "C53_nonnegative"
   ],
   "note": "The compiled multivariate ow and vr scores with weights never run: C53_mv_numba_refuted."
  },
  {
   "property": "C54",
   "status": "proved",
   "theorems": [
    "C54_uv_shapes",
    "C54_mv_shapes",
    "C54_negative_function",
    "C54_negative_weight",
    "C54_weight_shape",
    "C54_estimator",
    "C54_internal_names",
    "C54_nan"
   ],
   "note": "The two internal numba names raise TypeError: C54_internal_names."
  },
  {
   "property": "C55",
   "status": "proved",
   "theorems": [
    "C55_symmetric",
    "C55_skewness_refuted"
   ],
   "note": "False for skewed ensembles: C55_skewness_refuted; C55_symmetric is the case without skewness."
  },
  {
   "property": "C56",
   "status": "proved",
   "theorems": [
    "C56_normal",
    "C56_gtcnormal",
    "C56_tnormal",
    "C56_cnormal",
    "C56_2pnormal"
   ],
   "note": ""
  },
  {
   "property": "C57",
   "status": "proved",
   "theorems": [
    "C57_gtclogistic",
    "C57_tlogistic",
    "C57_clogistic",
    "C57_one_sided_nan",
    "C57_tlogistic_one_sided_refuted"
   ],
   "note": "Both bounds finite or both infinite. One infinite bound: C57_one_sided_nan shows the result is always NaN, C57_tlogistic_one_sided_refuted a case where the integral exists."
  },
  {
   "property": "C58",
   "status": "proved",
   "theorems": [
    "C58_t",
    "C58_gtct",
    "C58_tt",
    "C58_ct",
    "C58_bound_at_location_nan",
    "C58_tt_at_location_refuted"
   ],
   "note": "The scores are NaN when a finite bound equals the location (C58_bound_at_location_nan, C58_tt_at_location_refuted)."
  },
  {
   "property": "C59",
   "status": "proved",
   "theorems": [
    "C59_beta",
    "C59_beta_outside_nan",
    "C59_beta_outside_refuted"
   ],
   "note": "Observations in [lower, upper]. Outside the support the score is NaN (C59_beta_outside_nan, C59_beta_outside_refuted)."
  },
  {
   "property": "C60",
   "status": "proved",
   "theorems": [
    "C60_loglaplace",
    "C60_loglaplace_nonpositive_nan",
    "C60_loglogistic",
    "C60_loglogistic_negative_nan",
    "C60_lognormal",
    "C60_lognormal_negative_nan",
    "C60_negative_refuted"
   ],
   "note": "Positive observations. Elsewhere the scores are NaN (C60_loglaplace_nonpositive_nan, C60_loglogistic_negative_nan, C60_lognormal_negative_nan, C60_negative_refuted)."
  },
  {
   "property": "C61",
   "status": "proved",
   "theorems": [
    "C61_mixnorm"
   ],
   "note": ""
  },
  {
   "property": "C62",
   "status": "proved",
   "theorems": [
    "C62_gamma",
    "C62_gamma_scale",
    "C62_csg0",
    "C62_csg0_scale",
    "C62_csg0_negative_refuted"
   ],
   "note": "crps_gamma for every observation, crps_csg0 for observations >= 0. For a negative observation crps_csg0 is not the CRPS of the censored distribution (C62_csg0_negative_refuted)."
  },
  {
   "property": "C63",
   "status": "proved",
   "theorems": [
    "C63_gev",
    "C63_gumbel",
    "C63_mixed",
    "C63_gumbel_exact_refuted",
    "C63_euler"
   ],
   "note": "Shape below one only: for shape >= 1 the CRPS integral diverges. Exact equality at shape zero is refuted (C63_gumbel_exact_refuted); the discrepancy is bounded by 2e-36 times the scale. The model has no gamma function at negative arguments."
  },
  {
   "property": "C64",
   "status": "proved",
   "theorems": [
    "C64_poisson",
    "C64_negbinom",
    "C64_negbinom_mean",
    "C64_hypergeometric",
    "C64_hypergeometric_refuted"
   ],
   "note": "crps_hypergeometric is modelled here for a number of failures without axes (arrays: C68); C64_hypergeometric_refuted shows the missing counts."
  },
  {
   "property": "C65",
   "status": "proved",
   "theorems": [
    "C65_value",
    "C65_singular",
    "C65_few_members",
    "C65_agree",
    "C65_one_variable",
    "C65_one_variable_refuted",
    "C65_affine",
    "C65_permutation",
    "C65_proper",
    "C65_nan"
   ],
   "note": "np.linalg.inv and det are exact; a single member (RuntimeError in numba's np.cov) is modelled but no theorem is about it."
  },
  {
   "property": "C66",
   "status": "proved",
   "theorems": [
    "C66_isotonic",
    "C66_reliability",
    "C66_lengths",
    "C66_decomposition",
    "C66_zero",
    "C66_order",
    "C66_ties_refuted"
   ],
   "note": "One-dimensional arrays of finite numbers; scipy's isotonic_regression is modelled by pool adjacent violators and proved to be the unique least-squares fit. Plotting and the bootstrap band are not modelled."
  },
  {
   "property": "C67",
   "status": "proved",
   "theorems": [
    "C67_single",
    "C67_vector",
    "C67_array",
    "C67_certain",
    "C67_certain_refuted",
    "C67_lengths",
    "C67_empty",
    "C67_matrix",
    "C67_column",
    "C67_columns",
    "C67_matrix_refuted"
   ],
   "note": "Arithmetic without rounding. Numbers of trials that are not natural numbers are not covered; the matrix cases are C67_matrix and C67_matrix_refuted."
  },
  {
   "property": "C68",
   "status": "proved",
   "theorems": [
    "C68_elementwise",
    "C68_broadcast"
   ],
   "note": "The restriction on the number of failures is necessary, see C64_hypergeometric_refuted."
  },
  {
   "property": "C69",
   "status": "proved",
   "theorems": [
    "C69_value",
    "C69_nonneg",
    "C69_lipschitz",
    "C69_same",
    "C69_affine",
    "C69_reflect",
    "C69_insample"
   ],
   "note": "The catalogue is the inductive definition closed_crps in S_catalog.v; crps_gev (C63), crps_binomial (C67) and the array form of crps_hypergeometric (C68) are not in it. Arithmetic without rounding."
  },
  {
   "property": "C70",
   "status": "proved",
   "theorems": [
    "C70_2pnormal",
    "C70_2pexponential",
    "C70_exponentialM",
    "C70_gpd_exponential",
    "C70_gpd_uniform",
    "C70_unbounded_normal",
    "C70_unbounded_logistic",
    "C70_unbounded_t",
    "C70_censored_normal",
    "C70_censored_logistic",
    "C70_censored_t",
    "C70_beta",
    "C70_gamma",
    "C70_csg0",
    "C70_gamma_rate",
    "C70_negbinom",
    "C70_mixnorm"
   ],
   "note": "Arithmetic without rounding."
  },
  {
   "property": "C71",
   "status": "proved",
   "theorems": [
    "C71_brier",
    "C71_brier_closed",
    "C71_partition",
    "C71_partition_weighted",
    "C71_rps_crps",
    "C71_two_categories",
    "C71_wis_quantile",
    "C71_dss_logs"
   ],
   "note": "Arithmetic without rounding. The Brier identity for closed forms is for calls of the catalogue closed_crps (S_catalog.v)."
  },
  {
   "property": "C72",
   "status": "proved",
   "theorems": [
    "C72_value",
    "C72_same",
    "C72_units",
    "C72_lognormal",
    "C72_loglaplace",
    "C72_loglogistic",
    "C72_2pnormal",
    "C72_2pexponential",
    "C72_exponential2",
    "C72_gpd_exponential",
    "C72_gpd_uniform",
    "C72_unbounded_normal",
    "C72_unbounded_logistic",
    "C72_unbounded_t",
    "C72_beta",
    "C72_gamma",
    "C72_gamma_rate",
    "C72_negbinom",
    "C72_mixnorm",
    "C72_ensemble",
    "C72_bernoulli",
    "C72_proper"
   ],
   "note": "The catalogue is the inductive definition closed_logs in S_catlogs.v, with the hypotheses of C41 (observations off the ends of the support for beta and gpd, integer counts for binomial and hypergeometric, size at least 1 for negbinom). Arithmetic without rounding."
  },
  {
   "property": "C73",
   "status": "proved",
   "theorems": [
    "C73_factorial",
    "C73_lgamma",
    "C73_torch_gamma_beta",
    "C73_comb",
    "C73_comb_jax_refuted",
    "C73_comb_rounding",
    "C73_poisson",
    "C73_binomial",
    "C73_binomial_jax_refuted",
    "C73_hypergeometric_jax",
    "C73_hypergeometric_torch",
    "C73_hypergeometric_jax_refuted",
    "C73_negbinom_value",
    "C73_negbinom",
    "C73_negbinom_refuted",
    "C73_negbinom_mass_refuted"
   ],
   "note": "The libraries jax and torch are not in /repo; what is assumed of lgamma, factorial and // is stated in M_backend.v. Arithmetic without rounding; C73_comb_rounding says what one rounding error does."
  },
  {
   "property": "C74",
   "status": "proved",
   "theorems": [
    "C74_crps_nan_two",
    "C74_crps_nan_three",
    "C74_crps_nan_four",
    "C74_crps_nan_five",
    "C74_crps_nan_six",
    "C74_crps_nan_seven",
    "C74_crps_nan_eight",
    "C74_logs_nan_three",
    "C74_logs_nan_four",
    "C74_logs_not_finite_two",
    "C74_logs_not_finite_three",
    "C74_logs_not_finite_four",
    "C74_logs_not_finite_five",
    "C74_infinite_two",
    "C74_infinite_three",
    "C74_infinite_four",
    "C74_infinite_uniform",
    "C74_infinite_truncated",
    "C74_infinite_below_refuted",
    "C74_infinite_poisson_refuted",
    "C74_infinite_negbinom_refuted",
    "C74_infinite_2pnormal_refuted",
    "C74_logs_uniform_nan_refuted"
   ],
   "note": "Not covered: beta, GEV, hypergeometric, binomial, mixture normal, log-Laplace CRPS and the point-mass exponential for NaN parameters; infinite parameters."
  },
  {
   "property": "C75",
   "status": "proved",
   "theorems": [
    "C75_crps",
    "C75_crps_weighted",
    "C75_energy",
    "C75_energy_weighted",
    "C75_quantile",
    "C75_interval"
   ],
   "note": ""
  },
  {
   "property": "C76",
   "status": "proved",
   "theorems": [
    "C76_crps_obs",
    "C76_crps_obs_weighted",
    "C76_energy_obs",
    "C76_crps_pool",
    "C76_crps_pool_weighted",
    "C76_energy_pool",
    "C76_energy_pool_weighted",
    "C76_fair_pool_refuted"
   ],
   "note": ""
  },
  {
   "property": "C77",
   "status": "proved",
   "theorems": [
    "C77_expand_dims",
    "C77_expand_dims_stop",
    "C77_expand_dims_code",
    "C77_apply_last",
    "C77_apply_numpy",
    "C77_apply_square",
    "C77_apply_axis_refuted",
    "C77_apply_fallback_refuted",
    "C77_apply_fallback"
   ],
   "note": ""
  },
  {
   "property": "C78",
   "status": "proved",
   "theorems": [
    "C78_interp",
    "C78_percentile",
    "C78_band",
    "C78_bounds",
    "C78_monotone",
    "C78_swap",
    "C78_alpha",
    "C78_domain",
    "C78_bandtype"
   ],
   "note": ""
  },
  {
   "property": "C79",
   "status": "proved",
   "theorems": [
    "C79_omit",
    "C79_clean",
    "C79_raise",
    "C79_other",
    "C79_axis"
   ],
   "note": ""
  },
  {
   "property": "C80",
   "status": "proved",
   "theorems": [
    "C80_twcrps",
    "C80_owcrps",
    "C80_vrcrps",
    "C80_energy",
    "C80_kernel_uv",
    "C80_kernel_mv",
    "C80_variogram"
   ],
   "note": ""
  },
  {
   "property": "C81",
   "status": "proved",
   "theorems": [
    "C81_rounding",
    "C81_quantile",
    "C81_quantile_error",
    "C81_brier",
    "C81_interval",
    "C81_unrounded"
   ],
   "note": "over the reals with an explicit rounding function (Flocq); overflow and negative zero are not modelled"
  },
  {
   "property": "C82",
   "status": "proved",
   "theorems": [
    "C82_qd",
    "C82_qd_nonneg",
    "C82_nrg",
    "C82_fair",
    "C82_nrg_nonneg",
    "C82_nrg_nonneg_refuted",
    "C82_unrounded"
   ],
   "note": "over the reals with an explicit rounding function (Flocq); overflow and negative zero are not modelled; akr, akr_circperm and pwm are in C83, int in C85"
  },
  {
   "property": "C83",
   "status": "proved",
   "theorems": [
    "C83_nrg",
    "C83_fair",
    "C83_akr",
    "C83_pwm",
    "C83_perfect",
    "C83_pwm_perfect_refuted",
    "C83_unrounded"
   ],
   "note": "over the reals with an explicit rounding function (Flocq); overflow and negative zero are not modelled; int is in C85"
  },
  {
   "property": "C84",
   "status": "proved",
   "theorems": [
    "C84_value",
    "C84_ensemble_df",
    "C84_triangle",
    "C84_ensembles",
    "C84_observation",
    "C84_area"
   ],
   "note": "the triangle inequality asks that the two distribution functions are nondecreasing with values in [0, 1] (proved for ensembles; for closed forms a hypothesis, since masses outside [0, 1] are accepted); gev and binomial are not in the catalogue"
  },
  {
   "property": "C85",
   "status": "proved",
   "theorems": [
    "C85_arr",
    "C85_kernel",
    "C85_nonneg",
    "C85_perfect",
    "C85_unrounded"
   ],
   "note": "over the reals with an explicit rounding function (Flocq); overflow and negative zero are not modelled; the relative errors exclude underflow of the gaps"
  },
  {
   "property": "C86",
   "status": "proved",
   "theorems": [
    "C86_split",
    "C86_split_weighted",
    "C86_halves",
    "C86_monotone",
    "C86_monotone_refuted",
    "C86_bounded"
   ],
   "note": "real members and observations; v_func = None (clipping at the thresholds)"
  },
  {
   "property": "C87",
   "status": "proved",
   "theorems": [
    "C87_crps",
    "C87_energy",
    "C87_energy_bias",
    "C87_kernel",
    "C87_kernel_bias",
    "C87_variogram"
   ],
   "note": "populations are finite and uniform; general distributions are not treated; the bias of nrg is proved for the energy, univariate kernel and variogram score (CRPS: C03)"
  },
  {
   "property": "C88",
   "status": "proved",
   "theorems": [
    "C88_crps",
    "C88_energy",
    "C88_kernel",
    "C88_variogram",
    "C88_operations"
   ],
   "note": "two distributions are compared by the weighted means of all functions; the threshold-weighted CRPS is compared between weighted ensembles; the fair, pwm and akr estimators depend on the ensemble size and are outside the claim"
  },
  {
   "property": "C89",
   "status": "proved",
   "theorems": [
    "C89_norm",
    "C89_nrg",
    "C89_fair",
    "C89_akr",
    "C89_nonneg",
    "C89_perfect",
    "C89_unrounded"
   ],
   "note": "coordinates of members and observation are equal or at least 2^-400 apart; no overflow; the norm of numba (BLAS) is a parameter, assumed to have a relative error of n roundings"
  },
  {
   "property": "C90",
   "status": "proved",
   "theorems": [
    "C90_quantiles_error",
    "C90_quantiles",
    "C90_wis_error",
    "C90_wis",
    "C90_rps_error",
    "C90_rps",
    "C90_log",
    "C90_log_finite_refuted",
    "C90_unrounded"
   ],
   "note": "distances are 0 or at least 2^-800, weights 2^-50, levels 2^-100, probabilities 2^-400; the rounding of the logarithm itself is not modelled; C90_log_finite_refuted: log_score adds fct + obs - 1 from the left, so an event of probability below 2^-54 that happens scores +inf"
  },
  {
   "property": "C91",
   "status": "proved",
   "theorems": [
    "C91_value",
    "C91_distance",
    "C91_triangle",
    "C91_observation",
    "C91_lipschitz",
    "C91_slope_sharp",
    "C91_range"
   ],
   "note": "the weighted estimators that are wrong in the array implementation (fair; univariate akr_circperm) are left out, see C37"
  },
  {
   "property": "C92",
   "status": "proved",
   "theorems": [
    "C92_energy_value",
    "C92_energy_distance",
    "C92_energy_triangle",
    "C92_energy_observation",
    "C92_vario_triangle",
    "C92_vario_stable",
    "C92_rps"
   ],
   "note": "the estimators other than nrg are not squared distances; their stability is C75 (energy) and C91 (kernel)"
  },
  {
   "property": "C93",
   "status": "proved",
   "theorems": [
    "C93_weights",
    "C93_crps_nrg",
    "C93_crps_akr",
    "C93_es_nrg",
    "C93_es_akr",
    "C93_nonneg",
    "C93_perfect",
    "C93_unrounded"
   ],
   "note": "differences of values are 0 or at least 2^-400; fair is C94, qd is C95, pwm is C96 and int is C97"
  },
  {
   "property": "C94",
   "status": "proved",
   "theorems": [
    "C94_constant",
    "C94_balanced",
    "C94_crps_fair",
    "C94_es_fair",
    "C94_lost",
    "C94_fair_refuted",
    "C94_perfect",
    "C94_unrounded"
   ],
   "note": "differences of values are 0 or at least 2^-400; finiteness for any two positive weights is refuted (C94_fair_refuted)"
  },
  {
   "property": "C95",
   "status": "proved",
   "theorems": [
    "C95_qd",
    "C95_agree",
    "C95_perfect",
    "C95_nonnegative_refuted",
    "C95_unrounded"
   ],
   "note": "differences of values are 0 or at least 2^-400; that the computed score is never negative is refuted (C95_nonnegative_refuted)"
  },
  {
   "property": "C96",
   "status": "proved",
   "theorems": [
    "C96_pwm",
    "C96_lost",
    "C96_finite_refuted",
    "C96_unrounded"
   ],
   "note": "differences of values are 0 or at least 2^-400; finiteness for any two positive weights is refuted (C96_finite_refuted)"
  },
  {
   "property": "C97",
   "status": "proved",
   "theorems": [
    "C97_int",
    "C97_agree",
    "C97_nonnegative",
    "C97_perfect",
    "C97_relative_refuted",
    "C97_unrounded"
   ],
   "note": "differences of values are 0 or at least 2^-400; a bound relative to the score is refuted (C97_relative_refuted)"
  },
  {
   "property": "C98",
   "status": "proved",
   "theorems": [
    "C98_ow",
    "C98_agree",
    "C98_perfect",
    "C98_nonnegative_refuted",
    "C98_unrounded"
   ],
   "note": "differences of values are 0 or at least 2^-400; the sign of the score is refuted (C98_nonnegative_refuted)"
  },
  {
   "property": "C99",
   "status": "proved",
   "theorems": [
    "C99_vr",
    "C99_agree",
    "C99_perfect",
    "C99_nonnegative_refuted",
    "C99_unrounded"
   ],
   "note": "values and differences of values are 0 or at least 2^-400; the sign of the score is refuted (C99_nonnegative_refuted), even for a perfect forecast"
  },
  {
   "property": "C100",
   "status": "proved",
   "theorems": [
    "C100_ow",
    "C100_vr",
    "C100_agree",
    "C100_perfect",
    "C100_nonnegative_refuted",
    "C100_unrounded"
   ],
   "note": "coordinates and differences of coordinates are 0 or at least 2^-400; the sign of the scores is refuted (C100_nonnegative_refuted)"
  },
  {
   "property": "C101",
   "status": "proved",
   "theorems": [
    "C101_powers",
    "C101_vs",
    "C101_agree",
    "C101_nonnegative",
    "C101_perfect_refuted",
    "C101_unrounded"
   ],
   "note": "differences of coordinates are 0 or at least 2^-e with e * q <= 340 for an integer q >= p; that a perfect forecast scores zero is refuted (C101_perfect_refuted)"
  },
  {
   "property": "C102",
   "status": "proved",
   "theorems": [
    "C102_fair",
    "C102_agree",
    "C102_perfect",
    "C102_unrounded"
   ],
   "note": "differences of coordinates are 0 or at least 2^-e with e * q <= 340 for an integer q >= p; at least two members"
  },
  {
   "property": "C103",
   "status": "proved",
   "theorems": [
    "C103_ow",
    "C103_agree",
    "C103_perfect",
    "C103_unrounded"
   ],
   "note": "differences of coordinates are 0 or at least 2^-e with e * q <= 97 for an integer q >= p, so that no product or quotient underflows"
  }
 ]
}