{
 "claims": [
  {
   "property": "C01",
   "status": "proved",
   "theorems": [
    "C01_filter_optimal",
    "C01_models_realised"
   ],
   "note": ""
  },
  {
   "property": "C02",
   "status": "proved",
   "theorems": [
    "C02_smooth_optimal"
   ],
   "note": ""
  },
  {
   "property": "C03",
   "status": "proved",
   "theorems": [
    "C03_pair_covariance"
   ],
   "note": ""
  },
  {
   "property": "C04",
   "status": "proved",
   "theorems": [
    "C04_loglikelihood_is_joint_density",
    "C04_joint_covariance_pd",
    "C04_density_over_the_reals"
   ],
   "note": ""
  },
  {
   "property": "C05",
   "status": "partial",
   "theorems": [
    "C05_filter_causal",
    "C05_future_irrelevant",
    "C05_additive_unscented_causal",
    "C05_unscented_causal",
    "C05_cholesky_causal",
    "C05_cholesky_future_irrelevant",
    "C05_bierman_causal_partial",
    "C05_bierman_future_irrelevant",
    "C05_sqrt_unscented_causal",
    "C05_sqrt_unscented_future_irrelevant"
   ],
   "note": "REFUTED for BiermanKalmanFilter with k = 0, where the empty prefix raises IndexError (C29_no_observations_refuted). Every other class, and k > 0, proved."
  },
  {
   "property": "C06",
   "status": "proved",
   "theorems": [
    "C06_mask_hides_data",
    "C06_mask_hides_data_1d",
    "C06_cholesky_mask_hides",
    "C06_bierman_mask_hides",
    "C06_unscented_mask_hides",
    "C06_unscented_update_mask_hides"
   ],
   "note": ""
  },
  {
   "property": "C07",
   "status": "proved",
   "theorems": [
    "C07_missing_is_prediction",
    "C07_missing_loglikelihood",
    "C07_unscented_missing",
    "C07_augmented_missing"
   ],
   "note": ""
  },
  {
   "property": "C08",
   "status": "proved",
   "theorems": [
    "C08_filter_mask_only",
    "C08_smooth_mask_only"
   ],
   "note": ""
  },
  {
   "property": "C09",
   "status": "proved",
   "theorems": [
    "C09_covariances_valid_and_shrink"
   ],
   "note": ""
  },
  {
   "property": "C10",
   "status": "proved",
   "theorems": [
    "C10_online_equals_batch"
   ],
   "note": ""
  },
  {
   "property": "C11",
   "status": "proved",
   "theorems": [
    "C11_update_refuses",
    "C11_explicit_arguments_win",
    "C11_all_explicit"
   ],
   "note": ""
  },
  {
   "property": "C12",
   "status": "proved",
   "theorems": [
    "C12_stacked_filter",
    "C12_stacked_smooth"
   ],
   "note": ""
  },
  {
   "property": "C13",
   "status": "proved",
   "theorems": [
    "C13_stack_lengths"
   ],
   "note": ""
  },
  {
   "property": "C14",
   "status": "proved",
   "theorems": [
    "C14_filter_shapes",
    "C14_smooth_shapes",
    "C14_smooth_empty"
   ],
   "note": ""
  },
  {
   "property": "C15",
   "status": "proved",
   "theorems": [
    "C15_constructor_succeeds_iff",
    "C15_constructor_error",
    "C15_constructor_keeps_arguments",
    "C15_unscented_constructor_succeeds_iff",
    "C15_unscented_constructor_error",
    "C15_unscented_constructor_keeps_arguments"
   ],
   "note": "KalmanFilter and the unscented classes."
  },
  {
   "property": "C16",
   "status": "proved",
   "theorems": [
    "C16_defaults_and_promotion",
    "C16_first_value_wins",
    "C16_unknown_name",
    "C16_missing_name",
    "C16_unscented_defaults",
    "C16_unscented_defaults_update",
    "C16_unscented_defaults_sample"
   ],
   "note": ""
  },
  {
   "property": "C17",
   "status": "proved",
   "theorems": [
    "C17_no_entry_lost",
    "C17_idempotent",
    "C17_arrays_unchanged",
    "C17_series_is_column"
   ],
   "note": ""
  },
  {
   "property": "C18",
   "status": "partial",
   "theorems": [
    "C18_single_row_refuted",
    "C18_single_row_always_fails",
    "C18_one_dimension_partial"
   ],
   "note": "REFUTED: a 1 x m array (m >= 2) is transposed and filter always raises; the statement is false of the code. The one-dimensional case holds."
  },
  {
   "property": "C19",
   "status": "proved",
   "theorems": [
    "C19_only_selected",
    "C19_all",
    "C19_default",
    "C19_constructor",
    "C19_single_string_selects_nothing"
   ],
   "note": "Includes the negative fact that a single name given as a string estimates nothing."
  },
  {
   "property": "C20",
   "status": "proved",
   "theorems": [
    "C20_iterations_compose",
    "C20_failure_is_final",
    "C20_zero_iterations",
    "C20_in_call_sequences"
   ],
   "note": ""
  },
  {
   "property": "C21",
   "status": "proved",
   "theorems": [
    "C21_mstep_maximises"
   ],
   "note": "Each selected parameter is the constant-in-time maximiser; covariance maximisers are over positive definite matrices whenever the estimate is positive definite."
  },
  {
   "property": "C22",
   "status": "partial",
   "theorems": [
    "C22_likelihood_never_decreases_partial",
    "C22_time_varying_refuted",
    "C22_logarithm_exists"
   ],
   "note": "REFUTED when an estimated parameter was given per time step: the likelihood can decrease (C22_time_varying_refuted). Proved for estimated parameters (and their noise weights) constant in time, positive definite covariances; positive definiteness of a re-estimated observation covariance is a hypothesis. Constant observation covariance (C47)."
  },
  {
   "property": "C23",
   "status": "proved",
   "theorems": [
    "C23_covariances_stay_valid"
   ],
   "note": ""
  },
  {
   "property": "C24",
   "status": "proved",
   "theorems": [
    "C24_last_completed_iteration",
    "C24_settings_unchanged",
    "C24_bad_seed_unchanged",
    "C24_resumes"
   ],
   "note": ""
  },
  {
   "property": "C25",
   "status": "proved",
   "theorems": [
    "C25_queries_keep_the_object",
    "C25_replies_do_not_depend_on_history",
    "C25_only_em_matters"
   ],
   "note": "Over the call-sequence model of Client.v; arrays are values there, so writes through aliased buffers are outside the model."
  },
  {
   "property": "C26",
   "status": "proved",
   "theorems": [
    "C26_state_coordinates",
    "C26_state_coordinates_loglikelihood"
   ],
   "note": ""
  },
  {
   "property": "C27",
   "status": "partial",
   "theorems": [
    "C27_observation_recoding_partial",
    "C27_singular_noise_refuted"
   ],
   "note": "REFUTED for singular observation noise with readings that contradict each other (C27_singular_noise_refuted). Proved for positive definite observation noise."
  },
  {
   "property": "C28",
   "status": "partial",
   "theorems": [
    "C28_cholesky_equals_kalman_partial",
    "C28_em_equals_kalman",
    "C28_em_estimates_states",
    "C28_not_positive_definite",
    "C28_varying_covariance_rejected",
    "C28_varying_covariance_refuted"
   ],
   "note": "REFUTED for time-varying covariances, which the class rejects (C28_varying_covariance_refuted; scipy before 1.16). Proved for constant positive definite covariances and any valid QR routine."
  },
  {
   "property": "C29",
   "status": "partial",
   "theorems": [
    "C29_bierman_equals_kalman_partial",
    "C29_em_equals_kalman",
    "C29_em_estimates_states",
    "C29_no_observations_refuted",
    "C29_singular_noise_rejected",
    "C29_varying_covariance_rejected",
    "C29_varying_covariance_refuted"
   ],
   "note": "REFUTED for an empty series (IndexError) and for a time-varying observation covariance (ValueError, C29_varying_covariance_refuted; scipy before 1.16). Proved for constant covariances, n >= 1, T >= 1, singular state covariances included."
  },
  {
   "property": "C30",
   "status": "proved",
   "theorems": [
    "C30_udu_factors",
    "C30_empty_rejected",
    "C30_asymmetric_rejected",
    "C30_indefinite_silent"
   ],
   "note": "n >= 1; n = 0 and asymmetric inputs raise (proved); indefinite inputs silently give the factors of another matrix (proved)."
  },
  {
   "property": "C31",
   "status": "proved",
   "theorems": [
    "C31_scalar_update"
   ],
   "note": ""
  },
  {
   "property": "C32",
   "status": "partial",
   "theorems": [
    "C32_cholesky_shape_refuted",
    "C32_cholesky_chain_refuted",
    "C32_bierman_shape_refuted",
    "C32_bierman_chain_refuted",
    "C32_bierman_scalar_state_chains_partial",
    "C32_sqrt_unscented_shape_refuted",
    "C32_sqrt_unscented_chain_refuted"
   ],
   "note": "REFUTED for the three square-root filters: the covariance has an extra leading axis and cannot be passed on (with a scalar state BiermanKalmanFilter accepts it). Plain filters: C10 and C41."
  },
  {
   "property": "C33",
   "status": "partial",
   "theorems": [
    "C33_cholesky_refuted",
    "C33_kalman_partial",
    "C33_bierman_refuted"
   ],
   "note": "REFUTED for CholeskyKalmanFilter and BiermanKalmanFilter (TypeError after the attributes have been filled in). Holds for KalmanFilter."
  },
  {
   "property": "C34",
   "status": "proved",
   "theorems": [
    "C34_sample_follows_the_model",
    "C34_additive_unscented_sample",
    "C34_unscented_sample",
    "C34_trajectory_unique"
   ],
   "note": "KalmanFilter (constant covariances; see C35) and both unscented classes, including uniqueness of the specified trajectory."
  },
  {
   "property": "C35",
   "status": "partial",
   "theorems": [
    "C35_time_varying_covariances_refuted",
    "C35_first_slice_always"
   ],
   "note": "REFUTED: the first slice is used at every step."
  },
  {
   "property": "C36",
   "status": "proved",
   "theorems": [
    "C36_seeded_calls_repeat",
    "C36_frame",
    "C36_explicit_argument_wins",
    "C36_invalid_rejected",
    "C36_unscented_seeded_calls_repeat",
    "C36_unscented_frame",
    "C36_unscented_invalid_rejected",
    "C36_augmented_invalid_rejected",
    "C36_call_sequences"
   ],
   "note": "Invalid values raise AttributeError, not the intended ValueError; the statement says so. Rejection is proved for all three sampling classes."
  },
  {
   "property": "C37",
   "status": "proved",
   "theorems": [
    "C37_sigma_points_exact",
    "C37_not_positive_definite"
   ],
   "note": ""
  },
  {
   "property": "C38",
   "status": "proved",
   "theorems": [
    "C38_exact_on_affine"
   ],
   "note": ""
  },
  {
   "property": "C39",
   "status": "proved",
   "theorems": [
    "C39_additive_equals_kalman"
   ],
   "note": "Constant noise covariances, as the class requires."
  },
  {
   "property": "C40",
   "status": "proved",
   "theorems": [
    "C40_augmented_equals_kalman"
   ],
   "note": "Constant noise covariances, as the class requires."
  },
  {
   "property": "C41",
   "status": "proved",
   "theorems": [
    "C41_additive_online_equals_batch",
    "C41_augmented_online_equals_batch",
    "C41_additive_one_more",
    "C41_augmented_one_more"
   ],
   "note": ""
  },
  {
   "property": "C42",
   "status": "partial",
   "theorems": [
    "C42_one_dimensional_arrays_refuted",
    "C42_only_first_transition_function",
    "C42_only_first_observation_function",
    "C42_two_dimensional_arrays_partial",
    "C42_two_dimensional_arrays_augmented_partial",
    "C42_two_dimensional_arrays_smooth_partial",
    "C42_two_dimensional_arrays_smooth_augmented_partial"
   ],
   "note": "REFUTED for 1-d arrays of functions: only element 0 is ever called. 2-d arrays are honoured."
  },
  {
   "property": "C43",
   "status": "partial",
   "theorems": [
    "C43_wrong_width_rejected_partial",
    "C43_unscented_wrong_width_rejected_partial",
    "C43_augmented_wrong_width_rejected_partial",
    "C43_one_column_broadcast",
    "C43_one_column_broadcast_augmented",
    "C43_one_column_refuted",
    "C43_cholesky_wrong_width_rejected_partial",
    "C43_cholesky_one_dimension_refuted",
    "C43_bierman_wrong_width_rejected_partial",
    "C43_sqrt_unscented_wrong_width_rejected_partial",
    "C43_sqrt_unscented_one_column_broadcast",
    "C43_augmented_one_column_refuted",
    "C43_sqrt_unscented_one_column_refuted"
   ],
   "note": "REFUTED for the three unscented filters given one column, which is broadcast (success exhibited for each), and for CholeskyKalmanFilter with m = 1. Other widths, and KalmanFilter and BiermanKalmanFilter, proved."
  },
  {
   "property": "C44",
   "status": "partial",
   "theorems": [
    "C44_equals_plain_partial",
    "C44_vector_observations_refuted",
    "C44_correlated_noise_refuted",
    "C44_negative_weight_refuted"
   ],
   "note": "False of the code in three independent ways, each refuted by a theorem: two or more observed components (S S^T used for S^T S), a transition covariance that is not diagonal (N N^T added for N^T N), and more than three states (sign of the central weight lost). Proved where it holds: at most one observed component, diagonal transition covariance, and at most three states or affine functions."
  },
  {
   "property": "C45",
   "status": "proved",
   "theorems": [
    "C45_cholupdate",
    "C45_cholupdate_vector"
   ],
   "note": "For every number of vectors and weight of either sign."
  },
  {
   "property": "C46",
   "status": "partial",
   "theorems": [
    "C46_missing_last_refuted",
    "C46_few_observations_refuted",
    "C46_finite_is_right_partial",
    "C46_scalar_state_partial"
   ],
   "note": "REFUTED: with two or more states the result is NaN whenever the last observation is missing, and whenever m + 2 <= n. Under the hypotheses of C44 the result is NaN or the plain one; for a scalar state the plain one."
  },
  {
   "property": "C47",
   "status": "partial",
   "theorems": [
    "C47_stacked_covariance_refuted",
    "C47_constant_covariance_partial"
   ],
   "note": "REFUTED for stacked observation covariances. Holds for constant ones."
  },
  {
   "property": "C48",
   "status": "proved",
   "theorems": [
    "C48_density",
    "C48_jitter",
    "C48_failure"
   ],
   "note": ""
  },
  {
   "property": "C49",
   "status": "partial",
   "theorems": [
    "C49_transform_psd_up_to_three_partial",
    "C49_additive_never_fails_up_to_three_partial",
    "C49_negative_variance_refuted",
    "C49_additive_fails_refuted",
    "C49_augmented_fails_refuted"
   ],
   "note": "REFUTED for every state dimension above three (transform, additive filter); the augmented filter fails from two states on. Holds up to three states for the transform and the additive filter."
  },
  {
   "property": "C50",
   "status": "proved",
   "theorems": [
    "C50_loader",
    "C50_filter_starts_at_prior"
   ],
   "note": "As a function of the contents of the data file (reading the file itself is not modelled)."
  },
  {
   "property": "C51",
   "status": "partial",
   "theorems": [
    "C51_values_used",
    "C51_native_order_partial",
    "C51_byte_order_refuted"
   ],
   "note": "REFUTED for arrays whose byte order is not the native one. Holds for native order."
  },
  {
   "property": "C52",
   "status": "proved",
   "theorems": [
    "C52_classes_draw_the_same"
   ],
   "note": ""
  },
  {
   "property": "C53",
   "status": "proved",
   "theorems": [
    "C53_forecast_filter",
    "C53_forecast_smooth",
    "C53_forecast_loglikelihood"
   ],
   "note": "loglikelihood: constant observation covariance (C47)."
  },
  {
   "property": "C54",
   "status": "proved",
   "theorems": [
    "C54_restart_filter",
    "C54_restart_smooth",
    "C54_restart_loglikelihood"
   ],
   "note": "loglikelihood: constant observation covariance (C47)."
  },
  {
   "property": "C55",
   "status": "proved",
   "theorems": [
    "C55_scaled_covariances"
   ],
   "note": "All c <> 0, also negative."
  },
  {
   "property": "C56",
   "status": "proved",
   "theorems": [
    "C56_known_state"
   ],
   "note": ""
  },
  {
   "property": "C57",
   "status": "proved",
   "theorems": [
    "C57_more_noise_less_certainty",
    "C57_conservative_filter",
    "C57_conservative_smooth"
   ],
   "note": "Second-order processes as in C01."
  },
  {
   "property": "C58",
   "status": "proved",
   "theorems": [
    "C58_subsystems",
    "C58_subsystems_loglikelihood"
   ],
   "note": ""
  },
  {
   "property": "C59",
   "status": "proved",
   "theorems": [
    "C59_recoding_shifts_loglikelihood"
   ],
   "note": "ln is any function with ln (a b) = ln a + ln b on positive arguments."
  },
  {
   "property": "C60",
   "status": "proved",
   "theorems": [
    "C60_sample_prefix",
    "C60_unscented_sample_prefix"
   ],
   "note": "Same generator state is part of the hypothesis; with a seed it holds for any two calls (C36)."
  },
  {
   "property": "C61",
   "status": "partial",
   "theorems": [
    "C61_integer_covariance_refuted",
    "C61_matrix_used",
    "C61_behaves_as_other_matrix",
    "C61_integer_observation_matrices_refuted",
    "C61_diagonal_covariance_partial",
    "C61_single_observation_matrix_partial"
   ],
   "note": "REFUTED: an integer initial covariance [[2, 1], [1, 2]] is used as [[3/2, 1], [1, 2]], and integer observation matrices given per time step are truncated after decorrelation. Holds for diagonal integer covariances and for a single integer observation matrix."
  },
  {
   "property": "C62",
   "status": "partial",
   "theorems": [
    "C62_uninformed_parameter_changed_refuted",
    "C62_all_masked_sets_zero",
    "C62_single_row_sets_zero",
    "C62_state_parameters_kept_partial"
   ],
   "note": "REFUTED: with all rows masked em sets the selected observation parameters to zero (C62_all_masked_sets_zero, for every model), with one row the selected transition parameters (C62_single_row_sets_zero). Holds: initial mean and covariance, and transition offset and covariance when constant in time and the transition matrix is not estimated, are kept when all rows are masked."
  },
  {
   "property": "C63",
   "status": "proved",
   "theorems": [
    "C63_filter_without_the_gap",
    "C63_smooth_without_the_gap",
    "C63_loglikelihood_without_the_gap"
   ],
   "note": "loglikelihood: constant observation covariance (C47)."
  },
  {
   "property": "C64",
   "status": "proved",
   "theorems": [
    "C64_sensors_one_at_a_time",
    "C64_first_update_succeeds",
    "C64_order_of_sensors"
   ],
   "note": ""
  },
  {
   "property": "C65",
   "status": "partial",
   "theorems": [
    "C65_filter_partial",
    "C65_filter_update_partial",
    "C65_smooth_partial",
    "C65_sample_partial",
    "C65_filter_refuted",
    "C65_smooth_refuted",
    "C65_sample_refuted"
   ],
   "note": "REFUTED: an in-place observation function changes filter (mean 4 instead of 2), an in-place transition function changes smooth (2 instead of 1) and the states returned by sample. Holds: filter and filter_update for any transition functions when observation functions leave their arguments alone; smooth and sample when all functions do. The square-root unscented filter is not covered."
  },
  {
   "property": "C66",
   "status": "proved",
   "theorems": [
    "C66_constructor",
    "C66_filter",
    "C66_smooth",
    "C66_loglikelihood",
    "C66_em",
    "C66_filter_update",
    "C66_sample",
    "C66_many_objects"
   ],
   "note": "Heap.v, HeapSample.v."
  },
  {
   "property": "C67",
   "status": "partial",
   "theorems": [
    "C67_snapshot_refuted",
    "C67_unrelated_writes_partial",
    "C67_after_em_partial"
   ],
   "note": "REFUTED: the constructor keeps references and _initialize_parameters makes views, so overwriting the array passed as initial_state_mean changes the filtered mean from 0 to 1. Holds: for writes to arrays the object does not refer to; after a successful em with em_vars=\"all\" the object refers to none of the old arrays."
  },
  {
   "property": "C68",
   "status": "proved",
   "theorems": [
    "C68_additive_units",
    "C68_additive_smooth_units",
    "C68_augmented_units"
   ],
   "note": ""
  },
  {
   "property": "C69",
   "status": "partial",
   "theorems": [
    "C69_component_order_refuted",
    "C69_linear_partial"
   ],
   "note": "REFUTED: two states, f(x) = (0, x2^4): predicted mean 1011 in one order, 1875 in the other. Holds: for affine functions and positive definite covariances, with any invertible change of coordinates."
  },
  {
   "property": "C70",
   "status": "proved",
   "theorems": [
    "C70_needs_functions",
    "C70_arguments_win"
   ],
   "note": ""
  },
  {
   "property": "C71",
   "status": "proved",
   "theorems": [
    "C71_smooth_least_squares",
    "C71_filter_least_squares"
   ],
   "note": ""
  },
  {
   "property": "C72",
   "status": "proved",
   "theorems": [
    "C72_constant_state_is_regression"
   ],
   "note": ""
  },
  {
   "property": "C73",
   "status": "proved",
   "theorems": [
    "C73_state_units",
    "C73_observation_units"
   ],
   "note": ""
  },
  {
   "property": "C74",
   "status": "proved",
   "theorems": [
    "C74_superposition",
    "C74_moving_origin"
   ],
   "note": ""
  },
  {
   "property": "C75",
   "status": "proved",
   "theorems": [
    "C75_monotone",
    "C75_known_start"
   ],
   "note": ""
  },
  {
   "property": "C76",
   "status": "proved",
   "theorems": [
    "C76_order_of_readings"
   ],
   "note": ""
  },
  {
   "property": "C77",
   "status": "proved",
   "theorems": [
    "C77_smooth_curvature",
    "C77_filter_curvature"
   ],
   "note": ""
  },
  {
   "property": "C78",
   "status": "proved",
   "theorems": [
    "C78_backwards"
   ],
   "note": ""
  },
  {
   "property": "C79",
   "status": "proved",
   "theorems": [
    "C79_innovations_white"
   ],
   "note": ""
  },
  {
   "property": "C80",
   "status": "proved",
   "theorems": [
    "C80_kalman",
    "C80_additive",
    "C80_augmented",
    "C80_additive_invertible"
   ],
   "note": ""
  },
  {
   "property": "C81",
   "status": "proved",
   "theorems": [
    "C81_readings_suffice",
    "C81_loglikelihood",
    "C81_average",
    "C81_two_sensors"
   ],
   "note": ""
  },
  {
   "property": "C82",
   "status": "proved",
   "theorems": [
    "C82_noise_free_components"
   ],
   "note": ""
  },
  {
   "property": "C83",
   "status": "proved",
   "theorems": [
    "C83_filter_of_remembering_state"
   ],
   "note": ""
  },
  {
   "property": "C84",
   "status": "proved",
   "theorems": [
    "C84_filter_reduced",
    "C84_smooth_reduced",
    "C84_loglikelihood_reduced"
   ],
   "note": ""
  }
 ]
}
