{
 "claims": [
  {
   "property": "C01",
   "status": "proved",
   "theorems": [
    "C01_slices_partition"
   ],
   "note": "any list of substates, any dofs"
  },
  {
   "property": "C02",
   "status": "proved",
   "theorems": [
    "C02_empty_refuted",
    "C02_plus_then_minus"
   ],
   "note": "any nesting depth with non-empty composites; for an empty composite minus raises (C02_empty_refuted)"
  },
  {
   "property": "C03",
   "status": "proved",
   "theorems": [
    "C03_minus_then_plus"
   ],
   "note": "any nesting depth"
  },
  {
   "property": "C04",
   "status": "proved",
   "theorems": [
    "C04_plus_ignores_extra",
    "C04_plus_noninterference",
    "C04_plus_slicewise",
    "C04_short_perturbation_raises"
   ],
   "note": "slice-wise update, extra entries ignored, non-interference; short perturbation raises for vector leaves"
  },
  {
   "property": "C05",
   "status": "proved",
   "theorems": [
    "C05_distinct_ids_disjoint",
    "C05_get_then_set",
    "C05_set_then_get",
    "C05_single_row_repeated_refuted",
    "C05_wrong_shape_raises"
   ],
   "note": "wrong shapes: ValueError, or repeated single rows (refuted)"
  },
  {
   "property": "C06",
   "status": "proved",
   "theorems": [
    "C06_empty_raises",
    "C06_jacobian_from_blocks",
    "C06_row_mismatch_raises",
    "C06_single_row_repeated_refuted",
    "C06_unknown_id_raises"
   ],
   "note": "row mismatch: ValueError, or repeated single rows (refuted)"
  },
  {
   "property": "C07",
   "status": "proved",
   "theorems": [
    "C07_any_depth",
    "C07_minus_jacobian_block_diagonal",
    "C07_plus_jacobian_block_diagonal",
    "C07_vector_minus_jacobian_is_identity",
    "C07_vector_plus_jacobian_is_identity"
   ],
   "note": "also: identity for composites of vector states, of any depth"
  },
  {
   "property": "C08",
   "status": "proved",
   "theorems": [
    "C08_plus_by_id_new_stamp",
    "C08_plus_by_id_refuted",
    "C08_plus_by_id_returns_unchanged"
   ],
   "note": "the property as stated is FALSE of the code: C08_plus_by_id_refuted; what the code does is C08_plus_by_id_returns_unchanged"
  },
  {
   "property": "C09",
   "status": "proved",
   "theorems": [
    "C09_add",
    "C09_getters",
    "C09_lookup_first_match",
    "C09_remove",
    "C09_set_fields",
    "C09_set_state",
    "C09_set_value_stale_dof_refuted"
   ],
   "note": "getters, setters, add, remove; stale dof after set_value_by_id (refuted)"
  },
  {
   "property": "C10",
   "status": "proved",
   "theorems": [
    "C10_covariance_block_diagonal",
    "C10_evaluate_decoupled",
    "C10_jacobian_block_diagonal"
   ],
   "note": ""
  },
  {
   "property": "C11",
   "status": "proved",
   "theorems": [
    "C11_composite_measurement",
    "C11_evaluate_covariance",
    "C11_jacobian_correct",
    "C11_measurement_lift"
   ],
   "note": "any wrapped model; the composite Jacobian is the derivative with respect to the whole state whenever the wrapped one is (C11_jacobian_correct)"
  },
  {
   "property": "C12",
   "status": "proved",
   "theorems": [
    "C12_run_filter_few_inputs",
    "C12_run_filter_needs_stamp",
    "C12_run_filter_schedule",
    "C12_run_filter_sorts_arguments"
   ],
   "note": "any filter (arbitrary correct/predict which may raise), any stamps in any order; schedule_spec is in RunFilterSpec.v"
  },
  {
   "property": "C13",
   "status": "proved",
   "theorems": [
    "C13_run_filter_results"
   ],
   "note": "any filter satisfying the visible stamp contract"
  },
  {
   "property": "C14",
   "status": "proved",
   "theorems": [
    "C14_stale_data_ignored_partial",
    "C14_stale_inputs_raise_refuted",
    "C14_stale_measurements_fused_refuted"
   ],
   "note": "the property as stated is FALSE of the code when all measurements or all inputs are stale (two _refuted theorems); C14_stale_data_ignored_partial is the part that holds"
  },
  {
   "property": "C15",
   "status": "proved",
   "theorems": [
    "C15_default_dt",
    "C15_negative_dt_raises",
    "C15_no_input_unchanged",
    "C15_no_stamp_raises",
    "C15_predict_covariance",
    "C15_predict_symmetric",
    "C15_unstamped_state"
   ],
   "note": "any process model, any dimension; also default dt, unstamped states, exceptions"
  },
  {
   "property": "C16",
   "status": "proved",
   "theorems": [
    "C16_correct_covariance",
    "C16_correct_covariance_rejecting",
    "C16_predict_then_correct"
   ],
   "note": "with and without outlier rejection; also predict-then-correct decomposition"
  },
  {
   "property": "C17",
   "status": "proved",
   "theorems": [
    "C17_information_form",
    "C17_minimum_variance"
   ],
   "note": ""
  },
  {
   "property": "C18",
   "status": "proved",
   "theorems": [
    "C18_inlier_fused",
    "C18_outlier_unchanged",
    "C18_spkf_unavailable_unchanged",
    "C18_unavailable_unchanged"
   ],
   "note": "EKF and sigma-point filter"
  },
  {
   "property": "C19",
   "status": "proved",
   "theorems": [
    "C19_iekf_stale_raises",
    "C19_spkf_stale_raises",
    "C19_stale_measurement_fused_refuted",
    "C19_very_stale_raises_partial"
   ],
   "note": "promise broken by the EKF (refuted); holds for the iterated and sigma-point filters"
  },
  {
   "property": "C20",
   "status": "proved",
   "theorems": [
    "C20_gain",
    "C20_gain_singular"
   ],
   "note": ""
  },
  {
   "property": "C21",
   "status": "proved",
   "theorems": [
    "C21_covariance_psd",
    "C21_iteration_decreases_cost",
    "C21_outlier_unchanged",
    "C21_returned_cost",
    "C21_zero_iterations_refuted"
   ],
   "note": "also: max_iters = 0 always raises UnboundLocalError"
  },
  {
   "property": "C22",
   "status": "proved",
   "theorems": [
    "C22_line_search_terminates",
    "C22_negative_tolerance_diverges"
   ],
   "note": "over any archimedean ordered field; diverges for a negative tolerance"
  },
  {
   "property": "C23",
   "status": "proved",
   "theorems": [
    "C23_cubature",
    "C23_gauss_hermite",
    "C23_number_of_points",
    "C23_unscented"
   ],
   "note": "any dimension; cubature needs dimension >= 1"
  },
  {
   "property": "C24",
   "status": "proved",
   "theorems": [
    "C24_correct_eq_ekf",
    "C24_correct_predicts_first",
    "C24_correct_with_input_eq_ekf",
    "C24_predict",
    "C24_predict_eq_ekf"
   ],
   "note": "any square root, any rule with standard moments; equality with the EKF model, with and without input, with and without outlier rejection"
  },
  {
   "property": "C25",
   "status": "proved",
   "theorems": [
    "C25_bounded_iterations",
    "C25_empty_raises",
    "C25_order_irrelevant",
    "C25_stops_at_tolerance",
    "C25_weighted_mean"
   ],
   "note": ""
  },
  {
   "property": "C26",
   "status": "proved",
   "theorems": [
    "C26_interaction_preserves_moments",
    "C26_interaction_vector",
    "C26_mixing_columns",
    "C26_predicted_probs",
    "C26_total_probability"
   ],
   "note": "any number of modes; also total probability and preservation of the mixture's first two moments on vector states"
  },
  {
   "property": "C27",
   "status": "proved",
   "theorems": [
    "C27_bayes",
    "C27_gsf_correct_partial",
    "C27_imm_correct",
    "C27_imm_weights",
    "C27_normalized",
    "C27_predict_keeps_probabilities",
    "C27_small_weights_uniform_refuted"
   ],
   "note": "promise broken for small likelihoods (refuted); C27_gsf_correct_partial is restricted to scalar measurements because of C72"
  },
  {
   "property": "C28",
   "status": "proved",
   "theorems": [
    "C28_covariance_psd",
    "C28_empty_raises",
    "C28_single_component",
    "C28_stamp",
    "C28_vector_moments"
   ],
   "note": "PSD, single component and stamp results hold for any state type; moments for vector states"
  },
  {
   "property": "C29",
   "status": "proved",
   "theorems": [
    "C29_same_schedule"
   ],
   "note": "note the IMM runner records the estimate before fusing"
  },
  {
   "property": "C30",
   "status": "proved",
   "theorems": [
    "C30_columns",
    "C30_constants_no_columns",
    "C30_keys_distinct",
    "C30_number_of_columns",
    "C30_partition",
    "C30_readding_keeps_order",
    "C30_stale_columns_refuted"
   ],
   "note": "any history of add_variable, set_variables_constant, add_residual, solve, get_covariance_block; a variable made constant after a solve keeps its stale columns (C30_stale_columns_refuted)"
  },
  {
   "property": "C31",
   "status": "proved",
   "theorems": [
    "C31_constants_and_init"
   ],
   "note": "both solvers, any residuals, losses, iteration limits"
  },
  {
   "property": "C32",
   "status": "proved",
   "theorems": [
    "C32_lm_monotone",
    "C32_lm_never_worse",
    "C32_lm_returns"
   ],
   "note": "any residuals and losses, tau >= 0; strict decrease at every recorded step; LM returns on every well-formed problem"
  },
  {
   "property": "C33",
   "status": "proved",
   "theorems": [
    "C33_global_minimum",
    "C33_succeeds"
   ],
   "note": "any state type with affine residuals; any number of iterations >= 1"
  },
  {
   "property": "C34",
   "status": "proved",
   "theorems": [
    "C34_add_residual",
    "C34_blocks_disjoint",
    "C34_duplicate_key_refuted",
    "C34_rows_covered",
    "C34_short_loss_list_refuted",
    "C34_stacked",
    "C34_unknown_key_raises"
   ],
   "note": "any losses; duplicate keys and short loss lists break the promise (two _refuted theorems)"
  },
  {
   "property": "C35",
   "status": "proved",
   "theorems": [
    "C35_block",
    "C35_gn_information_affine",
    "C35_gn_information_at_initial_guess_refuted",
    "C35_lm_information_at_solution",
    "C35_query_caches",
    "C35_stale_covariance_refuted",
    "C35_unknown_key"
   ],
   "note": "promise broken after a second solve (stale cache) and by Gauss-Newton on nonlinear problems (information of the previous iterate)"
  },
  {
   "property": "C36",
   "status": "proved",
   "theorems": [
    "C36_cauchy",
    "C36_cauchy_below_l2",
    "C36_cauchy_bounded_influence",
    "C36_l2",
    "C36_weight_is_slope_over_u"
   ],
   "note": "real numbers; derivative in the sense of the standard library"
  },
  {
   "property": "C37",
   "status": "proved",
   "theorems": [
    "C37_measurement",
    "C37_not_positive_definite",
    "C37_prior",
    "C37_process",
    "C37_sqrt_information",
    "C37_unavailable_refuted"
   ],
   "note": "any dimension, any states; the square root is the modelled Cholesky factorisation, proved correct in CholProof; None measurements raise (refuted)"
  },
  {
   "property": "C38",
   "status": "proved",
   "theorems": [
    "C38_evaluate",
    "C38_max_mixture"
   ],
   "note": "any number of components, any error dimensions"
  },
  {
   "property": "C39",
   "status": "proved",
   "theorems": [
    "C39_evaluate",
    "C39_sum_mixture"
   ],
   "note": "the constant is the sum of the alphas"
  },
  {
   "property": "C40",
   "status": "proved",
   "theorems": [
    "C40_column_errors_refuted",
    "C40_evaluate",
    "C40_evaluate_refuted",
    "C40_max_sum_mixture"
   ],
   "note": "holds for one-dimensional error arrays only; with the (n,1) errors every residual of the library returns, it always raises (refuted)"
  },
  {
   "property": "C41",
   "status": "proved",
   "theorems": [
    "C41_evaluate",
    "C41_hessian_sum_mixture",
    "C41_single_scalar_refuted"
   ],
   "note": "fails only for one component with a scalar error (refuted)"
  },
  {
   "property": "C42",
   "status": "proved",
   "theorems": [
    "C42_evaluate_hessian_sum",
    "C42_evaluate_max",
    "C42_evaluate_max_sum",
    "C42_evaluate_sum",
    "C42_first_without_jacobian_refuted",
    "C42_gradient_is_derivative",
    "C42_hessian_sum_mixture",
    "C42_max_mixture",
    "C42_max_sum_mixture",
    "C42_missing_jacobian_raises",
    "C42_sum_mixture"
   ],
   "note": "C42_gradient_is_derivative shows that the responsibility-weighted sum is the derivative of the negative log-likelihood"
  },
  {
   "property": "C43",
   "status": "proved",
   "theorems": [
    "C43_first_state_stamp_refuted",
    "C43_measurement_after_last_input_refuted",
    "C43_no_failure",
    "C43_no_inputs_refuted",
    "C43_structure",
    "C43_unconnected_state_refuted"
   ],
   "note": "any data, any process model; rounding is any monotone map that keeps data stamps apart; four ways in which the promise fails are refuted"
  },
  {
   "property": "C44",
   "status": "proved",
   "theorems": [
    "C44_bias",
    "C44_bias_correction",
    "C44_bias_walk_covariance",
    "C44_linear",
    "C44_state_bias_ignored_refuted",
    "C44_value_read_twice_refuted"
   ],
   "note": "with and without bias, any state and input matrices depending on the input and the time step; bias correction is exact on the first read of value, the model reads it twice (refuted)"
  },
  {
   "property": "C45",
   "status": "proved",
   "theorems": [
    "C45_imu",
    "C45_imu_plus",
    "C45_none_walk_refuted",
    "C45_six_by_six_refuted"
   ],
   "note": "pose, biases, 15x15 covariance and stamp, both directions; pymlg's Exp, adjoint and right Jacobian are parameters with their laws as hypotheses"
  },
  {
   "property": "C46",
   "status": "proved",
   "theorems": [
    "C46_bias_update_mirrored",
    "C46_bias_update_refuted",
    "C46_real_groups",
    "C46_velocity"
   ],
   "note": "any group satisfying the visible laws; SO(2), SO(3), SE(2), SE(3), SE_2(3) over the reals do (C46_real_groups); bias update refuted"
  },
  {
   "property": "C47",
   "status": "proved",
   "theorems": [
    "C47_bias_copy",
    "C47_bias_new",
    "C47_imu_copy",
    "C47_imu_copy_refuted",
    "C47_imu_new_refuted",
    "C47_imu_stamps",
    "C47_linear_copy",
    "C47_linear_copy_fresh_refuted",
    "C47_stamps",
    "C47_velocity_copy",
    "C47_velocity_copy_refuted"
   ],
   "note": "stamps and copies of all three kinds of increment; copies of corrected increments lose the correction (refuted)"
  },
  {
   "property": "C48",
   "status": "proved",
   "theorems": [
    "C48_U_factor",
    "C48_U_inv",
    "C48_adjoint_inverse",
    "C48_adjoint_mul",
    "C48_adjoint_relation",
    "C48_gravity",
    "C48_inverse"
   ],
   "note": "any rotation, vectors and times"
  },
  {
   "property": "C49",
   "status": "proved",
   "theorems": [
    "C49_bias_flow",
    "C49_bias_jacobian",
    "C49_bias_noise",
    "C49_bias_walk_refuted",
    "C49_double_flow",
    "C49_double_jacobian",
    "C49_double_noise",
    "C49_psd",
    "C49_single_flow",
    "C49_single_jacobian",
    "C49_single_noise"
   ],
   "note": "any dimension; random-walk input of the bias variant refuted"
  },
  {
   "property": "C50",
   "status": "proved",
   "theorems": [
    "C50_absolute_position",
    "C50_absolute_velocity",
    "C50_altitude",
    "C50_attitude_only_state_refused",
    "C50_camera",
    "C50_field_vector",
    "C50_innovation",
    "C50_innovation_bad_direction",
    "C50_innovation_noise",
    "C50_innovation_refuted",
    "C50_invariant_relative_position",
    "C50_invariant_same_correction",
    "C50_linear",
    "C50_pose_without_velocity_refused",
    "C50_range_point",
    "C50_range_pose_to_pose",
    "C50_range_to_anchor",
    "C50_real_groups",
    "C50_relative_position",
    "C50_slam",
    "C50_velocity_covariance"
   ],
   "note": "any exponential; the matrix exponential over the reals on every state class (C50_real_groups)"
  },
  {
   "property": "C51",
   "status": "proved",
   "theorems": [
    "C51_camera",
    "C51_pair_jacobian",
    "C51_range_pose_to_pose",
    "C51_range_relative_pose",
    "C51_relative_range_value",
    "C51_slam",
    "C51_slam_jacobian",
    "C51_slam_order_refuted",
    "C51_slam_refuted"
   ],
   "note": "any composite of leaves, any position and order of the two substates; SLAM model refuted for every pose"
  },
  {
   "property": "C52",
   "status": "proved",
   "theorems": [
    "C52_altitude_gate",
    "C52_camera_gate",
    "C52_camera_valid_refuted",
    "C52_field_covariance",
    "C52_field_covariance_refuted",
    "C52_in_front"
   ],
   "note": "altitude, camera bounds and depth; camera validity without the depth test refuted"
  },
  {
   "property": "C53",
   "status": "proved",
   "theorems": [
    "C53_aligned_inputs",
    "C53_aligned_states",
    "C53_empty_interval",
    "C53_inputs",
    "C53_schedule_independent",
    "C53_states",
    "C53_times",
    "C53_zero_frequency"
   ],
   "note": "process model with the flow property; any rounding of stamps that is monotone and idempotent; independence of schedule and noise; without the flow property when all measurements fall on input times (C53_aligned_*)"
  },
  {
   "property": "C54",
   "status": "proved",
   "theorems": [
    "C54_aligned_values",
    "C54_config",
    "C54_no_measurement_raises",
    "C54_offsets_mutated_refuted",
    "C54_rounding_refuted",
    "C54_scalar_offset_refuted",
    "C54_schedule",
    "C54_short_frequencies_refuted",
    "C54_total",
    "C54_unfilled",
    "C54_values"
   ],
   "note": "exactly the schedule, stable-sorted, each value at the true state at its own stamp; measurements at the last time are returned empty (C54_rounding_refuted, for every decimal rounding); configuration behaviour incl. four broken promises"
  },
  {
   "property": "C55",
   "status": "proved",
   "theorems": [
    "C55_any_filter",
    "C55_ekf",
    "C55_grid"
   ],
   "note": "any truth-preserving filter, instantiated with the EKF; stamps equal or more than 1e-11 apart (C55_grid: sufficient condition)"
  },
  {
   "property": "C56",
   "status": "proved",
   "theorems": [
    "C56_length_refuted",
    "C56_maximal_and_greedy",
    "C56_one_to_one",
    "C56_sorted",
    "C56_valid"
   ],
   "note": "any stamps, offset and tolerance; greedy by increasing difference; docstring length claim refuted"
  },
  {
   "property": "C57",
   "status": "proved",
   "theorems": [
    "C57_degenerate",
    "C57_schedule"
   ],
   "note": "any number of models, any positive frequency"
  },
  {
   "property": "C58",
   "status": "proved",
   "theorems": [
    "C58_empty",
    "C58_int_query_refuted",
    "C58_list_queries",
    "C58_lowest_index",
    "C58_nearest"
   ],
   "note": "int query refuted"
  },
  {
   "property": "C59",
   "status": "proved",
   "theorems": [
    "C59_after",
    "C59_before",
    "C59_between",
    "C59_documented_queries_refuted",
    "C59_knot",
    "C59_queries",
    "C59_single_query",
    "C59_uniform_motion",
    "C59_unsorted_refuted"
   ],
   "note": "linear method on states with the plus/minus law; documented single queries and unsorted lists refuted; C59_uniform_motion: exact on uniform motion"
  },
  {
   "property": "C60",
   "status": "proved",
   "theorems": [
    "C60_affine",
    "C60_central_error",
    "C60_central_even",
    "C60_forward_error",
    "C60_unknown_method"
   ],
   "note": "any dimension and step; error formulas for quadratics"
  },
  {
   "property": "C61",
   "status": "proved",
   "theorems": [
    "C61_bounds",
    "C61_bounds_nested",
    "C61_metrics",
    "C61_monte_carlo",
    "C61_no_trials",
    "C61_singular",
    "C61_three_sigma_consistent"
   ],
   "note": "any dimension, positive definite covariance; also |e_i| <= md*sigma_i; singular covariances raise; the chi-square quantile is any function monotone in the probability"
  },
  {
   "property": "C62",
   "status": "proved",
   "theorems": [
    "C62_block",
    "C62_component",
    "C62_component_ees_refuted",
    "C62_index_out_of_range",
    "C62_last_n_refuted",
    "C62_negative_index",
    "C62_single_entry_refuted",
    "C62_single_time_refuted",
    "C62_stop_beyond_end_refuted",
    "C62_two_lists_refuted"
   ],
   "note": "in-range keys; five documented or natural indexings raise or mix times (refuted)"
  },
  {
   "property": "C63",
   "status": "proved",
   "theorems": [
    "C63_depth_recovers_landmark",
    "C63_normalized_covariance",
    "C63_normalized_direction",
    "C63_normalized_round_trip",
    "C63_pixel_round_trip",
    "C63_ray",
    "C63_resolve_rigid",
    "C63_round_trip_refuted"
   ],
   "note": "any camera and landmark with non-zero depth; composition of the two conversions as written refuted"
  },
  {
   "property": "C64",
   "status": "proved",
   "theorems": [
    "C64_basis_derivatives",
    "C64_basis_range",
    "C64_constant_velocity",
    "C64_constant_velocity_rates",
    "C64_kinematics"
   ],
   "note": "any trajectory in a matrix group with the stated Exp/Log laws; derivatives by epsilon-delta, at knots and between them; rotation part orthogonal"
  },
  {
   "property": "C65",
   "status": "proved",
   "theorems": [
    "C65_construction",
    "C65_control_points",
    "C65_domain",
    "C65_end_refuted",
    "C65_max_dt_refuted"
   ],
   "note": "construction and the exact domain; end_time and max_dt as documented refuted"
  },
  {
   "property": "C66",
   "status": "proved",
   "theorems": [
    "C66_bad_direction",
    "C66_blocks",
    "C66_blocks_se2",
    "C66_blocks_se23",
    "C66_blocks_se3",
    "C66_copy",
    "C66_dot",
    "C66_from_coordinates",
    "C66_from_matrix",
    "C66_imu_state_plus",
    "C66_minus_jacobian",
    "C66_minus_then_plus",
    "C66_mixed_directions_refuted",
    "C66_no_blocks_refuted",
    "C66_not_square",
    "C66_plus_jacobian",
    "C66_plus_then_minus",
    "C66_random_refuted",
    "C66_so2_from_number",
    "C66_so2_jacobians",
    "C66_so2_minus_then_plus",
    "C66_so2_plus_then_minus",
    "C66_so2_wraps_refuted",
    "C66_vector_broadcast_refuted",
    "C66_vector_minus_then_plus",
    "C66_vector_plus_then_minus",
    "C66_vector_wrong_size",
    "C66_wrong_length_refuted",
    "C66_wrong_size_refuted"
   ],
   "note": "generic matrix group, both directions, with the Jacobians; instances: Heisenberg group (any ordered field) and SO(2) over the reals with arctan2 (exact range (-pi, pi]); construction, copies, blocks, VectorState; five broken promises"
  },
  {
   "property": "C67",
   "status": "proved",
   "theorems": [
    "C67_composite_leaves_arguments_alone",
    "C67_copy_independent",
    "C67_copy_same",
    "C67_correct_keeps_estimate",
    "C67_imu_copy_refuted",
    "C67_input_copy_refuted",
    "C67_models_leave_arguments_alone",
    "C67_predict_keeps_estimate",
    "C67_predict_refuted"
   ],
   "note": "Explicit heap of objects, arrays and buffers (HeapModel.v). For every client execution (any sequence of writes to any reachable attribute, list element or array, and of allocations): a copy and its original never affect each other, and the copy reads the same to any depth. Library process models, plus, and predict with such models change nothing that existed; correct keeps the estimate handed in unchanged whatever the models do with what they are given. Refuted: VectorInput.copy shares the covariance; IMUState.copy restamps and renames substates; predict with a model returning its argument restamps the caller's estimate."
  },
  {
   "property": "C68",
   "status": "proved",
   "theorems": [
    "C68_x_jac_ignored_by_correct_refuted",
    "C68_x_jac_ignored_by_predict_refuted"
   ],
   "note": "promise broken by the code"
  },
  {
   "property": "C69",
   "status": "proved",
   "theorems": [
    "C69_iekf_none_measurement_refuted",
    "C69_imm_none_measurement_refuted",
    "C69_spkf_none_at_sigma_point_refuted"
   ],
   "note": "promise broken by the code"
  },
  {
   "property": "C70",
   "status": "proved",
   "theorems": [
    "C70_predict_without_input_partial",
    "C70_predict_without_input_refuted"
   ],
   "note": "promise broken by the code"
  },
  {
   "property": "C71",
   "status": "proved",
   "theorems": [
    "C71_stamp_double_count_refuted"
   ],
   "note": "promise broken by the code; C24_predict shows the stamp is right for models that leave it alone"
  },
  {
   "property": "C72",
   "status": "proved",
   "theorems": [
    "C72_gsf_vector_measurement_raises_refuted",
    "C72_gsf_vector_measurement_refuted"
   ],
   "note": "promise broken by the code"
  },
  {
   "property": "C73",
   "status": "proved",
   "theorems": [
    "C73_gn_zero_iterations_refuted",
    "C73_lm_zero_iterations"
   ],
   "note": "promise broken by Gauss-Newton, kept by Levenberg-Marquardt"
  },
  {
   "property": "C74",
   "status": "proved",
   "theorems": [
    "C74_component_jacobians",
    "C74_component_states",
    "C74_keys",
    "C74_weight_scale"
   ],
   "note": "any components, keys, states and Jacobian requests"
  },
  {
   "property": "C75",
   "status": "proved",
   "theorems": [
    "C75_group_process_first",
    "C75_group_process_first_refuted",
    "C75_group_process_first_zero_error",
    "C75_measurement_derivative",
    "C75_measurement_jacobian",
    "C75_prior_derivative",
    "C75_prior_jacobian",
    "C75_process_derivative_first",
    "C75_process_derivative_second",
    "C75_process_jacobians",
    "C75_requested"
   ],
   "note": "any models with exact Jacobians, any states, derivatives by epsilon-delta; on group states the first process Jacobian is not the derivative unless the error is zero (refuted with the exact value)"
  },
  {
   "property": "C76",
   "status": "proved",
   "theorems": [
    "C76_flow",
    "C76_jacobian",
    "C76_noise",
    "C76_real_body_velocity",
    "C76_real_groups"
   ],
   "note": "any group satisfying the visible laws; proved of SO(2), SO(3), SE(2), SE(3), SE_2(3) over the reals with the matrix exponential (C76_real_groups)"
  },
  {
   "property": "C77",
   "status": "proved",
   "theorems": [
    "C77_covariance_at_identity",
    "C77_covariance_of_inverse",
    "C77_covariance_refuted",
    "C77_covariance_second_input",
    "C77_flow",
    "C77_formula_refuted",
    "C77_jacobian",
    "C77_left",
    "C77_noise1",
    "C77_noise2"
   ],
   "note": "the sign of the first input and the covariance as documented refuted; where the covariance is right, and of what it is the covariance otherwise"
  },
  {
   "property": "C78",
   "status": "proved",
   "theorems": [
    "C78_iteration_is_gauss_newton",
    "C78_linear_equals_kalman",
    "C78_small_step"
   ],
   "note": "any measurement model and prior, any step size; linear case equals the Kalman filter"
  },
  {
   "property": "C79",
   "status": "proved",
   "theorems": [
    "C79_gauss_newton_run",
    "C79_levenberg_marquardt_run"
   ],
   "note": "any problem, both solvers, any tolerances and limits"
  },
  {
   "property": "C80",
   "status": "proved",
   "theorems": [
    "C80_affine",
    "C80_body_velocity",
    "C80_covariance",
    "C80_input_jacobian",
    "C80_input_jacobian_ignored_refuted",
    "C80_measurement_gated",
    "C80_measurement_jacobian",
    "C80_measurement_unavailable",
    "C80_minus_jacobian",
    "C80_no_input_covariance",
    "C80_plus_jacobian",
    "C80_process_jacobian",
    "C80_residual_jacobian"
   ],
   "note": "any state type, any dimensions; convergence by epsilon-delta; overridden input_jacobian ignored (refuted)"
  },
  {
   "property": "C81",
   "status": "proved",
   "theorems": [
    "C81_M_series_at_zero",
    "C81_M_series_converges",
    "C81_attitude_velocity",
    "C81_exact_solution",
    "C81_small_angle_refuted",
    "C81_solution_exists",
    "C81_split_step"
   ],
   "note": "over Coq's reals with Rodrigues' formula: existence and uniqueness of the solution and equality with it; the small-angle branch refuted for position"
  },
  {
   "property": "C82",
   "status": "proved",
   "theorems": [
    "C82_accelerometer_columns",
    "C82_gyro_attitude_velocity",
    "C82_gyro_bias_columns",
    "C82_gyro_position_refuted",
    "C82_real_left_jacobian",
    "C82_state_jacobian"
   ],
   "note": "pose, accelerometer and (attitude, velocity) gyro columns, both directions; existence of the right Jacobian of SE_2(3) at every point proved; position rows of the gyro columns refuted"
  },
  {
   "property": "C83",
   "status": "proved",
   "theorems": [
    "C83_accel_bias_correction",
    "C83_accel_bias_jacobian",
    "C83_gyro_bias_jacobian",
    "C83_gyro_position_refuted"
   ],
   "note": "any number of readings; position part for gyro bias refuted"
  },
  {
   "property": "C84",
   "status": "proved",
   "theorems": [
    "C84_add_remove",
    "C84_copy_forgets_ids_refuted",
    "C84_getters",
    "C84_long_noise_ignored_refuted",
    "C84_lookup",
    "C84_nested_lookup_refuted",
    "C84_plus_slicewise",
    "C84_set_by_id",
    "C84_set_stamp_by_id",
    "C84_set_stamp_for_all",
    "C84_short_noise_broadcast_refuted",
    "C84_stamp",
    "C84_vector_plus"
   ],
   "note": "any depth of nesting and any leaf input; wrong lengths and lost ids of nested inputs refuted"
  },
  {
   "property": "C85",
   "status": "proved",
   "theorems": [
    "C85_covariance_is_integral",
    "C85_covariance_psd",
    "C85_propagates_covariance",
    "C85_steps_compose",
    "C85_transition",
    "C85_transition_solves"
   ],
   "note": "over Coq's reals with the matrix exponential defined by its power series; expm taken as exact, arguments two-dimensional of matching sizes"
  },
  {
   "property": "C86",
   "status": "proved",
   "theorems": [
    "C86_list",
    "C86_noise_free",
    "C86_noisy",
    "C86_randvec_columns",
    "C86_randvec_moments",
    "C86_randvec_singular_refuted",
    "C86_scalar_covariance_refuted",
    "C86_unavailable_refuted"
   ],
   "note": "moments over any finite distribution with zero mean and identity covariance; singular and scalar covariances and None refuted"
  },
  {
   "property": "C87",
   "status": "proved",
   "theorems": [
    "C87_linear",
    "C87_matching_stamp",
    "C87_missing_stamp",
    "C87_nearest",
    "C87_no_truth",
    "C87_perfect",
    "C87_singular",
    "C87_unknown_method",
    "C87_unsorted_truth_refuted"
   ],
   "note": "any kind of state; truth sorted by stamp, an unsorted truth refuted; interp1d(nearest) modelled by midpoints and searchsorted"
  },
  {
   "property": "C88",
   "status": "proved",
   "theorems": [
    "C88_certain_mode",
    "C88_nearest",
    "C88_no_modes",
    "C88_vector"
   ],
   "note": "any kind of state with invertible plus/minus Jacobians; exact moments for vector states"
  },
  {
   "property": "C89",
   "status": "proved",
   "theorems": [
    "C89_average",
    "C89_failure",
    "C89_no_trials"
   ],
   "note": "joblib.Parallel taken as an order-preserving map"
  },
  {
   "property": "C90",
   "status": "proved",
   "theorems": [
    "C90_batch_equals_filter",
    "C90_filter_is_map_estimate"
   ],
   "note": "exact arithmetic; outlier rejection off; a variable of the problem is its value, its stamp fixed by its key; Gauss-Newton only (LM is covered by C32)"
  },
  {
   "property": "C91",
   "status": "proved",
   "theorems": [
    "C91_count",
    "C91_distinct",
    "C91_landmarks",
    "C91_on_cylinder"
   ],
   "note": "exact real arithmetic and trigonometry"
  },
  {
   "property": "C92",
   "status": "proved",
   "theorems": [
    "C92_dead_reckoning",
    "C92_inputs",
    "C92_landmark_ids",
    "C92_measurements",
    "C92_split_step_refuted",
    "C92_total",
    "C92_truth"
   ],
   "note": "measurement frequency dividing the input frequency (needed: C92_split_step_refuted shows that the IMU model with a walking bias is not a flow); steps outside the small-angle band of N_matrix (see C81)"
  },
  {
   "property": "C93",
   "status": "proved",
   "theorems": [
    "C93_gsf_identical_modes",
    "C93_imm_identical_modes",
    "C93_iterated_equals_ekf",
    "C93_iterated_same_covariance",
    "C93_sigma_point_equals_batch",
    "C93_sigma_point_equals_ekf"
   ],
   "note": "invertible transition matrices; the process covariance of the EKF being B Q B^T with the input covariance Q the sigma-point filter uses; GSF on scalar measurements only (C72)"
  },
  {
   "property": "C94",
   "status": "proved",
   "theorems": [
    "C94_error_covariance",
    "C94_expected_nees",
    "C94_innovation",
    "C94_innovations_white"
   ],
   "note": "expectation is any normalised linear functional with square-integrable variables (a finite weighted sample is one); outlier rejection off; NEES where the reported covariance is invertible (else GaussianResult raises)"
  },
  {
   "property": "C95",
   "status": "proved",
   "theorems": [
    "C95_body_velocity",
    "C95_ekf_correct",
    "C95_ekf_predict",
    "C95_iekf_correct",
    "C95_jacobian_follows",
    "C95_run_filter",
    "C95_vector_run",
    "C95_world_frame",
    "C95_world_frame_iekf"
   ],
   "note": "run_filter with the EKF (any states, models, changes of coordinates and clock shifts satisfying the stated relations; stamps of inputs and measurements not None), instances for vectors and for the real groups; the iterated filter for one correction. A sensor that raises is not modelled as raising; on these states none of the five does"
  },
  {
   "property": "C96",
   "status": "proved",
   "theorems": [
    "C96_associate_stamps",
    "C96_generate",
    "C96_interp",
    "C96_nearest_stamp",
    "C96_schedule"
   ],
   "note": "exact arithmetic; for DataGenerator.generate the rounding np.round(., 12) is assumed to commute with the change of stamps (true of shifts by multiples of 2e-12, and of any change if it is not applied), and randomness is an oracle indexed by the sample number"
  },
  {
   "property": "C97",
   "status": "proved",
   "theorems": [
    "C97_covariance",
    "C97_measurement",
    "C97_prior",
    "C97_process",
    "C97_solve",
    "C97_vector_origin",
    "C97_world_frame"
   ],
   "note": "the general statement (C97_solve) for any states and residuals related as stated; instances for vectors and for the real groups with direction right (for states perturbed on the left the Levenberg-Marquardt damping and the gradient test depend on the frame). Log and the Jacobian of minus are arbitrary functions of Y^-1 X. A residual that raises is modelled as zeros; stamps of variables are those given at the start"
  },
  {
   "property": "C98",
   "status": "proved",
   "theorems": [
    "C98_gsf",
    "C98_gsf_vector",
    "C98_imm",
    "C98_imm_vector",
    "C98_mixing",
    "C98_mixing_vector"
   ],
   "note": "which exception is raised may depend on the order when two modes fail differently; the statement is that both runs fail. The vector statement asks for strictly positive transition probabilities (a zero column divides by zero in the code)"
  }
 ]
}