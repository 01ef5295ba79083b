{
 "claims": [
  {
   "property": "C01",
   "status": "proved",
   "theorems": [
    "C01_cube_matrix_roundtrip",
    "C01_matrix_cube_roundtrip",
    "C01_flat_pos_is_lexicographic_rank",
    "C01_errors"
   ],
   "note": ""
  },
  {
   "property": "C02",
   "status": "proved",
   "theorems": [
    "C02_cube_map_roundtrip",
    "C02_map_cube_roundtrip",
    "C02_errors"
   ],
   "note": ""
  },
  {
   "property": "C03",
   "status": "proved",
   "theorems": [
    "C03_map2cube_rejects_bad_layout_refuted",
    "C03_map2cube_drops_pixels",
    "C03_map2cube_rejects_both_bad"
   ],
   "note": "REFUTED: the property as stated is false of the code (np.all should be np.any); the refutation, the exact loss and the part that holds are proved."
  },
  {
   "property": "C04",
   "status": "proved",
   "theorems": [
    "C04_matrix_map_roundtrip_refuted",
    "C04_matrix_map_truncates",
    "C04_matrix_map_roundtrip_integers",
    "C04_map2matrix_crops_wide_tiles"
   ],
   "note": "REFUTED for fractional pixels (astype(int) truncates); exact truncation behaviour and the round trip on integer-valued maps are proved. Square tiles; integer square root of the row count modelled exactly."
  },
  {
   "property": "C05",
   "status": "proved",
   "theorems": [
    "C05_rotate_half_turn_involution",
    "C05_rotate_stack_involution",
    "C05_low_dimensions_rejected"
   ],
   "note": ""
  },
  {
   "property": "C06",
   "status": "proved",
   "theorems": [
    "C06_ftl_ftr_inverse",
    "C06_fancy_transpose_rolls_axes",
    "C06_fancy_transpose_composes",
    "C06_fancy_transpose_period"
   ],
   "note": ""
  },
  {
   "property": "C07",
   "status": "proved",
   "theorems": [
    "C07_pad2d_exact",
    "C07_errors"
   ],
   "note": ""
  },
  {
   "property": "C08",
   "status": "proved",
   "theorems": [
    "C08_check_float_preserves_value",
    "C08_check_int_truncates_towards_zero",
    "C08_checks_idempotent",
    "C08_complex_imaginary_part_lost"
   ],
   "note": ""
  },
  {
   "property": "C09",
   "status": "proved",
   "theorems": [
    "C09_observers_unique_and_ordered",
    "C09_unknown_signal_rejected"
   ],
   "note": ""
  },
  {
   "property": "C10",
   "status": "proved",
   "theorems": [
    "C10_remove_observer_removes_refuted",
    "C10_remove_observer_always_raises"
   ],
   "note": "REFUTED: remove_observer always raises AttributeError (it calls a method that does not exist)."
  },
  {
   "property": "C11",
   "status": "proved",
   "theorems": [
    "C11_notify_calls_each_once_in_order",
    "C11_nested_notification_dropped"
   ],
   "note": ""
  },
  {
   "property": "C12",
   "status": "proved",
   "theorems": [
    "C12_exception_keeps_notifications_refuted",
    "C12_exception_disables_all_later_notifications",
    "C12_unknown_signal_disables_all_later_notifications",
    "C12_exception_ends_the_round"
   ],
   "note": "REFUTED: after any exception (or a notification of an unknown signal) the lock stays set and no observer is ever called again."
  },
  {
   "property": "C13",
   "status": "proved",
   "theorems": [
    "C13_missing_attribute",
    "C13_series_aligned",
    "C13_times_start_at_zero_and_grow",
    "C13_series_aligned_when_metric_raises_refuted",
    "C13_misalignment_counts_raises"
   ],
   "note": "Proved for every history whose metric function returns; REFUTED for histories whose metric function raises (index and time keep the entry, values does not)."
  },
  {
   "property": "C14",
   "status": "proved",
   "theorems": [
    "C14_flag_is_windowed_change_test"
   ],
   "note": "Windows w = 2k, k >= 1; histories without exceptions."
  },
  {
   "property": "C15",
   "status": "proved",
   "theorems": [
    "C15_stops_at_convergence_or_max_iter"
   ],
   "note": ""
  },
  {
   "property": "C16",
   "status": "proved",
   "theorems": [
    "C16_metrics_only_on_period_refuted",
    "C16_metrics_on_every_iteration",
    "C16_period_zero_raises"
   ],
   "note": "REFUTED: the condition is a one-element tuple, so metrics are evaluated on every iteration for every non-zero period; period 0 raises ZeroDivisionError."
  },
  {
   "property": "C17",
   "status": "proved",
   "theorems": [
    "C17_early_stopping_stops",
    "C17_early_stopping_GenForwardBackward_refuted",
    "C17_GenForwardBackward_ignores_flags",
    "C17_no_cost_never_stops"
   ],
   "note": "Proved for every class except GenForwardBackward, for which it is REFUTED."
  },
  {
   "property": "C18",
   "status": "proved",
   "theorems": [
    "C18_cost_list_is_every_cth_cost",
    "C18_no_interval_no_cost"
   ],
   "note": ""
  },
  {
   "property": "C19",
   "status": "proved",
   "theorems": [
    "C19_verdict_is_full_window_test"
   ],
   "note": ""
  },
  {
   "property": "C20",
   "status": "proved",
   "theorems": [
    "C20_constant_cost_converges_every_window"
   ],
   "note": ""
  },
  {
   "property": "C21",
   "status": "proved",
   "theorems": [
    "C21_costobj_rejects_non_sequences",
    "C21_costobj_validates_operators",
    "C21_no_operators_refuted",
    "C21_none_fails_at_the_first_evaluation",
    "C21_cost_is_order_independent_sum"
   ],
   "note": "REFUTED: C21_no_operators_refuted (operators=None is accepted by the constructor and fails at the first evaluation)."
  },
  {
   "property": "C22",
   "status": "proved",
   "theorems": [
    "C22_numeric_projection",
    "C22_numbers_and_type_errors",
    "C22_nested_values",
    "C22_ragged_structure_kept",
    "C22_nested_structure_refuted",
    "C22_ragged_flag_equal_lengths",
    "C22_ragged_flag_refuted"
   ],
   "note": "Proved for numeric arrays, numbers and ragged nested arrays; REFUTED for nested arrays whose sibling arrays have equal length (np.array merges them, a second application raises AttributeError; ragged=True raises AttributeError)."
  },
  {
   "property": "C23",
   "status": "proved",
   "theorems": [
    "C23_hard_keeps_or_kills",
    "C23_zero_threshold_is_identity"
   ],
   "note": ""
  },
  {
   "property": "C24",
   "status": "proved",
   "theorems": [
    "C24_soft_is_shrinkage_up_to_rounding"
   ],
   "note": ""
  },
  {
   "property": "C25",
   "status": "proved",
   "theorems": [
    "C25_sparse_threshold_solves_prox",
    "C25_cost_is_the_penalty",
    "C25_shrinkage_nonexpansive"
   ],
   "note": "Exact reals; the returned array is the 15-decimal rounding of the minimiser."
  },
  {
   "property": "C26",
   "status": "proved",
   "theorems": [
    "C26_unknown_type_rejected"
   ],
   "note": ""
  },
  {
   "property": "C27",
   "status": "proved",
   "theorems": [
    "C27_ridge_is_prox_of_its_cost",
    "C27_cost_is_the_penalty"
   ],
   "note": ""
  },
  {
   "property": "C28",
   "status": "proved",
   "theorems": [
    "C28_elastic_net_is_prox_of_its_cost",
    "C28_cost_is_the_penalty"
   ],
   "note": "Exact reals; distance to the minimiser bounded by the rounding inside thresh."
  },
  {
   "property": "C29",
   "status": "proved",
   "theorems": [
    "C29_group_lasso_solves_prox",
    "C29_block_soft_threshold",
    "C29_cost_is_the_penalty",
    "C29_tiny_groups_refuted"
   ],
   "note": "Proved for groups of norm 0 or >= float32 eps; REFUTED for shorter non-zero groups, which are scaled instead of set to 0."
  },
  {
   "property": "C30",
   "status": "proved",
   "theorems": [
    "C30_composition_prox"
   ],
   "note": ""
  },
  {
   "property": "C31",
   "status": "proved",
   "theorems": [
    "C31_op_is_componentwise",
    "C31_short_input_raises",
    "C31_cost_is_the_sum",
    "C31_combination_is_prox_of_sum"
   ],
   "note": ""
  },
  {
   "property": "C32",
   "status": "proved",
   "theorems": [
    "C32_cost_pairs_largest_weight_with_smallest_magnitude_refuted",
    "C32_cost_uses_ascending_order",
    "C32_cost_never_exceeds_owl_norm"
   ],
   "note": "REFUTED: the magnitudes are sorted in increasing order, so the largest weight multiplies the smallest magnitude; the exact value computed and the bound cost <= OWL norm are proved."
  },
  {
   "property": "C33",
   "status": "proved",
   "theorems": [
    "C33_matrix_operator_adjoint",
    "C33_real_and_imaginary_parts"
   ],
   "note": ""
  },
  {
   "property": "C34",
   "status": "proved",
   "theorems": [
    "C34_linear_combo_mean_is_scaled_adjoint",
    "C34_linear_combo_adjoint_refuted",
    "C34_linear_combo_weighted_adjoint",
    "C34_linear_combo_validation"
   ],
   "note": "REFUTED for the default (no weights): adj_op returns the mean, i.e. the adjoint divided by the number of operators (exact scaling proved; counterexample with two identities). With weights the weighted adjoint identity is proved; unit weights give the adjoint."
  },
  {
   "property": "C35",
   "status": "proved",
   "theorems": [
    "C35_convolution_adjoint_odd",
    "C35_convolution_adjoint_refuted"
   ],
   "note": "REFUTED for even filter sizes (1x2 counterexample); proved for all filters of odd height and width, any number of filters and images, exact arithmetic, scipy 'same' cropping."
  },
  {
   "property": "C36",
   "status": "proved",
   "theorems": [
    "C36_grad_basic_is_gradient"
   ],
   "note": ""
  },
  {
   "property": "C37",
   "status": "proved",
   "theorems": [
    "C37_reweight_closed_form",
    "C37_reweight_next_call"
   ],
   "note": ""
  },
  {
   "property": "C38",
   "status": "proved",
   "theorems": [
    "C38_callers_array_is_live_weights",
    "C38_callers_array_unchanged_refuted",
    "C38_other_containers_unchanged"
   ],
   "note": "REFUTED for arrays of a floating dtype (the caller's array is the live weights array, proved for every history); proved for every other container."
  },
  {
   "property": "C39",
   "status": "proved",
   "theorems": [
    "C39_default_relaxation_range",
    "C39_identity_defect",
    "C39_identity_refuted",
    "C39_identity_for_half"
   ],
   "note": "REFUTED in part: t_k >= k+1 and lambda in [1,2) are proved for every k; the identity is false at every k (C39_identity_defect) and holds for p_lazy = 1/2."
  },
  {
   "property": "C40",
   "status": "proved",
   "theorems": [
    "C40_cd_second_lambda",
    "C40_cd_never_under_relaxes_refuted",
    "C40_all_other_values_in_range"
   ],
   "note": "REFUTED: for every a_cd > 2 the second lambda is 1 - 1/a_cd < 1; all other values are proved to lie in [1,2)."
  },
  {
   "property": "C41",
   "status": "proved",
   "theorems": [
    "C41_constructor_accepts_exactly",
    "C41_rejections",
    "C41_invalid_settings",
    "C41_invalid_settings_refuted"
   ],
   "note": "REFUTED: an unknown strategy raises TypeError (the error message joins a tuple containing None) and the documented range xi > 1 is the one rejected. The exact set of accepted settings and the exception of each rejection are proved."
  },
  {
   "property": "C42",
   "status": "proved",
   "theorems": [
    "C42_ista_monotone_and_rate"
   ],
   "note": "Any real inner-product space, any convex g with domain D; exact arithmetic."
  },
  {
   "property": "C43",
   "status": "proved",
   "theorems": [
    "C43_default_fista_rate_refuted",
    "C43_rate_for_lazy_parameters",
    "C43_rate_for_half",
    "C43_rate_for_chambolle_dossal",
    "C43_default_energy_decreases"
   ],
   "note": "REFUTED for the default parameters p=q=1, r=4 (verified interval evaluation of 75 iterations on f=0, g=|.|, x_0=578). The bound is proved for p_lazy=1/2, a rate for every p_lazy <= 1/2 and for Chambolle-Dossal; for the default parameters the energy F(x_k)+|x_k-x_{k-1}|^2/(2 beta) is proved non-increasing."
  },
  {
   "property": "C44",
   "status": "proved",
   "theorems": [
    "C44_fixed_points_are_minimisers",
    "C44_run_from_minimiser_stays"
   ],
   "note": ""
  },
  {
   "property": "C45",
   "status": "proved",
   "theorems": [
    "C45_x_final_feasible_refuted",
    "C45_prox_points_feasible",
    "C45_unaccelerated_x_final_feasible",
    "C45_under_relaxed_x_final_feasible"
   ],
   "note": "REFUTED: x_final is the extrapolated point, which leaves C with the default FISTA relaxation. Proved: the prox outputs lie in C, and x_final does without acceleration or with lambda in [0,1] and convex C."
  },
  {
   "property": "C46",
   "status": "proved",
   "theorems": [
    "C46_beta_update_used_refuted",
    "C46_fista_step_constant",
    "C46_beta_update_used_without_fista"
   ],
   "note": "REFUTED with lambda_update='fista' (beta_update is replaced); proved when lambda_update is a callable or None."
  },
  {
   "property": "C47",
   "status": "proved",
   "theorems": [
    "C47_iterate_zero_admm",
    "C47_iterate_zero_raises_forward_backward",
    "C47_iterate_zero_raises_gen_forward_backward",
    "C47_iterate_zero_raises_pogm",
    "C47_iterate_zero_refuted",
    "C47_iterate_zero_gradient_descent",
    "C47_iterate_zero_raises_condat",
    "C47_condat_iterate_zero_refuted"
   ],
   "note": "REFUTED for the forward-backward, generalised forward-backward, POGM and Condat classes: x_final is read from an attribute that only an update creates, so iterate(max_iter=0) raises AttributeError. ADMM and the gradient descent classes do return the initial point."
  },
  {
   "property": "C48",
   "status": "proved",
   "theorems": [
    "C48_estimate_is_weighted_mean",
    "C48_fixed_points_minimise",
    "C48_single_operator_is_forward_backward"
   ],
   "note": ""
  },
  {
   "property": "C49",
   "status": "proved",
   "theorems": [
    "C49_default_weights_binary64",
    "C49_default_weights_accepted_refuted",
    "C49_default_weights_accepted_exactly"
   ],
   "note": "REFUTED in binary64: with 6 or 7 operators the default weights do not sum to 1.0 and ValueError is raised; in exact arithmetic they are always accepted. np.sum on 8 or more elements is not modelled."
  },
  {
   "property": "C50",
   "status": "proved",
   "theorems": [
    "C50_x_final_is_prox_output",
    "C50_momentum_parameters_in_range",
    "C50_minimisers_are_fixed",
    "C50_composite_gradient",
    "C50_restart_rule"
   ],
   "note": ""
  },
  {
   "property": "C51",
   "status": "proved",
   "theorems": [
    "C51_fixed_points_solve_scaled_problem",
    "C51_fixed_points_with_constraint",
    "C51_fixed_points_with_unit_tau",
    "C51_fixed_points_refuted"
   ],
   "note": "REFUTED for a general g and tau != 1: prox.op is called without the step size, so fixed points solve f + g/tau + h(linear.op(.)), which is proved; the claim as stated is proved for constraints (g an indicator) and for tau = 1."
  },
  {
   "property": "C52",
   "status": "proved",
   "theorems": [
    "C52_iterates_feasible",
    "C52_dual_bound_up_to_rounding",
    "C52_dual_bound_refuted"
   ],
   "note": "Feasibility is proved. The dual bound is proved up to sigma * 1e-15; the exact bound is REFUTED: soft thresholding rounds its shrinkage factor to 15 decimals, so the dual variable can exceed w by that amount."
  },
  {
   "property": "C53",
   "status": "proved",
   "theorems": [
    "C53_fixed_points_satisfy_constraint",
    "C53_multiplier_accumulates_residuals",
    "C53_primal_ignores_multiplier",
    "C53_solution_refuted"
   ],
   "note": "REFUTED: the primal updates never read mu, for any input; problems exist on which ADMM stays at a point violating the constraint for ever. The claim that a fixed point (including mu) satisfies the constraint is proved."
  },
  {
   "property": "C54",
   "status": "proved",
   "theorems": [
    "C54_initial_point_and_tau_ignored",
    "C54_initial_point_and_tau_refuted",
    "C54_never_restarts",
    "C54_run",
    "C54_restart_refuted"
   ],
   "note": "REFUTED: the constructor replaces v by b and tau by 1, and for eta > 0 the restart branch is never taken because the reference residual stays infinite."
  },
  {
   "property": "C55",
   "status": "proved",
   "theorems": [
    "C55_cost_funcs_always_raise",
    "C55_cost_funcs_refuted",
    "C55_without_cost_funcs"
   ],
   "note": "REFUTED: with cost_funcs every positive number of iterations raises AttributeError; without them iteration always succeeds."
  },
  {
   "property": "C56",
   "status": "proved",
   "theorems": [
    "C56_options_lost",
    "C56_number_of_options",
    "C56_options_refuted",
    "C56_cost_value",
    "C56_squared_norm_refuted"
   ],
   "note": "REFUTED: only the names of keyword options reach the cost object and the residual norm is not squared; the value actually computed, and exactly when it agrees with the documented one, is proved."
  },
  {
   "property": "C57",
   "status": "proved",
   "theorems": [
    "C57_default_epoch_no_momentum",
    "C57_default_epoch_refuted",
    "C57_heavy_ball_between_resets"
   ],
   "note": "REFUTED for the default epoch_size = 1: the direction is reset in every iteration, so the trajectory is that of plain gradient descent for every beta. Between resets the heavy-ball recursion is proved."
  },
  {
   "property": "C58",
   "status": "proved",
   "theorems": [
    "C58_direction_is_sum_of_memory",
    "C58_memory_slots"
   ],
   "note": ""
  },
  {
   "property": "C59",
   "status": "proved",
   "theorems": [
    "C59_adagrad",
    "C59_rmsprop"
   ],
   "note": ""
  },
  {
   "property": "C60",
   "status": "proved",
   "theorems": [
    "C60_bias_overestimated",
    "C60_bias_correction_refuted"
   ],
   "note": "REFUTED: true at the first iteration only; from the second on direction and speed are too large wherever the gradient is non-zero."
  },
  {
   "property": "C61",
   "status": "proved",
   "theorems": [
    "C61_owl_op_is_prox_of_owl_norm",
    "C61_owl_op_accepts_matching_lengths"
   ],
   "note": "isotonic_regression and argsort enter through their contracts (closest monotone non-negative array; sorting permutation)."
  },
  {
   "property": "C62",
   "status": "proved",
   "theorems": [
    "C62_distance_to_solutions_never_increases"
   ],
   "note": ""
  },
  {
   "property": "C63",
   "status": "proved",
   "theorems": [
    "C63_step_formula",
    "C63_step_formula_refuted"
   ],
   "note": "REFUTED: the step is eta/(sqrt(s) + epsilon), which for s = 0 and the default epsilon is 1000 times the documented one."
  },
  {
   "property": "C64",
   "status": "proved",
   "theorems": [
    "C64_vanilla_proximal_gradient"
   ],
   "note": ""
  },
  {
   "property": "C65",
   "status": "proved",
   "theorems": [
    "C65_regularised_at_epochs",
    "C65_final_point_regularised_refuted"
   ],
   "note": "REFUTED for epoch_size > 1 (witness with epoch_size = 2); proved when the last update ends an epoch, in particular for epoch_size = 1."
  },
  {
   "property": "C66",
   "status": "proved",
   "theorems": [
    "C66_weights_validated",
    "C66_end_points_accepted",
    "C66_open_range_refuted"
   ],
   "note": "REFUTED at the end points, which RMSprop (0 and 1) and ADAM (0) accept; proved everywhere else."
  },
  {
   "property": "C67",
   "status": "proved",
   "theorems": [
    "C67_independent_rows",
    "C67_dependent_rows_nan",
    "C67_invalid_option",
    "C67_complex_rows_refuted",
    "C67_complex_rows"
   ],
   "note": "Real rows: proved both ways. REFUTED for complex rows (C67_complex_rows_refuted): np.inner does not conjugate. Exact arithmetic: nan appears in floats only when a u_i is exactly zero."
  },
  {
   "property": "C68",
   "status": "proved",
   "theorems": [
    "C68_rot_matrix",
    "C68_rotate_total",
    "C68_not_square",
    "C68_zero_angle",
    "C68_quarter_turns",
    "C68_even_quarter_turn",
    "C68_even_side_refuted",
    "C68_pixels_lost_refuted"
   ],
   "note": "Totality, identity, odd-side quarter turns and the non-square error are proved. REFUTED for even sides (wrong column, wrap-around) and 'no pixel lost' REFUTED at pi/4. Cosine and sine are the exact ones, rounded to 10 decimals as in the code. Arrays with no pixel or more than 2 axes are not modelled."
  },
  {
   "property": "C69",
   "status": "proved",
   "theorems": [
    "C69_never_above_norm",
    "C69_converges",
    "C69_monotone",
    "C69_upper_bound_refuted",
    "C69_convergence_test_refuted",
    "C69_zero_iterations"
   ],
   "note": "Upper bound, convergence and monotonicity proved. REFUTED: spec_rad is not an upper bound of the norm, and the tolerance test compares the first estimate with the norm of the random start. The operator is assumed to propagate nan."
  },
  {
   "property": "C70",
   "status": "proved",
   "theorems": [
    "C70_seed_refuted"
   ],
   "note": "REFUTED: the rng argument is not stored (self.rng = None), so the seed never reaches default_rng."
  },
  {
   "property": "C71",
   "status": "proved",
   "theorems": [
    "C71_mad_is_median_deviation",
    "C71_invariances",
    "C71_robust"
   ],
   "note": "All of the statement, over exact real arithmetic; the array is the list of its pixels (a non-empty one for the existence of the value)."
  },
  {
   "property": "C72",
   "status": "proved",
   "theorems": [
    "C72_mse",
    "C72_uint8_refuted"
   ],
   "note": "C72_mse for real pixels. REFUTED for integer dtypes: C72_uint8_refuted exhibits two different uint8 images with mse 0 (differences and squares wrap modulo 256)."
  },
  {
   "property": "C73",
   "status": "proved",
   "theorems": [
    "C73_wiki",
    "C73_wiki_ranks_by_error",
    "C73_starck_square",
    "C73_transpose_refuted",
    "C73_invalid_method"
   ],
   "note": "'wiki' proved for all shapes; 'starck' proved for square images. REFUTED for other shapes: C73_transpose_refuted (np.sqrt(N) is taken as the number of rows, so transposing both images changes the value)."
  },
  {
   "property": "C74",
   "status": "proved",
   "theorems": [
    "C74_dimensions",
    "C74_values",
    "C74_length_mismatch_refuted"
   ],
   "note": "REFUTED in the last clause: C74_length_mismatch_refuted (zip truncates to the shorter stack)."
  },
  {
   "property": "C75",
   "status": "proved",
   "theorems": [
    "C75_normalize"
   ],
   "note": "All of the statement; images are non-empty (min of an empty array raises in NumPy)."
  },
  {
   "property": "C76",
   "status": "proved",
   "theorems": [
    "C76_mse",
    "C76_constant_image_nan",
    "C76_zero_iff_equal_refuted"
   ],
   "note": "C76_mse characterises error 0 exactly: the magnitudes are related by an increasing affine map. REFUTED in the last clause: C76_zero_iff_equal_refuted."
  },
  {
   "property": "C77",
   "status": "proved",
   "theorems": [
    "C77_invalid_mask",
    "C77_mask_of_ones",
    "C77_masked_mse",
    "C77_outside_pixels_refuted",
    "C77_roi_mean_refuted",
    "C77_psnr_perfect_refuted",
    "C77_snr_identical_refuted"
   ],
   "note": "Invalid masks, masks of ones and the value of the masked mse are proved. REFUTED in the region-of-interest clauses: C77_outside_pixels_refuted, C77_roi_mean_refuted, C77_psnr_perfect_refuted, C77_snr_identical_refuted."
  },
  {
   "property": "C78",
   "status": "proved",
   "theorems": [
    "C78_without_mask"
   ],
   "note": "All of the statement."
  },
  {
   "property": "C79",
   "status": "proved",
   "theorems": [
    "C79_nuclear_norm",
    "C79_is_a_norm",
    "C79_frobenius"
   ],
   "note": "The decomposition enters by its contract for the matrix at hand (svd_result / svds_result: factors orthonormal, values non-negative and sorted, product equal to the input; svds ascending)."
  },
  {
   "property": "C80",
   "status": "proved",
   "theorems": [
    "C80_soft_prox",
    "C80_svd_independent",
    "C80_low_rank_op",
    "C80_low_rank_cost"
   ],
   "note": "The decomposition enters by its contract for the matrix at hand (svd_result / svds_result: factors orthonormal, values non-negative and sorted, product equal to the input; svds ascending). Results are stated up to rounding: squared Frobenius distance at most min(m,n)*1e-30 from the exact minimiser."
  },
  {
   "property": "C81",
   "status": "proved",
   "theorems": [
    "C81_hard_minimiser",
    "C81_best_rank_k",
    "C81_keeps_all",
    "C81_n_pc_rank_refuted"
   ],
   "note": "The decomposition enters by its contract for the matrix at hand (svd_result / svds_result: factors orthonormal, values non-negative and sorted, product equal to the input; svds ascending). REFUTED part: n_pc=k keeps more than k components when singular values coincide (C81_n_pc_rank_refuted)."
  },
  {
   "property": "C82",
   "status": "proved",
   "theorems": [
    "C82_invalid_n_pc",
    "C82_type_error",
    "C82_soft_loses_one",
    "C82_soft_n_pc_refuted",
    "C82_always_prints",
    "C82_none_selected_keeps_all",
    "C82_zero_components_refuted"
   ],
   "note": "The decomposition enters by its contract for the matrix at hand (svd_result / svds_result: factors orthonormal, values non-negative and sorted, product equal to the input; svds ascending). REFUTED parts: n_pc with soft thresholding (C82_soft_n_pc_refuted), no selected component (C82_zero_components_refuted)."
  },
  {
   "property": "C83",
   "status": "proved",
   "theorems": [
    "C83_soft",
    "C83_hard",
    "C83_default_one_round",
    "C83_good_estimate_one_round",
    "C83_ends",
    "C83_never_ends",
    "C83_jump_too_far",
    "C83_none_raises",
    "C83_default_drops_refuted",
    "C83_recompute_refuted"
   ],
   "note": "The decomposition enters by its contract for the matrix at hand (svd_result / svds_result: factors orthonormal, values non-negative and sorted, product equal to the input; svds ascending). REFUTED parts: C83_default_drops_refuted, C83_recompute_refuted."
  },
  {
   "property": "C84",
   "status": "proved",
   "theorems": [
    "C84_counts",
    "C84_bounds",
    "C84_sign",
    "C84_not_square"
   ],
   "note": "All matrices of exact reals."
  },
  {
   "property": "C85",
   "status": "proved",
   "theorems": [
    "C85_not_callable",
    "C85_thresholds",
    "C85_soft_minimises",
    "C85_identity_operator",
    "C85_shape_errors"
   ],
   "note": "The decomposition enters by its contract for the matrix at hand (svd_result / svds_result: factors orthonormal, values non-negative and sorted, product equal to the input; svds ascending)."
  },
  {
   "property": "C86",
   "status": "proved",
   "theorems": [
    "C86_invalid_type",
    "C86_rank_estimate",
    "C86_ngole",
    "C86_zero_rank_fails",
    "C86_second_call_refuted"
   ],
   "note": "The decomposition enters by its contract for the matrix at hand (svd_result / svds_result: factors orthonormal, values non-negative and sorted, product equal to the input; svds ascending). REFUTED part: a second call on the same data can raise (C86_second_call_refuted)."
  },
  {
   "property": "C87",
   "status": "proved",
   "theorems": [
    "C87_op_is_prox_of_half_squared_norm",
    "C87_norm_exists",
    "C87_minimiser_unique",
    "C87_norm_is_l1_for_k_1",
    "C87_norm_is_l2_for_k_dim",
    "C87_extra_factor_refuted"
   ],
   "note": "REFUTED for extra_factor other than 1 (C87_extra_factor_refuted: theta is recomputed without extra_factor, so the result is not the minimiser whenever an algorithm passes a step size other than 1). Proved in full for extra_factor 1, with an explicit error bound due to the machine epsilon added to the data; real arithmetic."
  },
  {
   "property": "C88",
   "status": "proved",
   "theorems": [
    "C88_cost_bounds",
    "C88_cost_for_k_1",
    "C88_cost_refuted",
    "C88_wrong_q_refuted"
   ],
   "note": "REFUTED: the cost is not a multiple of the squared norm (the factor 1/2 is applied to the first sum only) and the search stops at a q one too small (C88_cost_refuted, C88_wrong_q_refuted). What holds is C88_cost_bounds and C88_cost_for_k_1 (cost is twice the minimised function for k = 1)."
  },
  {
   "property": "C89",
   "status": "proved",
   "theorems": [
    "C89_k_value_validation",
    "C89_k_value_kept_refuted",
    "C89_k_value_after_op",
    "C89_cost_raises_for_large_k"
   ],
   "note": "REFUTED: op lowers k_value for good when it meets a small array (C89_k_value_kept_refuted), and cost raises IndexError as long as k_value exceeds the size (C89_cost_raises_for_large_k). Validation and the value left by op are proved."
  },
  {
   "property": "C90",
   "status": "proved",
   "theorems": [
    "C90_integrates_to_one",
    "C90_shape",
    "C90_arrays_elementwise",
    "C90_integers_are_converted",
    "C90_invalid_sigma",
    "C90_nonnegative_refuted"
   ],
   "note": "REFUTED: a negative sigma is accepted and gives a negative density (C90_nonnegative_refuted). For sigma > 0 the Gaussian integral is proved from scratch; arithmetic exact."
  },
  {
   "property": "C91",
   "status": "proved",
   "theorems": [
    "C91_zero_mean",
    "C91_unit_energy",
    "C91_second_derivative_of_gaussian",
    "C91_sign"
   ],
   "note": "Exact arithmetic."
  },
  {
   "property": "C92",
   "status": "proved",
   "theorems": [
    "C92_value",
    "C92_gaussian_profile_refuted"
   ],
   "note": "REFUTED: the exponential is missing, so the filter vanishes at g = 0, has the opposite sign elsewhere and grows without bound (C92_gaussian_profile_refuted). C92_value gives the value computed."
  },
  {
   "property": "C93",
   "status": "proved",
   "theorems": [
    "C93_transposes_print_zero",
    "C93_detects_linear_non_transposes",
    "C93_defaults",
    "C93_not_callable",
    "C93_one_run_refuted"
   ],
   "note": "REFUTED for a single run: two operators that are not transposes can print 0 (C93_one_run_refuted). Exact arithmetic: with floats the number printed for transposes is a rounding error. Arrays of different shapes in the two products are not modelled."
  },
  {
   "property": "C94",
   "status": "proved",
   "theorems": [
    "C94_gauss_number",
    "C94_gauss_sequence",
    "C94_validation",
    "C94_gauss_mean_and_variance",
    "C94_poisson_is_added",
    "C94_sigma_ignored_for_poisson_refuted",
    "C94_poisson_unbiased_refuted"
   ],
   "note": "REFUTED for 'poisson': sigma scales the noise and is validated (C94_sigma_ignored_for_poisson_refuted), and the Poisson draw is added to the data, so the mean is x + sigma |x| (C94_poisson_is_added, C94_poisson_unbiased_refuted). Expectations are means over finite families of draws."
  },
  {
   "property": "C95",
   "status": "proved",
   "theorems": [
    "C95_max_norm",
    "C95_sum_norm",
    "C95_odd_sizes",
    "C95_validation",
    "C95_none_refuted"
   ],
   "note": "REFUTED for norm='none': the error message offers it and it is rejected (C95_none_refuted). Gaussian2DKernel is modelled from its documentation."
  },
  {
   "property": "C96",
   "status": "proved",
   "theorems": [
    "C96_shift_equivariant",
    "C96_total",
    "C96_adjoint_odd",
    "C96_adjoint_refuted",
    "C96_methods_agree_inside",
    "C96_methods_agree_refuted",
    "C96_validation",
    "C96_shape_refuted"
   ],
   "note": "REFUTED parts: the adjoint for even filter sizes (C96_adjoint_refuted), agreement of the methods at the border (C96_methods_agree_refuted), the shape for kernels larger than the image (C96_shape_refuted). convolve_fft is modelled from its documentation in exact arithmetic; C96_example reproduces the docstring's numbers."
  },
  {
   "property": "C97",
   "status": "proved",
   "theorems": [
    "C97_scipy_values",
    "C97_astropy_values",
    "C97_rot_kernel_is_adjoint",
    "C97_surplus_images_dropped",
    "C97_lengths_checked_refuted"
   ],
   "note": "REFUTED: stacks of different lengths are truncated silently (C97_lengths_checked_refuted, C97_surplus_images_dropped)."
  },
  {
   "property": "C98",
   "status": "proved",
   "theorems": [
    "C98_bounding_box",
    "C98_zero_filter",
    "C98_idempotent",
    "C98_symmetric_filter_acts_alike",
    "C98_any_filter_acts_alike_refuted"
   ],
   "note": "REFUTED: trimming can change the filtering when the filter is not equal to its half turn (C98_any_filter_acts_alike_refuted: a one-pixel shift becomes the identity). The bounding box, its uniqueness, idempotence, the error on zero filters and the invariance for symmetric filters are proved. Filters with a number of axes other than 1 or 2 are not modelled."
  },
  {
   "property": "C99",
   "status": "proved",
   "theorems": [
    "C99_filters_reproduce_transform",
    "C99_impulse_response",
    "C99_trim",
    "C99_trim_different_sizes_refuted"
   ],
   "note": "REFUTED: trim=True with filters of different trimmed sizes raises ValueError (NumPy 1.24 or later) instead of returning the documented object array (C99_trim_different_sizes_refuted). The transform is a parameter; convolution is the zero-padded 'same' convolution that filter_convolve uses by default."
  },
  {
   "property": "C100",
   "status": "proved",
   "theorems": [
    "C100_success",
    "C100_leaves_no_trace",
    "C100_reported_error",
    "C100_missing_output",
    "C100_refused_calls_touch_nothing",
    "C100_execute",
    "C100_error_leaves_output_refuted",
    "C100_missing_output_leaves_input_refuted",
    "C100_any_path_refuted",
    "C100_runtime_error_means_failure_refuted",
    "C100_path_is_directory_refuted"
   ],
   "note": "REFUTED: cleaning up after failures, paths with blanks, RuntimeError meaning failure, and path naming a directory, each with a witness. The program, the FITS reader and writer and the file system are parameters; file names are byte strings (Latin-1 white space)."
  },
  {
   "property": "C101",
   "status": "proved",
   "theorems": [
    "C101_file_holds_the_messages",
    "C101_reopening_erases",
    "C101_close_keeps_half",
    "C101_cannot_open",
    "C101_set_up_twice_refuted",
    "C101_closed_log_is_silent_refuted",
    "C101_logs_independent_refuted"
   ],
   "note": "REFUTED: set_up_log twice without close_log (C101_set_up_twice_refuted: the file is garbled), close_log removing all handlers (C101_closed_log_is_silent_refuted, C101_close_keeps_half), independence of logs named x and x.log (C101_logs_independent_refuted). The root logger is assumed to have no handlers; file names are taken as canonical."
  },
  {
   "property": "C102",
   "status": "proved",
   "theorems": [
    "C102_set_up_log_silences_warnings",
    "C102_warnings_survive_logging_refuted",
    "C102_warn",
    "C102_warn_reaches_the_log_refuted",
    "C102_catch_error",
    "C102_catch_error_closed",
    "C102_only_the_message_refuted"
   ],
   "note": "REFUTED: warn with a log does not write to it (C102_warn_reaches_the_log_refuted), set_up_log silences warnings for good (C102_warnings_survive_logging_refuted), catch_error adds 'NoneType: None' (C102_only_the_message_refuted). Warnings are taken to pass the filters; no handler is attached to the root logger or to py.warnings."
  },
  {
   "property": "C103",
   "status": "proved",
   "theorems": [
    "C103_file_name_error",
    "C103_rejections_are_os_errors",
    "C103_existing_file_accepted_refuted",
    "C103_is_executable",
    "C103_is_executable_type",
    "C103_missing_path_refuted"
   ],
   "note": "REFUTED: existing files named -x are refused (C103_existing_file_accepted_refuted) and a missing PATH raises KeyError, not the documented IOError (C103_missing_path_refuted). os.path.isfile and the executable test are parameters; PATH is given already cut at its colons."
  },
  {
   "property": "C104",
   "status": "proved",
   "theorems": [
    "C104_reconstruction",
    "C104_exact",
    "C104_adjoint",
    "C104_energy",
    "C104_linear",
    "C104_coarse",
    "C104_constant",
    "C104_same_shape_refuted",
    "C104_adjoint_refuted"
   ],
   "note": "REFUTED: same shape (C104_same_shape_refuted: 3x3 comes back as 4x4) and adjointness for other sizes (C104_adjoint_refuted: 2x2, level 2). Only 2D arrays, the Haar wavelet and mode symmetric; PyWavelets by the formulas in Model_Wavelet, over the reals."
  },
  {
   "property": "C105",
   "status": "proved",
   "theorems": [
    "C105_last_shape",
    "C105_adj_length",
    "C105_adj_first",
    "C105_batch_refuted",
    "C105_batch_always",
    "C105_backend",
    "C105_mode_refuted",
    "C105_mode_ignored"
   ],
   "note": "REFUTED: n_batch > 1 (C105_batch_refuted, C105_batch_always: self.verbose does not exist) and the mode on numpy (C105_mode_refuted, C105_mode_ignored). 2D images and Haar as for C104."
  },
  {
   "property": "C106",
   "status": "proved",
   "theorems": [
    "C106_regroup",
    "C106_roundtrip",
    "C106_extra_axis",
    "C106_same_shape_refuted",
    "C106_adj_first"
   ],
   "note": "REFUTED: same shape (C106_same_shape_refuted, C106_extra_axis). ptwt's decomposition and reconstruction are parameters; devices and the cast to complex64 are not modelled."
  },
  {
   "property": "C107",
   "status": "proved",
   "theorems": [
    "C107_get_backend",
    "C107_idempotent",
    "C107_get_array_module"
   ],
   "note": "The libraries are represented by their names; warn is recorded as the text given to it."
  },
  {
   "property": "C108",
   "status": "proved",
   "theorems": [
    "C108_change_backend",
    "C108_from_numpy",
    "C108_idempotent",
    "C108_back_to_cpu_refuted",
    "C108_ndarray_refuted",
    "C108_copy_refuted",
    "C108_move_to_cpu",
    "C108_move_raises_refuted",
    "C108_move_never_raises"
   ],
   "note": "REFUTED: C108_back_to_cpu_refuted, C108_ndarray_refuted, C108_copy_refuted, C108_move_raises_refuted. The constructors array(), get() and data.numpy() are taken by contract (DESIGN.md); conversions between CuPy, TensorFlow and torch through array() are not modelled."
  },
  {
   "property": "C109",
   "status": "proved",
   "theorems": [
    "C109_to_tensor",
    "C109_roundtrip",
    "C109_cupy_refuted",
    "C109_values_lost",
    "C109_import_error_refuted"
   ],
   "note": "REFUTED: C109_cupy_refuted, C109_import_error_refuted; C109_values_lost for every rounding that moves some value. TensorFlow arrays raise AttributeError in the model and are outside the theorems."
  },
  {
   "property": "C110",
   "status": "proved",
   "theorems": [
    "C110_resume",
    "C110_after_convergence",
    "C110_index_free_classes",
    "C110_gradient_descent",
    "C110_stopped_run",
    "C110_cost_history",
    "C110_partial_epoch_refuted",
    "C110_metric_index_refuted"
   ],
   "note": "REFUTED: C110_partial_epoch_refuted, C110_metric_index_refuted. The step functions are arbitrary; the cost object is Model_Cost's. Condat with reweighting runs the loop several times per call and is covered by the general theorem C110_resume, not by C110_index_free_classes."
  },
  {
   "property": "C111",
   "status": "proved",
   "theorems": [
    "C111_accepts_exactly",
    "C111_exceptions",
    "C111_stored",
    "C111_unknown_keyword_ignored",
    "C111_zero_step_refuted",
    "C111_gradient_descent_step_refuted",
    "C111_step_type_refuted",
    "C111_misspelled_refuted",
    "C111_list_data_refuted",
    "C111_sigma_nan_refuted"
   ],
   "note": "REFUTED: C111_zero_step_refuted, C111_gradient_descent_step_refuted, C111_step_type_refuted, C111_misspelled_refuted, C111_list_data_refuted, C111_sigma_nan_refuted. FISTA's own parameters are C41, GenForwardBackward's weights C49; callable objects, an array as cost and a one-element array as step_size are not modelled."
  },
  {
   "property": "C112",
   "status": "proved",
   "theorems": [
    "C112_warnings_exactly",
    "C112_one_each",
    "C112_classes_do_not_matter",
    "C112_auto_warns",
    "C112_silent_refuted",
    "C112_linear_refuted"
   ],
   "note": "REFUTED: C112_silent_refuted, C112_linear_refuted."
  },
  {
   "property": "C113",
   "status": "proved",
   "theorems": [
    "C113_forward_backward_any_type",
    "C113_gradient_descent_any_type",
    "C113_gen_forward_backward",
    "C113_condat",
    "C113_pogm",
    "C113_integer_start_refuted",
    "C113_complex_data_refuted",
    "C113_saga_memory_refuted",
    "C113_saga_memory"
   ],
   "note": "REFUTED: C113_integer_start_refuted, C113_complex_data_refuted, C113_saga_memory_refuted. NumPy's casting rules (same_kind for in-place operations and copyto) are taken by contract."
  },
  {
   "property": "C114",
   "status": "proved",
   "theorems": [
    "C114_hard_keeps_or_kills",
    "C114_soft_shrinks_the_modulus",
    "C114_shrinkage_well_defined",
    "C114_phase_equivariant",
    "C114_agrees_on_real_data"
   ],
   "note": "Exact reals; np.around of a complex number rounds both parts."
  },
  {
   "property": "C115",
   "status": "proved",
   "theorems": [
    "C115_sparse_threshold_solves_prox",
    "C115_sparse_cost",
    "C115_ridge_is_prox_of_its_cost",
    "C115_elastic_net_is_prox_of_its_cost",
    "C115_group_lasso_solves_prox",
    "C115_not_by_parts"
   ],
   "note": "Real weights; the linear operator in Ridge.op and in the costs is the identity, as in C25-C29."
  },
  {
   "property": "C116",
   "status": "proved",
   "theorems": [
    "C116_kept_entries",
    "C116_agrees_on_real_data",
    "C116_nonnegative_refuted",
    "C116_jumps",
    "C116_nonexpansive_refuted",
    "C116_not_a_prox"
   ],
   "note": "REFUTED: C116_nonnegative_refuted, C116_nonexpansive_refuted. Complex comparison is NumPy's lexicographic order, taken by contract."
  },
  {
   "property": "C117",
   "status": "proved",
   "theorems": [
    "C117_accepts_exactly",
    "C117_float32_refuted",
    "C117_stores_the_callers_array",
    "C117_conversion",
    "C117_complex_values_refuted",
    "C117_gradient_value",
    "C117_data_protected",
    "C117_views_refuted",
    "C117_second_operator_refuted",
    "C117_caller_keeps_writing_refuted",
    "C117_writeable_option"
   ],
   "note": "REFUTED: C117_float32_refuted, C117_complex_values_refuted, C117_views_refuted, C117_second_operator_refuted, C117_caller_keeps_writing_refuted. Casts of assigned values and boolean or object arrays are not modelled."
  },
  {
   "property": "C118",
   "status": "proved",
   "theorems": [
    "C118_array_spaces_qualify",
    "C118_iterates_converge",
    "C118_steps_square_summable",
    "C118_step_two_over_M_refuted",
    "C118_relaxation_three_refuted"
   ],
   "note": "REFUTED: C118_step_two_over_M_refuted, C118_relaxation_three_refuted. Exact reals."
  },
  {
   "property": "C119",
   "status": "proved",
   "theorems": [
    "C119_linear_rate",
    "C119_unique_minimiser"
   ],
   "note": "Exact reals."
  },
  {
   "property": "C120",
   "status": "proved",
   "theorems": [
    "C120_iterates_converge"
   ],
   "note": "Exact reals; the objective with the proximity term divided by tau is the one found in C51."
  },
  {
   "property": "C121",
   "status": "proved",
   "theorems": [
    "C121_iterates_converge",
    "C121_optimal_points_minimise",
    "C121_run_returns_estimate"
   ],
   "note": "Exact reals."
  },
  {
   "property": "C122",
   "status": "proved",
   "theorems": [
    "C122_distance_to_exact_run",
    "C122_strongly_convex",
    "C122_no_accumulation_refuted"
   ],
   "note": "REFUTED: C122_no_accumulation_refuted (errors without strong convexity). Exact reals around the inexact operators."
  },
  {
   "property": "C123",
   "status": "proved",
   "theorems": [
    "C123_minimiser_exists",
    "C123_cost_is_the_objective",
    "C123_run_approaches_a_solution",
    "C123_full_column_rank",
    "C123_power_method_step",
    "C123_operator_defined"
   ],
   "note": "Exact reals, except that the thresholding is the coded one with its 2^-52 guard; the gradient is exact."
  },
  {
   "property": "C124",
   "status": "proved",
   "theorems": [
    "C124_forward_backward",
    "C124_forward_backward_result",
    "C124_forward_backward_inplace_gradient_refuted",
    "C124_gen_forward_backward",
    "C124_condat",
    "C124_admm",
    "C124_admm_inplace_refuted",
    "C124_pogm",
    "C124_pogm_gradient_returning_its_argument_refuted",
    "C124_pogm_inplace_prox_refuted",
    "C124_pogm_result_refuted"
   ],
   "note": "REFUTED: C124_forward_backward_inplace_gradient_refuted, C124_admm_inplace_refuted, C124_pogm_gradient_returning_its_argument_refuted, C124_pogm_inplace_prox_refuted, C124_pogm_result_refuted. Exact reals; the updates only (no cost or metric calls, no reweighting); the rows of _z in GenForwardBackward are separate references; u, v and b of ADMM in one space."
  },
  {
   "property": "C125",
   "status": "proved",
   "theorems": [
    "C125_restart_rule",
    "C125_no_strategy_no_restart",
    "C125_adaptive",
    "C125_adaptive_ii_two_plain_steps",
    "C125_synonyms",
    "C125_adaptive_momentum_is_capped",
    "C125_adaptive_over_relaxes",
    "C125_relaxation_below_2_refuted",
    "C125_greedy",
    "C125_greedy_step_sizes",
    "C125_greedy_never_lengthens_refuted"
   ],
   "note": "REFUTED: C125_relaxation_below_2_refuted, C125_greedy_never_lengthens_refuted. Exact reals; a negative xi_restart is accepted by the constructor and can make the square root in update_lambda nan, the bounds assume 0 <= xi_restart."
  },
  {
   "property": "C126",
   "status": "proved",
   "theorems": [
    "C126_reweighted_runs",
    "C126_neutral_reweighting"
   ],
   "note": "Constant parameters (no rho_update etc.); cost=None, where no run can stop early; what a stopped run does when continued is C110."
  },
  {
   "property": "C127",
   "status": "proved",
   "theorems": [
    "C127_step_size",
    "C127_first_update",
    "C127_zero_overrides_refuted"
   ],
   "note": "REFUTED: C127_zero_overrides_refuted. Numbers as exact reals; other types of step_size are C111."
  },
  {
   "property": "C128",
   "status": "proved",
   "theorems": [
    "C128_run_unaffected",
    "C128_own_bar",
    "C128_user_bar",
    "C128_no_bar",
    "C128_unusable_bar",
    "C128_any_bar_refuted",
    "C128_counts_updates_refuted",
    "C128_message",
    "C128_condat_unaffected",
    "C128_condat_bar",
    "C128_condat_own_bars"
   ],
   "note": "REFUTED: C128_any_bar_refuted, C128_counts_updates_refuted. tqdm by its contract (truth value, update, reset, close); what it draws is not modelled; the bar is not disabled."
  },
  {
   "property": "C129",
   "status": "proved",
   "theorems": [
    "C129_ssim",
    "C129_masked",
    "C129_errors",
    "C129_mask_of_ones_refuted"
   ],
   "note": "REFUTED: C129_mask_of_ones_refuted. Two-dimensional images, exact reals; structural_similarity of scikit-image and uniform_filter of scipy by their contracts, written out in Model_SSIM."
  },
  {
   "property": "C130",
   "status": "proved",
   "theorems": [
    "C130_verbose_only_prints",
    "C130_quiet",
    "C130_report",
    "C130_printed_change_decides",
    "C130_signature",
    "C130_documented_example_refuted",
    "C130_plot",
    "C130_plot_by_iteration_refuted"
   ],
   "note": "REFUTED: C130_documented_example_refuted, C130_plot_by_iteration_refuted. Python call binding without positional-only parameters; how numbers are formatted and what matplotlib draws are not modelled."
  },
  {
   "property": "C131",
   "status": "proved",
   "theorems": [
    "C131_combo_accepts",
    "C131_combo_keeps",
    "C131_combo_errors",
    "C131_methods_unchanged",
    "C131_reuse",
    "C131_linear_combo",
    "C131_linear_combo_errors",
    "C131_parent_construction",
    "C131_parent_assignment",
    "C131_grad_parent",
    "C131_auto_cost",
    "C131_cost_is_optional_refuted",
    "C131_combining_leaves_operators_alone_refuted"
   ],
   "note": "REFUTED: C131_cost_is_optional_refuted, C131_combining_leaves_operators_alone_refuted. Sequences of operators that numpy would turn into an array of more dimensions, and 0-d arrays, are not modelled."
  },
  {
   "property": "C132",
   "status": "proved",
   "theorems": [
    "C132_chambolle_dossal_converges",
    "C132_chambolle_dossal_little_o",
    "C132_lazy_converges",
    "C132_lazy_little_o"
   ],
   "note": "Exact arithmetic; a fixed step equal to the inverse of the Lipschitz constant."
  },
  {
   "property": "C133",
   "status": "proved",
   "theorems": [
    "C133_default_rate",
    "C133_default_early_rate",
    "C133_default_converges"
   ],
   "note": "Exact arithmetic; a fixed step equal to the inverse of the Lipschitz constant. Whether the estimates converge without strong convexity is left open."
  },
  {
   "property": "C134",
   "status": "proved",
   "theorems": [
    "C134_gradient_descent",
    "C134_gradient_descent_result",
    "C134_inplace_gradient_refuted",
    "C134_result_kept_refuted",
    "C134_ada_speed_kept_refuted",
    "C134_fast_admm",
    "C134_fast_admm_in_place",
    "C134_fast_admm_inplace_refuted"
   ],
   "note": "REFUTED: a gradient working in place, a returned array kept when the proximity operator reuses its array, the AdaGrad speed array kept, a first FastADMM optimizer working in place. Exact arithmetic."
  },
  {
   "property": "C135",
   "status": "proved",
   "theorems": [
    "C135_dual_solution_exists",
    "C135_solution_exists_if_coercive",
    "C135_converges_to_a_minimiser",
    "C135_inexact_operators",
    "C135_limits_are_solutions",
    "C135_touching_constraints_refuted",
    "C135_recovery_problem_has_a_solution",
    "C135_recovery_run"
   ],
   "note": "REFUTED: convergence when both terms are constraints and only a minimiser is known. Exact real arithmetic apart from the rounding inside thresh."
  },
  {
   "property": "C136",
   "status": "proved",
   "theorems": [
    "C136_identity_prox",
    "C136_distance",
    "C136_rate",
    "C136_resets_converge",
    "C136_values_converge",
    "C136_minimisers_are_kept_refuted"
   ],
   "note": "REFUTED: minimisers are kept once reached, monotone cost. Exact arithmetic; a proximity operator other than the identity is not covered by the rate."
  },
  {
   "property": "C137",
   "status": "proved",
   "theorems": [
    "C137_minimisers_are_optimal",
    "C137_solution_exists_if_coercive",
    "C137_converges_to_a_minimiser",
    "C137_inexact_operators",
    "C137_limits_are_optimal",
    "C137_two_constraints_refuted",
    "C137_nonneg_lasso_has_a_solution",
    "C137_nonneg_lasso_run"
   ],
   "note": "REFUTED: a minimiser is enough with two constraint sets. Exact arithmetic except the rounding inside thresh; the errors of the operators may otherwise be anything within the bounds."
  },
  {
   "property": "C138",
   "status": "proved",
   "theorems": [
    "C138_squared_gradients_summable",
    "C138_gradients_vanish",
    "C138_values_converge",
    "C138_estimates_converge",
    "C138_rmsprop_stays_away",
    "C138_rmsprop_refuted",
    "C138_vanilla_diverges"
   ],
   "note": "REFUTED: RMSpropGradOpt with the default parameters and VanillaGenericGradOpt converge for every eta. Exact arithmetic, constant eta."
  },
  {
   "property": "C139",
   "status": "proved",
   "theorems": [
    "C139_adagrad_regret",
    "C139_adagrad_rate",
    "C139_vanilla_constant_eta",
    "C139_vanilla_decreasing_eta",
    "C139_vanilla_root_schedule",
    "C139_constant_eta_refuted",
    "C139_fixed_points",
    "C139_soft_threshold_is_entrywise",
    "C139_positivity_is_entrywise"
   ],
   "note": "REFUTED: a constant eta is enough for non-smooth objectives (on |x| from eta/2 the estimates jump between eta/2 and -eta/2). Exact arithmetic, epoch_size 1."
  },
  {
   "property": "C140",
   "status": "proved",
   "theorems": [
    "C140_returned",
    "C140_units_of_the_objective",
    "C140_units_fixed_step",
    "C140_order_of_the_entries",
    "C140_origin",
    "C140_adagrad_moves_at_most_eta",
    "C140_rmsprop_step_bound",
    "C140_adam_step_bound",
    "C140_adam_moves_further_than_eta",
    "C140_adam_moves_at_most_eta_refuted",
    "C140_adam_without_bound_refuted"
   ],
   "note": "REFUTED: an ADAM update with beta = gamma moves an entry by at most eta; ADAM updates are bounded for all accepted weights (beta = 1/2, gamma = 1/8 is a counterexample). Exact arithmetic."
  },
  {
   "property": "C141",
   "status": "proved",
   "theorems": [
    "C141_gradient_of_the_changed_problem",
    "C141_prox_of_the_changed_problem",
    "C141_forward_backward",
    "C141_pogm",
    "C141_gen_forward_backward",
    "C141_condat",
    "C141_condat_units_of_the_objective",
    "C141_condat_units_of_a_primal_penalty_refuted"
   ],
   "note": "REFUTED: the units of the objective for Condat with a shrinking primal penalty. Exact arithmetic, no convergence test; GenForwardBackward with positive weights."
  },
  {
   "property": "C142",
   "status": "proved",
   "theorems": [
    "C142_unchanged_pairs",
    "C142_unchanged_states_solve",
    "C142_unchanged_states_are_regularised",
    "C142_fast_unchanged_states_solve",
    "C142_documented_subproblems_refuted",
    "C142_limit_is_feasible_refuted",
    "C142_fast_admm_converges_refuted"
   ],
   "note": "REFUTED: unchanged feasible states are solutions for the documented subproblems; the limit of ADMM is feasible; FastADMM with default settings converges where ADMM does. Exact arithmetic and exact optimizers."
  },
  {
   "property": "C143",
   "status": "proved",
   "theorems": [
    "C143_real_data",
    "C143_returned",
    "C143_returned_early",
    "C143_phases",
    "C143_phases_of_complex_numbers",
    "C143_parts_are_separate_entries",
    "C143_adagrad_parts_refuted",
    "C143_adagrad_moves_at_most_eta",
    "C143_adagrad_gradients_vanish",
    "C143_adagrad_converges",
    "C143_adagrad_complex_least_squares"
   ],
   "note": "REFUTED for AdaGrad: real and imaginary parts are treated as separate entries. Exact arithmetic; entries in an inner-product space, C_ips for complex numbers."
  },
  {
   "property": "C144",
   "status": "proved",
   "theorems": [
    "C144_finite_for_ever",
    "C144_adagrad_without_epsilon",
    "C144_adagrad_nan",
    "C144_generic_without_epsilon",
    "C144_generic_later_updates",
    "C144_any_epsilon_refuted"
   ],
   "note": "REFUTED: every accepted epsilon keeps the estimates finite (negative epsilon). Finite values are exact reals, so no overflow."
  },
  {
   "property": "C145",
   "status": "proved",
   "theorems": [
    "C145_two_runs",
    "C145_moves_shrink",
    "C145_last_move",
    "C145_several_terms",
    "C145_condat",
    "C145_accelerated_moves_shrink_refuted"
   ],
   "note": "REFUTED: moves never get longer with the default acceleration (x^2/2 on the line, step 1/10, third and fourth moves)."
  },
  {
   "property": "C146",
   "status": "proved",
   "theorems": [
    "C146_float_array",
    "C146_int_array",
    "C146_ragged",
    "C146_refused",
    "C146_arrays",
    "C146_numbers",
    "C146_idempotent",
    "C146_type_error",
    "C146_list_as_array_refuted"
   ],
   "note": "REFUTED: lists and arrays are treated alike by check_int. Rounding of large integers to floats and strings inside lists are not modelled; the integer an invalid cast gives is a parameter."
  },
  {
   "property": "C147",
   "status": "proved",
   "theorems": [
    "C147_perturbed_gradients",
    "C147_never_apart",
    "C147_returned",
    "C147_changed_samples",
    "C147_larger_eta_refuted",
    "C147_momentum_refuted",
    "C147_strongly_convex",
    "C147_noisy_gradients_near_minimiser"
   ],
   "note": "REFUTED: eta above 2/M, and momentum. Exact real arithmetic, no cost-based stop."
  },
  {
   "property": "C148",
   "status": "proved",
   "theorems": [
    "C148_inexact_gradients",
    "C148_rate_kept",
    "C148_without_acceleration",
    "C148_chambolle_dossal",
    "C148_unaccelerated_bound_refuted"
   ],
   "note": "REFUTED: the bound k beta gam of the unaccelerated algorithm, for the default FISTA parameters. Inexact proximity operators and restarts are not covered here."
  },
  {
   "property": "C149",
   "status": "proved",
   "theorems": [
    "C149_admm_any_type",
    "C149_fast_admm",
    "C149_same_starts_refuted",
    "C149_late_failure_refuted"
   ],
   "note": "REFUTED: FastADMM and ADMM accept the same starting points; a FastADMM run that survives one iteration survives them all."
  },
  {
   "property": "C150",
   "status": "proved",
   "theorems": [
    "C150_positive",
    "C150_negative_set_to_zero_refuted",
    "C150_hard",
    "C150_soft",
    "C150_same_entries_refuted"
   ],
   "note": "REFUTED: positive sets -inf to zero; hard and soft thresholding agree on special thresholds. The sign of zeros is not modelled."
  },
  {
   "property": "C151",
   "status": "proved",
   "theorems": [
    "C151_positive_weight",
    "C151_zero_weight",
    "C151_closed_form",
    "C151_special_data",
    "C151_zero_data_refuted"
   ],
   "note": "REFUTED: an entry with zero data keeps its weight; zero weights and a zero thresh_factor give nan. Weights and factors given by the caller are finite; the sign of zeros is not modelled."
  }
 ]
}