{
 "C03": [
  "proved",
  "REFUTED: the property as stated is false of the code (np.all should be np.any); the refutation, the exact loss and the part that holds are proved."
 ],
 "C04": [
  "proved",
  "REFUTED for fractional pixels (astype(int) truncates); exact truncation behaviour and the round trip on integer-valued maps are proved. Square tiles; integer square root of the row count modelled exactly."
 ],
 "C10": [
  "proved",
  "REFUTED: remove_observer always raises AttributeError (it calls a method that does not exist)."
 ],
 "C100": [
  "proved",
  "REFUTED: cleaning up after failures, paths with blanks, RuntimeError meaning failure, and path naming a directory, each with a witness. The program, the FITS reader and writer and the file system are parameters; file names are byte strings (Latin-1 white space)."
 ],
 "C101": [
  "proved",
  "REFUTED: set_up_log twice without close_log (C101_set_up_twice_refuted: the file is garbled), close_log removing all handlers (C101_closed_log_is_silent_refuted, C101_close_keeps_half), independence of logs named x and x.log (C101_logs_independent_refuted). The root logger is assumed to have no handlers; file names are taken as canonical."
 ],
 "C102": [
  "proved",
  "REFUTED: warn with a log does not write to it (C102_warn_reaches_the_log_refuted), set_up_log silences warnings for good (C102_warnings_survive_logging_refuted), catch_error adds 'NoneType: None' (C102_only_the_message_refuted). Warnings are taken to pass the filters; no handler is attached to the root logger or to py.warnings."
 ],
 "C103": [
  "proved",
  "REFUTED: existing files named -x are refused (C103_existing_file_accepted_refuted) and a missing PATH raises KeyError, not the documented IOError (C103_missing_path_refuted). os.path.isfile and the executable test are parameters; PATH is given already cut at its colons."
 ],
 "C104": [
  "proved",
  "REFUTED: same shape (C104_same_shape_refuted: 3x3 comes back as 4x4) and adjointness for other sizes (C104_adjoint_refuted: 2x2, level 2). Only 2D arrays, the Haar wavelet and mode symmetric; PyWavelets by the formulas in Model_Wavelet, over the reals."
 ],
 "C105": [
  "proved",
  "REFUTED: n_batch > 1 (C105_batch_refuted, C105_batch_always: self.verbose does not exist) and the mode on numpy (C105_mode_refuted, C105_mode_ignored). 2D images and Haar as for C104."
 ],
 "C106": [
  "proved",
  "REFUTED: same shape (C106_same_shape_refuted, C106_extra_axis). ptwt's decomposition and reconstruction are parameters; devices and the cast to complex64 are not modelled."
 ],
 "C107": [
  "proved",
  "The libraries are represented by their names; warn is recorded as the text given to it."
 ],
 "C108": [
  "proved",
  "REFUTED: C108_back_to_cpu_refuted, C108_ndarray_refuted, C108_copy_refuted, C108_move_raises_refuted. The constructors array(), get() and data.numpy() are taken by contract (DESIGN.md); conversions between CuPy, TensorFlow and torch through array() are not modelled."
 ],
 "C109": [
  "proved",
  "REFUTED: C109_cupy_refuted, C109_import_error_refuted; C109_values_lost for every rounding that moves some value. TensorFlow arrays raise AttributeError in the model and are outside the theorems."
 ],
 "C110": [
  "proved",
  "REFUTED: C110_partial_epoch_refuted, C110_metric_index_refuted. The step functions are arbitrary; the cost object is Model_Cost's. Condat with reweighting runs the loop several times per call and is covered by the general theorem C110_resume, not by C110_index_free_classes."
 ],
 "C111": [
  "proved",
  "REFUTED: C111_zero_step_refuted, C111_gradient_descent_step_refuted, C111_step_type_refuted, C111_misspelled_refuted, C111_list_data_refuted, C111_sigma_nan_refuted. FISTA's own parameters are C41, GenForwardBackward's weights C49; callable objects, an array as cost and a one-element array as step_size are not modelled."
 ],
 "C112": [
  "proved",
  "REFUTED: C112_silent_refuted, C112_linear_refuted."
 ],
 "C113": [
  "proved",
  "REFUTED: C113_integer_start_refuted, C113_complex_data_refuted, C113_saga_memory_refuted. NumPy's casting rules (same_kind for in-place operations and copyto) are taken by contract."
 ],
 "C114": [
  "proved",
  "Exact reals; np.around of a complex number rounds both parts."
 ],
 "C115": [
  "proved",
  "Real weights; the linear operator in Ridge.op and in the costs is the identity, as in C25-C29."
 ],
 "C116": [
  "proved",
  "REFUTED: C116_nonnegative_refuted, C116_nonexpansive_refuted. Complex comparison is NumPy's lexicographic order, taken by contract."
 ],
 "C117": [
  "proved",
  "REFUTED: C117_float32_refuted, C117_complex_values_refuted, C117_views_refuted, C117_second_operator_refuted, C117_caller_keeps_writing_refuted. Casts of assigned values and boolean or object arrays are not modelled."
 ],
 "C118": [
  "proved",
  "REFUTED: C118_step_two_over_M_refuted, C118_relaxation_three_refuted. Exact reals."
 ],
 "C119": [
  "proved",
  "Exact reals."
 ],
 "C12": [
  "proved",
  "REFUTED: after any exception (or a notification of an unknown signal) the lock stays set and no observer is ever called again."
 ],
 "C120": [
  "proved",
  "Exact reals; the objective with the proximity term divided by tau is the one found in C51."
 ],
 "C121": [
  "proved",
  "Exact reals."
 ],
 "C122": [
  "proved",
  "REFUTED: C122_no_accumulation_refuted (errors without strong convexity). Exact reals around the inexact operators."
 ],
 "C123": [
  "proved",
  "Exact reals, except that the thresholding is the coded one with its 2^-52 guard; the gradient is exact."
 ],
 "C124": [
  "proved",
  "REFUTED: C124_forward_backward_inplace_gradient_refuted, C124_admm_inplace_refuted, C124_pogm_gradient_returning_its_argument_refuted, C124_pogm_inplace_prox_refuted, C124_pogm_result_refuted. Exact reals; the updates only (no cost or metric calls, no reweighting); the rows of _z in GenForwardBackward are separate references; u, v and b of ADMM in one space."
 ],
 "C125": [
  "proved",
  "REFUTED: C125_relaxation_below_2_refuted, C125_greedy_never_lengthens_refuted. Exact reals; a negative xi_restart is accepted by the constructor and can make the square root in update_lambda nan, the bounds assume 0 <= xi_restart."
 ],
 "C126": [
  "proved",
  "Constant parameters (no rho_update etc.); cost=None, where no run can stop early; what a stopped run does when continued is C110."
 ],
 "C127": [
  "proved",
  "REFUTED: C127_zero_overrides_refuted. Numbers as exact reals; other types of step_size are C111."
 ],
 "C128": [
  "proved",
  "REFUTED: C128_any_bar_refuted, C128_counts_updates_refuted. tqdm by its contract (truth value, update, reset, close); what it draws is not modelled; the bar is not disabled."
 ],
 "C129": [
  "proved",
  "REFUTED: C129_mask_of_ones_refuted. Two-dimensional images, exact reals; structural_similarity of scikit-image and uniform_filter of scipy by their contracts, written out in Model_SSIM."
 ],
 "C13": [
  "proved",
  "Proved for every history whose metric function returns; REFUTED for histories whose metric function raises (index and time keep the entry, values does not)."
 ],
 "C130": [
  "proved",
  "REFUTED: C130_documented_example_refuted, C130_plot_by_iteration_refuted. Python call binding without positional-only parameters; how numbers are formatted and what matplotlib draws are not modelled."
 ],
 "C131": [
  "proved",
  "REFUTED: C131_cost_is_optional_refuted, C131_combining_leaves_operators_alone_refuted. Sequences of operators that numpy would turn into an array of more dimensions, and 0-d arrays, are not modelled."
 ],
 "C132": [
  "proved",
  "Exact arithmetic; a fixed step equal to the inverse of the Lipschitz constant."
 ],
 "C133": [
  "proved",
  "Exact arithmetic; a fixed step equal to the inverse of the Lipschitz constant. Whether the estimates converge without strong convexity is left open."
 ],
 "C134": [
  "proved",
  "REFUTED: a gradient working in place, a returned array kept when the proximity operator reuses its array, the AdaGrad speed array kept, a first FastADMM optimizer working in place. Exact arithmetic."
 ],
 "C135": [
  "proved",
  "REFUTED: convergence when both terms are constraints and only a minimiser is known. Exact real arithmetic apart from the rounding inside thresh."
 ],
 "C136": [
  "proved",
  "REFUTED: minimisers are kept once reached, monotone cost. Exact arithmetic; a proximity operator other than the identity is not covered by the rate."
 ],
 "C137": [
  "proved",
  "REFUTED: a minimiser is enough with two constraint sets. Exact arithmetic except the rounding inside thresh; the errors of the operators may otherwise be anything within the bounds."
 ],
 "C138": [
  "proved",
  "REFUTED: RMSpropGradOpt with the default parameters and VanillaGenericGradOpt converge for every eta. Exact arithmetic, constant eta."
 ],
 "C139": [
  "proved",
  "REFUTED: a constant eta is enough for non-smooth objectives (on |x| from eta/2 the estimates jump between eta/2 and -eta/2). Exact arithmetic, epoch_size 1."
 ],
 "C14": [
  "proved",
  "Windows w = 2k, k >= 1; histories without exceptions."
 ],
 "C140": [
  "proved",
  "REFUTED: an ADAM update with beta = gamma moves an entry by at most eta; ADAM updates are bounded for all accepted weights (beta = 1/2, gamma = 1/8 is a counterexample). Exact arithmetic."
 ],
 "C141": [
  "proved",
  "REFUTED: the units of the objective for Condat with a shrinking primal penalty. Exact arithmetic, no convergence test; GenForwardBackward with positive weights."
 ],
 "C142": [
  "proved",
  "REFUTED: unchanged feasible states are solutions for the documented subproblems; the limit of ADMM is feasible; FastADMM with default settings converges where ADMM does. Exact arithmetic and exact optimizers."
 ],
 "C143": [
  "proved",
  "REFUTED for AdaGrad: real and imaginary parts are treated as separate entries. Exact arithmetic; entries in an inner-product space, C_ips for complex numbers."
 ],
 "C144": [
  "proved",
  "REFUTED: every accepted epsilon keeps the estimates finite (negative epsilon). Finite values are exact reals, so no overflow."
 ],
 "C145": [
  "proved",
  "REFUTED: moves never get longer with the default acceleration (x^2/2 on the line, step 1/10, third and fourth moves)."
 ],
 "C146": [
  "proved",
  "REFUTED: lists and arrays are treated alike by check_int. Rounding of large integers to floats and strings inside lists are not modelled; the integer an invalid cast gives is a parameter."
 ],
 "C147": [
  "proved",
  "REFUTED: eta above 2/M, and momentum. Exact real arithmetic, no cost-based stop."
 ],
 "C148": [
  "proved",
  "REFUTED: the bound k beta gam of the unaccelerated algorithm, for the default FISTA parameters. Inexact proximity operators and restarts are not covered here."
 ],
 "C149": [
  "proved",
  "REFUTED: FastADMM and ADMM accept the same starting points; a FastADMM run that survives one iteration survives them all."
 ],
 "C150": [
  "proved",
  "REFUTED: positive sets -inf to zero; hard and soft thresholding agree on special thresholds. The sign of zeros is not modelled."
 ],
 "C151": [
  "proved",
  "REFUTED: an entry with zero data keeps its weight; zero weights and a zero thresh_factor give nan. Weights and factors given by the caller are finite; the sign of zeros is not modelled."
 ],
 "C16": [
  "proved",
  "REFUTED: the condition is a one-element tuple, so metrics are evaluated on every iteration for every non-zero period; period 0 raises ZeroDivisionError."
 ],
 "C17": [
  "proved",
  "Proved for every class except GenForwardBackward, for which it is REFUTED."
 ],
 "C21": [
  "proved",
  "REFUTED: C21_no_operators_refuted (operators=None is accepted by the constructor and fails at the first evaluation)."
 ],
 "C22": [
  "proved",
  "Proved for numeric arrays, numbers and ragged nested arrays; REFUTED for nested arrays whose sibling arrays have equal length (np.array merges them, a second application raises AttributeError; ragged=True raises AttributeError)."
 ],
 "C25": [
  "proved",
  "Exact reals; the returned array is the 15-decimal rounding of the minimiser."
 ],
 "C28": [
  "proved",
  "Exact reals; distance to the minimiser bounded by the rounding inside thresh."
 ],
 "C29": [
  "proved",
  "Proved for groups of norm 0 or >= float32 eps; REFUTED for shorter non-zero groups, which are scaled instead of set to 0."
 ],
 "C32": [
  "proved",
  "REFUTED: the magnitudes are sorted in increasing order, so the largest weight multiplies the smallest magnitude; the exact value computed and the bound cost <= OWL norm are proved."
 ],
 "C34": [
  "proved",
  "REFUTED for the default (no weights): adj_op returns the mean, i.e. the adjoint divided by the number of operators (exact scaling proved; counterexample with two identities). With weights the weighted adjoint identity is proved; unit weights give the adjoint."
 ],
 "C35": [
  "proved",
  "REFUTED for even filter sizes (1x2 counterexample); proved for all filters of odd height and width, any number of filters and images, exact arithmetic, scipy 'same' cropping."
 ],
 "C38": [
  "proved",
  "REFUTED for arrays of a floating dtype (the caller's array is the live weights array, proved for every history); proved for every other container."
 ],
 "C39": [
  "proved",
  "REFUTED in part: t_k >= k+1 and lambda in [1,2) are proved for every k; the identity is false at every k (C39_identity_defect) and holds for p_lazy = 1/2."
 ],
 "C40": [
  "proved",
  "REFUTED: for every a_cd > 2 the second lambda is 1 - 1/a_cd < 1; all other values are proved to lie in [1,2)."
 ],
 "C41": [
  "proved",
  "REFUTED: an unknown strategy raises TypeError (the error message joins a tuple containing None) and the documented range xi > 1 is the one rejected. The exact set of accepted settings and the exception of each rejection are proved."
 ],
 "C42": [
  "proved",
  "Any real inner-product space, any convex g with domain D; exact arithmetic."
 ],
 "C43": [
  "proved",
  "REFUTED for the default parameters p=q=1, r=4 (verified interval evaluation of 75 iterations on f=0, g=|.|, x_0=578). The bound is proved for p_lazy=1/2, a rate for every p_lazy <= 1/2 and for Chambolle-Dossal; for the default parameters the energy F(x_k)+|x_k-x_{k-1}|^2/(2 beta) is proved non-increasing."
 ],
 "C45": [
  "proved",
  "REFUTED: x_final is the extrapolated point, which leaves C with the default FISTA relaxation. Proved: the prox outputs lie in C, and x_final does without acceleration or with lambda in [0,1] and convex C."
 ],
 "C46": [
  "proved",
  "REFUTED with lambda_update='fista' (beta_update is replaced); proved when lambda_update is a callable or None."
 ],
 "C47": [
  "proved",
  "REFUTED for the forward-backward, generalised forward-backward, POGM and Condat classes: x_final is read from an attribute that only an update creates, so iterate(max_iter=0) raises AttributeError. ADMM and the gradient descent classes do return the initial point."
 ],
 "C49": [
  "proved",
  "REFUTED in binary64: with 6 or 7 operators the default weights do not sum to 1.0 and ValueError is raised; in exact arithmetic they are always accepted. np.sum on 8 or more elements is not modelled."
 ],
 "C51": [
  "proved",
  "REFUTED for a general g and tau != 1: prox.op is called without the step size, so fixed points solve f + g/tau + h(linear.op(.)), which is proved; the claim as stated is proved for constraints (g an indicator) and for tau = 1."
 ],
 "C52": [
  "proved",
  "Feasibility is proved. The dual bound is proved up to sigma * 1e-15; the exact bound is REFUTED: soft thresholding rounds its shrinkage factor to 15 decimals, so the dual variable can exceed w by that amount."
 ],
 "C53": [
  "proved",
  "REFUTED: the primal updates never read mu, for any input; problems exist on which ADMM stays at a point violating the constraint for ever. The claim that a fixed point (including mu) satisfies the constraint is proved."
 ],
 "C54": [
  "proved",
  "REFUTED: the constructor replaces v by b and tau by 1, and for eta > 0 the restart branch is never taken because the reference residual stays infinite."
 ],
 "C55": [
  "proved",
  "REFUTED: with cost_funcs every positive number of iterations raises AttributeError; without them iteration always succeeds."
 ],
 "C56": [
  "proved",
  "REFUTED: only the names of keyword options reach the cost object and the residual norm is not squared; the value actually computed, and exactly when it agrees with the documented one, is proved."
 ],
 "C57": [
  "proved",
  "REFUTED for the default epoch_size = 1: the direction is reset in every iteration, so the trajectory is that of plain gradient descent for every beta. Between resets the heavy-ball recursion is proved."
 ],
 "C60": [
  "proved",
  "REFUTED: true at the first iteration only; from the second on direction and speed are too large wherever the gradient is non-zero."
 ],
 "C61": [
  "proved",
  "isotonic_regression and argsort enter through their contracts (closest monotone non-negative array; sorting permutation)."
 ],
 "C63": [
  "proved",
  "REFUTED: the step is eta/(sqrt(s) + epsilon), which for s = 0 and the default epsilon is 1000 times the documented one."
 ],
 "C65": [
  "proved",
  "REFUTED for epoch_size > 1 (witness with epoch_size = 2); proved when the last update ends an epoch, in particular for epoch_size = 1."
 ],
 "C66": [
  "proved",
  "REFUTED at the end points, which RMSprop (0 and 1) and ADAM (0) accept; proved everywhere else."
 ],
 "C67": [
  "proved",
  "Real rows: proved both ways. REFUTED for complex rows (C67_complex_rows_refuted): np.inner does not conjugate. Exact arithmetic: nan appears in floats only when a u_i is exactly zero."
 ],
 "C68": [
  "proved",
  "Totality, identity, odd-side quarter turns and the non-square error are proved. REFUTED for even sides (wrong column, wrap-around) and 'no pixel lost' REFUTED at pi/4. Cosine and sine are the exact ones, rounded to 10 decimals as in the code. Arrays with no pixel or more than 2 axes are not modelled."
 ],
 "C69": [
  "proved",
  "Upper bound, convergence and monotonicity proved. REFUTED: spec_rad is not an upper bound of the norm, and the tolerance test compares the first estimate with the norm of the random start. The operator is assumed to propagate nan."
 ],
 "C70": [
  "proved",
  "REFUTED: the rng argument is not stored (self.rng = None), so the seed never reaches default_rng."
 ],
 "C71": [
  "proved",
  "All of the statement, over exact real arithmetic; the array is the list of its pixels (a non-empty one for the existence of the value)."
 ],
 "C72": [
  "proved",
  "C72_mse for real pixels. REFUTED for integer dtypes: C72_uint8_refuted exhibits two different uint8 images with mse 0 (differences and squares wrap modulo 256)."
 ],
 "C73": [
  "proved",
  "'wiki' proved for all shapes; 'starck' proved for square images. REFUTED for other shapes: C73_transpose_refuted (np.sqrt(N) is taken as the number of rows, so transposing both images changes the value)."
 ],
 "C74": [
  "proved",
  "REFUTED in the last clause: C74_length_mismatch_refuted (zip truncates to the shorter stack)."
 ],
 "C75": [
  "proved",
  "All of the statement; images are non-empty (min of an empty array raises in NumPy)."
 ],
 "C76": [
  "proved",
  "C76_mse characterises error 0 exactly: the magnitudes are related by an increasing affine map. REFUTED in the last clause: C76_zero_iff_equal_refuted."
 ],
 "C77": [
  "proved",
  "Invalid masks, masks of ones and the value of the masked mse are proved. REFUTED in the region-of-interest clauses: C77_outside_pixels_refuted, C77_roi_mean_refuted, C77_psnr_perfect_refuted, C77_snr_identical_refuted."
 ],
 "C78": [
  "proved",
  "All of the statement."
 ],
 "C79": [
  "proved",
  "The decomposition enters by its contract for the matrix at hand (svd_result / svds_result: factors orthonormal, values non-negative and sorted, product equal to the input; svds ascending)."
 ],
 "C80": [
  "proved",
  "The decomposition enters by its contract for the matrix at hand (svd_result / svds_result: factors orthonormal, values non-negative and sorted, product equal to the input; svds ascending). Results are stated up to rounding: squared Frobenius distance at most min(m,n)*1e-30 from the exact minimiser."
 ],
 "C81": [
  "proved",
  "The decomposition enters by its contract for the matrix at hand (svd_result / svds_result: factors orthonormal, values non-negative and sorted, product equal to the input; svds ascending). REFUTED part: n_pc=k keeps more than k components when singular values coincide (C81_n_pc_rank_refuted)."
 ],
 "C82": [
  "proved",
  "The decomposition enters by its contract for the matrix at hand (svd_result / svds_result: factors orthonormal, values non-negative and sorted, product equal to the input; svds ascending). REFUTED parts: n_pc with soft thresholding (C82_soft_n_pc_refuted), no selected component (C82_zero_components_refuted)."
 ],
 "C83": [
  "proved",
  "The decomposition enters by its contract for the matrix at hand (svd_result / svds_result: factors orthonormal, values non-negative and sorted, product equal to the input; svds ascending). REFUTED parts: C83_default_drops_refuted, C83_recompute_refuted."
 ],
 "C84": [
  "proved",
  "All matrices of exact reals."
 ],
 "C85": [
  "proved",
  "The decomposition enters by its contract for the matrix at hand (svd_result / svds_result: factors orthonormal, values non-negative and sorted, product equal to the input; svds ascending)."
 ],
 "C86": [
  "proved",
  "The decomposition enters by its contract for the matrix at hand (svd_result / svds_result: factors orthonormal, values non-negative and sorted, product equal to the input; svds ascending). REFUTED part: a second call on the same data can raise (C86_second_call_refuted)."
 ],
 "C87": [
  "proved",
  "REFUTED for extra_factor other than 1 (C87_extra_factor_refuted: theta is recomputed without extra_factor, so the result is not the minimiser whenever an algorithm passes a step size other than 1). Proved in full for extra_factor 1, with an explicit error bound due to the machine epsilon added to the data; real arithmetic."
 ],
 "C88": [
  "proved",
  "REFUTED: the cost is not a multiple of the squared norm (the factor 1/2 is applied to the first sum only) and the search stops at a q one too small (C88_cost_refuted, C88_wrong_q_refuted). What holds is C88_cost_bounds and C88_cost_for_k_1 (cost is twice the minimised function for k = 1)."
 ],
 "C89": [
  "proved",
  "REFUTED: op lowers k_value for good when it meets a small array (C89_k_value_kept_refuted), and cost raises IndexError as long as k_value exceeds the size (C89_cost_raises_for_large_k). Validation and the value left by op are proved."
 ],
 "C90": [
  "proved",
  "REFUTED: a negative sigma is accepted and gives a negative density (C90_nonnegative_refuted). For sigma > 0 the Gaussian integral is proved from scratch; arithmetic exact."
 ],
 "C91": [
  "proved",
  "Exact arithmetic."
 ],
 "C92": [
  "proved",
  "REFUTED: the exponential is missing, so the filter vanishes at g = 0, has the opposite sign elsewhere and grows without bound (C92_gaussian_profile_refuted). C92_value gives the value computed."
 ],
 "C93": [
  "proved",
  "REFUTED for a single run: two operators that are not transposes can print 0 (C93_one_run_refuted). Exact arithmetic: with floats the number printed for transposes is a rounding error. Arrays of different shapes in the two products are not modelled."
 ],
 "C94": [
  "proved",
  "REFUTED for 'poisson': sigma scales the noise and is validated (C94_sigma_ignored_for_poisson_refuted), and the Poisson draw is added to the data, so the mean is x + sigma |x| (C94_poisson_is_added, C94_poisson_unbiased_refuted). Expectations are means over finite families of draws."
 ],
 "C95": [
  "proved",
  "REFUTED for norm='none': the error message offers it and it is rejected (C95_none_refuted). Gaussian2DKernel is modelled from its documentation."
 ],
 "C96": [
  "proved",
  "REFUTED parts: the adjoint for even filter sizes (C96_adjoint_refuted), agreement of the methods at the border (C96_methods_agree_refuted), the shape for kernels larger than the image (C96_shape_refuted). convolve_fft is modelled from its documentation in exact arithmetic; C96_example reproduces the docstring's numbers."
 ],
 "C97": [
  "proved",
  "REFUTED: stacks of different lengths are truncated silently (C97_lengths_checked_refuted, C97_surplus_images_dropped)."
 ],
 "C98": [
  "proved",
  "REFUTED: trimming can change the filtering when the filter is not equal to its half turn (C98_any_filter_acts_alike_refuted: a one-pixel shift becomes the identity). The bounding box, its uniqueness, idempotence, the error on zero filters and the invariance for symmetric filters are proved. Filters with a number of axes other than 1 or 2 are not modelled."
 ],
 "C99": [
  "proved",
  "REFUTED: trim=True with filters of different trimmed sizes raises ValueError (NumPy 1.24 or later) instead of returning the documented object array (C99_trim_different_sizes_refuted). The transform is a parameter; convolution is the zero-padded 'same' convolution that filter_convolve uses by default."
 ]
}