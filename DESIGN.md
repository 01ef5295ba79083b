# Formal model of ModOpt in Rocq (Coq 8.16.1)

## Approach

* Shallow, executable-style Gallina models, one per Python module, mirroring the
  functions branch by branch.  Exceptions are values (`res A = Ok a | Err e`).
  Objects with state are records; methods are functions from state to state.
* Files are named by role, per area `X`:
  `Model_X.v` (definitions only, each with a `/repo` citation),
  `Spec_X.v` (independent specification, when the statement needs one),
  `Proof_X.v` (lemmas), `Prop_X.v` (the property theorems, each closed by
  `exact`, followed by `Print Assumptions`, with an `Example` of a concrete case).
* Numbers.  Floating-point data is idealised as the real numbers `R` of Coq's
  standard library, except where the property is about rounding of the weights
  sum (C49), which uses the standard library's executable IEEE binary64 (`SpecFloat`).  NumPy's
  `around` is modelled explicitly (scaled round-half-even on reals).
* Vectors.  Optimisation algorithms are modelled over an arbitrary real inner
  product space (record `ips`), instantiated by `R` and by `R^n`; element-wise
  code is modelled on `list R`; shape-changing code on polymorphic lists of
  lists or on (shape, row-major data) pairs.
* User supplied callables (gradient, prox, operators, metrics, observers,
  random numbers, SVD) are universally quantified functions; what is assumed of
  them is a visible hypothesis of the theorem.

## Trusted base

* Coq's kernel (checked again by `coqchk`).  Some concrete computations in the
  proofs of C43 and C49 use `vm_compute`; no kernel check is switched off.
* The axioms that `Print Assumptions` lists, all from the standard library:
  * the real numbers of `Coq.Reals`: `sig_forall_dec`, `sig_not_dec`
    (`ClassicalDedekindReals`), `functional_extensionality_dep`;
  * `classic` (`Classical_Prop`), through lemmas of `Coq.Reals`.
  The list for each theorem is in the last section.
* The reading of `/repo` that produced the models.  The code is not executed.
* Contracts of library functions that the code calls.  They are visible
  hypotheses of the theorems, or part of a model definition with a comment:

| Library function | Taken as |
|---|---|
| `scipy.linalg.svd(full_matrices=False)`, `np.linalg.svd` | hypothesis `svd_result` / `singular_values`: orthonormal factors, non-negative decreasing singular values, product equal to the input |
| `scipy.sparse.linalg.svds` | hypothesis `svds_result`: the k largest singular triples in ascending order; ValueError unless 0 < k < min(shape); TypeError for k = None |
| `scipy.signal.fftconvolve(mode="same")` | exact zero-padded convolution, cropped from (size - 1)//2 |
| `sklearn.isotonic.isotonic_regression`, `np.argsort` | hypotheses: closest monotone non-negative array; sorting permutation |
| `np.around`, `np.round` | scaled round-half-even on exact reals |
| `np.sum` of at most 7 doubles | left-to-right binary64 addition (C49) |
| `rng.random`, `standard_normal`, `poisson` | arbitrary arrays of the requested shape (entries in [0, 1[ for `random`) |
| astropy `Gaussian2DKernel` | sampled Gaussian; divided by its sum from version 5.2 on |
| `astropy.convolution.convolve_fft(boundary="wrap", crop=False)` | exact circular convolution on the larger shape, kernel entry a//2 at the origin |
| mr_transform, fits.writeto, fits.getdata, os.remove | an arbitrary function from arguments and file system to file system and output; writing a file that exists and reading or removing one that does not raise OSError |
| logging, warnings | getLogger returns one logger per name; records reach the handlers of the logger and of its dotted ancestors; FileHandler(mode='w') truncates and writes at its own position; captured warnings go to the logger py.warnings |
| pywt (Haar, symmetric) | dwtn/idwtn, wavedecn/waverecn with cropping of an approximation larger by one, ravel_coeffs/unravel_coeffs |
| numpy, CuPy, TensorFlow, torch conversions | numpy.array refuses CuPy arrays and GPU tensors; array(), get(), torch.Tensor and data.numpy() copy; dlpack and Tensor.numpy share memory; float() copies unless already single precision |
| NumPy data types | the result type of arithmetic is the larger kind; in-place operations and copyto need casting 'same_kind'; item assignment casts without check |
| NumPy complex numbers | abs is the modulus, around rounds both parts, > compares the real parts first, then the imaginary parts |
| NumPy array flags | setting flags.writeable to False always works, to True fails exactly for a view whose owner is read-only; assignment through a read-only array raises |
| tqdm | a bar is true if its total is positive; without total, if its iterable is; without both it has no truth value; update adds 1, reset(total) sets the count to 0 and the total, the with statement closes it |
| scikit-image structural_similarity, scipy uniform_filter | for full=True, data_range=1: 7x7 uniform filter with reflected borders, sample covariances, K1=0.01, K2=0.03; the scalar leaves out 3 pixels at each border; images smaller than 7 raise ValueError |
| Python calls | positional arguments fill the parameters in order, the rest goes to *args; keywords go to the remaining parameters, the rest to **kwargs; double, unknown or missing arguments raise TypeError |
| matplotlib | plt.plot(values) draws value k at abscissa k; savefig writes the named file |
| Python attributes | the instance is looked up before the class, except for properties; assignment goes to the instance, or to the setter of a property; a property without setter raises AttributeError; an operator listed twice is two equal entries (the checks are idempotent) |
| user callables (gradients, prox, operators, metrics, observers, random numbers, parameter updates) | arbitrary functions |

## What is modelled

Line ranges are cited beside each definition.  "Not modelled" lists what a
reader might expect to be covered and is not.

| Python | Model | Not modelled |
|---|---|---|
| base/transform.py | Model_Transform: all six functions | dtypes (except the `astype(int)` truncation) |
| base/np_adjust.py | Model_NpAdjust: rotate, rotate_stack, pad2d, ftr, ftl (`fancy_transpose`) | |
| base/types.py | Model_Types: check_float, check_int; Model_TypesN: nested sequences, nan, infinities, numbers out of range; Model_Obs: check_npndarray | strings and arrays inside lists, rounding of large integers |
| base/observable.py | Model_Observable: Observable, MetricObserver | printing |
| base/backend.py | Model_Backend: all functions | the imports themselves |
| interface/errors.py, interface/log.py | Model_Log: all functions | termcolor (the coloured words are parameters) |
| plot/ | Model_CostIO: plotCost | what matplotlib draws |
| math/convolve.py | Model_Linear: convolve with method "scipy"; Model_Conv: method "astropy", convolve_stack | nan pixels, arrays not 2-D |
| math/matrix.py | Model_Matrix, Model_SVD: all functions and PowerMethod | complex data (except for the C67 refutation) |
| math/stats.py | Model_Stats: mad, sigma_mad, mse, psnr, psnr_stack; Model_Noise: gaussian_kernel | |
| math/metrics.py | Model_Stats: min_max_normalize, preprocessing, mse, snr, psnr, nrmse; Model_SSIM: ssim on 2-D images | images not 2-D in ssim |
| signal/noise.py | Model_Signal: thresh; Model_Complex: thresh on complex data; Model_SignalX: thresh with infinities and nan; Model_Noise: add_noise | |
| signal/positivity.py | Model_Signal: all; Model_Complex: complex arrays; Model_SignalX: infinities and nan | nested complex arrays |
| signal/svd.py | Model_SVD: all | complex matrices |
| signal/wavelet.py | Model_Linear: filter_convolve, filter_convolve_stack; Model_MR: trim_filter, get_mr_filters, execute, call_mr_transform | the program mr_transform itself (a parameter) |
| signal/filter.py | Model_Filter: all, for numbers and 1-D arrays | complex data |
| signal/validation.py | Model_Noise: transpose_test | arrays of different shapes in the products |
| opt/cost.py | Model_Cost: CostParent, costObj; Model_CostIO: output, calls of the operators' cost methods, plot | formatting of numbers |
| opt/gradient.py | Model_Linear: GradBasic; Model_Obs: the obs_data and grad setters of GradParent | printing |
| opt/linear/base.py | Model_Linear: MatrixOperator, LinearCombo, Identity | |
| opt/linear/wavelet.py | Model_Linear: WaveletConvolve; Model_Wavelet: WaveletTransform, CPUWaveletTransform (2D, Haar, mode symmetric), regrouping and flattening of TorchWaveletTransform and CupyWaveletTransform | other wavelets and modes, 1D and 3D on numpy, ptwt, joblib, devices |
| opt/proximity.py | Model_Prox, Model_SVD: Positivity, SparseThreshold, LowRankMatrix, LinearCompositionProx, ProximityCombo, OrderedWeightedL1Norm, Ridge, ElasticNet, GroupLASSO; Model_KSupport: KSupportNorm on flat real arrays; Model_Complex: SparseThreshold, Ridge, ElasticNet, GroupLASSO, Positivity on complex arrays | KSupportNorm with theta + beta = 0; LowRankMatrix, OrderedWeightedL1Norm, KSupportNorm on complex arrays |
| opt/reweight.py | Model_Linear: cwbReweight with aliasing of the weights array; Model_RwX: zero weights, infinities and nan | |
| opt/algorithms/ (which arrays are shared) | Model_Heap, Model_HeapGD: the updates of the seven classes with references, copies and in-place writes | arrays passed to cost and metrics |
| opt/algorithms/base.py | Model_SetUp: the iteration loop, metrics period; Model_Run: repeated calls of iterate with a cost object; Model_Ctor: argument checks and warnings; Model_Progress: progress bar and message | copying |
| opt/algorithms/forward_backward.py | Model_FB: FISTA, ForwardBackward, GenForwardBackward, POGM; Model_Ctor: constructor checks; Model_Dtype: data types | - |
| opt/algorithms/primal_dual.py | Model_PD: Condat; Model_Ctor: constructor checks; Model_Dtype: data types | - |
| opt/algorithms/admm.py | Model_ADMM: ADMMcostObj, ADMM, FastADMM (their constructors check nothing); Model_DtypeAdmm: data types | - |
| opt/algorithms/gradient_descent.py | Model_GD: all classes; Model_Ctor: constructor checks; Model_Dtype: data types; Model_GDC: complex arrays; Model_GDX: zero denominators, infinities and nan on real arrays | overflow; special values in complex arrays |

Everywhere: arithmetic on exact reals instead of binary64 unless said otherwise,
NumPy broadcasting only where the code relies on it, no memory limits, no
threads, no printing.

## Per property plan

| Property | What is modelled | How it is settled |
|---|---|---|
| C01 | (shape, flat data) arrays; reshape/transpose on lists | round trip by list induction; index characterisation |
| C02 | lists of lists; hstack/vstack/slices as in the code | round trip + pixel formula |
| C03 | same model, `np.all(shape % layout)` guard | expected false: refutation with a map one dimension of which is not a multiple |
| C04 | list model over R with `astype(int)` truncation | expected false for fractional pixels (refutation); proved for integer pixels |
| C05 | rot90 twice as row and column reversal | involution and index formula |
| C06 | arrays as shape + index function, axes list rolled | composition law on multi-indices |
| C07 | np.pad on lists of lists | pixel formula |
| C08 | sum type of Python values | case analysis, truncation lemmas |
| C09 | Observable as a record with an association list | invariant over histories against a first-occurrence list spec |
| C10 | remove_observer as coded (missing helper) | expected false: always AttributeError |
| C11 | observers as finite programs that may notify | trace equality with spec |
| C12 | same, with raising observers | expected false: lock never released |
| C13 | MetricObserver record, metric returns `res R` | invariant for non-raising histories; refuted with raising metric |
| C14 | is_converge with Python slices | flag = spec predicate on last w values |
| C15 | fuelled `_iterations` loop over arbitrary update | count theorem |
| C16 | 1-tuple truthiness modelled literally | expected false: every iteration; exact count proved |
| C17 | any_convergence_flag + updates | proved for ForwardBackward-like classes; refuted for GenForwardBackward |
| C18 | CostParent record, get_cost step | list equality over histories |
| C19 | same, plus `around` | history characterisation |
| C20 | corollary of C19 | arithmetic of call numbers |
| C21 | operators as records with optional cost | case analysis, permutation invariance |
| C22 | element-wise on R lists and nested trees | projection inequality |
| C23 | element-wise | case analysis |
| C24 | element-wise with eps floor and 15-decimal rounding | error bound |
| C25 | scalar prox inequality summed over the list | optimality and 1-Lipschitz |
| C26 | string dispatch | case analysis |
| C27 | scaled identity | quadratic optimality |
| C28 | soft threshold then scaling | optimality |
| C29 | norms in an inner product space | optimality by Cauchy-Schwarz |
| C30 | abstract inner product spaces | transport of argmin |
| C31 | lists of operators with IndexError | separable argmin |
| C32 | sort as coded | expected false: refutation (documented example)  |
| C33 | complex matrices as pairs of reals | sum exchange |
| C34 | lists of operators | proved with unit weights; refuted without weights |
| C35 | zero-padded same-mode convolution, 1-D and 2-D | proved for odd filters, refuted for even |
| C36 | inner product space | algebra |
| C37 | record with counter and weights | closed form by induction |
| C38 | heap model with aliasing | expected false: refutation |
| C39 | update_lambda on reals | induction |
| C40 | same | expected false: refutation at third iteration |
| C41 | constructor checks with exact exception | expected false: refutation |
| C42 | ForwardBackward update | sufficient decrease + telescoping |
| C43 | same + FISTA state | accelerated Lyapunov argument |
| C44 | one update | subgradient argument |
| C45 | x_final = z | expected false: refutation; proved for x_new |
| C46 | constructor | expected false: refutation |
| C47 | attributes as options | expected false for FB family/Condat; proved for gradient descent/ADMM |
| C48 | GenForwardBackward update | invariant + optimality |
| C49 | binary64 by `SpecFloat` | expected false: refutation for n = 6 |
| C50 | POGM update | invariants |
| C51 | Condat update | optimality conditions |
| C52 | Condat update | convexity invariant |
| C53 | ADMM update as coded | expected false: independence of mu proved |
| C54 | FastADMM as coded | expected false |
| C55 | FastADMM as coded | expected false |
| C56 | constructor argument passing | expected false |
| C57 | Momentum as coded | expected false for epoch_size = 1; proved otherwise |
| C58 | SAGA as coded | invariant |
| C59 | AdaGrad/RMSprop | closed form |
| C60 | ADAM as coded | expected false from the second iteration |
| C61 | OrderedWeightedL1Norm.op with contracts for sorting and isotonic regression | optimality |
| C62-C66 | gradient descent family as coded | closed forms; step formula, end points and final point expected false |
| C67-C70 | Gram-Schmidt, rotations, power method | algebra, limits; seed and complex rows expected false |
| C71-C78 | images as lists of pixels with nan and inf | order statistics, algebra; several mask and dtype claims expected false |
| C79-C86 | matrices of reals, decompositions by contract | von Neumann and Eckart-Young type arguments; defaults of the fast variant expected false |
| C87-C89 | flat real arrays, the grid, the binary searches and the stored k as coded, machine epsilon as a real number | the norm as a supremum over dual vectors; optimality by a fractional-knapsack bound; distance of the interpolated threshold to the exact one. extra_factor, the factor 1/2 of cost and the lasting change of k expected false |
| C90-C92 | filters of numbers and arrays in exact arithmetic | antiderivatives and limits; the Gaussian integral; mex_hat_dir expected false |
| C93 | operators as functions on arrays, random draws as parameters | algebra; separation of linear maps by the unit cube |
| C94 | draws as parameters, expectations as finite means | algebra; Poisson claims expected false |
| C95 | astropy's kernel by contract for both version ranges | order and sum of exponentials |
| C96-C97 | circular convolution on a torus of pixels; filter banks over either convolution | residues modulo the size, exchange of sums; even filters and border pixels expected false |
| C98-C100 | bounding box of the support; impulse response as a kernel; a file system as a function from names to contents and the external program as a function on it | the box is unique; command lines split back into their words; failures expected to leave files |
| C101-C103 | file streams with positions, loggers as lists of handlers with propagation by dotted names, captured warnings; traces of operations | one invariant on processes, kept by every operation; the loop of close_log keeps every second handler |
| C104-C106 | Haar channels of one axis, two axes, several levels; coefficient vectors as concatenations | one-axis identities lifted to rows and columns; induction on the level with the lists cut at the last three arrays |
| C107-C109 | installed libraries as flags; objects with kind, precision, values and the memory that holds them | case analysis on kinds and libraries |
| C110 | the loop of Model_SetUp with the cost object of Model_Cost (Model_Run) | splitting and shifting the loop; induction on the number of iterations |
| C111-C112 | Python values by type, constructors as sequences of checks with warnings (Model_Ctor) | acceptable arguments specified independently; case analysis |
| C113 | arrays abstracted to their kind of data type (Model_Dtype) | exact conditions per class; the types are a fixed point after one iteration |
| C114-C116 | complex entries as pairs of reals (Model_Complex) | block soft-thresholding in an inner-product space; a complex group is a real group twice as long |
| C117 | array objects with flags looking into shared buffers (Model_Obs) | invariant over all operation sequences |
| C118-C121 | the updates of C42, C48 and C51 with fixed parameters (Model_FB, Model_PD) | a non-increasing distance to every solution and summable residuals give, by Bolzano-Weierstrass in finite dimension (proved in Proof_Lim), convergence to one solution |
| C122-C123 | the update of C42 with operators other than the exact ones; GradBasic, SparseThreshold, thresh, costObj, PowerMethod as modelled before (Model_FB, Model_Signal, Model_Prox, Model_Matrix) | nonexpansiveness of the exact update adds the errors up, contraction sums them geometrically; a LASSO solution exists by bounded sublevel sets and the rate of C42 |
| C124 | Model_Heap: the updates of ForwardBackward, GenForwardBackward, POGM, Condat and ADMM as programs on a heap of arrays with owners; operators as heap transformers under a contract (Spec_Heap) | each update refines the update on values of Model_FB, Model_PD, Model_ADMM under an invariant on ownership and distinctness of references; refutations by concrete heaps |
| C125 | Model_FB: is_restart, update_beta, update_lambda of FISTA inside fb_update | the run as equations between sequences (Spec_Restart); counting of restarts; a fixed-point bound for the capped relaxation; two concrete runs for the refutations |
| C126 | Model_PD: condat_iterate with reweighting | the runs as a doubly indexed sequence (Spec_Reweight); induction on the number of reweightings |
| C127 | Model_FB, Model_PD: constructors | equality of the constructed objects for each class, first update |
| C128 | Model_Progress: the loop with bar, message and exceptions; Condat's bar | equality with the run of Model_SetUp; counting of the steps of the bar (Spec_Progress) |
| C129 | Model_SSIM: uniform filter with reflection, index map, mean without border, mask | centred (co)variances and patches (Spec_SSIM); Cauchy-Schwarz for the range; a 7x7 witness |
| C130 | Model_CostIO: printed lines, Python call binding, plotCost | the whole output as a concatenation of reports (Spec_CostIO); a predicate on signatures |
| C131 | Model_OpInit: Python attributes (instance, class, property), the setters of the parent classes, the checks of the combinations | reads/assignable as relations; refused_for: one rule per reason |
| C132 | Model_FB | limits (Spec_Lim); Lyapunov argument with the slack of t_{k+1}^2 - t_{k+1} <= t_k^2 |
| C133 | Model_FB | Rpower; a Lyapunov function with weight 4/3 on the distance, cubed |
| C134 | Model_HeapGD: the gradient descent classes and FastADMM on the heap of Model_Heap | refinement of Model_GD and of FastADMM in Model_ADMM under an invariant on ownership and distinctness; this also derives the aliasing of _v_hat and _v_old that Model_ADMM builds in |
| C135 | Model_PD.condat, Model_Signal.positive, Model_Prox.sparse_op, Model_Linear.grad_basic | existence of dual solutions by smoothing h (Moreau envelope) and a compactness argument that needs no choice; stability of Condat under errors in the metric of C120; explicit projections for the refutation |
| C136 | Model_FB.pogm_update, Model_IdProx | an energy that does not increase between resets for every sigma, a second one counting the distance lost up to the next reset, compactness for the limit; the golden-ratio quadratic for the refutation |
| C137 | Model_FB.gfb_update, Model_Prox, Model_Signal | an update does not separate two states in the weighted norm of the tuples; the dual solutions of C135 in the product space give the optimality condition; disc and half-plane for the refutation |
| C138 | Model_GD (Ada, RMSprop, Vanilla) | the objective corrected by the truncated speed decreases and pays for the growth of the speed; distances in the metric of the speed shrink up to summable terms; the Huber function for RMSprop |
| C139 | Model_GD (Generic, Ada, RMSprop, Vanilla) | per-entry proximal inequality in the metric of the speed, summation by parts; the reverse direction of the fixed points by changing one entry |
| C140 | Model_GD (all classes) | a map of states that commutes with the update, one per symmetry; Jensen and the product of the bias corrections for ADAM; explicit runs for the refutations |
| C141 | Model_FB, Model_PD | a map of states that commutes with the update; uniqueness of gradients and of proximity operators for the link with the objective; an explicit run for the refutation |
| C142 | Model_ADMM | optimality conditions of the subproblems (Spec_Constrained); explicit linear recursions for the refutations, with an eigenvector of factor 2 for FastADMM |
| C143 | Model_GDC (gradient_descent.py on complex arrays) | Proof_Ada's argument with squared moduli; images of states under entrywise linear maps for the phases, the parts and the real case |
| C144 | Model_GDX (gradient_descent.py with infinities and nan) | invariant on the sign of the speed and on the powers of gamma; on runs without zero denominators the model refines to Model_GD |
| C145 | Model_FB, Model_PD | two-point versions of the descent inequalities: the updates are nonexpansive, in Condat's case for its natural norm; a run and the same run one update later are two runs |
| C146 | Model_TypesN (base/types.py with nested sequences and special values) | shapes characterised by a recursive specification; row-major positions by induction on the shape; the first element that cannot be converted decides |
| C147 | Model_GD (existing) | a gradient step is nonexpansive because the gradient is cocoercive, the proximity operator is nonexpansive; induction over the updates with the gradient error added |
| C148 | Model_FB (existing), gradient operator independent of the true gradient | the accelerated energy with the error term bounded by Cauchy-Schwarz; its square root grows by at most 2 beta t_k err_k per update; for Chambolle-Dossal parameters the same from the fourth update on |
| C149 | Model_DtypeAdmm: kinds of data types, copies and in-place writes of ADMM and FastADMM | the state of types is a fixed point of one iteration; refuted by integer and complex witnesses |
| C150 | Model_SignalX: positive and thresh with infinities and nan | case analysis on the kinds of values; agreement with the real model on finite ones |
| C151 | Model_RwX: cwbReweight with zero weights, infinities and nan | induction on the calls, one entry at a time |

A property that is false of the code has status `proved` in MANIFEST.json with a
note starting with or containing REFUTED; its `_refuted` theorem is an
existential statement with a concrete witness, and the other theorems of the
property give the part that holds.

## Seeded faults

`seeded/LOG.jsonl` has one line per fault tried in a scratch copy of the model:
the definition edited, the edit, the claim it breaks, the theorems that failed
and the theorems added or tightened because of it.

## Print Assumptions

Generated by `tools/gen_assumptions.py`.

<!-- assumptions -->
* no axioms (closed under the global context):
  C01_cube_matrix_roundtrip, C01_errors, C01_flat_pos_is_lexicographic_rank, C01_matrix_cube_roundtrip, C02_cube_map_roundtrip, C02_errors, C02_map_cube_roundtrip, C03_map2cube_drops_pixels, C03_map2cube_rejects_bad_layout_refuted, C03_map2cube_rejects_both_bad, C04_map2matrix_crops_wide_tiles, C05_low_dimensions_rejected, C05_rotate_half_turn_involution, C05_rotate_stack_involution, C06_fancy_transpose_composes, C06_fancy_transpose_period, C06_fancy_transpose_rolls_axes, C06_ftl_ftr_inverse, C07_errors, C07_pad2d_exact, C09_observers_unique_and_ordered, C09_unknown_signal_rejected, C100_execute, C100_leaves_no_trace, C100_missing_output, C100_refused_calls_touch_nothing, C100_reported_error, C100_success, C101_cannot_open, C101_close_keeps_half, C101_closed_log_is_silent_refuted, C101_file_holds_the_messages, C101_logs_independent_refuted, C101_reopening_erases, C101_set_up_twice_refuted, C102_catch_error, C102_catch_error_closed, C102_only_the_message_refuted, C102_set_up_log_silences_warnings, C102_warn, C102_warn_reaches_the_log_refuted, C102_warnings_survive_logging_refuted, C103_existing_file_accepted_refuted, C103_file_name_error, C103_is_executable, C103_is_executable_type, C103_missing_path_refuted, C103_rejections_are_os_errors, C105_backend, C105_mode_ignored, C105_mode_refuted, C106_adj_first, C106_extra_axis, C106_regroup, C106_roundtrip, C107_get_array_module, C107_get_backend, C107_idempotent, C108_change_backend, C108_from_numpy, C108_idempotent, C108_move_never_raises, C108_move_raises_refuted, C108_move_to_cpu, C109_import_error_refuted, C109_roundtrip, C109_to_tensor, C109_values_lost, C10_remove_observer_always_raises, C10_remove_observer_removes_refuted, C110_after_convergence, C110_resume, C113_complex_data_refuted, C113_condat, C113_forward_backward_any_type, C113_gen_forward_backward, C113_gradient_descent_any_type, C113_integer_start_refuted, C113_pogm, C113_saga_memory, C113_saga_memory_refuted, C11_nested_notification_dropped, C11_notify_calls_each_once_in_order, C128_any_bar_refuted, C128_condat_bar, C128_condat_own_bars, C128_condat_unaffected, C128_counts_updates_refuted, C128_message, C128_no_bar, C128_own_bar, C128_run_unaffected, C128_unusable_bar, C128_user_bar, C12_exception_disables_all_later_notifications, C12_exception_ends_the_round, C12_exception_keeps_notifications_refuted, C12_unknown_signal_disables_all_later_notifications, C131_auto_cost, C131_combining_leaves_operators_alone_refuted, C131_combo_accepts, C131_combo_errors, C131_combo_keeps, C131_cost_is_optional_refuted, C131_grad_parent, C131_parent_assignment, C131_parent_construction, C131_reuse, C149_admm_any_type, C149_fast_admm, C149_late_failure_refuted, C149_same_starts_refuted, C15_stops_at_convergence_or_max_iter, C16_metrics_on_every_iteration, C16_metrics_only_on_period_refuted, C16_period_zero_raises, C17_GenForwardBackward_ignores_flags, C17_early_stopping_GenForwardBackward_refuted, C17_early_stopping_stops, C17_no_cost_never_stops, C21_costobj_rejects_non_sequences, C21_costobj_validates_operators, C31_op_is_componentwise, C31_short_input_raises, C34_linear_combo_validation, C49_default_weights_accepted_refuted, C49_default_weights_binary64, C73_invalid_method, C85_not_callable, C89_k_value_validation
* `sig_forall_dec`:
  C08_check_float_preserves_value, C100_any_path_refuted, C100_error_leaves_output_refuted, C100_missing_output_leaves_input_refuted, C100_path_is_directory_refuted, C100_runtime_error_means_failure_refuted, C106_same_shape_refuted, C108_back_to_cpu_refuted, C108_copy_refuted, C108_ndarray_refuted, C109_cupy_refuted, C117_accepts_exactly, C117_caller_keeps_writing_refuted, C117_conversion, C117_data_protected, C117_float32_refuted, C117_gradient_value, C117_stores_the_callers_array, C117_writeable_option, C124_admm, C131_linear_combo, C131_linear_combo_errors, C131_methods_unchanged, C146_float_array, C21_no_operators_refuted, C21_none_fails_at_the_first_evaluation, C31_cost_is_the_sum, C47_iterate_zero_admm, C53_multiplier_accumulates_residuals, C53_primal_ignores_multiplier, C54_initial_point_and_tau_ignored, C55_cost_funcs_always_raise, C67_invalid_option, C69_zero_iterations, C96_methods_agree_inside, C96_shape_refuted, C96_validation, C97_astropy_values, C97_lengths_checked_refuted, C97_scipy_values, C97_surplus_images_dropped
* `classic`, `sig_forall_dec`:
  C130_signature
* `functional_extensionality_dep`, `sig_forall_dec`:
  C04_matrix_map_roundtrip_integers, C04_matrix_map_roundtrip_refuted, C04_matrix_map_truncates, C08_check_int_truncates_towards_zero, C08_checks_idempotent, C08_complex_imaginary_part_lost, C110_cost_history, C110_index_free_classes, C110_metric_index_refuted, C110_stopped_run, C111_accepts_exactly, C111_exceptions, C111_gradient_descent_step_refuted, C111_list_data_refuted, C111_misspelled_refuted, C111_sigma_nan_refuted, C111_step_type_refuted, C111_stored, C111_unknown_keyword_ignored, C111_zero_step_refuted, C112_auto_warns, C112_classes_do_not_matter, C112_linear_refuted, C112_one_each, C112_silent_refuted, C112_warnings_exactly, C116_agrees_on_real_data, C116_jumps, C116_kept_entries, C116_nonexpansive_refuted, C116_nonnegative_refuted, C116_not_a_prox, C117_complex_values_refuted, C117_second_operator_refuted, C117_views_refuted, C118_array_spaces_qualify, C119_unique_minimiser, C121_optimal_points_minimise, C121_run_returns_estimate, C123_operator_defined, C124_admm_inplace_refuted, C124_condat, C124_gen_forward_backward, C126_neutral_reweighting, C126_reweighted_runs, C127_step_size, C130_documented_example_refuted, C130_printed_change_decides, C130_quiet, C130_report, C130_verbose_only_prints, C136_identity_prox, C139_positivity_is_entrywise, C139_soft_threshold_is_entrywise, C13_misalignment_counts_raises, C13_missing_attribute, C13_series_aligned, C13_series_aligned_when_metric_raises_refuted, C13_times_start_at_zero_and_grow, C141_condat, C141_condat_units_of_a_primal_penalty_refuted, C141_condat_units_of_the_objective, C141_gen_forward_backward, C141_gradient_of_the_changed_problem, C141_prox_of_the_changed_problem, C142_documented_subproblems_refuted, C142_unchanged_pairs, C142_unchanged_states_are_regularised, C142_unchanged_states_solve, C146_arrays, C146_idempotent, C146_int_array, C146_list_as_array_refuted, C146_numbers, C146_ragged, C146_type_error, C14_flag_is_windowed_change_test, C150_hard, C150_negative_set_to_zero_refuted, C150_positive, C150_same_entries_refuted, C150_soft, C151_closed_form, C151_positive_weight, C151_special_data, C151_zero_data_refuted, C151_zero_weight, C18_cost_list_is_every_cth_cost, C18_no_interval_no_cost, C19_verdict_is_full_window_test, C20_constant_cost_converges_every_window, C21_cost_is_order_independent_sum, C22_nested_structure_refuted, C22_nested_values, C22_numbers_and_type_errors, C22_numeric_projection, C22_ragged_flag_equal_lengths, C22_ragged_flag_refuted, C22_ragged_structure_kept, C23_hard_keeps_or_kills, C23_zero_threshold_is_identity, C24_soft_is_shrinkage_up_to_rounding, C25_cost_is_the_penalty, C25_shrinkage_nonexpansive, C25_sparse_threshold_solves_prox, C26_unknown_type_rejected, C27_cost_is_the_penalty, C27_ridge_is_prox_of_its_cost, C28_cost_is_the_penalty, C28_elastic_net_is_prox_of_its_cost, C30_composition_prox, C31_combination_is_prox_of_sum, C32_cost_never_exceeds_owl_norm, C32_cost_pairs_largest_weight_with_smallest_magnitude_refuted, C32_cost_uses_ascending_order, C33_matrix_operator_adjoint, C33_real_and_imaginary_parts, C34_linear_combo_adjoint_refuted, C34_linear_combo_mean_is_scaled_adjoint, C34_linear_combo_weighted_adjoint, C35_convolution_adjoint_odd, C35_convolution_adjoint_refuted, C37_reweight_closed_form, C37_reweight_next_call, C38_callers_array_is_live_weights, C38_callers_array_unchanged_refuted, C38_other_containers_unchanged, C41_constructor_accepts_exactly, C41_invalid_settings, C41_invalid_settings_refuted, C41_rejections, C47_condat_iterate_zero_refuted, C47_iterate_zero_raises_condat, C47_iterate_zero_raises_gen_forward_backward, C48_estimate_is_weighted_mean, C48_fixed_points_minimise, C49_default_weights_accepted_exactly, C51_fixed_points_solve_scaled_problem, C51_fixed_points_with_constraint, C51_fixed_points_with_unit_tau, C52_dual_bound_refuted, C52_dual_bound_up_to_rounding, C52_iterates_feasible, C53_fixed_points_satisfy_constraint, C54_initial_point_and_tau_refuted, C56_number_of_options, C56_options_lost, C56_options_refuted, C61_owl_op_accepts_matching_lengths, C61_owl_op_is_prox_of_owl_norm, C66_weights_validated, C67_complex_rows, C67_complex_rows_refuted, C71_invariances, C71_mad_is_median_deviation, C71_robust, C72_mse, C72_uint8_refuted, C75_normalize, C79_frobenius, C80_soft_prox, C80_svd_independent, C81_keeps_all, C81_n_pc_rank_refuted, C82_always_prints, C82_invalid_n_pc, C82_none_selected_keeps_all, C82_soft_loses_one, C82_soft_n_pc_refuted, C82_type_error, C82_zero_components_refuted, C83_default_one_round, C83_ends, C83_jump_too_far, C83_never_ends, C83_none_raises, C83_recompute_refuted, C84_bounds, C84_counts, C84_not_square, C84_sign, C87_norm_is_l1_for_k_1, C88_cost_for_k_1, C89_cost_raises_for_large_k, C93_defaults, C93_detects_linear_non_transposes, C93_not_callable, C93_one_run_refuted, C93_transposes_print_zero, C94_gauss_mean_and_variance, C94_gauss_number, C94_gauss_sequence, C94_poisson_is_added, C94_poisson_unbiased_refuted, C94_sigma_ignored_for_poisson_refuted, C94_validation, C96_adjoint_odd, C96_adjoint_refuted, C96_methods_agree_refuted, C96_shift_equivariant, C96_total, C97_rot_kernel_is_adjoint, C98_any_filter_acts_alike_refuted, C98_bounding_box, C98_idempotent, C98_symmetric_filter_acts_alike, C98_zero_filter, C99_filters_reproduce_transform, C99_impulse_response, C99_trim, C99_trim_different_sizes_refuted
* `classic`, `functional_extensionality_dep`, `sig_forall_dec`:
  C146_refused
* `functional_extensionality_dep`, `sig_forall_dec`, `sig_not_dec`:
  C104_adjoint, C104_adjoint_refuted, C104_coarse, C104_constant, C104_energy, C104_exact, C104_linear, C104_reconstruction, C104_same_shape_refuted, C105_adj_first, C105_adj_length, C105_batch_always, C105_batch_refuted, C105_last_shape, C110_gradient_descent, C110_partial_epoch_refuted, C114_agrees_on_real_data, C114_hard_keeps_or_kills, C114_phase_equivariant, C114_shrinkage_well_defined, C114_soft_shrinks_the_modulus, C115_elastic_net_is_prox_of_its_cost, C115_group_lasso_solves_prox, C115_not_by_parts, C115_ridge_is_prox_of_its_cost, C115_sparse_cost, C115_sparse_threshold_solves_prox, C118_relaxation_three_refuted, C118_step_two_over_M_refuted, C122_no_accumulation_refuted, C123_cost_is_the_objective, C123_power_method_step, C124_forward_backward, C124_forward_backward_inplace_gradient_refuted, C124_forward_backward_result, C124_pogm, C124_pogm_gradient_returning_its_argument_refuted, C124_pogm_inplace_prox_refuted, C124_pogm_result_refuted, C125_adaptive, C125_adaptive_ii_two_plain_steps, C125_adaptive_momentum_is_capped, C125_adaptive_over_relaxes, C125_greedy, C125_greedy_never_lengthens_refuted, C125_greedy_step_sizes, C125_no_strategy_no_restart, C125_relaxation_below_2_refuted, C125_restart_rule, C125_synonyms, C127_first_update, C127_zero_overrides_refuted, C129_errors, C129_mask_of_ones_refuted, C129_masked, C129_ssim, C134_ada_speed_kept_refuted, C134_fast_admm, C134_fast_admm_in_place, C134_fast_admm_inplace_refuted, C134_gradient_descent, C134_gradient_descent_result, C134_inplace_gradient_refuted, C134_result_kept_refuted, C135_limits_are_solutions, C135_touching_constraints_refuted, C136_minimisers_are_kept_refuted, C137_limits_are_optimal, C137_two_constraints_refuted, C138_vanilla_diverges, C139_adagrad_rate, C139_adagrad_regret, C139_constant_eta_refuted, C139_fixed_points, C139_vanilla_constant_eta, C139_vanilla_decreasing_eta, C139_vanilla_root_schedule, C140_adagrad_moves_at_most_eta, C140_adam_moves_at_most_eta_refuted, C140_adam_moves_further_than_eta, C140_adam_without_bound_refuted, C140_order_of_the_entries, C140_origin, C140_returned, C140_rmsprop_step_bound, C140_units_fixed_step, C140_units_of_the_objective, C141_forward_backward, C141_pogm, C142_fast_admm_converges_refuted, C142_fast_unchanged_states_solve, C142_limit_is_feasible_refuted, C143_adagrad_moves_at_most_eta, C143_adagrad_parts_refuted, C143_parts_are_separate_entries, C143_phases, C143_phases_of_complex_numbers, C143_real_data, C143_returned, C143_returned_early, C144_adagrad_nan, C144_adagrad_without_epsilon, C144_any_epsilon_refuted, C144_finite_for_ever, C144_generic_later_updates, C144_generic_without_epsilon, C145_accelerated_moves_shrink_refuted, C147_larger_eta_refuted, C147_momentum_refuted, C148_unaccelerated_bound_refuted, C29_block_soft_threshold, C29_cost_is_the_penalty, C29_group_lasso_solves_prox, C29_tiny_groups_refuted, C36_grad_basic_is_gradient, C39_default_relaxation_range, C39_identity_defect, C39_identity_for_half, C39_identity_refuted, C40_all_other_values_in_range, C40_cd_never_under_relaxes_refuted, C40_cd_second_lambda, C43_default_fista_rate_refuted, C44_fixed_points_are_minimisers, C44_run_from_minimiser_stays, C45_prox_points_feasible, C45_unaccelerated_x_final_feasible, C45_under_relaxed_x_final_feasible, C45_x_final_feasible_refuted, C46_beta_update_used_refuted, C46_beta_update_used_without_fista, C46_fista_step_constant, C47_iterate_zero_gradient_descent, C47_iterate_zero_raises_forward_backward, C47_iterate_zero_raises_pogm, C47_iterate_zero_refuted, C48_single_operator_is_forward_backward, C50_composite_gradient, C50_minimisers_are_fixed, C50_momentum_parameters_in_range, C50_restart_rule, C50_x_final_is_prox_output, C51_fixed_points_refuted, C53_solution_refuted, C54_never_restarts, C54_restart_refuted, C54_run, C55_cost_funcs_refuted, C55_without_cost_funcs, C56_cost_value, C56_squared_norm_refuted, C57_default_epoch_no_momentum, C57_default_epoch_refuted, C57_heavy_ball_between_resets, C58_direction_is_sum_of_memory, C58_memory_slots, C59_adagrad, C59_rmsprop, C60_bias_correction_refuted, C60_bias_overestimated, C63_step_formula, C63_step_formula_refuted, C65_final_point_regularised_refuted, C65_regularised_at_epochs, C66_end_points_accepted, C66_open_range_refuted, C67_dependent_rows_nan, C67_independent_rows, C68_even_quarter_turn, C68_even_side_refuted, C68_not_square, C68_pixels_lost_refuted, C68_quarter_turns, C68_rot_matrix, C68_rotate_total, C68_zero_angle, C69_convergence_test_refuted, C69_converges, C69_monotone, C69_never_above_norm, C69_upper_bound_refuted, C70_seed_refuted, C76_constant_image_nan, C76_mse, C76_zero_iff_equal_refuted, C77_masked_mse, C77_outside_pixels_refuted, C77_roi_mean_refuted, C79_is_a_norm, C79_nuclear_norm, C80_low_rank_cost, C80_low_rank_op, C81_best_rank_k, C81_hard_minimiser, C83_default_drops_refuted, C83_good_estimate_one_round, C83_hard, C83_soft, C85_identity_operator, C85_shape_errors, C85_soft_minimises, C85_thresholds, C86_invalid_type, C86_ngole, C86_rank_estimate, C86_second_call_refuted, C86_zero_rank_fails, C87_extra_factor_refuted, C87_minimiser_unique, C87_norm_exists, C87_norm_is_l2_for_k_dim, C87_op_is_prox_of_half_squared_norm, C88_cost_bounds, C88_cost_refuted, C88_wrong_q_refuted, C89_k_value_after_op, C89_k_value_kept_refuted, C90_arrays_elementwise, C90_integers_are_converted, C90_invalid_sigma, C90_nonnegative_refuted, C91_second_derivative_of_gaussian, C91_sign, C92_gaussian_profile_refuted, C92_value, C95_max_norm, C95_none_refuted, C95_sum_norm, C95_validation
* `classic`, `functional_extensionality_dep`, `sig_forall_dec`, `sig_not_dec`:
  C118_iterates_converge, C118_steps_square_summable, C119_linear_rate, C120_iterates_converge, C121_iterates_converge, C122_distance_to_exact_run, C122_strongly_convex, C123_full_column_rank, C123_minimiser_exists, C123_run_approaches_a_solution, C130_plot, C130_plot_by_iteration_refuted, C132_chambolle_dossal_converges, C132_chambolle_dossal_little_o, C132_lazy_converges, C132_lazy_little_o, C133_default_converges, C133_default_early_rate, C133_default_rate, C135_converges_to_a_minimiser, C135_dual_solution_exists, C135_inexact_operators, C135_recovery_problem_has_a_solution, C135_recovery_run, C135_solution_exists_if_coercive, C136_distance, C136_rate, C136_resets_converge, C136_values_converge, C137_converges_to_a_minimiser, C137_inexact_operators, C137_minimisers_are_optimal, C137_nonneg_lasso_has_a_solution, C137_nonneg_lasso_run, C137_solution_exists_if_coercive, C138_estimates_converge, C138_gradients_vanish, C138_rmsprop_refuted, C138_rmsprop_stays_away, C138_squared_gradients_summable, C138_values_converge, C140_adam_step_bound, C143_adagrad_complex_least_squares, C143_adagrad_converges, C143_adagrad_gradients_vanish, C145_condat, C145_last_move, C145_moves_shrink, C145_several_terms, C145_two_runs, C147_changed_samples, C147_never_apart, C147_noisy_gradients_near_minimiser, C147_perturbed_gradients, C147_returned, C147_strongly_convex, C148_chambolle_dossal, C148_inexact_gradients, C148_rate_kept, C148_without_acceleration, C42_ista_monotone_and_rate, C43_default_energy_decreases, C43_rate_for_chambolle_dossal, C43_rate_for_half, C43_rate_for_lazy_parameters, C62_distance_to_solutions_never_increases, C64_vanilla_proximal_gradient, C73_starck_square, C73_transpose_refuted, C73_wiki, C73_wiki_ranks_by_error, C74_dimensions, C74_length_mismatch_refuted, C74_values, C77_invalid_mask, C77_mask_of_ones, C77_psnr_perfect_refuted, C77_snr_identical_refuted, C78_without_mask, C90_integrates_to_one, C90_shape, C91_unit_energy, C91_zero_mean, C95_odd_sizes
<!-- end assumptions -->
