{"id": "C01", "title": "cube2matrix and matrix2cube are mutually inverse", "statement": "For every stack of n equally shaped images (any number of image dimensions), matrix2cube(cube2matrix(stack), image_shape) returns the stack element for element with its original shape; and for every p-by-n matrix with p = prod(image_shape), cube2matrix(matrix2cube(matrix, image_shape)) returns the matrix. Column i of the matrix is exactly the flattened i-th image. cube2matrix of a 0-d array and matrix2cube of fewer than two dimensions raise IndexError; a matrix whose number of rows is not prod(image_shape) raises ValueError.", "quantifier": "all stack lengths, all image shapes, all element values", "why_tests_cant": "The statement ranges over arrays of every rank and size; a test fixes one 2x2x2-like example and cannot exclude an index mix-up that is symmetric on it.", "anchors": ["src/modopt/base/transform.py:cube2matrix", "src/modopt/base/transform.py:matrix2cube"]}
{"id": "C02", "title": "cube2map and map2cube are mutually inverse on tileable data", "statement": "For every stack of n images of shape (h,w) and every layout (a,b) with a*b = n and h,w,a,b > 0, cube2map succeeds, the resulting map has shape (a*h, b*w), pixel (i*h+r, j*w+s) of the map is pixel (r,s) of image i*b+j, and map2cube(map, layout) returns the original stack. Conversely cube2map(map2cube(map, layout), layout) returns the map whenever the layout divides both map dimensions. Anything but a stack of a*b two-dimensional images makes cube2map raise ValueError.", "quantifier": "all stacks, image shapes, layouts and element values", "why_tests_cant": "The claim is a bijection over arbitrarily large layouts and images; example tests use square layouts where row/column confusions cancel.", "anchors": ["src/modopt/base/transform.py:cube2map", "src/modopt/base/transform.py:map2cube"]}
{"id": "C03", "title": "map2cube rejects layouts that do not tile the map", "statement": "map2cube raises ValueError whenever the layout does not divide the map shape in some dimension, so no pixel of the map is ever silently dropped.", "quantifier": "all 2-D maps and all layouts with positive entries", "why_tests_cant": "A test that uses a layout bad in both dimensions passes; the claim is about every way of being bad, including exactly one bad dimension.", "anchors": ["src/modopt/base/transform.py:map2cube"]}
{"id": "C04", "title": "matrix2map undoes map2matrix without altering pixel values", "statement": "For every 2-D map made of equal square tiles, matrix2map(map2matrix(map, layout), map.shape) returns the map with every pixel value unchanged.", "quantifier": "all tile sizes, layouts and real pixel values", "why_tests_cant": "Existing tests use integer ramps; the claim is about every real value, and value-altering casts are invisible on integers.", "anchors": ["src/modopt/base/transform.py:map2matrix", "src/modopt/base/transform.py:matrix2map"]}
{"id": "C05", "title": "rotate is the 180 degree rotation and an involution", "statement": "np_adjust.rotate sends pixel (i,j) of an h-by-w array to (h-1-i, w-1-j); applying it twice gives the input back; rotate_stack applies it to every image of the stack independently, keeping the stack order, and is also an involution. Arrays with too few dimensions are rejected: rotate raises ValueError below 2-D, rotate_stack raises TypeError on a scalar array and ValueError on a non-empty 1-D or 2-D array.", "quantifier": "all 2-D arrays (non-square included) and all non-empty stacks", "why_tests_cant": "Involution on one literal array does not show it for every shape.", "anchors": ["src/modopt/base/np_adjust.py:rotate", "src/modopt/base/np_adjust.py:rotate_stack"]}
{"id": "C06", "title": "ftr and ftl are inverse axis rotations", "statement": "For an array of any number of dimensions, ftl(ftr(x)) and ftr(ftl(x)) equal x (same shape, same element at every multi-index); fancy_transpose(x, a) followed by fancy_transpose(., b) equals fancy_transpose(x, a+b); rolling by ndim is the identity.", "quantifier": "all ranks, all shapes, all integer rolls, all elements", "why_tests_cant": "Quantifies over the rank of the array and over all multi-indices.", "anchors": ["src/modopt/base/np_adjust.py:ftr", "src/modopt/base/np_adjust.py:ftl", "src/modopt/base/np_adjust.py:fancy_transpose"]}
{"id": "C07", "title": "pad2d places the data and zeros exactly", "statement": "pad2d(x, (p,q)) of an h-by-w array has shape (h+2p, w+2q); pixel (i+p, j+q) is x[i,j] for every in-range (i,j) and every other pixel is 0. A scalar padding p behaves like (p,p). A padding of another type, a negative width or an array that is not 2-D raises ValueError, an empty sequence IndexError, and nothing else fails.", "quantifier": "all arrays, all non-negative paddings", "why_tests_cant": "Needs every index of every shape; off-by-one faults can hide on symmetric examples.", "anchors": ["src/modopt/base/np_adjust.py:pad2d"]}
{"id": "C08", "title": "check_float and check_int normalise without surprising changes", "statement": "check_float is idempotent and never changes the numeric value of a real input; check_int truncates towards zero (never increases magnitude, changes by less than one), is idempotent; both raise TypeError on any object that is not an int, float, list, tuple or ndarray.", "quantifier": "all inputs of the supported and unsupported kinds, all numeric values and array lengths", "why_tests_cant": "Value preservation and idempotence are laws over all numbers.", "anchors": ["src/modopt/base/types.py:check_float", "src/modopt/base/types.py:check_int"]}
{"id": "C09", "title": "add_observer keeps each signal's observers unique and ordered", "statement": "After any sequence of add_observer calls on an Observable, each allowed signal's observer list contains exactly the distinct observers registered for it, in first-registration order; an unknown signal raises ValueError and changes nothing.", "quantifier": "all finite histories of add_observer calls over any signals and observers", "why_tests_cant": "The claim is an invariant over unbounded call histories.", "anchors": ["src/modopt/base/observable.py:Observable.add_observer", "src/modopt/base/observable.py:Observable._add_observer"]}
{"id": "C10", "title": "remove_observer removes a registered observer", "statement": "Calling remove_observer(signal, obs) for an allowed signal with obs registered removes it, so obs is not called by later notifications.", "quantifier": "all observables, signals and observers", "why_tests_cant": "A property of every registration history; a test suite that never calls the method cannot see it fail.", "anchors": ["src/modopt/base/observable.py:Observable.remove_observer"]}
{"id": "C11", "title": "notify_observers calls each observer once, in order, and never re-enters", "statement": "When no observer raises, notify_observers(signal) calls every observer registered for the signal exactly once in registration order, with a signal object carrying all keyword data; a notification issued from inside an observer is dropped (returns False, calls nobody); afterwards the observable accepts notifications again.", "quantifier": "all observer lists, including observers that themselves issue notifications to any depth", "why_tests_cant": "Quantifies over arbitrary observer behaviour (nested notification programs).", "anchors": ["src/modopt/base/observable.py:Observable.notify_observers"]}
{"id": "C12", "title": "An exception in an observer does not disable later notifications", "statement": "If an observer raises during notify_observers, the observers registered before it and the observer itself have been called, in order, and no other, and the exception reaches the caller; if the caller handles the exception, a later notify_observers call still calls the observers.", "quantifier": "all observer behaviours and all later histories", "why_tests_cant": "Crash-point property: depends on where in the notification the exception is raised.", "anchors": ["src/modopt/base/observable.py:Observable.notify_observers"]}
{"id": "C13", "title": "MetricObserver series stay aligned", "statement": "Whatever sequence of notifications it receives, the index, value and time series returned by MetricObserver.retrieve_metrics have equal lengths, the k-th entries belong to the same notification, and the time series starts at 0 and is non-decreasing if the clock is.", "quantifier": "all finite histories of notifications, including ones whose metric function raises", "why_tests_cant": "Invariant over histories with failures at any point.", "anchors": ["src/modopt/base/observable.py:MetricObserver.__call__", "src/modopt/base/observable.py:MetricObserver.retrieve_metrics"]}
{"id": "C14", "title": "MetricObserver convergence flag is the windowed relative change test", "statement": "With early stopping on and an even window w >= 2, after any history of at least w metric values the converge_flag is True exactly when |mean(older half) - mean(newer half)| / |mean(older half)| < eps over the last w values; with fewer than w values it keeps its initial False.", "quantifier": "all metric histories, all even windows, all eps", "why_tests_cant": "The flag is a function of an unbounded history; a test inspects a handful of traces.", "anchors": ["src/modopt/base/observable.py:MetricObserver.is_converge"]}
{"id": "C15", "title": "iterate stops exactly at convergence or max_iter", "statement": "Running an algorithm with max_iter = n performs exactly min(n, k) updates, where k is the number of the first update after which the convergence flag is set (infinity if never); update number i is made with idx = i-1.", "quantifier": "all algorithms (update functions), all initial states, all max_iter", "why_tests_cant": "Loop-count property over every possible update behaviour.", "anchors": ["src/modopt/opt/algorithms/base.py:SetUp._iterations", "src/modopt/opt/algorithms/base.py:SetUp._run_alg"]}
{"id": "C16", "title": "Metrics are evaluated only every metric_call_period iterations", "statement": "With metric_call_period = m, registered metrics are evaluated only on iterations whose index is a multiple of m (or at convergence), so expensive metrics are called about n/m times in n iterations.", "quantifier": "all periods, all numbers of iterations, all registered metrics", "why_tests_cant": "Counts calls over runs of arbitrary length; a test that only checks results cannot see extra calls.", "anchors": ["src/modopt/opt/algorithms/base.py:SetUp._iterations"]}
{"id": "C17", "title": "Early stopping metrics stop the run", "statement": "If a metric registered with early_stopping=True has its convergence flag set after the metric evaluation of an iteration, the run stops after at most one further update, for every algorithm class with a cost function.", "quantifier": "all algorithm classes and all runs", "why_tests_cant": "Depends on the interaction of observers, loop and update for every schedule of flags.", "anchors": ["src/modopt/opt/algorithms/base.py:SetUp.any_convergence_flag", "src/modopt/opt/algorithms/forward_backward.py:GenForwardBackward._update"]}
{"id": "C18", "title": "The cost history is exactly the costs at multiples of cost_interval", "statement": "After n calls of get_cost with cost_interval = c >= 1 the recorded cost list holds exactly the costs of the calls numbered c, 2c, ..., in order; with cost_interval=None the cost function is never evaluated and get_cost always returns False.", "quantifier": "all call histories and cost functions, all intervals", "why_tests_cant": "Unbounded call histories.", "anchors": ["src/modopt/opt/cost.py:CostParent.get_cost"]}
{"id": "C19", "title": "get_cost reports convergence exactly on full windows with small relative change", "statement": "A get_cost call returns True exactly when it completes a window of test_range consecutively computed costs (windows do not overlap) and the relative difference between the means of the window's two halves is at most tolerance (taken as 0 when the newer mean rounds to 0 at 16 decimals).", "quantifier": "all histories of cost values, all tolerances and window lengths >= 2", "why_tests_cant": "Depends on the whole history of computed costs.", "anchors": ["src/modopt/opt/cost.py:CostParent._check_cost", "src/modopt/opt/cost.py:CostParent.get_cost"]}
{"id": "C20", "title": "Non-degenerate histories converge: constant cost stops after one window", "statement": "If the computed cost is constant and tolerance >= 0, get_cost first returns True on call number cost_interval*test_range and then on every further multiple of it, and on no other call.", "quantifier": "all constants, intervals, window lengths >= 2 and tolerances >= 0", "why_tests_cant": "Statement about every call number of an infinite run.", "anchors": ["src/modopt/opt/cost.py:CostParent._check_cost", "src/modopt/opt/cost.py:CostParent.get_cost"]}
{"id": "C21", "title": "costObj is the sum of the operators' costs and validates them first", "statement": "costObj(ops) raises TypeError for a non-sequence, ValueError if some operator has no cost attribute; otherwise the cost reported for x is the sum of op.cost(x) over the operators, independent of their order. Not true: that the operators are required (None, the default, is accepted and the first evaluation raises TypeError).", "quantifier": "all operator lists and inputs", "why_tests_cant": "Ranges over all operator lists and evaluation points.", "anchors": ["src/modopt/opt/cost.py:costObj"]}
{"id": "C22", "title": "positive is the projection onto the non-negative orthant", "statement": "positive(x) is element-wise non-negative, leaves non-negative entries unchanged, is idempotent, and no non-negative array is closer to x in Euclidean distance; nested lists keep their structure; a non-numeric object raises TypeError.", "quantifier": "all real arrays and arbitrarily nested lists of them", "why_tests_cant": "Optimality quantifies over all competitors.", "anchors": ["src/modopt/signal/positivity.py:positive", "src/modopt/signal/positivity.py:pos_recursive", "src/modopt/opt/proximity.py:Positivity"]}
{"id": "C23", "title": "Hard thresholding keeps or kills", "statement": "thresh(x, t, 'hard') leaves every entry with |x_i| >= t_i unchanged and sets every other entry to 0; it is idempotent; with t = 0 it is the identity.", "quantifier": "all real arrays, all thresholds (scalar or per element)", "why_tests_cant": "Law over all reals including the boundary |x| = t.", "anchors": ["src/modopt/signal/noise.py:thresh"]}
{"id": "C24", "title": "Soft thresholding is the exact shrinkage up to 1e-15", "statement": "For t >= 0, thresh(x, t, 'soft') differs from sign(x)*max(|x|-t, 0) by less than 1e-15 in every entry, never has the opposite sign of x, and is exactly 0 whenever |x| <= t.", "quantifier": "all real arrays and thresholds t >= 0", "why_tests_cant": "An error bound for every real input, including inputs below machine epsilon.", "anchors": ["src/modopt/signal/noise.py:thresh"]}
{"id": "C25", "title": "Soft thresholding solves the weighted l1 proximal problem", "statement": "The ideal shrinkage that thresh(.,.,'soft') computes before rounding (inputs that are 0 or of magnitude at least machine epsilon) minimises 0.5*||z-x||^2 + sum_i w_i |z_i| over all z; SparseThreshold.op with extra_factor f uses weights w*f; the map is non-expansive.", "quantifier": "all x, all competitors z, all non-negative weights", "why_tests_cant": "Global optimality over an infinite competitor set.", "anchors": ["src/modopt/signal/noise.py:thresh", "src/modopt/opt/proximity.py:SparseThreshold"]}
{"id": "C26", "title": "thresh rejects unknown threshold types", "statement": "thresh raises ValueError for every threshold_type other than 'soft' and 'hard' and never otherwise.", "quantifier": "all strings, all data", "why_tests_cant": "All strings.", "anchors": ["src/modopt/signal/noise.py:thresh"]}
{"id": "C27", "title": "Ridge.op is the proximal operator of its cost", "statement": "With the identity linear operator, Ridge.op(x, extra_factor=f) is the unique minimiser of 0.5*||z-x||^2 + f*w*||z||^2 for w*f >= 0.", "quantifier": "all x, all competitors z, all weights and factors", "why_tests_cant": "Optimality over all competitors.", "anchors": ["src/modopt/opt/proximity.py:Ridge"]}
{"id": "C28", "title": "ElasticNet.op is the proximal operator of its cost", "statement": "With the identity linear operator, ElasticNet.op(x, extra_factor=f) (before rounding, entries 0 or above machine epsilon) minimises 0.5*||z-x||^2 + f*(alpha*||z||_2^2 + beta*||z||_1).", "quantifier": "all x, all competitors z, all alpha, beta, f >= 0", "why_tests_cant": "Optimality over all competitors.", "anchors": ["src/modopt/opt/proximity.py:ElasticNet"]}
{"id": "C29", "title": "GroupLASSO.op is block soft thresholding and solves its proximal problem", "statement": "GroupLASSO.op scales each group by max(0, 1 - w*f/||group||): groups of norm at most w*f become 0 and others are shrunk along their own direction; for groups whose norm is 0 or at least float32 epsilon the result minimises 0.5*||z-x||^2 + f*sum_g w_g*||z_g||.", "quantifier": "all group contents and sizes, all weights and factors >= 0, all competitors", "why_tests_cant": "Optimality over all competitors in every dimension.", "anchors": ["src/modopt/opt/proximity.py:GroupLASSO"]}
{"id": "C30", "title": "LinearCompositionProx is the prox of the composition for orthonormal operators", "statement": "If the linear operator is linear and its adj_op is its inverse and adjoint, and prox.op is the proximal operator of a function g, then LinearCompositionProx.op is the proximal operator of x -> g(op(x)), and its cost is g(op(x)).", "quantifier": "all inner-product spaces, all g, all orthonormal operators, all x", "why_tests_cant": "Universal over operators, functions and competitors.", "anchors": ["src/modopt/opt/proximity.py:LinearCompositionProx"]}
{"id": "C31", "title": "ProximityCombo acts separably", "statement": "For a list of n operators and a length-n object input, ProximityCombo.op applies the i-th operator to the i-th component and nothing else; its cost is the sum of the component costs; if every component is the prox of its function the combination is the prox of the sum on the product space.", "quantifier": "all operator lists, inputs and competitors", "why_tests_cant": "Universal over the number of operators and their behaviour.", "anchors": ["src/modopt/opt/proximity.py:ProximityCombo"]}
{"id": "C32", "title": "OrderedWeightedL1Norm.cost is the OWL norm", "statement": "For non-increasing non-negative weights the cost is sum_i w_i |x|_[i] with |x| sorted in decreasing order (the largest weight multiplies the largest magnitude), i.e. the function of which op is the proximal operator.", "quantifier": "all weight vectors accepted by the constructor and all x", "why_tests_cant": "The one documented example encodes whatever the code computes; the norm identity is over all x.", "anchors": ["src/modopt/opt/proximity.py:OrderedWeightedL1Norm"]}
{"id": "C33", "title": "MatrixOperator.adj_op is the adjoint of op", "statement": "For every real or complex matrix, <op(x), y> = <x, adj_op(y)> for all x and y. The real and imaginary parts of op(x) are the sums of Re a Re x - Im a Im x and of Re a Im x + Im a Re x along each row.", "quantifier": "all matrices (any shape, real or complex, including complex dtype with zero imaginary part), all x, y", "why_tests_cant": "Bilinear identity over all vectors.", "anchors": ["src/modopt/opt/linear/base.py:MatrixOperator"]}
{"id": "C34", "title": "LinearCombo.adj_op is the adjoint of op", "statement": "For operators A_1..A_n with adjoints, <op(x), y> = <x, adj_op(y)> for the product inner product, where op(x) = (A_1 x, ..., A_n x).", "quantifier": "all operator lists, all weights settings (including none), all x and y", "why_tests_cant": "Identity over all vectors and every number of operators.", "anchors": ["src/modopt/opt/linear/base.py:LinearCombo"]}
{"id": "C35", "title": "Convolution with rotated filters is the adjoint of convolution", "statement": "WaveletConvolve.adj_op (filter_convolve with filter_rot=True, scipy method) is the adjoint of WaveletConvolve.op for every set of filters.", "quantifier": "all images, all filter sets and filter sizes", "why_tests_cant": "Adjointness over all images; depends on the parity of the filter size.", "anchors": ["src/modopt/signal/wavelet.py:filter_convolve", "src/modopt/math/convolve.py:convolve", "src/modopt/opt/linear/wavelet.py:WaveletConvolve"]}
{"id": "C36", "title": "GradBasic.get_grad is the gradient of GradBasic.cost", "statement": "If op is linear and trans_op its adjoint, then for every x and h: cost(x+h) = cost(x) + <grad(x), h> + 0.5*||op(h)||^2, where grad(x) is the value stored by get_grad(x).", "quantifier": "all inner-product spaces, all operators with adjoint, all data, x and h", "why_tests_cant": "Exact second-order expansion over all directions.", "anchors": ["src/modopt/opt/gradient.py:GradBasic", "src/modopt/opt/gradient.py:GradParent"]}
{"id": "C37", "title": "Reweighting keeps weights positive and non-increasing, with a closed form", "statement": "Starting from positive weights w0, after any sequence of reweight(x_1), ..., reweight(x_n) the weights are w0 * prod_i 1/(1+|x_i|/(n_i*w0)) element-wise: they remain positive, never increase, and an entry with zero data keeps its weight; a shape mismatch raises ValueError and leaves the weights unchanged.", "quantifier": "all histories of reweight calls", "why_tests_cant": "Invariant over unbounded histories.", "anchors": ["src/modopt/opt/reweight.py:cwbReweight"]}
{"id": "C38", "title": "Reweighting does not modify the caller's array", "statement": "cwbReweight(weights) followed by any number of reweight calls leaves the array the user passed in unchanged.", "quantifier": "all weight arrays and histories", "why_tests_cant": "Aliasing property: tests compare the object's own weights only.", "anchors": ["src/modopt/opt/reweight.py:cwbReweight", "src/modopt/base/types.py:check_float"]}
{"id": "C39", "title": "FISTA relaxation parameters stay in [1,2) and t_k grows linearly", "statement": "In the default regular mode (p=q=1, r=4) without restart, t_k >= k+1, every lambda returned by update_lambda lies in [1,2), and t_{k+1}^2 - t_{k+1} = t_k^2.", "quantifier": "every iteration number k", "why_tests_cant": "A statement about every term of an infinite recurrence.", "anchors": ["src/modopt/opt/algorithms/forward_backward.py:FISTA.update_lambda"]}
{"id": "C40", "title": "Chambolle-Dossal relaxation never under-relaxes", "statement": "In 'CD' mode with a_cd > 2 every lambda returned by update_lambda is at least 1 (as in the regular mode).", "quantifier": "all a_cd > 2 and all iteration numbers", "why_tests_cant": "Quantifies over all iterations and parameters.", "anchors": ["src/modopt/opt/algorithms/forward_backward.py:FISTA.update_lambda"]}
{"id": "C41", "title": "Invalid restart settings are rejected with ValueError", "statement": "Constructing FISTA with a_cd <= 2, an unknown restart strategy, a missing or too small s_greedy/min_beta for 'greedy', or an xi_restart outside the documented range (> 1) raises ValueError, and all documented settings are accepted.", "quantifier": "all parameter values", "why_tests_cant": "All parameter values and combinations.", "anchors": ["src/modopt/opt/algorithms/forward_backward.py:FISTA.check_restart_params"]}
{"id": "C42", "title": "ForwardBackward without acceleration decreases the objective at rate O(1/k)", "statement": "With lambda_update=None, lambda_param=1, step beta and a convex smooth part whose gradient is 1/beta-Lipschitz, F = f + g never increases along the iterates and F(x_k) - F(z) <= ||x_0 - z||^2 / (2*beta*k) for every point z.", "quantifier": "all inner-product spaces, all convex problems, all starting points, all k", "why_tests_cant": "Convergence rate theorem over all problems and iterations.", "anchors": ["src/modopt/opt/algorithms/forward_backward.py:ForwardBackward._update", "src/modopt/opt/algorithms/forward_backward.py:ForwardBackward.iterate"]}
{"id": "C43", "title": "ForwardBackward with FISTA converges at rate O(1/k^2)", "statement": "With the default FISTA relaxation and fixed step beta, a convex g and convex smooth f with 1/beta-Lipschitz gradient, the iterates satisfy F(x_{k+1}) - F(z) <= 2*||x_0 - z||^2 / (beta*(k+1)^2) for every minimiser z; the Fista-Mod (p_lazy, q_lazy) and Chambolle-Dossal variants converge at rate O(1/k^2) as well.", "quantifier": "all inner-product spaces, all convex problems, all starting points, all k", "why_tests_cant": "Accelerated rate is a theorem about all problems and all iterations; an implementation with shifted parameters may lose it without failing any test.", "anchors": ["src/modopt/opt/algorithms/forward_backward.py:ForwardBackward._update", "src/modopt/opt/algorithms/forward_backward.py:FISTA.update_lambda"]}
{"id": "C44", "title": "Fixed points of ForwardBackward are exactly the minimisers", "statement": "A point is left unchanged by an (unaccelerated) ForwardBackward update if and only if it minimises f + g.", "quantifier": "all convex f, g, all steps beta > 0", "why_tests_cant": "Equivalence over all problems.", "anchors": ["src/modopt/opt/algorithms/forward_backward.py:ForwardBackward._update"]}
{"id": "C45", "title": "ForwardBackward's x_final satisfies the constraint imposed by its proximity operator", "statement": "If prox.op always returns points of a set C (for example Positivity), then x_final returned by ForwardBackward.iterate lies in C.", "quantifier": "all problems, relaxation settings and iteration numbers", "why_tests_cant": "Extrapolation may leave C only on some trajectories.", "anchors": ["src/modopt/opt/algorithms/forward_backward.py:ForwardBackward.iterate", "src/modopt/opt/algorithms/forward_backward.py:ForwardBackward._update"]}
{"id": "C46", "title": "A user supplied beta_update is used by ForwardBackward", "statement": "When the user passes a beta_update callable, every iteration's step size is obtained by applying it to the previous one.", "quantifier": "all beta_update callables, all lambda_update settings", "why_tests_cant": "Configuration interaction for all callables.", "anchors": ["src/modopt/opt/algorithms/forward_backward.py:ForwardBackward.__init__"]}
{"id": "C47", "title": "iterate(max_iter=0) returns the initial point", "statement": "Calling iterate with max_iter=0 performs no update and sets x_final to the initial point, for every algorithm.", "quantifier": "all algorithms and initial points", "why_tests_cant": "Boundary behaviour of every class and input.", "anchors": ["src/modopt/opt/algorithms/forward_backward.py:ForwardBackward.iterate", "src/modopt/opt/algorithms/primal_dual.py:Condat.iterate", "src/modopt/opt/algorithms/gradient_descent.py:GenericGradOpt.iterate"]}
{"id": "C48", "title": "GenForwardBackward's estimate is the weighted mean of its auxiliary variables and its fixed points are minimisers", "statement": "After every update of GenForwardBackward x equals sum_i w_i z_i; if an update leaves all auxiliary variables unchanged then x minimises f + sum_i g_i; with a single proximity operator and lambda=1 the update is the forward-backward step.", "quantifier": "all numbers of operators, all convex problems, all iterations", "why_tests_cant": "Universal over operator lists and iterations.", "anchors": ["src/modopt/opt/algorithms/forward_backward.py:GenForwardBackward"]}
{"id": "C49", "title": "GenForwardBackward accepts any number of operators with default weights", "statement": "GenForwardBackward(x, grad, prox_list) with weights=None constructs successfully for every non-empty prox_list.", "quantifier": "all list lengths", "why_tests_cant": "Depends on floating-point rounding for each list length.", "anchors": ["src/modopt/opt/algorithms/forward_backward.py:GenForwardBackward._set_weights"]}
{"id": "C50", "title": "POGM returns a point produced by the proximity operator and keeps its momentum parameters in range", "statement": "After at least one update POGM's x_final is an output of prox.op (hence satisfies the prox's constraint); t >= 1 always, sigma stays in [0,1] (in (0,1] if sigma_bar > 0) and xi > 0; a run started at a minimiser of f + g stays there, and the first update leaves only minimisers unchanged. y_new steps from the previous x along the composite gradient q, where q minus the gradient at the previous x is a subgradient of g at the new x; t and sigma are reset to 1 exactly when <q, y_new - y_old> > 0, and sigma is multiplied by sigma_bar exactly when successive q have a negative inner product.", "quantifier": "all problems, restart settings and iteration numbers", "why_tests_cant": "Invariant over all runs.", "anchors": ["src/modopt/opt/algorithms/forward_backward.py:POGM"]}
{"id": "C51", "title": "Condat fixed points are primal-dual solutions", "statement": "If an update of Condat (any relaxation rho != 0) leaves the primal and dual variables unchanged then x minimises f + g + h(linear.op(.)) (in the sense of the optimality conditions with y as dual certificate).", "quantifier": "all convex problems with adjoint linear operators, all rho, sigma, tau > 0", "why_tests_cant": "Universal over problems and states.", "anchors": ["src/modopt/opt/algorithms/primal_dual.py:Condat._update"]}
{"id": "C52", "title": "Condat keeps iterates in the convex constraint set", "statement": "With rho in [0,1], an initial point in a convex set C and prox.op returning points of C, every iterate and x_final lie in C; with a SparseThreshold dual prox of weights w and |y_0| <= w the dual variable stays within [-w, w].", "quantifier": "all problems, iterations and rho in [0,1]", "why_tests_cant": "Invariant over all runs.", "anchors": ["src/modopt/opt/algorithms/primal_dual.py:Condat._update", "src/modopt/opt/algorithms/primal_dual.py:Condat.iterate"]}
{"id": "C53", "title": "The ADMM multiplier influences the primal iterates", "statement": "ADMM's iterates depend on the multiplier mu as in the documented augmented Lagrangian: fixed points satisfy the constraint, and different initial multipliers lead to different iterates in general. The multiplier is the initial one plus the sum of the constraint residuals of all iterates.", "quantifier": "all problems and initial values", "why_tests_cant": "Data-flow property: a test on a problem with trivial multiplier passes.", "anchors": ["src/modopt/opt/algorithms/admm.py:ADMM._update"]}
{"id": "C54", "title": "FastADMM honours its v, tau and restart settings", "statement": "FastADMM starts from the user's v, uses the user's tau, and restarts when the combined residual fails to decrease by eta.", "quantifier": "all arguments and runs", "why_tests_cant": "Data-flow property over all runs.", "anchors": ["src/modopt/opt/algorithms/admm.py:FastADMM"]}
{"id": "C55", "title": "FastADMM works with cost functions", "statement": "FastADMM constructed with cost_funcs can be iterated.", "quantifier": "all problems with cost functions", "why_tests_cant": "Crash depends on a configuration path rather than on data.", "anchors": ["src/modopt/opt/algorithms/admm.py:FastADMM._update"]}
{"id": "C56", "title": "ADMMcostObj honours its configuration and documented cost", "statement": "Keyword options passed to ADMMcostObj configure the cost object as they do for CostParent and the cost is f(u)+g(v)+tau*||Au+Bv-b||^2.", "quantifier": "all option values, all u, v", "why_tests_cant": "All options and inputs.", "anchors": ["src/modopt/opt/algorithms/admm.py:ADMMcostObj"]}
{"id": "C57", "title": "Momentum accumulates across iterations", "statement": "MomentumGradOpt with beta and default epoch_size uses direction m_k = beta*m_{k-1} + grad(x_k), so its trajectory differs from plain gradient descent.", "quantifier": "all gradients, beta, iterations", "why_tests_cant": "Trajectory-level property over all problems.", "anchors": ["src/modopt/opt/algorithms/gradient_descent.py:MomentumGradOpt", "src/modopt/opt/algorithms/gradient_descent.py:GenericGradOpt._update"]}
{"id": "C58", "title": "SAGA's direction is the sum of the stored gradients", "statement": "At every iteration of SAGAOptGradOpt, for any sequence of stochastic gradients, the direction equals the sum of the gradients stored in memory, and memory slot c holds the latest gradient seen at an iteration congruent to c modulo epoch_size (0 if none).", "quantifier": "all gradient sequences, epoch sizes and iteration numbers", "why_tests_cant": "Invariant over unbounded runs.", "anchors": ["src/modopt/opt/algorithms/gradient_descent.py:SAGAOptGradOpt"]}
{"id": "C59", "title": "AdaGrad and RMSprop speeds have their closed forms and bounds", "statement": "AdaGenericGradOpt's speed after k updates is the sum of squared gradients (non-decreasing, so step sizes never grow); RMSprop's speed is the exponentially weighted average of squared gradients and stays between 0 and the largest squared gradient seen.", "quantifier": "all gradient sequences and all gamma in [0,1]", "why_tests_cant": "Invariant over unbounded runs.", "anchors": ["src/modopt/opt/algorithms/gradient_descent.py:AdaGenericGradOpt", "src/modopt/opt/algorithms/gradient_descent.py:RMSpropGradOpt"]}
{"id": "C60", "title": "ADAM's bias correction is unbiased on constant gradients", "statement": "For a constant gradient g, ADAMGradOpt's direction equals g and its speed equals g^2 at every iteration.", "quantifier": "all g, beta, gamma and iterations", "why_tests_cant": "Statement about every iteration; the first one alone looks right.", "anchors": ["src/modopt/opt/algorithms/gradient_descent.py:ADAMGradOpt"]}
{"id": "C61", "title": "OrderedWeightedL1Norm.op is the proximal operator of the OWL norm", "statement": "For every weight array the constructor accepts and every extra_factor f >= 0, op(x, extra_factor=f) minimises 0.5*||z-x||^2 + f*OWL_w(z) over all z, where OWL_w multiplies the largest weight with the largest magnitude; this holds whichever order np.argsort takes for ties.", "quantifier": "all x, competitors z, weights, factors, and all tie-breaking orders of argsort", "why_tests_cant": "Optimality is against every competitor and holds for every length and tie order; tests compare with one stored array.", "anchors": ["src/modopt/opt/proximity.py:OrderedWeightedL1Norm._op_method"]}
{"id": "C62", "title": "Condat never moves away from a solution", "statement": "With a convex smooth f whose gradient is M-Lipschitz, exact proximity operators, an adjoint pair linear.op/linear.adj_op with ||op(x)||^2 <= B ||x||^2, constant parameters tau > 0, sigma > 0, 0 <= rho <= 1 and M/2 + sigma*B <= 1/tau, every update of Condat leaves the distance (in the metric of sigma, tau) from the iterate to every primal-dual solution of the problem it solves no larger than before, and the iterates stay bounded.", "quantifier": "all inner product spaces of the primal and dual variables, all such operators and parameters, all starting points, all numbers of iterations, all solutions", "why_tests_cant": "A test runs one problem from one starting point and looks at the final error only; monotonicity towards every solution concerns all problems and all iterates.", "anchors": ["src/modopt/opt/algorithms/primal_dual.py:Condat._update"]}
{"id": "C63", "title": "The gradient descent step is the documented one", "statement": "GenericGradOpt moves from x_k to x_k - eta/sqrt(s_k + epsilon) * m_k as documented; in particular a class that never updates its speed (s_k = 0) moves by eta/sqrt(epsilon) times the direction.", "quantifier": "all gradients, starting points, parameters eta and epsilon, all iterations", "why_tests_cant": "Tests only check that the objective ends below a tolerance, not which formula gave the step.", "anchors": ["src/modopt/opt/algorithms/gradient_descent.py:GenericGradOpt._update"]}
{"id": "C64", "title": "Vanilla gradient descent is the proximal gradient method", "statement": "With a convex f whose gradient is 1/eta-Lipschitz, a convex g with exact prox.op and the default epoch_size, VanillaGenericGradOpt never increases f + g after the first iteration, after n iterations f + g exceeds its value at any z by at most ||x_0 - z||^2/(2 eta n), and a minimiser is never left.", "quantifier": "all array sizes, objectives, starting points, competitors and iteration counts", "why_tests_cant": "The rate is a statement about every convex problem, starting point and number of iterations.", "anchors": ["src/modopt/opt/algorithms/gradient_descent.py:VanillaGenericGradOpt", "src/modopt/opt/algorithms/gradient_descent.py:GenericGradOpt._update"]}
{"id": "C65", "title": "The returned point has been regularised", "statement": "After at least one iteration x_final of every gradient descent class is an output of prox.op, so it satisfies any constraint prox.op enforces, for every epoch_size.", "quantifier": "all classes, gradients, proximity operators, epoch sizes and iteration counts", "why_tests_cant": "Whether the last iteration ends an epoch depends on the combination of epoch size, iteration count and early convergence.", "anchors": ["src/modopt/opt/algorithms/gradient_descent.py:GenericGradOpt._update", "src/modopt/opt/algorithms/gradient_descent.py:GenericGradOpt.iterate"]}
{"id": "C66", "title": "RMSprop and ADAM reject weights outside ]0,1[", "statement": "RMSpropGradOpt and ADAMGradOpt raise ValueError exactly when gamma (or beta) is outside the open interval ]0,1[.", "quantifier": "all real gamma and beta", "why_tests_cant": "Tests try single out-of-range values; the claim is about the whole boundary.", "anchors": ["src/modopt/opt/algorithms/gradient_descent.py:RMSpropGradOpt.__init__", "src/modopt/opt/algorithms/gradient_descent.py:ADAMGradOpt.__init__"]}
{"id": "C67", "title": "gram_schmidt orthonormalises exactly the linearly independent inputs", "statement": "gram_schmidt(matrix) on linearly independent rows returns rows with no nan that are mutually orthogonal (of norm 1 for 'orthonormal'), the first k of which span the same space as the first k input rows and each of which has a positive inner product with its input row; on dependent rows it raises nothing and returns a nan row; any return_opt other than 'orthonormal', 'orthogonal', 'both' raises ValueError. For complex rows the second row is orthogonal to the first for the product without conjugation, hence in the usual sense when the first row is real. For complex rows the result should be orthogonal for the Hermitian inner product.", "quantifier": "all finite lists of rows in any real inner-product space; complex rows for the last sentence", "why_tests_cant": "Tests compare one 3x3 example to stored numbers; the equivalence with linear independence and the nesting of spans concern every matrix of every size.", "anchors": ["src/modopt/math/matrix.py:gram_schmidt", "src/modopt/math/matrix.py:project"]}
{"id": "C68", "title": "rotate is total on square arrays and exact at quarter turns", "statement": "rot_matrix(t) is the rotation matrix to 10 decimals. rotate(matrix, t) never raises on a square array with at least one pixel, keeps its shape and takes every output pixel from the input; angle 0 is the identity; angles pi/2, pi, -pi/2 are the exact quarter, half and reverse quarter turns; rotation loses no pixel; non-square input raises ValueError.", "quantifier": "all real angles, all square sides n >= 1, all pixel contents", "why_tests_cant": "Tests rotate one 3x3 array by pi/2; index wrap-around errors appear only for other angles and other (even) sides.", "anchors": ["src/modopt/math/matrix.py:rot_matrix", "src/modopt/math/matrix.py:rotate"]}
{"id": "C69", "title": "PowerMethod's estimate converges to the spectral radius from below", "statement": "spec_rad never exceeds extra_factor times the operator norm; for a self-adjoint linear operator, tolerance 0 and a start with a component along the top eigenvector it converges to the spectral radius as max_iter grows and never decreases with max_iter; spec_rad is an upper bound on the norm, so that inv_spec_rad is a valid gradient step; when the tolerance test stops the loop the estimate is within reach of the spectral radius; max_iter=0 raises.", "quantifier": "all operators on any real inner-product space, all starts, tolerances, iteration counts and extra factors", "why_tests_cant": "Tests check one 3x3 operator with a fixed global seed; the bounds concern every operator and start, and the early stop depends on the random start.", "anchors": ["src/modopt/math/matrix.py:PowerMethod.get_spec_rad"]}
{"id": "C70", "title": "PowerMethod is reproducible for a given rng", "statement": "Two PowerMethod objects built with the same operator, shape and integer rng return the same spec_rad.", "quantifier": "all seeds and generator behaviours", "why_tests_cant": "A test that runs twice compares converged values and passes within tolerance even when the seed is ignored.", "anchors": ["src/modopt/math/matrix.py:PowerMethod.__init__", "src/modopt/math/matrix.py:PowerMethod._set_initial_x"]}
{"id": "C71", "title": "mad is the median absolute deviation and is robust", "statement": "mad(x) is the median of |x - median(x)| (midpoint convention for an even number of pixels), sigma_mad is 1.4826 times it; at least half of the pixels lie within mad of the median; it ignores a constant offset and the pixel order, scales with |a|, and if more than half of the pixels lie in [lo, hi] it is at most hi - lo whatever the others are; an empty array gives nan.", "quantifier": "all real arrays", "why_tests_cant": "Tests evaluate one 3x3 array; robustness and invariance quantify over all data, including arbitrary outliers.", "anchors": ["src/modopt/math/stats.py:mad", "src/modopt/math/stats.py:sigma_mad"]}
{"id": "C72", "title": "stats.mse is a squared metric", "statement": "For images of the same shape mse is the mean squared pixel difference: symmetric, non-negative, 0 exactly for equal images, scaling with the square of the intensity, for every dtype.", "quantifier": "all images of real pixels; all uint8 images", "why_tests_cant": "Tests use two small float arrays; integer wrap-around shows only for particular pixel differences.", "anchors": ["src/modopt/math/stats.py:mse"]}
{"id": "C73", "title": "stats.psnr follows its formula for both methods", "statement": "'wiki' gives 10 log10(max_pix^2 / mse), infinite for equal images, and ranks images inversely to their mse; 'starck' gives the same with the range of the first image in place of max_pix, independent of how the pixels are arranged; any other method raises ValueError.", "quantifier": "all image shapes and contents, all positive max_pix", "why_tests_cant": "Tests use one 3x3 array, which is square; the shape dependence of 'starck' needs other shapes.", "anchors": ["src/modopt/math/stats.py:psnr"]}
{"id": "C74", "title": "psnr_stack compares the stacks image by image", "statement": "psnr_stack raises ValueError unless both inputs have three axes, and otherwise returns the metric of psnr(i, j) over corresponding images; stacks of different lengths are not accepted.", "quantifier": "all stacks, metrics and methods", "why_tests_cant": "Tests use equal stacks of one length; mismatched lengths return a plausible value.", "anchors": ["src/modopt/math/stats.py:psnr_stack"]}
{"id": "C75", "title": "min_max_normalize maps onto [0, 1]", "statement": "A non-constant image is mapped by one increasing affine function, with minimum exactly 0 and maximum exactly 1; a constant image becomes nan everywhere.", "quantifier": "all non-empty real images", "why_tests_cant": "There is no test of it; the constant image is a corner case.", "anchors": ["src/modopt/math/metrics.py:min_max_normalize"]}
{"id": "C76", "title": "metrics.mse measures magnitude differences", "statement": "Without mask, mse(test, ref) depends only on the magnitudes, is symmetric, lies in [0, 1], is nan when an image has constant magnitude, and is 0 only when the images have equal magnitudes.", "quantifier": "all complex images of equal size", "why_tests_cant": "Tests use one image and one noisy copy; invariance under rescaling and bounds are statements about all pairs.", "anchors": ["src/modopt/math/metrics.py:mse", "src/modopt/math/metrics.py:_preprocess_input"]}
{"id": "C77", "title": "A mask restricts a metric to its region of interest", "statement": "A mask that is neither None nor an array raises ValueError; a mask of ones changes nothing; with a mask, mse, snr, psnr and nrmse depend only on the pixels in the mask, mse is the mean over them, psnr and nrmse use that same mse, and an image compared with itself has infinite snr.", "quantifier": "all images and masks", "why_tests_cant": "Tests compare to stored values produced by the code itself, for one mask.", "anchors": ["src/modopt/math/metrics.py:mse", "src/modopt/math/metrics.py:snr", "src/modopt/math/metrics.py:psnr", "src/modopt/math/metrics.py:nrmse", "src/modopt/math/metrics.py:_preprocess_input"]}
{"id": "C78", "title": "snr, psnr and nrmse are functions of the mse", "statement": "Without mask, with e = mse(test, ref) and s the mean square of the normalised test image, psnr = 10 log10(1/e), snr = 10 log10(s/e), nrmse = sqrt(e/s), hence snr = -20 log10(nrmse); images with the same normalised magnitudes have infinite psnr and snr and nrmse 0.", "quantifier": "all complex images of equal size and non-constant magnitude", "why_tests_cant": "Tests compare three stored numbers; the relations hold between all values of the metrics.", "anchors": ["src/modopt/math/metrics.py:snr", "src/modopt/math/metrics.py:psnr", "src/modopt/math/metrics.py:nrmse", "src/modopt/math/metrics.py:mse"]}
{"id": "C79", "title": "nuclear_norm is the nuclear norm", "statement": "nuclear_norm(X) is the largest inner product of X with a matrix of spectral norm at most 1, whichever singular value decomposition LAPACK returned (the singular values are unique); it is a norm on matrices, and its square lies between the squared Frobenius norm and min(m, n) times it.", "quantifier": "all real m x n matrices X and all valid decompositions of X", "why_tests_cant": "Tests compare the sum for a few matrices with a stored number; duality, the triangle inequality and independence of the decomposition quantify over all matrices.", "anchors": ["src/modopt/math/matrix.py:nuclear_norm"]}
{"id": "C80", "title": "Soft singular value thresholding is the proximity operator of the nuclear norm", "statement": "svd_thresh(X, t, thresh_type='soft') returns, up to the rounding of the soft threshold, the unique minimiser of half the squared distance to X plus t times the nuclear norm, whichever decomposition was computed and whatever valid n_pc is given; LowRankMatrix(t).op(cube, f) without a rank does the same with threshold t*f for the matrix whose columns are the images, keeps the shape, and LowRankMatrix.cost is t times the nuclear norm of that matrix.", "quantifier": "all matrices, cubes of any shape, thresholds >= 0 and valid decompositions", "why_tests_cant": "Optimality compares the result with every other matrix; tests check one stored output.", "anchors": ["src/modopt/signal/svd.py:svd_thresh", "src/modopt/opt/proximity.py:LowRankMatrix"]}
{"id": "C81", "title": "Hard thresholding and n_pc give best low-rank approximations", "statement": "svd_thresh(X, t, thresh_type='hard') minimises the squared distance to X plus t^2 times the rank; svd_thresh(X, n_pc=k) is at least as close to X as every matrix of rank at most k, and has itself rank at most k when the k-th singular value is larger than the next (it can keep more components when singular values coincide); n_pc='all', or at least the number of singular values, returns X with both warnings.", "quantifier": "all matrices, thresholds >= 0, 1 <= k < min(m, n) and valid decompositions", "why_tests_cant": "Optimality over all matrices of bounded rank (Eckart-Young) cannot be tested; coinciding singular values do not occur in the test data.", "anchors": ["src/modopt/signal/svd.py:svd_thresh"]}
{"id": "C82", "title": "The n_pc argument of svd_thresh", "statement": "A non-positive integer, a string other than 'all' or an object of another type raises ValueError, before the type of the data is looked at; otherwise data that is not a 2D array raises TypeError. With thresh_type='soft', n_pc=k keeps fewer than k components (k=1 returns zero). Without threshold and n_pc the call always prints to standard output, and when find_n_pc selects no component the whole input is kept.", "quantifier": "all arguments and matrices", "why_tests_cant": "Tests try two invalid values and never combine n_pc with soft thresholding nor reach the case of no selected component.", "anchors": ["src/modopt/signal/svd.py:svd_thresh", "src/modopt/signal/svd.py:calculate_svd"]}
{"id": "C83", "title": "svd_thresh_coef_fast agrees with full thresholding", "statement": "Whenever svd_thresh_coef_fast returns and the smallest singular value is at most the threshold, its matrix is the soft (up to rounding) or hard thresholded matrix and the returned rank bounds (hard: is) the penalised rank, whatever n_vals and extra_vals; with the default n_vals, or an n_vals whose last singular value is at most the threshold, svds is called once; with extra_vals >= 1 the loop ends. The claim fails otherwise: the default drops a smallest singular value above the threshold, n_vals + extra_vals >= min(shape) raises ValueError, extra_vals = 0 can loop for ever, and n_vals=None raises TypeError.", "quantifier": "all matrices, thresholds >= 0, n_vals, extra_vals and svds results meeting the contract", "why_tests_cant": "The only test uses one low-rank matrix; non-termination and agreement for all n_vals cannot be observed.", "anchors": ["src/modopt/signal/svd.py:svd_thresh_coef_fast"]}
{"id": "C84", "title": "find_n_pc counts the eigenimages with a spread-out autocorrelation", "statement": "find_n_pc(u, factor) is the number of columns whose squared energy is at most factor times the energy of their autocorrelation; it is at most the number of columns, grows with factor, equals the number of columns when factor >= 1, does not depend on the signs of the singular vectors, and raises ValueError when the number of rows is not a perfect square.", "quantifier": "all matrices u of p^2 rows and all factors", "why_tests_cant": "Monotonicity and sign invariance relate infinitely many calls; tests check one matrix.", "anchors": ["src/modopt/signal/svd.py:find_n_pc"]}
{"id": "C85", "title": "svd_thresh_coef thresholds coefficients against the transformed eigenimages", "statement": "svd_thresh_coef(X, op, t) thresholds the coefficients of component l at t times the Euclidean norm of item l of op(eigenimages) (t itself for the identity); with 'soft' the result U A minimises, up to rounding, half the squared distance to X plus the correspondingly weighted l1 norm of A over all coefficient matrices. A non-callable operator raises TypeError; a number of pixels that is not a square, or an operator returning another number of items, raises ValueError.", "quantifier": "all matrices, operators, thresholds and valid decompositions", "why_tests_cant": "Optimality compares with all coefficient matrices, and the operator is arbitrary; tests use the identity on one matrix.", "anchors": ["src/modopt/signal/svd.py:svd_thresh_coef"]}
{"id": "C86", "title": "LowRankMatrix modes and rank estimate", "statement": "With a stored or given rank estimate op still computes the proximity operator whenever it returns and the smallest singular value is at most the threshold, keeps the shape and stores a bound on the rank of the result; 'ngole' mode computes the coefficient-thresholded minimiser and leaves the estimate unchanged; another lowr_type raises ValueError. The estimate can break later calls: once 0 is stored every call without a positive rank raises ValueError, so applying op twice to the same data can fail; rank=0 with nothing stored raises TypeError.", "quantifier": "all cubes, thresholds, estimates and svds results meeting the contract", "why_tests_cant": "Tests never call op again after the estimate reached 0, and compare single stored outputs.", "anchors": ["src/modopt/opt/proximity.py:LowRankMatrix"]}
{"id": "C87", "title": "KSupportNorm.op is the proximity operator of half the squared k-support norm", "statement": "KSupportNorm(beta, k).op(w) always returns an array of the same size, each entry within (2 + d(1 + 1/beta)) * 2^-52 of the unique minimiser of 1/2|w-z|^2 + beta/2 |z|_k^2 over all z, where |z|_k is the k-support norm (dual of the Euclidean norm of the k largest entries; the l1 norm for k = 1, the l2 norm for k = d). With extra_factor f it should minimise the same with beta*f.", "quantifier": "all non-empty real arrays of d entries, all beta > 0, all k >= 1, all competitors z", "why_tests_cant": "The search works on a data-dependent grid shifted by the machine epsilon and interpolates; only a proof shows it never fails to find a bracket and how far the interpolated threshold is from the exact one. Tests check one array with extra_factor 1.", "anchors": ["src/modopt/opt/proximity.py:KSupportNorm"]}
{"id": "C88", "title": "KSupportNorm.cost and the function minimised by op", "statement": "For 1 <= k <= d cost(w) returns a number (no exception), should equal beta/2 |w|_k^2, the function whose proximity operator op is; it lies between beta/2 |w|_1^2/k and beta |w|_k^2.", "quantifier": "all real arrays of d entries, all beta >= 0, all 1 <= k <= d", "why_tests_cant": "The norm is a supremum over all dual vectors; the tests compare with numbers computed by the code's own formula for k = 1.", "anchors": ["src/modopt/opt/proximity.py:KSupportNorm"]}
{"id": "C89", "title": "k_value of KSupportNorm: validation and state", "statement": "k_value < 1 raises ValueError. A k_value above the number of entries acts as the number of entries. The k_value passed by the user should serve every call of op and cost, whatever was called before.", "quantifier": "all k, all arrays, all sequences of calls", "why_tests_cant": "The stored k is changed by op and not by cost, so behaviour depends on the call history; tests make one call per object.", "anchors": ["src/modopt/opt/proximity.py:KSupportNorm"]}
{"id": "C90", "title": "gaussian_filter is the normal density", "statement": "For sigma > 0 gaussian_filter(x, sigma) as a function of x is non-negative and integrates to 1 over the real line; with norm=False its values lie in ]0, 1], equal 1 exactly at x = 0, are even and strictly decrease with |x|. An array is filtered element by element, integers act as the equal floats, sigma = 0 raises ZeroDivisionError. An invalid (negative) sigma should not produce a negative density.", "quantifier": "all real x, all sigma, all arrays", "why_tests_cant": "An integral over the real line and monotonicity are statements about all points; the tests compare two values.", "anchors": ["src/modopt/signal/filter.py:gaussian_filter"]}
{"id": "C91", "title": "mex_hat is an admissible wavelet", "statement": "For every sigma > 0 the function x -> mex_hat(x, sigma) has zero mean and unit energy over the real line, is even, positive exactly for |x| < sigma, and is a positive multiple of minus the second derivative of gaussian_filter(., sigma).", "quantifier": "all sigma > 0, all real x", "why_tests_cant": "Zero mean and unit energy are integrals over the whole line for every scale; the test compares one value.", "anchors": ["src/modopt/signal/filter.py:mex_hat"]}
{"id": "C92", "title": "mex_hat_dir is a Gaussian across times a Mexican hat along", "statement": "mex_hat_dir(g, x, sigma) should be a Mexican hat in x with a Gaussian profile in g: equal to the Mexican hat (up to a positive factor) at g = 0, decaying as |g| grows.", "quantifier": "all g, x, sigma > 0", "why_tests_cant": "The test compares one value, which was computed with the same formula.", "anchors": ["src/modopt/signal/filter.py:mex_hat_dir"]}
{"id": "C93", "title": "What transpose_test proves about two operators", "statement": "transpose_test(op, op_t, x_shape, x_args, y_shape, y_args) prints 0 for every draw when op_t is the transpose of op; for two linear operators that are not transposes some draw prints a non-zero number. A run printing 0 should mean that the operators are transposes. y_shape and y_args default to those of x; a non-callable operator raises TypeError.", "quantifier": "all operators, all shapes, all draws of the random arrays in [0, 1[", "why_tests_cant": "One test draws one pair of arrays; the claim is about all draws and all operators.", "anchors": ["src/modopt/signal/validation.py:transpose_test"]}
{"id": "C94", "title": "add_noise: what is added to the data", "statement": "add_noise keeps the shape and adds sigma times a standard normal draw (slice i of the first axis with sigma[i] for a sequence); over draws of mean 0 the mean of the result is the input and the variance sigma^2. A wrong number of sigmas and an unknown noise type raise ValueError. For 'poisson' sigma should have no effect (documented as gauss only) and the noisy data should have the input as mean.", "quantifier": "all arrays, all sigma, all families of draws", "why_tests_cant": "Means and variances are statements about all draws; tests fix one seed.", "anchors": ["src/modopt/signal/noise.py:add_noise"]}
{"id": "C95", "title": "gaussian_kernel: normalisation and profile", "statement": "gaussian_kernel((h, w), sigma, 'max') has all entries in ]0, 1] with 1 reached, 'sum' has positive entries adding up to 1, both proportional to the Gaussian profile centred on the image, with every version of astropy. For odd sizes the 'max' kernel is exp(-d^2 / (2 sigma^2)) at distance d from the central pixel. Any norm not offered raises ValueError; the norm 'none' offered by the error message should work.", "quantifier": "all sizes h, w >= 1, all sigma > 0, all norms, both astropy behaviours", "why_tests_cant": "Tests use one size and the installed astropy version only.", "anchors": ["src/modopt/math/stats.py:gaussian_kernel"]}
{"id": "C96", "title": "convolve(method='astropy') is a circular convolution", "statement": "For kernels no larger than the image, convolve(x, k, method='astropy') commutes with circular shifts of x, multiplies the sum of the pixels by the sum of the kernel and, for odd sizes, agrees with method='scipy' at every pixel whose window stays inside the image. WaveletConvolve(filters, method='astropy').adj_op should be the adjoint of op for all filters, both methods should agree everywhere, and the result should have the shape of x. Different numbers of axes and unknown methods raise ValueError; without astropy the method is 'scipy'.", "quantifier": "all images, kernels, filter banks and sizes", "why_tests_cant": "Tests compare two literal arrays; adjointness and border behaviour are statements about all images and kernel sizes.", "anchors": ["src/modopt/math/convolve.py:convolve", "src/modopt/opt/linear/wavelet.py:WaveletConvolve"]}
{"id": "C97", "title": "convolve_stack convolves image i with kernel i", "statement": "convolve_stack(x, k) of two stacks of n entries returns n images, the i-th being convolve(x[i], k[i]); with rot_kernel=True and odd kernel sizes it is the adjoint, image by image, for both methods. Stacks of different lengths should be rejected.", "quantifier": "all stacks, kernels, sizes and both methods", "why_tests_cant": "Tests use one literal stack; the adjoint relation and the pairing concern all stacks.", "anchors": ["src/modopt/math/convolve.py:convolve_stack"]}
{"id": "C98", "title": "trim_filter keeps the bounding box of the non-zero coefficients, and trimming should not change the filtering", "statement": "trim_filter(f) of a 2D filter with a non-zero coefficient returns the unique smallest box of coefficients containing every non-zero one; doing it twice changes nothing more; a filter of zeros raises ValueError. Convolving any image with the trimmed filter gives the same result as with the filter it came from: true of every filter equal to its own half turn, false of others, whose centre moves.", "quantifier": "all 2D filters of any size and all images", "why_tests_cant": "The tests trim one literal filter; minimality, uniqueness and the effect on convolution concern every filter and image.", "anchors": ["src/modopt/signal/wavelet.py:trim_filter"]}
{"id": "C99", "title": "get_mr_filters records filters that reproduce the transform", "statement": "For a transform that convolves with centred kernels fitting in data_shape, filter_convolve with the filters returned by get_mr_filters equals the transform on every image of every size (all but the coarse scale unless coarse=True). The transform is run on an image of the largest odd sizes not above data_shape with a single 1 in the exact middle. With trim=True each filter is reduced to its bounding box; filters of different trimmed sizes should come back as an object array as documented.", "quantifier": "all transforms given by convolutions, kernel and image sizes, data shapes and options", "why_tests_cant": "The function needs an external binary, so no test runs it; the reproduction property is about all images.", "anchors": ["src/modopt/signal/wavelet.py:get_mr_filters", "src/modopt/signal/wavelet.py:filter_convolve"]}
{"id": "C100", "title": "call_mr_transform runs the program on its two temporary files and cleans up after itself", "statement": "mr_transform is run once, with exactly the options and the two temporary names; a readable output is returned, and with remove_files=True both files are gone and no other file is touched, so a program that writes only its output leaves no trace. An output containing an error word raises RuntimeError. Refused calls (bad data, program not installed, temporary file already there) touch nothing. execute refuses anything but a string, and a string without words. Not true: that remove_files=True cleans up after failures, that every path works, that RuntimeError means that the program failed, that path is a directory.", "quantifier": "all programs, file systems, paths, options and images", "why_tests_cant": "Needs an external binary and a file system in arbitrary state; the tests only check that errors are raised when it is missing.", "anchors": ["src/modopt/signal/wavelet.py:call_mr_transform", "src/modopt/signal/wavelet.py:execute"]}
{"id": "C101", "title": "A log file holds the messages sent to its log, and nothing else", "statement": "After set_up_log(name) the file name.log holds the opening line and then, one line each and in order, the messages sent to that log, whatever other logs the process uses; close_log adds the closing line and later messages no longer change the file; setting it up again starts the file anew. Not true: that setting up twice without closing is harmless, that close_log removes all handlers (it removes every second one), that two logs are independent when one name is the other followed by .log.", "quantifier": "all processes: any interleaving of set-ups, messages and closings of any logs, any file contents and time stamps", "why_tests_cant": "The tests set up and close one log; the property concerns all interleavings with other logs and repeated set-ups.", "anchors": ["src/modopt/interface/log.py:set_up_log", "src/modopt/interface/log.py:close_log"]}
{"id": "C102", "title": "Warnings and errors reach the user and the log", "statement": "warn(msg) writes one line to stderr; catch_error(msg, log) writes one line to stderr and appends the message and the traceback of the exception being handled to the log file. Not true: that warn(msg, log) records the message in the log, that Python warnings are still shown after set_up_log (they are lost for the rest of the process, even when the set-up failed or the log was closed), that catch_error records only the message when no exception is being handled.", "quantifier": "all messages, logs and processes", "why_tests_cant": "The tests call the functions once and look at no output; losing warnings is an effect on the rest of the process.", "anchors": ["src/modopt/interface/errors.py:warn", "src/modopt/interface/errors.py:catch_error", "src/modopt/interface/log.py:set_up_log"]}
{"id": "C103", "title": "file_name_error and is_executable accept exactly the usable names", "statement": "file_name_error accepts exactly the existing files whose name does not start with a dash, and otherwise raises OSError. is_executable accepts a name with a slash exactly when it is an executable file and a bare name exactly when a directory of PATH contains it; otherwise it raises OSError, or TypeError if the argument is not a string. Without PATH it should raise OSError too.", "quantifier": "all file systems, names and values of PATH", "why_tests_cant": "The tests try a few names on the machine that runs them.", "anchors": ["src/modopt/interface/errors.py:file_name_error", "src/modopt/interface/errors.py:is_executable", "src/modopt/interface/errors.py:is_exe"]}
{"id": "C104", "title": "The Haar wavelet transform of an image can be undone and is orthogonal", "statement": "For an image of any size and any level, adj_op(op(x)) contains x in its upper left corner, inside an array whose sizes are those of x rounded up to even numbers. When 2**level divides both sizes, op gives as many coefficients as there are pixels, adj_op is the adjoint and the inverse of op on both sides, and energy is preserved. op is linear; its first coefficients are the sums over squares of side 2**level divided by 2**level, and all others vanish on constant images. Not true: that adj_op(op(x)) has the shape of x, that adj_op is the adjoint of op for other sizes.", "quantifier": "all images of all sizes, all levels, all coefficient vectors", "why_tests_cant": "The test transforms one image with sizes divisible by 2**level and checks shapes and one scalar product.", "anchors": ["src/modopt/opt/linear/wavelet.py:CPUWaveletTransform.op", "src/modopt/opt/linear/wavelet.py:CPUWaveletTransform.adj_op"]}
{"id": "C105", "title": "What a wavelet operator remembers and which backend it uses", "statement": "A CPU operator remembers only the shapes of the last image; adj_op fails with ValueError on a shorter vector and ignores the surplus of a longer one; it fails with AttributeError before the first op. WaveletTransform builds the operator of the backend asked for and raises ValueError when it is not available. Not true: that n_batch > 1 gives a batched transform (every call raises AttributeError), that the boundary mode asked for is used on numpy.", "quantifier": "all levels, images, coefficient vectors, numbers of batches, backend names and modes", "why_tests_cant": "The tests build one unbatched operator in the default mode and call op before adj_op.", "anchors": ["src/modopt/opt/linear/wavelet.py:CPUWaveletTransform", "src/modopt/opt/linear/wavelet.py:WaveletTransform"]}
{"id": "C106", "title": "The pytorch transform loses no coefficient when flattening them", "statement": "Turning the list of subbands back into the nested coefficients inverts the flattening, for 2D (3 arrays per level) and 3D (7 per level); through the cupy operator adj_op(op(x)) is the reconstruction by the library of the decomposition of x with a batch axis; adj_op before op raises TypeError. Not true: that an image of the operator's own shape comes back with its shape (a leading axis of length one remains).", "quantifier": "all nested coefficients with k arrays per level, all decompositions and reconstructions of the library, all tensors", "why_tests_cant": "The test needs a GPU and checks one image.", "anchors": ["src/modopt/opt/linear/wavelet.py:TorchWaveletTransform", "src/modopt/opt/linear/wavelet.py:CupyWaveletTransform"]}
{"id": "C107", "title": "The backend that is reported is the one that computes", "statement": "get_backend returns an installed library under its own name and never fails: the one asked for, silently, exactly when it is installed, otherwise numpy with one warning naming the request; asking for the returned name again gives the same library silently. get_array_module gives the library of an array, and numpy for anything else.", "quantifier": "all sets of installed libraries, all names, all objects that can exist", "why_tests_cant": "The test checks the libraries installed where it runs.", "anchors": ["src/modopt/base/backend.py:get_backend", "src/modopt/base/backend.py:get_array_module"]}
{"id": "C108", "title": "Moving an array between backends keeps its values", "statement": "change_backend returns an array of the library chosen by get_backend with the same values and precision: the argument itself when it was there already, a copy otherwise; numpy arrays can always be moved, and moving twice changes nothing. move_to_cpu returns a numpy array with the values of any array and never fails. Not true: that change_backend brings CuPy arrays back to the CPU (TypeError), that it returns an array for every input, that it copies, that move_to_cpu raises ValueError for what is no array.", "quantifier": "all sets of installed libraries, backend names and arrays", "why_tests_cant": "The test moves one array, needs a GPU for the rest and does not look at sharing.", "anchors": ["src/modopt/base/backend.py:change_backend", "src/modopt/base/backend.py:move_to_cpu"]}
{"id": "C109", "title": "Conversion to torch tensors and back", "statement": "convert_to_tensor raises ImportError without torch, and otherwise gives a tensor on the device of the array, in single precision, sharing memory exactly with single-precision CuPy arrays; convert_to_cupy_array turns it back into an array of the same library sharing memory with the tensor, with the values rounded to single precision. Not true: that convert_to_cupy_array always gives a CuPy array, that values are kept, that a missing CuPy is reported as ImportError.", "quantifier": "all rounding functions, sets of installed libraries and numpy or CuPy arrays", "why_tests_cant": "The tests need torch and a GPU, and check no values.", "anchors": ["src/modopt/base/backend.py:convert_to_tensor", "src/modopt/base/backend.py:convert_to_cupy_array"]}
{"id": "C110", "title": "Calling iterate again continues the run", "statement": "Calling iterate(n) and then iterate(m) leaves ForwardBackward, GenForwardBackward, POGM, Condat, ADMM and FastADMM, with their cost object and metrics, in the state that a single iterate(n + m) would have, unless the first call stopped at convergence; the gradient descent classes likewise when n is a whole number of epochs and there is no eta_update. After convergence another call performs at least one more update. Not true: that it holds for every n (the iteration index restarts), or that the indices recorded with the metrics increase. After a stop by an early-stopping metric a further call makes exactly one update (except in GenForwardBackward). Without metrics and with cost_interval=1 the cost history over any number of calls is the cost of each point computed, in order.", "quantifier": "all step functions, cost settings, metrics, periods, states, and all n and m", "why_tests_cant": "The tests call iterate once per object.", "anchors": ["src/modopt/opt/algorithms/base.py:SetUp._run_alg", "src/modopt/opt/algorithms/base.py:SetUp._iterations", "src/modopt/opt/algorithms/gradient_descent.py:GenericGradOpt._update"]}
{"id": "C111", "title": "Which constructor arguments are accepted and which settings they give", "statement": "A constructor call succeeds exactly when the metrics are None or complete descriptions, the data are arrays, the operators have cost methods (for cost=\"auto\"), a linear operator comes with metrics where needed, the numeric parameters are floats, sigma_bar is not outside [0, 1] and the updates are None, functions (or \"fista\"); otherwise it raises TypeError, ValueError or KeyError. The settings stored are the user's; step_size, if true, replaces the step parameter. Not true: that step_size=0.0 overrides, that the gradient descent classes use step_size, that step_size must be a number, that misspelled keywords are errors, that GenForwardBackward accepts lists, that sigma_bar cannot be nan.", "quantifier": "all classes and all argument values", "why_tests_cant": "The tests try a few invalid values of some parameters.", "anchors": ["src/modopt/opt/algorithms/base.py:SetUp", "src/modopt/opt/algorithms/forward_backward.py:ForwardBackward", "src/modopt/opt/algorithms/forward_backward.py:GenForwardBackward", "src/modopt/opt/algorithms/forward_backward.py:POGM", "src/modopt/opt/algorithms/primal_dual.py:Condat", "src/modopt/opt/algorithms/gradient_descent.py:GenericGradOpt"]}
{"id": "C112", "title": "Warnings about operators of unexpected classes", "statement": "A constructor warns once for each operator it looks at that is not None and inherits from none of the four operator parents, naming the class, and for nothing else; the classes of the operators have no other effect. Not true: that operators of the documented classes are silent (the default cost=\"auto\" is itself warned about), or that a linear operator of a wrong class is noticed outside Condat.", "quantifier": "all classes, operators and class hierarchies", "why_tests_cant": "The tests check that one wrong operator warns.", "anchors": ["src/modopt/opt/algorithms/base.py:SetUp._check_operator"]}
{"id": "C113", "title": "Which data types of the starting point an algorithm accepts", "statement": "ForwardBackward and the gradient descent classes run from a starting point of any numeric type. GenForwardBackward, POGM and Condat run exactly when the starting point is not of an integer type and every new value fits its type (for POGM, the gradient must have that very type); otherwise the first iteration raises TypeError. Not true: that all classes accept the same starting points (integers; real start with complex data), or that SAGA remembers gradients exactly from an integer start.", "quantifier": "all data types, all type behaviours of the operators, all numbers of iterations", "why_tests_cant": "The tests start from float arrays.", "anchors": ["src/modopt/opt/algorithms/forward_backward.py:ForwardBackward._update", "src/modopt/opt/algorithms/forward_backward.py:GenForwardBackward._update", "src/modopt/opt/algorithms/forward_backward.py:POGM._update", "src/modopt/opt/algorithms/primal_dual.py:Condat._update", "src/modopt/opt/algorithms/gradient_descent.py:SAGAOptGradOpt"]}
{"id": "C114", "title": "Thresholding complex data acts on the modulus", "statement": "On complex data thresh(..., \"hard\") keeps the entries whose modulus is at least the threshold and zeroes the others, and is idempotent; thresh(..., \"soft\") keeps the phase of every entry and reduces its modulus by the threshold (to exactly 0 if it is not larger), up to rounding the real and imaginary parts to 15 decimals. Before rounding, rotating the phases of the data rotates the result. Complex data with zero imaginary parts give the result for real data.", "quantifier": "all complex arrays and all non-negative thresholds, scalar or per entry", "why_tests_cant": "The tests threshold small real arrays only.", "anchors": ["src/modopt/signal/noise.py:thresh"]}
{"id": "C115", "title": "Sparse, ridge, elastic-net and group operators solve their problems over complex arrays", "statement": "For complex data SparseThreshold, Ridge, ElasticNet and GroupLASSO return the unique minimiser over all complex arrays of half the squared distance to the data plus extra_factor times the penalty, where the penalty (weighted sum of moduli, of squared moduli, of both, of group lengths) is what their cost method returns; SparseThreshold and ElasticNet up to the rounding inside thresh.", "quantifier": "all complex arrays (entries zero or of modulus at least float64 eps, groups likewise with float32 eps), all non-negative weights and factors", "why_tests_cant": "The tests never pass complex data; minimality over all complex arrays cannot be tested.", "anchors": ["src/modopt/opt/proximity.py:SparseThreshold", "src/modopt/opt/proximity.py:Ridge", "src/modopt/opt/proximity.py:ElasticNet", "src/modopt/opt/proximity.py:GroupLASSO"]}
{"id": "C116", "title": "Positivity on complex data", "statement": "On complex data positive and Positivity keep exactly the entries with positive real part and those on the positive imaginary axis, imaginary part included, and zero the others; on data with zero imaginary parts this is the projection onto non-negative arrays. Not true: that the result is a non-negative real array, or that the operator is non-expansive; on complex data it is not the proximity operator of any convex function.", "quantifier": "all complex arrays", "why_tests_cant": "The tests use real arrays.", "anchors": ["src/modopt/signal/positivity.py:positive", "src/modopt/opt/proximity.py:Positivity"]}
{"id": "C117", "title": "What a gradient operator does with the observed data", "statement": "A gradient operator accepts exactly arrays of the requested element type (any if none is requested; with float or np.floating also integer and complex arrays and lists, which are converted) and raises TypeError otherwise. Without conversion it stores the array object passed and makes it read-only, warning once if it was writeable and verbose is on; with conversion it stores a new read-only array and leaves the original alone. If no other writeable array shares the memory, no later assignment, view, copy or gradient operator with default options changes the stored data. Not true: that float32 data are accepted for data_type=float, that complex values survive data_type=float, that the caller can still assign to the array, or that the data are protected from writes through the array they are a view of or from a second operator with input_data_writeable=True.", "quantifier": "all heaps of arrays and views, all data, element types and options, all later sequences of operations", "why_tests_cant": "The tests construct operators on fresh arrays and never look at the arrays afterwards; protection is a statement about all later operations.", "anchors": ["src/modopt/opt/gradient.py:GradParent", "src/modopt/base/types.py:check_npndarray", "src/modopt/base/types.py:check_float"]}
{"id": "C118", "title": "The iterates of ForwardBackward without acceleration converge to a minimiser", "statement": "With a fixed step_size/beta_param below 2/M (M a Lipschitz constant of the gradient) and a fixed lambda_param in (0, 1] (default 1), the estimates converge to a minimiser of f + g whenever one exists, and for every tolerance iterate(k) returns a point within it for all large k; the squared lengths of the steps have a bounded sum, explicitly bounded by the starting distance. Not true: convergence at the step 2/M itself, or for every lambda_param the constructor accepts (3 fails).", "quantifier": "all convex f with M-Lipschitz gradient, all convex g with its proximity operator, all starting points, all finite-dimensional (real or complex) array spaces; the step sums in any inner-product space", "why_tests_cant": "Convergence is a statement about infinitely many updates and all objective functions; the tests run a few dozen updates on one array.", "anchors": ["src/modopt/opt/algorithms/forward_backward.py:ForwardBackward"]}
{"id": "C119", "title": "ForwardBackward without acceleration converges linearly under strong convexity", "statement": "If f is mu-strongly convex, then with a fixed step beta <= 2/M and lambda_param = 1 the squared distance of the estimate after k updates, and of what iterate(k) returns, to the minimiser is at most (1 - beta mu (2 - beta M))^k times that of the starting point; the minimiser is unique.", "quantifier": "all strongly convex f with M-Lipschitz gradient, all convex g with its proximity operator, all starting points, all numbers of updates, any inner-product space", "why_tests_cant": "A rate for all k and all problems cannot be observed on finitely many runs.", "anchors": ["src/modopt/opt/algorithms/forward_backward.py:ForwardBackward"]}
{"id": "C120", "title": "The iterates of Condat converge to a primal-dual solution", "statement": "With fixed parameters such that sigma |L|^2 < 1/tau and 0 < rho < 2 - (M/2)/(1/tau - sigma |L|^2), the primal and dual estimates of Condat converge to a primal-dual solution whenever one exists; the primal limit minimises the composite objective, and iterate(k) returns pairs within any tolerance of the limits for all large k. As in C51 the objective is the one with the proximity term divided by tau.", "quantifier": "all convex f with M-Lipschitz gradient, all convex terms with their proximity operators, all bounded linear operators with their adjoints, all starting pairs, finite-dimensional array spaces", "why_tests_cant": "Convergence is a statement about infinitely many updates and all problems.", "anchors": ["src/modopt/opt/algorithms/primal_dual.py:Condat"]}
{"id": "C121", "title": "The iterates of GenForwardBackward converge to a minimiser", "statement": "With positive weights, a fixed step gamma and a fixed relaxation lambda > 0 with lambda + gamma M / 2 < 2, the estimates of GenForwardBackward converge to a minimiser of f + g_1 + ... + g_n whenever the optimality condition 0 = grad f(x) + q_1 + ... + q_n, q_i a subgradient of g_i at x, has a solution; a run of k > 0 updates returns the estimate after k updates.", "quantifier": "all convex f with M-Lipschitz gradient, all finite lists of convex terms with their proximity operators, all positive weights accepted by the constructor, all starting points, finite-dimensional array spaces", "why_tests_cant": "Convergence is a statement about infinitely many updates and all problems.", "anchors": ["src/modopt/opt/algorithms/forward_backward.py:GenForwardBackward"]}
{"id": "C122", "title": "How inexact gradients and proximity operators affect ForwardBackward", "statement": "Run ForwardBackward without acceleration (fixed step beta <= 2/M, lambda_param 1) with a gradient off by at most gamma and a proximity operator off by at most delta at every point. After k updates the estimate is within k (delta + beta gamma) of the one computed with exact operators, and its distance to any minimiser has grown by at most that. If f is mu-strongly convex and beta < 2/M the distance to the minimiser is at most r^k times the starting one plus (delta + beta gamma)/(1 - r), r = sqrt(1 - beta mu (2 - beta M)) < 1. Not true: that the effect of the errors stays bounded without strong convexity (k delta is attained).", "quantifier": "all convex f with M-Lipschitz gradient, all convex g, all operators within the stated errors of the exact ones (inner iterations, rounding, truncated wavelets), all starting points, all numbers of updates, any inner-product space", "why_tests_cant": "The bound must hold for every way of being inexact and every number of updates.", "anchors": ["src/modopt/opt/algorithms/forward_backward.py:ForwardBackward"]}
{"id": "C123", "title": "The LASSO as set up by a user is solved by ForwardBackward", "statement": "With GradBasic(y, A, A^T), SparseThreshold(Identity(), weights) of positive weights and ForwardBackward without acceleration with a fixed step below 2/|A|^2: the problem min 1/2 |A x - y|^2 + sum_i w_i |x_i| has a solution; the cost of the cost object is this objective; from any start the estimates come within every e > 0 of one solution up to 1e-15 sqrt(n) per update, the error made inside the coded thresholding; if A has full column rank the solution is unique and after k updates the error is at most r^k times the starting one plus 1e-15 sqrt(n)/(1 - r). The step 1/spec_rad from PowerMethod on trans_op_op is admissible (below 2/|A|^2) once its max_iter is large enough, although spec_rad does not exceed |A|^2.", "quantifier": "all operators with an adjoint and a bound, all data, all positive weights (a scalar, one per coefficient, or a one-element array), all lengths n, all starting points, all numbers of updates", "why_tests_cant": "The claim is about the solution of an optimisation problem for all matrices and data and about arbitrarily long runs; the example checks one random matrix.", "anchors": ["src/modopt/opt/algorithms/forward_backward.py:ForwardBackward", "src/modopt/opt/proximity.py:SparseThreshold", "src/modopt/opt/gradient.py:GradBasic", "src/modopt/math/matrix.py:PowerMethod", "src/modopt/opt/cost.py:costObj"]}
{"id": "C124", "title": "Operators that return their argument, reuse an array or work in place", "statement": "Arrays are shared by reference between the caller, the algorithm and its operators. ForwardBackward, GenForwardBackward, Condat and ADMM compute what the operators' functions prescribe, after any number of updates, even if a gradient or linear operator returns its argument or an array it reuses at each call, and even if a proximity operator (the dual one, the operator of Condat's linear part, and ADMM's second optimizer on its init too) overwrites its argument; distinct operators must not share arrays where the results are used together. No array of the caller is ever written to. The array returned after n updates by Condat, by GenForwardBackward and by ForwardBackward with a lambda_update callable is not changed by later updates. POGM needs a gradient that makes a new array at each call and a proximity operator that leaves its argument alone. Not true: that ForwardBackward tolerates a gradient overwriting its argument; that ADMM tolerates a first optimizer overwriting its init; that POGM tolerates a gradient returning its argument (it then computes other iterates) or an in-place proximity operator; that the array POGM returned stays unchanged.", "quantifier": "all operators respecting the stated access rules (arbitrary functions, arbitrary private arrays), all initial heaps, all parameters and parameter updates, all numbers of updates", "why_tests_cant": "The behaviour depends on which array objects the operators of the user share with the algorithm; the tests use operators that always build new arrays.", "anchors": ["src/modopt/opt/algorithms/forward_backward.py:ForwardBackward", "src/modopt/opt/algorithms/forward_backward.py:GenForwardBackward", "src/modopt/opt/algorithms/forward_backward.py:POGM", "src/modopt/opt/algorithms/primal_dual.py:Condat", "src/modopt/opt/algorithms/admm.py:ADMM"]}
{"id": "C125", "title": "What the restart strategies of ForwardBackward's FISTA do to a run", "statement": "With restart_strategy set, ForwardBackward drops the momentum after exactly the steps x_n -> x_{n+1} for which <z_n - x_{n+1}, x_{n+1} - x_n> >= 0, and without a strategy never. The names 'adaptive', 'adaptive-i', 'adaptive-1' give the same run, and so do 'adaptive-ii', 'adaptive-2'; these strategies never change the step size, multiply r_lazy by xi_restart at each restart, and the second variant also starts the momentum sequence afresh, so that the step after a restart is not extrapolated either. Once a run with an adaptive strategy has restarted and as long as it does not restart again, the relaxation stays below a constant smaller than 2. 'greedy' relaxes by 2 after the first update, and multiplies the step size by xi_restart, but not below min_beta, after exactly the later steps that are at least s_greedy times as long as the first; with min_beta at most the first step size the step sizes stay between the two. Not true: that the relaxation stays below 2 (a first restart that comes late makes it larger); that safeguarding never lengthens a step (min_beta above the step size is accepted).", "quantifier": "all gradients and proximity operators on all real inner-product spaces, all starting points and step sizes, all settings the constructor accepts, all numbers of updates", "why_tests_cant": "The strategies change the run only when and as often as steps turn back, which depends on the whole history of a run; tests compare final points on one well-behaved problem.", "anchors": ["src/modopt/opt/algorithms/forward_backward.py:FISTA", "src/modopt/opt/algorithms/forward_backward.py:ForwardBackward"]}
{"id": "C126", "title": "Condat with reweighting runs once per reweighting, each time from where it stopped", "statement": "Without a cost function or metrics, iterate(max_iter=n, n_rewightings=k) of Condat makes k+1 runs of n relaxed primal-dual steps; each run starts at the primal and dual points where the one before ended, with weights computed by reweight.reweight from the linear operator applied to that primal point (and the previous weights); the last points are the result. n_rewightings=None is one run. A reweighting that leaves the weights unchanged makes the result that of one run of (k+1)*n steps.", "quantifier": "all gradients, proximity operators, linear operators, weights and reweighting functions, all parameters rho, sigma, tau, all starting points, all n > 0 and k", "why_tests_cant": "The claim is about the state carried over between runs for every number of reweightings; the tests only check the final point of one short run.", "anchors": ["src/modopt/opt/algorithms/primal_dual.py:Condat"]}
{"id": "C127", "title": "step_size and the step parameter of the class are interchangeable", "statement": "ForwardBackward and POGM (beta_param), GenForwardBackward (gamma_param) and Condat (tau) built with step_size=s, s not 0, behave exactly as if built with that parameter equal to s and no step_size, whatever the parameter was; with step_size None or 0 the parameter is used. The first update moves along the gradient by that step. Not true: that step_size=0 overrides the parameter.", "quantifier": "all numbers as step_size and parameter, all other settings, operators and starting points", "why_tests_cant": "Tests construct the classes with one value of step_size; the claim is an equality of the objects for all values, including the falsy one.", "anchors": ["src/modopt/opt/algorithms/base.py:SetUp", "src/modopt/opt/algorithms/forward_backward.py:ForwardBackward", "src/modopt/opt/algorithms/forward_backward.py:GenForwardBackward", "src/modopt/opt/algorithms/forward_backward.py:POGM", "src/modopt/opt/algorithms/primal_dual.py:Condat"]}
{"id": "C128", "title": "The progress bar and the message do not change a run, and what they show", "statement": "Whatever the settings verbose and progress and whichever progress bar is passed (if it has a truth value), iterate makes the same updates and metric evaluations and ends in the same state or with the same exception as without. With progress on and no bar passed, one bar with total max_iter is opened per run and always closed, also after an exception; a bar that is passed is not closed. The bar in use advances by one after every update except the one in which the run converged or an exception was raised; a bar passed with total 0 (or an empty iterable) is left alone. With verbose, \"Converged!\" is printed exactly once per converged run, otherwise never. Condat resets a bar it was given at every reweighting, so that it shows the last run, and opens one bar per run if it was given none. Not true: that any tqdm bar can be passed (a bar without total and iterable makes iterate raise TypeError before the first update); that the bar counts the updates (it stays one short in a converged run).", "quantifier": "all algorithms as arbitrary update, convergence and metric functions that may raise, all numbers of iterations, all bars, all settings", "why_tests_cant": "Independence of the run from the bar is a statement about all runs, including those ended by an exception; the tests never pass a bar.", "anchors": ["src/modopt/opt/algorithms/base.py:SetUp", "src/modopt/opt/algorithms/primal_dual.py:Condat"]}
{"id": "C129", "title": "ssim is the mean structural similarity of the normalised magnitude images", "statement": "For two images of at least 7x7 pixels with non-constant magnitude, ssim(test, ref) is the mean, over all 7x7 patches inside the image, of the structural similarity index of Wang et al. (means, sample variances and covariance of the patch, constants 0.01^2 and 0.03^2) of the magnitude images normalised to [0, 1]. It is symmetric, lies in [-1, 1], and is 1 exactly if one magnitude image is an increasing affine function of the other. With a mask array of non-zero sum it is the mean, weighted by the mask, of the index at every pixel of the images reflected at their borders; for a non-negative mask it lies in [-1, 1]. ImportError without scikit-image, ValueError for a mask that is not an array and for images with fewer than 7 rows or columns; nan for a constant magnitude image and for a mask of zeros. Not true: that a mask of ones gives the same as no mask.", "quantifier": "all real or complex images of all sizes, all masks of the shape of the images", "why_tests_cant": "Range, symmetry and the characterisation of the value 1 are statements over all images; a test compares a few decimals of one pair.", "anchors": ["src/modopt/math/metrics.py:ssim"]}
{"id": "C130", "title": "What a cost object prints, which cost methods it can call, and the plot of the costs", "statement": "With verbose, a costObj prints for each evaluation its iteration number, the output of the operators, the cost, and after each complete test window the relative change between the halves of the window, in this order and nothing else; a call reports convergence exactly if it printed a change not above the tolerance. Without verbose, and with operators that print only when asked to, it prints nothing; verbose has no effect on costs, history and verdicts. An evaluation succeeds exactly if every operator's cost can be called with the point (two points for Condat) and the keyword verbose: it raises TypeError otherwise. plot_cost raises ImportError without matplotlib; otherwise the file is output + \"_cost_function.png\" (\"cost_function.png\" without output) and the k-th point is the logarithm of the cost of iteration (k+1)*cost_interval, -inf or nan for costs that are not positive. Not true: that an operator with a method cost(x) can be used, as in the example of the documentation (the constructor accepts it, the first evaluation raises TypeError); that the plot shows the cost against the iteration number (the abscissa is the position in the history).", "quantifier": "all operators with arbitrary signatures, values and output, all settings, all sequences of points", "why_tests_cant": "The output of a whole run, for every interval and window, and the set of all acceptable signatures cannot be enumerated; plot_cost is excluded from coverage and the documented example is not run as a test.", "anchors": ["src/modopt/opt/cost.py:CostParent", "src/modopt/opt/cost.py:costObj", "src/modopt/plot/cost_plot.py:plotCost"]}
{"id": "C131", "title": "Which operator objects are accepted, and what accepting them does to them", "statement": "ProximityCombo and LinearCombo accept exactly the non-empty lists, tuples and arrays of operators whose op and cost (adj_op) are callable and assignable, and keep them in order with the methods they had; otherwise the first unacceptable operator decides the exception (ValueError for a missing method, TypeError for one that is not callable, AttributeError for one that cannot be assigned), whatever follows it. LinearCombo then accepts no weights, or as many as operators, none complex and at least one a float. Accepted or refused, every operator reads as before, and the same operators can be combined again. The parent classes raise TypeError for anything that is not callable, at construction and at any later assignment; an attribute is always the last callable assigned to it. With the default cost=\"auto\" an algorithm accepts a GradParent exactly if it was given a cost. Not true: that the cost of a GradParent is optional, as documented (with default arguments the algorithms raise ValueError); that combining operators leaves them alone (an operator no longer follows later changes of its class).", "quantifier": "all lists of operators with arbitrary attributes, all weights, all histories of assignments", "why_tests_cant": "The tests construct a handful of invalid combinations; which operator decides the exception in an arbitrary list, and the effect on the operators themselves, is not observed by them.", "anchors": ["src/modopt/opt/proximity.py:ProximityParent", "src/modopt/opt/proximity.py:ProximityCombo._check_operators", "src/modopt/opt/linear/base.py:LinearParent", "src/modopt/opt/linear/base.py:LinearCombo._check_inputs", "src/modopt/opt/gradient.py:GradParent", "src/modopt/opt/cost.py:costObj._check_operators", "src/modopt/base/types.py:check_callable"]}
{"id": "C132", "title": "Slow FISTA parameters make the estimates converge", "statement": "ForwardBackward with FISTA, no restart, lambda 1 at the start and step 1/L: in the Chambolle-Dossal mode with a_cd > 2, and with the lazy parameters 0 < p_lazy < 1/2, q_lazy >= 0, r_lazy = 4, the estimates converge to a minimiser whenever there is one (in finite dimension), and so does what iterate(k) returns; in any space k^2 (F(x_k) - min F) and k |x_{k+1} - x_k| tend to 0, which is more than the rate 1/k^2.", "quantifier": "all convex problems with a minimiser, all starting points, all a_cd > 2, all lazy parameters in the range, all numbers of iterations", "why_tests_cant": "A limit of an unbounded run, over all convex problems, is not visible in finitely many finite runs.", "anchors": ["src/modopt/opt/algorithms/forward_backward.py:FISTA.update_lambda", "src/modopt/opt/algorithms/forward_backward.py:ForwardBackward._update", "src/modopt/opt/algorithms/forward_backward.py:ForwardBackward.iterate"]}
{"id": "C133", "title": "How fast the default FISTA parameters are", "statement": "ForwardBackward with its default FISTA parameters and step 1/L: although the O(1/k^2) bound of FISTA fails (C43), the objective converges to its minimum, F(x_{k+2}) - F(z) is at most (40/9) |x0 - z|^2 / (beta (k+1)^(4/3)) and at most |x0 - z|^2 / (beta (k+1)), for every minimiser z and every k. When the smooth term is strongly convex the estimates, and what iterate(k) returns, converge to the minimiser, with squared distance O(k^(-4/3)).", "quantifier": "all convex problems with a minimiser, all starting points, all numbers of iterations", "why_tests_cant": "A rate for all problems and all iteration counts cannot be settled by runs; on the problems in the tests the faster rate holds.", "anchors": ["src/modopt/opt/algorithms/forward_backward.py:FISTA.__init__", "src/modopt/opt/algorithms/forward_backward.py:FISTA.update_lambda", "src/modopt/opt/algorithms/forward_backward.py:ForwardBackward._update", "src/modopt/opt/algorithms/forward_backward.py:ForwardBackward.iterate"]}
{"id": "C134", "title": "Gradient descent and FastADMM with operators that reuse arrays or work in place", "statement": "All gradient descent classes compute what their operators' functions prescribe, for any sequence of iteration indices, even if the gradient returns its argument or an array it reuses at each call and the proximity operator overwrites the estimate or the step it is given; no array of the caller is written to. The array returned after some updates is not changed by later ones if the proximity operator does not reuse the arrays it makes. FastADMM computes what its operators' functions prescribe (its else branch makes the extrapolations the same objects as the old variables, which are then overwritten with the new values) if the optimizers leave init alone; the second may also overwrite init: estimates, multipliers, extrapolations and weights stay the same. Not true: that gradient descent tolerates a gradient overwriting its argument; that the returned array stays unchanged when the proximity operator reuses an array; that the speed array AdaGrad shows a metric stays unchanged; that FastADMM tolerates a first optimizer overwriting its init.", "quantifier": "all operators respecting the stated access rules (arbitrary functions, arbitrary private arrays, gradients that change from call to call), all initial heaps, all seven classes, all parameters, all index sequences and numbers of updates", "why_tests_cant": "The behaviour depends on which array objects the operators of the user share with the algorithm; the tests use operators that always build new arrays.", "anchors": ["src/modopt/opt/algorithms/gradient_descent.py:GenericGradOpt._update", "src/modopt/opt/algorithms/gradient_descent.py:AdaGenericGradOpt._update_grad_speed", "src/modopt/opt/algorithms/gradient_descent.py:MomentumGradOpt", "src/modopt/opt/algorithms/gradient_descent.py:ADAMGradOpt", "src/modopt/opt/algorithms/gradient_descent.py:SAGAOptGradOpt", "src/modopt/opt/algorithms/admm.py:FastADMM._update"]}
{"id": "C135", "title": "Condat solves problems that have a solution, such as non-negative sparse recovery", "statement": "Condat needs only a minimiser of the problem, not a dual one: if the penalty on L x is finite everywhere with Lipschitz values, every minimiser has a dual solution, and from any start the estimates converge to a minimiser under the parameter conditions of C120; if the objective is coercive a solution exists. Operators that are off by bounded errors move the k-th pair of estimates by at most k times a constant that depends on the parameters and |L| only. With GradBasic, Positivity, an analysis operator and SparseThreshold as coded (rounding included), x_final comes within any e > 0 of a minimiser of 1/2|A x - y|^2 + sum w_i |(L x)_i| over x >= 0, up to a constant times 1e-15 per update; if |A x|^2 + |L x|^2 >= c |x|^2 with c > 0 such a minimiser exists. Limits of converging runs are primal-dual solutions. Not true: that a solution of the problem is enough when both terms are constraints: for a disc touching a half-plane the minimiser exists, yet for no start and no parameters do the estimates converge.", "quantifier": "all finite-dimensional spaces, all linear operators with their adjoints, all convex smooth terms, all convex terms with their proximity operators, all weights, data, starts and admissible parameters, all numbers of updates, all error sizes", "why_tests_cant": "Convergence and existence of solutions are limit statements over infinitely many iterates and problems; a test runs a fixed number of iterations on one problem.", "anchors": ["src/modopt/opt/algorithms/primal_dual.py:Condat._update", "src/modopt/opt/algorithms/primal_dual.py:Condat.iterate", "src/modopt/opt/proximity.py:Positivity", "src/modopt/opt/proximity.py:SparseThreshold", "src/modopt/opt/gradient.py:GradBasic"]}
{"id": "C136", "title": "POGM on smooth problems: rate, distance to the solutions and convergence with resets", "statement": "With IdentityProx, a convex f whose gradient is 1/beta-Lipschitz and any sigma_bar in [0, 1], whatever resets of the momentum happen: no estimate (nor x_final) is further from a minimiser than the starting point or than an earlier estimate at which t was reset to 1; f at every estimate exceeds the minimum by at most |x_0 - x*|^2 / (2 beta t^2) with t the value shown to the metrics, hence by at most 2 |x_0 - x*|^2 / (beta (j + 2)^2) after j updates without reset; the values of f at x_final converge to the minimum as max_iter grows, and if t is reset again and again the estimates converge to a minimiser. IdentityProx itself is the proximity operator of the zero function and adds nothing to a cost. Not true: that a minimiser reached by an update is kept by the next one, or that the cost never increases.", "quantifier": "all spaces (finite-dimensional for the limits), all such f, all initial u, x, y, z, all step sizes and sigma_bar accepted by the constructor, all numbers of updates and all patterns of resets", "why_tests_cant": "Rates and limits quantify over all problems and infinitely many updates, and the resets depend on the data.", "anchors": ["src/modopt/opt/algorithms/forward_backward.py:POGM._update", "src/modopt/opt/algorithms/forward_backward.py:POGM.iterate", "src/modopt/opt/proximity.py:IdentityProx"]}
{"id": "C137", "title": "GenForwardBackward solves any problem that has a solution, non-negative LASSO included, and tolerates inexact operators", "statement": "If all penalties but one are finite everywhere with Lipschitz values, a minimiser of f + g_1 + ... + g_n is all that is needed: every minimiser satisfies the optimality condition, one exists if the objective is coercive, and with gamma > 0, lambda > 0, lambda + gamma M / 2 < 2 and positive weights the estimates converge to a minimiser. If the gradient is off by at most gam and the proximity operators by at most del, the estimate after k updates is off by at most k lambda (del + gamma gam), whether or not there is a solution. With GradBasic, Positivity and SparseThreshold as coded, rounding included, x_final comes within any e > 0 of a minimiser of 1/2 |A x - y|^2 + sum w_i |x_i| over x >= 0, up to k lambda sqrt(n) 1e-15; with positive weights such a minimiser exists whatever A. Not true: that a minimiser is enough with two constraints (two touching convex sets).", "quantifier": "all finite-dimensional spaces, all numbers of penalties, all such f, g_i, A, y, thresholds, weights, starts, parameters and numbers of updates", "why_tests_cant": "Limits of infinitely many updates and the existence of solutions over all problems; the error bound holds for every way the operators can be off.", "anchors": ["src/modopt/opt/algorithms/forward_backward.py:GenForwardBackward._update", "src/modopt/opt/algorithms/forward_backward.py:GenForwardBackward.iterate", "src/modopt/opt/algorithms/forward_backward.py:GenForwardBackward._set_weights", "src/modopt/opt/proximity.py:Positivity", "src/modopt/opt/proximity.py:SparseThreshold", "src/modopt/opt/gradient.py:GradBasic"]}
{"id": "C138", "title": "AdaGenericGradOpt solves smooth problems for every eta; RMSpropGradOpt and VanillaGenericGradOpt do not", "statement": "AdaGenericGradOpt without regularisation (a prox operator that returns its argument), with a constant eta > 0, epsilon > 0 and any epoch_size >= 1: if the gradient is Lipschitz with constant L and the objective is bounded below by m, convex or not, the squared gradients at each entry add up to at most (epsilon + 4 ((f(x0) - m)/eta + n (L eta)^3 / (2 epsilon^2)))^2, so the gradients tend to zero and the smallest of the first k+1 is of order 1/sqrt(k+1). If f is convex with a minimiser, the values tend to the minimum, the best of the first k+1 values is within C/(k+1) of it, and the estimates converge to a minimiser. No relation between eta and L is needed. Not true of the other classes: for every eta and epsilon there is a smooth convex problem on which RMSpropGradOpt with its default gamma never comes within eta/8 of the only minimiser, and one on which the estimates of VanillaGenericGradOpt double in size at each update.", "quantifier": "all finite index sets, all objectives with Lipschitz gradient, starts, eta, epsilon, epoch sizes and numbers of updates", "why_tests_cant": "Limits of infinitely many updates and rates over all problems and all eta; a test runs finitely many updates on one problem with one eta.", "anchors": ["src/modopt/opt/algorithms/gradient_descent.py:AdaGenericGradOpt", "src/modopt/opt/algorithms/gradient_descent.py:GenericGradOpt._update", "src/modopt/opt/algorithms/gradient_descent.py:RMSpropGradOpt", "src/modopt/opt/algorithms/gradient_descent.py:VanillaGenericGradOpt"]}
{"id": "C139", "title": "AdaGenericGradOpt and VanillaGenericGradOpt when the objective is non-smooth or changes from update to update", "statement": "AdaGenericGradOpt with epoch_size 1, constant eta > 0, epsilon > 0 and a prox operator that acts entry by entry with the array of step sizes it is given: if the gradient seen at each update is a subgradient of that update's objective, which may differ from update to update, then the accumulated excess of objective plus penalty over its value at any point z within B of the estimates is at most the sum over the entries of (r_i + epsilon) B^2/(2 eta) + eta r_i, r_i being the root of the accumulated squared gradients at entry i. For one objective with bounded subgradients and a non-negative penalty the best of the first n estimates is within an explicit C/sqrt(n). VanillaGenericGradOpt: the excess is at most |x0-z|^2/(2 eta) + eta/2 sum |g_k|^2 for constant eta, B^2/(2 eta_n) + 1/2 sum eta_k |g_k|^2 for an eta_update that never increases eta, and of order sqrt(n) when eta_update makes eta proportional to 1/sqrt(k+1). With an entrywise penalty an update of GenericGradOpt, VanillaGenericGradOpt, AdaGenericGradOpt or RMSpropGradOpt changes nothing exactly when the estimate minimises objective plus penalty. Soft thresholding and positivity are such penalties. Not true: that a constant eta is enough for convergence on non-smooth objectives.", "quantifier": "all finite index sets, all sequences of convex objectives, entrywise convex penalties, starts, eta, epsilon, schedules, comparison points and numbers of updates", "why_tests_cant": "The bound is over all sequences of objectives, chosen even adversarially, and all numbers of updates; a test fixes one sequence.", "anchors": ["src/modopt/opt/algorithms/gradient_descent.py:GenericGradOpt._update", "src/modopt/opt/algorithms/gradient_descent.py:AdaGenericGradOpt", "src/modopt/opt/algorithms/gradient_descent.py:VanillaGenericGradOpt", "src/modopt/opt/algorithms/gradient_descent.py:RMSpropGradOpt", "src/modopt/opt/algorithms/gradient_descent.py:GenericGradOpt._update_reg"]}
{"id": "C140", "title": "Gradient descent classes: changes of units, origin and order of the entries, and how far one update moves", "statement": "For the classes that divide by the speed (GenericGradOpt, AdaGenericGradOpt, RMSpropGradOpt, ADAMGradOpt, SAGAOptGradOpt) multiplying the objective, the penalty and epsilon by the same positive number changes no estimate; for VanillaGenericGradOpt and MomentumGradOpt the same holds when eta is divided by that number. For every class, reordering or reshaping the entries of the data reorders the estimates, and moving the origin moves the estimates by the same amount. Without penalty (or at updates where it is not applied) no update of AdaGenericGradOpt moves an entry by more than eta, none of RMSpropGradOpt by more than eta/sqrt(1-gamma), and none of ADAMGradOpt with beta <= gamma by more than eta times a constant that depends on beta and gamma only, whatever the gradients. Not true: that an ADAM update with beta = gamma moves an entry by at most eta, as in the documented method (with the default weights and a constant gradient the fourth update moves more than 6 eta); nor that the moves are bounded for all accepted weights.", "quantifier": "all index sets, gradients (also changing from call to call), prox operators, starting points, parameters, scale factors, reorderings and numbers of updates", "why_tests_cant": "Symmetries relate two runs for all gradients and all scale factors; the step bounds are over all gradient sequences, and the worst one for ADAM is not a typical test input.", "anchors": ["src/modopt/opt/algorithms/gradient_descent.py:GenericGradOpt._update", "src/modopt/opt/algorithms/gradient_descent.py:AdaGenericGradOpt", "src/modopt/opt/algorithms/gradient_descent.py:RMSpropGradOpt", "src/modopt/opt/algorithms/gradient_descent.py:MomentumGradOpt", "src/modopt/opt/algorithms/gradient_descent.py:ADAMGradOpt", "src/modopt/opt/algorithms/gradient_descent.py:SAGAOptGradOpt"]}
{"id": "C141", "title": "Proximal algorithms: changes of units, origin and orthonormal basis", "statement": "Write the unknown in other units, move the origin, or apply a rotation, reordering or orthonormal transform (a similarity of ratio r), and multiply the objective by q. The gradient of the changed problem is the transformed gradient and the proximity operator of its convex penalty is the transformed one, with step sizes divided by q/r^2. With step sizes (and min_beta) divided by q/r^2, and update callables rewritten accordingly, every estimate of ForwardBackward (any restart strategy, FISTA variant or callables), POGM (resets included) and GenForwardBackward is the transformed estimate of the original run, and ForwardBackward returns the transformed result. Condat commutes with every linear change of primal and dual variables that its operators respect; multiplying its data term and sparsity penalty by k with tau/k and k*sigma keeps the estimates when the primal proximity operator ignores its factor. Not true: the last statement for a primal penalty such as the l1 norm, because Condat does not pass tau to that operator.", "quantifier": "all inner-product spaces, similarities, offsets, scale factors, gradients, proximity operators, starting points, parameters that keep the step sizes positive, and numbers of updates", "why_tests_cant": "It relates two whole runs for all transformations and all problems; a quantity compared with an absolute constant, or one scaled wrongly, only shows for some units.", "anchors": ["src/modopt/opt/algorithms/forward_backward.py:FISTA", "src/modopt/opt/algorithms/forward_backward.py:ForwardBackward", "src/modopt/opt/algorithms/forward_backward.py:GenForwardBackward", "src/modopt/opt/algorithms/forward_backward.py:POGM", "src/modopt/opt/algorithms/primal_dual.py:Condat"]}
{"id": "C142", "title": "Where ADMM and FastADMM settle, and when they do not", "statement": "Consider min H(u) + G(v) subject to A u + B v = b with convex H and G (possibly constrained), linear A and B, and optimizers that solve the two steps of the documented augmented Lagrangian exactly. A pair (u, v) that an update of ADMM leaves unchanged solves the problem with b replaced by A u + B v, and is one whose multiplier is tau times (residual + u); such pairs are left unchanged by optimizers that keep a starting point that is already optimal. When the multiplier is unchanged too, (u, v) solves the stated problem and tau*u is a multiplier; the same holds for FastADMM. With A the identity u then minimises H + tau/2 |u|^2, whatever G, B and b are, also for optimizers that solve the problems written in the documentation of the argument. Not true: that with those documented problems an unchanged feasible state is a solution; that the limit of the ADMM estimates satisfies the constraint, even for a strongly convex H and from every starting point; that FastADMM with its default settings converges on strongly convex problems on which ADMM does.", "quantifier": "all inner-product spaces, convex functions and domains, linear operators, exact optimizers, tau > 0, states, and numbers of updates", "why_tests_cant": "The tests use H = G = 0; statements about all convex problems and limits of runs cannot be sampled.", "anchors": ["src/modopt/opt/algorithms/admm.py:ADMM._update", "src/modopt/opt/algorithms/admm.py:FastADMM._update", "src/modopt/opt/algorithms/admm.py:FastADMM.__init__"]}
{"id": "C143", "title": "The gradient descent classes on complex arrays", "statement": "On complex arrays the gradient descent classes compute one real speed per entry from the squared modulus. Every class commutes with multiplying entries by numbers of modulus 1 (one per entry) and with complex conjugation, and keeps the same speed. Vanilla, Momentum, SAGA and the generic class treat real and imaginary parts as separate real entries; AdaGrad does not. AdaGrad: the speed is the sum of the squared moduli of the gradients, an update moves an entry by at most eta in modulus, and without regularisation, for every eta and epsilon, the gradients of a smooth objective that is bounded below tend to zero; if it is convex with a minimiser the values tend to the minimum and the complex estimates converge to a minimiser, in particular for complex least squares. On real arrays all of this is the real model.", "quantifier": "all index sets, gradients (also stochastic), proximity operators, classes and parameters, phases, numbers of updates; all smooth (convex) objectives of finite complex arrays for the convergence", "why_tests_cant": "The tests run the classes on real arrays only; symmetries and limits are statements about all inputs and infinitely many updates.", "anchors": ["src/modopt/opt/algorithms/gradient_descent.py:GenericGradOpt._update", "src/modopt/opt/algorithms/gradient_descent.py:AdaGenericGradOpt._update_grad_speed", "src/modopt/opt/algorithms/gradient_descent.py:GenericGradOpt.__init__"]}
{"id": "C144", "title": "Divisions by zero in the gradient descent classes", "statement": "With epsilon > 0 no update of a gradient descent class divides by zero, and with operators that keep finite arrays finite all estimates are finite for ever; the vanilla and momentum classes do so for every epsilon. With epsilon = 0 AdaGrad is finite for ever when no entry of the first gradient is zero, and an entry whose first gradient is zero is nan after every update; the generic class and SAGA become infinite or nan at the first update. In the generic class with a constant eta an infinite entry then becomes nan, for ever, when its gradient points away from zero, and stays when it points towards zero. Not true: that every epsilon accepted by the constructor keeps the estimates finite (a negative one need not).", "quantifier": "all index sets, operators, classes, starting points, eta, epoch sizes, eta updates and numbers of updates", "why_tests_cant": "Whether a denominator vanishes depends on the whole history of the gradients; tests run a few iterations with the default epsilon.", "anchors": ["src/modopt/opt/algorithms/gradient_descent.py:GenericGradOpt._update", "src/modopt/opt/algorithms/gradient_descent.py:AdaGenericGradOpt._update_grad_speed", "src/modopt/opt/algorithms/gradient_descent.py:RMSpropGradOpt._update_grad_speed", "src/modopt/opt/algorithms/gradient_descent.py:ADAMGradOpt._update_grad_speed"]}
{"id": "C145", "title": "Two runs of the same algorithm never move apart, and moves never get longer", "statement": "ForwardBackward without acceleration, with a step at most 2/M and a relaxation at most 1, started from two points: the estimates, and the arrays iterate() returns, are never further apart than the starting points. With relaxation 1 the distance never increases from one update to the next, the moves of a run never get longer, and when a minimiser z exists the square of the n-th move is at most |x0 - z|^2 / ((1 - beta M/2) (n+1)). Two runs of GenForwardBackward with lambda + gamma M/2 at most 2 and positive weights are never further apart than their starting points either. Condat with fixed parameters in the range of C120 has the same three properties in its natural norm. Not true: that the moves of a default, accelerated, ForwardBackward run never get longer, even for a step below 1/M.", "quantifier": "all spaces, convex problems, Lipschitz constants, steps, relaxations, starting points and numbers of updates", "why_tests_cant": "Comparing two runs started at any two points, for any number of updates, is out of reach of a test; a user relies on it to judge sensitivity to the starting point and to use the size of the last move as a stopping criterion.", "anchors": ["src/modopt/opt/algorithms/forward_backward.py:ForwardBackward._update", "src/modopt/opt/algorithms/primal_dual.py:Condat._update"]}
{"id": "C146", "title": "check_float and check_int on nested sequences and special values", "statement": "A nested list or tuple that is rectangular becomes the array of its shape whose entry at every multi-index is the number found there, as a float or truncated towards zero; one that is not rectangular raises ValueError. A rectangular one is refused exactly when it holds a number the target type cannot hold: check_float raises OverflowError, check_int raises ValueError when only nan stands in the way and OverflowError when no nan is present. Arrays are never refused and keep their shape. TypeError is raised exactly for objects of another type. Both functions return their own results unchanged. Not true: that check_int treats a list like the array check_float makes of it ([nan] raises, array([nan]) becomes some integer).", "quantifier": "all nestings, shapes, multi-indices and numbers, infinities and nan included", "why_tests_cant": "The tests convert a few flat lists and arrays of ordinary numbers; shapes and places of special values are unbounded.", "anchors": ["src/modopt/base/types.py:check_float", "src/modopt/base/types.py:check_int"]}
{"id": "C147", "title": "Stability of the vanilla descent with changing gradients", "statement": "Two runs of VanillaGenericGradOpt with the same eta, eta_update, epoch_size and penalty, whose gradients are those of a convex function with M-Lipschitz gradient that may be a different one at every call, never move apart as long as eta stays between 0 and 2/M. If the second run sees other gradients and starts elsewhere, the distance after n updates is at most the distance of the starts plus the sum of eta times the gradient errors; if only some calls differ and the gradients there are at most G long, at most 2 G times the sum of eta over those calls. If the functions are also mu-strongly convex and eta is constant below 2/M, the influence of the start decays geometrically, and gradient errors of at most delta keep the estimates within eta delta / (1 - rho) of the exact run and of the minimiser, where rho^2 = 1 - eta mu (2 - eta M). Not true: the same with eta = 3/M, or for MomentumGradOpt.", "quantifier": "all shapes, penalties, epoch sizes, schedules, sequences of gradients, starts and numbers of updates", "why_tests_cant": "The tests run each class once on one problem; a bound on how the result depends on data, noise and start concerns pairs of runs of any length.", "anchors": ["src/modopt/opt/algorithms/gradient_descent.py:VanillaGenericGradOpt", "src/modopt/opt/algorithms/gradient_descent.py:GenericGradOpt.iterate", "src/modopt/opt/algorithms/gradient_descent.py:MomentumGradOpt"]}
{"id": "C148", "title": "Accelerated ForwardBackward with inexact gradients", "statement": "ForwardBackward with FISTA parameters p_lazy at most 1/2, q_lazy at most (2 - 2 p_lazy)^2, r_lazy = 4 and no restart: if the gradient operator is off by err_k at the point where update k evaluates it, the objective after k+2 updates exceeds the minimum by at most (|x0 - z| + 2 beta (err_0 + sum over j <= k of t_j err_{j+1}))^2 / (2 beta t_k^2), with t the FISTA sequence and z any minimiser. Errors whose sum weighted by t stays bounded keep the 1/k^2 rate. With Chambolle-Dossal parameters, any a_cd > 2, the objective after k+4 updates exceeds the minimum by at most a_cd^2 (|x0 - z| + 2 beta (err_0 + err_1 + err_2 + sum over j <= k of (j + a_cd)/a_cd err_{j+3}))^2 / (2 beta (k + a_cd)^2). Without acceleration, the best of the first n+1 estimates exceeds the minimum by at most (|x0 - z| + 2 beta times the sum of the errors)^2 / (2 beta (n+1)). Not true: that with the default FISTA parameters gradient errors move the estimates no further than without acceleration.", "quantifier": "all spaces, smooth convex objectives, penalties, gradient operators, starts, parameters in the stated range and numbers of updates", "why_tests_cant": "The tests run FISTA once with exact gradients; how errors of any size and pattern add up over any number of updates needs a proof.", "anchors": ["src/modopt/opt/algorithms/forward_backward.py:ForwardBackward._update", "src/modopt/opt/algorithms/forward_backward.py:FISTA.update_lambda"]}
{"id": "C149", "title": "Which data types of the starting points ADMM and FastADMM accept", "statement": "ADMM runs from starting points of any numeric types, with any optimizers and operators, and the type of the multiplier has no effect on the types of the two estimates. FastADMM, when b and mu are not of an integer type, runs exactly when the first new values of u, v and mu fit the types of u, b and mu, which are then kept; otherwise its first iteration raises TypeError. Not true: that FastADMM accepts what ADMM accepts (an integer u; a real mu with a complex b). Not true: that a run of FastADMM that survives one iteration survives them all (integer arrays and optimizers that keep integers fail in the second).", "quantifier": "all data types of the arrays, optimizers and operators (by the types they return), sequences of restarts and numbers of iterations", "why_tests_cant": "The tests use arrays of floats only; which combinations of types fail, and when, ranges over all operators and iterations.", "anchors": ["src/modopt/opt/algorithms/admm.py:ADMM._update", "src/modopt/opt/algorithms/admm.py:FastADMM._update", "src/modopt/opt/algorithms/admm.py:FastADMM.__init__"]}
{"id": "C150", "title": "Infinite and nan entries in positive and thresh", "statement": "Each entry of positive(x) and thresh(x, t) depends on that entry (and its threshold) only, finite entries being treated as on finite arrays. positive keeps inf and nan. Hard thresholding keeps infinite entries for every threshold that is not nan, keeps nan, and returns 0 for a finite entry with an infinite or nan threshold. Soft thresholding keeps infinite entries for finite thresholds, returns 0 for a finite entry and nan for an infinite one when the threshold is infinite, and nan when entry or threshold is nan. Not true: that positive sets all negative coefficients to zero (-inf becomes nan). Not true: that hard and soft thresholding kill the same entries for infinite or nan thresholds (a nan threshold is hidden by the hard one).", "quantifier": "all arrays of finite, infinite and nan entries, all thresholds of the same kind", "why_tests_cant": "The tests use small finite arrays; the statement ranges over all reals and all combinations of special values.", "anchors": ["src/modopt/signal/positivity.py:pos_thresh", "src/modopt/signal/positivity.py:positive", "src/modopt/signal/noise.py:thresh"]}
{"id": "C151", "title": "Reweighting with zero weights, infinite and nan data", "statement": "After any sequence of reweight calls with positive factors and finite data at an entry, a positive weight is still positive, never larger than the first one, and equal to it exactly when all data at the entry were zero, whatever the other entries hold; each call multiplies it by n w / (n w + |x|) with w the first weight. A zero weight stays zero while the data at the entry are non-zero and is nan from the first call with zero data on. Infinite data set a positive weight to zero, where it stays until nan data come; nan data set it to nan; a nan weight is never repaired. Not true: that an entry with zero data keeps its weight (a zero weight, or a zero factor, gives nan).", "quantifier": "all weights, all sequences of factors and data arrays with finite, infinite and nan entries", "why_tests_cant": "The tests reweight once with weights 10 on a small integer array; the statement ranges over all sequences of calls and special values.", "anchors": ["src/modopt/opt/reweight.py:cwbReweight.reweight"]}
