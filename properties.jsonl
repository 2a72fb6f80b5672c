{"id": "C01", "title": "get_minimum returns running best values", "statement": "For every round, entry k of the minima returned by get_minimum(Y_all, num_init) is the smallest non-NaN value among the first num_init+k observations of that round (inf if there is none); the row has t-num_init+1 entries, never increases, and its last entry is the minimum of the whole round.", "quantifier": "all float64 arrays Y_all of any shape (r, t), including NaN and infinities, all 0 <= num_init < t", "why_tests_cant": "tests fix a handful of arrays; the claim is an invariant of a fold over rows of any length and NaN pattern", "anchors": ["bayeso/utils/utils_common.py:get_minimum"]}
{"id": "C02", "title": "get_minimum aggregates are means, sample deviations and standard errors", "statement": "The second, third and fourth results of get_minimum are, per column, the arithmetic mean, the unbiased sample standard deviation (0 when there is one round) and that deviation divided by sqrt(r); the deviations are non-negative and vanish when all rounds agree.", "quantifier": "all real arrays (r >= 1 rounds, any t) and num_init < t", "why_tests_cant": "numerical identities over every array, in exact arithmetic", "anchors": ["bayeso/utils/utils_common.py:get_minimum"]}
{"id": "C03", "title": "get_time is the mean cumulative time", "statement": "get_time returns t'+1 entries (t' columns kept after dropping the initial ones when include_init), starting with 0, each later entry k being the mean over rounds of the total of the first k kept times; it is non-decreasing if times are non-negative.", "quantifier": "all real arrays, all num_init, both include_init flags", "why_tests_cant": "holds for every number of rounds and columns", "anchors": ["bayeso/utils/utils_common.py:get_time"]}
{"id": "C04", "title": "time axis and minimum axis always have equal length", "statement": "Whenever the shape checks of plot_minimum_vs_time pass and num_init is smaller than the number of columns, get_time and the mean minima returned by get_minimum have the same length, so the plotted series line up.", "quantifier": "all shapes accepted by the checks, both the time-includes-initials and excludes-initials layouts", "why_tests_cant": "relation between two functions across all shapes", "anchors": ["bayeso/utils/utils_plotting.py:plot_minimum_vs_time", "bayeso/utils/utils_common.py:get_time", "bayeso/utils/utils_common.py:get_minimum"]}
{"id": "C05", "title": "get_grids enumerates the full Cartesian grid exactly once", "statement": "get_grids(ranges, m) returns exactly m^d rows of width d; the rows are, up to order and with no omission or repetition, the Cartesian product of the per-dimension linspace values.", "quantifier": "all dimensions d >= 1, all m, all ranges", "why_tests_cant": "combinatorial statement over unbounded dimension and grid size", "anchors": ["bayeso/utils/utils_common.py:get_grids"]}
{"id": "C06", "title": "get_grids stays in the box and contains the corners", "statement": "Every row of get_grids(ranges, m) lies inside ranges, and for m >= 2 every corner of the box is a row.", "quantifier": "all d, m and all ranges with lower <= upper (exact arithmetic)", "why_tests_cant": "for-all over boxes and sizes", "anchors": ["bayeso/utils/utils_common.py:get_grids", "bayeso/bo/base_bo.py:BaseBO._get_samples_grid"]}
{"id": "C07", "title": "normalize_min_max maps responses onto [0, 10] preserving order", "statement": "For responses that are not all equal, normalize_min_max returns values in [0, 10], attains 0 exactly at the minimisers and 10 at the maximisers, preserves strict order between any two entries and keeps the length; constant responses are returned unchanged.", "quantifier": "all non-empty real response columns", "why_tests_cant": "for-all over arrays", "anchors": ["bayeso/utils/utils_bo.py:normalize_min_max"]}
{"id": "C08", "title": "normalize_min_max is idempotent and invariant to affine rescaling of the responses", "statement": "normalize_min_max(normalize_min_max(Y)) = normalize_min_max(Y) for non-constant Y, and for a > 0, normalize_min_max(a*Y+b) = normalize_min_max(Y), so the surrogate sees the same data whatever unit the objective is measured in.", "quantifier": "all non-constant real response columns, all a > 0 and b", "why_tests_cant": "metamorphic relation over all inputs", "anchors": ["bayeso/utils/utils_bo.py:normalize_min_max", "bayeso/bo/bo_w_gp.py:BOwGP.optimize"]}
{"id": "C09", "title": "get_best_acquisition_by_evaluation returns the first strict minimiser", "statement": "If some candidate evaluates below +inf, the returned row is the earliest candidate whose value is minimal among the non-NaN values; otherwise (all NaN or +inf, or no candidate) the call raises instead of returning a point. The objective is evaluated exactly once per candidate, in order.", "quantifier": "all candidate lists and all objective functions into float64, including NaN and infinities", "why_tests_cant": "order and NaN behaviour over lists of any length", "anchors": ["bayeso/utils/utils_bo.py:get_best_acquisition_by_evaluation"]}
{"id": "C10", "title": "get_best_acquisition_by_history returns the best observed pair", "statement": "For non-empty NaN-free history, the returned point and value are a row of the history (X[i], Y[i]) with Y[i] minimal and i the first such index; with a NaN in the history the first NaN row is returned.", "quantifier": "all histories of any length over float64", "why_tests_cant": "for-all over histories, NaN semantics", "anchors": ["bayeso/utils/utils_bo.py:get_best_acquisition_by_history"]}
{"id": "C11", "title": "get_next_best_acquisition never proposes an already evaluated point while a fresh one exists", "statement": "The point returned by get_next_best_acquisition is either a candidate at distance >= 1e-8 (not < 1e-8) from every evaluated point with minimal acquisition value among all such candidates (first in order), or, only when every candidate is within 1e-8 of an evaluated point, the last evaluated point.", "quantifier": "all candidate, acquisition and evaluated arrays", "why_tests_cant": "nested deletion loop over arrays of any size", "anchors": ["bayeso/utils/utils_bo.py:get_next_best_acquisition"]}
{"id": "C12", "title": "get_next_best_acquisition can return no point", "statement": "If fresh candidates exist but all their acquisition values are NaN or +inf the function returns None, and this is the only way it returns None.", "quantifier": "all inputs over float64", "why_tests_cant": "rare numeric corner that needs an exact characterisation", "anchors": ["bayeso/utils/utils_bo.py:get_next_best_acquisition"]}
{"id": "C13", "title": "check_points_in_bounds accepts exactly the in-bounds arrays", "statement": "check_points_in_bounds returns its input unchanged iff every coordinate of every point is between its bounds (NaN is rejected); otherwise it raises AssertionError.", "quantifier": "all point arrays and bounds over float64", "why_tests_cant": "for-all over arrays", "anchors": ["bayeso/utils/utils_bo.py:check_points_in_bounds"]}
{"id": "C14", "title": "convergence test of hyperparameters", "statement": "check_hyps_convergence is False on an empty history; otherwise it is True iff the Euclidean distance of the new hyperparameter vector to the last recorded one is strictly below ratio_threshold times the norm of the last one; only the last record matters.", "quantifier": "all histories, hyperparameters and thresholds", "why_tests_cant": "depends on histories of any length", "anchors": ["bayeso/utils/utils_bo.py:check_hyps_convergence"]}
{"id": "C15", "title": "optimizer-method fallback", "statement": "check_optimizer_method_bo always returns a usable method: it never returns DIRECT/CMA-ES when the package is missing nor CMA-ES for one dimension, it is the identity otherwise, it is idempotent, and it rejects exactly the names that are not allowed.", "quantifier": "all strings, dimensions and package availabilities", "why_tests_cant": "for-all over names and environments", "anchors": ["bayeso/utils/utils_bo.py:check_optimizer_method_bo"]}
{"id": "C16", "title": "construction succeeds exactly for compatible surrogate and optimizer", "statement": "BayesianOptimization(...) with otherwise valid arguments constructs iff the acquisition optimizer fits the surrogate: random_search for rf, one of L-BFGS-B/DIRECT/CMA-ES for gp and tp. In particular the default acquisition optimizer is rejected for rf.", "quantifier": "all surrogate and optimizer names, all dimensions and package availabilities", "why_tests_cant": "joint decision over all argument combinations", "anchors": ["bayeso/wrappers/wrappers_bo_class.py:BayesianOptimization.__init__", "bayeso/bo/bo_w_gp.py:BOwGP.__init__", "bayeso/bo/bo_w_tp.py:BOwTP.__init__", "bayeso/bo/bo_w_trees.py:BOwTrees.__init__"]}
{"id": "C17", "title": "choose_fun_acquisition dispatches each name to its formula", "statement": "For each allowed acquisition name the chosen callable computes that acquisition's formula from predictive mean, deviation and responses; aei additionally requires a noise value and fails without it; other names are rejected.", "quantifier": "all names, noise options and inputs", "why_tests_cant": "for-all over functions' inputs", "anchors": ["bayeso/utils/utils_bo.py:choose_fun_acquisition"]}
{"id": "C18", "title": "convert_hyps and restore_hyps are mutually inverse", "statement": "restore_hyps(convert_hyps(h)) = h when the noise is free; when fix_noise is set every entry except the noise survives and the noise becomes the given fixed value; and convert_hyps(restore_hyps(v)) = v for every vector v of admissible length.", "quantifier": "all hyperparameter dictionaries, vectors, covariance names, use_gp/use_ard/fix_noise flags", "why_tests_cant": "round trip over all flag combinations and dimensions", "anchors": ["bayeso/utils/utils_covariance.py:convert_hyps", "bayeso/utils/utils_covariance.py:restore_hyps"]}
{"id": "C19", "title": "default hyperparameters, their vector and their bounds agree", "statement": "For every covariance name, dimension and flags, convert_hyps(get_hyps(...)) and get_range_hyps(...) have the same length, each default lies inside its bound, and bounds are ordered lower < upper, so a bounded optimiser always starts feasible.", "quantifier": "all names, dimensions and flag combinations", "why_tests_cant": "alignment of three functions for any dimension", "anchors": ["bayeso/utils/utils_covariance.py:get_hyps", "bayeso/utils/utils_covariance.py:get_range_hyps", "bayeso/utils/utils_covariance.py:convert_hyps"]}
{"id": "C20", "title": "validate_hyps_dict accepts exactly well-formed dictionaries and is idempotent", "statement": "validate_hyps_dict returns iff noise, lengthscales, signal (and dof for Student-t) are present with the right types and length, raising ValueError otherwise; the returned dictionary only differs by clamping (|noise| = inf becomes +inf, dof <= 2 becomes 2.00001); validating again changes nothing; afterwards dof > 2.", "quantifier": "all dictionaries with arbitrary values of arbitrary types", "why_tests_cant": "for-all over ill-typed inputs", "anchors": ["bayeso/utils/utils_covariance.py:validate_hyps_dict"]}
{"id": "C21", "title": "shape check accepts exactly 2-D inputs for base kernels and 3-D for set kernels", "statement": "check_str_cov returns iff the name is a base covariance and all given shapes are two-dimensional, or a set covariance and all are three-dimensional; unknown names raise ValueError, wrong ranks AssertionError.", "quantifier": "all names and shape tuples", "why_tests_cant": "for-all over strings and shapes", "anchors": ["bayeso/utils/utils_covariance.py:check_str_cov"]}
{"id": "C22", "title": "kernels are symmetric, translation invariant, bounded and positive", "statement": "Each base kernel value lies in (0, signal^2], equals signal^2 at coinciding inputs, is symmetric in its two inputs, unchanged by translating or reflecting both inputs, and strictly decreases in the scaled distance.", "quantifier": "all inputs of any dimension, all non-zero lengthscales (vector or scalar), all non-zero signals", "why_tests_cant": "analytic facts over the reals", "anchors": ["bayeso/covariance.py:cov_se", "bayeso/covariance.py:cov_matern32", "bayeso/covariance.py:cov_matern52"]}
{"id": "C23", "title": "every kernel matrix is positive semi-definite", "statement": "For the squared-exponential, Matern 3/2 and Matern 5/2 kernels, any finite list of inputs and any coefficients c, sum_ij c_i c_j k(x_i, x_j) >= 0.", "quantifier": "all finite point lists, dimensions, lengthscales, signals", "why_tests_cant": "infinite-dimensional analytic statement; tests only sample matrices", "anchors": ["bayeso/covariance.py:cov_se", "bayeso/covariance.py:cov_matern32", "bayeso/covariance.py:cov_matern52"]}
{"id": "C24", "title": "set kernels are positive semi-definite, symmetric and order independent", "statement": "The set kernel (mean of pairwise kernel values) is symmetric, invariant under permuting the elements of either set, bounded by signal^2, equals the base kernel on singletons and gives PSD matrices.", "quantifier": "all finite families of non-empty sets and base kernels", "why_tests_cant": "for-all over sets of any cardinality", "anchors": ["bayeso/covariance.py:cov_set", "bayeso/covariance.py:cov_main"]}
{"id": "C25", "title": "cov_main computes the kernel entrywise with jitter exactly on the diagonal", "statement": "cov_main(..., same_X_Xp) entry (i, j) is the (set) kernel of X[i] and X'[j], plus jitter exactly when same_X_Xp and i = j; for set kernels the mirrored upper-triangle evaluation produces the same matrix as evaluating every entry when X' = X; the result is symmetric then.", "quantifier": "all sizes n, m and all covariance names", "why_tests_cant": "loop with mirrored writes over matrices of any size", "anchors": ["bayeso/covariance.py:cov_main"]}
{"id": "C26", "title": "the training covariance matrix is always invertible and Cholesky needs no extra jitter", "statement": "In exact arithmetic, for all valid inputs the matrix built by get_kernel_inverse / get_kernel_cholesky is symmetric positive definite: inversion cannot fail, the first (zero) jitter attempt of the Cholesky ladder succeeds, and cov @ inv = identity.", "quantifier": "all training sets (with repeated points too), hyperparameters and kernels", "why_tests_cant": "needs kernel positive-definiteness for all inputs", "anchors": ["bayeso/covariance.py:get_kernel_inverse", "bayeso/covariance.py:get_kernel_cholesky"]}
{"id": "C27", "title": "Cholesky jitter ladder", "statement": "get_kernel_cholesky returns the factor of cov + j*I for the first jitter j of the ladder for which factorisation succeeds, together with that same jittered matrix (jitters do not accumulate), and raises ValueError iff every jitter fails.", "quantifier": "all factorisation behaviours (any pattern of successes and failures)", "why_tests_cant": "quantifies over every failure history of the numeric routine", "anchors": ["bayeso/covariance.py:get_kernel_cholesky"]}
{"id": "C28", "title": "kernel gradients are the true partial derivatives", "statement": "Entry (i, j, p) returned by grad_cov_main is the partial derivative of entry (i, j) of the training covariance (kernel + noise^2 I + jitter) with respect to hyperparameter p in the order used by convert_hyps.", "quantifier": "all kernels, dimensions, ARD or scalar lengthscales, with and without free noise", "why_tests_cant": "derivatives at every point; finite differences only approximate", "anchors": ["bayeso/covariance.py:grad_cov_se", "bayeso/covariance.py:grad_cov_matern32", "bayeso/covariance.py:grad_cov_matern52", "bayeso/covariance.py:grad_cov_main"]}
{"id": "C29", "title": "posterior covariance of GP regression is symmetric positive semi-definite and never exceeds the prior", "statement": "Sigma returned by predict_with_hyps is symmetric PSD, its diagonal is between 0 and the prior variance signal^2 + jitter, and the returned deviation is exactly sqrt of that diagonal (clamping never acts).", "quantifier": "all training and test sets, kernels, hyperparameters", "why_tests_cant": "for-all over data sets", "anchors": ["bayeso/gp/gp.py:predict_with_cov", "bayeso/gp/gp.py:predict_with_hyps"]}
{"id": "C30", "title": "posterior mean is affine in the observations and respects the prior mean", "statement": "For fixed inputs, the GP posterior mean is an affine function of Y; with Y equal to the prior mean it returns the prior mean; prediction with prior m equals prediction with zero prior on Y - m plus m; the posterior covariance does not depend on Y at all.", "quantifier": "all data, kernels and prior mean functions", "why_tests_cant": "algebraic identities over all data", "anchors": ["bayeso/gp/gp.py:predict_with_cov", "bayeso/utils/utils_gp.py:get_prior_mu"]}
{"id": "C31", "title": "predictions do not depend on the order of the observations", "statement": "Permuting the rows of (X_train, Y_train) leaves mean, deviation and covariance over X_test unchanged.", "quantifier": "all permutations of all training sets", "why_tests_cant": "metamorphic relation over all permutations", "anchors": ["bayeso/gp/gp.py:predict_with_hyps", "bayeso/covariance.py:get_kernel_inverse"]}
{"id": "C32", "title": "predictions at a test point do not depend on the other test points", "statement": "Mean and deviation at X_test[j] computed in a batch equal those computed for X_test[j] alone, and the covariance of a sub-batch is the corresponding sub-matrix, so acquisition values evaluated point by point and in a batch agree.", "quantifier": "all batches", "why_tests_cant": "for-all over batches and sub-selections", "anchors": ["bayeso/gp/gp.py:predict_with_cov", "bayeso/bo/bo_w_gp.py:BOwGP.compute_acquisitions"]}
{"id": "C33", "title": "GP residual at the training inputs", "statement": "Predicting at the training inputs leaves residual exactly (noise^2 + jitter) * cov^{-1} (Y - m), whose norm never exceeds that of Y - m, so fits shrink towards data and interpolate as noise and jitter vanish.", "quantifier": "all training sets and hyperparameters", "why_tests_cant": "identity over all data", "anchors": ["bayeso/gp/gp.py:predict_with_hyps"]}
{"id": "C34", "title": "more data never increases predictive uncertainty", "statement": "Adding training rows never increases the GP predictive standard deviation at any test point (same hyperparameters).", "quantifier": "all training sets, extensions and test points", "why_tests_cant": "monotonicity over all extensions", "anchors": ["bayeso/gp/gp.py:predict_with_hyps"]}
{"id": "C35", "title": "Student-t posterior is the GP posterior with rescaled covariance", "statement": "tp.predict_* returns degrees of freedom nu + n, the same mean as the GP with the same hyperparameters and covariance multiplied by (nu + beta - 2)/(nu + n - 2) where beta = (Y-m)^T K^{-1} (Y-m) >= 0; for nu > 2 the factor is positive so Sigma is symmetric PSD; the factor tends to 1 as nu grows.", "quantifier": "all data, hyperparameters with nu > 2", "why_tests_cant": "for-all over data", "anchors": ["bayeso/tp/tp.py:predict_with_cov"]}
{"id": "C36", "title": "GP negative log marginal likelihood equals the Gaussian formula", "statement": "neg_log_ml (inverse path) equals (1/n) * [ 1/2 (Y-m)^T K^{-1} (Y-m) + 1/2 log det K + n/2 log 2 pi ] for all data; the Cholesky path differs from it only by the log jitter and by at most n^{-1} sum_i 1e-7 / L_ii.", "quantifier": "all data, kernels and hyperparameters", "why_tests_cant": "two implementations related for all inputs", "anchors": ["bayeso/gp/gp_likelihood.py:neg_log_ml"]}
{"id": "C37", "title": "leave-one-out pseudo-likelihood uses the exact leave-one-out predictions", "statement": "The mean used for observation i in neg_log_pseudo_l_loocv equals the zero-prior GP prediction at X_i from all other observations, and 1/[K^{-1}]_ii is the corresponding predictive variance including noise.", "quantifier": "all data sets of size n >= 2 and every i", "why_tests_cant": "matrix identity for all n", "anchors": ["bayeso/gp/gp_likelihood.py:neg_log_pseudo_l_loocv"]}
{"id": "C38", "title": "leave-one-out pseudo-likelihood accounts for the prior mean", "statement": "neg_log_pseudo_l_loocv depends on the prior mean it is given: shifting Y and the prior mean together leaves it unchanged.", "quantifier": "all data and prior means", "why_tests_cant": "metamorphic relation", "anchors": ["bayeso/gp/gp_likelihood.py:neg_log_pseudo_l_loocv"]}
{"id": "C39", "title": "leave-one-out model selection works with a scalar lengthscale", "statement": "get_optimized_kernel(str_modelselection_method='loocv', use_ard=False) can evaluate its objective for inputs of any dimension.", "quantifier": "all input dimensions", "why_tests_cant": "depends on the dimension; tests only used ARD", "anchors": ["bayeso/gp/gp_kernel.py:get_optimized_kernel", "bayeso/gp/gp_likelihood.py:neg_log_pseudo_l_loocv"]}
{"id": "C40", "title": "Student-t log likelihood gradient is consistent", "statement": "The gradient returned by tp_likelihood.neg_log_ml is the derivative of the returned value, with entries in the order used by convert_hyps(use_gp=False).", "quantifier": "all hyperparameters nu > 2 and data", "why_tests_cant": "derivative identity", "anchors": ["bayeso/tp/tp_likelihood.py:neg_log_ml"]}
{"id": "C41", "title": "kernel optimisation returns mutually consistent results", "statement": "For any optimiser outcome, get_optimized_kernel returns hyperparameters that decode that outcome, the covariance matrix of exactly those hyperparameters, and its inverse; the optimiser is started at a feasible point and receives bounds of matching length.", "quantifier": "all optimiser behaviours", "why_tests_cant": "quantifies over the behaviour of an external optimiser", "anchors": ["bayeso/gp/gp_kernel.py:get_optimized_kernel", "bayeso/tp/tp_kernel.py:get_optimized_kernel"]}
{"id": "C42", "title": "probability of improvement is a probability and monotone", "statement": "pi returns values in [0, 1], strictly decreasing in the predictive mean, and at most 1/2 exactly when the mean is not below the best response.", "quantifier": "all real means, non-negative deviations, non-empty responses", "why_tests_cant": "analytic over the reals", "anchors": ["bayeso/acquisition.py:pi"]}
{"id": "C43", "title": "expected improvement is non-negative", "statement": "ei returns non-negative values for every mean and every non-negative deviation.", "quantifier": "all real means, deviations >= 0 and responses", "why_tests_cant": "needs every mean/deviation, including deviation 0", "anchors": ["bayeso/acquisition.py:ei"]}
{"id": "C44", "title": "expected improvement matches its definition without jitter and is bounded below with it", "statement": "With jitter 0 and positive deviation ei equals the expectation E[max(best - f, 0)] formula, is non-negative, at least best - mean, decreasing in the mean and increasing in the deviation; with jitter j the value is at least -j * pdf(z).", "quantifier": "all real means, deviations and jitters", "why_tests_cant": "analytic over the reals", "anchors": ["bayeso/acquisition.py:ei"]}
{"id": "C45", "title": "upper confidence bound", "statement": "ucb equals -mean + k*std with k = kappa*log(n+1) when increase_kappa and responses are given and kappa otherwise; it is monotone in both arguments and in the number of responses.", "quantifier": "all means, deviations, kappas and response counts", "why_tests_cant": "for-all over reals and sizes", "anchors": ["bayeso/acquisition.py:ucb"]}
{"id": "C46", "title": "augmented expected improvement never exceeds expected improvement in magnitude", "statement": "For noise >= 0 (not both noise and deviation zero) |aei| <= |ei| with the same sign, with equality iff noise = 0 or ei = 0, and aei vanishes at zero deviation when noise > 0.", "quantifier": "all means, deviations, noises", "why_tests_cant": "analytic over the reals", "anchors": ["bayeso/acquisition.py:aei"]}
{"id": "C47", "title": "acquisition values keep the shape and are pointwise", "statement": "Each acquisition function returns one value per prediction, and value i depends only on mean[i], std[i] and the responses (through minimum or count); permuting predictions permutes values.", "quantifier": "all lengths and permutations", "why_tests_cant": "for-all over vectors", "anchors": ["bayeso/acquisition.py:pi", "bayeso/acquisition.py:ei", "bayeso/acquisition.py:ucb", "bayeso/acquisition.py:aei", "bayeso/acquisition.py:pure_exploit", "bayeso/acquisition.py:pure_explore"]}
{"id": "C48", "title": "tree leaves partition the bootstrap sample", "statement": "Every tree built by get_generic_trees / get_random_forest stores the bootstrap sample in its leaves without loss: each sample row sits in exactly one leaf (or twice, in both children, only at a degenerate node whose split separated nothing), and every leaf is non-empty.", "quantifier": "all samples with finite coordinates, all random choices of features and locations, all depth/leaf limits", "why_tests_cant": "quantifies over all random choices and data sets; recursion of any depth", "anchors": ["bayeso/trees/trees_common.py:_split", "bayeso/trees/trees_common.py:split", "bayeso/trees/trees_common.py:_split_left_right"]}
{"id": "C49", "title": "tree depth is bounded by depth_max", "statement": "Splitting terminates and no root-to-leaf path has more than max(1, depth_max) decision nodes.", "quantifier": "all data, random choices and limits", "why_tests_cant": "termination and depth over all executions", "anchors": ["bayeso/trees/trees_common.py:split"]}
{"id": "C50", "title": "size_min_leaf is respected", "statement": "No leaf smaller than size_min_leaf is created from a larger node.", "quantifier": "all data and random choices", "why_tests_cant": "quantifies over all executions", "anchors": ["bayeso/trees/trees_common.py:split"]}
{"id": "C51", "title": "a training row is predicted by the leaf that stores it", "statement": "Routing a stored input through the tree reaches a leaf that contains it: every sample in a left (right) subtree satisfies (violates) x[index] < value, and prediction follows the same test.", "quantifier": "all trees built by the code, all stored rows, finite coordinates", "why_tests_cant": "invariant of recursive construction", "anchors": ["bayeso/trees/trees_common.py:_predict_by_tree", "bayeso/trees/trees_common.py:split"]}
{"id": "C52", "title": "tree and forest predictions stay within the observed responses", "statement": "The predicted mean of every tree and of the forest lies between the smallest and largest training response, and predicted deviations are non-negative and at most the response range... in exact arithmetic.", "quantifier": "all inputs (also far outside the data), all trees built by the code", "why_tests_cant": "for-all over queries and trees", "anchors": ["bayeso/trees/trees_common.py:_predict_by_tree", "bayeso/trees/trees_common.py:_predict_by_trees", "bayeso/trees/trees_common.py:compute_sigma"]}
{"id": "C53", "title": "forest deviation is the law of total variance", "statement": "compute_sigma returns sqrt(mean(sigma_i^2) + variance(mu_i)) with sigma_i clipped below at min_sigma; the final clamp at zero never acts; it is at least min_sigma; it vanishes iff all trees agree with zero deviation.", "quantifier": "all real leaf means and deviations", "why_tests_cant": "algebraic identity", "anchors": ["bayeso/trees/trees_common.py:compute_sigma"]}
{"id": "C54", "title": "parallel forest prediction equals sequential prediction", "statement": "predict_by_trees returns, for any number of query rows and any completion order of the worker pool, exactly the rows of unit_predict_by_trees in the original order; every worker receives between 1 and 100 consecutive rows.", "quantifier": "all numbers of rows, all worker schedules", "why_tests_cant": "quantifies over schedules and sizes", "anchors": ["bayeso/trees/trees_common.py:predict_by_trees", "bayeso/trees/trees_common.py:unit_predict_by_trees"]}
{"id": "C55", "title": "bootstrap sampling keeps rows paired", "statement": "subsample returns int(n*ratio) rows, each an (x, y) pair of the data; without replacement the row indices are distinct.", "quantifier": "all data, ratios and random index draws", "why_tests_cant": "quantifies over random draws", "anchors": ["bayeso/trees/trees_common.py:subsample"]}
{"id": "C56", "title": "all samplers stay inside the search space", "statement": "get_samples / get_initials with uniform, gaussian, sobol or halton return the requested number of rows, each of the right dimension and inside range_X, in float64 arithmetic, for every random draw, provided upper - lower (and, for the Gaussian sampler, upper + lower) does not overflow.", "quantifier": "all float64 bounds with finite width, all unit-interval or Gaussian draws", "why_tests_cant": "floating-point rounding for every bound and draw", "anchors": ["bayeso/bo/base_bo.py:BaseBO.get_samples", "bayeso/bo/base_bo.py:BaseBO._get_samples_uniform", "bayeso/bo/base_bo.py:BaseBO._get_samples_gaussian", "bayeso/bo/base_bo.py:BaseBO._get_samples_sobol", "bayeso/bo/base_bo.py:BaseBO._get_samples_halton"]}
{"id": "C57", "title": "a BO run only grows the history", "statement": "optimize_with_all_initial_information(X, Y) returns X and Y with exactly num_iter more rows, the given rows unchanged as a prefix, and three time arrays of length num_iter.", "quantifier": "all targets, surrogate behaviours and iteration counts", "why_tests_cant": "loop invariant for any num_iter and any model behaviour", "anchors": ["bayeso/wrappers/wrappers_bo_class.py:BayesianOptimization.optimize_with_all_initial_information", "bayeso/wrappers/wrappers_bo_function.py:run_single_round_with_all_initial_information"]}
{"id": "C58", "title": "every returned response is the target at the returned input", "statement": "In the arrays returned by optimize / optimize_with_initial_inputs / run_single_round, row i of Y is the value the target returned for row i of X, and the target was called exactly num_init + num_iter times, in row order, with exactly those inputs.", "quantifier": "all (also stateful, noisy) targets, all surrogate behaviours, any num_init and num_iter", "why_tests_cant": "history property over all executions", "anchors": ["bayeso/wrappers/wrappers_bo_class.py:BayesianOptimization.optimize_with_initial_inputs", "bayeso/wrappers/wrappers_bo_function.py:run_single_round_with_initial_inputs"]}
{"id": "C59", "title": "failures of the target or the surrogate propagate", "statement": "If the target or the surrogate raises at any point of a run, the run raises that exception, no further target evaluation happens, and the evaluations made so far are exactly the rows before the failure.", "quantifier": "all crash points", "why_tests_cant": "quantifies over crash points", "anchors": ["bayeso/wrappers/wrappers_bo_class.py:BayesianOptimization.optimize_with_all_initial_information", "bayeso/wrappers/wrappers_bo_function.py:run_single_round_with_all_initial_information"]}
{"id": "C60", "title": "every new query is fresh or a forced repeat", "statement": "Each acquired row is not within 1e-8 of any earlier row, unless all candidates of that iteration were within 1e-8 of earlier rows, in which case the row before it is repeated.", "quantifier": "all surrogate behaviours and iterations", "why_tests_cant": "history property over all executions", "anchors": ["bayeso/wrappers/wrappers_bo_class.py:BayesianOptimization._get_next_best_sample", "bayeso/utils/utils_bo.py:get_next_best_acquisition"]}
{"id": "C61", "title": "every acquired point lies in the search space", "statement": "With in-bounds initial rows every row returned by a BO run is inside range_X, whatever the acquisition optimiser returns (out-of-bounds proposals raise instead of being evaluated).", "quantifier": "all optimiser behaviours", "why_tests_cant": "history property over all executions", "anchors": ["bayeso/bo/bo_w_gp.py:BOwGP.optimize", "bayeso/bo/bo_w_tp.py:BOwTP.optimize", "bayeso/bo/bo_w_trees.py:BOwTrees.optimize", "bayeso/wrappers/wrappers_bo_class.py:BayesianOptimization.optimize"]}
{"id": "C62", "title": "class wrapper and function wrapper agree", "statement": "For the GP surrogate, BayesianOptimization.optimize and run_single_round perform the same sequence of model and target calls and return the same arrays.", "quantifier": "all targets, model behaviours, num_init, num_iter", "why_tests_cant": "equivalence of two programs over all executions", "anchors": ["bayeso/wrappers/wrappers_bo_class.py:BayesianOptimization.optimize", "bayeso/wrappers/wrappers_bo_function.py:run_single_round"]}
{"id": "C63", "title": "the proposed point minimises the reported acquisition values", "statement": "BOwGP/BOwTP.optimize returns a point among dict_info['next_points'] that minimises the negative acquisition over them and dict_info['acquisitions'][i] is the value at next_points[i]; for BOwTrees likewise via argmin.", "quantifier": "all optimiser and surrogate behaviours", "why_tests_cant": "quantifies over oracle behaviours", "anchors": ["bayeso/bo/bo_w_gp.py:BOwGP.optimize", "bayeso/bo/bo_w_gp.py:BOwGP._optimize", "bayeso/bo/bo_w_trees.py:BOwTrees.optimize"]}
{"id": "C64", "title": "optimize reports original and normalised responses faithfully", "statement": "dict_info['Y_original'] is the given response array; dict_info['Y_normalized'] is its min-max normalisation iff normalize_Y (and, for GPs, the mlm method is not 'converged') and the same array otherwise; surrogate and acquisition both use the latter.", "quantifier": "all inputs, flags and modes", "why_tests_cant": "for-all over modes and data", "anchors": ["bayeso/bo/bo_w_gp.py:BOwGP.optimize", "bayeso/bo/bo_w_tp.py:BOwTP.optimize", "bayeso/bo/bo_w_trees.py:BOwTrees.optimize"]}
{"id": "C65", "title": "hyperparameter history grows by one per optimisation", "statement": "Each completed surrogate fit appends exactly one entry to historical_hyps, equal to dict_info['hyps'], and never changes earlier entries.", "quantifier": "all call sequences", "why_tests_cant": "history property over any number of calls", "anchors": ["bayeso/bo/bo_w_gp.py:BOwGP.optimize", "bayeso/bo/bo_w_tp.py:BOwTP.optimize"]}
{"id": "C66", "title": "converged mode freezes hyperparameters forever", "statement": "In 'converged' mode, once two consecutive fits are within the threshold, all later calls reuse the last hyperparameters without another optimisation, and the flag never returns to optimising.", "quantifier": "all call sequences of any length and all optimiser behaviours", "why_tests_cant": "temporal property over unbounded call sequences", "anchors": ["bayeso/bo/bo_w_gp.py:BOwGP.optimize", "bayeso/utils/utils_bo.py:check_hyps_convergence"]}
{"id": "C67", "title": "combined mode keeps the better of the two fits", "statement": "In 'combined' mode the kept covariance, inverse and hyperparameters come from the same fit, the one of BFGS and Nelder-Mead with the smaller negative log marginal likelihood (BFGS on ties, NaN never wins; if both are NaN or +inf nothing is kept).", "quantifier": "all optimiser outcomes", "why_tests_cant": "quantifies over optimiser behaviours and NaN", "anchors": ["bayeso/bo/bo_w_gp.py:BOwGP.optimize"]}
{"id": "C68", "title": "Thompson sampling queries the minimiser of the sampled function", "statement": "thompson_sampling_gp_iteration returns the candidate at which the sampled function is smallest.", "quantifier": "all samples and candidate sets", "why_tests_cant": "the draw is random; a test cannot observe the sampled function", "anchors": ["bayeso/thompson_sampling.py:thompson_sampling_gp_iteration", "bayeso/gp/gp.py:sample_functions"]}
{"id": "C69", "title": "Thompson sampling run bookkeeping", "statement": "thompson_sampling_gp returns num_init + num_iter rows, Y[i] is the target at X[i] called once per row in order, and all rows are among sampled candidates.", "quantifier": "all targets, samplers, iteration counts", "why_tests_cant": "history property over all executions", "anchors": ["bayeso/thompson_sampling.py:thompson_sampling_gp"]}
{"id": "C70", "title": "a seed makes a run reproducible", "statement": "BayesianOptimization.optimize(num_init, seed=s) returns the same arrays every time for the same deterministic target and s.", "quantifier": "all seeds and entropy sources", "why_tests_cant": "quantifies over operating-system entropy", "anchors": ["bayeso/wrappers/wrappers_bo_class.py:BayesianOptimization.optimize", "bayeso/bo/base_bo.py:BaseBO._get_random_state"]}
{"id": "C71", "title": "sampled functions have one row per sample", "statement": "gp.sample_functions / tp.sample_functions return arrays of shape (num_samples, n).", "quantifier": "all n >= 1 and num_samples", "why_tests_cant": "shape statement over all sizes", "anchors": ["bayeso/gp/gp.py:sample_functions", "bayeso/tp/tp.py:sample_functions"]}
{"id": "C72", "title": "array formatting keeps every entry in order", "statement": "get_str_array of a 1-, 2- or 3-dimensional array contains exactly the formatted entries in order, rows bracketed and separated so that the nesting can be read back uniquely (for entry formats without brackets or commas); other ranks raise NotImplementedError.", "quantifier": "all arrays of any size", "why_tests_cant": "for-all over arrays; injectivity", "anchors": ["bayeso/utils/utils_logger.py:get_str_array", "bayeso/utils/utils_logger.py:get_str_array_1d", "bayeso/utils/utils_logger.py:get_str_array_2d", "bayeso/utils/utils_logger.py:get_str_array_3d"]}
{"id": "C73", "title": "a log record is emitted once", "statement": "A message logged through the logger returned by get_logger(name) is written once, however many objects requested the same name.", "quantifier": "all sequences of get_logger calls", "why_tests_cant": "history property of global state", "anchors": ["bayeso/utils/utils_logger.py:get_logger"]}
{"id": "C74", "title": "growing and querying a forest never fails", "statement": "With at least one training row, 1 <= num_features <= number of columns, a bootstrap of at least one row and matching shapes, get_generic_trees and get_random_forest return num_trees trees, and predict_by_trees answers every query of the right width; no exception is possible, in exact arithmetic.", "quantifier": "all data, limits, ratios, all outcomes of the random choices, all queries and schedules", "why_tests_cant": "for-all over random choices along unbounded recursion", "anchors": ["bayeso/trees/trees_common.py:split", "bayeso/trees/trees_common.py:_split", "bayeso/trees/trees_common.py:predict_by_trees", "bayeso/trees/trees_generic_trees.py:get_generic_trees", "bayeso/trees/trees_random_forest.py:get_random_forest"]}
{"id": "C75", "title": "the split kept at a node is the best threshold", "statement": "When a node with at most 21 distinct values per drawn feature is split deterministically, the kept (feature, value) has the smallest sum of within-side response variances among all thresholds on the drawn features that leave rows on both sides (exact arithmetic); the stored left and right sides are those of that threshold.", "quantifier": "all samples, all drawn feature sets and draws of locations, all real thresholds", "why_tests_cant": "for-all over real thresholds and random draws", "anchors": ["bayeso/trees/trees_common.py:_split", "bayeso/trees/trees_common.py:_split_deterministic", "bayeso/trees/trees_common.py:mse", "bayeso/trees/trees_common.py:_mse", "bayeso/trees/trees_common.py:_split_left_right"]}
{"id": "C76", "title": "GP log likelihood gradient is consistent", "statement": "The gradient returned by gp_likelihood.neg_log_ml (Cholesky path) is, entry by entry in the order of convert_hyps, the derivative of the Gaussian formula in the hyperparameters; only the entry of the signal differs, by 1e-5/signal * (1/n) * sum_i ((K^-1)_ii - (K^-1 (Y-m))_i^2), because the covariance jitter is differentiated as if it were scaled by the signal.", "quantifier": "all data, base kernels, hyperparameters with nonzero signal and lengthscales", "why_tests_cant": "derivative identity", "anchors": ["bayeso/gp/gp_likelihood.py:neg_log_ml", "bayeso/covariance.py:grad_cov_main"]}
{"id": "C77", "title": "Student-t negative log likelihood equals the Student-t formula", "statement": "tp_likelihood.neg_log_ml returns minus the logarithm of the multivariate Student-t density with covariance K and nu degrees of freedom at Y-m, divided by n.", "quantifier": "all data, kernels and hyperparameters", "why_tests_cant": "identity for all inputs", "anchors": ["bayeso/tp/tp_likelihood.py:neg_log_ml"]}
{"id": "C78", "title": "prediction with optimised hyperparameters is prediction with the hyperparameters found", "statement": "predict_with_optimized_hyps (Gaussian and Student-t process) returns exactly what predict_with_hyps returns for the hyperparameters get_optimized_kernel finds on the same data, prior mean, kernel and optimiser.", "quantifier": "all data, kernels, optimisers, prior means", "why_tests_cant": "an equation between two API calls for every optimiser behaviour", "anchors": ["bayeso/gp/gp.py:predict_with_optimized_hyps", "bayeso/tp/tp.py:predict_with_optimized_hyps"]}
{"id": "C79", "title": "every optimiser name that is accepted can be used for prediction", "statement": "predict_with_optimized_hyps returns for every optimiser name its own check accepts, whenever the optimiser itself returns.", "quantifier": "all optimiser names, data sets, kernels", "why_tests_cant": "a failure deep in a callee; for-all over names and data", "anchors": ["bayeso/gp/gp.py:predict_with_optimized_hyps", "bayeso/tp/tp.py:predict_with_optimized_hyps"]}
{"id": "C80", "title": "the text of a hyperparameter dictionary can be read back", "statement": "get_str_hyps lists every key with its formatted value in order, and two dictionaries with the same text have the same keys and formatted values (for keys without quotes and entry formats without brackets, commas or newlines).", "quantifier": "all dictionaries of floats, arrays of rank 1-3 and other values", "why_tests_cant": "injectivity over all dictionaries", "anchors": ["bayeso/utils/utils_logger.py:get_str_hyps"]}
{"id": "C81", "title": "proposals follow the named acquisition of the fitted surrogate", "statement": "The acquisition values reported by optimize of BOwGP, BOwTP and BOwTrees are the negated values of the acquisition function named in the constructor, applied to the posterior mean and standard deviation that gp.predict_with_hyps, tp.predict_with_hyps or the trees give at the reported candidates for the reported hyperparameters, inputs and (normalised) responses; they do not depend on how the candidates are grouped into arrays, and BOwGP and BOwTP propose a candidate with the smallest reported value.", "quantifier": "all data sets, kernels, acquisitions, samplers, fits and local optimisers", "why_tests_cant": "relates two public APIs for every behaviour of the random and numerical oracles", "anchors": ["bayeso/bo/bo_w_gp.py:BOwGP.optimize", "bayeso/bo/bo_w_tp.py:BOwTP.optimize", "bayeso/bo/bo_w_trees.py:BOwTrees.optimize", "bayeso/bo/bo_w_gp.py:BOwGP.compute_acquisitions"]}
{"id": "C82", "title": "the unit of the responses does not matter when responses are normalised", "statement": "With normalize_Y=True, replacing every response y by a*y+b with a>0 changes neither the points a run evaluates, nor their order, nor the fits, nor any reported quantity other than the responses themselves.", "quantifier": "all positive a, all b, all targets, runs of any length, all oracles; responses of the initial points not all equal, mode other than converged, exact arithmetic", "why_tests_cant": "a relation between two whole runs for all targets and units", "anchors": ["bayeso/bo/bo_w_gp.py:BOwGP.optimize", "bayeso/bo/bo_w_tp.py:BOwTP.optimize", "bayeso/bo/bo_w_trees.py:BOwTrees.optimize", "bayeso/wrappers/wrappers_bo_class.py:BayesianOptimization.optimize", "bayeso/utils/utils_bo.py:normalize_min_max"]}
{"id": "C83", "title": "accepted options lead to a complete run", "statement": "Whenever BayesianOptimization accepts its arguments (any surrogate, base kernel, acquisition, samplers, optimisers, mode and model selection; leave-one-out selection of a common lengthscale in several dimensions aside), optimize(num_init, seed) returns num_init + num_iter inputs, all inside the search space, and as many responses; no combination of options raises.", "quantifier": "all accepted arguments, search spaces, targets defined on the search space, random draws, optimisers and timings; exact arithmetic; libraries that return when their arguments are valid", "why_tests_cant": "the product of all options, data and oracle behaviours cannot be enumerated", "anchors": ["bayeso/wrappers/wrappers_bo_class.py:BayesianOptimization.__init__", "bayeso/wrappers/wrappers_bo_class.py:BayesianOptimization.optimize", "bayeso/bo/bo_w_gp.py:BOwGP.optimize", "bayeso/bo/bo_w_tp.py:BOwTP.optimize", "bayeso/bo/bo_w_trees.py:BOwTrees.optimize"]}
{"id": "C84", "title": "every kernel the constructor accepts can be used in a run", "statement": "If BayesianOptimization accepts str_cov, then optimize completes with that kernel.", "quantifier": "all names in ALLOWED_COV, surrogates, modes, targets and data", "why_tests_cant": "a failure that only appears after the initial evaluations, for every data set", "anchors": ["bayeso/wrappers/wrappers_bo_class.py:BayesianOptimization.__init__", "bayeso/utils/utils_covariance.py:check_str_cov", "bayeso/gp/gp_kernel.py:get_optimized_kernel", "bayeso/tp/tp_kernel.py:get_optimized_kernel"]}
{"id": "C85", "title": "a run can be stopped and resumed", "statement": "Running n iterations and handing the returned inputs and responses to optimize_with_all_initial_information for m more iterations makes the same calls of the target and returns the same inputs and responses as one run of n + m iterations; with the same object in every mode, and with another object constructed with the same arguments.", "quantifier": "all n, m, data, settings and oracles that do not depend on how often the clock is read", "why_tests_cant": "relates three runs of any length for all targets and oracles", "anchors": ["bayeso/wrappers/wrappers_bo_class.py:BayesianOptimization.optimize", "bayeso/wrappers/wrappers_bo_class.py:BayesianOptimization.optimize_with_initial_inputs", "bayeso/wrappers/wrappers_bo_class.py:BayesianOptimization.optimize_with_all_initial_information", "bayeso/bo/bo_w_gp.py:BOwGP.optimize"]}
{"id": "C86", "title": "earlier use of an object does not influence later runs", "statement": "Two objects constructed with the same arguments behave alike in every later call, whatever was done with them before, and no call changes the settings of an object.", "quantifier": "all histories of use, data, targets and oracles", "why_tests_cant": "hidden state accumulates over all sequences of calls", "anchors": ["bayeso/wrappers/wrappers_bo_class.py:BayesianOptimization", "bayeso/bo/bo_w_gp.py:BOwGP.optimize", "bayeso/bo/bo_w_tp.py:BOwTP.optimize", "bayeso/bo/bo_w_trees.py:BOwTrees.optimize"]}
{"id": "C87", "title": "an object can be used any number of times", "statement": "After the constructor has accepted its arguments, any sequence of calls of optimize, optimize_with_initial_inputs and optimize_with_all_initial_information with sensible arguments returns from every call with a complete run: the given points plus num_iter further ones, all inside the search space, with a response for each.", "quantifier": "all sequences of calls of any length, all accepted options (as in C83), targets, data, random draws, optimisers and timings; exact arithmetic", "why_tests_cant": "hidden state after an unbounded number of calls", "anchors": ["bayeso/wrappers/wrappers_bo_class.py:BayesianOptimization", "bayeso/bo/bo_w_gp.py:BOwGP.optimize", "bayeso/bo/bo_w_tp.py:BOwTP.optimize", "bayeso/bo/bo_w_trees.py:BOwTrees.optimize"]}
{"id": "C88", "title": "comparison plots show the mean best values so far", "statement": "plot_minimum_vs_iter and plot_minimum_vs_time draw exactly one curve per experiment, in order, with its own label and cyclically chosen colour and marker; point j is the mean over the rounds of the smallest of the first num_init + j values, at x = j or at the mean time spent on the first j iterations, with a band of range_shade sample standard deviations around it if draw_std; the x limits enclose all points, and files are written exactly when a path and a postfix are given.", "quantifier": "all numbers of experiments, rounds and iterations, both layouts of the times, all values; 0 < num_init < number of values per round; exact arithmetic", "why_tests_cant": "figures of every size; tests do not look at figures at all", "anchors": ["bayeso/utils/utils_plotting.py:plot_minimum_vs_iter", "bayeso/utils/utils_plotting.py:plot_minimum_vs_time", "bayeso/utils/utils_common.py:get_minimum", "bayeso/utils/utils_common.py:get_time"]}
{"id": "C89", "title": "step plots mark every observation exactly once", "statement": "plot_bo_step and plot_bo_step_with_acq mark each training point exactly once and in order: the first num_init as initial, the last as the latest, the others as earlier acquisitions (all as initial if there are no others; negative num_init counts from the end); the mean curve and the band of range_shade deviations are those given, and the other two Gaussian-process plots draw each given curve once.", "quantifier": "all numbers of training and test points (at least one), all integers num_init up to the number of points and None, any arithmetic", "why_tests_cant": "slice arithmetic over all lengths and all integers, including negative ones", "anchors": ["bayeso/utils/utils_plotting.py:plot_bo_step", "bayeso/utils/utils_plotting.py:plot_bo_step_with_acq", "bayeso/utils/utils_plotting.py:plot_gp_via_distribution", "bayeso/utils/utils_plotting.py:plot_gp_via_sample"]}
{"id": "C90", "title": "arguments that pass the checks give a figure", "statement": "If plot_minimum_vs_iter accepts its arguments (it returns without complaint when matplotlib is missing), then it draws a figure when matplotlib is present.", "quantifier": "all arrays, labels and num_init", "why_tests_cant": "depends on all shapes and on num_init; the tests run without a display", "anchors": ["bayeso/utils/utils_plotting.py:plot_minimum_vs_iter", "bayeso/utils/utils_common.py:get_minimum"]}
{"id": "C91", "title": "the results of repeated runs can be plotted", "statement": "Whatever options the constructor has accepted, the responses and times returned by any number of calls of optimize(num_init, seed) on the object can be handed to plot_minimum_vs_time, which then draws the mean best value against the mean time, without error.", "quantifier": "all accepted options (as in C83), numbers of rounds, seeds, targets and oracles; exact arithmetic", "why_tests_cant": "composition of unboundedly many runs with the plotting code", "anchors": ["bayeso/wrappers/wrappers_bo_class.py:BayesianOptimization.optimize", "bayeso/utils/utils_plotting.py:plot_minimum_vs_time"]}
{"id": "C92", "title": "GP prediction is the best linear prediction", "statement": "At every test input the Gaussian process prediction is the prior mean plus a linear combination of the deviations of the observations from it, with weights that do not depend on the observations; the variance returned is the mean squared error of this combination (plus the jitter), every other choice of weights has a larger mean squared error, and the best weights are unique.", "quantifier": "all numbers of observations, inputs (points or sets, repetitions allowed), outputs, kernels, hyperparameters, prior means and competing weights; exact arithmetic", "why_tests_cant": "optimality is a statement about all possible linear predictors", "anchors": ["bayeso/gp/gp.py:predict_with_hyps", "bayeso/gp/gp.py:predict_with_cov", "bayeso/covariance.py:cov_main"]}
{"id": "C93", "title": "the units of the inputs do not matter when lengthscales follow", "statement": "Permuting the coordinates, rescaling each (in either direction) and shifting each, for training and test inputs alike, with the lengthscales permuted and rescaled accordingly, returns exactly the same means, deviations, covariances and marginal likelihood.", "quantifier": "all data sets, dimensions, permutations, non-zero scalings, shifts and non-zero lengthscales, points and sets; exact arithmetic", "why_tests_cant": "all data, dimensions and transformations", "anchors": ["bayeso/gp/gp.py:predict_with_hyps", "bayeso/gp/gp_likelihood.py:neg_log_ml", "bayeso/covariance.py:cov_main"]}
{"id": "C94", "title": "an observation updates the predictions by the Kalman formula", "statement": "Appending an observation y at an input where a prediction (mean mu, variance S) was made moves every predicted mean by its covariance with that input divided by S + noise^2, times y - mu, and reduces the covariances by the corresponding product; in particular an observation equal to its prediction changes no predicted mean and reduces the variance there.", "quantifier": "all data sets, test inputs, outputs and hyperparameters; exact arithmetic", "why_tests_cant": "relates two predictions for all data sets", "anchors": ["bayeso/gp/gp.py:predict_with_hyps", "bayeso/gp/gp.py:predict_with_cov"]}
{"id": "C95", "title": "likelihoods are products of predictive densities", "statement": "For the Gaussian and for the Student-t process, the (unnormalised) negative log likelihood of n + 1 observations is that of the first n plus minus the log of the predictive density of the last one; hence the Gaussian likelihood of a data set is the sum of the one-step-ahead predictive log densities.", "quantifier": "all data sets, kernels, hyperparameters, prior means; both variants (the default one up to an explicit term below 1e-7 / deviation); exact arithmetic", "why_tests_cant": "relates two separately implemented functions for all data sets", "anchors": ["bayeso/gp/gp_likelihood.py:neg_log_ml", "bayeso/tp/tp_likelihood.py:neg_log_ml", "bayeso/gp/gp.py:predict_with_hyps", "bayeso/tp/tp.py:predict_with_hyps"]}
{"id": "C96", "title": "predictions far from the data are those of the prior", "statement": "For every data set and tolerance there is a distance such that at test inputs further than that (in lengthscales) from all observations the predicted mean is within the tolerance of the prior mean and the variance within the tolerance of the prior variance (signal^2 for points).", "quantifier": "all data sets, kernels, hyperparameters, prior means, tolerances and test inputs; exact arithmetic", "why_tests_cant": "a limit over unboundedly distant inputs for all data sets", "anchors": ["bayeso/gp/gp.py:predict_with_hyps", "bayeso/covariance.py:cov_se", "bayeso/covariance.py:cov_matern32", "bayeso/covariance.py:cov_matern52"]}
{"id": "C97", "title": "normalised responses in floating point", "statement": "In binary64 arithmetic, for finite responses that are not all equal and whose differences do not overflow, normalize_min_max returns finite numbers of [0, 10] only, exactly 0 at the minimum, exactly 10 at the maximum, and never reverses the order of two responses; if all are equal it returns them unchanged.", "quantifier": "all lists of binary64 numbers of any length; rounding to nearest even at every operation", "why_tests_cant": "rounding behaviour for all arrays", "anchors": ["bayeso/utils/utils_bo.py:normalize_min_max"]}
{"id": "C98", "title": "random forests in floating point", "statement": "In binary64 arithmetic, growing a random forest on finite inputs and responses of magnitude at most 2^e (0 <= e <= 480) succeeds for all random draws, and all its predictions are finite: means of magnitude at most 2^e, deviations between 0 and 2^(e+2).", "quantifier": "all data sets of fewer than 2^53 rows, all queries, all random draws and all completion orders of the worker pool; rounding at every operation", "why_tests_cant": "overflow and NaN behaviour for all data and random draws", "anchors": ["bayeso/trees/trees_random_forest.py:get_random_forest", "bayeso/trees/trees_common.py:predict_by_trees", "bayeso/trees/trees_common.py:compute_sigma", "bayeso/trees/trees_common.py:split"]}
{"id": "C99", "title": "acquisition values in floating point", "statement": "In binary64 arithmetic, every acquisition function returns one finite number of magnitude at most 2^540 per query when the responses and predicted means have magnitude at most 2^480 and the predicted deviations are non-negative and at most 2^482, zero deviations included.", "quantifier": "all predictions and responses, all six acquisition functions that take predictions; rounding at every operation", "why_tests_cant": "overflow, division by zero and NaN behaviour for all predictions", "anchors": ["bayeso/acquisition.py:pi", "bayeso/acquisition.py:ei", "bayeso/acquisition.py:ucb", "bayeso/acquisition.py:aei", "bayeso/acquisition.py:pure_exploit", "bayeso/acquisition.py:pure_explore"]}
{"id": "C100", "title": "random forest runs complete in floating point", "statement": "In binary64 arithmetic, a run with the random forest surrogate that the constructor accepts returns after evaluating the target exactly num_init + num_iter times, with all inputs in the search space, provided the search space is finite and the target returns numbers of magnitude at most 2^480.", "quantifier": "all accepted options with surrogate rf, all targets, all random draws and samplers that stay in the search space, any number of iterations below 2^53", "why_tests_cant": "whole executions of any length, all overflow and NaN behaviour included", "anchors": ["bayeso/bo/bo_w_trees.py:BOwTrees.optimize", "bayeso/wrappers/wrappers_bo_class.py:BayesianOptimization.optimize", "bayeso/wrappers/wrappers_bo_class.py:BayesianOptimization.__init__"]}
{"id": "C101", "title": "kernel matrices are symmetric to the last bit", "statement": "In binary64 arithmetic, cov_main of an array with itself and the covariance matrices returned by get_kernel_inverse and get_kernel_cholesky equal their transposes exactly, whatever the exponential function computes, infinities and NaN included.", "quantifier": "all arrays, points and sets, hyperparameters, kernels and jitters; rounding at every operation", "why_tests_cant": "bitwise equality for all floating-point inputs", "anchors": ["bayeso/covariance.py:cov_main", "bayeso/covariance.py:get_kernel_inverse", "bayeso/covariance.py:get_kernel_cholesky"]}
{"id": "C102", "title": "predictive deviations in floating point", "statement": "In binary64 arithmetic, every standard deviation returned by GP and Student-t prediction is the correctly rounded square root of the corresponding diagonal entry of the returned covariance, entries that rounding made negative counting as zero; it is NaN only if that entry is NaN, never negative, and finite if the entry is.", "quantifier": "all data, kernels, hyperparameters, supplied covariances and inverses; rounding at every operation", "why_tests_cant": "rounding and NaN behaviour for all inputs", "anchors": ["bayeso/gp/gp.py:predict_with_cov", "bayeso/tp/tp.py:predict_with_cov"]}
{"id": "C103", "title": "the wrapper functions complete", "statement": "Any sequence of calls of run_single_round_with_all_initial_information, run_single_round_with_initial_inputs and run_single_round on one accepted BO object, each with its own valid arguments, returns, each call with its initial points followed by num_iter points of the search space and one response each.", "quantifier": "all call sequences of any length on one object, all targets and samplers, all base kernels, acquisition functions and optimisers", "why_tests_cant": "whole executions of any length sharing the state of one object", "anchors": ["bayeso/wrappers/wrappers_bo_function.py:run_single_round_with_all_initial_information", "bayeso/wrappers/wrappers_bo_function.py:run_single_round_with_initial_inputs", "bayeso/wrappers/wrappers_bo_function.py:run_single_round"]}
{"id": "C104", "title": "run_single_round rejects unusable options before evaluating the target", "statement": "run_single_round called with an unknown sampling method, initialising method, mode of model selection, or a non-positive number of samples raises before the target is evaluated.", "quantifier": "all objects, all option values, all targets", "why_tests_cant": "counts the effects on the target before the exception, for all option values", "anchors": ["bayeso/wrappers/wrappers_bo_function.py:run_single_round", "bayeso/bo/bo_w_gp.py:BOwGP.optimize"]}
{"id": "C105", "title": "Thompson sampling runs complete", "statement": "thompson_sampling_gp with at least one initial point and at least two candidates per iteration returns num_init + num_iter points of the search space and one response each; with a single candidate per iteration no run with an iteration returns: IndexError after the num_init initial evaluations.", "quantifier": "all targets, samplers, draws, responses and numbers of iterations", "why_tests_cant": "whole executions of any length with random draws", "anchors": ["bayeso/thompson_sampling.py:thompson_sampling_gp", "bayeso/thompson_sampling.py:thompson_sampling_gp_iteration"]}
{"id": "C106", "title": "the units of the inputs do not matter to trees and forests", "statement": "With the same random numbers, changing the unit of each input coordinate (any offset, any positive factor) and the zero of the responses grows the same trees with tests, leaves and bootstrap samples converted, fails in the same cases, and predicts the converted values at converted queries (for predictions, any positive unit of the responses).", "quantifier": "all data, all units, all random draws, any number of trees and queries, any completion order of the worker pool; exact arithmetic", "why_tests_cant": "relates two executions for all data, draws and units", "anchors": ["bayeso/trees/trees_common.py:split", "bayeso/trees/trees_common.py:_split_deterministic", "bayeso/trees/trees_common.py:_split_random", "bayeso/trees/trees_generic_trees.py:get_generic_trees", "bayeso/trees/trees_random_forest.py:get_random_forest", "bayeso/trees/trees_common.py:predict_by_trees"]}
{"id": "C107", "title": "the unit of the responses does not matter to trees and forests", "statement": "With the same random numbers, multiplying all responses by a positive factor grows the same trees with the responses in their leaves multiplied.", "quantifier": "all data, all positive factors, all random draws; exact arithmetic", "why_tests_cant": "relates two executions for all data, draws and factors", "anchors": ["bayeso/trees/trees_common.py:_mse", "bayeso/trees/trees_common.py:mse", "bayeso/trees/trees_common.py:_split", "bayeso/trees/trees_random_forest.py:get_random_forest"]}
{"id": "C108", "title": "Student-t predictions depend only on the data", "statement": "Student-t prediction does not change when the observations are reordered (inputs and responses together), when other test points are added or removed, or when the coordinates are permuted, rescaled and shifted together with the lengthscales; far from all observations the mean is the prior mean and the variance the prior variance times (dof + beta - 2) / (dof + n - 2).", "quantifier": "all data sets, permutations, selections of test points, units and kernels, points and sets; exact arithmetic", "why_tests_cant": "equalities of real functions for all data sets; a limit", "anchors": ["bayeso/tp/tp.py:predict_with_hyps", "bayeso/tp/tp.py:predict_with_cov"]}
{"id": "C109", "title": "an observation updates Student-t predictions by a scaled Kalman formula", "statement": "Adding one observation y at a test point with predicted mean mu and variance v (noise included) raises the degrees of freedom by 1, moves every mean by gain times (y - mu), and multiplies the reduced covariance by (dof - 2 + (y - mu)^2 / v) / (dof - 1), dof being the returned degrees of freedom.", "quantifier": "all data sets, test points, observations and kernels, points and sets; exact arithmetic", "why_tests_cant": "an identity of real functions for all data sets", "anchors": ["bayeso/tp/tp.py:predict_with_hyps", "bayeso/tp/tp.py:predict_with_cov"]}
{"id": "C110", "title": "more data never increases the uncertainty of a Student-t process", "statement": "Adding an observation never increases a predicted standard deviation of tp.predict_with_hyps with the same hyperparameters.", "quantifier": "all data sets, test points and observations; exact arithmetic", "why_tests_cant": "an inequality of real functions for all data sets", "anchors": ["bayeso/tp/tp.py:predict_with_hyps", "bayeso/tp/tp.py:predict_with_cov"]}
{"id": "C111", "title": "likelihoods do not depend on the order of the observations", "statement": "Permuting inputs, responses and prior means together changes neither the Gaussian negative log marginal likelihood, nor the Student-t one, nor the leave-one-out pseudo-likelihood.", "quantifier": "all data sets, permutations, kernels, hyperparameters and prior means; exact arithmetic", "why_tests_cant": "all permutations of all data sets; the default computation differs by less than test tolerances", "anchors": ["bayeso/gp/gp_likelihood.py:neg_log_ml", "bayeso/gp/gp_likelihood.py:neg_log_pseudo_l_loocv", "bayeso/tp/tp_likelihood.py:neg_log_ml"]}
{"id": "C112", "title": "chosen hyperparameters fit at least as well as the defaults", "statement": "get_optimized_kernel starts the optimiser from the default hyperparameters; if the optimiser never returns a worse point than its start, the criterion (marginal likelihood, leave-one-out pseudo-likelihood, Student-t likelihood) at the returned dictionary is at most its value at the defaults, and both values exist. Nothing done to the outcome of the optimiser (decoding, validation) spoils this.", "quantifier": "all data sets, kernels, flags, prior means and optimisers that descend; exact arithmetic", "why_tests_cant": "all optimisers and data sets; the objective is only visible inside the function", "anchors": ["bayeso/gp/gp_kernel.py:get_optimized_kernel", "bayeso/tp/tp_kernel.py:get_optimized_kernel", "bayeso/utils/utils_covariance.py:get_hyps", "bayeso/utils/utils_covariance.py:restore_hyps"]}
{"id": "C113", "title": "what is recorded is what was evaluated, whatever the target does to its argument or result", "statement": "A run reports the inputs the target was called with and the values it returned at the time, also if the target overwrites the array it is given or returns an array it changes later (a reused buffer).", "quantifier": "all targets, worlds, numbers of initial inputs and iterations, with reals or binary64", "why_tests_cant": "tests use targets without side effects; quantifies over all programs", "anchors": ["bayeso/wrappers/wrappers_bo_class.py:optimize_with_initial_inputs", "bayeso/wrappers/wrappers_bo_class.py:optimize_with_all_initial_information", "bayeso/wrappers/wrappers_bo_function.py:run_single_round_with_initial_inputs", "bayeso/thompson_sampling.py:thompson_sampling_gp"]}
{"id": "C114", "title": "expected improvement rewards low means and high deviations with the jitter the code uses", "statement": "With the default jitter, of two predictions the one with the smaller or equal mean and the larger or equal deviation has the larger or equal value of ei and aei (strictly larger for ei if one of the two is strict); pi grows with the deviation above the best response and falls with it below.", "quantifier": "all real means, non-negative deviations, responses and positive jitters", "why_tests_cant": "analytic over the reals; the exceptions lie at deviations near zero, where random forests often are", "anchors": ["bayeso/acquisition.py:ei", "bayeso/acquisition.py:aei", "bayeso/acquisition.py:pi"]}
{"id": "C115", "title": "the unit of the responses does not matter when signal, noise and prior mean follow it", "statement": "If the responses are multiplied by c and shifted by b, and signal, noise and prior mean are converted accordingly, then predicted means are multiplied by c and shifted by b, deviations multiplied by |c|, covariances by c^2, and the negative log likelihood per observation changes by ln |c| only.", "quantifier": "all data sets, kernels, hyperparameters, non-zero factors and shifts", "why_tests_cant": "a relation between runs with different units; fixed-size jitters break it by amounts below usual tolerances", "anchors": ["bayeso/gp/gp.py:predict_with_hyps", "bayeso/tp/tp.py:predict_with_hyps", "bayeso/gp/gp_likelihood.py:neg_log_ml", "bayeso/tp/tp_likelihood.py:neg_log_ml", "bayeso/covariance.py:get_kernel_inverse"]}
{"id": "C116", "title": "order survives rounding", "statement": "In binary64, the time axis of get_time never decreases for non-negative times, the mean curve of get_minimum never increases for finite responses (even when sums overflow), and of two predictions the one with smaller or equal mean and larger or equal deviation has the larger or equal value of ucb, pure_exploit and pure_explore, and of pi for equal deviations.", "quantifier": "all binary64 arrays of times (infinity allowed), finite responses, and predictions of moderate magnitude", "why_tests_cant": "rounding could break the order for particular inputs only; overflow is rarely tested", "anchors": ["bayeso/utils/utils_common.py:get_time", "bayeso/utils/utils_common.py:get_minimum", "bayeso/acquisition.py:pi", "bayeso/acquisition.py:ucb", "bayeso/acquisition.py:pure_exploit", "bayeso/acquisition.py:pure_explore"]}
{"id": "C117", "title": "Thompson sampling retries with growing jitter", "statement": "A function is sampled from the posterior at the candidates with the first of the diagonal jitters 0, 1e-4, 1e-2, 1, 10, 100, 1000, 10000 for which the sampler does not raise ValueError; earlier attempts leave no trace but random state, other exceptions propagate at once, and ValueError is raised when all fail.", "quantifier": "all posteriors, samplers and random states", "why_tests_cant": "the retry path needs a sampler that fails on chosen covariances; scipy rarely does", "anchors": ["bayeso/thompson_sampling.py:thompson_sampling_gp_iteration", "bayeso/gp/gp.py:sample_functions"]}
{"id": "C118", "title": "plots reject wrong shapes before drawing", "statement": "Every plotting function raises AssertionError, without drawing anything and whether or not matplotlib is present, exactly for arguments whose shapes do not fit together (columns of equal length, one label per experiment, at most as many initial points as points).", "quantifier": "all arrays, labels and numbers of initial points", "why_tests_cant": "the set of ill-shaped arguments is unbounded; what was drawn before a failure is not observed", "anchors": ["bayeso/utils/utils_plotting.py:plot_gp_via_sample", "bayeso/utils/utils_plotting.py:plot_gp_via_distribution", "bayeso/utils/utils_plotting.py:plot_minimum_vs_iter", "bayeso/utils/utils_plotting.py:plot_minimum_vs_time", "bayeso/utils/utils_plotting.py:plot_bo_step", "bayeso/utils/utils_plotting.py:plot_bo_step_with_acq"]}
{"id": "C119", "title": "uncertainty is small near measured inputs", "statement": "After k measurements of one input among any others, the returned variance at an input is at most the variance of the difference of the function values at the two inputs under the kernel, plus (noise^2 + jitter)/k, plus the jitter; at the measured input itself at most (noise^2 + jitter)/k + jitter; for kernels on points, at scaled distance r, at most signal^2 c r^2 + (noise^2 + jitter)/k + jitter with c = 1, 3 or 5/3 for se, matern32 and matern52.", "quantifier": "all kernels, hyperparameters, training sets, test inputs and numbers of repetitions", "why_tests_cant": "a bound over all data sets; tests compare a few predictions with stored numbers", "anchors": ["bayeso/gp/gp.py:predict_with_hyps", "bayeso/gp/gp.py:predict_with_cov", "bayeso/covariance.py:cov_main"]}
{"id": "C120", "title": "predictions change slowly with the input", "statement": "The predicted mean, less the prior mean, moves between two inputs by at most the square root of (kernel variance of the difference) times (sum of squared deviations of the responses from the prior mean) over (noise^2 + jitter), and is itself at most the same with the prior variance; the standard deviation moves by at most the kernel deviation of the difference.  For kernels on points both are Lipschitz in the scaled distance.", "quantifier": "all kernels, hyperparameters, training sets and pairs of test inputs", "why_tests_cant": "a modulus of continuity over all data sets cannot be sampled", "anchors": ["bayeso/gp/gp.py:predict_with_hyps", "bayeso/gp/gp.py:predict_with_cov", "bayeso/covariance.py:cov_main"]}
{"id": "C121", "title": "forests use the order of the inputs only", "statement": "If every input coordinate is replaced by a strictly increasing function of it (logarithm, rank), the same random numbers grow, with deterministic splits, trees with the same tests on the same coordinates, the same rows in the same leaves, and the same predictions at the rows they were grown from; failures are the same too.  At other inputs predictions may change.", "quantifier": "all data sets, strictly increasing functions, random choices and forest parameters", "why_tests_cant": "a relation between runs on different data; no finite set of data and functions covers it", "anchors": ["bayeso/trees/trees_random_forest.py:get_random_forest", "bayeso/trees/trees_generic_trees.py:get_generic_trees", "bayeso/trees/trees_common.py:_split_deterministic", "bayeso/trees/trees_common.py:predict_by_trees"]}
{"id": "C122", "title": "the posterior mean is a penalised least squares fit", "statement": "For every data set the predicted mean is, at every input, the prior mean plus one fixed combination of kernel functions centred at the measured inputs, and that combination minimises the sum of squared errors at the measured inputs plus (noise^2 + jitter) times the squared kernel norm among all combinations; any other minimiser is the same function.", "quantifier": "all kernels, hyperparameters, training sets, responses, competing combinations and test inputs", "why_tests_cant": "optimality over infinitely many competitors; tests compare predictions with stored numbers", "anchors": ["bayeso/gp/gp.py:predict_with_hyps", "bayeso/gp/gp.py:predict_with_cov", "bayeso/covariance.py:get_kernel_inverse"]}
{"id": "C123", "title": "repeated measurements count through their totals", "statement": "Predictions (means, deviations and covariances) do not change when responses measured at equal inputs are exchanged, averaged or otherwise redistributed, as long as for every input the total of its responses stays the same.", "quantifier": "all kernels, hyperparameters, training sets with any repetitions, and redistributions", "why_tests_cant": "a relation between two data sets with arbitrary multiplicities", "anchors": ["bayeso/gp/gp.py:predict_with_hyps", "bayeso/gp/gp.py:predict_with_cov"]}
{"id": "C124", "title": "only mutual distances of the inputs matter", "statement": "If training and test inputs are replaced by others (possibly of another dimension, with other lengthscales) that have the same mutual scaled distances, then predictions and likelihood stay the same.  In particular, with one lengthscale, rotations and reflections of the inputs change nothing, and a coordinate that has the same value everywhere may be dropped together with its lengthscale.", "quantifier": "all kernels on points and sets, hyperparameters, training and test inputs", "why_tests_cant": "a relation between runs on different inputs; tests use one set of inputs at a time", "anchors": ["bayeso/gp/gp.py:predict_with_hyps", "bayeso/gp/gp_likelihood.py:neg_log_ml", "bayeso/covariance.py:cov_main"]}
{"id": "C125", "title": "proposals of the forest surrogate do not depend on the units of the inputs", "statement": "Express every coordinate of the search space in other units (an offset and a positive factor, e.g. Celsius to Fahrenheit), bounds and evaluated points alike.  Then, with the same random numbers, every sampler returns the same candidates in the new units, and BOwTrees.optimize grows the same forest, computes the same acquisition values and proposes the same next point in the new units; failures are the same as well.", "quantifier": "all dimensions, units, search spaces, data sets, samplers, sample counts, seeds, acquisition functions and random draws; exact arithmetic", "why_tests_cant": "a relation between two calls for all units and data; tests run with one set of units", "anchors": ["bayeso/bo/base_bo.py:get_samples", "bayeso/bo/base_bo.py:_get_samples_grid", "bayeso/bo/base_bo.py:_get_samples_sobol", "bayeso/bo/bo_w_trees.py:optimize", "bayeso/trees/trees_random_forest.py:get_random_forest"]}
{"id": "C126", "title": "whole runs with forests do not depend on the units of the inputs", "statement": "BayesianOptimization(..., str_surrogate='rf') in other units of the inputs (an offset and a positive factor per coordinate), with the target reading the new units, evaluates the same points in the new units, in the same order, with the same responses, and returns the same arrays in the new units.", "quantifier": "all dimensions, units, search spaces, options, numbers of rounds, targets and random draws; exact arithmetic", "why_tests_cant": "a relation between two whole runs; whether it holds depends on absolute tolerances inside the loop that tests on unit cubes never meet", "anchors": ["bayeso/wrappers/wrappers_bo_class.py:optimize", "bayeso/wrappers/wrappers_bo_class.py:_get_next_best_sample", "bayeso/utils/utils_bo.py:get_next_best_acquisition"]}
{"id": "C127", "title": "whole runs with any surrogate do not depend on the origin of the inputs", "statement": "Measure every coordinate of the search space from another origin, bounds, evaluated points, target, prior mean and (box-constrained) optimisers alike.  Then BOwGP.optimize and BOwTP.optimize fit the same hyperparameters, store the same covariance matrices, compute the same acquisition values and propose the same candidates and next point relative to the new origin; a whole BayesianOptimization run with any surrogate, kernel, acquisition function, optimiser and mode evaluates and returns the same points relative to the new origin with the same responses, and fails exactly when the original does, in the same way.", "quantifier": "all dimensions, origins, search spaces, options, numbers of rounds, targets, random draws, and all linear algebra and optimisation routines that themselves do not depend on the origin; exact arithmetic", "why_tests_cant": "a relation between two whole runs for all origins and all options", "anchors": ["bayeso/bo/bo_w_gp.py:optimize", "bayeso/bo/bo_w_tp.py:optimize", "bayeso/bo/base_bo.py:get_samples", "bayeso/wrappers/wrappers_bo_class.py:optimize", "bayeso/covariance.py:cov_main"]}
{"id": "C128", "title": "confidence bands hold for functions of the kernel's space", "statement": "If the target less the prior mean is in the kernel's function space with norm at most B (for instance a combination of kernel functions), then at every test input the target lies within sqrt(B^2 + total squared measurement error / noise) deviations of the mean returned by predict_with_hyps, and within B deviations if the measurements are exact.", "quantifier": "all kernels, hyperparameters, training and test inputs, targets of the space, measurement errors of any kind; exact arithmetic", "why_tests_cant": "a bound over an infinite-dimensional class of functions and all data sets; a test checks a few predictions", "anchors": ["bayeso/gp/gp.py:predict_with_hyps", "bayeso/gp/gp.py:predict_with_cov", "bayeso/covariance.py:cov_main"]}
{"id": "C129", "title": "pure exploration resolves the whole search space", "statement": "If each evaluated point maximises the pure_explore acquisition value over the search space up to delta, then for every eps > 0 there is a number of rounds, independent of the target and of the choices, after which every deviation predicted in the search space is at most sqrt(jitter + eps) + delta, for all later rounds; for targets of the kernel's space with norm at most B, predicted means are then within B sqrt((sqrt(jitter + eps) + delta)^2 - jitter) of the target, and the point with the least predicted mean is within twice that of the best one.", "quantifier": "all kernels on points, hyperparameters, search spaces, targets, starts and choices; exact arithmetic, fixed hyperparameters", "why_tests_cant": "a statement about the limit of infinitely many rounds for all possible choices", "anchors": ["bayeso/acquisition.py:pure_explore", "bayeso/bo/bo_w_gp.py:compute_acquisitions", "bayeso/gp/gp.py:predict_with_cov"]}
{"id": "C130", "title": "following the upper confidence bound finds the minimum of every function of the kernel's space", "statement": "If each evaluated point maximises the ucb acquisition value over the search space up to delta, and the target less the prior mean has norm at most B in the kernel's space, then for every eps > 0 there is a number of rounds, which depends on B and eps but not on the target or the choices, within which a point is evaluated whose value is at most the minimum over the search space plus eps + delta; B need not be known.", "quantifier": "all kernels on points, hyperparameters, search spaces, targets of the space, starts and choices; exact arithmetic, exact measurements, fixed hyperparameters", "why_tests_cant": "a convergence theorem over infinitely many rounds and an infinite-dimensional class of targets; tests run a few rounds on a few targets", "anchors": ["bayeso/acquisition.py:ucb", "bayeso/bo/bo_w_gp.py:compute_acquisitions", "bayeso/bo/base_bo.py:get_samples", "bayeso/gp/gp.py:predict_with_cov"]}
{"id": "C131", "title": "reported times are durations that fit into each other", "statement": "If the clock is not turned back, every entry of the times returned by a run is non-negative, the surrogate time and the acquisition time of a round are at least what the fit and the sampler took, and together with the evaluation of the target they do not exceed the time of that round, there is one entry per round, and all initial evaluations and rounds together do not exceed the time the run took; time_overall of each model's dictionary covers its surrogate and acquisition times.", "quantifier": "all options, surrogates, targets, numbers of rounds, and all durations of all library calls; exact arithmetic", "why_tests_cant": "a relation between clock readings at many points of the program for all durations; tests cannot control the clock", "anchors": ["bayeso/wrappers/wrappers_bo_class.py:optimize", "bayeso/wrappers/wrappers_bo_function.py:run_single_round", "bayeso/bo/bo_w_gp.py:optimize", "bayeso/bo/bo_w_tp.py:optimize", "bayeso/bo/bo_w_trees.py:optimize"]}
{"id": "C132", "title": "measurement errors are damped", "statement": "If the responses are changed by a vector of Euclidean length r, every predicted mean changes by at most s/(2 sqrt(noise^2 + jitter)) r, however many points were measured and wherever they lie, and no predicted deviation changes; the factor cannot be improved.", "quantifier": "all kernels on points and sets, hyperparameters, prior means, training and test inputs, responses; exact arithmetic, fixed hyperparameters", "why_tests_cant": "a bound uniform in the number and position of the inputs; tests sample a few data sets", "anchors": ["bayeso/gp/gp.py:predict_with_cov", "bayeso/gp/gp.py:predict_with_hyps", "bayeso/covariance.py:cov_main"]}
{"id": "C133", "title": "the flag for debug messages changes nothing but the log", "statement": "A run of BayesianOptimization with debug=True has the same effects on the world (calls of the target, draws, clock readings, in the same order), returns the same arrays and writes the same records above the level DEBUG as the same run with debug=False, except for the line that reports the flag; if it fails, it fails at the same point, where the exception may differ only if no candidate is left to fall back on. Without the flag, a completed run logs exactly the warnings of the constructor, the options of print_info, and one 'Iteration n' per round, in this order and from the logger of the surrogate, and a run interrupted by an exception logs a beginning of this.", "quantifier": "all options, surrogates, targets, numbers of rounds, outcomes of all library calls, number formats; any arithmetic", "why_tests_cant": "an equivalence of two versions of the whole program for all inputs; tests only use the default flag or ignore the log", "anchors": ["bayeso/wrappers/wrappers_bo_class.py:optimize", "bayeso/wrappers/wrappers_bo_class.py:print_info", "bayeso/wrappers/wrappers_bo_class.py:_get_next_best_sample", "bayeso/bo/bo_w_gp.py:optimize", "bayeso/gp/gp_kernel.py:get_optimized_kernel", "bayeso/utils/utils_bo.py:check_optimizer_method_bo"]}
{"id": "C134", "title": "regression accepts only data that fit together, and results have the announced shapes", "statement": "Every prediction function of gp and tp returns only if there is one response per input, the kernel is one on points for two-dimensional inputs and one on sets for three-dimensional inputs, training and test inputs have points of the same dimension, and the prior mean function has one value per input; mean and deviation then have shape (l, 1) and the covariance shape (l, l) for l test inputs. The kernels fitted by get_optimized_kernel have shape (n, n) and come with what np.linalg.inv returned for them. The three likelihood functions return only if inputs, responses and prior means have the same number of rows.", "quantifier": "all inputs of any shape, one-column responses, kernels, hyperparameters, prior mean functions, optimisers, and any results of np.linalg.inv; any arithmetic", "why_tests_cant": "all combinations of shapes and options; tests try a few wrong shapes", "anchors": ["bayeso/gp/gp.py:predict_with_cov", "bayeso/gp/gp.py:predict_with_hyps", "bayeso/gp/gp.py:predict_with_optimized_hyps", "bayeso/tp/tp.py:predict_with_cov", "bayeso/gp/gp_kernel.py:get_optimized_kernel", "bayeso/tp/tp_kernel.py:get_optimized_kernel", "bayeso/gp/gp_likelihood.py:neg_log_ml", "bayeso/tp/tp_likelihood.py:neg_log_ml", "bayeso/utils/utils_gp.py:validate_common_args"]}
{"id": "C135", "title": "the debug flag and the log of the functions that run a BOwGP object", "statement": "Any sequence of calls of run_single_round, run_single_round_with_initial_inputs and run_single_round_with_all_initial_information on a BOwGP object created with debug=True has the same effects on the object and the world, the same records above the level DEBUG and the same results as on one created with debug=False; if a call fails, it fails at the same point, where the exception may differ only if no candidate is left to fall back on. Without the flag, each completed call of run_single_round logs the options of the object and of the call followed by one 'Iteration n' per round, the other two log only the latter, and a sequence interrupted by an exception logs a beginning of this.", "quantifier": "all BOwGP objects and their states, sequences of calls, arguments, targets, outcomes of all library calls, number formats; any arithmetic", "why_tests_cant": "an equivalence of two versions of the functions for all inputs and histories of one object; tests ignore the log", "anchors": ["bayeso/wrappers/wrappers_bo_function.py:run_single_round", "bayeso/wrappers/wrappers_bo_function.py:run_single_round_with_initial_inputs", "bayeso/wrappers/wrappers_bo_function.py:run_single_round_with_all_initial_information", "bayeso/bo/bo_w_gp.py:optimize"]}
{"id": "C136", "title": "measurement errors and the Student-t process", "statement": "If the responses are changed by a vector of Euclidean length r, every mean predicted by a Student-t process changes by at most s/(2 sqrt(noise^2 + jitter)) r and every deviation by at most sqrt((s^2 + jitter)/((noise^2 + jitter)(nu + n - 2))) r, wherever the n points lie. Every deviation lies between sqrt((nu-2)/(nu+n-2)) and sqrt((nu - 2 + D/(noise^2 + jitter))/(nu + n - 2)) times that of the Gaussian process with the same hyperparameters, where D is the sum of the squared deviations of the responses from the prior mean.", "quantifier": "all kernels on points and sets, hyperparameters with nu > 2, prior means, training and test inputs, responses; exact arithmetic, fixed hyperparameters", "why_tests_cant": "bounds uniform in the position of the inputs and in the responses; tests sample a few data sets", "anchors": ["bayeso/tp/tp.py:predict_with_cov", "bayeso/tp/tp.py:predict_with_hyps", "bayeso/gp/gp.py:predict_with_hyps"]}
{"id": "C137", "title": "what the deviations of a Student-t process say about the target", "statement": "If the responses are exact values of a function whose difference from the prior mean has norm at most B in the kernel's space, its value at every test input differs from the predicted mean by at most B sqrt((nu+n-2)/(nu-2)) predicted deviations. The deviations themselves are at most sqrt((nu-2+B^2)(s^2+jitter)/(nu+n-2)) at every input, so they fall below any bound everywhere, whether or not anything was measured nearby; unlike for a Gaussian process, a small deviation does not mean that a measurement was made near. Between two inputs, mean and deviation move at most by multiples of the kernel's distance of the inputs.", "quantifier": "all kernels on points and sets, hyperparameters with nu > 2, prior means, training and test inputs, targets of the space; exact arithmetic, fixed hyperparameters", "why_tests_cant": "a bound over an infinite-dimensional class of targets and all designs; tests sample a few", "anchors": ["bayeso/tp/tp.py:predict_with_cov", "bayeso/tp/tp.py:predict_with_hyps"]}
{"id": "C138", "title": "proposals are robust against measurement errors", "statement": "If the responses of a Gaussian process surrogate with given hyperparameters are changed by a vector of Euclidean length r, every value of the acquisition functions ucb and pure_exploit changes by at most c = s/(2 sqrt(noise^2 + jitter)) r and no value of pure_explore changes at all; hence a candidate that is the best up to delta for the changed responses is the best up to delta + 2c for the original ones.", "quantifier": "all kernels on points, hyperparameters, prior means, data, candidates; exact arithmetic, fixed hyperparameters, responses not normalised", "why_tests_cant": "a bound uniform in the data, the errors and the candidates; tests do not perturb responses", "anchors": ["bayeso/bo/bo_w_gp.py:compute_acquisitions", "bayeso/acquisition.py:ucb", "bayeso/acquisition.py:pure_exploit", "bayeso/acquisition.py:pure_explore", "bayeso/gp/gp.py:predict_with_cov"]}
{"id": "C139", "title": "proposals of the Student-t surrogate are robust against measurement errors", "statement": "If the responses of a Student-t process surrogate with given hyperparameters and n measurements are changed by a vector of Euclidean length r, every value of pure_exploit changes by at most cm = s/(2 sqrt(noise^2 + jitter)) r, every value of pure_explore by at most cs = sqrt((s^2 + jitter)/((noise^2 + jitter)(nu + n - 2))) r, and every value of ucb by at most cm + 2 ln(n + 1) cs; hence a candidate that is the best up to delta for the changed responses is the best for the original ones up to delta plus twice that bound.", "quantifier": "all kernels on points, hyperparameters with nu > 2, prior means, data, candidates; exact arithmetic, fixed hyperparameters, responses not normalised", "why_tests_cant": "a bound uniform in the data, the errors and the candidates; tests do not perturb responses", "anchors": ["bayeso/bo/bo_w_tp.py:compute_acquisitions", "bayeso/acquisition.py:ucb", "bayeso/acquisition.py:pure_exploit", "bayeso/acquisition.py:pure_explore", "bayeso/tp/tp.py:predict_with_cov"]}
