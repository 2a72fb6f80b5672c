{
 "claims": [
  {
   "property": "C01",
   "status": "proved",
   "theorems": [
    "get_minimum_running_best",
    "get_minimum_never_increases",
    "get_minimum_accepts"
   ],
   "note": "any num_init < t including negative ones (Python slicing); any carrier with NaN semantics, in particular binary64"
  },
  {
   "property": "C02",
   "status": "proved",
   "theorems": [
    "get_minimum_statistics"
   ],
   "note": "exact reals"
  },
  {
   "property": "C03",
   "status": "proved",
   "theorems": [
    "get_time_mean_cumulative"
   ],
   "note": "exact reals; length is t'+1, one more than the docstring says"
  },
  {
   "property": "C04",
   "status": "proved",
   "theorems": [
    "plot_axes_same_length"
   ],
   "note": ""
  },
  {
   "property": "C05",
   "status": "proved",
   "theorems": [
    "get_grids_cartesian",
    "grid_values_equally_spaced",
    "get_grids_accepts"
   ],
   "note": ""
  },
  {
   "property": "C06",
   "status": "proved",
   "theorems": [
    "get_grids_stays_in_box",
    "get_grids_has_corners",
    "get_grids_in_box_float_refuted"
   ],
   "note": "exact reals as stated; the refuted theorem shows that binary64 rounding breaks it for boxes of subnormal width"
  },
  {
   "property": "C07",
   "status": "proved",
   "theorems": [
    "normalize_maps_to_0_10",
    "normalize_keeps_constant"
   ],
   "note": "exact reals"
  },
  {
   "property": "C08",
   "status": "proved",
   "theorems": [
    "normalize_is_idempotent",
    "normalize_affine_invariant"
   ],
   "note": "exact reals"
  },
  {
   "property": "C09",
   "status": "proved",
   "theorems": [
    "best_by_evaluation_first_minimiser",
    "best_by_evaluation_raises_iff"
   ],
   "note": ""
  },
  {
   "property": "C10",
   "status": "proved",
   "theorems": [
    "best_by_history_minimiser",
    "best_by_history_total"
   ],
   "note": ""
  },
  {
   "property": "C100",
   "status": "proved",
   "theorems": [
    "C100_runs"
   ],
   "note": "Binary64. Contracts of C98 and C99; samplers return the requested number of points (at least one for the grid) inside the search space, as C56 proves for the samplers of the library with library contracts."
  },
  {
   "property": "C101",
   "status": "proved",
   "theorems": [
    "C101_kernel",
    "C101_inverse",
    "C101_cholesky"
   ],
   "note": "Binary64, any exponential, inverse and Cholesky routines."
  },
  {
   "property": "C102",
   "status": "proved",
   "theorems": [
    "C102_gp",
    "C102_tp"
   ],
   "note": "Binary64; covariance and inverse are arbitrary arguments, so also for predict_with_hyps."
  },
  {
   "property": "C103",
   "status": "proved",
   "theorems": [
    "C103_function_wrappers_complete"
   ],
   "note": "Exact reals. BOwGP objects with a kernel on points (bo.BO is BOwGP, so the functions accept no other object). Contracts of C83."
  },
  {
   "property": "C104",
   "status": "partial",
   "theorems": [
    "C104_refuted",
    "C104_late_rejection",
    "C104_early_rejection_partial"
   ],
   "note": "False as stated: the sampling method and the number of samples are only checked after the initial evaluations. Proved: the other two options, and all four for the class wrapper, are rejected before any evaluation."
  },
  {
   "property": "C105",
   "status": "proved",
   "theorems": [
    "C105_thompson_runs_complete",
    "C105_single_candidate_fails"
   ],
   "note": "Exact reals. Contracts: linear algebra, optimiser, samplers as in C83; multivariate_normal accepts symmetric positive definite covariances."
  },
  {
   "property": "C106",
   "status": "proved",
   "theorems": [
    "C106_generic_trees",
    "C106_random_forest",
    "C106_predictions"
   ],
   "note": "Exact reals. Contract for random split locations: np.random.uniform(low, high) is low + (high - low) u."
  },
  {
   "property": "C107",
   "status": "partial",
   "theorems": [
    "C107_refuted",
    "C107_generic_trees_partial",
    "C107_random_forest_partial"
   ],
   "note": "False as stated: a side without rows counts with the fixed penalty 1e8, which large responses outweigh. Proved when the responses differ by at most 10^4 in both units (in particular for responses normalised to [0, 10])."
  },
  {
   "property": "C108",
   "status": "proved",
   "theorems": [
    "C108_order",
    "C108_batch",
    "C108_units",
    "C108_far"
   ],
   "note": "Exact reals, inverse contract. The covariance of two equal test points at different positions is excluded from the batch statement, as in C32."
  },
  {
   "property": "C109",
   "status": "proved",
   "theorems": [
    "C109_one_more"
   ],
   "note": "Exact reals, inverse contract, dof > 2 (as the package's bounds ensure)."
  },
  {
   "property": "C11",
   "status": "proved",
   "theorems": [
    "next_best_is_fresh_or_last"
   ],
   "note": ""
  },
  {
   "property": "C110",
   "status": "partial",
   "theorems": [
    "C110_refuted",
    "C110_surprise",
    "C110_more_data_partial"
   ],
   "note": "False as stated: for all data, every sufficiently surprising observation increases all predicted deviations. Proved: an observation within one predicted deviation (noise included) increases none."
  },
  {
   "property": "C111",
   "status": "partial",
   "theorems": [
    "C111_inverse",
    "C111_student",
    "C111_leave_one_out",
    "C111_default_partial",
    "C111_default_refuted"
   ],
   "note": "True for the variant with the inverse, the Student-t likelihood and the leave-one-out pseudo-likelihood (equal results). False for the default Gaussian computation with a Cholesky factor, whose logarithms have an offset of 1e-7: witness with three observations, for all routines meeting the contracts; proved instead that the values differ by at most 1e-7 / sqrt(1e-5 + noise^2)."
  },
  {
   "property": "C112",
   "status": "proved",
   "theorems": [
    "C112_ml",
    "C112_loocv",
    "C112_tp",
    "C112_returns"
   ],
   "note": "Exact reals. Descent is an assumption on scipy's optimisers (scipy does not promise it for SLSQP). The leave-one-out case assumes one lengthscale per dimension or a single dimension (otherwise the objective raises, C39); the Student-t case also assumes that the bounds are respected, so that no degrees of freedom are replaced."
  },
  {
   "property": "C113",
   "status": "partial",
   "theorems": [
    "C113_iterations",
    "C113_initial_inputs_partial",
    "C113_thompson_partial",
    "C113_general",
    "C113_overwritten",
    "C113_reused",
    "C113_refuted"
   ],
   "note": "False for the initial inputs: the target gets a view of a row of X and its results are copied only after all initial evaluations. A target that overwrites its argument changes the reported inputs (C113_overwritten, for all inputs), one that returns the same array every time makes all initial responses equal to the last (C113_reused). True for the iterations, for every target; for the initial inputs proved for targets that leave the argument alone and whose results stay. C113_general says what is reported in every case."
  },
  {
   "property": "C114",
   "status": "partial",
   "theorems": [
    "C114_ei_partial",
    "C114_ei_improving",
    "C114_ei_deviation",
    "C114_zero_deviation",
    "C114_ei_refuted",
    "C114_ei_deviation_refuted",
    "C114_pi_deviation",
    "C114_aei_partial"
   ],
   "note": "False as stated: at deviation 0 a mean further above the best response can have the larger value, and a larger deviation counts against a point while (s + j)^3 < j (best - m)^2. Proved: ei is monotone in both where j (best - m)^2 <= s (s + j)^2, in the mean also below the best response, in the deviation exactly on the stated region; aei where ei is not negative; pi everywhere."
  },
  {
   "property": "C115",
   "status": "partial",
   "theorems": [
    "C115_refuted",
    "C115_predictions_partial",
    "C115_student_partial",
    "C115_likelihood_partial",
    "C115_student_likelihood_partial",
    "C115_default_likelihood_partial"
   ],
   "note": "False as stated: the jitter 1e-5 on the training covariance has no unit (witness for every inverse routine). Proved when noise^2 + jitter follows the unit: means exactly, covariances and variances apart from the jitter they contain, likelihoods (inverse variant, Student-t) exactly plus ln |c|, the default likelihood up to the offset of its logarithms. Not treated: the leave-one-out pseudo-likelihood."
  },
  {
   "property": "C116",
   "status": "proved",
   "theorems": [
    "C116_time_axis",
    "C116_mean_curve",
    "C116_acquisitions"
   ],
   "note": "Binary64. Contracts: norm.cdf does not decrease; np.log(x) in [0, x] for x >= 1. Fewer than 2^53 rounds or observations; predictions below 2^480 in magnitude for the acquisitions."
  },
  {
   "property": "C117",
   "status": "proved",
   "theorems": [
    "C117_ladder",
    "C117_iteration"
   ],
   "note": "C117_ladder in exact reals with the values of the ladder; C117_iteration for any number type. Whether LinAlgError is a ValueError is a parameter (it depends on the NumPy version)."
  },
  {
   "property": "C118",
   "status": "proved",
   "theorems": [
    "C118_step_rejects",
    "C118_gp_rejects",
    "C118_samples_rejects",
    "C118_vs_iter_rejects",
    "C118_vs_time_rejects"
   ],
   "note": "That fitting shapes are accepted is C88-C90."
  },
  {
   "property": "C119",
   "status": "proved",
   "theorems": [
    "C119_near",
    "C119_measured",
    "C119_points"
   ],
   "note": "Exact reals."
  },
  {
   "property": "C12",
   "status": "proved",
   "theorems": [
    "next_best_none_iff"
   ],
   "note": ""
  },
  {
   "property": "C120",
   "status": "proved",
   "theorems": [
    "C120_mean",
    "C120_mean_size",
    "C120_deviation",
    "C120_lipschitz"
   ],
   "note": "Exact reals."
  },
  {
   "property": "C121",
   "status": "proved",
   "theorems": [
    "C121_generic_trees",
    "C121_random_forest",
    "C121_predictions",
    "C121_elsewhere_refuted"
   ],
   "note": "Exact reals, deterministic split locations. C121_elsewhere_refuted shows that the restriction to the rows a tree was grown from is needed, even among training inputs."
  },
  {
   "property": "C122",
   "status": "proved",
   "theorems": [
    "C122_least_squares"
   ],
   "note": "Exact reals."
  },
  {
   "property": "C123",
   "status": "proved",
   "theorems": [
    "C123_totals"
   ],
   "note": "Exact reals; Gaussian processes."
  },
  {
   "property": "C124",
   "status": "proved",
   "theorems": [
    "C124_distances",
    "C124_likelihood",
    "C124_euclidean",
    "C124_constant"
   ],
   "note": "Exact reals."
  },
  {
   "property": "C125",
   "status": "proved",
   "theorems": [
    "C125_samples",
    "C125_proposal"
   ],
   "note": "Exact reals. Contracts: np.random.uniform(low, high) is low + (high - low) u, the quasi-random generators return rows of the asked dimension."
  },
  {
   "property": "C126",
   "status": "partial",
   "theorems": [
    "C126_run_partial",
    "C126_units_refuted"
   ],
   "note": "Refuted for factors: the tolerance for points that were evaluated before is absolute (1e-8), so in units in which the search space is small every candidate counts as evaluated and the last point is evaluated again (witness: [0, 1] against [0, 1e-9]). Proved for other origins (offsets), whole program, all options."
  },
  {
   "property": "C127",
   "status": "proved",
   "theorems": [
    "C127_gp_proposal",
    "C127_tp_proposal",
    "C127_run"
   ],
   "note": "Exact reals. Contracts: L-BFGS-B, DIRECT and CMA-ES move with their bounds, start and objective; np.random.uniform(low, high) is low + (high - low) u; the quasi-random generators return rows of the asked dimension. Nothing is assumed about inverse, Cholesky or determinant."
  },
  {
   "property": "C128",
   "status": "proved",
   "theorems": [
    "C128_band",
    "C128_exact",
    "C128_combinations"
   ],
   "note": "Exact reals; measurement errors are arbitrary; contract: np.linalg.inv / solve return an exact inverse. The deviation used by the sharp form is the returned one without the jitter 1e-5 that the code adds to the variance."
  },
  {
   "property": "C129",
   "status": "proved",
   "theorems": [
    "C129_explore",
    "C129_error"
   ],
   "note": "Exact reals, fixed hyperparameters, kernels on points. The points are assumed to maximise the acquisition value up to delta, which is what the optimisers are meant to do; loops of this kind exist (C130_loops)."
  },
  {
   "property": "C13",
   "status": "proved",
   "theorems": [
    "check_points_in_bounds_exact"
   ],
   "note": ""
  },
  {
   "property": "C130",
   "status": "proved",
   "theorems": [
    "C130_regret",
    "C130_recorded",
    "C130_loops"
   ],
   "note": "Exact reals, fixed hyperparameters, unnormalised exact responses, kernels on points, the default growing kappa. The points are assumed to maximise the acquisition value up to delta, which is what the optimisers are meant to do; loops of this kind exist for every delta > 0."
  },
  {
   "property": "C131",
   "status": "proved",
   "theorems": [
    "C131_program",
    "C131_function",
    "C131_models"
   ],
   "note": "Exact reals. The world carries the true time; every library call and every call of the target may take any time, the clock reads a moment during its call."
  },
  {
   "property": "C132",
   "status": "proved",
   "theorems": [
    "C132_damped",
    "C132_sharp"
   ],
   "note": "Exact reals, fixed hyperparameters; all kernels, including sets. Contract: np.linalg.inv / solve return an exact inverse."
  },
  {
   "property": "C133",
   "status": "proved",
   "theorems": [
    "C133_flag",
    "C133_exact",
    "C133_program",
    "C133_log",
    "C133_quiet_refuted",
    "C133_exception_refuted"
   ],
   "note": "Any numbers. Texts of numbers, functions and times are arbitrary functions. Two stronger wordings are refuted: with DIRECT or CMA-ES a DEBUG record is written without the flag, and the debug message about the next best candidate can turn a ValueError into an AssertionError."
  },
  {
   "property": "C134",
   "status": "proved",
   "theorems": [
    "C134_gp",
    "C134_tp",
    "C134_kernels",
    "C134_likelihoods"
   ],
   "note": "Any numbers, any result of np.linalg.inv and any optimiser. Responses and prior means with several columns are outside the model."
  },
  {
   "property": "C135",
   "status": "proved",
   "theorems": [
    "C135_flag",
    "C135_exact",
    "C135_program",
    "C135_log"
   ],
   "note": "Any numbers. Texts of numbers, functions and times are arbitrary functions. As in C133, the exception can differ only if the fallback finds no candidate."
  },
  {
   "property": "C136",
   "status": "proved",
   "theorems": [
    "C136_damped",
    "C136_between"
   ],
   "note": "Exact reals, fixed hyperparameters, more than two degrees of freedom; all kernels, including sets. Contract: np.linalg.inv / solve return an exact inverse."
  },
  {
   "property": "C137",
   "status": "proved",
   "theorems": [
    "C137_band",
    "C137_shrinks",
    "C137_move",
    "C137_far_refuted"
   ],
   "note": "Exact reals, fixed hyperparameters, more than two degrees of freedom. The expectation that deviations far from all measurements are those of the prior, true of the Gaussian process (C96), is refuted for the Student-t process."
  },
  {
   "property": "C138",
   "status": "proved",
   "theorems": [
    "C138_values",
    "C138_choice"
   ],
   "note": "Exact reals, fixed hyperparameters, kernels on points. Contract: np.linalg.inv / solve return an exact inverse."
  },
  {
   "property": "C139",
   "status": "proved",
   "theorems": [
    "C139_values",
    "C139_choice"
   ],
   "note": "Exact reals, fixed hyperparameters, more than two degrees of freedom, kernels on points. Contract: np.linalg.inv / solve return an exact inverse."
  },
  {
   "property": "C14",
   "status": "proved",
   "theorems": [
    "hyps_convergence_relative_distance",
    "hyps_convergence_empty_history"
   ],
   "note": "exact reals; vectors of equal length. The test never looks at dof (convert_hyps is called with use_gp at its default)."
  },
  {
   "property": "C15",
   "status": "proved",
   "theorems": [
    "optimizer_method_fallback"
   ],
   "note": ""
  },
  {
   "property": "C16",
   "status": "proved",
   "theorems": [
    "construction_iff_compatible",
    "construction_keeps_settings",
    "construction_rf_default_rejected"
   ],
   "note": ""
  },
  {
   "property": "C17",
   "status": "proved",
   "theorems": [
    "C17_dispatch",
    "C17_aei",
    "C17_aei_needs_noise",
    "C17_rejects"
   ],
   "note": "exact reals; scipy.stats.norm.cdf/pdf and np.log replaced by Phi, phi, ln"
  },
  {
   "property": "C18",
   "status": "proved",
   "theorems": [
    "restore_after_convert",
    "convert_after_restore",
    "convert_order",
    "convert_missing"
   ],
   "note": "any carrier"
  },
  {
   "property": "C19",
   "status": "proved",
   "theorems": [
    "default_hyps_inside_ranges",
    "C19_bounds",
    "C19_defaults"
   ],
   "note": "exact reals and binary64"
  },
  {
   "property": "C20",
   "status": "proved",
   "theorems": [
    "validate_accepts_wellformed",
    "validate_idempotent",
    "validate_dof_above_two",
    "clamping_meaning"
   ],
   "note": "dof > 2 holds except that a NaN dof is kept (NaN <= 2.0 is False)"
  },
  {
   "property": "C21",
   "status": "proved",
   "theorems": [
    "check_str_cov_ranks"
   ],
   "note": ""
  },
  {
   "property": "C22",
   "status": "proved",
   "theorems": [
    "C22_value_exists",
    "C22_bounds",
    "C22_coincide",
    "C22_symmetric",
    "C22_invariant",
    "C22_decreasing"
   ],
   "note": "values observed through cov_main on single-row inputs; reflections are per coordinate; exact reals"
  },
  {
   "property": "C23",
   "status": "proved",
   "theorems": [
    "C23_base_psd",
    "C23_matrix"
   ],
   "note": "squared exponential by feature expansion, Matern kernels as Gaussian scale mixtures; every dimension; exact reals"
  },
  {
   "property": "C24",
   "status": "proved",
   "theorems": [
    "C24_value",
    "C24_symmetric",
    "C24_order",
    "C24_bounds",
    "C24_singleton",
    "C24_psd"
   ],
   "note": "exact reals"
  },
  {
   "property": "C25",
   "status": "proved",
   "theorems": [
    "C25_entries",
    "C25_symmetric",
    "C25_names"
   ],
   "note": "all eight covariance names, points and sets; exact reals"
  },
  {
   "property": "C26",
   "status": "proved",
   "theorems": [
    "C26_inverse",
    "C26_cholesky"
   ],
   "note": "exact reals; np.linalg.inv and scipy.linalg.cholesky by contract (they return an inverse / Cholesky factor exactly when one exists)"
  },
  {
   "property": "C27",
   "status": "proved",
   "theorems": [
    "C27_ladder",
    "C27_jitters",
    "C27_added"
   ],
   "note": "any arithmetic and any factorisation routine; exceptions other than LinAlgError (for example scipy's ValueError on NaN) are not caught by the loop and propagate"
  },
  {
   "property": "C28",
   "status": "partial",
   "theorems": [
    "C28_gradient_partial",
    "C28_signal_diagonal",
    "C28_gradient_refuted"
   ],
   "note": "false as stated: the diagonal of the signal slice is larger than the derivative by 2*jitter/signal because the slice is computed from the jittered matrix (covariance.py grad_cov_*); every other entry is proved to be the exact partial derivative"
  },
  {
   "property": "C29",
   "status": "proved",
   "theorems": [
    "C29_posterior"
   ],
   "note": "exact reals; the diagonal is even at least the jitter"
  },
  {
   "property": "C30",
   "status": "proved",
   "theorems": [
    "C30_affine",
    "C30_covariance",
    "C30_prior",
    "C30_centred"
   ],
   "note": "exact reals; prior mean functions that act pointwise on the inputs"
  },
  {
   "property": "C31",
   "status": "proved",
   "theorems": [
    "C31_order"
   ],
   "note": "exact reals"
  },
  {
   "property": "C32",
   "status": "proved",
   "theorems": [
    "C32_batch",
    "C32_single"
   ],
   "note": "exact reals; a test row selected twice has no jitter between its two copies"
  },
  {
   "property": "C33",
   "status": "proved",
   "theorems": [
    "C33_residual"
   ],
   "note": "exact reals"
  },
  {
   "property": "C34",
   "status": "proved",
   "theorems": [
    "C34_more_data"
   ],
   "note": "exact reals"
  },
  {
   "property": "C35",
   "status": "proved",
   "theorems": [
    "C35_student",
    "C35_positive",
    "C35_covariance",
    "C35_limit"
   ],
   "note": "exact reals"
  },
  {
   "property": "C36",
   "status": "proved",
   "theorems": [
    "C36_inverse",
    "C36_cholesky",
    "C36_cholesky_total",
    "C36_domain",
    "C36_sign",
    "C36_sign_tp"
   ],
   "note": "Exact reals; the determinant is defined by expansion along the first row; slogdet, inv, cholesky and cho_solve enter through contracts. The Cholesky bound needs at least one data point."
  },
  {
   "property": "C37",
   "status": "proved",
   "theorems": [
    "C37"
   ],
   "note": "Exact reals. The variance used in the value is 1/(1/v + 1e-5) where v is the leave-one-out predictive variance including noise."
  },
  {
   "property": "C38",
   "status": "partial",
   "theorems": [
    "C38_refuted",
    "C38_partial"
   ],
   "note": "Refuted: the prior mean is not used (gp_likelihood.py:163-180 works with Y_train instead of Y_train - prior_mu_train), so moving outputs and prior mean together changes the value for every data set. Partial: the value does not depend on the prior mean."
  },
  {
   "property": "C39",
   "status": "partial",
   "theorems": [
    "C39_refuted",
    "C39_run_refuted",
    "C39_partial"
   ],
   "note": "Refuted: neg_log_pseudo_l_loocv calls restore_hyps with use_ard left at True, so with use_ard=False every evaluation raises ValueError unless the inputs are one-dimensional. Partial: with one lengthscale per dimension, or one-dimensional inputs, every evaluation returns."
  },
  {
   "property": "C40",
   "status": "partial",
   "theorems": [
    "C40_refuted",
    "C40_partial"
   ],
   "note": "Refuted: the entry of the degrees of freedom (tp_likelihood.py:101-106) lacks the factor 1/2 on digamma((nu+n)/2) - digamma(nu/2); with an even number of points it is never the derivative. Partial: noise and lengthscales are exact, the signal entry differs by a term with the covariance jitter (1e-5) that is stated exactly, and the order is that of convert_hyps. Exact reals, base kernels, nu > 2; gamma and digamma enter through a contract with a witness."
  },
  {
   "property": "C41",
   "status": "proved",
   "theorems": [
    "C41_gp_any",
    "C41_gp",
    "C41_tp"
   ],
   "note": "For every optimiser. C41_gp_any holds for reals and binary64 (the start is the vector of the default hyperparameters; shape and feasibility of the call, decoding, order of steps); C41_gp and C41_tp add in exact reals that the matrices are the covariance of the returned hyperparameters and its inverse. For the Student-t process degrees of freedom of at most 2 are replaced by 2.00001 after the optimisation."
  },
  {
   "property": "C42",
   "status": "proved",
   "theorems": [
    "C42_pi",
    "C42_decreasing",
    "Phi_is_normal_cdf"
   ],
   "note": "exact reals"
  },
  {
   "property": "C43",
   "status": "partial",
   "theorems": [
    "C43_refuted",
    "C43_partial",
    "C43_negative_at_zero_deviation"
   ],
   "note": "false as stated: with the default jitter ei is negative at deviation 0 when the mean is above the best response. Proved: non-negative without jitter, or when the mean is not above the best response; C44_lower_bound bounds the remaining case"
  },
  {
   "property": "C44",
   "status": "proved",
   "theorems": [
    "C44_expectation",
    "C44_expectation_unique",
    "C44_lower_bound",
    "C44_monotone"
   ],
   "note": "exact reals; the expectation is an improper integral against the normal density"
  },
  {
   "property": "C45",
   "status": "proved",
   "theorems": [
    "C45_ucb",
    "C45_monotone"
   ],
   "note": "exact reals"
  },
  {
   "property": "C46",
   "status": "proved",
   "theorems": [
    "C46_aei"
   ],
   "note": "exact reals"
  },
  {
   "property": "C47",
   "status": "proved",
   "theorems": [
    "C47_pointwise",
    "C47_reorder",
    "C47_responses"
   ],
   "note": "any arithmetic"
  },
  {
   "property": "C48",
   "status": "proved",
   "theorems": [
    "C48_generic",
    "C48_random_forest",
    "C48_infinite_refuted"
   ],
   "note": "binary64 and exact reals, every random outcome; coordinates must be finite: C48_infinite_refuted shows that rows at -inf and +inf are lost (the midpoint is NaN)"
  },
  {
   "property": "C49",
   "status": "proved",
   "theorems": [
    "C49_generic",
    "C49_random_forest"
   ],
   "note": ""
  },
  {
   "property": "C50",
   "status": "partial",
   "theorems": [
    "C50_min_leaf_refuted",
    "C50_min_leaf_partial"
   ],
   "note": "false as stated: size_min_leaf only stops splitting of small nodes, it does not bound leaf sizes; proved: below the root only nodes with more than size_min_leaf rows are split (the root is always split)"
  },
  {
   "property": "C51",
   "status": "proved",
   "theorems": [
    "C51_routing",
    "C51_sides"
   ],
   "note": ""
  },
  {
   "property": "C52",
   "status": "proved",
   "theorems": [
    "C52_prediction_range",
    "C52_tree_range",
    "C52_float_refuted"
   ],
   "note": "exact reals, even deviation <= half the range; C52_float_refuted: in binary64 the mean of three responses 0.1 is larger than 0.1"
  },
  {
   "property": "C53",
   "status": "proved",
   "theorems": [
    "C53_compute_sigma",
    "C53_clamp_idle"
   ],
   "note": "exact reals"
  },
  {
   "property": "C54",
   "status": "proved",
   "theorems": [
    "C54_schedule_free",
    "C54_parts",
    "C54_row_by_row"
   ],
   "note": "Pool.starmap modelled as: tasks completed in any order, results stored by task index"
  },
  {
   "property": "C55",
   "status": "proved",
   "theorems": [
    "C55_subsample"
   ],
   "note": "from the contract of np.random.choice"
  },
  {
   "property": "C56",
   "status": "proved",
   "theorems": [
    "C56_samples",
    "C56_uniform_exactly",
    "C56_initials",
    "C56_returns",
    "C56_returns_qmc",
    "C56_gaussian_nan_refuted"
   ],
   "note": "float64 (Flocq), from the contracts of numpy and scipy: unit draws are doubles in [0,1), Gaussian draws are finite. C56_gaussian_nan_refuted shows that the proviso on upper + lower is needed: otherwise NaN can be returned"
  },
  {
   "property": "C57",
   "status": "proved",
   "theorems": [
    "run_only_grows_history"
   ],
   "note": "any target, surrogate and clock"
  },
  {
   "property": "C58",
   "status": "proved",
   "theorems": [
    "responses_are_target_values_initial_inputs",
    "responses_are_target_values_optimize",
    "responses_are_target_values_run_single_round"
   ],
   "note": ""
  },
  {
   "property": "C59",
   "status": "proved",
   "theorems": [
    "failures_propagate"
   ],
   "note": ""
  },
  {
   "property": "C60",
   "status": "proved",
   "theorems": [
    "queries_fresh_or_forced_repeat"
   ],
   "note": "any carrier with NaN semantics"
  },
  {
   "property": "C61",
   "status": "proved",
   "theorems": [
    "gp_proposals_inside",
    "tp_proposals_inside",
    "rf_proposals_inside",
    "gp_run_inside",
    "tp_run_inside",
    "rf_run_inside"
   ],
   "note": ""
  },
  {
   "property": "C62",
   "status": "proved",
   "theorems": [
    "class_and_function_wrappers_agree"
   ],
   "note": ""
  },
  {
   "property": "C63",
   "status": "proved",
   "theorems": [
    "gp_proposal_minimises",
    "tp_proposal_minimises",
    "gp_proposal_minimises_single_point_values",
    "rf_proposal_minimises"
   ],
   "note": "for GP and TP the values reported are those of one batch call, the choice uses single-point calls; they agree when the acquisition is pointwise (C47)"
  },
  {
   "property": "C64",
   "status": "proved",
   "theorems": [
    "gp_reports_responses",
    "tp_reports_responses",
    "rf_reports_responses"
   ],
   "note": ""
  },
  {
   "property": "C65",
   "status": "proved",
   "theorems": [
    "gp_history_grows_by_one",
    "gp_history_never_rewritten",
    "tp_history_grows_by_one",
    "tp_history_never_rewritten"
   ],
   "note": "the appended entry may be None when the combined mode kept nothing; the call then fails"
  },
  {
   "property": "C66",
   "status": "proved",
   "theorems": [
    "converged_flag_set_by_test",
    "converged_flag_never_returns",
    "converged_stays_frozen",
    "C66_five_percent"
   ],
   "note": "the test itself is C14"
  },
  {
   "property": "C67",
   "status": "proved",
   "theorems": [
    "combined_keeps_better"
   ],
   "note": ""
  },
  {
   "property": "C68",
   "status": "partial",
   "theorems": [
    "C68_refuted",
    "C68_partial",
    "C68_ignores_sample"
   ],
   "note": "Refuted: np.argmin is taken over the first column of an array with one row per sample (thompson_sampling.py:50), so the first candidate is always returned whatever was sampled; with one candidate it is an IndexError. Partial: the first candidate is returned, it is one of the candidates, and it minimises the sampled function whenever the first value is smallest. C68_ignores_sample states this in exact reals for all data and samplers with at least two candidates."
  },
  {
   "property": "C69",
   "status": "proved",
   "theorems": [
    "C69",
    "C69_raise",
    "C69_rows"
   ],
   "note": "C69 and C69_raise for reals and binary64; C69_rows for binary64 with the modelled samplers (number of rows and box membership)."
  },
  {
   "property": "C70",
   "status": "partial",
   "theorems": [
    "seeded_initial_rows_reproducible_partial",
    "seeded_run_reproducible_refuted"
   ],
   "note": "false as stated: the seed reaches only the initial points, the acquisition sampling of every iteration runs with seed=None; proved for the initial rows"
  },
  {
   "property": "C71",
   "status": "partial",
   "theorems": [
    "C71_refuted",
    "C71_tp_refuted",
    "C71_partial",
    "C71_tp_partial",
    "C71_raise",
    "C71_tp_raise",
    "C71_one_point",
    "C71_no_sample",
    "C71_tp_one_point",
    "C71_tp_scale",
    "C71_tp_no_sample"
   ],
   "note": "Refuted for one input point: numpy/scipy drop the dimension, the Gaussian sampler returns shape (num_samples,) and the Student-t sampler raises or returns a square array. Partial: with at least two points the shape is (num_samples, n); exceptions come only from numpy or scipy."
  },
  {
   "property": "C72",
   "status": "proved",
   "theorems": [
    "C72_entries",
    "C72_unique",
    "C72_ranks"
   ],
   "note": "The format of single entries is a parameter; entries are non-empty and without brackets, braces, commas, newlines (and blanks for C72_entries)."
  },
  {
   "property": "C73",
   "status": "partial",
   "theorems": [
    "C73_refuted",
    "C73_partial",
    "C73_once_partial",
    "C73_objects",
    "C73_separate",
    "C73_dots"
   ],
   "note": "Refuted: get_logger attaches a new handler on every call, so a second object with the same logger name doubles every message. Partial: a message is written once for every request of the name or of an ancestor; exactly once if the name was requested once and no ancestor was."
  },
  {
   "property": "C74",
   "status": "proved",
   "theorems": [
    "C74_never_fails",
    "C74_forest_never_fails"
   ],
   "note": "exact reals"
  },
  {
   "property": "C75",
   "status": "proved",
   "theorems": [
    "C75_split_optimal"
   ],
   "note": "exact reals; with more than 21 distinct values only 20 random midpoints are examined"
  },
  {
   "property": "C76",
   "status": "proved",
   "theorems": [
    "C76"
   ],
   "note": "Exact reals; the derivative is that of the value returned by the inverse path, which is the Gaussian formula (C36_inverse)."
  },
  {
   "property": "C77",
   "status": "proved",
   "theorems": [
    "C77"
   ],
   "note": "Exact reals; gamma is arbitrary, inv and slogdet enter through contracts."
  },
  {
   "property": "C78",
   "status": "proved",
   "theorems": [
    "C78_gp",
    "C78_tp"
   ],
   "note": "Reals and binary64, for every optimiser."
  },
  {
   "property": "C79",
   "status": "partial",
   "theorems": [
    "C79_refuted",
    "C79_partial"
   ],
   "note": "Refuted: tp.predict_with_optimized_hyps checks the name against the list of the Gaussian process, then get_optimized_kernel asserts the shorter Student-t list, so BFGS, Nelder-Mead and SLSQP-Bounded always end in AssertionError. Partial: the Gaussian process returns for every accepted name (exact reals)."
  },
  {
   "property": "C80",
   "status": "proved",
   "theorems": [
    "C80",
    "C80_order",
    "C80_ok"
   ],
   "note": "Keys without quotes; entry format is a parameter."
  },
  {
   "property": "C81",
   "status": "proved",
   "theorems": [
    "C81_gp_acquisitions_by_point",
    "C81_tp_acquisitions_by_point",
    "C81_rf_acquisitions_each_point",
    "C81_gp_reported_acquisitions",
    "C81_tp_reported_acquisitions",
    "C81_rf_reported_acquisitions",
    "C81_gp_proposes_best_candidate",
    "C81_tp_proposes_best_candidate"
   ],
   "note": "Any number type. The by-point theorems assume a prior mean computed row by row (None is one) and, for the trees, a pool that completes every task."
  },
  {
   "property": "C82",
   "status": "partial",
   "theorems": [
    "C82_gp_optimize_affine",
    "C82_tp_optimize_affine",
    "C82_rf_optimize_affine",
    "C82_gp_run_affine",
    "C82_tp_run_affine",
    "C82_rf_run_affine",
    "C82_constant_responses_refuted"
   ],
   "note": "Proved in exact arithmetic for one call and for whole runs of the three classes when the responses of the initial points are not all equal and the mode is not converged (which never normalises, C64). Refuted without the first condition: constant responses are left as they are, so shifting a single response changes the proposal (binary64 witness)."
  },
  {
   "property": "C83",
   "status": "proved",
   "theorems": [
    "C83_accepted_options_complete",
    "C83_samplers"
   ],
   "note": "Exact reals, from the constructor to the returned arrays, for the three surrogates over the modelled kernels, fits, likelihoods, trees and acquisitions. Assumes that the libraries return on valid arguments: matrix routines as in C29/C36, minimisers whose objective returns at every vector without zero entries, bounded optimisers and samplers returning points inside (C83_samplers: the samplers of the code do, given generators that return numbers in [0, 1]). Floating-point failures (overflow, a fitted lengthscale of exactly 0, all acquisition values NaN) are not covered: real division is total in Coq."
  },
  {
   "property": "C84",
   "status": "partial",
   "theorems": [
    "C84_refuted",
    "C84_set_kernels_fail"
   ],
   "note": "Refuted: the kernels over sets are accepted, but optimize works on 2-D inputs and check_str_cov asserts 3-D ones, so every run with them spends its initial evaluations and then raises AssertionError (for the Gaussian and Student-t surrogates, in every mode). For the base kernels see C83."
  },
  {
   "property": "C85",
   "status": "partial",
   "theorems": [
    "C85_resume_same_object",
    "C85_resume_equal_object",
    "C85_resume_converged_mode_refuted"
   ],
   "note": "Any number type, all three public methods, including runs that fail. With the same object: every mode. With another object of the same settings: every mode but converged, for which the claim is refuted (binary64 witness: the first object has stopped selecting hyperparameters, the fresh one fits again). The oracles must not depend on the number of clock readings."
  },
  {
   "property": "C86",
   "status": "partial",
   "theorems": [
    "C86_used_objects_behave_as_fresh",
    "C86_settings_never_change",
    "C86_converged_mode_refuted"
   ],
   "note": "Any number type, no assumption on the oracles; worlds, events, times and results agree. Refuted for mode converged: is_optimize_hyps stays False once it is, so a used object never fits again, also on other data (binary64 witness)."
  },
  {
   "property": "C87",
   "status": "proved",
   "theorems": [
    "C87_any_sequence_of_uses_completes"
   ],
   "note": "Exact reals; same options and library assumptions as C83. Includes mode converged: the state it leaves behind changes later runs (C86) but never makes them fail."
  },
  {
   "property": "C88",
   "status": "proved",
   "theorems": [
    "C88_minimum_vs_iter",
    "C88_minimum_vs_time"
   ],
   "note": "Exact reals; the whole list of drawing commands is determined. matplotlib is modelled as accepting every command whose arrays have equal lengths; fonts, widths and axis decorations are not modelled."
  },
  {
   "property": "C89",
   "status": "proved",
   "theorems": [
    "C89_step_marks_every_point",
    "C89_gp_figure",
    "C89_samples_figure"
   ],
   "note": "Any number type, in particular binary64. The two step functions are one definition with an optional acquisition curve, after comparing their bodies line by line."
  },
  {
   "property": "C90",
   "status": "partial",
   "theorems": [
    "C90_figure_exactly_when",
    "C90_all_initial_fails",
    "C90_no_experiments_fails",
    "C90_checks_refuted"
   ],
   "note": "Refuted: the check allows num_init equal to the number of values per round, where get_minimum then raises AssertionError, and an empty list of experiments, where the limits use a variable that was never bound. Proved: the exact condition under which a figure is drawn (carriers with an infinity, in particular binary64)."
  },
  {
   "property": "C91",
   "status": "proved",
   "theorems": [
    "C91_rounds_can_be_plotted"
   ],
   "note": "Exact reals; assumptions of C83; composition of C87 and C88."
  },
  {
   "property": "C92",
   "status": "proved",
   "theorems": [
    "C92_best_linear"
   ],
   "note": "Exact reals; all kernels, points and sets. The noise variance of the linear model is noise^2 plus the jitter on the training covariance."
  },
  {
   "property": "C93",
   "status": "proved",
   "theorems": [
    "C93_predictions",
    "C93_likelihood",
    "C93_likelihood_default"
   ],
   "note": "Exact reals; the returned arrays are equal. Likelihood: both with the inverse and with the Cholesky factor (default)."
  },
  {
   "property": "C94",
   "status": "proved",
   "theorems": [
    "C94_one_more",
    "C94_as_predicted"
   ],
   "note": "Exact reals; stated with the arrays returned by predict_with_hyps only."
  },
  {
   "property": "C95",
   "status": "proved",
   "theorems": [
    "C95_normal",
    "C95_student",
    "C95_sequential",
    "C95_default",
    "C95_default_sequential"
   ],
   "note": "Exact reals. Without Cholesky factor exactly; with it (default) exactly up to the term ln(1 + 1e-7 / deviation) of the offset in the code. The Gamma function only has to be positive."
  },
  {
   "property": "C96",
   "status": "proved",
   "theorems": [
    "C96_far",
    "C96_points"
   ],
   "note": "Exact reals; the distance depends on the data, the outputs and the tolerance."
  },
  {
   "property": "C97",
   "status": "proved",
   "theorems": [
    "C97_normalised",
    "C97_unchanged",
    "C97_overflow_refuted",
    "C97_distinct_refuted"
   ],
   "note": "Binary64. Findings: finite responses whose range overflows give NaN; different responses can become equal (so only weak order is kept)."
  },
  {
   "property": "C98",
   "status": "proved",
   "theorems": [
    "C98_forest",
    "C98_unbounded_refuted",
    "C98_range_refuted"
   ],
   "note": "Binary64. Contracts: np.random.choice draws valid indices; int() of a float holding a count. Findings: with responses near the overflow threshold growing raises TypeError; predictions can leave the range of the responses by rounding (C52 holds in exact arithmetic only)."
  },
  {
   "property": "C99",
   "status": "proved",
   "theorems": [
    "C99_acquisitions"
   ],
   "note": "Binary64. Contracts: norm.cdf and norm.pdf map numbers to [0, 1]; np.log(x) in [0, x] for x >= 1. aei: noise level between 2^-500 and 2^480."
  }
 ]
}