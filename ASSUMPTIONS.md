# Print Assumptions, theorem by theorem

Generated from the compiled theories; every theorem of the `*Props.v` files is listed.  All axioms are from the standard library of Coq.

## Closed under the global context (104)

`C47_pointwise`, `C47_reorder`, `C47_responses`, `C81_gp_acquisitions_by_point`, `C81_tp_acquisitions_by_point`, `C81_rf_acquisitions_each_point`, `C81_rf_reported_acquisitions`, `construction_iff_compatible`, `construction_keeps_settings`, `construction_rf_default_rejected`, `rf_proposals_inside`, `rf_reports_responses`, `gp_history_never_rewritten`, `tp_history_never_rewritten`, `converged_flag_set_by_test`, `converged_flag_never_returns`, `converged_stays_frozen`, `combined_keeps_better`, `seeded_initial_rows_reproducible_partial`, `C27_ladder`, `hyps_convergence_empty_history`, `restore_after_convert`, `convert_after_restore`, `convert_order`, `convert_missing`, `validate_accepts_wellformed`, `check_str_cov_ranks`, `C38_partial`, `C39_refuted`, `C135_flag`, `C135_program`, `C135_log`, `C133_flag`, `C133_program`, `C133_log`, `C72_entries`, `C72_unique`, `C72_ranks`, `C73_refuted`, `C73_partial`, `C73_once_partial`, `C73_objects`, `C73_separate`, `C73_dots`, `C80`, `C80_order`, `C80_ok`, `C113_iterations`, `C113_initial_inputs_partial`, `C113_thompson_partial`, `C113_general`, `C113_overwritten`, `C113_reused`, `C89_step_marks_every_point`, `C89_gp_figure`, `C89_samples_figure`, `C90_figure_exactly_when`, `C90_all_initial_fails`, `C90_no_experiments_fails`, `C85_resume_same_object`, `C85_resume_equal_object`, `C86_used_objects_behave_as_fresh`, `C86_settings_never_change`, `C134_gp`, `C134_tp`, `C134_kernels`, `C134_likelihoods`, `C68_partial`, `C69`, `C69_raise`, `C71_partial`, `C71_tp_partial`, `C71_raise`, `C71_tp_raise`, `C71_one_point`, `C71_no_sample`, `C71_tp_one_point`, `C78_gp`, `C78_tp`, `C79_refuted`, `C117_iteration`, `C118_step_rejects`, `C118_gp_rejects`, `C118_samples_rejects`, `C118_vs_iter_rejects`, `C118_vs_time_rejects`, `C71_tp_scale`, `C71_tp_no_sample`, `C54_schedule_free`, `C54_parts`, `C54_row_by_row`, `C55_subsample`, `get_minimum_accepts`, `plot_axes_same_length`, `get_grids_cartesian`, `get_grids_accepts`, `check_points_in_bounds_exact`, `optimizer_method_fallback`, `run_only_grows_history`, `responses_are_target_values_initial_inputs`, `responses_are_target_values_optimize`, `responses_are_target_values_run_single_round`, `failures_propagate`, `class_and_function_wrappers_agree`

## `FunctionalExtensionality.functional_extensionality_dep` (2)

`C36_sign`, `C36_sign_tp`

## `ClassicalDedekindReals.sig_forall_dec`, `FunctionalExtensionality.functional_extensionality_dep` (36)

`C81_gp_reported_acquisitions`, `C81_tp_reported_acquisitions`, `C81_gp_proposes_best_candidate`, `C81_tp_proposes_best_candidate`, `gp_proposals_inside`, `tp_proposals_inside`, `gp_run_inside`, `tp_run_inside`, `rf_run_inside`, `gp_proposal_minimises`, `tp_proposal_minimises`, `gp_proposal_minimises_single_point_values`, `rf_proposal_minimises`, `gp_reports_responses`, `tp_reports_responses`, `gp_history_grows_by_one`, `tp_history_grows_by_one`, `C35_positive`, `C35_limit`, `C48_generic`, `C48_random_forest`, `C49_generic`, `C49_random_forest`, `C50_min_leaf_partial`, `C51_routing`, `C51_sides`, `C53_clamp_idle`, `get_minimum_running_best`, `get_minimum_never_increases`, `best_by_evaluation_first_minimiser`, `best_by_evaluation_raises_iff`, `best_by_history_minimiser`, `best_by_history_total`, `next_best_is_fresh_or_last`, `next_best_none_iff`, `queries_fresh_or_forced_repeat`

## `ClassicalDedekindReals.sig_forall_dec`, `ClassicalDedekindReals.sig_not_dec`, `FunctionalExtensionality.functional_extensionality_dep` (67)

`C114_aei_partial`, `C17_aei_needs_noise`, `C44_expectation_unique`, `C46_aei`, `C82_gp_optimize_affine`, `C82_tp_optimize_affine`, `C82_rf_optimize_affine`, `C82_gp_run_affine`, `C82_tp_run_affine`, `C82_rf_run_affine`, `C22_value_exists`, `C22_symmetric`, `C22_invariant`, `C24_value`, `C24_symmetric`, `C24_order`, `C24_singleton`, `C25_entries`, `C25_symmetric`, `C25_names`, `C27_jitters`, `C27_added`, `hyps_convergence_relative_distance`, `C36_domain`, `C135_exact`, `C133_exact`, `C125_samples`, `C125_proposal`, `C126_run_partial`, `C83_samplers`, `C127_gp_proposal`, `C127_tp_proposal`, `C127_run`, `C88_minimum_vs_iter`, `C88_minimum_vs_time`, `C117_ladder`, `C19_bounds`, `C19_defaults`, `C66_five_percent`, `C131_program`, `C131_function`, `C131_models`, `C52_prediction_range`, `C52_tree_range`, `C74_never_fails`, `C74_forest_never_fails`, `C53_compute_sigma`, `C75_split_optimal`, `C106_generic_trees`, `C106_random_forest`, `C106_predictions`, `C107_generic_trees_partial`, `C107_random_forest_partial`, `C107_refuted`, `get_minimum_statistics`, `get_time_mean_cumulative`, `grid_values_equally_spaced`, `get_grids_stays_in_box`, `get_grids_has_corners`, `normalize_maps_to_0_10`, `normalize_keeps_constant`, `normalize_is_idempotent`, `normalize_affine_invariant`, `C121_generic_trees`, `C121_random_forest`, `C121_predictions`, `C121_elsewhere_refuted`

## `ClassicalDedekindReals.sig_forall_dec`, `ClassicalDedekindReals.sig_not_dec`, `Classical_Prop.classic`, `FunctionalExtensionality.functional_extensionality_dep` (78)

`C114_ei_partial`, `C114_ei_improving`, `C114_ei_deviation`, `C114_ei_refuted`, `C114_zero_deviation`, `C114_ei_deviation_refuted`, `C114_pi_deviation`, `C17_dispatch`, `C17_aei`, `C17_rejects`, `Phi_is_normal_cdf`, `C42_pi`, `C42_decreasing`, `C43_refuted`, `C43_negative_at_zero_deviation`, `C43_partial`, `C44_lower_bound`, `C44_expectation`, `C44_monotone`, `C45_ucb`, `C45_monotone`, `C82_constant_responses_refuted`, `seeded_run_reproducible_refuted`, `C84_set_kernels_fail`, `C22_bounds`, `C22_coincide`, `C22_decreasing`, `C23_base_psd`, `C23_matrix`, `C24_bounds`, `C24_psd`, `C28_gradient_partial`, `C28_signal_diagonal`, `C28_gradient_refuted`, `C116_time_axis`, `C116_mean_curve`, `C116_acquisitions`, `C97_normalised`, `C97_unchanged`, `C97_overflow_refuted`, `C97_distinct_refuted`, `C98_forest`, `C98_unbounded_refuted`, `C98_range_refuted`, `C99_acquisitions`, `C100_runs`, `C101_kernel`, `C101_inverse`, `C101_cholesky`, `C102_gp`, `C102_tp`, `C104_late_rejection`, `C104_early_rejection_partial`, `default_hyps_inside_ranges`, `validate_idempotent`, `validate_dof_above_two`, `clamping_meaning`, `C39_run_refuted`, `C41_gp_any`, `C133_exception_refuted`, `C113_refuted`, `C90_checks_refuted`, `C128_combinations`, `C85_resume_converged_mode_refuted`, `C86_converged_mode_refuted`, `C56_samples`, `C56_initials`, `C56_returns`, `C56_returns_qmc`, `C56_gaussian_nan_refuted`, `C69_rows`, `C71_refuted`, `C71_tp_refuted`, `C56_uniform_exactly`, `C48_infinite_refuted`, `C50_min_leaf_refuted`, `C52_float_refuted`, `get_grids_in_box_float_refuted`

## `ClassicalDedekindReals.sig_forall_dec`, `ClassicalDedekindReals.sig_not_dec`, `ClassicalEpsilon.constructive_indefinite_description`, `Classical_Prop.classic`, `FunctionalExtensionality.functional_extensionality_dep` (107)

`C83_accepted_options_complete`, `C84_refuted`, `C132_damped`, `C132_sharp`, `C129_error`, `C112_ml`, `C112_returns`, `C112_loocv`, `C112_tp`, `C103_function_wrappers_complete`, `C104_refuted`, `C26_inverse`, `C26_cholesky`, `C29_posterior`, `C30_affine`, `C30_covariance`, `C30_prior`, `C30_centred`, `C31_order`, `C32_batch`, `C32_single`, `C33_residual`, `C34_more_data`, `C35_student`, `C35_covariance`, `C76`, `C77`, `C40_partial`, `C40_refuted`, `C36_inverse`, `C36_cholesky`, `C36_cholesky_total`, `C37`, `C38_refuted`, `C39_partial`, `C41_gp`, `C41_tp`, `C133_quiet_refuted`, `C126_units_refuted`, `C119_near`, `C119_measured`, `C119_points`, `C120_mean`, `C120_mean_size`, `C120_deviation`, `C120_lipschitz`, `C111_inverse`, `C111_student`, `C111_leave_one_out`, `C111_default_partial`, `C111_default_refuted`, `C91_rounds_can_be_plotted`, `C93_likelihood_default`, `C95_default`, `C95_default_sequential`, `C92_best_linear`, `C93_predictions`, `C93_likelihood`, `C94_one_more`, `C94_as_predicted`, `C95_normal`, `C95_student`, `C95_sequential`, `C96_far`, `C96_points`, `C128_band`, `C128_exact`, `C129_explore`, `C130_regret`, `C130_recorded`, `C130_loops`, `C115_refuted`, `C115_predictions_partial`, `C115_student_partial`, `C115_likelihood_partial`, `C115_default_likelihood_partial`, `C115_student_likelihood_partial`, `C122_least_squares`, `C123_totals`, `C124_distances`, `C124_likelihood`, `C124_euclidean`, `C124_constant`, `C138_values`, `C138_choice`, `C139_values`, `C139_choice`, `C108_order`, `C108_batch`, `C108_units`, `C108_far`, `C109_one_more`, `C110_more_data_partial`, `C110_surprise`, `C110_refuted`, `C136_damped`, `C136_between`, `C137_band`, `C137_shrinks`, `C137_move`, `C137_far_refuted`, `C68_ignores_sample`, `C68_refuted`, `C79_partial`, `C105_thompson_runs_complete`, `C105_single_candidate_fails`, `C87_any_sequence_of_uses_completes`

