{
 "claims": [
  {
   "property": "C01",
   "status": "proved",
   "theorems": [
    "no_nan_to_hardware",
    "nan_voltage_refused",
    "nan_voltage_runtime_error"
   ],
   "note": ""
  },
  {
   "property": "C02",
   "status": "proved",
   "theorems": [
    "one_action_per_iterate",
    "iterate_when_complete"
   ],
   "note": ""
  },
  {
   "property": "C03",
   "status": "proved",
   "theorems": [
    "complete_means_all_tuned",
    "failed_change_targets_keeps_position_refuted"
   ],
   "note": "second theorem: witness for the exception named in the property"
  },
  {
   "property": "C04",
   "status": "proved",
   "theorems": [
    "bottom_up_evaluation"
   ],
   "note": ""
  },
  {
   "property": "C05",
   "status": "proved",
   "theorems": [
    "voltages_from_untuned_tuner",
    "tuned_parameters_reported"
   ],
   "note": ""
  },
  {
   "property": "C06",
   "status": "proved",
   "theorems": [
    "restart_keeps_pending_status",
    "change_targets_keeps_pending_status",
    "voltages_origin_with_resets",
    "restart_forces_evaluation_refuted"
   ],
   "note": "the last theorem is a witness that restart() does not force an evaluation"
  },
  {
   "property": "C07",
   "status": "proved",
   "theorems": [
    "exception_safety",
    "one_action_per_iterate"
   ],
   "note": ""
  },
  {
   "property": "C08",
   "status": "proved",
   "theorems": [
    "saves_are_final_states",
    "reload_restores_state",
    "reload_repeats_same_action",
    "reload_bisimulation",
    "crash_between_set_and_save"
   ],
   "note": "Autotuner attributes; the reload of tuners and solvers is C41/C42, of the container format C37"
  },
  {
   "property": "C09",
   "status": "proved",
   "theorems": [
    "subset_tuner_tuned_iff"
   ],
   "note": ""
  },
  {
   "property": "C10",
   "status": "proved",
   "theorems": [
    "failed_evaluation_quarantined",
    "evaluatable_voltages_were_evaluated",
    "tuned_voltages_are_evaluatable"
   ],
   "note": ""
  },
  {
   "property": "C11",
   "status": "proved",
   "theorems": [
    "recovery_halves_distance",
    "recovery_without_evaluatable_point"
   ],
   "note": ""
  },
  {
   "property": "C12",
   "status": "proved",
   "theorems": [
    "only_own_gates_move"
   ],
   "note": ""
  },
  {
   "property": "C13",
   "status": "proved",
   "theorems": [
    "step_limit_and_direction",
    "unlimited_step_passed_on"
   ],
   "note": ""
  },
  {
   "property": "C14",
   "status": "proved",
   "theorems": [
    "queue_bounded",
    "blind_steps_counted",
    "zero_step_number_blocks_evaluation"
   ],
   "note": ""
  },
  {
   "property": "C15",
   "status": "proved",
   "theorems": [
    "exact_multiple_livelock"
   ],
   "note": ""
  },
  {
   "property": "C16",
   "status": "proved",
   "theorems": [
    "sensing_dot_decision"
   ],
   "note": ""
  },
  {
   "property": "C17",
   "status": "proved",
   "theorems": [
    "expensive_nan_not_detected",
    "nan_blocks_autotuner_forever",
    "nan_voltage_runtime_error"
   ],
   "note": ""
  },
  {
   "property": "C18",
   "status": "proved",
   "theorems": [
    "descale_undoes_rescale",
    "rescale_divides",
    "rescale_leaves_unmentioned"
   ],
   "note": ""
  },
  {
   "property": "C19",
   "status": "proved",
   "theorems": [
    "forwarding_suggestion",
    "forwarding_restart_keeps_suggestion"
   ],
   "note": ""
  },
  {
   "property": "C20",
   "status": "proved",
   "theorems": [
    "newton_requests_first",
    "newton_updates_only_desired"
   ],
   "note": "Abstract estimators; variances are matched by order, see variances_matched_by_order_refuted."
  },
  {
   "property": "C21",
   "status": "proved",
   "theorems": [
    "newton_step_inputs"
   ],
   "note": "Witness that a parameter without desired value is driven to 0: nan_target_driven_to_zero_refuted."
  },
  {
   "property": "C22",
   "status": "proved",
   "theorems": [
    "newton_step_least_squares"
   ],
   "note": "Exact arithmetic; the rcond cut-off of lstsq is not modelled."
  },
  {
   "property": "C23",
   "status": "proved",
   "theorems": [
    "nelder_mead_simplex_size"
   ],
   "note": ""
  },
  {
   "property": "C24",
   "status": "proved",
   "theorems": [
    "nelder_mead_keeps_best"
   ],
   "note": "Order statistics are expressed by the number of points with cost at most c, for every c."
  },
  {
   "property": "C25",
   "status": "proved",
   "theorems": [
    "nelder_mead_never_reflects_again"
   ],
   "note": ""
  },
  {
   "property": "C26",
   "status": "proved",
   "theorems": [
    "finite_differences_exact"
   ],
   "note": "Exact arithmetic."
  },
  {
   "property": "C27",
   "status": "proved",
   "theorems": [
    "fd_covariance",
    "shared_base_point_correlation_refuted"
   ],
   "note": "With a common base point the returned covariance lacks the correlation through that point; the theorem gives the exact difference and the witness shows it is non-zero."
  },
  {
   "property": "C28",
   "status": "proved",
   "theorems": [
    "requested_points_determine_gradient",
    "first_point_elsewhere_refuted"
   ],
   "note": "For every choice of null-space vectors."
  },
  {
   "property": "C29",
   "status": "proved",
   "theorems": [
    "symmetric_fails_in_tuning_loop",
    "symmetric_exact_on_requested_points"
   ],
   "note": ""
  },
  {
   "property": "C30",
   "status": "proved",
   "theorems": [
    "newton_fd_reaches_target"
   ],
   "note": "Matrix level model of solver and estimators, exact measurements, no step limit."
  },
  {
   "property": "C31",
   "status": "proved",
   "theorems": [
    "kalman_covariance_psd"
   ],
   "note": "Exact arithmetic; includes calls that raise because the innovation covariance is singular."
  },
  {
   "property": "C32",
   "status": "proved",
   "theorems": [
    "kalman_never_more_uncertain",
    "kalman_variance_along_step"
   ],
   "note": "Also: no update with an invertible covariance of its own raises. Exact arithmetic."
  },
  {
   "property": "C33",
   "status": "proved",
   "theorems": [
    "kalman_fixed_point"
   ],
   "note": ""
  },
  {
   "property": "C34",
   "status": "proved",
   "theorems": [
    "kalman_bookkeeping",
    "kalman_update_exception_safe"
   ],
   "note": "Filter abstract, positions finite, filter calls that do not raise."
  },
  {
   "property": "C35",
   "status": "proved",
   "theorems": [
    "restart_does_not_reposition"
   ],
   "note": ""
  },
  {
   "property": "C36",
   "status": "proved",
   "theorems": [
    "self_initialising_kalman_never_initialises"
   ],
   "note": ""
  },
  {
   "property": "C37",
   "status": "proved",
   "theorems": [
    "hdf5_round_trip",
    "shared_array_refuted"
   ],
   "note": "Objects are finite unfoldings with ids; constructors are assumed to accept copies of the saved arguments (see C42). h5py is modelled as a tree of named nodes with object references."
  },
  {
   "property": "C38",
   "status": "proved",
   "theorems": [
    "id_reuse_refuted",
    "hdf5_round_trip"
   ],
   "note": "The round trip needs unique ids; with reused ids the wrong value is loaded."
  },
  {
   "property": "C39",
   "status": "proved",
   "theorems": [
    "writer_in_order",
    "writer_stops_at_failure",
    "writer_join_complete",
    "writer_closed_after_join"
   ],
   "note": "A task is the deep copy made by write(); one user thread; the queue is FIFO and unbounded."
  },
  {
   "property": "C40",
   "status": "proved",
   "theorems": [
    "writer_join_deadlock",
    "writer_deadlock_possible",
    "writer_completes"
   ],
   "note": ""
  },
  {
   "property": "C41",
   "status": "proved",
   "theorems": [
    "subset_reload_iff"
   ],
   "note": ""
  },
  {
   "property": "C42",
   "status": "proved",
   "theorems": [
    "newton_reload",
    "estimators_keep_gates",
    "forwarding_reload",
    "kalman_estimator_reload",
    "subset_newton_reload",
    "fd_reload_iff",
    "selfinit_reload_fails",
    "sensing_dot_reload",
    "sensing_dot_forgets_failure",
    "sensing_dot_reload_no_recovery",
    "reload_path_grows",
    "kalman_gradient_reload",
    "kalman_gradient_reload_behaves",
    "kalman_gradient_given",
    "nelder_mead_reload_refuted",
    "reload_restores_state"
   ],
   "note": "Constructor arguments are taken to survive the file unchanged, which is C37."
  },
  {
   "property": "C43",
   "status": "proved",
   "theorems": [
    "history_rows",
    "history_keeps_rows"
   ],
   "note": "For sequences of appends that return normally and states that name the same gates; the second theorem also for appends that raise."
  },
  {
   "property": "C44",
   "status": "proved",
   "theorems": [
    "history_up_to_date",
    "iterations_are_steps",
    "same_point_ignored",
    "history_up_to_date_refuted"
   ],
   "note": "The first theorem holds if every round that follows a round beyond the first tuner starts at a new point; the refuted theorem shows the lost value otherwise."
  },
  {
   "property": "C45",
   "status": "proved",
   "theorems": [
    "lead_restores",
    "lead_crash"
   ],
   "note": "The experiment is an array of voltages without rounding; faults happen before the operation has an effect."
  },
  {
   "property": "C46",
   "status": "proved",
   "theorems": [
    "averaging_result",
    "nanmean_nan",
    "averaging_raises"
   ],
   "note": "Exact arithmetic; the value theorem is for repetitions without infinities, infinities are covered by nanmean_nan."
  },
  {
   "property": "C47",
   "status": "proved",
   "theorems": [
    "moving_average_entries",
    "moving_average_errors",
    "moving_average_bounds",
    "moving_average_constant",
    "nth_diff_entries",
    "transition_index_max"
   ],
   "note": "Exact arithmetic."
  },
  {
   "property": "C48",
   "status": "proved",
   "theorems": [
    "transform_int_same",
    "transform_int_negative",
    "transform_slice_same",
    "transform_slice_backwards",
    "transform_slice_start_raises",
    "transform_tuple",
    "transform_slice_refuted"
   ],
   "note": "MATLAB indexing is modelled as selection of 1-based positions."
  },
  {
   "property": "C49",
   "status": "proved",
   "theorems": [
    "set_qqd_guard",
    "abs_limit_guard",
    "abs_limit_refuted",
    "set_pretuned_guard",
    "set_pretuned_refuted"
   ],
   "note": "The special measure functions smget/smset are an array of channel values without rounding or ramps."
  },
  {
   "property": "C50",
   "status": "proved",
   "theorems": [
    "set_target_exact",
    "change_targets_exact"
   ],
   "note": "The second theorem is for tuners that do not share a solver."
  },
  {
   "property": "C51",
   "status": "proved",
   "theorems": [
    "action_only_if_names_coherent",
    "coherent_iterate_succeeds"
   ],
   "note": ""
  },
  {
   "property": "C52",
   "status": "proved",
   "theorems": [
    "newton_blocked_by_missing_gradient",
    "fd_without_desired_blocks_newton"
   ],
   "note": ""
  },
  {
   "property": "C53",
   "status": "proved",
   "theorems": [
    "fd_gradient_never_refreshed"
   ],
   "note": ""
  },
  {
   "property": "C54",
   "status": "proved",
   "theorems": [
    "fd_failure_is_final"
   ],
   "note": ""
  },
  {
   "property": "C55",
   "status": "proved",
   "theorems": [
    "kalman_order_independent"
   ],
   "note": ""
  },
  {
   "property": "C56",
   "status": "proved",
   "theorems": [
    "kalman_error_law"
   ],
   "note": ""
  },
  {
   "property": "C57",
   "status": "proved",
   "theorems": [
    "kalman_requests",
    "gate_maximum_refuted"
   ],
   "note": "The eigenbasis returned by numpy.linalg.eigh is a parameter: any orthonormal eigenbasis."
  },
  {
   "property": "C58",
   "status": "proved",
   "theorems": [
    "kalman_requests_terminate"
   ],
   "note": "Uniform maximum covariance, positive step widths, no tuned Jacobian."
  },
  {
   "property": "C59",
   "status": "proved",
   "theorems": [
    "tuned_requests",
    "tuned_directions_refuted",
    "tuned_step_width_refuted"
   ],
   "note": "The normalised null-space basis from sympy is a parameter."
  },
  {
   "property": "C60",
   "status": "proved",
   "theorems": [
    "nelder_mead_coefficients",
    "reflection_in_one_dimension_refuted"
   ],
   "note": ""
  },
  {
   "property": "C61",
   "status": "proved",
   "theorems": [
    "nelder_mead_collapse"
   ],
   "note": ""
  },
  {
   "property": "C62",
   "status": "proved",
   "theorems": [
    "nelder_mead_stays_in_box"
   ],
   "note": ""
  },
  {
   "property": "C63",
   "status": "proved",
   "theorems": [
    "nelder_mead_no_internal_error",
    "complete_simplex_refuted"
   ],
   "note": ""
  },
  {
   "property": "C64",
   "status": "proved",
   "theorems": [
    "nan_point_stays_refuted"
   ],
   "note": ""
  },
  {
   "property": "C65",
   "status": "proved",
   "theorems": [
    "nelder_mead_unusable_refuted",
    "nelder_mead_reload_refuted"
   ],
   "note": ""
  },
  {
   "property": "C66",
   "status": "proved",
   "theorems": [
    "second_save_refuted"
   ],
   "note": ""
  },
  {
   "property": "C67",
   "status": "proved",
   "theorems": [
    "self_reference_refuted"
   ],
   "note": ""
  },
  {
   "property": "C68",
   "status": "proved",
   "theorems": [
    "slash_in_key_refuted"
   ],
   "note": ""
  },
  {
   "property": "C69",
   "status": "proved",
   "theorems": [
    "writer_comes_to_rest",
    "writer_answers",
    "writer_completes"
   ],
   "note": ""
  },
  {
   "property": "C70",
   "status": "proved",
   "theorems": [
    "writer_silent_loss_refuted"
   ],
   "note": ""
  },
  {
   "property": "C71",
   "status": "proved",
   "theorems": [
    "qqd_request_accepted",
    "qqd_run_safe"
   ],
   "note": ""
  },
  {
   "property": "C72",
   "status": "proved",
   "theorems": [
    "qqd_blocked"
   ],
   "note": ""
  },
  {
   "property": "C73",
   "status": "proved",
   "theorems": [
    "qqd_nan_refuted"
   ],
   "note": ""
  },
  {
   "property": "C74",
   "status": "proved",
   "theorems": [
    "change_sensing_guard",
    "retune_qpc_guard",
    "retune_qpc_refuted"
   ],
   "note": "The position of the extremum in the scan is a parameter."
  },
  {
   "property": "C75",
   "status": "proved",
   "theorems": [
    "find_lead_transition_refuted",
    "find_lead_transition_result",
    "transition_index_refuted"
   ],
   "note": ""
  },
  {
   "property": "C76",
   "status": "proved",
   "theorems": [
    "transition_index_step",
    "steepest_point_inside",
    "at_diff_is_nth_diff"
   ],
   "note": ""
  },
  {
   "property": "C77",
   "status": "proved",
   "theorems": [
    "lead_values",
    "lead_returns",
    "lead_labels_refuted",
    "lead_window_refuted"
   ],
   "note": "Two-dimensional data are averaged over lines before; one line is modelled."
  },
  {
   "property": "C78",
   "status": "proved",
   "theorems": [
    "averaging_single_refuted",
    "averaging_raises"
   ],
   "note": ""
  },
  {
   "property": "C79",
   "status": "proved",
   "theorems": [
    "failed_fit",
    "good_fit"
   ],
   "note": "The fits are parameters that return or raise."
  },
  {
   "property": "C80",
   "status": "proved",
   "theorems": [
    "sensing_1d_refuted",
    "sensing_2d_flank",
    "sensing_2d_refuted",
    "sensing_1d_flank"
   ],
   "note": "The smoothing polynomial is taken to be exact on the scan points."
  },
  {
   "property": "C81",
   "status": "proved",
   "theorems": [
    "resp_default_refuted",
    "resp_window",
    "line_value_result"
   ],
   "note": ""
  },
  {
   "property": "C82",
   "status": "proved",
   "theorems": [
    "unready_estimator_misaligns",
    "unready_estimator_raises"
   ],
   "note": ""
  },
  {
   "property": "C83",
   "status": "proved",
   "theorems": [
    "unevaluated_row_blocks"
   ],
   "note": ""
  },
  {
   "property": "C84",
   "status": "proved",
   "theorems": [
    "evaluator_data_recorded",
    "evaluator_rows_misaligned"
   ],
   "note": ""
  },
  {
   "property": "C85",
   "status": "proved",
   "theorems": [
    "gui_default_inert"
   ],
   "note": ""
  },
  {
   "property": "C86",
   "status": "proved",
   "theorems": [
    "gui_step_bound",
    "gui_step_lost_refuted"
   ],
   "note": ""
  },
  {
   "property": "C87",
   "status": "proved",
   "theorems": [
    "gui_pause_last"
   ],
   "note": ""
  },
  {
   "property": "C88",
   "status": "proved",
   "theorems": [
    "gui_close_blocked",
    "gui_close_returns"
   ],
   "note": ""
  },
  {
   "property": "C89",
   "status": "proved",
   "theorems": [
    "gui_worker_survives",
    "gui_failure_pauses",
    "gui_start_lost_refuted"
   ],
   "note": ""
  },
  {
   "property": "C90",
   "status": "proved",
   "theorems": [
    "run_number_setter",
    "run_number_empty_refuted",
    "run_number_off_by_one"
   ],
   "note": ""
  },
  {
   "property": "C91",
   "status": "proved",
   "theorems": [
    "fd_requests"
   ],
   "note": ""
  },
  {
   "property": "C92",
   "status": "proved",
   "theorems": [
    "fd_estimate_when"
   ],
   "note": ""
  },
  {
   "property": "C93",
   "status": "proved",
   "theorems": [
    "newton_failing_update",
    "newton_init_iff"
   ],
   "note": ""
  },
  {
   "property": "C94",
   "status": "proved",
   "theorems": [
    "nelder_mead_build_up",
    "nelder_mead_remembers",
    "nelder_mead_decides"
   ],
   "note": ""
  },
  {
   "property": "C95",
   "status": "proved",
   "theorems": [
    "first_tuner_reaches_target"
   ],
   "note": "The numerical routines (orthogonal vector, gradient from points, least squares) are hypotheses: exact results in exact arithmetic; ComposeNumerics.v exhibits routines that satisfy them, C98 proves them for the helpers of util.py on top of exact library routines."
  },
  {
   "property": "C96",
   "status": "proved",
   "theorems": [
    "hierarchy_completes_or_fails",
    "hierarchy_with_gradients_completes"
   ],
   "note": "Numerical routines as in C95; steps not limited; the tuners share nothing."
  },
  {
   "property": "C97",
   "status": "proved",
   "theorems": [
    "tuned_tuner_fails_again"
   ],
   "note": "Numerical routines as in C95."
  },
  {
   "property": "C98",
   "status": "proved",
   "theorems": [
    "gradient_from_points_exact",
    "gradient_covariance_exact",
    "orthogonal_vector_exact",
    "hierarchy_with_library_routines"
   ],
   "note": "numpy.linalg.inv, sympy nullspace and numpy.linalg.lstsq are hypotheses; NumericsProofs.v exhibits routines that satisfy them."
  },
  {
   "property": "C99",
   "status": "proved",
   "theorems": [
    "make_target_exact"
   ],
   "note": "Every Series names a parameter once; pandas 0.2x semantics of arg[names]."
  },
  {
   "property": "C100",
   "status": "proved",
   "theorems": [
    "race_safe",
    "race_serialised",
    "race_complete_tuned",
    "race_complete_untuned_refuted",
    "race_reload_undone_refuted",
    "race_iterate_fails_refuted"
   ],
   "note": "One step is a reading or writing of an attribute of the Autotuner or a call into tuners, experiment or writer; the calls themselves are not interrupted."
  },
  {
   "property": "C101",
   "status": "proved",
   "theorems": [
    "load_time_exact",
    "load_time_bounded",
    "load_time_retry",
    "load_time_flat_refuted",
    "load_simulation_exact"
   ],
   "note": "scipy.optimize.curve_fit is a parameter; whether it finds the global minimum is not claimed."
  },
  {
   "property": "C102",
   "status": "proved",
   "theorems": [
    "lead_v1_levels",
    "lead_v1_continuous",
    "lead_v1_wrap_refuted",
    "lead_v2_levels",
    "lead_v2_wrap_refuted"
   ],
   "note": "Exact arithmetic, real valued time."
  },
  {
   "property": "C103",
   "status": "proved",
   "theorems": [
    "tc_weights",
    "tc_weights_edge_refuted",
    "tc_position_shift",
    "lead_weights_refuted"
   ],
   "note": "Exact arithmetic."
  },
  {
   "property": "C104",
   "status": "proved",
   "theorems": [
    "tc_two_fits",
    "tc_sign_refuted"
   ],
   "note": "scipy.optimize.curve_fit is a parameter."
  },
  {
   "property": "C105",
   "status": "proved",
   "theorems": [
    "column_names_distinct",
    "get_gradients_exact",
    "get_gradients_right",
    "get_gradients_refuted",
    "get_gradient_variances_exact",
    "get_gradient_covariances_refuted"
   ],
   "note": "Names are ASCII strings; the regular expressions are modelled as functions that search the leftmost match."
  },
  {
   "property": "C106",
   "status": "proved",
   "theorems": [
    "evaluator_reload",
    "evaluator_reload_again",
    "evaluator_reload_refuted",
    "measurement_reload",
    "qqd_measurement_refuted"
   ],
   "note": "That the dictionary itself survives the file is C37; values are opaque, parameters are strings."
  },
  {
   "property": "C107",
   "status": "proved",
   "theorems": [
    "limited_tuner_reaches_target",
    "hierarchy_with_limits_completes"
   ],
   "note": "numpy.linalg.lstsq is a hypothesis: a shortest exact solution; ComposeNumerics.v exhibits such a routine. Limited steps while the gradient is still being learnt: C134."
  },
  {
   "property": "C108",
   "status": "proved",
   "theorems": [
    "scan_start_default",
    "scan_needs_points",
    "scan_rate_refuted",
    "prefit_start"
   ],
   "note": "scipy.optimize.curve_fit is a parameter that raises ValueError for starting values outside the bounds. Exact arithmetic."
  },
  {
   "property": "C109",
   "status": "proved",
   "theorems": [
    "load_start",
    "tc_guess_exact",
    "tc_guess_few_refuted"
   ],
   "note": "numpy.polyfit is a parameter, exact on straight lines. Exact arithmetic."
  },
  {
   "property": "C110",
   "status": "proved",
   "theorems": [
    "lead_data",
    "lead_recalculation_refuted",
    "load_recalculation_refuted",
    "tc_recalculation"
   ],
   "note": "Values are numbers, lines and pairs of lines."
  },
  {
   "property": "C111",
   "status": "proved",
   "theorems": [
    "plot_names",
    "plot_names_refuted",
    "plot_layout",
    "plot_refuted"
   ],
   "note": "matplotlib is what it returns for the number of fields and whether it accepts shapes."
  },
  {
   "property": "C112",
   "status": "proved",
   "theorems": [
    "window_refuted",
    "window_transition",
    "window_refresh"
   ],
   "note": "The figure of a window is its number of fields."
  },
  {
   "property": "C113",
   "status": "proved",
   "theorems": [
    "lead_plot_refuted",
    "marks_refuted",
    "parameter_plot_refuted",
    "gradient_plot_refuted"
   ],
   "note": "Only whether a plot is made, not its appearance."
  },
  {
   "property": "C114",
   "status": "proved",
   "theorems": [
    "live_rows",
    "average_rows",
    "live_start_refuted"
   ],
   "note": "Contents of objects are opaque; different attributes start with different objects; every append is a new row."
  },
  {
   "property": "C115",
   "status": "proved",
   "theorems": [
    "array_transfer",
    "transfer_values",
    "transfer_refused",
    "tuple_refuted"
   ],
   "note": "Numbers are opaque; bytes and typecast give back the entries in C order; MATLAB reshape and transpose as documented."
  },
  {
   "property": "C116",
   "status": "proved",
   "theorems": [
    "connect_once",
    "connect_again",
    "connect_started_refuted"
   ],
   "note": "MATLAB offers a session for every request; a name belongs to one session."
  },
  {
   "property": "C117",
   "status": "proved",
   "theorems": [
    "passthru_dealt",
    "passthru_lines",
    "passthru_first",
    "passthru_files",
    "passthru_failed_refuted",
    "passthru_package_refuted",
    "passthru_mixed_refuted",
    "passthru_line_lead_refuted"
   ],
   "note": "Measurements return vectors of floats or raise."
  },
  {
   "property": "C118",
   "status": "proved",
   "theorems": [
    "tune_call",
    "tune_repeat",
    "tune_understood",
    "tune_result_kind",
    "offered_refuted",
    "legacy_scan",
    "legacy_scan_2d"
   ],
   "note": "Options are numbers, numpy scalars or texts."
  },
  {
   "property": "C119",
   "status": "proved",
   "theorems": [
    "snapshot_trip",
    "snapshot_new",
    "multiprocess_refuted"
   ],
   "note": "copy.deepcopy of the builtin types, numpy and pandas as documented; no cycles; the reserved objects are experiments; pickle has no memo for numbers."
  },
  {
   "property": "C120",
   "status": "proved",
   "theorems": [
    "constructor_call",
    "constructor_fields",
    "transition_scans",
    "averaging_made",
    "response_series",
    "passthru_series"
   ],
   "note": "Values are opaque; pandas Series constructor as documented; arguments given explicitly as None are covered for the special arguments only."
  },
  {
   "property": "C121",
   "status": "proved",
   "theorems": [
    "later_calendar",
    "names_chronological",
    "clock_names"
   ],
   "note": "Exact arithmetic of the seconds; strftime of four-digit years; str order by code points."
  },
  {
   "property": "C122",
   "status": "proved",
   "theorems": [
    "library_loaded",
    "history_source",
    "library_until",
    "reload_nested",
    "library_after_reload_refuted"
   ],
   "note": "Files have a readable autotuner or raise; opening a directory raises; the executor returns results in order (documented)."
  },
  {
   "property": "C123",
   "status": "proved",
   "theorems": [
    "pending_voltages_set",
    "pending_voltages_blocked"
   ],
   "note": "In the composition of Autotuner and SubsetTuners (ComposeModel.v), for every solver. An earlier version of this entry claimed that the voltages are never set; it had misread the attribute name assigned in qtune/autotuner.py L70."
  },
  {
   "property": "C124",
   "status": "proved",
   "theorems": [
    "organizer_shows",
    "organizer_start",
    "action_refreshes",
    "choices_made",
    "organizer_failure_refuted",
    "organizer_colours_refuted"
   ],
   "note": "Widgets of pyqtgraph by the parts of their interface that are used; hypotheses on the names exclude # and a gate called err_bar."
  },
  {
   "property": "C125",
   "status": "proved",
   "theorems": [
    "configure_logging",
    "child_logger_messages",
    "level_chosen",
    "default_gui_messages",
    "default_gui_refuted",
    "second_window_refuted",
    "lowest_level_refuted",
    "logger_argument_refuted"
   ],
   "note": "Behaviour of the standard module logging is modelled and trusted; filters and logging.disable left out."
  },
  {
   "property": "C126",
   "status": "proved",
   "theorems": [
    "tuner_at_work",
    "never_a_tuner",
    "worker_tuner",
    "worker_stops",
    "appended_was_iterated",
    "appended_not_iterated_refuted",
    "window_refers",
    "voltages_reloaded",
    "state_reloaded",
    "stale_window_refuted",
    "windows_listed"
   ],
   "note": "Windows and autotuners as numbers; that Qt delivers no signals to a deleted window is trusted."
  },
  {
   "property": "C127",
   "status": "proved",
   "theorems": [
    "transition_window",
    "transition_position",
    "lead_transition_simulated",
    "transition_edge_refuted",
    "sim_constructor",
    "sim_voltages",
    "initial_voltages_refuted",
    "sim_measured",
    "detune_simulation_refuted"
   ],
   "note": "Noise factors are 0 in the code; exact reals; numpy 1.18 or later for detune_simulation."
  },
  {
   "property": "C128",
   "status": "proved",
   "theorems": [
    "kalman_newton_contracts",
    "kalman_newton_converges",
    "kalman_exact_rounds",
    "kalman_exact_refuted",
    "kalman_exact_target"
   ],
   "note": "Exact arithmetic; all parameters have a desired value; no step limit; steps below the threshold of the estimator are excluded in the exact case."
  },
  {
   "property": "C129",
   "status": "proved",
   "theorems": [
    "min_gradient_explains",
    "min_gradient_refused",
    "min_gradient_affine",
    "min_gradient_quadratic",
    "min_gradient_rows",
    "suggested_direction",
    "suggested_direction_single",
    "suggested_direction_refuted"
   ],
   "note": "Exact arithmetic; eigenvectors as numpy.linalg.eigh documents them."
  },
  {
   "property": "C130",
   "status": "proved",
   "theorems": [
    "ready_outcome",
    "estimators_steady",
    "ready_solvers_step",
    "not_ready_solver_requests",
    "undesired_never_ready",
    "fd_ready",
    "fd_ready_writes",
    "ready_means_no_request_refuted"
   ],
   "note": "Kalman requests are an argument."
  },
  {
   "property": "C131",
   "status": "proved",
   "theorems": [
    "class_statements",
    "imports_registered",
    "package_classes_known",
    "kalman_heuristics_refuted",
    "unknown_class_refuted",
    "version_cases",
    "version_other_repository_refuted",
    "version_of_file",
    "version_needed",
    "read_files_refuted",
    "load_auto_tuner_round_trip"
   ],
   "note": "Import statements of the package as a table; references across the entries of a file are simplified in read_files."
  },
  {
   "property": "C132",
   "status": "proved",
   "theorems": [
    "chord_jacobian_forever",
    "chord_converges_with_noise",
    "chord_cycle_refuted"
   ],
   "note": "Exact arithmetic; no step limit; the noise is bounded and arbitrary, not random."
  },
  {
   "property": "C133",
   "status": "proved",
   "theorems": [
    "parameter_window_refresh",
    "gradient_window_refresh",
    "gradient_window_second_time",
    "gradient_window_blank_refuted",
    "plot_tuning_exact",
    "plot_tuning_refuted",
    "labels_refuted",
    "window_after_failure",
    "plot_tuning_open",
    "labels_consistent"
   ],
   "note": "Histories with at least one row; names without duplicates; for gradients the name conditions of C105."
  },
  {
   "property": "C134",
   "status": "proved",
   "theorems": [
    "limited_learning",
    "limited_reaches_target",
    "limited_blocked_refuted",
    "limited_queue"
   ],
   "note": "Exact arithmetic over an ordered field with a length function; evaluations do not fail; one tuner."
  },
  {
   "property": "C135",
   "status": "proved",
   "theorems": [
    "limited_converges_with_noise",
    "limited_cures_cycle"
   ],
   "note": "Exact arithmetic over an ordered field with a length function; one step per evaluation; evaluations do not fail; one tuner; noise bounded and arbitrary."
  },
  {
   "property": "C136",
   "status": "proved",
   "theorems": [
    "kalman_best_fit",
    "kalman_error_within"
   ],
   "note": "Exact arithmetic; the filter of filterpy as in its documentation (predict, update in Joseph form)."
  },
  {
   "property": "C137",
   "status": "proved",
   "theorems": [
    "raw_window_buttons",
    "raw_window_number",
    "raw_window_pictures",
    "raw_window_stale_refuted"
   ],
   "note": "The last theorem is the witness of the stale buttons and of -1."
  },
  {
   "property": "C138",
   "status": "proved",
   "theorems": [
    "reevaluate_never",
    "reevaluate_intended"
   ],
   "note": "reevaluate_intended describes the function on the objects it is written for."
  },
  {
   "property": "C139",
   "status": "proved",
   "theorems": [
    "kalman_runs",
    "kalman_regret",
    "kalman_far_rounds",
    "kalman_requests_few",
    "kalman_requests_converge"
   ],
   "note": "One maximum covariance for all gates in the last two theorems, and no step limit. Example: a first gradient of the wrong sign."
  },
  {
   "property": "C140",
   "status": "proved",
   "theorems": [
    "call_exact",
    "results_stay",
    "data_pile_up",
    "call_refuted",
    "struct_attributes",
    "struct_items",
    "views_follow",
    "pair_measured"
   ],
   "note": "MATLAB is a workspace with struct arrays of one dimension and functions with an arbitrary state; items of cell arrays and columns of tables are not modelled."
  },
  {
   "property": "C141",
   "status": "proved",
   "theorems": [
    "limited_runs",
    "kalman_predictions",
    "limited_measurements",
    "limited_far",
    "limited_reaches"
   ],
   "note": "Exact arithmetic; evaluations do not fail; the way to the target for devices that are affine and steps without requests."
  },
  {
   "property": "C142",
   "status": "proved",
   "theorems": [
    "limited_requests_few",
    "limited_requests_converge",
    "limited_requests_bound",
    "limited_requests_reach"
   ],
   "note": "Exact arithmetic; evaluations do not fail; one step per evaluation (maximal_step_number 1) and one maximum covariance for all gates; the last three for affine devices."
  },
  {
   "property": "C143",
   "status": "proved",
   "theorems": [
    "fading_forgets",
    "fading_recovers",
    "fading_asks_again",
    "drift_floor",
    "drift_runs",
    "drift_starves",
    "drift_blind"
   ],
   "note": "Exact arithmetic; state transition the identity; fading memory without process noise in the first three, one value per filter in all but the first; one maximum covariance for all gates."
  },
  {
   "property": "C144",
   "status": "proved",
   "theorems": [
    "tuned_requests_few",
    "tuned_runaway"
   ],
   "note": "Exact arithmetic; filters without dynamics, noise and fading memory; one largest maximum covariance; the runaway for a null space of dimension one."
  },
  {
   "property": "C145",
   "status": "proved",
   "theorems": [
    "each_requests_few",
    "each_requests_converge",
    "each_ignored_gate"
   ],
   "note": "Exact arithmetic; filters without dynamics, noise and fading memory; no step limit; an uncorrelated gate is not mixed with others by the eigenvectors (each_ignored_gate)."
  },
  {
   "property": "C146",
   "status": "proved",
   "theorems": [
    "coupled_pair_completes",
    "coupled_pair_rate",
    "coupled_pair_runs_forever"
   ],
   "note": "Exact arithmetic, lstsq returns the shortest solution, finite difference estimators with given gradients, deterministic evaluators that do not move the gates."
  },
  {
   "property": "C147",
   "status": "proved",
   "theorems": [
    "curved_tuner_completes",
    "misled_tuner_runs_forever",
    "curved_tuner_learns",
    "steady_device_is_tuned"
   ],
   "note": "Exact arithmetic, lstsq returns the shortest solution, deterministic evaluators that do not move the gates. The gradients of finite difference estimators are not updated after they are known, so that the rate stays linear."
  },
  {
   "property": "C148",
   "status": "proved",
   "theorems": [
    "noisy_tuner_completes",
    "unreached_tuner_runs_forever"
   ],
   "note": "Exact arithmetic, lstsq returns the shortest solution, finite difference estimators with given gradients, evaluators do not move the gates; their answers may depend on the number of the call. Gradients measured with noise are not covered."
  },
  {
   "property": "C149",
   "status": "proved",
   "theorems": [
    "curved_tower_completes",
    "curved_tower_rate"
   ],
   "note": "Exact arithmetic, lstsq returns the shortest solution, finite difference estimators with given gradients, deterministic evaluators that do not move the gates."
  },
  {
   "property": "C150",
   "status": "proved",
   "theorems": [
    "paced_tower_completes",
    "paced_tower_rate"
   ],
   "note": "Exact arithmetic, lstsq returns the shortest solution, finite difference estimators with given gradients, deterministic evaluators that do not move the gates."
  },
  {
   "property": "C151",
   "status": "proved",
   "theorems": [
    "studied_tower_completes",
    "studied_tower_rate"
   ],
   "note": "Exact arithmetic, lstsq returns the shortest solution, the orthogonal vectors are exact and have no entry larger than one, deterministic evaluators that do not move the gates. A tuner that measures its gradients must miss its targets at the points it measures: one that is found tuned before keeps an unfinished estimator (see C97)."
  },
  {
   "property": "C152",
   "status": "proved",
   "theorems": [
    "peak_flank",
    "sensing_dot_simulated",
    "sensing_dot_repeated",
    "sensing_dot_2d_stretched"
   ],
   "note": "Exact arithmetic. The values of the smoothing polynomials (degree 10 and 40) are taken to be the data, and the missing name numpy.polynomial.poly1d that makes SensingDot1D raise is taken to exist; what the code does otherwise is in C80. Part (2) and (3) are for the rising flank and a positive signal."
  },
  {
   "property": "C153",
   "status": "proved",
   "theorems": [
    "constructor_changes_no_run",
    "constructed_tower_completes"
   ],
   "note": "Evaluators are deterministic and do not move the gates. The theorems on hierarchies that start from [fresh] (C95 and later) carry over in the same way as (2)."
  }
 ]
}