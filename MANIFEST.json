{
 "claims": [
  {
   "property": "C01",
   "status": "proved",
   "theorems": [
    "C01_schedule"
   ],
   "note": ""
  },
  {
   "property": "C02",
   "status": "proved",
   "theorems": [
    "C02_no_error_path",
    "C02_two_waypoints",
    "C02_evaluation_has_trajectory"
   ],
   "note": ""
  },
  {
   "property": "C03",
   "status": "proved",
   "theorems": [
    "C03_ends_at_rest",
    "C03_from_scratch",
    "C03_stitched",
    "C03_choice"
   ],
   "note": ""
  },
  {
   "property": "C04",
   "status": "proved",
   "theorems": [
    "C04_replacement",
    "C04_launch_list",
    "C04_published"
   ],
   "note": ""
  },
  {
   "property": "C05",
   "status": "proved",
   "theorems": [
    "C05_keep"
   ],
   "note": ""
  },
  {
   "property": "C06",
   "status": "proved",
   "theorems": [
    "C06_map",
    "C06_always",
    "C06_consumed"
   ],
   "note": ""
  },
  {
   "property": "C07",
   "status": "proved",
   "theorems": [
    "C07_launches_and_swaps",
    "C07_one_swap_between"
   ],
   "note": ""
  },
  {
   "property": "C08",
   "status": "proved",
   "theorems": [
    "C08_swap_drops_request",
    "C08_swap_clears",
    "C08_clear_drops_request",
    "C08_empty_drops_request",
    "C08_every_request_served_refuted"
   ],
   "note": "The positive part and the lost-request witness are both proved."
  },
  {
   "property": "C09",
   "status": "proved",
   "theorems": [
    "C09_idle_served",
    "C09_request_launches",
    "C09_nothing_to_generate",
    "C09_collected_launched",
    "C09_zone"
   ],
   "note": ""
  },
  {
   "property": "C10",
   "status": "proved",
   "theorems": [
    "C10_false_cancels",
    "C10_flag_is_argument",
    "C10_only_refrains_refuted"
   ],
   "note": "Settled negatively: a counterexample run is proved."
  },
  {
   "property": "C11",
   "status": "proved",
   "theorems": [
    "C11_forgotten",
    "C11_modification_used_refuted"
   ],
   "note": "Settled negatively: a counterexample run is proved."
  },
  {
   "property": "C12",
   "status": "proved",
   "theorems": [
    "C12_references",
    "C12_inside",
    "C12_any_addition"
   ],
   "note": ""
  },
  {
   "property": "C13",
   "status": "proved",
   "theorems": [
    "C13_hold"
   ],
   "note": ""
  },
  {
   "property": "C14",
   "status": "proved",
   "theorems": [
    "C14_no_disturbance",
    "C14_waiting_swap",
    "C14_waits"
   ],
   "note": ""
  },
  {
   "property": "C15",
   "status": "proved",
   "theorems": [
    "C15_clock_set_back",
    "C15_monotone_clock_refuted"
   ],
   "note": "Characterisation proved; the user expectation is refuted by a counterexample run."
  },
  {
   "property": "C16",
   "status": "proved",
   "theorems": [
    "C16_bounds",
    "C16_monotone",
    "C16_count",
    "C16_users_only_refuted"
   ],
   "note": "The bounds, monotonicity and count are proved; the expectation that only user waypoints are counted is refuted."
  },
  {
   "property": "C17",
   "status": "proved",
   "theorems": [
    "C17_step",
    "C17_nearest",
    "C17_target"
   ],
   "note": ""
  },
  {
   "property": "C18",
   "status": "proved",
   "theorems": [
    "C18_passes",
    "C18_at_its_time_refuted"
   ],
   "note": "Characterisation proved; the user expectation is refuted."
  },
  {
   "property": "C19",
   "status": "proved",
   "theorems": [
    "C19_dropped",
    "C19_unpassed_kept_refuted"
   ],
   "note": "Characterisation proved; the user expectation is refuted."
  },
  {
   "property": "C20",
   "status": "proved",
   "theorems": [
    "C20_kept",
    "C20_no_return_refuted"
   ],
   "note": "Characterisation proved; the user expectation is refuted."
  },
  {
   "property": "C21",
   "status": "proved",
   "theorems": [
    "C21_register",
    "C21_computation"
   ],
   "note": ""
  },
  {
   "property": "C22",
   "status": "proved",
   "theorems": [
    "C22_never_lost_refuted",
    "C22_notification",
    "C22_first"
   ],
   "note": "Positive part when calls are not concurrent with the background thread; the expectation that no notification is lost is refuted by a counterexample execution."
  },
  {
   "property": "C23",
   "status": "proved",
   "theorems": [
    "C23_no_circular_wait",
    "C23_no_deadlock"
   ],
   "note": "Values abstracted, flags, mutexes and future exact. Computations do not throw; a second get on an invalid future (C25) counts as a step."
  },
  {
   "property": "C24",
   "status": "proved",
   "theorems": [
    "C24_next_poll_throws",
    "C24_wedged"
   ],
   "note": "Any number of polls; the failure is proved to wedge the object."
  },
  {
   "property": "C25",
   "status": "proved",
   "theorems": [
    "C25_one_evaluator_no_misuse",
    "C25_two_evaluators_refuted"
   ],
   "note": "Positive for one evaluating thread and any number of others; refuted for two. generateTrajectory is not called by clients in the positive part."
  },
  {
   "property": "C26",
   "status": "proved",
   "theorems": [
    "C26_fresh_object_undefined",
    "C26_argument_ignored",
    "C26_published"
   ],
   "note": "Settled negatively."
  },
  {
   "property": "C27",
   "status": "proved",
   "theorems": [
    "C27_bounded",
    "C27_after_destructor",
    "C27_progress",
    "C27_moves",
    "C27_exit"
   ],
   "note": ""
  },
  {
   "property": "C28",
   "status": "proved",
   "theorems": [
    "C28_moved_waypoint_reached"
   ],
   "note": ""
  },
  {
   "property": "C29",
   "status": "proved",
   "theorems": [
    "C29_small_changes_refuted",
    "C29_small_changes_ignored"
   ],
   "note": ""
  },
  {
   "property": "C30",
   "status": "proved",
   "theorems": [
    "C30_bounded",
    "C30_local",
    "C30_no_jump_at_change"
   ],
   "note": ""
  },
  {
   "property": "C31",
   "status": "proved",
   "theorems": [
    "C31_velocity_compensation"
   ],
   "note": ""
  },
  {
   "property": "C32",
   "status": "proved",
   "theorems": [
    "C32_acceleration_compensation_refuted",
    "C32_at_the_waypoint"
   ],
   "note": ""
  },
  {
   "property": "C33",
   "status": "proved",
   "theorems": [
    "C33_passed_waypoint"
   ],
   "note": ""
  },
  {
   "property": "C34",
   "status": "proved",
   "theorems": [
    "C34_axis_dependent_refuted",
    "C34_widths_shrink"
   ],
   "note": ""
  },
  {
   "property": "C35",
   "status": "proved",
   "theorems": [
    "C35_copy_same",
    "C35_copy_forgets_width_refuted"
   ],
   "note": ""
  },
  {
   "property": "C36",
   "status": "proved",
   "theorems": [
    "C36_evaluate_is_derivative",
    "C36_evaluate_vector",
    "C36_get_coefficients"
   ],
   "note": ""
  },
  {
   "property": "C37",
   "status": "proved",
   "theorems": [
    "C37_product",
    "C37_sum",
    "C37_sum_defined",
    "C37_scalar"
   ],
   "note": ""
  },
  {
   "property": "C38",
   "status": "proved",
   "theorems": [
    "C38_scale_time",
    "C38_offset",
    "C38_append_coefficients",
    "C38_fewer_coefficients"
   ],
   "note": ""
  },
  {
   "property": "C39",
   "status": "proved",
   "theorems": [
    "C39_min_max",
    "C39_inverted",
    "C39_min_max_low_degree"
   ],
   "note": "General case under the hypothesis roots_complete (the root finder reports every real root of the next derivative in the interval); C39_min_max_low_degree discharges it for the modelled root finder when the next derivative has at most two zeros besides the origin."
  },
  {
   "property": "C40",
   "status": "proved",
   "theorems": [
    "C40_trajectory_extrema"
   ],
   "note": "Exact root finder assumed (explicit hypothesis exact_root_finder); real arithmetic; the maximum needs no value bound, the minimum needs values below DBL_MAX and either two or more dimensions or a component of constant sign."
  },
  {
   "property": "C41",
   "status": "proved",
   "theorems": [
    "C41_single_dimension_minimum_refuted"
   ],
   "note": "Settled negatively: the user expectation is false; the theorem exhibits the witness, for every root finder that reports no root of a non-zero constant."
  },
  {
   "property": "C42",
   "status": "proved",
   "theorems": [
    "C42_evaluate_segment",
    "C42_evaluate_past_end",
    "C42_evaluate_before_start",
    "C42_in_range_for_any_addition"
   ],
   "note": ""
  },
  {
   "property": "C43",
   "status": "proved",
   "theorems": [
    "C43_continuous",
    "C43_derivative"
   ],
   "note": ""
  },
  {
   "property": "C44",
   "status": "proved",
   "theorems": [
    "C44_scale_segment_times"
   ],
   "note": ""
  },
  {
   "property": "C45",
   "status": "proved",
   "theorems": [
    "C45_scale_to_limits",
    "C45_true_means_checked"
   ],
   "note": "Exact root finder assumed."
  },
  {
   "property": "C46",
   "status": "proved",
   "theorems": [
    "C46_single_dimension_refuted",
    "C46_segment",
    "C46_trajectory_segments"
   ],
   "note": "Settled negatively."
  },
  {
   "property": "C47",
   "status": "proved",
   "theorems": [
    "C47_append_dimensions",
    "C47_append_dimensions_equal_times",
    "C47_append_empty",
    "C47_different_coefficients",
    "C47_append_empty_segment",
    "C47_different_coefficients_refuted"
   ],
   "note": "Positive part for equal N, negative witness for different N."
  },
  {
   "property": "C48",
   "status": "proved",
   "theorems": [
    "C48_add_trajectory",
    "C48_add_trajectories",
    "C48_add_trajectories_defined",
    "C48_offset",
    "C48_offset_defined"
   ],
   "note": ""
  },
  {
   "property": "C49",
   "status": "proved",
   "theorems": [
    "C49_evaluate_range",
    "C49_sample_is_evaluate",
    "C49_start_at_end_undefined",
    "C49_start_past_end"
   ],
   "note": "Covers the documented behaviour, the shifted time stamps and the out-of-bounds access."
  },
  {
   "property": "C50",
   "status": "proved",
   "theorems": [
    "C50_operations",
    "C50_iteration",
    "C50_size_mismatch_aborts",
    "C50_remove_reports",
    "C50_subdimension",
    "C50_subdimension_out_of_range",
    "C50_equal_tol",
    "C50_equal_tol_refl_sym"
   ],
   "note": ""
  },
  {
   "property": "C51",
   "status": "proved",
   "theorems": [
    "C51_segment_times",
    "C51_segment_times_ramp",
    "C51_velocity_ramp"
   ],
   "note": ""
  },
  {
   "property": "C52",
   "status": "proved",
   "theorems": [
    "C52_accepted_iff",
    "C52_repeated_waypoint_refuted",
    "C52_negative_speed"
   ],
   "note": "The user expectation is refuted; the theorem gives the exact condition under which the setup accepts the estimated times."
  },
  {
   "property": "C53",
   "status": "proved",
   "theorems": [
    "C53_setup_accepts",
    "C53_any_free_constraints",
    "C53_solve_linear",
    "C53_vertices"
   ],
   "note": "Eigen's dense inverse is assumed exact (explicit hypothesis, shown satisfiable); real arithmetic."
  },
  {
   "property": "C54",
   "status": "proved",
   "theorems": [
    "C54_mapping_inverse",
    "C54_mapping_meaning",
    "C54_tiny_times_refuted",
    "C54_routines_exist"
   ],
   "note": "Proved for times of at least machine epsilon; refuted for smaller positive times. Dense inverse of the lower-right block assumed exact."
  },
  {
   "property": "C55",
   "status": "proved",
   "theorems": [
    "C55_cost_is_energy",
    "C55_cost_any_state",
    "C55_cost_nonneg"
   ],
   "note": "Real arithmetic; no assumption about the numerical routines."
  },
  {
   "property": "C56",
   "status": "proved",
   "theorems": [
    "C56_optimal",
    "C56_optimal_cost",
    "C56_same_derivative",
    "C56_unique",
    "C56_solver_independent",
    "C56_unique_refuted"
   ],
   "note": "Dense inverse and sparse solver assumed exact (explicit hypotheses, shown satisfiable)."
  },
  {
   "property": "C57",
   "status": "proved",
   "theorems": [
    "C57_bounded",
    "C57_value",
    "C57_monotone",
    "C57_threshold"
   ],
   "note": "Maxima are the true maxima (exact root finder assumed)."
  },
  {
   "property": "C58",
   "status": "proved",
   "theorems": [
    "C58_initial_guess_admitted",
    "C58_times_positive",
    "C58_times_positive_mellinger"
   ],
   "note": "NLopt is an oracle that evaluates points inside its bounds; all allocation methods."
  },
  {
   "property": "C59",
   "status": "proved",
   "theorems": [
    "C59_synthetic_division",
    "C59_quadratic_solver",
    "C59_no_roots",
    "C59_zeros",
    "C59_failure",
    "C59_number_of_roots",
    "C59_conjugate_pairs",
    "C59_terminates",
    "C59_degree_two_exact",
    "C59_backward_error",
    "C59_too_many_coefficients_undefined",
    "C59_every_root_reported_refuted",
    "C59_pair_search_refuted"
   ],
   "note": "Exact arithmetic; division by zero arbitrary. Accuracy of roots of degree three and more is relative to the deflated polynomials; not every root need be found. Refuted: every root reported (tiny coefficients), both zeros of a real pair tested."
  },
  {
   "property": "C60",
   "status": "proved",
   "theorems": [
    "C60_statistics",
    "C60_minimum",
    "C60_maximum",
    "C60_maximum_refuted",
    "C60_tag_of_handle",
    "C60_handle_stable",
    "C60_statistics_of_handle",
    "C60_reset",
    "C60_timer",
    "C60_stop_twice_refuted",
    "C60_mini_timer"
   ],
   "note": ""
  },
  {
   "property": "C61",
   "status": "proved",
   "theorems": [
    "C61_nanoseconds_exact",
    "C61_yaml_round_trip",
    "C61_file_round_trip",
    "C61_saving_again",
    "C61_file_reader_checks_shape",
    "C61_yaml_reader_checks_shape_refuted",
    "C61_unreadable_file_aborts",
    "C61_unreadable_segments",
    "C61_number_for_list",
    "C61_damaged_file_replaces_trajectory",
    "C61_no_dimension_refuted"
   ],
   "note": ""
  },
  {
   "property": "C62",
   "status": "proved",
   "theorems": [
    "C62_position",
    "C62_orientation",
    "C62_inverse",
    "C62_invalid_round_trip"
   ],
   "note": ""
  },
  {
   "property": "C63",
   "status": "proved",
   "theorems": [
    "C63_time_used",
    "C63_order",
    "C63_exact",
    "C63_distinct",
    "C63_coincide_10ms",
    "C63_coincide_unix",
    "C63_unix_grid"
   ],
   "note": ""
  },
  {
   "property": "C64",
   "status": "proved",
   "theorems": [
    "C64_quaternion_from_yaw",
    "C64_yaw_round_trip",
    "C64_euler_round_trip",
    "C64_gimbal_lock_refuted",
    "C64_skew",
    "C64_skew_accepted",
    "C64_matrix_is_rotation",
    "C64_rotation_accepted",
    "C64_only_rotations_refuted",
    "C64_accepted_nearly_rotation",
    "C64_vector_of_matrix",
    "C64_rotation_vector_round_trip",
    "C64_half_turn_refuted",
    "C64_angular_velocity_unique",
    "C64_omega",
    "C64_omega_small",
    "C64_fixed_axis",
    "C64_omega_dot"
   ],
   "note": ""
  },
  {
   "property": "C65",
   "status": "proved",
   "theorems": [
    "C65_quaternion",
    "C65_at_time",
    "C65_segment_at_time",
    "C65_yaw_rate",
    "C65_angular_motion",
    "C65_range",
    "C65_start_duration",
    "C65_whole",
    "C65_level",
    "C65_stays_in_range_refuted",
    "C65_range_refused",
    "C65_start_past_end",
    "C65_start_at_end_undefined"
   ],
   "note": ""
  },
  {
   "property": "C66",
   "status": "proved",
   "theorems": [
    "C66_window_edge_jump_refuted"
   ],
   "note": ""
  },
  {
   "property": "C67",
   "status": "proved",
   "theorems": [
    "C67_not_a_number_refuted",
    "C67_defined_otherwise"
   ],
   "note": ""
  },
  {
   "property": "C68",
   "status": "proved",
   "theorems": [
    "C68_stitch_shift",
    "C68_stitch_at_reference_refuted"
   ],
   "note": "Characterisation proved; the user expectation is refuted by a counterexample run."
  },
  {
   "property": "C70",
   "status": "proved",
   "theorems": [
    "C70_safe_destruction_refuted"
   ],
   "note": "Settled negatively."
  },
  {
   "property": "C71",
   "status": "proved",
   "theorems": [
    "C71_races_only_bare",
    "C71_races_exist"
   ],
   "note": "Values abstracted; generateTrajectory is not called by clients."
  },
  {
   "property": "C72",
   "status": "proved",
   "theorems": [
    "C72_last_evaluation",
    "C72_last_evaluation_mellinger",
    "C72_worse_point_wins",
    "C72_best_returned_refuted",
    "C72_no_evaluation",
    "C72_reported",
    "C72_no_evaluation_time"
   ],
   "note": "Characterisation proved; the user expectation is refuted."
  },
  {
   "property": "C73",
   "status": "proved",
   "theorems": [
    "C73_variables",
    "C73_bounds",
    "C73_right_variable",
    "C73_right_variable_refuted"
   ],
   "note": "Characterisation and the correct case proved; the user expectation is refuted with the generator's settings."
  },
  {
   "property": "C74",
   "status": "proved",
   "theorems": [
    "C74_maximum",
    "C74_high_orders"
   ],
   "note": "Exact root finder assumed."
  },
  {
   "property": "C75",
   "status": "proved",
   "theorems": [
    "C75_parts",
    "C75_total_cost"
   ],
   "note": ""
  },
  {
   "property": "C76",
   "status": "proved",
   "theorems": [
    "C76_result_interpolates",
    "C76_result_interpolates_mellinger",
    "C76_short_segment_refuted"
   ],
   "note": "Proved for all methods; the exception is proved as a counterexample. Exact dense inverse assumed."
  },
  {
   "property": "C77",
   "status": "proved",
   "theorems": [
    "C77_acceleration_limit",
    "C77_trajectory",
    "C77_equal_waypoints_abort",
    "C77_objective",
    "C77_executions",
    "C77_passes",
    "C77_holds"
   ],
   "note": "Exact dense inverse assumed (explicit hypothesis); no assumption on the sparse solver, the root finder or the points chosen by NLopt."
  },
  {
   "property": "C78",
   "status": "proved",
   "theorems": [
    "C78_gravity"
   ],
   "note": ""
  },
  {
   "property": "C80",
   "status": "proved",
   "theorems": [
    "C80_transform",
    "C80_default_point",
    "C80_velocity_world",
    "C80_velocity_world_inverse",
    "C80_odometry_yaw"
   ],
   "note": ""
  },
  {
   "property": "C79",
   "status": "proved",
   "theorems": [
    "C79_round_trip",
    "C79_round_trip_refuted",
    "C79_whole_seconds"
   ],
   "note": ""
  },
  {
   "property": "C81",
   "status": "proved",
   "theorems": [
    "C81_table",
    "C81_more_segments_than_samples_undefined"
   ],
   "note": ""
  },
  {
   "property": "C82",
   "status": "proved",
   "theorems": [
    "C82_random_vertices",
    "C82_random_checks",
    "C82_random_outcome",
    "C82_random_can_finish",
    "C82_random_stuck",
    "C82_random_finishes_refuted",
    "C82_random_box_undefined",
    "C82_square_vertices",
    "C82_square_sides",
    "C82_square_negative_rounds"
   ],
   "note": "Random numbers are arbitrary arguments. Refuted: that the random generator always returns for accepted boxes."
  },
  {
   "property": "C83",
   "status": "proved",
   "theorems": [
    "C83_A_inverse",
    "C83_A_meaning",
    "C83_coefficients",
    "C83_pseudo_inverse",
    "C83_constraints_recovered",
    "C83_counts",
    "C83_R_cost",
    "C83_R_semidefinite"
   ],
   "note": "getA, getAInverse, getMpinv are statements about exact inverses (hypothesis exact_inverse); the pseudo-inverse, counts and the symmetry of R hold for any inverse routine."
  },
  {
   "property": "C84",
   "status": "proved",
   "theorems": [
    "C84_candidates",
    "C84_reversed_range",
    "C84_bad_interval",
    "C84_finds_maximum_refuted",
    "C84_one_dimension",
    "C84_tolerance"
   ],
   "note": "Characterisation proved; the expectation that the maximum is among the candidates is refuted for any sampling interval in two dimensions and proved up to the change within one interval in one dimension."
  },
  {
   "property": "C85",
   "status": "proved",
   "theorems": [
    "C85_torque_and_thrust",
    "C85_columns",
    "C85_thrust_direction",
    "C85_acceleration_direction_refuted",
    "C85_hexacopter",
    "C85_speeds_nonnegative_refuted"
   ],
   "note": "Torque and thrust proved; the expectations that the direction of the acceleration matters and that squared speeds are non-negative are refuted."
  },
  {
   "property": "C86",
   "status": "proved",
   "theorems": [
    "C86_vertices",
    "C86_start_and_goal",
    "C86_meets",
    "C86_position_and_yaw",
    "C86_no_yaw"
   ],
   "note": ""
  },
  {
   "property": "C87",
   "status": "proved",
   "theorems": [
    "C87_needed_time",
    "C87_no_time_to_spare",
    "C87_no_turn",
    "C87_needed_time_at_rest",
    "C87_durations",
    "C87_too_short",
    "C87_long_leg",
    "C87_turn",
    "C87_limit_kept_refuted"
   ],
   "note": ""
  },
  {
   "property": "C88",
   "status": "proved",
   "theorems": [
    "C88_segments",
    "C88_trajectories",
    "C88_different_sizes",
    "C88_same_motion_refuted",
    "C88_same_dimension_refuted"
   ],
   "note": ""
  },
  {
   "property": "C89",
   "status": "proved",
   "theorems": [
    "C89_table",
    "C89_polynomial",
    "C89_beyond_degree",
    "C89_start_exact",
    "C89_time_in_segment",
    "C89_past_end",
    "C89_trajectory",
    "C89_after_start_refuted",
    "C89_before_end_refuted"
   ],
   "note": "C89_after_start_refuted and C89_before_end_refuted: the time handed to a segment's polynomial can lie a few roundoffs outside [0, duration]. Overflow and fused multiply-add are not modelled."
  },
  {
   "property": "C90",
   "status": "proved",
   "theorems": [
    "C90_each",
    "C90_snapshot",
    "C90_batch",
    "C90_one_moment_refuted",
    "C90_all_or_nothing_refuted"
   ],
   "note": "C90_one_moment_refuted and C90_all_or_nothing_refuted: the two user expectations are false."
  },
  {
   "property": "C91",
   "status": "proved",
   "theorems": [
    "C91_atomic",
    "C91_realised",
    "C91_progress",
    "C91_completes",
    "C91_end_time_refuted"
   ],
   "note": "C91_end_time_refuted: the user expectation about getMaxTime is false."
  },
  {
   "property": "C92",
   "status": "proved",
   "theorems": [
    "C92_monotone",
    "C92_error",
    "C92_separated",
    "C92_last",
    "C92_passes",
    "C92_last_is_end_refuted"
   ],
   "note": "C92_last_is_end_refuted: the last waypoint's time is not always getMaxTime. Overflow is not modelled."
  },
  {
   "property": "C93",
   "status": "proved",
   "theorems": [
    "C93_kept",
    "C93_dropped",
    "C93_batch_used_refuted",
    "C93_single_used_refuted"
   ],
   "note": "C93_batch_used_refuted, C93_single_used_refuted: the modification is not always used, even on a new object. C93_dropped says when in general."
  },
  {
   "property": "C94",
   "status": "proved",
   "theorems": [
    "C94_cost",
    "C94_maximum",
    "C94_upper_bound_refuted",
    "C94_empty",
    "C94_random",
    "C94_matrices"
   ],
   "note": "C94_upper_bound_refuted: the sampled maximum is below the true one. Doubles are reals here."
  },
  {
   "property": "C95",
   "status": "proved",
   "theorems": [
    "C95_scaled_times",
    "C95_scaled_cost",
    "C95_mellinger_limits",
    "C95_moving_vertices_refuted"
   ],
   "note": "C95_moving_vertices_refuted: with moving vertices the limits can be exceeded. Linear algebra and root finding are exact."
  },
  {
   "property": "C96",
   "status": "proved",
   "theorems": [
    "C96_gradient",
    "C96_single_segment",
    "C96_moved_times"
   ],
   "note": ""
  },
  {
   "property": "C97",
   "status": "proved",
   "theorems": [
    "C97_construct",
    "C97_default",
    "C97_getters",
    "C97_original",
    "C97_first_window",
    "C97_reset_keeps_width_refuted"
   ],
   "note": "C97_reset_keeps_width_refuted: a reset does not restore the initial width of modifications. int indices do not overflow."
  },
  {
   "property": "C98",
   "status": "proved",
   "theorems": [
    "C98_served",
    "C98_first_plan",
    "C98_example",
    "C98_hovering_refuted",
    "C98_flown_past",
    "C98_flown_past_example"
   ],
   "note": "C98_hovering_refuted: leaving the security zone is needed. The fairness assumed is weak: each thread makes a step if it could from some instant on for ever; a client keeps polling. Requests with pending modifications, or made while the background thread is between collecting and clearing the flag (these can be lost, C08), are not covered."
  },
  {
   "property": "C99",
   "status": "proved",
   "theorems": [
    "C99_settled",
    "C99_settled_example",
    "C99_quadratic_step",
    "C99_linear_step",
    "C99_linear_exact",
    "C99_fixed_shift",
    "C99_estimate",
    "C99_estimate_exact",
    "C99_first_stage",
    "C99_modulus_bound",
    "C99_lower_bound_refuted",
    "C99_shift_points",
    "C99_shift_modulus_refuted",
    "C99_rotation",
    "C99_scaling",
    "C99_example"
   ],
   "note": "Exact arithmetic. C99_lower_bound_refuted: the size used for the shifts is not a lower bound for the moduli (the source calls it one). C99_shift_modulus_refuted: the shift points do not have that modulus (the source says so). Convergence of the third stage (varying shifts) from a general start is not claimed."
  },
  {
   "property": "C69",
   "status": "proved",
   "theorems": [
    "C69_one_step_ahead",
    "C69_jump_stitched",
    "C69_jump_scratch",
    "C69_continuous_refuted"
   ],
   "note": "The expectation (no jump) is refuted with a reachable witness; the true bounds are proved for plans whose named waypoints have not been moved."
  },
  {
   "property": "C100",
   "status": "proved",
   "theorems": [
    "C100_publish_notifies",
    "C100_publish_waypoints",
    "C100_taken_published",
    "C100_published_idle",
    "C100_request_flagged",
    "C100_set_flagged",
    "C100_locks_released"
   ],
   "note": ""
  },
  {
   "property": "C101",
   "status": "proved",
   "theorems": [
    "C101_plan",
    "C101_bound",
    "C101_stitching_bounded_refuted",
    "C101_reserved_name_refuted"
   ],
   "note": "Two expectations a user would have are false of the code and are refuted: a bound on the number of stitching points in a plan, and that modifying a name no waypoint of the application has leaves the reference alone."
  },
  {
   "property": "C102",
   "status": "proved",
   "theorems": [
    "C102_vehicle",
    "C102_evaluation",
    "C102_speed",
    "C102_any_earlier_report_refuted"
   ],
   "note": "C102_any_earlier_report_refuted shows that the condition \"nothing looked in between\" cannot be dropped."
  },
  {
   "property": "C103",
   "status": "proved",
   "theorems": [
    "C103_order",
    "C103_settles",
    "C103_grouping",
    "C103_grouping_refuted"
   ],
   "note": "The expectation that batching is invisible is false of the code: C103_grouping_refuted."
  },
  {
   "property": "C104",
   "status": "proved",
   "theorems": [
    "C104_never_dangling",
    "C104_deleted",
    "C104_assign",
    "C104_construct",
    "C104_destroy",
    "C104_write",
    "C104_equal",
    "C104_equal_content_refuted",
    "C104_exclusive_refuted"
   ],
   "note": "Two expectations are false of the code and are refuted: comparison by content, and that constructing from std::move(pointer) takes the pointer over."
  },
  {
   "property": "C105",
   "status": "proved",
   "theorems": [
    "C105_applied",
    "C105_modify",
    "C105_example",
    "C105_in_flight",
    "C105_in_flight_example"
   ],
   "note": ""
  }
 ]
}