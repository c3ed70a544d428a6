{
 "claims": [
  {
   "property": "C01",
   "status": "proved",
   "theorems": [
    "C01_loop_coverage",
    "C01_loop_defined",
    "C01_full_coverage_refuted",
    "C01_small_totals_dropped",
    "C01_forwarded_arguments"
   ],
   "note": "exact coverage characterisation; full coverage refuted"
  },
  {
   "property": "C02",
   "status": "proved",
   "theorems": [
    "C02_pool_fifo",
    "C02_pool_at_most_once",
    "C02_commit_rule",
    "C02_no_lost_wakeup",
    "C02_history",
    "C02_no_empty_pop"
   ],
   "note": "all schedules"
  },
  {
   "property": "C03",
   "status": "proved",
   "theorems": [
    "C03_no_start_after_stop",
    "C03_all_tasks_run_refuted",
    "C03_destructor_terminates_refuted",
    "C03_clean_shutdown",
    "C03_destroyed_means_joined"
   ],
   "note": "destructor hang is a theorem (refutation of termination)"
  },
  {
   "property": "C04",
   "status": "proved",
   "theorems": [
    "C04_file_is_prefix",
    "C04_complete_at_destruction",
    "C04_destructor_terminates",
    "C04_no_lost_wakeup",
    "C04_complete_refuted",
    "C04_ended_writer_writes_nothing",
    "C04_file_merges_pushes",
    "C04_pushes_enqueued",
    "C04_no_empty_pop",
    "C04_empty_pop_refuted"
   ],
   "note": "all schedules; unconditional completeness refuted (uninitialised flag)"
  },
  {
   "property": "C05",
   "status": "proved",
   "theorems": [
    "C05_delivered_in_order",
    "C05_end_means_complete",
    "C05_no_junk_refuted",
    "C05_no_deadlock",
    "C05_destructor_terminates",
    "C05_reader_returns_refuted",
    "C05_missing_file_never_ends",
    "C05_buffer_bounded",
    "C05_destroyed_means_joined",
    "C05_destroyable"
   ],
   "note": "all schedules"
  },
  {
   "property": "C06",
   "status": "proved",
   "theorems": [
    "C06_records_atomic",
    "C06_records_atomic_always",
    "C06_no_deadlock",
    "C06_chain_atomic_refuted"
   ],
   "note": "all schedules, any number of threads"
  },
  {
   "property": "C07",
   "status": "proved",
   "theorems": [
    "C07_callback_protocol",
    "C07_zero_step_scale",
    "C07_abort_iff",
    "C07_step_sequence"
   ],
   "note": "arbitrary world state, callbacks, iterator"
  },
  {
   "property": "C08",
   "status": "proved",
   "theorems": [
    "C08_stop_rule",
    "C08_no_step_when_stopped",
    "C08_returns_only_when_stopped"
   ],
   "note": "arbitrary callbacks"
  },
  {
   "property": "C09",
   "status": "proved",
   "theorems": [
    "C09_end_time_reached",
    "C09_adaptive_end_time"
   ],
   "note": "real arithmetic"
  },
  {
   "property": "C10",
   "status": "proved",
   "theorems": [
    "C10_start_beyond_end_diverges"
   ],
   "note": "real arithmetic"
  },
  {
   "property": "C100",
   "status": "proved",
   "theorems": [
    "C100_passes",
    "C100_once_per_pass",
    "C100_future_once",
    "C100_future_after_run",
    "C100_wait_for_all",
    "C100_counters",
    "C100_no_deadlock",
    "C100_terminates",
    "C100_runs_complete",
    "C100_run_n",
    "C100_no_source_hangs_refuted",
    "C100_cycle_order_refuted"
   ],
   "note": "Static tasks only; sequentially consistent interleavings; sleeping and waking of workers not modelled (a free worker may take any scheduled node)."
  },
  {
   "property": "C101",
   "status": "proved",
   "theorems": [
    "C101_notify_all",
    "C101_notify_one",
    "C101_exact",
    "C101_events",
    "C101_served",
    "C101_no_lost_wakeup",
    "C101_client",
    "C101_turns",
    "C101_asserts",
    "C101_word",
    "C101_constructor",
    "C101_epoch_wrap_refuted",
    "C101_refines"
   ],
   "note": "Atomic accesses one at a time, sequentially consistent; the mutex and condition variable of _park/_unpark are reduced to the flag they protect. The last theorem refutes the turn comparison for a waiter 2^31 epochs late."
  },
  {
   "property": "C102",
   "status": "proved",
   "theorems": [
    "C102_rest",
    "C102_served",
    "C102_own_queue",
    "C102_thief",
    "C102_shutdown",
    "C102_join",
    "C102_submitted",
    "C102_call_returns",
    "C102_conserved",
    "C102_all_taken"
   ],
   "note": "Queue lengths only; the notifier through what C101 proves of it; steals may fail; the last thief's loop over the queues may miss tasks (it is not atomic)."
  },
  {
   "property": "C103",
   "status": "proved",
   "theorems": [
    "C103_each_once",
    "C103_never_twice",
    "C103_returns",
    "C103_index",
    "C103_range",
    "C103_zero_step_refuted"
   ],
   "note": "sequentially consistent memory; overflow of the index type not modelled; counters fit 64 bits (hypothesis fits). Refuted corner: an empty range with step 0 divides by zero."
  },
  {
   "property": "C104",
   "status": "proved",
   "theorems": [
    "C104_result",
    "C104_some_order",
    "C104_returns",
    "C104_mutex",
    "C104_chunks_result",
    "C104_chunks_some_order",
    "C104_chunks_returns",
    "C104_chunks_mutex"
   ],
   "note": "sequentially consistent memory; counters fit 64 bits (hypotheses fits and fits_chunks); the C104_chunks_ theorems are for the static reductions with a chunk size"
  },
  {
   "property": "C11",
   "status": "proved",
   "theorems": [
    "C11_step_slice_fires",
    "C11_step_slice_count",
    "C11_interval_zero_undefined",
    "C11_reset"
   ],
   "note": "all intervals and call counts"
  },
  {
   "property": "C12",
   "status": "proved",
   "theorems": [
    "C12_time_slice_times",
    "C12_time_slice_bound",
    "C12_time_slice_rule",
    "C12_reset"
   ],
   "note": "scalars are reals (no rounding of the slot accumulation)"
  },
  {
   "property": "C13",
   "status": "proved",
   "theorems": [
    "C13_next_slot_after",
    "C13_long_interval",
    "C13_hang",
    "C13_always_returns_refuted",
    "C13_short_interval_never_fires",
    "C13_reset_refuted"
   ],
   "note": "scalars are reals; includes the non-termination and stale-origin defects"
  },
  {
   "property": "C14",
   "status": "proved",
   "theorems": [
    "C14_header_once",
    "C14_header_always_refuted",
    "C14_energy_reference_shared"
   ],
   "note": "writer copies share the stream and own a header flag"
  },
  {
   "property": "C15",
   "status": "proved",
   "theorems": [
    "C15_chain_index_permutation",
    "C15_returns",
    "C15_too_few_undefined"
   ],
   "note": "every position set, every tie-breaking of the sort"
  },
  {
   "property": "C16",
   "status": "proved",
   "theorems": [
    "C16_closest_pair_adjacent",
    "C16_greedy_from_rank_two",
    "C16_nearest_neighbour_refuted"
   ],
   "note": "exact characterisation of the construction, with the witness that the second-closest pair is skipped"
  },
  {
   "property": "C17",
   "status": "proved",
   "theorems": [
    "C17_cartesian_round_trip",
    "C17_chain_round_trip",
    "C17_chain_entries"
   ],
   "note": "real arithmetic"
  },
  {
   "property": "C18",
   "status": "proved",
   "theorems": [
    "C18_update_chain",
    "C18_physical_state_unchanged"
   ],
   "note": "real arithmetic; Kahan error fields not modelled"
  },
  {
   "property": "C19",
   "status": "proved",
   "theorems": [
    "C19_chain_visits_every_pair_once",
    "C19_all_pairs",
    "C19_chain_acceleration",
    "C19_symmetric_terms",
    "C19_chain_potential_energy",
    "C19_single_particle_undefined"
   ],
   "note": "chain loops = direct loops for symmetric pair terms; n=1 bound wraps"
  },
  {
   "property": "C20",
   "status": "proved",
   "theorems": [
    "C20_newton_sum",
    "C20_momentum",
    "C20_angular_momentum",
    "C20_translation"
   ],
   "note": "real arithmetic"
  },
  {
   "property": "C21",
   "status": "proved",
   "theorems": [
    "C21_total",
    "C21_extra",
    "C21_empty_part_leaves_array",
    "C21_terms_additive"
   ],
   "note": "an empty part leaves the caller's array untouched (so the independence claim holds only for non-empty parts)"
  },
  {
   "property": "C22",
   "status": "proved",
   "theorems": [
    "C22_tidal_momentum",
    "C22_tidal_angular_momentum",
    "C22_no_tide",
    "C22_attractive"
   ],
   "note": "real arithmetic"
  },
  {
   "property": "C23",
   "status": "proved",
   "theorems": [
    "C23_relabelling",
    "C23_pn2_symmetric_refuted"
   ],
   "note": "1PN and 2.5PN symmetric; 2PN asymmetry witnessed"
  },
  {
   "property": "C24",
   "status": "proved",
   "theorems": [
    "C24_gas_drag",
    "C24_disk_drag",
    "C24_capture_force_nonneg",
    "C24_disk_velocity",
    "C24_capture_density",
    "C68_gas_velocity",
    "C68_moved_system"
   ],
   "note": "real arithmetic"
  },
  {
   "property": "C25",
   "status": "proved",
   "theorems": [
    "C25_simple_conserves_newton",
    "C25_regularised_conserves_newton",
    "C25_simple_conserves",
    "C25_regularised_conserves",
    "C25_chain_conserves_newton",
    "C25_archain_conserves_newton",
    "C25_chain_refines_simple",
    "C25_archain_refines_regularised",
    "C25_reindex_moves_nothing"
   ],
   "note": "Simple, regularised, chain and AR-chain systems; arbitrary drift/kick sequences; chain systems by refinement of the Cartesian ones."
  },
  {
   "property": "C26",
   "status": "proved",
   "theorems": [
    "C26_palindromic",
    "C26_simple_reversible",
    "C26_regularised_reversible",
    "C26_chain_reversible",
    "C26_archain_reversible"
   ],
   "note": "Real arithmetic; regularised systems: equality up to the memorised step scale."
  },
  {
   "property": "C27",
   "status": "proved",
   "theorems": [
    "C27_time_advance",
    "C27_chain_time_advance",
    "C27_sums_exact",
    "C27_sums_close",
    "C27_step_time_error",
    "C26_palindromic"
   ],
   "note": "Decimal literals taken as exact reals."
  },
  {
   "property": "C28",
   "status": "proved",
   "theorems": [
    "C28_length",
    "C28_simple_round_trip",
    "C28_regularised_round_trip",
    "C28_chain_round_trip",
    "C28_archain_round_trip",
    "C28_wrong_length_aborts",
    "C28_read_then_write"
   ],
   "note": "All four systems, with and without velocity-dependent forces."
  },
  {
   "property": "C29",
   "status": "proved",
   "theorems": [
    "C29_simple_increment",
    "C29_regularised_increment",
    "C29_chain_increment",
    "C29_archain_increment",
    "C29_increment_in_bounds"
   ],
   "note": "All four systems."
  },
  {
   "property": "C30",
   "status": "proved",
   "theorems": [
    "C30_kick_uses_external_power",
    "C30_kick_uses_external_power_dep",
    "C30_derivative_uses_total_power",
    "C30_rates_agree_iff",
    "C30_rates_agree_refuted"
   ],
   "note": "The code's inconsistency is proved, with a witness."
  },
  {
   "property": "C31",
   "status": "proved",
   "theorems": [
    "C31_unique_polynomial",
    "C31_table_extrapolates",
    "C31_exact_on_polynomials"
   ],
   "note": "over the reals, every depth"
  },
  {
   "property": "C32",
   "status": "proved",
   "theorems": [
    "C32_accepted_is_extrapolated",
    "C32_systems_replay",
    "C32_simple_step",
    "C32_regularised_step",
    "C32_all_rejected_aborts",
    "C32_first_call",
    "C32_dkd_rows_are_leapfrog",
    "C32_kdk_rows_are_leapfrog"
   ],
   "note": "chain systems are covered by the generic theorem only; the BS_SUBSTEP_PARALLEL variant is C84"
  },
  {
   "property": "C33",
   "status": "proved",
   "theorems": [
    "C33_in_bounds",
    "C33_first_call_in_bounds",
    "C33_last_row_first_refuted"
   ],
   "note": "the out-of-range case is a defect of the code, shown by a witness for every depth"
  },
  {
   "property": "C34",
   "status": "proved",
   "theorems": [
    "C34_row_advances_time",
    "C34_time_advances_k_plus_2",
    "C34_single_step_refuted",
    "C34_example_calls_exist",
    "C34_midpoint_rule",
    "C34_midpoint_sequence_exists",
    "C34_row_is_trapezoidal",
    "C34_row_exact_for_linear",
    "C34_time_of_every_call",
    "C34_rejected_time_restored_refuted",
    "C34_selection",
    "C34_exact_rows",
    "C34_never_shortens",
    "C34_consistent_refuted"
   ],
   "note": "a defect of the code"
  },
  {
   "property": "C35",
   "status": "proved",
   "theorems": [
    "C35_limited",
    "C35_limits_straddle_one",
    "C35_value",
    "C35_value_two_errors",
    "C35_zero_error",
    "C35_monotone",
    "C35_failed_step_shrinks",
    "C35_nan_refuted",
    "C35_order_limit",
    "C35_set_limiter_has_no_effect",
    "C35_infinite_error",
    "C35_special_pairs"
   ],
   "note": "Reals extended with IEEE infinities and NaN; rounding not modelled."
  },
  {
   "property": "C36",
   "status": "proved",
   "theorems": [
    "C36_worst_offender",
    "C36_worst_offender_vec",
    "C36_worst_offender_diff",
    "C36_rms",
    "C36_rms_component",
    "C36_rms_skips_refuted",
    "C36_max_ratio",
    "C36_max_ratio_refuted",
    "C36_max_ratio_arrays",
    "C36_comparisons",
    "C36_division"
   ],
   "note": "Real arithmetic with IEEE results for division by zero."
  },
  {
   "property": "C37",
   "status": "proved",
   "theorems": [
    "C37_converged",
    "C37_not_converged",
    "C37_simple_system_restarts",
    "C37_finest_refuted",
    "C37_const_iterator",
    "C37_nan_never_converges"
   ],
   "note": "For every system, estimator and controller; instantiated with the plain system and every symplectic scheme."
  },
  {
   "property": "C38",
   "status": "proved",
   "theorems": [
    "C38_kahan_add_exact",
    "C38_kahan_any_order_refuted",
    "C38_neumaier_add_exact",
    "C38_klein_add_exact",
    "C38_subtraction_is_addition",
    "C38_neumaier_sum_error",
    "C38_kahan_sum_error",
    "C38_klein_sum_error",
    "C38_multiplication_refuted",
    "C38_klein_read_refuted"
   ],
   "note": "All binary precisions, least exponents and tie rules (Flocq FLT format, subnormals included; no overflow). Kahan needs |addend| <= |sum| (shown necessary); *= does not scale the compensation and Klein >> keeps the second residual (witnesses)."
  },
  {
   "property": "C39",
   "status": "proved",
   "theorems": [
    "C39_bracket",
    "C39_result",
    "C39_terminates",
    "C39_deterministic",
    "C39_no_sign_change_returns_low",
    "C39_root_at_zero_loops"
   ],
   "note": "Exact real arithmetic; eps is a parameter."
  },
  {
   "property": "C40",
   "status": "proved",
   "theorems": [
    "C40_composition",
    "C40_rigid",
    "C40_identity",
    "C40_inverse"
   ],
   "note": "Real-number model of euler_rotate; rotation matrices in Orbit_Spec.v."
  },
  {
   "property": "C41",
   "status": "proved",
   "theorems": [
    "C41_orbit",
    "C41_helpers",
    "C41_orientation",
    "C41_state_invariants",
    "C41_a_e_L",
    "C41_angular_momentum"
   ],
   "note": "For all orbits with 1+e cos nu > 0; orientation theorem shows that positions are opposite to the textbook convention."
  },
  {
   "property": "C42",
   "status": "proved",
   "theorems": [
    "C42_ellipse_E_to_T",
    "C42_ellipse_T_to_E",
    "C42_ellipse_inverse",
    "C42_ellipse_range",
    "C42_hyperbola_E_to_T",
    "C42_hyperbola_T_to_E",
    "C42_parabola",
    "C42_kepler_ellipse",
    "C42_mean_inverse",
    "C42_unreduced_mean_anomaly_refuted",
    "C42_kepler_hyperbola",
    "C42_kepler_parabola",
    "C42_classify",
    "C42_shuffle",
    "C42_mean_to_true"
   ],
   "note": "Real arithmetic; the bisection of C39 with machine epsilon as parameter."
  },
  {
   "property": "C43",
   "status": "proved",
   "theorems": [
    "C43_move",
    "C43_move_pos",
    "C43_move_vel",
    "C43_variadic",
    "C43_com_frame",
    "C43_hierarchy"
   ],
   "note": "Exact real arithmetic; the variadic overloads are modelled separately and proved equal to the container ones."
  },
  {
   "property": "C44",
   "status": "proved",
   "theorems": [
    "C44_energies",
    "C44_inner_invariant",
    "C44_size",
    "C44_size_single",
    "C44_tidal_sizes",
    "C44_tidal_factor_refuted",
    "C44_tidal_radius",
    "C44_time_to_periapsis",
    "C44_sign_blind_refuted",
    "C44_period",
    "C44_two_clusters",
    "C44_variadic",
    "C44_E_tid",
    "C44_tidal_radius_size",
    "C44_tidal_radius_massless"
   ],
   "note": "Two defects are proved (tidal_factor passes cluster1 twice; time_to_periapsis is sign-blind)."
  },
  {
   "property": "C45",
   "status": "proved",
   "theorems": [
    "C45_hyperbolic",
    "C45_head_on",
    "C45_b_max",
    "C45_b_max_increasing",
    "C45_tidal_radius",
    "C45_incident_clusters",
    "C45_incident_close_start_refuted",
    "C45_critical_vel",
    "C45_hard_radius",
    "C45_b_max_tidal",
    "C45_critical_vel_clusters",
    "C45_b_max_clusters"
   ],
   "note": "Random draws are parameters; cluster masses and sizes are numbers."
  },
  {
   "property": "C46",
   "status": "proved",
   "theorems": [
    "C46_factor",
    "C46_wrong_unless_unit_mass_refuted"
   ],
   "note": "Refutes the intended formula for inner masses other than 1."
  },
  {
   "property": "C47",
   "status": "proved",
   "theorems": [
    "C47_point_history",
    "C47_size_history",
    "C47_drag_history",
    "C47_tide_history",
    "C47_ids_are_indices",
    "C47_ids_after_growth_refuted"
   ],
   "note": "all operation histories of the four containers"
  },
  {
   "property": "C48",
   "status": "proved",
   "theorems": [
    "C48_reports_touching_pairs",
    "C48_order_irrelevant",
    "C48_translation"
   ],
   "note": "all configurations, real arithmetic"
  },
  {
   "property": "C49",
   "status": "proved",
   "theorems": [
    "C49_last_definition",
    "C49_get",
    "C49_white_space_ignored",
    "C49_comments_ignored",
    "C49_read_only_refuted",
    "C49_blanks_in_values_refuted",
    "C49_line_without_divider",
    "C49_empty_value_refuted"
   ],
   "note": "all files"
  },
  {
   "property": "C50",
   "status": "proved",
   "theorems": [
    "C50_assigns_in_order",
    "C50_wrong_count_aborts",
    "C50_blank_shifts_refuted",
    "C50_empty_argument_refuted"
   ],
   "note": "all argument vectors"
  },
  {
   "property": "C51",
   "status": "proved",
   "theorems": [
    "C51_active_time",
    "C51_new_timer",
    "C51_restart_discards",
    "C51_every_history",
    "C51_restart_refuted",
    "C51_milliseconds_refuted"
   ],
   "note": "all histories"
  },
  {
   "property": "C52",
   "status": "proved",
   "theorems": [
    "C52_boundaries",
    "C52_draw_in_range",
    "C52_draw_is_first",
    "C52_draw_returns_iff",
    "C52_default_boundary_refuted",
    "C52_nan_drawn_refuted",
    "C52_truncated_normal",
    "C52_truncated_maxwellian",
    "C52_empty_range_never_returns",
    "C52_normal2",
    "C52_normal2_never_returns",
    "C52_logarithm",
    "C52_power_law_range",
    "C52_share",
    "C52_power_law_distribution",
    "C52_power_law_precondition",
    "C52_power_law_precondition_refuted",
    "C52_default_limits",
    "C52_fixed_zero_refuted",
    "C52_power_law_cases",
    "C52_power_law_from_zero"
   ],
   "note": "all sources"
  },
  {
   "property": "C53",
   "status": "proved",
   "theorems": [
    "C53_tables_inverse",
    "C53_newton_and_monomial_forms",
    "C53_predictor",
    "C53_states_on_path",
    "C53_path_is_the_integral",
    "C53_pass_interpolates",
    "C53_fixed_point_collocates",
    "C53_tables_stay_consistent",
    "C53_quadrature_order",
    "C53_nodes_increasing"
   ],
   "note": "Literals of the source as decimals; rounding of literals bounded explicitly."
  },
  {
   "property": "C54",
   "status": "proved",
   "theorems": [
    "C54_drift",
    "C54_kick",
    "C54_new",
    "C54_flow"
   ],
   "note": "Real arithmetic; the kick theorem is for interactions without velocity-dependent forces, the flow theorem for Newtonian forces."
  },
  {
   "property": "C55",
   "status": "proved",
   "theorems": [
    "C55_radius_lookup_defined",
    "C55_radius_lookup_values",
    "C55_continuous_density_refuted",
    "C55_friction_coefficient",
    "C55_friction_nodes",
    "C55_friction_in_table_refuted",
    "C55_drag",
    "C55_gas_velocity",
    "C55_one_sense_of_rotation_refuted",
    "C55_relative_velocity",
    "C55_interpolate_below",
    "C55_units"
   ],
   "note": "Tables copied digit by digit; exact reals, and binary64 (Flocq) for the index of the failing lookup. Defect: out-of-bounds read just below Mach 100; lookup discontinuous."
  },
  {
   "property": "C56",
   "status": "proved",
   "theorems": [
    "C56_step",
    "C56_bound_orbit_forever",
    "C56_constructed"
   ],
   "note": "Real arithmetic. For bound pairs the only hypothesis is that no half drift lands on the other body."
  },
  {
   "property": "C57",
   "status": "proved",
   "theorems": [
    "C57_compositions_of_leapfrog",
    "C57_order_conditions"
   ],
   "note": "Decimal literals taken as exact reals."
  },
  {
   "property": "C58",
   "status": "proved",
   "theorems": [
    "C58_simple_conserves_momentum",
    "C58_regularised_conserves_momentum",
    "C58_newton_instance"
   ],
   "note": ""
  },
  {
   "property": "C59",
   "status": "proved",
   "theorems": [
    "C59_accepted_step",
    "C59_step_only_shrinks",
    "C59_bounded_without_rejection",
    "C59_acceptance_threshold",
    "C59_unbounded_rejections_refuted",
    "C59_pass_succeeds_on_systems"
   ],
   "note": "Generic over system, error checkers and controller; concrete controller in C59_acceptance_threshold."
  },
  {
   "property": "C60",
   "status": "proved",
   "theorems": [
    "C60_simple_conserves",
    "C60_regularised_conserves",
    "C60_simple_time"
   ],
   "note": ""
  },
  {
   "property": "C61",
   "status": "proved",
   "theorems": [
    "C61_pn1",
    "C61_pn25",
    "C61_pn2",
    "C61_pn2_published_refuted",
    "C61_circular_decay"
   ],
   "note": "Spec in PN_Spec.v (Blanchet 2014, eq. 203). The PN2 deviation for the second-listed particle is stated exactly and refutes the published equation."
  },
  {
   "property": "C62",
   "status": "proved",
   "theorems": [
    "C62_shape",
    "C62_inclined",
    "C62_planar",
    "C62_circular",
    "C62_circular_planar",
    "C62_roundtrip_refuted",
    "C62_guarded_acos"
   ],
   "note": "Shape recovered for all orbits; the coordinate round trip is refuted and its exact defect proved for each branch."
  },
  {
   "property": "C63",
   "status": "proved",
   "theorems": [
    "C63_value_overload",
    "C63_reference_overload",
    "C63_parabola_refuted"
   ],
   "note": "IEEE-style division (ext) used for the reference overload."
  },
  {
   "property": "C64",
   "status": "proved",
   "theorems": [
    "C64_ellipse",
    "C64_hyperbola",
    "C64_parabola",
    "C64_overloads",
    "C64_period"
   ],
   "note": "Derivative with respect to the true anomaly equals r^2/L of the coordinates returned by orbit_to_coord."
  },
  {
   "property": "C65",
   "status": "proved",
   "theorems": [
    "C65_values",
    "C65_conserved",
    "C65_isolated",
    "C65_isolated_invariant",
    "C65_isolated_pair",
    "C65_com",
    "C65_fall_free",
    "C65_energy_error",
    "C65_energy_error_regu"
   ],
   "note": ""
  },
  {
   "property": "C66",
   "status": "proved",
   "theorems": [
    "C66_derivative",
    "C66_regularised_derivative",
    "C66_chain_derivative",
    "C66_archain_derivative"
   ],
   "note": ""
  },
  {
   "property": "C67",
   "status": "proved",
   "theorems": [
    "C67_point_csv",
    "C67_size_csv",
    "C67_drag_csv",
    "C67_tide_csv",
    "C67_point_round_trip_refuted",
    "C67_size_round_trip_refuted",
    "C67_drag_round_trip_refuted",
    "C67_tide_round_trip_refuted",
    "C67_reads_blank_separated"
   ],
   "note": "round trip refuted for all four"
  },
  {
   "property": "C68",
   "status": "proved",
   "theorems": [
    "C68_coefficient",
    "C68_smooth",
    "C68_continuous_at_a_tenth_refuted",
    "C68_force_switch",
    "C68_drag",
    "C68_density",
    "C68_keplerian_gas",
    "C68_gas_velocity",
    "C68_moved_system",
    "C68_scale_height",
    "C68_no_accretion_no_height"
   ],
   "note": "Exact reals. Defect: Mach exactly 0.1 falls through to the extrapolated join."
  },
  {
   "property": "C69",
   "status": "proved",
   "theorems": [
    "C69_kepler_orbit",
    "C69_isotropic",
    "C69_elliptic",
    "C69_hyperbolic"
   ],
   "note": "Exact reals; the draws of random::Uniform are arbitrary numbers in their range (the generator is not modelled)."
  },
  {
   "property": "C70",
   "status": "proved",
   "theorems": [
    "C70_conditions_forget",
    "C70_operations_remember",
    "C70_step_slice_operation",
    "C70_time_slice_operation",
    "C70_step_slice_condition",
    "C70_time_slice_condition",
    "C70_sliced_condition_every_nth_refuted",
    "C70_registration",
    "C70_settings"
   ],
   "note": "The reading 'a sliced stop condition is checked every n-th time' is refuted by a concrete run."
  },
  {
   "property": "C71",
   "status": "proved",
   "theorems": [
    "C71_linearizable",
    "C71_no_deadlock",
    "C71_reentrant_callback_refuted",
    "C71_readers_share_the_words",
    "C71_read_loop_uses_every_word_once",
    "C71_blocks_of_execute_stay_together",
    "C71_eof_then_read_refuted",
    "C71_eof_trailing_space_refuted",
    "C71_reads_and_eof"
   ],
   "note": "Generic small-step programs under one mutex; reads are of std::string words; callbacks that never return are not modelled. The two eof theorems and the reentrant one record what is not guaranteed."
  },
  {
   "property": "C72",
   "status": "proved",
   "theorems": [
    "C72_simple_new",
    "C72_regularised_new",
    "C72_chain_new",
    "C72_archain_new",
    "C72_chain_of_one_undefined",
    "C72_chain_run_is_simple_run",
    "C72_archain_run_is_regularised_run",
    "C72_simple_run_conserves",
    "C72_regularised_run_conserves",
    "C72_chain_run_conserves"
   ],
   "note": "Exact (real) arithmetic; symplectic schemes with a constant iterator; chain evaluation of forces agreeing with the direct one is C19."
  },
  {
   "property": "C73",
   "status": "proved",
   "theorems": [
    "C73_chain_bs_call",
    "C73_archain_bs_call",
    "C73_chain_bs_defined",
    "C73_archain_bs_defined",
    "C73_built_ready",
    "C73_fresh_iterator",
    "C73_bs_runs_conserve",
    "C73_chain_sequent_call",
    "C73_archain_sequent_call",
    "C73_sequent_runs_conserve",
    "C73_simulation",
    "C73_AR_Chain_simulation"
   ],
   "note": "forces must be balanced and, for chain systems, the chain-difference evaluation must agree with the Cartesian one (hypothesis agree; proved for Newtonian gravity); C73_case shows calls exist; arithmetic over the reals; IAS15 on chain systems is not covered here"
  },
  {
   "property": "C74",
   "status": "proved",
   "theorems": [
    "C74_estimate",
    "C74_controller",
    "C74_simple_call",
    "C74_regularised_call",
    "C74_error_of_every_step_seen_refuted",
    "C74_translation_invariance_refuted",
    "C74_converged",
    "C74_all_zero_never_converges",
    "C74_slow_particles",
    "C74_counted_entries"
   ],
   "note": "calls proved for the plain and regularised systems, the estimate for all four; two natural claims refuted"
  },
  {
   "property": "C75",
   "status": "proved",
   "theorems": [
    "C75_no_undefined_behaviour",
    "C75_time",
    "C75_momentum",
    "C75_constant_step_after_reordering",
    "C75_constant_step_call"
   ],
   "note": ""
  },
  {
   "property": "C76",
   "status": "proved",
   "theorems": [
    "C76_deterministic",
    "C76_selection",
    "C76_initial",
    "C76_simple_system",
    "C76_regularised_system"
   ],
   "note": ""
  },
  {
   "property": "C77",
   "status": "proved",
   "theorems": [
    "C77_assignment",
    "C77_own_component_as_operand",
    "C77_scaled_by_own_component_refuted",
    "C77_construct",
    "C77_slices",
    "C77_slices_refuted",
    "C77_reverse_in_place_refuted",
    "C77_slice_fill",
    "C77_max_min"
   ],
   "note": "assignments that do not compile (expressions to large arrays or slices) are not modelled"
  },
  {
   "property": "C78",
   "status": "proved",
   "theorems": [
    "C78_bound_answer",
    "C78_unbound_answer_refuted",
    "C78_most_bound",
    "C78_init_list",
    "C78_names_distinct",
    "C78_to_string"
   ],
   "note": "get_hierarchical_struct does not compile and is not modelled"
  },
  {
   "property": "C79",
   "status": "proved",
   "theorems": [
    "C79_distinct_names",
    "C79_form",
    "C79_one_prefix",
    "C79_two_prefixes_refuted",
    "C79_make_name",
    "C79_make_name_across_prefixes_refuted"
   ],
   "note": "sequential calls; the clock is an input"
  },
  {
   "property": "C80",
   "status": "proved",
   "theorems": [
    "C80_result",
    "C80_contraction",
    "C80_finds_root_refuted"
   ],
   "note": "exact arithmetic; function values are reals"
  },
  {
   "property": "C81",
   "status": "proved",
   "theorems": [
    "C81_radii",
    "C81_monotone"
   ],
   "note": ""
  },
  {
   "property": "C82",
   "status": "proved",
   "theorems": [
    "C82_accelerations",
    "C82_energy",
    "C82_pn1_boost_refuted",
    "C82_newton_covariant",
    "C82_pn_covariant",
    "C82_simple_run",
    "C82_regularised_run",
    "C82_chain_run"
   ],
   "note": "over real arithmetic; runs of symplectic schemes; the boost invariance of the 1PN term is refuted by example"
  },
  {
   "property": "C83",
   "status": "proved",
   "theorems": [
    "C83_conversion",
    "C83_durations",
    "C83_lengths",
    "C83_masses",
    "C83_speeds",
    "C83_year",
    "C83_gravitational_constant",
    "C83_boltzmann_over_proton_refuted"
   ],
   "note": "Exact decimals over R; kB_on_mp is shown inconsistent with kB/mp (the constant is unused in the sources)."
  },
  {
   "property": "C84",
   "status": "proved",
   "theorems": [
    "C84_every_interleaving",
    "C84_can_finish",
    "C84_first_call_agrees",
    "C84_first_call_exists",
    "C84_later_calls_refuted",
    "C84_overlapping_call_refuted"
   ],
   "note": "Interleaving semantics of the two threads with a log of shared accesses; refutations for later and overlapping calls. The executor is modelled as one additional thread (its queueing is third-party code)."
  },
  {
   "property": "C85",
   "status": "proved",
   "theorems": [
    "C85_array_sub",
    "C85_array_div",
    "C85_coord_dot",
    "C85_array_advance",
    "C85_array_scale",
    "C85_array_advance_to",
    "C85_array_transform",
    "C85_array_add",
    "C85_array_mul",
    "C85_set_arrays_zero",
    "C85_any_schedule_pack",
    "C85_any_schedule_unary",
    "C85_any_schedule_binary",
    "C85_array_dot",
    "C85_coord_contract",
    "C85_coord_contract2",
    "C85_advance_is_model",
    "C85_add_is_model",
    "C85_radau_is_model",
    "C85_error_terms_round_trip",
    "C85_error_terms_round_trip_vectors",
    "C85_error_terms_keep_values"
   ],
   "note": "Heap of named arrays; element type and operators arbitrary. Refinement theorems tie the helpers to the list functions used by the system and Radau models. The helpers array_save_err/array_load_err/... are public but unused in the repository."
  },
  {
   "property": "C86",
   "status": "proved",
   "theorems": [
    "C86_round_trip",
    "C86_display_round_trip",
    "C86_one_too_many",
    "C86_csv_columns",
    "C86_print_round_trip_refuted"
   ],
   "note": "Number formatting and the standard's arithmetic extraction are parameters (hypotheses satisfied by the unary format of the example)."
  },
  {
   "property": "C87",
   "status": "proved",
   "theorems": [
    "C87_checkers_blind",
    "C87_axis_change_isometry",
    "C87_bs_simple",
    "C87_bs_regularised",
    "C87_sequent",
    "C87_newton",
    "C87_turned_axes_refuted",
    "C87_origin_refuted"
   ],
   "note": "Invariance proved for the plain and regularised systems with both adaptive iterators; dependence on turned axes and on the origin shown by counterexamples (_refuted)."
  },
  {
   "property": "C88",
   "status": "proved",
   "theorems": [
    "C88_checkers_on_numbers",
    "C88_rms_reports",
    "C88_worst_offender_ignores_refuted",
    "C88_max_ratio_ignores_refuted",
    "C88_finite_runs",
    "C88_safe_run_is_run",
    "C88_duplicated_accepted_refuted",
    "C88_duplicated_run_refuted",
    "C88_rms_call",
    "C88_rms_refuses",
    "C88_overflow_ignored_refuted",
    "C88_overflow_reported",
    "C88_start"
   ],
   "note": "Proved for the RMS checker (every accepted call holds only numbers; sets with a duplicated particle are never accepted) and for runs on ordinary input; refuted for WorstOffender (default of the shipped methods) and MaxRatioError. Scalars are exact reals plus infinities and NaN (no rounding, overflow or signed zero)."
  },
  {
   "property": "C89",
   "status": "proved",
   "theorems": [
    "C89_plain_run",
    "C89_compensated_run",
    "C89_plain_double",
    "C89_compensated_double",
    "C89_too_small_steps_refuted",
    "C89_exact_end",
    "C89_overshoot_refuted",
    "C89_zero_tolerance_refuted"
   ],
   "note": "model: the loop condition, step choice and clock of a fixed-step run with every operation rounded (Flocq FLT, no overflow); systems with step scale 1, positive end time, no callbacks; the 'never returns' parts are the refuted theorems"
  },
  {
   "property": "C90",
   "status": "proved",
   "theorems": [
    "C90_links",
    "C90_round_trip",
    "C90_reindex",
    "C90_exact",
    "C90_grid",
    "C90_round_trip_refuted",
    "C90_reindex_refuted"
   ],
   "note": "Every addition and subtraction of a component rounds to nearest with any tie rule; overflow is not modelled. The two _refuted theorems are counterexamples to exactness: for every format with enough exponents and every tie rule, a particle near the origin comes back at the origin, and two distinct particles get distance zero after re-indexing with the order the code itself computes."
  },
  {
   "property": "C91",
   "status": "proved",
   "theorems": [
    "C91_direct",
    "C91_momentum",
    "C91_calls",
    "C91_chained",
    "C91_chained_true",
    "C91_range",
    "C91_equal_pair",
    "C91_momentum_refuted"
   ],
   "note": "Exact conservation of momentum (true in exact arithmetic, C22) does not survive rounding: C91_momentum_refuted gives three masses for every precision; C91_momentum bounds the net force."
  },
  {
   "property": "C92",
   "status": "proved",
   "theorems": [
    "C92_rounded",
    "C92_commute",
    "C92_antisymmetric",
    "C92_same_means_equal",
    "C92_self",
    "C92_assign",
    "C92_norm",
    "C92_distance",
    "C92_norm_in_range",
    "C92_norm_accurate",
    "C92_abs",
    "C92_max",
    "C92_max_abs_exact",
    "C92_max_nan",
    "C92_associative_refuted",
    "C92_norm_range_refuted",
    "C92_abs_zero_refuted",
    "C92_cross_self_refuted",
    "C92_max_nan_refuted",
    "C92_antisymmetric_bits_refuted",
    "C92_integers_exact",
    "C92_constructed"
   ],
   "note": "Flocq's binary_float with one NaN (no payloads); round to nearest even, no contraction. The _refuted theorems exhibit, in double, the limits named in the statement."
  },
  {
   "property": "C93",
   "status": "proved",
   "theorems": [
    "C93_in_range",
    "C93_accurate",
    "C93_sticky",
    "C93_coincident",
    "C93_nan_position",
    "C93_infinite_position",
    "C93_too_close",
    "C93_too_far",
    "C93_mass",
    "C93_close_refuted",
    "C93_far_refuted"
   ],
   "note": "Direct summation. C93_in_range also links the IEEE model to the rounding model of C91."
  },
  {
   "property": "C94",
   "status": "proved",
   "theorems": [
    "C94_rule",
    "C94_nan",
    "C94_zero_number",
    "C94_accurate",
    "C94_bound",
    "C94_exact",
    "C94_stuck",
    "C94_reset",
    "C94_end_output_refuted",
    "C94_bound_refuted"
   ],
   "note": "IEEE 754 model (Flocq BinarySingleNaN), every format; two expectations refuted in double"
  },
  {
   "property": "C95",
   "status": "proved",
   "theorems": [
    "C95_operands",
    "C95_other_objects",
    "C95_self",
    "C95_scale",
    "C95_fresh",
    "C95_neumaier_no_overflow",
    "C95_klein_no_overflow",
    "C95_kahan_no_overflow",
    "C95_neumaier_exact",
    "C95_klein_exact",
    "C95_neumaier_list",
    "C95_klein_list",
    "C95_infinite_then_nan",
    "C95_finite_history",
    "C95_kahan_finite_refuted",
    "C95_self_subtraction_refuted",
    "C95_negation_refuted",
    "C95_infinity_kept_refuted"
   ],
   "note": "IEEE 754 model (Flocq BinarySingleNaN), every format, objects with aliasing; four expectations refuted in double"
  },
  {
   "property": "C96",
   "status": "proved",
   "theorems": [
    "C96_terminates_or_tiny",
    "C96_terminates_away",
    "C96_terminates",
    "C96_result",
    "C96_root",
    "C96_silent",
    "C96_nan",
    "C96_root_at_zero_ends",
    "C96_parabolic",
    "C96_always_returns_refuted",
    "C96_newton",
    "C96_newton_nan",
    "C96_finds_sign_change_refuted",
    "C96_newton_root_refuted"
   ],
   "note": "for every format with more than one digit of precision; the callable is any function on the format. ..._refuted: always returning, finding the sign change, and Newton stopping near a root are false."
  },
  {
   "property": "C97",
   "status": "proved",
   "theorems": [
    "C97_small_M",
    "C97_abort",
    "C97_returns",
    "C97_elliptic",
    "C97_hyperbolic",
    "C97_parabolic",
    "C97_out_of_range",
    "C97_nan_M",
    "C97_infinite_e_aborts_refuted",
    "C97_case_library"
   ],
   "note": "library sin/sinh are arbitrary functions of the format within d of the real ones on [-4,4] (C97_case_library: correctly rounded ones qualify). C97_infinite_e_aborts_refuted: an infinite eccentricity does not abort but hangs."
  },
  {
   "property": "C98",
   "status": "proved",
   "theorems": [
    "C98_linearizable",
    "C98_each_item_once",
    "C98_size",
    "C98_capacity",
    "C98_owner_wait_free",
    "C98_thief_wait_free",
    "C98_steal_alone"
   ],
   "note": "sequentially consistent interleavings; weak memory orders and overflow of the 64-bit indices not modelled; case: C98_case"
  },
  {
   "property": "C99",
   "status": "proved",
   "theorems": [
    "C99_in_range",
    "C99_in_range_special",
    "C99_abs",
    "C99_step_sign",
    "C99_iseq_symmetric",
    "C99_iseq",
    "C99_iseq_large",
    "C99_parabolic",
    "C99_limits_enclose_one",
    "C99_step_factor_in_limits",
    "C99_step_factor_at_ends",
    "C99_order_zero",
    "C99_step_factor_monotone",
    "C99_tame_pow",
    "C99_exponent"
   ],
   "note": "pow is any function with the properties of Inum_Spec.tame (C99_tame_pow: the correctly rounded one has them); cases: C99_case"
  }
 ]
}