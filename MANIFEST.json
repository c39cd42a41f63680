{
 "claims": [
  {
   "property": "C01",
   "status": "proved",
   "theorems": [
    "C01_array_refines_window_map",
    "C01_empty_array_agrees"
   ],
   "note": "Refinement of the deque-based array to a partial map on an interval, over all operation lists, both build modes; axiom-free."
  },
  {
   "property": "C02",
   "status": "proved",
   "theorems": [
    "C02_truncateAfter_exact"
   ],
   "note": "Exact for every array and time."
  },
  {
   "property": "C03",
   "status": "partial",
   "theorems": [
    "C03_truncateBefore_exact_refuted",
    "C03_truncateBefore_exact_partial",
    "C03_truncateBefore_at_last_loses_everything",
    "C03_truncateBefore_early_shifts_times"
   ],
   "note": "False as stated: refuted at the last index (everything lost) and before the window (entries renumbered); exact on first <= t < last within the int range."
  },
  {
   "property": "C04",
   "status": "partial",
   "theorems": [
    "C04_setFirstIndex",
    "C04_setLastIndex_refuted",
    "C04_setLastIndex_off_by_two"
   ],
   "note": "setFirstIndex proved for int indices; setLastIndex refuted, always two below the argument."
  },
  {
   "property": "C05",
   "status": "proved",
   "theorems": [
    "C05_stamped_round_trip",
    "C05_large_time_stamps_refuted",
    "C05_vectors_stamped_round_trip"
   ],
   "note": "Proved for time indices that fit an int (the reader uses int); outside that range refuted by C05_large_time_stamps_refuted."
  },
  {
   "property": "C06",
   "status": "partial",
   "theorems": [
    "C06_unstamped_count_refuted",
    "C06_unstamped_adds_one_entry",
    "C06_unstamped_zero_columns_diverges",
    "C06_unstamped_vectors_exact"
   ],
   "note": "False for readFromFile: exactly one spurious trailing entry for every file; non-terminating for zero columns. readVectorsFromFile is exact."
  },
  {
   "property": "C07",
   "status": "partial",
   "theorems": [
    "C07_isApproxAbs_spec",
    "C07_isApprox_partial",
    "C07_isApprox_reflexive_refuted"
   ],
   "note": "isApprox is not reflexive at 0; everything else proved."
  },
  {
   "property": "C08",
   "status": "proved",
   "theorems": [
    "C08_estimate_is_fold_over_measurements"
   ],
   "note": "Generic in the one-step function and both build modes; failures of a step are propagated unchanged."
  },
  {
   "property": "C09",
   "status": "proved",
   "theorems": [
    "C09_batch_equals_incremental"
   ],
   "note": "Equality of the whole observer and of failures."
  },
  {
   "property": "C10",
   "status": "proved",
   "theorems": [
    "C10_reestimation_is_idempotent"
   ],
   "note": ""
  },
  {
   "property": "C11",
   "status": "partial",
   "theorems": [
    "C11_no_stale_data_in_past",
    "C11_buffers_adjacent_partial",
    "C11_buffers_adjacent_refuted",
    "C11_next_measurement_unique"
   ],
   "note": "No recorded data in the past: proved for every history. Adjacency to the estimate: false after a setState far in the past (refuted), proved for histories without such a jump."
  },
  {
   "property": "C12",
   "status": "partial",
   "theorems": [
    "C12_rewind_clears_refuted",
    "C12_setState_keeps_later_data",
    "C12_rewind_blocks_measurements"
   ],
   "note": "Refuted: the test on the time comes after the time has been overwritten. Exact effect of setState proved, with the consequence that recording is blocked."
  },
  {
   "property": "C13",
   "status": "partial",
   "theorems": [
    "C13_inputs_not_needed_refuted",
    "C13_empty_inputs_always_fail"
   ],
   "note": "Refuted, in general: an empty input buffer always fails."
  },
  {
   "property": "C14",
   "status": "proved",
   "theorems": [
    "C14_covariance_symmetric",
    "C14_one_step_symmetric"
   ],
   "note": "For every derived filter, every call history and both build modes; over any real closed field; axiom-free."
  },
  {
   "property": "C15",
   "status": "proved",
   "theorems": [
    "C15_covariance_psd"
   ],
   "note": "Every history whose setters receive P, Q psd and R pd."
  },
  {
   "property": "C16",
   "status": "proved",
   "theorems": [
    "C16_cholesky_gain_is_kalman_gain"
   ],
   "note": "The in-place Cholesky algorithm and both triangular solves are modelled and proved to invert S exactly."
  },
  {
   "property": "C17",
   "status": "proved",
   "theorems": [
    "C17_update_decreases_uncertainty"
   ],
   "note": "Joseph form and Loewner decrease, exact arithmetic."
  },
  {
   "property": "C18",
   "status": "proved",
   "theorems": [
    "C18_gain_is_optimal"
   ],
   "note": "Against every other gain and every direction."
  },
  {
   "property": "C19",
   "status": "proved",
   "theorems": [
    "C19_noise_free_tracking_exact"
   ],
   "note": "Any order of calls, any covariances, inputs with or without feed-through."
  },
  {
   "property": "C20",
   "status": "proved",
   "theorems": [
    "C20_estimate_affine_gain_data_independent",
    "C20_error_recursion"
   ],
   "note": "Equality of success, gain and covariance, affine combination of estimates; plus the exact error recursion."
  },
  {
   "property": "C21",
   "status": "proved",
   "theorems": [
    "C21_only_covariance_ratios_matter"
   ],
   "note": "For psd P, Q and pd R."
  },
  {
   "property": "C22",
   "status": "proved",
   "theorems": [
    "C22_coordinate_independence"
   ],
   "note": "For every invertible change of coordinates, no condition on the covariances."
  },
  {
   "property": "C23",
   "status": "partial",
   "theorems": [
    "C23_reset_forgets",
    "C23_ekf_reset_forgets_refuted"
   ],
   "note": "Proved for the linear filter, both build modes. False for the extended filter (refuted with a witness): reset() keeps the cached predictions."
  },
  {
   "property": "C24",
   "status": "partial",
   "theorems": [
    "C24_setState_discards_predictions_refuted",
    "C24_stale_prediction_hides_state",
    "C24_no_stale_prediction_without_going_back"
   ],
   "note": "False (refuted): cached predictions are keyed on time only. Exact extent proved: any cached prediction for the next time hides the state; histories not going back in time are proved equal to the cache-less filter."
  },
  {
   "property": "C25",
   "status": "proved",
   "theorems": [
    "C25_ekf_of_linear_model_is_lkf"
   ],
   "note": "Debug; feed-through flags set according to B and D; histories without states set back in time (C24)."
  },
  {
   "property": "C26",
   "status": "partial",
   "theorems": [
    "C26_fd_jacobians_exact",
    "C26_jacobian_with_stale_prediction_refuted"
   ],
   "note": "Exact, total and without effect on state and data for histories without states set back in time; otherwise refuted."
  },
  {
   "property": "C27",
   "status": "partial",
   "theorems": [
    "C27_kalman_matrices_fit",
    "C27_ekf_cache_fits_refuted",
    "C27_observer_sizes_consistent"
   ],
   "note": "Observer data and the matrices of both filters proved; the prediction caches of the extended filter refuted."
  },
  {
   "property": "C28",
   "status": "proved",
   "theorems": [
    "C28_composition_associative"
   ],
   "note": "Components and rotation; four products run on shared objects with their caches. One corner outside the hypothesis (empty intermediate product asserts on one side only) shown as an example."
  },
  {
   "property": "C29",
   "status": "proved",
   "theorems": [
    "C29_inverse_two_sided"
   ],
   "note": "Both sides, with the exact set of components obtained."
  },
  {
   "property": "C30",
   "status": "proved",
   "theorems": [
    "C30_orientation_history",
    "C30_unset_orientation_rejected",
    "C30_reading_preserves_rotation"
   ],
   "note": "Simulation between the class and plain rotation matrices over every call history, both build modes; coherence, reads, and rejection of unset orientations."
  },
  {
   "property": "C31",
   "status": "proved",
   "theorems": [
    "C31_rotation_vector_gives_rotation"
   ],
   "note": "Exponential equal to Rodrigues formula above the 1e-16 threshold and to the identity below it."
  },
  {
   "property": "C32",
   "status": "proved",
   "theorems": [
    "C32_regulate_same_rotation"
   ],
   "note": "Exact for the rotation described by the vector; at the level of the library conversion except when the regulated norm falls in (0, 1e-16]."
  },
  {
   "property": "C33",
   "status": "partial",
   "theorems": [
    "C33_two_vectors_rotation",
    "C33_near_aligned_refuted"
   ],
   "note": "Proved outside the 2^-52 thresholds on the cosine; inside them the mapping is refuted (vectors 2e-9 rad apart are treated as equal)."
  },
  {
   "property": "C34",
   "status": "proved",
   "theorems": [
    "C34_merge_tilt_with_yaw",
    "C34_merge_tilt_axis_agnostic"
   ],
   "note": "Documented precondition: reference axis horizontal and normalised. Tilt always respected; yaw semantics also proved."
  },
  {
   "property": "C35",
   "status": "proved",
   "theorems": [
    "C35_vector_round_trip",
    "C35_load_then_read",
    "C35_wrong_use_rejected"
   ],
   "note": "All 64 flag combinations, both directions, rejection of short vectors and unset components in debug."
  },
  {
   "property": "C36",
   "status": "partial",
   "theorems": [
    "C36_integration_composes",
    "C36_integration_exact",
    "C36_free_functions_agree",
    "C36_all_durations_refuted"
   ],
   "note": "Linear part for all durations; orientation when no rotation step is below 1e-16 rad (refuted otherwise); integrate is proved to be the exact solution of the motion."
  },
  {
   "property": "C37",
   "status": "partial",
   "theorems": [
    "C37_differentiate_inverts_integrate",
    "C37_integrate_difference_restores",
    "C37_documented_difference_refuted"
   ],
   "note": "Exact log/exp round trip on the ball of radius pi (identity below 1e-16); the header comment on differentiate() is refuted."
  },
  {
   "property": "C38",
   "status": "partial",
   "theorems": [
    "C38_no_new_value_integrates",
    "C38_update_defined",
    "C38_new_values_copied",
    "C38_linear_exact",
    "C38_angular_exact",
    "C38_position_from_acceleration_refuted",
    "C38_angular_acceleration_sign_refuted",
    "C38_angular_acceleration_stale_refuted"
   ],
   "note": "No-new-value, copy, definedness, exact linear and angular reconstructions proved; three defects refuted: position from acceleration alone (factor 4), sign of the angular acceleration from orientations, stale angular acceleration."
  },
  {
   "property": "C39",
   "status": "proved",
   "theorems": [
    "C39_invert_state_involution",
    "C39_invert_state_is_inverse",
    "C39_homogeneous_inverse"
   ],
   "note": "Homogeneous matrices and 18-dimensional state vectors (also equal to getInverse)."
  },
  {
   "property": "C40",
   "status": "proved",
   "theorems": [
    "C40_estimate_has_unit_tilt",
    "C40_every_measurement_gives_a_unit_tilt"
   ],
   "note": "Unit norm after any history; the normalisation is shown never to divide by zero once the tilts set by the user are not zero."
  },
  {
   "property": "C41",
   "status": "partial",
   "theorems": [
    "C41_one_by_one",
    "C41_batches_up_to_two_partial",
    "C41_longer_batches_always_fail",
    "C41_batches_refuted"
   ],
   "note": "One-by-one feeding processes everything; up to two pending measurements processed; three or more always fail (refuted)."
  },
  {
   "property": "C42",
   "status": "partial",
   "theorems": [
    "C42_lipm_settings_in_filter_partial",
    "C42_dcm_error_setter_refuted",
    "C42_drift_setter_refuted"
   ],
   "note": "Natural frequency, sampling time and ZMP error proved for every history; the DCM error setter has no effect and the drift setter has a wrong unit and is forgotten (refuted)."
  },
  {
   "property": "C43",
   "status": "partial",
   "theorems": [
    "C43_local_bias_within_limits",
    "C43_clamp_preserves_sum_partial",
    "C43_clamp_preserves_sum_refuted",
    "C43_single_limit_refuted"
   ],
   "note": "Limits respected proved; the sum is preserved exactly when the orientation is the identity or the bias inside the limits (formula proved), refuted with a yaw of 90 degrees; a single active limit is undefined behaviour."
  },
  {
   "property": "C44",
   "status": "proved",
   "theorems": [
    "C44_lipm_noise_scale"
   ],
   "note": "Also with active limits."
  },
  {
   "property": "C45",
   "status": "partial",
   "theorems": [
    "C45_one_measurement_per_state",
    "C45_reads_never_fail_partial",
    "C45_noisy_read_with_concatenation_refuted",
    "C45_concatenate_after_read_refuted"
   ],
   "note": "Proved for every sensor class, noise source and call sequence. Partial totality: reads never fail except a noisy first read with concatenation in Debug, which always aborts (refuted); resizing the concatenated part after a read leaves an uninitialised cached value (refuted)."
  },
  {
   "property": "C46",
   "status": "proved",
   "theorems": [
    "C46_accelerometer_gyrometer_isometric",
    "C46_magnetometer_isometric",
    "C46_representations_agree"
   ],
   "note": "Both orientation representations, both build modes; norms, angles, agreement of the representations."
  },
  {
   "property": "C47",
   "status": "partial",
   "theorems": [
    "C47_simulation_iterates_dynamics",
    "C47_simulation_total",
    "C47_corrected_input_ignored_refuted",
    "C47_restart",
    "C47_restart_keeps_stale_measurements_refuted",
    "C47_state_at_next_index_refuted"
   ],
   "note": "Proved for every functor, every restart, every interleaving of timely inputs with distinct times, simulations and queries, both build modes, with totality. Refuted without those hypotheses: a second input at the same time is ignored, setState in the past keeps stale measurements, setState at the next index leaves a gap."
  },
  {
   "property": "C48",
   "status": "partial",
   "theorems": [
    "C48_future_state_never_returned",
    "C48_future_measurement_never_returned",
    "C48_future_queries_refuted",
    "C48_first_measurement_refuted",
    "C48_past_values_partial"
   ],
   "note": "Refuted: no query about a future time ever returns (proved for every state for getState, every simulation phase for getMeasurement); the first measurement is unreadable in Debug. Partial: past values and arrays are returned."
  },
  {
   "property": "C49",
   "status": "partial",
   "theorems": [
    "C49_state_layout",
    "C49_no_imu_refuted"
   ],
   "note": "Proved for every number of contacts and IMUs, every sequence of calls without clearContacts, both build modes, state and tangent vectors: in bounds, disjoint, covering when all the contacts are present. Refuted for an observer without IMU in Debug: the constructor aborts."
  },
  {
   "property": "C50",
   "status": "partial",
   "theorems": [
    "C50_list_of_contacts",
    "C50_add_contact",
    "C50_remove_contact_partial",
    "C50_remove_contact_debug_refuted",
    "C50_add_after_clear_refuted",
    "C50_number_of_contacts_refuted",
    "C50_number_differs_refuted"
   ],
   "note": "Proved: the list of contacts is the abstract set for every call sequence without clearContacts; addContact gives the smallest free number. Refuted: removeContact of an existing contact aborts in Debug (works in Release), no contact can be added after clearContacts, getNumberOfContacts is the maximum number."
  },
  {
   "property": "C51",
   "status": "partial",
   "theorems": [
    "C51_measurement_vector_partial",
    "C51_sensor_in_two_iterations_refuted",
    "C51_second_iteration_refuted",
    "C51_imu_twice_refuted",
    "C51_reset_inputs_refuted"
   ],
   "note": "Partial: first iteration with wrench sensors, both modes, any number of sensors: exact measurement vector, predicted layout, covariance blocks. Refuted: once a contact sensor has reported, no later update succeeds in Debug; an IMU reporting twice (Release) or resetInputs leave unwritten entries."
  },
  {
   "property": "C52",
   "status": "partial",
   "theorems": [
    "C52_automatic_number_debug_refuted",
    "C52_automatic_number_refuted",
    "C52_number_in_use_refuted"
   ],
   "note": "Refuted: the search looks for an IMU that did report; reads past the table as first call of an iteration, never succeeds in Debug."
  },
  {
   "property": "C53",
   "status": "partial",
   "theorems": [
    "C53_switches_partial",
    "C53_gyro_switch_refuted",
    "C53_contact_stiffness_partial",
    "C53_linear_stiffness_refuted"
   ],
   "note": "Refuted: setWithGyroBias changes the acceleration switch, no call changes the gyro switch; the linear stiffness is chosen by the linear damping. The rest is proved."
  },
  {
   "property": "C54",
   "status": "partial",
   "theorems": [
    "C54_difference_of_sum",
    "C54_sum_of_difference",
    "C54_all_entries_refuted"
   ],
   "note": "Both round trips proved for every reachable observer on the kinematics, gyro biases, wrench and present contacts. Refuted for the whole vector: stateDifference does not write the entries of the absent contacts (nor of the gyro biases of absent IMUs), which keep what was in memory."
  },
  {
   "property": "C55",
   "status": "partial",
   "theorems": [
    "C55_block_isolated_partial",
    "C55_add_contact",
    "C55_positive_semidefinite",
    "C55_set_gyro_bias_refuted",
    "C55_set_wrench_refuted",
    "C55_set_wrench_no_contact_refuted",
    "C55_set_kinematics_refuted"
   ],
   "note": "Setters, resets and addContact isolate exactly the block; covariances stay positive semi-definite over all call sequences. Refuted for the state setters with resetCovariance: setGyroBias and setStateUnmodeledWrench write one index too far, setStateKinematics with resetForces fails when a contact is present."
  },
  {
   "property": "C56",
   "status": "partial",
   "theorems": [
    "C56_contact_wrench_partial",
    "C56_rest_pose_refuted",
    "C56_displacement_refuted"
   ],
   "note": "The exact predicted wrench is proved; refuted as stated: it depends on the position of the base in the world and not on the rest pose of the contact."
  },
  {
   "property": "C57",
   "status": "partial",
   "theorems": [
    "C57_contact_pose_used_refuted",
    "C57_state_setters_partial"
   ],
   "note": "Refuted: the next estimate is the same whatever pose is given to addContact. The other setters reach the filter state."
  },
  {
   "property": "C58",
   "status": "proved",
   "theorems": [
    "C58_cached_rotation_flex",
    "C58_cached_rotation_imu"
   ],
   "note": "Proved for the four IMU classes (with C94 and C95 giving the rotation used) and for the elastic model."
  },
  {
   "property": "C59",
   "status": "partial",
   "theorems": [
    "C59_saturation_partial",
    "C59_saturation_keeps_the_rest",
    "C59_torques_limited_refuted"
   ],
   "note": "Proved: forces of the first contact within the force limits, orientation norm at most 3*pi/2, everything else kept. Refuted: the second triple that is limited is the force of the second contact (with the limits of the torques); no torque is limited."
  },
  {
   "property": "C60",
   "status": "proved",
   "theorems": [
    "C60_newton_euler"
   ],
   "note": "Proved along arbitrary motions of the base and of the robot on it, for a positive definite inertia."
  },
  {
   "property": "C61",
   "status": "partial",
   "theorems": [
    "C61_process_noise_refuted"
   ],
   "note": "Refuted: the noise is applied to a buffer that only the Jacobian fills."
  },
  {
   "property": "C62",
   "status": "partial",
   "theorems": [
    "C62_record_holds_pushed_values",
    "C62_logging_never_fails",
    "C62_only_recorded_addresses",
    "C62_update_address_keeps_record_refuted",
    "C62_type_checks_refuted",
    "C62_push_of_one_variable_refuted"
   ],
   "note": "Proved for record/push/clearLogs/save (and updateAddress of other variables): content, indices and numbering across clearing. Refuted: updateAddress loses the record (and the tracking when the address is unchanged) and does not check the type; push(address) always throws; unsigned is refused by record."
  },
  {
   "property": "C63",
   "status": "partial",
   "theorems": [
    "C63_clamp_is_projection",
    "C63_clamp_symmetric",
    "C63_finite_time_control_refuted",
    "C63_finite_time_control_undefined_at_target",
    "C63_finite_time_control_vector_first_component"
   ],
   "note": "Clamping proved; the finite-time control claim is refuted (wrong sign with the documented negative gains, infinite at 0, component 0 uninitialised)."
  },
  {
   "property": "C64",
   "status": "proved",
   "theorems": [
    "C64_noise_is_affine",
    "C64_noise_mean_and_covariance"
   ],
   "note": "Affine form with S S^T = P after any history, both orders of the setters, both build modes; mean and covariance under any linear expectation."
  },
  {
   "property": "C65",
   "status": "proved",
   "theorems": [
    "C65_incremental_log_is_complete"
   ],
   "note": "Any interleaving of pushes and flushes."
  },
  {
   "property": "C66",
   "status": "proved",
   "theorems": [
    "C66_release_agrees_with_debug"
   ],
   "note": ""
  },
  {
   "property": "C67",
   "status": "partial",
   "theorems": [
    "C67_lkf_without_inputs_needs_no_B_refuted"
   ],
   "note": "False in Debug: B must be set to an n x 0 matrix; D is optional."
  },
  {
   "property": "C68",
   "status": "proved",
   "theorems": [
    "C68_roll_pitch_yaw_round_trip"
   ],
   "note": "Exact on the stated domains."
  },
  {
   "property": "C69",
   "status": "proved",
   "theorems": [
    "C69_yaw_extraction"
   ],
   "note": ""
  },
  {
   "property": "C70",
   "status": "proved",
   "theorems": [
    "C70_vector6_round_trip"
   ],
   "note": "Includes correctness of the Eigen matrix-to-quaternion conversion in all four branches."
  },
  {
   "property": "C71",
   "status": "proved",
   "theorems": [
    "C71_product_of_motions",
    "C71_inverse_of_motion"
   ],
   "note": "Derivatives in the sense of the standard library (derivable_pt_lim), coefficient by coefficient."
  },
  {
   "property": "C72",
   "status": "proved",
   "theorems": [
    "C72_exact_estimate_follows_the_motion"
   ],
   "note": ""
  },
  {
   "property": "C73",
   "status": "proved",
   "theorems": [
    "C73_sensor_frame_does_not_matter"
   ],
   "note": ""
  },
  {
   "property": "C74",
   "status": "partial",
   "theorems": [
    "C74_lipm_exact_tracking",
    "C74_two_inputs_then_update_refuted"
   ],
   "note": "Proved for samples each followed by an update; two consecutive setInputs after the construction lose the first rotation (refuted)."
  },
  {
   "property": "C75",
   "status": "proved",
   "theorems": [
    "C75_lipm_never_fails"
   ],
   "note": ""
  },
  {
   "property": "C76",
   "status": "proved",
   "theorems": [
    "C76_planar_is_two_unidimensional"
   ],
   "note": "Histories without reset (the two reset functions do not take the same parameters)."
  },
  {
   "property": "C77",
   "status": "partial",
   "theorems": [
    "C77_semidefinite_covariance_refuted"
   ],
   "note": "Refuted: the status of the Cholesky factorisation is ignored."
  },
  {
   "property": "C78",
   "status": "partial",
   "theorems": [
    "C78_tangent_noise_refuted"
   ],
   "note": "Refuted: the size assertion rejects every such state in Debug."
  },
  {
   "property": "C79",
   "status": "partial",
   "theorems": [
    "C79_reset_covariances_partial",
    "C79_reset_state_covariance_refuted"
   ],
   "note": "Proved for the process covariance; resetStateCovarianceMat skips the IMUs that did not report in the current iteration (refuted)."
  },
  {
   "property": "C80",
   "status": "partial",
   "theorems": [
    "C80_initial_covariances_partial",
    "C80_contact_process_variance_refuted"
   ],
   "note": "Initial covariances proved entry by entry; the default process variance of contact forces and torques is the initial one, 1e100 (refuted)."
  },
  {
   "property": "C81",
   "status": "proved",
   "theorems": [
    "C81_measurement_difference"
   ],
   "note": "Proved, every sensor set."
  },
  {
   "property": "C82",
   "status": "proved",
   "theorems": [
    "C82_balance_of_moments"
   ],
   "note": "Proved for every reachable observer, with arbitrary motions, inertia and momentum curves."
  },
  {
   "property": "C83",
   "status": "partial",
   "theorems": [
    "C83_balance_of_forces_partial",
    "C83_balance_of_forces_refuted"
   ],
   "note": "Proved to hold exactly when w x (w x c) = 0; refuted otherwise: the centrifugal acceleration is counted twice."
  },
  {
   "property": "C84",
   "status": "proved",
   "theorems": [
    "C84_state_dynamics"
   ],
   "note": "Proved, both build modes."
  },
  {
   "property": "C85",
   "status": "partial",
   "theorems": [
    "C85_predicted_measurement_partial"
   ],
   "note": "Proved in the iterations where C51 holds, for any motions of the base and IMUs, without the gyro bias (C86)."
  },
  {
   "property": "C86",
   "status": "partial",
   "theorems": [
    "C86_gyro_bias_refuted"
   ],
   "note": "Refuted: the predicted measurement does not depend on the biases."
  },
  {
   "property": "C87",
   "status": "partial",
   "theorems": [
    "C87_quaternion_sign_refuted"
   ],
   "note": "Refuted: the stiffness torque is taken from the vector part of the quaternion and changes sign with it."
  },
  {
   "property": "C88",
   "status": "partial",
   "theorems": [
    "C88_noise_refuted"
   ],
   "note": "Refuted: the result of getNoisy is discarded."
  },
  {
   "property": "C89",
   "status": "partial",
   "theorems": [
    "C89_momentum_partial",
    "C89_inertia_partial",
    "C89_com_velocity_partial",
    "C89_com_position_partial",
    "C89_repeated_call_refuted"
   ],
   "note": "Proved for one value per iteration, any interleaving. Refuted within an iteration: the derivative stays the one of the first value."
  },
  {
   "property": "C90",
   "status": "proved",
   "theorems": [
    "C90_momentum_accuracy",
    "C90_com_accuracy"
   ],
   "note": "Proved with explicit constants, for any reachable observer and any motion."
  },
  {
   "property": "C91",
   "status": "partial",
   "theorems": [
    "C91_first_call_refuted"
   ],
   "note": "Refuted: the first value is differentiated against 0 (the identity for the inertia) over one period."
  },
  {
   "property": "C92",
   "status": "partial",
   "theorems": [
    "C92_inputs_accepted_partial",
    "C92_com_position_refuted"
   ],
   "note": "Proved for all calls except setCenterOfMass(position) before any centre of mass was given, which is an assertion failure in Debug and undefined in Release (refuted)."
  },
  {
   "property": "C93",
   "status": "proved",
   "theorems": [
    "C93_vector6_inertia"
   ],
   "note": "Proved, every history."
  },
  {
   "property": "C94",
   "status": "proved",
   "theorems": [
    "C94_next_state"
   ],
   "note": "Proved."
  },
  {
   "property": "C95",
   "status": "proved",
   "theorems": [
    "C95_predicted_measurement"
   ],
   "note": "Proved."
  },
  {
   "property": "C96",
   "status": "partial",
   "theorems": [
    "C96_stable_partial",
    "C96_stable_refuted"
   ],
   "note": "Proved for periods under 80 ms (position and velocity); refuted for 100 ms. The orientation part is missing."
  },
  {
   "property": "C97",
   "status": "proved",
   "theorems": [
    "C97_sum_of_difference",
    "C97_difference_of_sum"
   ],
   "note": "Proved."
  },
  {
   "property": "C98",
   "status": "proved",
   "theorems": [
    "C98_unit_quaternion"
   ],
   "note": "Proved."
  },
  {
   "property": "C99",
   "status": "partial",
   "theorems": [
    "C99_state_jacobian",
    "C99_measurement_jacobian",
    "C99_derivateRtv_refuted"
   ],
   "note": "Proved for getAMatrix and getCMatrix; derivateRtvMultiplicative has the opposite sign (refuted)."
  },
  {
   "property": "C100",
   "status": "partial",
   "theorems": [
    "C100_pendulum_momentum_partial",
    "C100_pendulum_momentum_refuted"
   ],
   "note": "Holds exactly when the angular velocity, the velocity or h - p is zero; refuted otherwise: the Coriolis term uses the height instead of the position."
  },
  {
   "property": "C101",
   "status": "partial",
   "theorems": [
    "C101_pendulum_stiffness_refuted"
   ],
   "note": "Refuted: undefined before setElasticity, defined after it."
  },
  {
   "property": "C102",
   "status": "proved",
   "theorems": [
    "C102_next_state"
   ],
   "note": "Proved."
  },
  {
   "property": "C103",
   "status": "partial",
   "theorems": [
    "C103_contact_energy_partial",
    "C103_moving_contact_refuted",
    "C103_gains_refuted"
   ],
   "note": "Proved with isotropic gains and contacts fixed on the base; refuted for moving contacts (their velocity enters the dampers but not the springs) and for anisotropic gains (no potential exists, even without damping)."
  },
  {
   "property": "C104",
   "status": "partial",
   "theorems": [
    "C104_rope_force_partial",
    "C104_rope_moment_refuted"
   ],
   "note": "The force is proved for isotropic gains; the moment is refuted."
  },
  {
   "property": "C105",
   "status": "partial",
   "theorems": [
    "C105_equilibrium_partial",
    "C105_equilibrium_refuted"
   ],
   "note": "Proved when forces and moments of the contacts are the same vectors; refuted otherwise: the third evaluation swaps them."
  },
  {
   "property": "C106",
   "status": "partial",
   "theorems": [
    "C106_momenta_partial",
    "C106_momenta_refuted",
    "C106_mass_refuted"
   ],
   "note": "Proved when the mass is that of HRP-2 and the linear velocity equals the angular one; refuted otherwise (the linear velocity is passed for the angular one; the mass of HRP-2 is used)."
  },
  {
   "property": "C107",
   "status": "partial",
   "theorems": [
    "C107_state_jacobian_partial",
    "C107_unmodeled_refuted"
   ],
   "note": "Proved for all components but those of a disabled unmodeled wrench, for which it is refuted."
  },
  {
   "property": "C108",
   "status": "partial",
   "theorems": [
    "C108_predicted_measurement_partial",
    "C108_measurement_refuted"
   ],
   "note": "Proved once the buffer of the efforts has been filled; refuted on a new object."
  },
  {
   "property": "C109",
   "status": "partial",
   "theorems": [
    "C109_measure_jacobian_partial",
    "C109_unmodeled_refuted"
   ],
   "note": "Proved for all components but those of a disabled unmodeled wrench, for which it is refuted."
  },
  {
   "property": "C110",
   "status": "partial",
   "theorems": [
    "C110_many_contacts_refuted"
   ],
   "note": "Refuted: fails for more than two elastic contacts."
  },
  {
   "property": "C111",
   "status": "proved",
   "theorems": [
    "C111_last_efforts"
   ],
   "note": "Proved."
  },
  {
   "property": "C112",
   "status": "partial",
   "theorems": [
    "C112_measurement_noise_refuted"
   ],
   "note": "Refuted in debug: the sensor asserts that the noisy vector has the size of the measurement without the extra entries."
  },
  {
   "property": "C113",
   "status": "proved",
   "theorems": [
    "C113_reset_forgets_covariance"
   ],
   "note": "Proved in Debug (an assertion fails); sizes only are modelled there."
  },
  {
   "property": "C114",
   "status": "proved",
   "theorems": [
    "C114_estimator_refines_automaton"
   ],
   "note": "Proved for both estimators; the filter step, Jacobians and covariance updates are arbitrary functions. Rounding is not modelled."
  },
  {
   "property": "C115",
   "status": "proved",
   "theorems": [
    "C115_no_nan_returned"
   ],
   "note": "Proved for both estimators."
  },
  {
   "property": "C116",
   "status": "partial",
   "theorems": [
    "C116_guess_starts_the_step_partial",
    "C116_guess_returned_refuted",
    "C116_homogeneous_guess_refuted"
   ],
   "note": "Proved: the next step starts from the guess. Refuted: the guess is not returned in the meantime; a homogeneous matrix is never accepted (it is copied into a Vector first, which asserts in debug)."
  },
  {
   "property": "C117",
   "status": "proved",
   "theorems": [
    "C117_estimation_idempotent"
   ],
   "note": "Proved."
  },
  {
   "property": "C118",
   "status": "proved",
   "theorems": [
    "C118_cycles_never_fail"
   ],
   "note": "Proved."
  },
  {
   "property": "C119",
   "status": "partial",
   "theorems": [
    "C119_divergence_handled_refuted"
   ],
   "note": "Refuted: the number of turns is converted to unsigned, undefined for infinities and for 2^32 turns and more."
  },
  {
   "property": "C120",
   "status": "proved",
   "theorems": [
    "C120_state_jacobian_again",
    "C120_measure_jacobian_again"
   ],
   "note": "Proved."
  },
  {
   "property": "C121",
   "status": "proved",
   "theorems": [
    "C121_rk4_exact"
   ],
   "note": "Proved for efforts that are both the forces and the moments given to the third evaluation (see C105 for the exchange of the two)."
  },
  {
   "property": "C122",
   "status": "proved",
   "theorems": [
    "C122_last_setting"
   ],
   "note": "Proved."
  },
  {
   "property": "C123",
   "status": "proved",
   "theorems": [
    "C123_component_without_uncertainty_is_never_corrected"
   ],
   "note": "Proved for vector arithmetic on the states, debug builds."
  },
  {
   "property": "C124",
   "status": "proved",
   "theorems": [
    "C124_filter_has_the_matrices"
   ],
   "note": "Proved. R is assumed square when given."
  },
  {
   "property": "C125",
   "status": "partial",
   "theorems": [
    "C125_imu_block_is_the_last_given",
    "C125_default_block_is_initialised_refuted"
   ],
   "note": "Proved for debug builds (sizes of the R given are checked). Refuted: the default block is not entirely initialised."
  },
  {
   "property": "C126",
   "status": "partial",
   "theorems": [
    "C126_sized_calls_succeed_partial",
    "C126_force_variance_3x3_refuted"
   ],
   "note": "Proved without setForceVariance(Matrix3); refuted with it (3x3 assigned to a 6x6 block)."
  },
  {
   "property": "C127",
   "status": "partial",
   "theorems": [
    "C127_force_blocks_partial",
    "C127_absolute_pose_block_partial",
    "C127_between_contacts_refuted",
    "C127_both_sensors_refuted"
   ],
   "note": "Proved for one kind of additional sensor, no reset and the variance given before. Refuted: blocks between contacts are never written; with both kinds of sensors the blocks are exchanged or uninitialised."
  },
  {
   "property": "C128",
   "status": "partial",
   "theorems": [
    "C128_variance_waits_for_a_resize",
    "C128_force_variance_takes_effect_refuted"
   ],
   "note": "Refuted: the variance waits for the next enlargement of R (proved for all histories)."
  },
  {
   "property": "C129",
   "status": "partial",
   "theorems": [
    "C129_enabled_bias_keeps_zero_noise",
    "C129_enabled_bias_is_uncertain_refuted"
   ],
   "note": "Refuted; proved that the noise and the covariance stay zero over all histories without reset or new Q, hence (C123) the component is never corrected."
  },
  {
   "property": "C130",
   "status": "partial",
   "theorems": [
    "C130_reset_gives_the_defaults",
    "C130_reset_keeps_force_variance_refuted"
   ],
   "note": "Proved; refuted for the variances of forces and of the pose, replaced by 1."
  },
  {
   "property": "C131",
   "status": "proved",
   "theorems": [
    "C131_fixed_contact_covariances",
    "C131_fixed_contact_calls_succeed",
    "C131_fixed_contact_reset"
   ],
   "note": "Proved."
  },
  {
   "property": "C132",
   "status": "proved",
   "theorems": [
    "C132_reconstruction_is_the_ekf",
    "C132_multiplicative_reconstruction_is_the_ekf",
    "C132_initial_input_needed"
   ],
   "note": "Proved for exact numbers, the functor being a pair of arbitrary functions. The input before the first measurement is shown to be necessary."
  },
  {
   "property": "C133",
   "status": "proved",
   "theorems": [
    "C133_perfect_data_perfect_reconstruction"
   ],
   "note": "Proved when the measure does not depend on the input (true of both functors)."
  },
  {
   "property": "C134",
   "status": "proved",
   "theorems": [
    "C134_estimates_do_not_depend_on_the_future"
   ],
   "note": "Proved when the measure does not depend on the input (true of both functors)."
  },
  {
   "property": "C135",
   "status": "proved",
   "theorems": [
    "C135_no_input_is_zero_input"
   ],
   "note": "Proved."
  },
  {
   "property": "C136",
   "status": "proved",
   "theorems": [
    "C136_certain_model_ignores_measurements"
   ],
   "note": "Proved without the regulation of the orientation."
  },
  {
   "property": "C137",
   "status": "proved",
   "theorems": [
    "C137_common_scale_of_covariances"
   ],
   "note": "Proved."
  },
  {
   "property": "C138",
   "status": "proved",
   "theorems": [
    "C138_fixed_contacts_log",
    "C138_fixed_contacts_log_without_inputs",
    "C138_fixed_contacts_estimates"
   ],
   "note": "Proved for every filter whose steps succeed on data of the right sizes; the estimates are characterised for every filter."
  },
  {
   "property": "C139",
   "status": "partial",
   "theorems": [
    "C139_changing_contacts_log_partial",
    "C139_changing_contacts_estimates",
    "C139_negative_indices_refuted"
   ],
   "note": "Proved for logs that start at a non-negative index. Refuted for negative indices: the array then starts at 0."
  },
  {
   "property": "C140",
   "status": "partial",
   "theorems": [
    "C140_first_failure_keeps_the_guess_refuted"
   ],
   "note": "Refuted: zeros are returned, the guess is not kept as the last estimate."
  },
  {
   "property": "C141",
   "status": "partial",
   "theorems": [
    "C141_finite_difference_of_a_turn",
    "C141_finite_difference_reaches_by_the_shortest_turn",
    "C141_fast_turn_refuted"
   ],
   "note": "Proved for turns of less than half a revolution and above the 1e-16 radian of the code; refuted beyond: a full turn per sample is seen as rest."
  },
  {
   "property": "C142",
   "status": "partial",
   "theorems": [
    "C142_reconstructed_trajectory",
    "C142_last_velocity_refuted"
   ],
   "note": "Proved for every sample but the last (velocity) and the last two (accelerations), which are zero; refuted for the last sample."
  },
  {
   "property": "C143",
   "status": "proved",
   "theorems": [
    "C143_uniformly_accelerated_samples"
   ],
   "note": "Proved, with the exact half-period delay of the velocities."
  },
  {
   "property": "C144",
   "status": "proved",
   "theorems": [
    "C144_fixed_point_motion"
   ],
   "note": "Proved."
  },
  {
   "property": "C145",
   "status": "partial",
   "theorems": [
    "C145_is_rotation_matrix_exactly",
    "C145_reflection_accepted_refuted",
    "C145_accepted_columns"
   ],
   "note": "The columns of an accepted matrix are orthonormal within 1e-12. Rotations are accepted; the reflections accepted are exactly those whose last column is along y within half the precision: refuted by the exchange of y and z."
  },
  {
   "property": "C146",
   "status": "partial",
   "theorems": [
    "C146_orthogonalize",
    "C146_not_a_rotation_refuted"
   ],
   "note": "Proved: orthogonal, closest, rotation when the determinant is positive. Refuted otherwise: a reflection is returned when the determinant is negative."
  },
  {
   "property": "C147",
   "status": "partial",
   "theorems": [
    "C147_measurement_vector_partial",
    "C147_outside_an_iteration",
    "C147_imu_twice_refuted",
    "C147_second_iteration_refuted",
    "C147_negative_size_refuted"
   ],
   "note": "Proved for the iterations of C51 (distinct IMUs, contacts present); refuted beyond: an IMU reported twice, a force sensor that reports in a second iteration overflows the vector, and a contact then reported without its sensor gives a negative size."
  },
  {
   "property": "C148",
   "status": "partial",
   "theorems": [
    "C148_kinematics_of_the_state",
    "C148_rotation_of_the_state",
    "C148_kinematics_of_a_frame",
    "C148_estimated_accelerations",
    "C148_accelerations_after_update",
    "C148_accelerations_kept_refuted",
    "C148_initial_orientation_refuted",
    "C148_stale_accelerations_refuted"
   ],
   "note": "Proved: the cached kinematics are those of the state after any sequence of calls. Refuted: setStateVector keeps old accelerations, and a new observer has the zero quaternion."
  },
  {
   "property": "C149",
   "status": "partial",
   "theorems": [
    "C149_answers_about_a_contact",
    "C149_added_contact",
    "C149_unmodeled_wrench_and_bias",
    "C149_state_kinematics",
    "C149_sensors_do_not_estimate",
    "C149_absent_contact_debug",
    "C149_absent_contact_refuted",
    "C149_bias_of_a_missing_imu_refuted"
   ],
   "note": "Proved. Refuted in Release: an absent contact is answered from the rest of the state, and the bias of an IMU beyond the last one overwrites the unmodeled force."
  },
  {
   "property": "C150",
   "status": "proved",
   "theorems": [
    "C150_update_returns_numbers",
    "C150_nan_stops_debug",
    "C150_numbers_as_before"
   ],
   "note": "Proved for every update with new measurements."
  },
  {
   "property": "C151",
   "status": "partial",
   "theorems": [
    "C151_state_set_is_lost",
    "C151_never_recovers",
    "C151_set_state_recovers",
    "C151_recovers_refuted"
   ],
   "note": "Refuted: nothing resets the state inside the filter, so every later estimate is replaced by the same old state until the user sets the state; a state set by the user before the bad update is lost. Proved: setting the state recovers."
  },
  {
   "property": "C152",
   "status": "proved",
   "theorems": [
    "C152_estimate_is_least_squares"
   ],
   "note": "Proved for positive definite P, Q and R."
  },
  {
   "property": "C153",
   "status": "proved",
   "theorems": [
    "C153_sensors_together_or_in_turn"
   ],
   "note": "Proved."
  },
  {
   "property": "C154",
   "status": "proved",
   "theorems": [
    "C154_error_in_every_direction",
    "C154_error_bounded_by_noise"
   ],
   "note": "Proved, in every direction and with singular covariances too (KalmanBound)."
  },
  {
   "property": "C155",
   "status": "proved",
   "theorems": [
    "C155_covariance_monotone"
   ],
   "note": "Proved for semi-definite Q and P."
  },
  {
   "property": "C156",
   "status": "partial",
   "theorems": [
    "C156_updates_without_pose",
    "C156_pose_never_used",
    "C156_pose_refuted"
   ],
   "note": "Proved as long as no absolute pose is reported. Refuted: getCMatrixFD has as many rows as the measurement vector while setC wants those of the tangent vector, so an update with a pose never succeeds: assertion in Debug, memory corruption in Release."
  },
  {
   "property": "C157",
   "status": "proved",
   "theorems": [
    "C157_perfect_measurements"
   ],
   "note": "Proved, for an update without a pose (C156) and a gain that gives no correction for no difference."
  },
  {
   "property": "C158",
   "status": "proved",
   "theorems": [
    "C158_unit_quaternion"
   ],
   "note": "Proved for exact reals."
  },
  {
   "property": "C159",
   "status": "proved",
   "theorems": [
    "C159_lipm_errors",
    "C159_unidim_errors"
   ],
   "note": "Proved for the planar estimator with the limits of the bias off (with them on, the bias is moved by the limiter after the update), and for the unidimensional one from its constructor."
  },
  {
   "property": "C160",
   "status": "partial",
   "theorems": [
    "C160_linear_part_exactly_when",
    "C160_estimates_converge",
    "C160_tilt_converges",
    "C160_opposite_tilt_stays",
    "C160_converges_from_every_tilt_refuted"
   ],
   "note": "Proved: the linear part converges geometrically exactly under the condition on the gains; the tilt tends to the true one or to its opposite, and to the true one if the linear part is exact and the initial tilt is not the opposite one. Refuted: the opposite tilt is never corrected."
  },
  {
   "property": "C161",
   "status": "proved",
   "theorems": [
    "C161_weighted_mean",
    "C161_order_does_not_matter",
    "C161_number"
   ],
   "note": "Proved."
  },
  {
   "property": "C162",
   "status": "partial",
   "theorems": [
    "C162_flags",
    "C162_inputs_have_no_effect",
    "C162_state_input_not_used",
    "C162_inputs_refuted"
   ],
   "note": "Proved when the sensor model does not look at its input, and for the input of the state prediction without that condition. False otherwise (C162_inputs_refuted): switching the output feedthrough off removes the check that the input of the measurement's time is there, but an input that is there is still given to the sensor model, so the estimate depends on whether it was recorded before or after the estimate was asked for. Changing the number of inputs of a filter after its construction is not covered."
  },
  {
   "property": "C163",
   "status": "partial",
   "theorems": [
    "C163_at_rest_exactly_in_equilibrium",
    "C163_stays_in_equilibrium",
    "C163_anywhere_refuted"
   ],
   "note": "Proved: the equivalence, and that the state is a fixed point, when the wrenches are the reactions that the model computes and the contacts hold a quaternion. False 'wherever the robot stands' (C163_anywhere_refuted): the reactions are computed from the position of the robot in the world and not from the rest pose of the contact (see C56), so a robot in true equilibrium on a contact whose rest position is r is predicted, at the second step, with the velocity -dt r (unit stiffness and mass)."
  },
  {
   "property": "C164",
   "status": "proved",
   "theorems": [
    "C164_estimate_is_least_squares",
    "C164_error_bounded_by_noise",
    "C164_program"
   ],
   "note": "Proved, with no axiom. Each estimation is of one step (an estimation of several steps with the same matrices is the same as the estimations one by one, C09); the covariance itself is not reset in between. Exact arithmetic."
  },
  {
   "property": "C165",
   "status": "proved",
   "theorems": [
    "C165_error_converges"
   ],
   "note": "Proved, with no axiom, for positive definite Q, R and initial covariance and constant matrices, in exact arithmetic. C165_unobserved shows that the condition is needed: without a sensor the covariance grows without bound."
  },
  {
   "property": "C166",
   "status": "proved",
   "theorems": [
    "C166_lipm_converges",
    "C166_unidim_converges",
    "C166_unidim_reset_converges"
   ],
   "note": "Proved, with no axiom, for the planar estimator after a reset and for the unidimensional one from its construction or after a reset, in exact arithmetic and with the discretisation 1 + omega dt that the code uses; the orientations may be any orthogonal matrices. The limits of the bias, when they are used, are not covered here."
  },
  {
   "property": "C167",
   "status": "proved",
   "theorems": [
    "C167_error_converges"
   ],
   "note": "Proved, with no axiom, in exact arithmetic, for the program written in the statement (one estimation per step). The constant matrices of C165 and the matrices of C166 are instances, with constants that depend on the bounds only."
  },
  {
   "property": "C168",
   "status": "proved",
   "theorems": [
    "C168_follows_its_model"
   ],
   "note": "The gain is any function that gives no correction for no difference, as the product by a matrix does. Cycles with an absolute pose are left out: the filter refuses their measurement vector (C156)."
  },
  {
   "property": "C169",
   "status": "proved",
   "theorems": [
    "C169_correction"
   ],
   "note": "For updates without an absolute pose (C156). Rotation vectors that are not zero but shorter than 1e-16 are left out of the statement on orientations. The gain is a parameter."
  }
 ]
}