# Formal model of state-observation: design

All Coq sources are in `rocq/theories` (logical name `Verif`), Rocq/Coq 8.16.1. Two
libraries are used: the standard library and mathcomp (matrices over an arbitrary real
closed field). Mathcomp is axiom-free as used here; no axiom comes from outside the
standard library.

## 1. Trusted base

* The Coq 8.16.1 kernel (no kernel check is switched off, no `Admitted`, no axiom of
  our own, no functor or module type of our own).
* Axioms listed by `Print Assumptions` under each theorem. Only axioms of the
  standard library occur, and only in developments about the real numbers `R`:
  `ClassicalDedekindReals.sig_forall_dec`, `ClassicalDedekindReals.sig_not_dec`,
  `FunctionalExtensionality.functional_extensionality_dep` and, where lemmas of `Reals`
  need it, `Classical_Prop.classic`. Section 6 gives the list for each theorem.
* The reading of the C++ by the author of the model: every definition cites the
  lines it models. The code is never compiled or run.

## 2. Modelling decisions

* **Doubles are exact reals.** Rounding, overflow, NaN and Inf are outside the model (except where a file below says so: `FlexEst.v` and `KinNan.v` take an arbitrary test of being NaN).
  Comparisons with thresholds (1e-16 for rotation vectors, 2^-52 for quaternion
  logarithms, ...) are kept as they are. Fixed-size `Eigen` vectors, 3x3 matrices and
  quaternions are records over the standard `R` (`Vec3.v`). Dynamic matrices (Kalman filters,
  LIPM estimators, noise, covariances of the kinetics observer) are mathcomp matrices
  `'M[R]_(m,n)` over an arbitrary `R : rcfType`: no axiom at all.
* **Asserts and build modes.** `BOOST_ASSERT`/`eigen_assert` compile to nothing in release
  builds. Operations that can assert return an outcome `Ok | AssertFail | Throw | UB` and
  take the build mode (`Debug | Release`) as a parameter. Undefined behaviour (reading or
  popping an empty deque, index out of range, reading an item never written,
  normalising a zero vector) is the explicit outcome `UB`, never a default value. An unset
  `CheckedItem` is `None`: reading it is `AssertFail` in Debug and `UB` in Release.
* **Uninitialised memory** that is returned to the user is made visible: entries are
  `option` values (`None`: never written) or come from an arbitrary argument (`d0` in
  `KinSum.v`: what the vector contained after its resize).
* **Time indices** are `Z` (no wrap-around of the 64-bit `TimeIndex`; narrowing to `int` is
  modelled where the code does it).
* **Virtual functions and external calls** (`oneStepEstimation_`, dynamics functors, sensors,
  random draws, the filter called by the kinetics observer) are parameters universally
  quantified in the theorems.
* **Eigen.** `LLT` is its unblocked algorithm, with its failure status; it is not assumed to be an
  inverse. The inverse of a 3x3 matrix is the adjugate over the determinant.
  `AngleAxis(Quaternion)` is the formula of Eigen 3.3 and later. Aliasing of arguments is
  modelled where the code is sensitive to it, else stated beside the definition.
* **Caches** of derived values (`Orientation`, EKF predictions) are part of the modelled state.

## 3. Files

Model files (each definition cites the lines it models):

| file | models |
|---|---|
| `Base.v` | outcomes, build modes, list lemmas |
| `Defs.v` | `definitions.hxx`: CheckedItem, IndexedMatrixT, IndexedMatrixArrayT |
| `ArrayIO.v` | `definitions.hxx`: reading and writing files, as token streams |
| `Approx.v` | `miscellaneous-algorithms.hpp`, `isApprox` helpers |
| `ZDO.v` | `zero-delay-observer.cpp`, `observer-base.cpp` |
| `MxLib.v`, `Cholesky.v` | matrix lemmas; Eigen LLT and triangular solves |
| `Kalman.v`, `KFilter.v`, `EkfFlags.v`, `EKFJac.v`, `KSize.v` | `kalman-filter-base.cpp`, `linear-kalman-filter.cpp`, `extended-kalman-filter.cpp` |
| `Vec3.v`, `Rot.v`, `Orient.v`, `Kine.v`, `KineUpdate.v` | `rigid-body-kinematics.hxx` |
| `Tilt.v` | `tilt-estimator.cpp` |
| `Lipm.v`, `LipmFilter.v` | `lipm-dcm-estimator.cpp`, `unidim-lipm-dcm-estimator.cpp` |
| `Simulator.v` | `dynamical-system-simulator.cpp` |
| `Sensors.v` | `algebraic-sensor.cpp` and the sensor algorithms and classes |
| `Noise.v` | `gaussian-white-noise.cpp` |
| `Logger.v` | `logger.cpp`, `logger.hxx` |
| `KinObs.v` | `kinetics-observer.{hpp,hxx,cpp}`: tables, indices, inputs, update |
| `KinCov.v` | the same: covariances |
| `KinSum.v` | the same: sums and differences of states and measurements |
| `KinDyn.v` | the same: dynamics and predicted measurement |
| `ImuSys.v` | `src/imu-dynamical-system.cpp`, `src/imu-magnetometer-dynamical-system.cpp`, `src/imu-fixed-contact-dynamical-system.cpp`, `src/stable-imu-fixed-contact-dynamical-system.cpp` (all but `getGuessMeasurement`-like accessors), `src/imu-mltpctive-dynamical-system.cpp` (dynamics, measurement, sum, difference, Jacobians as products), `src/bidim-elastic-inv-pendulum-dyn-sys.cpp` (state dynamics) |
| `KinInput.v` | the same: inputs given without their derivatives |
| `FlexSys.v` | `src/imu-elastic-local-frame-dynamical-system.{hpp,cpp}` |
| `FlexEst.v` | `src/ekf-flexibility-estimator-base.cpp`, `src/model-base-ekf-flex-estimator-imu.cpp`, `src/fixed-contact-ekf-flex-estimator-imu.cpp`: protocol, NaN, regulation, saturation |
| `FlexCov.v` | the same estimators: R, Q, variances and flags they keep and give to the filter; uninitialised entries are explicit |
| `Offline.v` | `include/state-observation/examples/imu-attitude-trajectory-reconstruction.hxx`, `imu-multiplicative-attitude-reconstruction.hxx` |
| `OfflineFlex.v` | `include/state-observation/examples/offline-ekf-flexibility-estimation.hxx`, `offline-model-base-flex-estimation.hxx`, on top of `FlexEst.v` |
| `Traj.v` | `include/state-observation/tools/rigid-body-kinematics.hxx`: finite differences of rotations and poses, `reconstructStateTrajectory`, `fixedPointRotationToTranslation`, `isRotationMatrix`, `orthogonalizeRotationMatrix` (JacobiSVD is a parameter with the definition of a decomposition as contract) |
| `KinQuery.v` | `src/kinetics-observer.cpp` 334-408, 469-474, 1085-1120, 1337-1340: `getMeasurementVector`, `getKinematics`, `getKinematicsOf`, `getContactPosition`, `getContactWrench`, `getUnmodeledWrench`, `estimateAccelerations`, and the cached kinematics `worldCentroidStateKinematics_` across all operations |
| `KinNan.v` | `src/kinetics-observer.cpp` 134, 321-335, 1280-1285: the test for NaN after the filter, `stateNaNCorrection_`, the state kept for it (`oldStateVector_`), around all operations of `KinObs.v` |
| `KinEkf.v` | `src/kinetics-observer.cpp` 96, 136, 171-176, 229-337 with `extended-kalman-filter.cpp` 86-211 and `kalman-filter-base.cpp` 108-171: the sizes of the matrices of the filter of the observer during its calls (on `KinObs.v` and `KSize.v`), and the estimate of an update: prediction, predicted measurement, difference, correction. The product of the gain with the difference is an arbitrary function |

`Spec*.v` hold the vocabulary of the statements (independent of the model's helpers),
`*Proofs*.v`, `*Thms.v`, `*Inv.v`, `*Rel.v` the lemmas, `Prop*.v` the property theorems, each
with a concrete case and `Print Assumptions`.

## 4. Plan per property

| id | modelled | proof |
|---|---|---|
| C01-C02 | array as (k_, list); spec: partial map Z -> value | refinement, induction on operation lists |
| C03, C04 | truncateBefore, setFirstIndex, setLastIndex | refuted by witness; partial theorem on the range where they work; the exact offset for all sizes |
| C05, C06 | token-level files (a number is one token) | round trip by induction; refutation of the unstamped reader with the exact result for every length |
| C07 | isApprox over R | lra; refuted at 0 |
| C08-C13 | observer with oracle one-step | induction over steps; invariant over call lists; refutations of C12, C13 |
| C14-C18 | matrices of any size, concrete LLT | algebra plus induction on size; completing the square |
| C19-C22 | LKF as a fold over data | induction over histories, relations between two runs |
| C23-C25 | EKF with caches | simulation; refutation for stale caches |
| C26 | FD Jacobians | algebra in every dimension |
| C27 | sizes of recorded matrices | invariant over call lists |
| C28-C29 | Kinematics product and inverse, flags included | ring identities over Mat3/Vec3; motions of frames |
| C30 | Orientation with two caches | invariant over operations |
| C31-C34 | Rodrigues formula, quaternions, trigonometry | ring and trigonometric identities |
| C35 | flags and vector layout | case analysis on flags generic in values |
| C36-C38 | integration, differentiation, update | ring; trigonometry; derivatives of motions; refutations |
| C39 | homogeneous matrices | ring |
| C40, C41 | tilt estimator on top of ZDO | invariant; refutation |
| C42-C44, C75, C76 | LIPM estimator | histories; relations between runs; refutations |
| C45, C46 | sensor cache machine; Rodrigues isometry | invariant; algebra |
| C47, C48 | simulator machine | induction; refutations |
| C49-C53, C57 | kinetics observer: tables and indices | invariant over all histories; simulation by an abstract set of contacts; refutations |
| C54, C81 | sums and differences | segment algebra plus exp/log of rotations |
| C55, C79, C80 | covariances | block structure, invariant (positive semi-definite) over all histories |
| C56, C82-C88 | dynamics and predicted measurement | Newton-Euler balances for arbitrary motions (derivatives of curves); refutations |
| C89-C93 | inputs of the kinetics observer | invariant on time stamps over all histories; mean value theorem; refutations |
| C58, C94-C101 | IMU models | invariant of the cached quaternion over all calls; motions and their composition; a quadratic form multiplied by a constant at each step; derivative of the exponential |
| C58, C60, C61, C102-C112, C120-C122 | elastic model | invariant of the buffers over all calls; Newton-Euler balances along arbitrary motions; power of springs and dampers; refutations |
| C123-C131 | components never corrected; covariances of the flexibility estimators | invariants over all call histories; refutations by computed histories |
| C132-C137 | offline reconstructions of the attitude | refinement of the loop to the extended Kalman filter of the textbooks; relations between two executions |
| C138-C140 | offline estimations of the flexibility | refinement of the loop to a reference over logs; invariant of usable states |
| C141-C146 | finite differences, reconstructed trajectories, tests and projection of rotation matrices | round trips with Rodrigues' formula; loop invariant over the array; Procrustes inequality |
| C147-C149 | getters of the kinetics observer | refinement of the cached kinematics by the state vector, invariant over operation lists; read-over-write laws of the components |
| C150-C151 | kinetics observer when the estimate is not a number | invariant over operation lists; the observer with the test refines the one without it |
| C152-C155 | meaning of the estimates of the linear filter | least squares over whole trajectories by induction on the steps (completing the square), information form, monotonicity in the Loewner order |
| C156-C158 | the filter inside the kinetics observer | sizes: simulation between the observer and the sized filter, invariant over call lists; values: C81 and C54 give that no difference gives no correction; unit quaternion by induction on the calls |
| C159, C154 in every direction | bounds of the errors | the relation "the square of the error in direction g is at most g'Pg times c" is kept by a step of the filter with any gain (Cauchy-Schwarz), by the reset and the samples of the LIPM estimators (planar and unidimensional) |
| C160 | convergence of the tilt estimator at rest | errors of each coordinate follow a recurrence of order two (Jury conditions, both directions); the cosine of the tilt grows except near 1 and -1, robustly to vanishing errors; dichotomy with excluded middle |
| C161 | the weighted mean | information form of a step with the gain that solves the normal equation, induction on the steps with an offset for the displacements |
| C162 | inputs without feedthrough | the step function does not depend on the inputs it is not given; induction over the steps |
| C163 | equilibrium of the kinetics observer | accelerations vanish iff the balance holds (the inertia is invertible); the state is rebuilt entry by entry; induction on the predictions |
| C164 | least squares with matrices that change | the cost loses its first step (matrices of that step), the rest is the cost of the shifted sequence; induction on the steps; calls in between keep the state and the covariance |
| C165 | convergence of the linear filter | the optimal gain gives a covariance below that of the observer, hence bounded by a Lyapunov matrix; the disturbances are then a fixed share of the predicted covariance, so the error weighted by the inverse of the covariance shrinks; induction on the steps |
| C166 | convergence of the LIPM estimators | as C165 but with matrices that change with the orientation: an observer with a gain that depends on the rotation corrects any error in two steps, its Lyapunov matrices are bounded whatever the rotations; the samples are a sequence of steps of the filter |
| C167 | convergence with changing matrices | Lyapunov matrices made of the last L + 1 transition matrices of the observer, bounded uniformly; then as C165, induction on the steps of the program |
| C168 | the kinetics observer follows its model | induction over the cycles: the invariant of the observer and "the filter holds the true state" are kept by the sensor calls and by an update without difference (C157) |
| C169 | the correction of the kinetics observer | the difference of the measurements (C81) and the sum of states (C54), for the observer reached by any history |
| C59, C114-C119 | estimators of the flexibility, the filter being arbitrary | refinement to an automaton, invariants over all histories; refutations |
| C62 | logger machine | refinement to histories |
| C63 | helpers | lra |
| C64, C77, C78 | noise | algebra on the Cholesky factor; refutations |
| C65-C74 | further laws of the filters, rotations and kinematics found while modelling | as above |

A claim that is false of the code is kept as stated; the model proves `..._refuted`
with a witness, and where possible a `..._partial` theorem giving the exact range in
which the claim holds.

## 5. Not modelled

* Floating-point rounding; Eigen expression templates and alignment; the random generator itself
  (draws are an argument); `type_info` demangling of the logger; `misc-tools`, `unit-testings`; in
  `Offline.v` the functor is a pair of arbitrary functions; in `OfflineFlex.v` the filter is arbitrary, the optional output
  arrays and the printing are left out and the matrices given at each time are an arbitrary function on the filter.
* `concatenateWithInput` of a sensor with a negative size.
* Kinetics observer: the extended Kalman filter it calls is an
  arbitrary function in `KinObs.v`, and its covariance an arbitrary function in `KinCov.v` (the filter itself is
  in `KFilter.v`); `sum` and `state` given as the same object to `stateSum`; the caches that
  `stateDynamics` fills in the orientations of the contacts (they do not change the rotation); the C-style cast
  `(Vector3 &)(stateKine.linAcc)` of `measureDynamics` is read as binding the stored value.
* Elastic model: iterateDynamicsRK4 is modelled as the public function it is (stateDynamics calls the Euler step); the debug printing.
* Flexibility estimators: timers and the computation-time getter; in `FlexEst.v` the filter step is an arbitrary
  function; in `FlexCov.v` the covariance after an estimation is an arbitrary matrix, the flags that the functor
  duplicates are one flag, matrices given are square and numbers are rationals.

## 6. Assumptions of each theorem

Generated from `Print Assumptions` of every theorem of `Prop*.v`. `D` stands for
`ClassicalDedekindReals.sig_not_dec` and `ClassicalDedekindReals.sig_forall_dec`, `F` for
`FunctionalExtensionality.functional_extensionality_dep`, `C` for `Classical_Prop.classic`.

* **closed under the global context** (192 theorems): `C01_array_refines_window_map`, `C01_empty_array_agrees`, `C02_truncateAfter_exact`, `C03_truncateBefore_exact_refuted`, `C03_truncateBefore_exact_partial`, `C03_truncateBefore_at_last_loses_everything`, `C03_truncateBefore_early_shifts_times`, `C04_setFirstIndex`, `C04_setLastIndex_refuted`, `C04_setLastIndex_off_by_two`, `C05_stamped_round_trip`, `C05_large_time_stamps_refuted`, `C05_vectors_stamped_round_trip`, `C06_unstamped_count_refuted`, `C06_unstamped_adds_one_entry`, `C06_unstamped_zero_columns_diverges`, `C06_unstamped_vectors_exact`, `C65_incremental_log_is_complete`, `C08_estimate_is_fold_over_measurements`, `C09_batch_equals_incremental`, `C10_reestimation_is_idempotent`, `C11_no_stale_data_in_past`, `C11_buffers_adjacent_partial`, `C11_buffers_adjacent_refuted`, `C11_next_measurement_unique`, `C12_rewind_clears_refuted`, `C12_setState_keeps_later_data`, `C12_rewind_blocks_measurements`, `C13_inputs_not_needed_refuted`, `C13_empty_inputs_always_fail`, `C27_observer_sizes_consistent`, `C66_release_agrees_with_debug`, `C14_covariance_symmetric`, `C14_one_step_symmetric`, `C15_covariance_psd`, `C16_cholesky_gain_is_kalman_gain`, `C17_update_decreases_uncertainty`, `C18_gain_is_optimal`, `C19_noise_free_tracking_exact`, `C20_estimate_affine_gain_data_independent`, `C20_error_recursion`, `C21_only_covariance_ratios_matter`, `C22_coordinate_independence`, `C23_reset_forgets`, `C23_ekf_reset_forgets_refuted`, `C24_setState_discards_predictions_refuted`, `C24_stale_prediction_hides_state`, `C24_no_stale_prediction_without_going_back`, `C25_ekf_of_linear_model_is_lkf`, `C26_fd_jacobians_exact`, `C26_jacobian_with_stale_prediction_refuted`, `C67_lkf_without_inputs_needs_no_B_refuted`, `C27_kalman_matrices_fit`, `C27_ekf_cache_fits_refuted`, `C113_reset_forgets_covariance`, `C75_lipm_never_fails`, `C42_lipm_settings_in_filter_partial`, `C42_dcm_error_setter_refuted`, `C42_drift_setter_refuted`, `C43_local_bias_within_limits`, `C43_clamp_preserves_sum_partial`, `C43_clamp_preserves_sum_refuted`, `C43_single_limit_refuted`, `C44_lipm_noise_scale`, `C74_lipm_exact_tracking`, `C74_two_inputs_then_update_refuted`, `C76_planar_is_two_unidimensional`, `C47_simulation_iterates_dynamics`, `C47_simulation_total`, `C47_corrected_input_ignored_refuted`, `C47_restart`, `C47_restart_keeps_stale_measurements_refuted`, `C47_state_at_next_index_refuted`, `C48_future_state_never_returned`, `C48_future_measurement_never_returned`, `C48_future_queries_refuted`, `C48_first_measurement_refuted`, `C48_past_values_partial`, `C45_one_measurement_per_state`, `C45_reads_never_fail_partial`, `C45_noisy_read_with_concatenation_refuted`, `C45_concatenate_after_read_refuted`, `C64_noise_is_affine`, `C64_noise_mean_and_covariance`, `C77_semidefinite_covariance_refuted`, `C78_tangent_noise_refuted`, `C62_record_holds_pushed_values`, `C62_logging_never_fails`, `C62_only_recorded_addresses`, `C62_update_address_keeps_record_refuted`, `C62_type_checks_refuted`, `C62_push_of_one_variable_refuted`, `C49_state_layout`, `C50_list_of_contacts`, `C50_add_contact`, `C50_remove_contact_partial`, `C50_remove_contact_debug_refuted`, `C50_add_after_clear_refuted`, `C50_number_of_contacts_refuted`, `C51_measurement_vector_partial`, `C51_sensor_in_two_iterations_refuted`, `C52_automatic_number_debug_refuted`, `C52_automatic_number_refuted`, `C53_switches_partial`, `C53_gyro_switch_refuted`, `C53_contact_stiffness_partial`, `C53_linear_stiffness_refuted`, `C57_contact_pose_used_refuted`, `C57_state_setters_partial`, `C49_no_imu_refuted`, `C50_number_differs_refuted`, `C51_second_iteration_refuted`, `C51_imu_twice_refuted`, `C51_reset_inputs_refuted`, `C52_number_in_use_refuted`, `C55_block_isolated_partial`, `C55_add_contact`, `C55_positive_semidefinite`, `C55_set_gyro_bias_refuted`, `C55_set_wrench_refuted`, `C55_set_wrench_no_contact_refuted`, `C55_set_kinematics_refuted`, `C79_reset_covariances_partial`, `C79_reset_state_covariance_refuted`, `C80_initial_covariances_partial`, `C80_contact_process_variance_refuted`, `C164_estimate_is_least_squares`, `C164_error_bounded_by_noise`, `C164_program`, `C165_error_converges`, `C116_homogeneous_guess_refuted`, `C123_component_without_uncertainty_is_never_corrected`, `C124_filter_has_the_matrices`, `C125_imu_block_is_the_last_given`, `C125_default_block_is_initialised_refuted`, `C126_sized_calls_succeed_partial`, `C126_force_variance_3x3_refuted`, `C127_force_blocks_partial`, `C127_absolute_pose_block_partial`, `C127_between_contacts_refuted`, `C127_both_sensors_refuted`, `C128_variance_waits_for_a_resize`, `C128_force_variance_takes_effect_refuted`, `C129_enabled_bias_keeps_zero_noise`, `C129_enabled_bias_is_uncertain_refuted`, `C130_reset_gives_the_defaults`, `C130_reset_keeps_force_variance_refuted`, `C131_fixed_contact_covariances`, `C131_fixed_contact_calls_succeed`, `C131_fixed_contact_reset`, `C132_reconstruction_is_the_ekf`, `C132_multiplicative_reconstruction_is_the_ekf`, `C132_initial_input_needed`, `C133_perfect_data_perfect_reconstruction`, `C134_estimates_do_not_depend_on_the_future`, `C135_no_input_is_zero_input`, `C136_certain_model_ignores_measurements`, `C137_common_scale_of_covariances`, `C147_measurement_vector_partial`, `C147_outside_an_iteration`, `C149_absent_contact_debug`, `C147_imu_twice_refuted`, `C147_second_iteration_refuted`, `C147_negative_size_refuted`, `C150_update_returns_numbers`, `C150_nan_stops_debug`, `C150_numbers_as_before`, `C151_state_set_is_lost`, `C151_never_recovers`, `C151_set_state_recovers`, `C151_recovers_refuted`, `C152_estimate_is_least_squares`, `C153_sensors_together_or_in_turn`, `C154_error_bounded_by_noise`, `C155_covariance_monotone`, `C156_updates_without_pose`, `C156_pose_never_used`, `C156_pose_refuted`, `C154_error_in_every_direction`, `C159_lipm_errors`, `C161_weighted_mean`, `C161_order_does_not_matter`, `C161_number`, `C162_flags`, `C162_inputs_have_no_effect`, `C162_state_input_not_used`, `C162_inputs_refuted`, `C166_lipm_converges`, `C166_unidim_converges`, `C166_unidim_reset_converges`, `C159_unidim_errors`, `C167_error_converges`.

* **D** (7 theorems): `C149_answers_about_a_contact`, `C149_added_contact`, `C149_unmodeled_wrench_and_bias`, `C149_state_kinematics`, `C149_sensors_do_not_estimate`, `C149_absent_contact_refuted`, `C149_bias_of_a_missing_imu_refuted`.

* **D + F** (96 theorems): `C07_isApproxAbs_spec`, `C07_isApprox_partial`, `C07_isApprox_reflexive_refuted`, `C63_clamp_is_projection`, `C63_clamp_symmetric`, `C63_finite_time_control_refuted`, `C63_finite_time_control_undefined_at_target`, `C63_finite_time_control_vector_first_component`, `C31_rotation_vector_gives_rotation`, `C33_two_vectors_rotation`, `C33_near_aligned_refuted`, `C34_merge_tilt_with_yaw`, `C34_merge_tilt_axis_agnostic`, `C39_homogeneous_inverse`, `C28_composition_associative`, `C29_inverse_two_sided`, `C35_vector_round_trip`, `C35_load_then_read`, `C35_wrong_use_rejected`, `C36_integration_composes`, `C36_integration_exact`, `C36_free_functions_agree`, `C71_product_of_motions`, `C71_inverse_of_motion`, `C39_invert_state_involution`, `C39_invert_state_is_inverse`, `C40_estimate_has_unit_tilt`, `C40_every_measurement_gives_a_unit_tilt`, `C41_one_by_one`, `C41_batches_up_to_two_partial`, `C41_longer_batches_always_fail`, `C41_batches_refuted`, `C72_exact_estimate_follows_the_motion`, `C73_sensor_frame_does_not_matter`, `C46_accelerometer_gyrometer_isometric`, `C46_magnetometer_isometric`, `C46_representations_agree`, `C84_state_dynamics`, `C82_balance_of_moments`, `C83_balance_of_forces_partial`, `C56_contact_wrench_partial`, `C56_rest_pose_refuted`, `C85_predicted_measurement_partial`, `C86_gyro_bias_refuted`, `C88_noise_refuted`, `C56_displacement_refuted`, `C87_quaternion_sign_refuted`, `C83_balance_of_forces_refuted`, `C163_at_rest_exactly_in_equilibrium`, `C163_stays_in_equilibrium`, `C163_anywhere_refuted`, `C89_momentum_partial`, `C89_inertia_partial`, `C89_com_velocity_partial`, `C89_com_position_partial`, `C89_repeated_call_refuted`, `C91_first_call_refuted`, `C92_inputs_accepted_partial`, `C92_com_position_refuted`, `C93_vector6_inertia`, `C98_unit_quaternion`, `C99_state_jacobian`, `C99_measurement_jacobian`, `C99_derivateRtv_refuted`, `C100_pendulum_momentum_partial`, `C100_pendulum_momentum_refuted`, `C101_pendulum_stiffness_refuted`, `C114_estimator_refines_automaton`, `C115_no_nan_returned`, `C59_saturation_keeps_the_rest`, `C59_torques_limited_refuted`, `C116_guess_starts_the_step_partial`, `C116_guess_returned_refuted`, `C117_estimation_idempotent`, `C118_cycles_never_fail`, `C119_divergence_handled_refuted`, `C138_fixed_contacts_estimates`, `C139_changing_contacts_estimates`, `C140_first_failure_keeps_the_guess_refuted`, `C144_fixed_point_motion`, `C145_is_rotation_matrix_exactly`, `C145_reflection_accepted_refuted`, `C145_accepted_columns`, `C146_orthogonalize`, `C146_not_a_rotation_refuted`, `C148_kinematics_of_the_state`, `C148_rotation_of_the_state`, `C148_kinematics_of_a_frame`, `C148_estimated_accelerations`, `C148_accelerations_after_update`, `C148_accelerations_kept_refuted`, `C148_initial_orientation_refuted`, `C148_stale_accelerations_refuted`, `C160_linear_part_exactly_when`, `C160_opposite_tilt_stays`, `C160_converges_from_every_tilt_refuted`.

* **D + F + C** (76 theorems): `C32_regulate_same_rotation`, `C68_roll_pitch_yaw_round_trip`, `C69_yaw_extraction`, `C70_vector6_round_trip`, `C30_orientation_history`, `C30_unset_orientation_rejected`, `C30_reading_preserves_rotation`, `C37_differentiate_inverts_integrate`, `C37_integrate_difference_restores`, `C37_documented_difference_refuted`, `C36_all_durations_refuted`, `C38_no_new_value_integrates`, `C38_update_defined`, `C38_new_values_copied`, `C38_linear_exact`, `C38_angular_exact`, `C38_position_from_acceleration_refuted`, `C38_angular_acceleration_sign_refuted`, `C38_angular_acceleration_stale_refuted`, `C54_difference_of_sum`, `C54_sum_of_difference`, `C54_all_entries_refuted`, `C81_measurement_difference`, `C90_momentum_accuracy`, `C90_com_accuracy`, `C58_cached_rotation_imu`, `C94_next_state`, `C95_predicted_measurement`, `C96_stable_partial`, `C96_stable_refuted`, `C97_sum_of_difference`, `C97_difference_of_sum`, `C58_cached_rotation_flex`, `C60_newton_euler`, `C61_process_noise_refuted`, `C102_next_state`, `C103_contact_energy_partial`, `C103_moving_contact_refuted`, `C103_gains_refuted`, `C104_rope_force_partial`, `C104_rope_moment_refuted`, `C105_equilibrium_partial`, `C105_equilibrium_refuted`, `C106_momenta_partial`, `C106_momenta_refuted`, `C106_mass_refuted`, `C108_predicted_measurement_partial`, `C108_measurement_refuted`, `C110_many_contacts_refuted`, `C111_last_efforts`, `C112_measurement_noise_refuted`, `C107_state_jacobian_partial`, `C107_unmodeled_refuted`, `C109_measure_jacobian_partial`, `C109_unmodeled_refuted`, `C120_state_jacobian_again`, `C120_measure_jacobian_again`, `C121_rk4_exact`, `C122_last_setting`, `C59_saturation_partial`, `C138_fixed_contacts_log`, `C138_fixed_contacts_log_without_inputs`, `C139_changing_contacts_log_partial`, `C139_negative_indices_refuted`, `C141_finite_difference_of_a_turn`, `C141_finite_difference_reaches_by_the_shortest_turn`, `C141_fast_turn_refuted`, `C142_reconstructed_trajectory`, `C142_last_velocity_refuted`, `C143_uniformly_accelerated_samples`, `C157_perfect_measurements`, `C158_unit_quaternion`, `C160_estimates_converge`, `C160_tilt_converges`, `C168_follows_its_model`, `C169_correction`.
