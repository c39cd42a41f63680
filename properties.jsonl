{"id": "C01", "title": "Indexed arrays are a contiguous time window with last-write-wins reads", "statement": "For any sequence of setValue, pushBack, popFront, truncateAfter, clear, reset and resize calls that trips no assertion, an IndexedMatrixArray behaves like a partial map from time indices to values whose domain is the interval [getFirstIndex(), getNextIndex()): reading index t returns the last value written at t, and reading outside the interval is exactly the asserted error case.", "quantifier": "every operation history, every time index, every value", "why_tests_cant": "The window can slide and grow without bound and negative indices are legal; tests sample a few short histories.", "anchors": ["include/state-observation/tools/definitions.hxx: IndexedMatrixArrayT::setValue, pushBack, popFront, operator[], clear, reset, resize, truncateAfter, checkIndex"]}
{"id": "C02", "title": "truncateAfter keeps exactly the entries up to the given time", "statement": "After truncateAfter(t) the array holds exactly the previous entries whose time index is <= t, with unchanged indices and values.", "quantifier": "every array and every time index, inside or outside the window", "why_tests_cant": "Boundary behaviour has to hold at every offset, including t before the first and after the last index.", "anchors": ["include/state-observation/tools/definitions.hxx: IndexedMatrixArrayT::truncateAfter"]}
{"id": "C03", "title": "truncateBefore keeps exactly the entries from the given time on", "statement": "After truncateBefore(t) the array holds exactly the previous entries whose time index is >= t, with unchanged indices and values.", "quantifier": "every array and every time index, inside or outside the window", "why_tests_cant": "Boundary behaviour has to hold at every offset; a test at one interior index passes while the two boundaries are wrong.", "anchors": ["include/state-observation/tools/definitions.hxx: IndexedMatrixArrayT::truncateBefore", "include/state-observation/tools/definitions.hxx: setFirstIndex"]}
{"id": "C04", "title": "setFirstIndex and setLastIndex relabel the window as requested", "statement": "After setFirstIndex(i) getFirstIndex() is i, after setLastIndex(i) getLastIndex() is i, and in both cases the stored values and their order are unchanged.", "quantifier": "every array and every index", "why_tests_cant": "A single-size test cannot show that the shift is right for every size.", "anchors": ["include/state-observation/tools/definitions.hxx: setLastIndex, setFirstIndex, getLastIndex"]}
{"id": "C05", "title": "A time-stamped log file reads back as the array that was written", "statement": "Writing an indexed array whose time indices fit a 32-bit int to a file and reading it back with the matching dimensions yields an array with the same indices and the same values (as printed), whatever the array held before.", "quantifier": "every array content, every matrix dimension, every previous content of the destination", "why_tests_cant": "Round trips have to hold for every length including zero and for every dimension.", "anchors": ["include/state-observation/tools/definitions.hxx: writeInFile, readFromFile, readVectorsFromFile"]}
{"id": "C06", "title": "A log file without time stamps reads back with the right number of entries", "statement": "Reading a file that contains n matrices without time stamps yields exactly n entries, equal to the matrices in the file and indexed 0..n-1.", "quantifier": "every number of matrices and every dimension", "why_tests_cant": "End-of-file handling is wrong or right for all lengths at once; a test that only looks at the first entries cannot see it.", "anchors": ["include/state-observation/tools/definitions.hxx: readFromFile, readVectorsFromFile"]}
{"id": "C07", "title": "Approximate comparison is reflexive and symmetric", "statement": "isApprox(a,b,p) and isApproxAbs(a,b,p) are symmetric in a and b, accept equal arguments for every positive tolerance, and isApproxAbs accepts exactly the pairs closer than the tolerance.", "quantifier": "every pair of reals and every tolerance", "why_tests_cant": "The failing point is a single value that random testing never draws.", "anchors": ["include/state-observation/tools/definitions.hxx: isApprox, isApproxAbs"]}
{"id": "C08", "title": "The estimate consumes exactly the recorded measurements, in order", "statement": "getEstimatedState(k), from a state at time k0 <= k with measurements k0+1..k (and the needed inputs) recorded, returns the state obtained by running the observer's one-step estimation once for each of k0+1, ..., k in that order, each step seeing exactly the measurement and inputs recorded for its time; afterwards the current time is k.", "quantifier": "every observer built on ZeroDelayObserver, every history length, every buffer content", "why_tests_cant": "The buffers are trimmed while iterating; off-by-one trimming shows only for particular lengths.", "anchors": ["src/zero-delay-observer.cpp: getEstimatedState, estimateState", "include/state-observation/observer/zero-delay-observer.hpp"]}
{"id": "C09", "title": "Batch and incremental estimation agree", "statement": "Estimating at time k1 and then at time k2 >= k1 gives the same state, the same current time and the same remaining buffers as estimating directly at k2.", "quantifier": "every split point of every history", "why_tests_cant": "Needs equality for all split points, not for a sampled one.", "anchors": ["src/zero-delay-observer.cpp: getEstimatedState"]}
{"id": "C10", "title": "Re-estimating without new data changes nothing", "statement": "Once the state at the last measurement time has been estimated, further estimateState() or getEstimatedState(current time) calls return the same state and leave every observable unchanged.", "quantifier": "every reachable observer state", "why_tests_cant": "Idempotence over all reachable states.", "anchors": ["src/zero-delay-observer.cpp: estimateState, getEstimatedState"]}
{"id": "C11", "title": "Recorded measurements and inputs stay contiguous and consistent with the state time", "statement": "In every state reachable through the public setters and estimators without tripping an assertion, recorded measurement indices form an interval, recorded input indices form an interval, and both stay adjacent to the estimate time so that the next measurement accepted is unique.", "quantifier": "every history of set/push/clear/estimate calls", "why_tests_cant": "An invariant over arbitrary call sequences.", "anchors": ["src/zero-delay-observer.cpp: setMeasurement, pushMeasurement, setInput, pushInput, setState, setCurrentState"]}
{"id": "C12", "title": "Setting the state in the past discards stale measurements and inputs", "statement": "setState(x,k) with k earlier than the current estimate time leaves no recorded measurement or input that belongs to the abandoned timeline, as the header documents.", "quantifier": "every observer state and every earlier time k", "why_tests_cant": "Concerns what later estimates see after any history.", "anchors": ["src/zero-delay-observer.cpp: setState", "include/state-observation/observer/zero-delay-observer.hpp: setState"]}
{"id": "C13", "title": "An observer with unused inputs needs no inputs", "statement": "For an observer with a positive input size whose dynamics ignores the input, estimation with measurements but no recorded inputs succeeds.", "quantifier": "every such observer and history", "why_tests_cant": "Depends on what the trimming loop does on an empty buffer, for every length.", "anchors": ["src/zero-delay-observer.cpp: getEstimatedState", "src/linear-kalman-filter.cpp: prediction_"]}
{"id": "C14", "title": "The state covariance stays symmetric", "statement": "After any number of Kalman steps the reported state covariance is a symmetric matrix, whatever the matrices A, C, Q, R used at each step.", "quantifier": "every dimension, every sequence of model matrices and measurements", "why_tests_cant": "Quantifies over all dimensions and all histories.", "anchors": ["src/kalman-filter-base.cpp: oneStepEstimation_"]}
{"id": "C15", "title": "The state covariance stays positive semi-definite", "statement": "If the initial covariance and every process covariance are positive semi-definite and every measurement covariance is positive definite, every covariance reported afterwards is positive semi-definite, for time-varying A and C of any value.", "quantifier": "every dimension and every finite history", "why_tests_cant": "A definiteness statement over all vectors and all histories.", "anchors": ["src/kalman-filter-base.cpp: oneStepEstimation_"]}
{"id": "C16", "title": "The Cholesky-based gain is the Kalman gain", "statement": "With Q, P positive semi-definite and R positive definite, the innovation covariance S is positive definite, its Cholesky factorisation succeeds, the matrix built from the two triangular solves is the inverse of S, and the gain K is the unique solution of K S = Pbar C^T.", "quantifier": "every dimension and all admissible matrices", "why_tests_cant": "An exact algebraic identity in every dimension.", "anchors": ["src/kalman-filter-base.cpp: oneStepEstimation_ (innovationUpdate_)"]}
{"id": "C17", "title": "A measurement never increases the uncertainty", "statement": "After a Kalman step the updated covariance is below the predicted covariance in the Loewner order, and equals the Joseph form (I-KC)Pbar(I-KC)^T + K R K^T.", "quantifier": "every dimension and all admissible matrices", "why_tests_cant": "Loewner order quantifies over all vectors.", "anchors": ["src/kalman-filter-base.cpp: oneStepEstimation_"]}
{"id": "C18", "title": "The gain used is optimal", "statement": "No other gain gives a smaller posterior error covariance: for every gain G, (I-GC)Pbar(I-GC)^T + G R G^T is above the covariance reported by the filter in the Loewner order.", "quantifier": "every dimension, all admissible matrices, every alternative gain", "why_tests_cant": "Quantifies over all alternative gains.", "anchors": ["src/kalman-filter-base.cpp: oneStepEstimation_"]}
{"id": "C19", "title": "A noise-free linear system started at its true state is tracked exactly", "statement": "If the state is initialised at the true state and the measurements and inputs come from the noise-free linear model, every estimate equals the true state, whatever the covariances.", "quantifier": "every linear system, every trajectory length, every input sequence", "why_tests_cant": "Induction over histories of any length and any dimension.", "anchors": ["src/linear-kalman-filter.cpp: prediction_, simulateSensor_", "src/kalman-filter-base.cpp: oneStepEstimation_"]}
{"id": "C20", "title": "The estimate is affine in the data and the gain is data independent", "statement": "For a linear Kalman filter the covariances and gains do not depend on the measurements, inputs or initial state, and the estimation error obeys e+ = (I-KC)A e when the data come from the noise-free model.", "quantifier": "every linear system, every history", "why_tests_cant": "Compares pairs of arbitrary histories.", "anchors": ["src/linear-kalman-filter.cpp: prediction_", "src/kalman-filter-base.cpp: oneStepEstimation_"]}
{"id": "C21", "title": "Only covariance ratios matter", "statement": "Multiplying the initial covariance, Q and R by the same positive factor leaves every state estimate of a linear Kalman filter unchanged and multiplies every covariance by that factor, as documented for the LIPM-DCM estimators.", "quantifier": "every positive factor, every linear system, every history", "why_tests_cant": "A relation between two runs for every factor.", "anchors": ["src/kalman-filter-base.cpp: oneStepEstimation_", "include/state-observation/dynamics-estimators/lipm-dcm-estimator.hpp: class documentation"]}
{"id": "C22", "title": "The filter does not depend on the choice of state coordinates", "statement": "Running the filter on the system transformed by an invertible matrix T (A,B,C,Q,P,x transformed accordingly) gives the transformed estimates and covariances at every time.", "quantifier": "every invertible T, every linear system, every history", "why_tests_cant": "A relation between two runs for every transformation.", "anchors": ["src/kalman-filter-base.cpp: oneStepEstimation_", "src/linear-kalman-filter.cpp: prediction_"]}
{"id": "C23", "title": "Resetting a filter makes it forget its history", "statement": "After reset() and re-initialisation of the state and covariance, a filter produces the same estimates as a freshly constructed filter with the same model.", "quantifier": "every history before the reset and every history after it", "why_tests_cant": "Compares arbitrary pasts.", "anchors": ["src/kalman-filter-base.cpp: reset, clearStates", "src/extended-kalman-filter.cpp: reset, prediction_", "src/observer-base.cpp: reset"]}
{"id": "C24", "title": "Re-initialising the state discards predictions made from the old state", "statement": "After setState, the next estimate is computed from the state that was set, not from a prediction computed before the call.", "quantifier": "every extended Kalman filter history", "why_tests_cant": "Stale caches appear only for particular interleavings of calls.", "anchors": ["src/extended-kalman-filter.cpp: prediction_, predictSensor_", "include/state-observation/observer/extended-kalman-filter.hpp"]}
{"id": "C25", "title": "An extended filter on a linear model is the linear filter", "statement": "An extended Kalman filter whose functor is an affine model and whose Jacobians are its matrices returns, on every history, the same estimates and covariances as the linear Kalman filter with these matrices.", "quantifier": "every linear model, every history", "why_tests_cant": "Equivalence of two implementations on all histories.", "anchors": ["src/extended-kalman-filter.cpp", "src/linear-kalman-filter.cpp"]}
{"id": "C26", "title": "Finite-difference Jacobians of affine models are exact", "statement": "getAMatrixFD and getCMatrixFD return exactly the matrices of an affine model for every non-zero step vector and leave the current estimate unchanged.", "quantifier": "every affine model, every state, every step vector without zero component", "why_tests_cant": "All dimensions and all steps.", "anchors": ["src/extended-kalman-filter.cpp: getAMatrixFD, getCMatrixFD"]}
{"id": "C27", "title": "Changing sizes leaves no matrix of the old size in use", "statement": "After setStateSize, setMeasureSize or setInputSize with a new value, no state, measurement, input, or model matrix of the previous size remains recorded.", "quantifier": "every sequence of size changes and settings", "why_tests_cant": "Invariant over call sequences.", "anchors": ["src/kalman-filter-base.cpp: setStateSize, setMeasureSize", "src/linear-kalman-filter.cpp: setStateSize, setMeasureSize, setInputSize", "src/observer-base.cpp"]}
{"id": "C28", "title": "Composition of kinematics is associative", "statement": "The product of Kinematics objects (pose, velocities, accelerations) is associative on every component set in the operands.", "quantifier": "all triples of kinematics", "why_tests_cant": "Nonlinear identity over all real operands.", "anchors": ["include/state-observation/tools/rigid-body-kinematics.hxx: Kinematics::setToProductNoAlias, operator*"]}
{"id": "C29", "title": "The inverse of a kinematics is a two-sided inverse", "statement": "K * K.getInverse() and K.getInverse() * K are the identity pose with zero velocities and accelerations, on every component set.", "quantifier": "all kinematics with an orthonormal orientation", "why_tests_cant": "Nonlinear identity over all operands including rotating frames.", "anchors": ["include/state-observation/tools/rigid-body-kinematics.hxx: Kinematics::getInverse, setToProductNoAlias"]}
{"id": "C30", "title": "The two representations held by an Orientation always describe the same rotation", "statement": "For every sequence of Orientation operations (set from matrix, quaternion, vector, AngleAxis, roll-pitch-yaw, product, inverse, integrate, conversions), whenever both the matrix and the quaternion caches are valid they describe the same rotation, and reading either representation never changes the rotation.", "quantifier": "every operation history", "why_tests_cant": "Lazy synchronisation errors depend on the history.", "anchors": ["include/state-observation/tools/rigid-body-kinematics.hxx: Orientation"]}
{"id": "C31", "title": "Rotation vectors map to rotation matrices", "statement": "The matrix obtained from any rotation vector is orthonormal with determinant one, the zero vector gives the identity, and negating the vector gives the transpose.", "quantifier": "every rotation vector", "why_tests_cant": "Identity over all reals including the small-angle branch.", "anchors": ["include/state-observation/tools/rigid-body-kinematics.hxx: rotationVectorToRotationMatrix, rotationVectorToAngleAxis, rotationVectorToQuaternion"]}
{"id": "C32", "title": "Regulating an orientation vector preserves the rotation", "statement": "regulateOrientationVector returns a vector describing the same rotation, unchanged when its norm is at most 3*pi/2 and of norm at most pi otherwise.", "quantifier": "every vector", "why_tests_cant": "Periodicity over unbounded norms.", "anchors": ["include/state-observation/tools/rigid-body-kinematics.hxx: regulateOrientationVector"]}
{"id": "C33", "title": "The rotation between two unit vectors is a rotation and maps one onto the other", "statement": "For unit vectors that are not opposite, twoVectorsToRotationMatrix returns an orthonormal matrix with determinant one mapping the first onto the second; for opposite vectors it reports an error.", "quantifier": "every pair of unit vectors", "why_tests_cant": "The near-parallel and near-opposite branches are thin sets.", "anchors": ["include/state-observation/tools/rigid-body-kinematics.hxx: twoVectorsToRotationMatrix"]}
{"id": "C34", "title": "Merging a tilt with a yaw respects the tilt", "statement": "mergeTiltWithYaw and mergeTiltWithYawAxisAgnostic return rotation matrices whose transpose maps the vertical onto the given unit tilt, for every yaw source accepted.", "quantifier": "every unit tilt and every orientation", "why_tests_cant": "All reals, including axis-degenerate branches.", "anchors": ["include/state-observation/tools/rigid-body-kinematics.hxx: mergeTiltWithYaw, mergeTiltWithYawAxisAgnostic"]}
{"id": "C35", "title": "Kinematics vectors round trip", "statement": "fromVector(toVector(flags), flags) restores exactly the components selected by the flags, in every combination of flags.", "quantifier": "every kinematics and every flag combination", "why_tests_cant": "All 64 flag combinations times all values.", "anchors": ["include/state-observation/tools/rigid-body-kinematics.hxx: Kinematics::toVector, fromVector"]}
{"id": "C36", "title": "Integrating kinematics composes over time", "statement": "With constant accelerations, integrating the position and linear velocity over dt1 then dt2 equals integrating over dt1+dt2; with zero acceleration the same holds for the orientation.", "quantifier": "all kinematics and all durations", "why_tests_cant": "Semigroup law over all reals.", "anchors": ["include/state-observation/tools/rigid-body-kinematics.hxx: integrateKinematics, Kinematics::integrate"]}
{"id": "C37", "title": "Orientation differences invert orientation integration", "statement": "Differentiating an orientation against its integral by a rotation vector of norm below pi returns that vector, and integrating the difference restores the target orientation.", "quantifier": "all orientations and all rotation vectors in the ball of radius pi", "why_tests_cant": "Requires the logarithm to invert the exponential everywhere.", "anchors": ["include/state-observation/tools/rigid-body-kinematics.hxx: Orientation::differentiate, integrate, quaternionToRotationVector, rotationVectorToQuaternion"]}
{"id": "C38", "title": "Updating kinematics by finite differences is consistent with integration", "statement": "When the accelerations are constant, Kinematics::update fed with the exact pose (or pose and velocity) at the next sample recovers consistent positions, velocities and accelerations: positions obtained from acceleration only use half of acc*dt^2, and angular accelerations obtained from orientations have the sign of the motion.", "quantifier": "all kinematics, all time steps", "why_tests_cant": "Depends on which components are set, over all values.", "anchors": ["include/state-observation/tools/rigid-body-kinematics.hxx: Kinematics::update"]}
{"id": "C39", "title": "Inverting a state vector or a homogeneous matrix is an involution", "statement": "invertHomoMatrix returns the two-sided inverse of every rigid transformation and inverting twice gives back the argument.", "quantifier": "all rigid transformations", "why_tests_cant": "All reals.", "anchors": ["include/state-observation/tools/rigid-body-kinematics.hxx: invertHomoMatrix, invertState"]}
{"id": "C40", "title": "The tilt estimate stays on the unit sphere", "statement": "After every estimation step the third component block of the tilt estimator state has unit norm, whatever the measurements and gains.", "quantifier": "every history of measurements and inputs", "why_tests_cant": "Invariant over all histories.", "anchors": ["src/tilt-estimator.cpp: oneStepEstimation_"]}
{"id": "C41", "title": "The tilt estimator processes batches of measurements", "statement": "Calling getEstimatedState(k) after recording several measurements processes every one of them.", "quantifier": "every number of pending measurements", "why_tests_cant": "Fails only from a certain number of pending measurements on.", "anchors": ["src/tilt-estimator.cpp: oneStepEstimation_", "src/zero-delay-observer.cpp: getEstimatedState"]}
{"id": "C42", "title": "LIPM parameters set through the setters take effect", "statement": "Setting the measurement error, the bias drift or the ZMP error changes the corresponding noise covariance accordingly, and the setting survives later changes of the other parameters.", "quantifier": "every sequence of parameter changes", "why_tests_cant": "Order-dependent over arbitrary call sequences.", "anchors": ["src/lipm-dcm-estimator.cpp: setDcmMeasureErrorStd, setBiasDriftPerSecond, setZmpMeasureErrorStd, setSamplingTime, setLipmNaturalFrequency", "src/unidim-lipm-dcm-estimator.cpp"]}
{"id": "C43", "title": "The estimated bias respects its limits and the clamp preserves the measured DCM", "statement": "After every update the estimated local bias lies within the configured limits and the sum of the estimated DCM and bias in the world frame is unchanged by the clamping.", "quantifier": "every history, every orientation, every limit", "why_tests_cant": "The frame error is invisible at zero yaw.", "anchors": ["src/lipm-dcm-estimator.cpp: update, setBias", "include/state-observation/dynamics-estimators/lipm-dcm-estimator.hpp"]}
{"id": "C44", "title": "LIPM estimates do not depend on the noise scale", "statement": "Multiplying every standard deviation of the LIPM estimator (ZMP error, DCM error, bias drift, initial uncertainties) by the same positive factor gives the same estimates when the bias limit is off.", "quantifier": "every factor and every history", "why_tests_cant": "A relation between two runs over all histories.", "anchors": ["src/lipm-dcm-estimator.cpp", "include/state-observation/dynamics-estimators/lipm-dcm-estimator.hpp: class documentation"]}
{"id": "C45", "title": "A sensor returns one measurement per state", "statement": "Between two setState calls getMeasurements returns the same noisy value and the same noiseless value on every call; the noiseless value is the sensor function of the last state, followed by the concatenated part of the state.", "quantifier": "every call sequence, every noise source", "why_tests_cant": "Caching over all interleavings.", "anchors": ["src/algebraic-sensor.cpp: setState, getMeasurements, computeNoisyMeasurement_, concatenateWithInput", "src/accelerometer-gyrometer.cpp"]}
{"id": "C46", "title": "Simulated IMU measurements are isometric", "statement": "The simulated accelerometer, gyrometer and magnetometer outputs have the norms of the corresponding world vectors; at rest the accelerometer norm is the gravity constant, for every orientation.", "quantifier": "every orientation, acceleration and angular velocity", "why_tests_cant": "All rotations.", "anchors": ["src/linear-acceleration.cpp", "src/rotation-velocity.cpp", "src/magnetic-field.cpp", "src/accelerometer-gyrometer.cpp"]}
{"id": "C47", "title": "The simulator computes the iterates of the dynamics", "statement": "After setState(x0,k0), inputs set, and simulateDynamicsTo(k), the state at every time i in k0..k is the i-k0-fold application of the dynamics with the input in force at each time, and the measurement at every time i < k is the measurement function of that state.", "quantifier": "every dynamics functor, every length, every sparse input schedule", "why_tests_cant": "Induction over the horizon and over sparse input maps.", "anchors": ["src/dynamical-system-simulator.cpp: simulateDynamics, simulateDynamicsTo, getInput, setInput"]}
{"id": "C48", "title": "The simulator answers queries about the future", "statement": "getState(k) and getMeasurement(k) for a future k simulate as far as needed and return the value at k.", "quantifier": "every future time", "why_tests_cant": "Off-by-one errors at the horizon.", "anchors": ["src/dynamical-system-simulator.cpp: getState, getMeasurement, simulateDynamicsTo"]}
{"id": "C49", "title": "State segments of the kinetics observer never overlap", "statement": "For any number of IMUs and contacts, the index functions partition the state vector and the tangent vector: segments are pairwise disjoint, inside bounds and cover the vector.", "quantifier": "every maximum number of contacts and IMUs, every contact id", "why_tests_cant": "All sizes.", "anchors": ["include/state-observation/dynamics-estimators/kinetics-observer.hxx", "src/kinetics-observer.cpp: KineticsObserver, addContact"]}
{"id": "C50", "title": "Contacts can be added and removed", "statement": "In every reachable state, addContact gives a free contact id below the maximum, removeContact on an existing contact removes it and only it, clearContacts leaves an observer that accepts new contacts, and getNumberOfContacts is the number of contacts present.", "quantifier": "every sequence of contact operations, both build modes", "why_tests_cant": "Call-sequence invariant.", "anchors": ["src/kinetics-observer.cpp: addContact, removeContact, clearContacts, getNumberOfContacts, getListOfContacts"]}
{"id": "C51", "title": "The measurement vector matches the sensors that reported", "statement": "At every update the measurement vector has room for exactly the IMUs, wrench sensors and pose sensor that reported in this iteration, each occupying its own segment.", "quantifier": "every sequence of sensor calls over any number of iterations", "why_tests_cant": "The counter and the flags drift apart only from the second iteration on.", "anchors": ["src/kinetics-observer.cpp: update, startNewIteration_, updateContactWithWrenchSensor, updateContactWithNoSensor, getMeasurementSize"]}
{"id": "C52", "title": "IMUs can be numbered automatically", "statement": "setIMU without a number returns the number of an IMU that has not yet reported in this iteration, when one is free.", "quantifier": "every observer state", "why_tests_cant": "All states of the sensor table.", "anchors": ["src/kinetics-observer.cpp: setIMU"]}
{"id": "C53", "title": "Configuration switches of the kinetics observer act on the named feature", "statement": "setWithGyroBias controls the gyro-bias estimation and setWithAccelerationEstimation the acceleration estimation, independently, and custom contact stiffness values are used when given.", "quantifier": "every call sequence", "why_tests_cant": "Order independence over call sequences.", "anchors": ["src/kinetics-observer.cpp: setWithGyroBias, setWithAccelerationEstimation, addContact"]}
{"id": "C54", "title": "State sum and difference of the kinetics observer are inverse", "statement": "For every state and tangent vector with rotation parts of norm below pi, stateDifference(stateSum(x,d),x) = d and stateSum(x2, stateDifference(x1,x2)) = x1 up to the sign of the quaternions, on all active components.", "quantifier": "every state, every tangent vector, every set of contacts and switches", "why_tests_cant": "All dimensions and all rotations.", "anchors": ["src/kinetics-observer.cpp: stateSum, stateDifference", "src/imu-mltpctive-dynamical-system.cpp: stateSum, stateDifference"]}
{"id": "C55", "title": "Resetting a covariance block isolates that block", "statement": "Setting the covariance of one component (contact, gyro bias, wrench, kinematics) replaces exactly that component's block, clears its correlations, leaves every other entry unchanged, and keeps the covariance symmetric and positive semi-definite.", "quantifier": "every covariance, every component", "why_tests_cant": "All dimensions and block positions.", "anchors": ["src/kinetics-observer.cpp: setBlockStateCovariance, setGyroBias, setStateUnmodeledWrench, setStateKinematics, addContact"]}
{"id": "C56", "title": "Predicted contact forces depend on the contact rest pose", "statement": "The contact wrench predicted by the state dynamics is the viscoelastic reaction to the displacement of the contact from its estimated rest pose.", "quantifier": "every state and contact pose", "why_tests_cant": "A dependence statement over all poses.", "anchors": ["src/kinetics-observer.cpp: stateDynamics, computeContactForces_"]}
{"id": "C57", "title": "A contact added to the observer is used by the next update", "statement": "The initial pose given to addContact is the contact pose from which the next estimation starts.", "quantifier": "every observer state and pose", "why_tests_cant": "Depends on two copies of the state staying in sync over all histories.", "anchors": ["src/kinetics-observer.cpp: addContact, update, setStateKinematics"]}
{"id": "C58", "title": "Cached rotations always match their rotation vector", "statement": "In the IMU and flexibility models, the rotation used for a rotation vector is the rotation of that vector, whatever vectors were used before.", "quantifier": "every call history", "why_tests_cant": "Cache coherence over histories.", "anchors": ["src/imu-dynamical-system.cpp: computeQuaternion_", "src/imu-elastic-local-frame-dynamical-system.cpp: computeRotation_", "src/imu-fixed-contact-dynamical-system.cpp"]}
{"id": "C59", "title": "Flexibility estimates respect the configured saturations", "statement": "With saturation on, every force and torque component of the contacts in the flexibility vector returned by ModelBaseEKFFlexEstimatorIMU lies within the configured force and torque limits, and the orientation vector has norm at most 3*pi/2.", "quantifier": "every filter output", "why_tests_cant": "All outputs.", "anchors": ["src/model-base-ekf-flex-estimator-imu.cpp: getFlexibilityVector"]}
{"id": "C60", "title": "Flexibility accelerations satisfy the Newton-Euler equations", "statement": "The linear and angular accelerations computed by the elastic model satisfy the balance of forces and moments of the robot for the given contact wrench, inertia and momenta.", "quantifier": "every state, input and contact wrench with an invertible inertia", "why_tests_cant": "Nonlinear identity over all reals.", "anchors": ["src/imu-elastic-local-frame-dynamical-system.cpp: computeAccelerations, computeContactWrench"]}
{"id": "C61", "title": "Process noise disturbs the computed next state", "statement": "With a process noise set, the next state returned by the elastic model is the noisy version of the state computed by the dynamics from the given arguments.", "quantifier": "every state, input, and noise", "why_tests_cant": "Depends on a buffer left by earlier calls.", "anchors": ["src/imu-elastic-local-frame-dynamical-system.cpp: stateDynamics"]}
{"id": "C62", "title": "The logger records every pushed value under its address", "statement": "After any sequence of record, push, clearLogs and updateAddress calls, getRecord(a) holds the values of the variable at a at each push since it was recorded, with consecutive indices that survive clearLogs.", "quantifier": "every call sequence", "why_tests_cant": "Call histories.", "anchors": ["include/state-observation/tools/logger.hxx", "src/logger.cpp"]}
{"id": "C63", "title": "Clamping and saturation helpers stay in range", "statement": "clampScalar returns a value inside the limits, equal to the argument when it is already inside; the finite-time acceleration control drives every component.", "quantifier": "every real argument and limits", "why_tests_cant": "All reals.", "anchors": ["include/state-observation/tools/miscellaneous-algorithms.hpp: clampScalar, finiteTimeAccControl"]}
{"id": "C64", "title": "Noise has the requested covariance and bias", "statement": "The Gaussian noise added to a vector is an affine image bias + S*g of the standard noise with S*S^T equal to the requested covariance, and preserves the vector size.", "quantifier": "every covariance given as positive definite, every vector", "why_tests_cant": "Algebraic identity in every dimension.", "anchors": ["src/gaussian-white-noise.cpp", "src/probability-law-simulation.cpp"]}
{"id": "C65", "title": "A log flushed piecewise loses nothing", "statement": "When values are pushed and the array is flushed to the same file (append, clear) at arbitrary moments, the file read back holds every pushed value exactly once, in order, at consecutive time indices.", "quantifier": "every interleaving of pushes and flushes", "why_tests_cant": "All interleavings.", "anchors": ["include/state-observation/tools/definitions.hxx: pushBack, writeInFile, clear, readFromFile", "src/logger.cpp"]}
{"id": "C66", "title": "Release builds compute what debug builds compute", "statement": "Every history of public observer calls that runs in a debug build without tripping an assertion gives exactly the same observer (estimate, time, buffers) in a release build.", "quantifier": "every call history and every one-step estimation whose own asserts are its only mode dependence", "why_tests_cant": "Unit tests are run in one build mode, on one history.", "anchors": ["src/zero-delay-observer.cpp", "include/state-observation/tools/definitions.hxx: BOOST_ASSERT"]}
{"id": "C67", "title": "A linear Kalman filter without inputs needs no input matrices", "statement": "With input size 0, a LinearKalmanFilter whose A, C, Q, R, state and covariance are set can run without ever calling setB or setD.", "quantifier": "every linear filter with p = 0, every data", "why_tests_cant": "A test in the build mode in use exercises one filter; the claim is about both build modes and all data.", "anchors": ["src/linear-kalman-filter.cpp:29-50,83-107", "src/kalman-filter-base.cpp:17-25"]}
{"id": "C68", "title": "Roll-pitch-yaw angles and rotation matrices round trip", "statement": "rotationMatrixToRollPitchYaw inverts rollPitchYawToRotationMatrix for roll and yaw in (-pi, pi] and pitch strictly between -pi/2 and pi/2; conversely recomposing the extracted angles restores every rotation matrix that is not at the pitch singularity; the recomposed matrix is Rz(yaw) Ry(pitch) Rx(roll).", "quantifier": "all angles in range, all rotation matrices away from gimbal lock", "why_tests_cant": "Tests sample rotations; the claim covers the whole rotation group and every quadrant of the four-quadrant arctangents.", "anchors": ["include/state-observation/tools/rigid-body-kinematics.hxx:190-224"]}
{"id": "C69", "title": "Yaw extraction is equivariant under rotations about the vertical", "statement": "The axis-agnostic yaw of Rz(t) R is the yaw of R plus t, modulo full turns; the yaw of Rz(t) is t for every extraction function; the horizontal vector returned by getInvariantHorizontalVector is kept horizontal by the rotation.", "quantifier": "every rotation matrix and every angle", "why_tests_cant": "A test checks particular rotations; the claim quantifies over the group and all angles.", "anchors": ["include/state-observation/tools/rigid-body-kinematics.hxx:337-365,449-481"]}
{"id": "C70", "title": "Homogeneous matrices and 6D vectors round trip", "statement": "homogeneousMatrixToVector6 inverts vector6ToHomogeneousMatrix for rotation vectors of norm below pi (above the 1e-16 threshold, or zero), vector6ToHomogeneousMatrix restores every rigid transformation from its vector, and the rotation vectors extracted have norm at most pi.", "quantifier": "all positions, all rotation vectors in the open ball of radius pi, all rotation matrices", "why_tests_cant": "Round trips through four branches of the matrix to quaternion conversion and an arctangent cannot be enumerated.", "anchors": ["include/state-observation/tools/rigid-body-kinematics.hxx:150-164,291-309"]}
{"id": "C71", "title": "Products and inverses of kinematics are the kinematics of the composed motions", "statement": "If two frames move and Kinematics objects hold their position, orientation, velocities and accelerations at an instant, the product holds the position, orientation, velocities and accelerations of the composed motion (R1 p2 + p1, R1 R2) at that instant, and getInverse those of the inverse motion: the velocities and accelerations computed are the time derivatives.", "quantifier": "every pair of twice differentiable motions of frames and every instant", "why_tests_cant": "Tests compare with finite differences on samples; the claim is about derivatives of arbitrary motions.", "anchors": ["include/state-observation/tools/rigid-body-kinematics.hxx:1610-1750"]}
{"id": "C72", "title": "The tilt estimator follows the true motion of the sensor", "statement": "When the control frame and the sensor move arbitrarily, the parameters given to the setters are the exact ones and the measurements are those of ideal sensors, the velocity the estimator derives is the velocity of the sensor in its own frame, and if the estimate is exact, the derivative used by the estimator is the exact time derivative of the true velocity and tilt, for any gains.", "quantifier": "every pair of motions, every instant, every gain", "why_tests_cant": "Tests run a sampled trajectory with a tolerance; a wrong Coriolis or lever-arm term vanishes for most trajectories.", "anchors": ["src/tilt-estimator.cpp:20-48", "include/state-observation/observer/tilt-estimator.hpp:81-130"]}
{"id": "C73", "title": "The tilt estimate does not depend on how the sensor is mounted", "statement": "Mounting the sensor turned by a rotation Q (orientation in the control frame R Q^T, measurements and initial estimate turned by Q) turns all later estimates by Q.", "quantifier": "every rotation, every history of measurements, every parameter", "why_tests_cant": "A symmetry over all rotations and histories.", "anchors": ["src/tilt-estimator.cpp:20-48", "include/state-observation/observer/tilt-estimator.hpp:91-99"]}
{"id": "C74", "title": "The LIPM estimator tracks exactly a noise-free pendulum, turning or not", "statement": "After any history, a reset on the true DCM and bias followed by samples (setInputs then update) of a noise-free pendulum, with a bias constant in the local frame and an orientation changing at every sample, gives exactly the true DCM, the true world bias and the true local bias, whatever the noise settings; samples may also be given without an update in between.", "quantifier": "every trajectory of the pendulum, every sequence of orientations, every history before the reset", "why_tests_cant": "Needs arbitrary orientations and histories; rounding tolerance hides lost rotations.", "anchors": ["src/lipm-dcm-estimator.cpp: setInputs, update, resetWithMeasurements"]}
{"id": "C75", "title": "No call on a constructed LIPM estimator fails", "statement": "Once constructed with a non-zero DCM error and both bias limits active or both off, every sequence of public calls succeeds, in debug and in release, and all estimates can be read.", "quantifier": "every history of public calls", "why_tests_cant": "Failures depend on the order of pushes, updates and resets of the internal filter.", "anchors": ["src/lipm-dcm-estimator.cpp", "include/state-observation/dynamics-estimators/lipm-dcm-estimator.hpp"]}
{"id": "C76", "title": "The planar LIPM estimator is two unidimensional ones", "statement": "With the identity orientation and no bias limit, the planar estimator gives on each axis exactly the estimates of a unidimensional estimator receiving the components of the same calls.", "quantifier": "every history of parameter changes, bias and DCM settings and samples", "why_tests_cant": "A relation between three runs over all histories.", "anchors": ["src/lipm-dcm-estimator.cpp", "src/unidim-lipm-dcm-estimator.cpp"]}
{"id": "C77", "title": "Semi-definite covariances are accepted by the noise", "statement": "setCovarianceMatrix documents that a positive semi-definite covariance is accepted: the noise then has that covariance.", "quantifier": "every positive semi-definite matrix", "why_tests_cant": "All matrices, including singular ones.", "anchors": ["src/gaussian-white-noise.cpp: setCovarianceMatrix", "include/state-observation/noise/gaussian-white-noise.hpp: setCovarianceMatrix"]}
{"id": "C78", "title": "Noise can be added to states of a Lie group", "statement": "With setSumFunction, a noise whose dimension is that of the tangent space can be added to a state vector of another size.", "quantifier": "every state and tangent dimension, every sum function", "why_tests_cant": "All dimensions.", "anchors": ["src/gaussian-white-noise.cpp: getNoisy, checkVector_, setSumFunction"]}
{"id": "C79", "title": "Resetting all the covariances of the kinetics observer resets every component", "statement": "resetStateCovarianceMat and resetProcessCovarianceMat give every component of the state (kinematics, gyro biases of all IMUs, unmodeled wrench, contacts) its initial (resp. process) covariance, clear all the covariances between them, and do not touch the other matrix.", "quantifier": "every reachable state of the observer, every number of IMUs and contacts", "why_tests_cant": "All histories and all dimensions.", "anchors": ["src/kinetics-observer.cpp: resetStateCovarianceMat, resetProcessCovarianceMat"]}
{"id": "C80", "title": "Default covariances of the kinetics observer come from the default variances", "statement": "After construction, the state and process covariances are diagonal with the documented initial and process variances of each component; a contact added without covariances gets the default contact process variances.", "quantifier": "every number of contacts and IMUs, every reachable state", "why_tests_cant": "Entries of matrices of any size.", "anchors": ["src/kinetics-observer.cpp: constructor, addContact"]}
{"id": "C81", "title": "The difference of two measurement vectors of the kinetics observer is complete and correct", "statement": "measurementDifference gives, for measurement vectors of the current iteration, the difference of the IMU and wrench signals entry by entry; for the absolute pose, the difference of positions and the rotation vector (of norm at most pi) of R1 R2^T; every entry of the result is written, and the difference of a vector with itself is zero.", "quantifier": "every reachable observer, every set of sensors reporting, every pair of measurement vectors with unit quaternions", "why_tests_cant": "Depends on which sensors reported and on the whole rotation group.", "anchors": ["src/kinetics-observer.cpp: measurementDifference"]}
{"id": "C82", "title": "The accelerations predicted by the kinetics observer satisfy the balance of moments", "statement": "The accelerations with which stateDynamics changes the velocities are such that, for any rigid motion of the base with them and any inertia and internal momentum with the given values and derivatives, the derivative of the angular momentum about the origin of the base is the total moment of the external, unmodelled and contact wrenches less the moment of the inertial force and the weight at the centre of mass.", "quantifier": "every reachable observer, set of contacts, state with a unit quaternion, robot parameters with an invertible matrix", "why_tests_cant": "A physical law over all states, contacts and motions; involves derivatives of curves.", "anchors": ["src/kinetics-observer.cpp: stateDynamics, computeAccelerations_, addUnmodeledAndContactWrench_"]}
{"id": "C83", "title": "The accelerations predicted by the kinetics observer satisfy Newton's law", "statement": "Mass times the acceleration of the centre of mass, for any motion of the base with the predicted accelerations, is the sum of the external, unmodelled and contact forces and of the weight.", "quantifier": "every reachable observer, set of contacts, state with a unit quaternion, robot parameters", "why_tests_cant": "A physical law over all states, contacts and motions.", "anchors": ["src/kinetics-observer.cpp: stateDynamics, computeAccelerations_, addUnmodeledAndContactWrench_"]}
{"id": "C84", "title": "The state dynamics of the kinetics observer integrate the kinematics and keep the rest", "statement": "stateDynamics integrates position, orientation and velocities over the sampling period with constant accelerations, keeps the quaternion of norm 1, and leaves biases, unmodelled wrench, rest poses and everything of the absent contacts unchanged.", "quantifier": "every reachable observer, set of contacts, state with a unit quaternion, robot parameters", "why_tests_cant": "All histories, sizes and states.", "anchors": ["src/kinetics-observer.cpp: stateDynamics, computeAccelerations_, addUnmodeledAndContactWrench_"]}
{"id": "C85", "title": "The predicted measurement of the kinetics observer is what ideal sensors would measure", "statement": "measureDynamics gives, in the layout of the measurement vector of the iteration, the specific force and angular velocity in the frame of each reporting IMU (the frame moving as the composition of the motion of the base with that of the IMU), the wrenches of the contacts with sensors and the pose.", "quantifier": "every iteration, set of reporting sensors, state, motion of the base and of the IMUs", "why_tests_cant": "Relates code to motions of frames, over all sensor sets.", "anchors": ["src/kinetics-observer.cpp: measureDynamics"]}
{"id": "C86", "title": "The predicted gyrometer signal includes the estimated bias", "statement": "The bias of the gyrometer of each IMU, which the observer keeps in its state, is part of the predicted measurement of that gyrometer.", "quantifier": "every reachable observer and state", "why_tests_cant": "A dependence over all states.", "anchors": ["src/kinetics-observer.cpp: measureDynamics"]}
{"id": "C87", "title": "Predictions do not depend on the sign of the quaternion", "statement": "Two states whose orientations are given by opposite quaternions (the same rotation) give the same predicted contact wrenches.", "quantifier": "every state and contact", "why_tests_cant": "A symmetry over all states.", "anchors": ["src/kinetics-observer.cpp: stateDynamics"]}
{"id": "C88", "title": "The process and measurement noises given to the kinetics observer are applied", "statement": "After setProcessNoise (resp. setMeasurementNoise) the value returned by stateDynamics (resp. measureDynamics) has the noise added.", "quantifier": "every noise, observer and state", "why_tests_cant": "Over all noises.", "anchors": ["src/kinetics-observer.cpp: stateDynamics, measureDynamics"]}
{"id": "C89", "title": "An input given without its derivative gets the finite difference with the value given before", "statement": "After a momentum, an inertia matrix, a velocity or a position of the centre of mass, then any calls in which n estimations take place, giving the next value alone makes the derivative d used by the observer satisfy new = old + n dt d; with three positions of the centre of mass the acceleration is the difference of the two velocities over the same time. A value corrected within the same iteration gets the derivative of the corrected value.", "quantifier": "every history of calls before and between, every value and sampling period, both build modes", "why_tests_cant": "Over all interleavings of the calls and all values; a test fixes one schedule.", "anchors": ["src/kinetics-observer.cpp: setInertiaMatrix, setCenterOfMass, setAngularMomentum"]}
{"id": "C90", "title": "The derivatives computed by the kinetics observer approach the true ones", "statement": "When the values given are those of a smooth motion at the times of the iterations, the derivative used differs from the true one by at most the elapsed time times a bound of the next derivative; the acceleration of the centre of mass obtained from three positions by at most twice the period times a bound of the third derivative.", "quantifier": "every history, every twice (three times) differentiable motion, every sampling period", "why_tests_cant": "Quantifies over motions and periods.", "anchors": ["src/kinetics-observer.cpp: setCenterOfMass, setAngularMomentum"]}
{"id": "C91", "title": "An input given for the first time is taken as constant", "statement": "On a new observer the first momentum, inertia matrix or velocity of the centre of mass given without derivative gets a zero derivative.", "quantifier": "every value", "why_tests_cant": "Over all values.", "anchors": ["src/kinetics-observer.cpp: setInertiaMatrix, setCenterOfMass, setAngularMomentum"]}
{"id": "C92", "title": "Every input call of the kinetics observer succeeds", "statement": "setInertiaMatrix, setCenterOfMass, setAngularMomentum and setSamplingTime succeed in every state of the observer, whatever was given before.", "quantifier": "every reachable state, both build modes", "why_tests_cant": "Over all histories.", "anchors": ["src/kinetics-observer.cpp: setCenterOfMass(const Vector3 &)"]}
{"id": "C93", "title": "An inertia matrix may be given by its six entries", "statement": "Replacing every symmetric inertia matrix (and derivative) of a history of calls by the vector of its six entries gives the same result, derivative included.", "quantifier": "every history of calls", "why_tests_cant": "Over all histories.", "anchors": ["src/kinetics-observer.cpp: setInertiaMatrix(const Vector6 &)"]}
{"id": "C94", "title": "The IMU models predict a motion with constant accelerations", "statement": "IMUDynamicalSystem, IMUMagnetometerDynamicalSystem, IMUFixedContactDynamicalSystem and StableIMUFixedContactDynamicalSystem: the next state has the position and velocities of a motion with constant accelerations over the sampling period, its rotation is the rotation of dt*w + dt^2/2*alpha after that of the state, with norm at most pi; the next accelerations are the input, zero, those of the state, or those of the spring and damper, according to the class. The process noise is added to this state.", "quantifier": "every call history, state, input and noise", "why_tests_cant": "Over all histories and real states.", "anchors": ["src/imu-dynamical-system.cpp: stateDynamics", "src/imu-magnetometer-dynamical-system.cpp", "src/imu-fixed-contact-dynamical-system.cpp", "src/stable-imu-fixed-contact-dynamical-system.cpp"]}
{"id": "C95", "title": "The IMU models predict what ideal sensors measure", "statement": "The predicted measurement is the specific force, the angular velocity (and the magnetic field) in the frame of the unit of a motion that has the state at that time; for the fixed-contact models, of the composition of that motion of the flexible base with the motion of the unit given by the input. The displacements of the contact points follow; the measurement noise is added to the sensor part only.", "quantifier": "every call history, state, input, contact list and noise, every motion", "why_tests_cant": "Quantifies over smooth motions.", "anchors": ["src/imu-dynamical-system.cpp: measureDynamics", "src/imu-fixed-contact-dynamical-system.cpp: measureDynamics", "src/stable-imu-fixed-contact-dynamical-system.cpp: measureDynamics"]}
{"id": "C96", "title": "The stable model comes to rest", "statement": "Fed with its own predictions, StableIMUFixedContactDynamicalSystem brings the position and velocity of the flexible base to zero from every state, for every sampling period.", "quantifier": "every initial state, every period, the limit over all steps", "why_tests_cant": "A limit over infinitely many steps.", "anchors": ["src/stable-imu-fixed-contact-dynamical-system.cpp: stabilizeAccelerationLinear, stateDynamics"]}
{"id": "C97", "title": "State sum and difference of the multiplicative IMU model are inverse", "statement": "IMUMltpctiveDynamicalSystem: adding to x the difference of y and x gives y (the same rotation), and the difference of x plus t and x is t when the rotation of t is less than half a turn; for rotation vectors that are null or not shorter than 1e-16.", "quantifier": "every pair of states with unit quaternions, every tangent vector", "why_tests_cant": "Over all real states.", "anchors": ["src/imu-mltpctive-dynamical-system.cpp: stateSum, stateDifference"]}
{"id": "C98", "title": "The multiplicative IMU model keeps a unit quaternion", "statement": "From every state with a nonzero quaternion the next state has a quaternion whose squared norm is within 1e-6 of one; from a unit one the norm is kept and the rotation is that of the motion with constant accelerations.", "quantifier": "every state and input", "why_tests_cant": "Over all real states.", "anchors": ["src/imu-mltpctive-dynamical-system.cpp: stateDynamics"]}
{"id": "C99", "title": "The Jacobians of the multiplicative IMU model are derivatives", "statement": "getAMatrix and getCMatrix are the derivatives, in the tangent space, of the next state and of the predicted measurement along every curve of states; likewise derivateRtvMultiplicative is the derivative of R^T v for R turning.", "quantifier": "every curve of states with unit quaternions (rotation of the step not less than 1e-16)", "why_tests_cant": "Quantifies over smooth curves.", "anchors": ["src/imu-mltpctive-dynamical-system.cpp: getAMatrix, getCMatrix", "include/state-observation/tools/rigid-body-kinematics.hxx: derivateRotationMultiplicative, derivateRtvMultiplicative"]}
{"id": "C100", "title": "The inverted pendulum obeys the balance of angular momentum", "statement": "The angular acceleration by which BidimElasticInvPendulum changes the angular velocity is the one for which the angular momentum of its mass about the contact varies by the moment of the spring and of gravity.", "quantifier": "every state and input, every motion having that state", "why_tests_cant": "Quantifies over smooth motions.", "anchors": ["src/bidim-elastic-inv-pendulum-dyn-sys.cpp: stateDynamics"]}
{"id": "C101", "title": "A new inverted pendulum can be simulated", "statement": "stateDynamics of BidimElasticInvPendulum is defined on a constructed object, whichever setters were called.", "quantifier": "every sequence of setters", "why_tests_cant": "Uninitialised memory is not seen by a test that happens to read a plausible value.", "anchors": ["src/bidim-elastic-inv-pendulum-dyn-sys.cpp: BidimElasticInvPendulum, setElasticity"]}
{"id": "C102", "title": "The elastic model moves the base by its accelerations", "statement": "Without process noise, the state returned by stateDynamics of IMUElasticLocalFrameDynamicalSystem has the position, velocity, orientation and angular velocity given by the accelerations of computeAccelerations over one period, the contact efforts of the new position, the unmodeled wrench scaled down (or zero when it is not enabled), and the biases unchanged.", "quantifier": "every state, input and call history", "why_tests_cant": "Nonlinear law over all real states and histories.", "anchors": ["src/imu-elastic-local-frame-dynamical-system.cpp: stateDynamics, iterateDynamicsEuler, computeForcesAndMoments"]}
{"id": "C103", "title": "Elastic contacts store and dissipate energy", "statement": "The power of the efforts of the elastic contacts along a motion of the base is minus the variation of an energy of the springs, minus what the dampers dissipate, which is not negative.", "quantifier": "every motion of the base, every set of contacts and gains", "why_tests_cant": "Quantifies over smooth motions.", "anchors": ["src/imu-elastic-local-frame-dynamical-system.cpp: computeElasticContactForcesAndMoments"]}
{"id": "C104", "title": "Ropes pull towards their pole", "statement": "In the pendulum model, the efforts of the contacts are those of ropes that pull the points of the base towards their poles: the force and its moment.", "quantifier": "every state, input and gains", "why_tests_cant": "Identity over all real states.", "anchors": ["src/imu-elastic-local-frame-dynamical-system.cpp: computeElasticPendulumForcesAndMoments"]}
{"id": "C105", "title": "A base at rest in equilibrium stays there with the Runge-Kutta integration", "statement": "A base at rest whose accelerations are zero keeps its position, orientation and velocities under iterateDynamicsRK4.", "quantifier": "every state at rest, every input and contact model", "why_tests_cant": "All equilibria.", "anchors": ["src/imu-elastic-local-frame-dynamical-system.cpp: iterateDynamicsRK4"]}
{"id": "C106", "title": "The two derivatives of the momenta agree", "statement": "getMomentaDotFromForces and getMomentaDotFromKinematics return the same derivatives of the linear and angular momenta of the robot.", "quantifier": "every state, input and mass", "why_tests_cant": "Nonlinear identity over all reals.", "anchors": ["src/imu-elastic-local-frame-dynamical-system.cpp: getMomentaDotFromForces, getMomentaDotFromKinematics"]}
{"id": "C107", "title": "The state Jacobian is the finite difference of the dynamics", "statement": "After stateDynamics(x, u), each column of stateDynamicsJacobian is the finite difference of stateDynamics(., u) at x with the step set for this component.", "quantifier": "every reachable object, state, input, step and component", "why_tests_cant": "Depends on buffers and flags left by all earlier calls.", "anchors": ["src/imu-elastic-local-frame-dynamical-system.cpp: stateDynamicsJacobian"]}
{"id": "C108", "title": "The predicted measurement is that of an ideal inertial unit on the flexible base", "statement": "measureDynamics returns the acceleration (with gravity) and the angular velocity of an inertial unit that moves on the base, in its frame; then the contact efforts and the absolute pose with its drift when they are enabled; on any object.", "quantifier": "every reachable object, every motion of the base and of the unit", "why_tests_cant": "Quantifies over smooth motions and over histories.", "anchors": ["src/imu-elastic-local-frame-dynamical-system.cpp: measureDynamics"]}
{"id": "C109", "title": "The measurement Jacobian is the finite difference of the predicted measurement", "statement": "After measureDynamics(x, u), each column of measureDynamicsJacobian is the finite difference of measureDynamics(., u) at x with the step set for this component.", "quantifier": "every reachable object, state, input, step and component", "why_tests_cant": "Depends on buffers and flags left by all earlier calls.", "anchors": ["src/imu-elastic-local-frame-dynamical-system.cpp: measureDynamicsJacobian"]}
{"id": "C110", "title": "The elastic model supports the number of contacts it is given", "statement": "After setContactsNumber(n), the dynamics of the elastic model are defined for states and inputs of the sizes it announces.", "quantifier": "every number of contacts", "why_tests_cant": "Unbounded parameter.", "anchors": ["src/imu-elastic-local-frame-dynamical-system.cpp: setContactsNumber, computeContactWrench, computeElasticContactForcesAndMoments"]}
{"id": "C111", "title": "The efforts returned are those of the last state", "statement": "getForcesAndMoments() returns the efforts of the contacts in the state that stateDynamics has just returned, or in the state that measureDynamics has just been given.", "quantifier": "every reachable object, state and input", "why_tests_cant": "Depends on a buffer shared by all calls.", "anchors": ["src/imu-elastic-local-frame-dynamical-system.cpp: getForcesAndMoments"]}
{"id": "C112", "title": "A measurement noise can be used with force or absolute measurements", "statement": "With a measurement noise set and force or absolute measurements enabled, measureDynamics returns the noisy measurement.", "quantifier": "every reachable object, state, input and noise of the size of the measurement", "why_tests_cant": "All combinations of settings.", "anchors": ["src/imu-elastic-local-frame-dynamical-system.cpp: measureDynamics, setMeasurementNoise", "src/algebraic-sensor.cpp: getMeasurements"]}
{"id": "C113", "title": "A reset filter needs a new covariance", "statement": "After reset(), a Kalman filter makes no step before setStateCovariance is called again, whatever else is called.", "quantifier": "every history before and after the reset, linear and extended filters", "why_tests_cant": "Universal over histories.", "anchors": ["src/kalman-filter-base.cpp: reset, clearStateCovariance, oneStepEstimation_"]}
{"id": "C114", "title": "The flexibility estimators run an automaton with one pending measurement", "statement": "Whatever the sequence of measurements, inputs, guesses, settings and estimations, the vectors returned by getFlexibilityVector(), the time and the failures are those of an automaton with a current state, at most one pending measurement (the last one given) and at most the inputs of the current and of the next times: an estimation with a pending measurement makes exactly one filter step and otherwise returns the last vector.", "quantifier": "every filter, every sequence of calls of positive input sizes, both estimators, debug and release", "why_tests_cant": "Histories of any length, any filter.", "anchors": ["src/ekf-flexibility-estimator-base.cpp: setMeasurement, setInput, setMeasurementInput, getFlexibilityVector", "src/model-base-ekf-flex-estimator-imu.cpp: getFlexibilityVector, setMeasurement, addContact"]}
{"id": "C115", "title": "No NaN leaves the flexibility estimators", "statement": "The vectors returned by getFlexibilityVector() never contain a NaN, even when the filter produces some.", "quantifier": "every filter (may return NaN anywhere), every sequence of calls with NaN-free bias guesses", "why_tests_cant": "The filter is arbitrary and the NaN may come at any time.", "anchors": ["src/model-base-ekf-flex-estimator-imu.cpp: getFlexibilityVector", "src/ekf-flexibility-estimator-base.cpp: getFlexibilityVector"]}
{"id": "C116", "title": "A guess is taken into account", "statement": "setFlexibilityGuess accepts the documented forms (6D vector, state, homogeneous matrix), getFlexibilityVector() returns the guess until the next measurement, and the next filter step starts from it.", "quantifier": "every history before the guess, every guess", "why_tests_cant": "Universal over histories.", "anchors": ["src/ekf-flexibility-estimator-base.cpp: setFlexibilityGuess", "src/fixed-contact-ekf-flex-estimator-imu.cpp: setFlexibilityGuess"]}
{"id": "C117", "title": "Estimating again without new data changes nothing", "statement": "Calling getFlexibilityVector() twice in a row returns the same vector twice and does not move the time.", "quantifier": "every filter and every history", "why_tests_cant": "Universal over histories.", "anchors": ["src/model-base-ekf-flex-estimator-imu.cpp: getFlexibilityVector"]}
{"id": "C118", "title": "Cycles of the estimator never fail", "statement": "Giving input, measurement input and measurement of the right sizes and asking for the estimate, any number of times, never fails, returns one vector per cycle and advances the time by one per cycle.", "quantifier": "every number of cycles, every data of the right sizes, every filter that does not fail itself", "why_tests_cant": "Any number of cycles.", "anchors": ["src/model-base-ekf-flex-estimator-imu.cpp: getFlexibilityVector", "src/ekf-flexibility-estimator-base.cpp: setInput, setMeasurementInput, setMeasurement"]}
{"id": "C119", "title": "A diverging estimate is handled", "statement": "An estimate whose orientation is infinite or huge does not lead to undefined behaviour.", "quantifier": "every estimate of the filter", "why_tests_cant": "Undefined behaviour cannot be tested.", "anchors": ["src/model-base-ekf-flex-estimator-imu.cpp: getFlexibilityVector", "include/state-observation/tools/rigid-body-kinematics.hxx: regulateOrientationVector"]}
{"id": "C120", "title": "The Jacobians of the elastic model can be asked any number of times", "statement": "After a call of stateDynamics (measureDynamics), stateDynamicsJacobian (measureDynamicsJacobian) returns the same matrix each time it is called: the perturbed evaluations leave no trace.", "quantifier": "every reachable object without noise, every fitting state and input, any number of calls", "why_tests_cant": "Any number of calls, every state.", "anchors": ["src/imu-elastic-local-frame-dynamical-system.cpp: stateDynamicsJacobian, measureDynamicsJacobian"]}
{"id": "C121", "title": "The Runge-Kutta integration is exact for constant accelerations", "statement": "When the linear acceleration is constant and the angular one zero, iterateDynamicsRK4 returns the exact position (parabola), velocity and orientation after dt.", "quantifier": "every state, period and acceleration, angles beyond the threshold of the exponential or null", "why_tests_cant": "Universal over the reals.", "anchors": ["src/imu-elastic-local-frame-dynamical-system.cpp: iterateDynamicsRK4"]}
{"id": "C122", "title": "The settings in force are the last ones given", "statement": "After any sequence of calls each setting of the elastic model (mass, period, contact model, eight gain matrices, anchor, switches, number of contacts, size of the input) has the value last given to its setter, or its default.", "quantifier": "every sequence of calls", "why_tests_cant": "Universal over histories.", "anchors": ["src/imu-elastic-local-frame-dynamical-system.cpp: setKfe, setKfv, setKte, setKtv, setKfeRopes, setFDstep, setRobotMass, setContactsNumber, setWithForceMeasurements"]}
{"id": "C123", "title": "A component without uncertainty is never corrected", "statement": "In an extended Kalman filter whose model carries a component of the state over unchanged, a component whose rows and columns of the process noise and of the covariance are zero keeps the value given to it, whatever is measured, and its covariance stays zero.", "quantifier": "every size, model, measurement function, history of calls, noise and measurements", "why_tests_cant": "Universal over histories and models.", "anchors": ["src/kalman-filter-base.cpp: oneStepEstimation_", "src/extended-kalman-filter.cpp: prediction_"]}
{"id": "C124", "title": "The filter of the flexibility estimator uses the matrices the estimator returns", "statement": "After any sequence of calls the measurement size is 6, plus 6 per contact with force measurements, plus 6 with an absolute pose; the filter has an R of this size, which is the one returned by getMeasurementNoiseCovariance(), and the Q returned by getProcessNoiseCovariance().", "quantifier": "every sequence of calls, debug and release", "why_tests_cant": "Sensors and contacts may be switched in any order, any number of times.", "anchors": ["src/model-base-ekf-flex-estimator-imu.cpp: updateMeasurementCovarianceMatrix_, setContactsNumber, setWithForcesMeasurements, setWithAbsolutePos"]}
{"id": "C125", "title": "The covariance of the IMU is the last one given", "statement": "The 6x6 block of the IMU in the R in force is the block of the last matrix given to setMeasurementNoiseCovariance, or the default one; switching sensors and contacts does not change it.", "quantifier": "every sequence of calls", "why_tests_cant": "Universal over histories; uninitialised memory is not visible to tests.", "anchors": ["src/model-base-ekf-flex-estimator-imu.cpp: setMeasurementNoiseCovariance, updateMeasurementCovarianceMatrix_, getDefaultRIMU"]}
{"id": "C126", "title": "Settings of the right sizes never fail", "statement": "No sequence of calls of the settings of the flexibility estimator with matrices of the documented sizes fails an assertion or accesses a block out of range.", "quantifier": "every sequence of calls", "why_tests_cant": "Any order and number of calls.", "anchors": ["src/model-base-ekf-flex-estimator-imu.cpp: updateMeasurementCovarianceMatrix_, setForceVariance"]}
{"id": "C127", "title": "Each sensor has its variance in R", "statement": "When force measurements are on, each contact has the force variance as its block in R; when an absolute pose is used, it has its own variance; the other entries outside the IMU are zero.", "quantifier": "every sequence of switches of sensors and contacts", "why_tests_cant": "Universal over histories; uninitialised memory is not visible to tests.", "anchors": ["src/model-base-ekf-flex-estimator-imu.cpp: updateMeasurementCovarianceMatrix_"]}
{"id": "C128", "title": "A variance set for a sensor is used", "statement": "setForceVariance and setAbsolutePosVariance change the R in force when the sensor is in use.", "quantifier": "every history before the call", "why_tests_cant": "Universal over histories.", "anchors": ["src/model-base-ekf-flex-estimator-imu.cpp: setForceVariance, setAbsolutePosVariance"]}
{"id": "C129", "title": "An enabled bias or drift is estimated", "statement": "Once the estimation of the bias of the centre of mass or of the drift is enabled, these components have process noise, so that the filter estimates them.", "quantifier": "every history of calls", "why_tests_cant": "Universal over histories.", "anchors": ["src/model-base-ekf-flex-estimator-imu.cpp: setWithComBias, setWithAbsolutePos, resetCovarianceMatrices"]}
{"id": "C130", "title": "A reset gives the default covariances", "statement": "resetCovarianceMatrices(), called by the user or after a NaN, gives the default R and Q (zero noise for the parts that are not enabled), sets the covariance of the state to Q and keeps the sensors, the contacts and their variances.", "quantifier": "every history before the reset", "why_tests_cant": "Universal over histories.", "anchors": ["src/model-base-ekf-flex-estimator-imu.cpp: resetCovarianceMatrices, getDefaultQ, getDefaultRIMU"]}
{"id": "C131", "title": "The covariances of the estimator with fixed contacts are the ones given", "statement": "After any sequence of calls the R in force of the estimator with fixed contacts has the last R given for the IMU, the last virtual covariance given on the diagonal of the rows of the contacts, and zeros elsewhere; its Q is the one returned; calls with matrices of the right sizes never fail.", "quantifier": "every sequence of calls", "why_tests_cant": "Any order and number of calls.", "anchors": ["src/fixed-contact-ekf-flex-estimator-imu.cpp: updateCovarianceMatrix_, setContactsNumber, setVirtualMeasurementsCovariance"]}
{"id": "C132", "title": "The offline reconstruction is the extended Kalman filter", "statement": "imuAttitudeTrajectoryReconstruction and imuMultiplicativeAttitudeReconstruction succeed when the inputs start one index before the measurements; the array returned starts there with the initial estimate, ends with the last measurement, and every entry is the estimate of the extended Kalman filter of the textbooks.", "quantifier": "every model, log, initial estimate and covariances, of every length, with both kinds of Jacobians", "why_tests_cant": "Logs of every length and arbitrary models.", "anchors": ["include/state-observation/examples/imu-attitude-trajectory-reconstruction.hxx: imuAttitudeTrajectoryReconstruction", "include/state-observation/examples/imu-multiplicative-attitude-reconstruction.hxx: imuMultiplicativeAttitudeReconstruction"]}
{"id": "C133", "title": "Perfect data give a perfect reconstruction", "statement": "When the measurements and inputs are those of a trajectory of the model that starts at the initial estimate, the reconstruction returns exactly this trajectory, whatever the covariances.", "quantifier": "every model, trajectory and covariances", "why_tests_cant": "A test tries one trajectory.", "anchors": ["include/state-observation/examples/imu-attitude-trajectory-reconstruction.hxx: imuAttitudeTrajectoryReconstruction", "include/state-observation/examples/imu-multiplicative-attitude-reconstruction.hxx: imuMultiplicativeAttitudeReconstruction"]}
{"id": "C134", "title": "The reconstruction is causal", "statement": "The estimate at a time depends only on the measurements up to this time and on the inputs before it: two logs that agree until then give the same estimate, however they continue.", "quantifier": "every pair of logs that agree up to a time", "why_tests_cant": "A relation between two executions of arbitrary length.", "anchors": ["include/state-observation/examples/imu-attitude-trajectory-reconstruction.hxx: imuAttitudeTrajectoryReconstruction", "include/state-observation/examples/imu-multiplicative-attitude-reconstruction.hxx: imuMultiplicativeAttitudeReconstruction"]}
{"id": "C135", "title": "Reconstruction without inputs", "statement": "The overloads without inputs succeed for every log of measurements and return what the overloads with inputs return for inputs that are zero at the times that are read.", "quantifier": "every log", "why_tests_cant": "Logs of every length and position.", "anchors": ["include/state-observation/examples/imu-attitude-trajectory-reconstruction.hxx: imuAttitudeTrajectoryReconstruction (without inputs)", "include/state-observation/examples/imu-multiplicative-attitude-reconstruction.hxx: imuMultiplicativeAttitudeReconstruction (without inputs)"]}
{"id": "C136", "title": "With a certain model the reconstruction ignores the measurements", "statement": "With zero initial and process covariances the reconstruction is the open-loop simulation of the model from the initial estimate.", "quantifier": "every model and log", "why_tests_cant": "Universal over logs.", "anchors": ["include/state-observation/examples/imu-attitude-trajectory-reconstruction.hxx: imuAttitudeTrajectoryReconstruction", "include/state-observation/examples/imu-multiplicative-attitude-reconstruction.hxx: imuMultiplicativeAttitudeReconstruction"]}
{"id": "C137", "title": "Only the relative size of the covariances matters", "statement": "Multiplying the initial covariance, Q and R by the same positive number changes no estimate of the reconstruction.", "quantifier": "every positive factor, model and log", "why_tests_cant": "A relation between two executions, for all real factors.", "anchors": ["include/state-observation/examples/imu-attitude-trajectory-reconstruction.hxx: imuAttitudeTrajectoryReconstruction", "include/state-observation/examples/imu-multiplicative-attitude-reconstruction.hxx: imuMultiplicativeAttitudeReconstruction"]}
{"id": "C138", "title": "A log is processed entirely with fixed contacts", "statement": "offlineEKFFlexibilityEstimation succeeds for every log of measurements of the IMU; it returns the guess at the index before the first measurement and at every time of the log a usable state: no NaN, orientation of at most 3 pi / 2, even when the filter diverges. Each estimate comes from the filter given the measurement completed with zeros and the inputs of the two times.", "quantifier": "every filter, log, guess and number of contacts", "why_tests_cant": "Logs of every length and every behaviour of the filter, including NaN.", "anchors": ["include/state-observation/examples/offline-ekf-flexibility-estimation.hxx: offlineEKFFlexibilityEstimation"]}
{"id": "C139", "title": "A log is processed entirely when the contacts change", "statement": "offlineModelBaseFlexEstimation succeeds for every log in which the number of contacts and the covariances change in any way, and returns a usable state for every time of the log at the index of this time.", "quantifier": "every filter, log, sequence of numbers of contacts", "why_tests_cant": "Logs of every length and index, every sequence of contact changes.", "anchors": ["include/state-observation/examples/offline-model-base-flex-estimation.hxx: offlineModelBaseFlexEstimation"]}
{"id": "C140", "title": "A failed first estimation keeps the initial guess", "statement": "When the filter returns a NaN at the first time of the log, the estimate for this time is the initial guess.", "quantifier": "every filter that fails at the first step", "why_tests_cant": "NaN of the filter is hard to provoke in a test.", "anchors": ["include/state-observation/examples/offline-ekf-flexibility-estimation.hxx: offlineEKFFlexibilityEstimation", "include/state-observation/examples/offline-model-base-flex-estimation.hxx: offlineModelBaseFlexEstimation"]}
{"id": "C141", "title": "Finite differences of a rotation find the turn between two samples", "statement": "For two orientations apart by a turn of less than half a revolution in dt, derivateRotationFD (quaternions of any sign, or rotation vectors), derivatePoseThetaUFD and derivateHomogeneousMatrixFD return exactly the angular (and linear) velocity that makes the turn. For any two orientations the velocity returned makes the turn with at most half a revolution, and no smaller velocity does.", "quantifier": "every orientation, velocity and non-zero period", "why_tests_cant": "Continuous orientations, the double cover of the quaternions, turns close to half a revolution.", "anchors": ["include/state-observation/tools/rigid-body-kinematics.hxx: derivateRotationFD", "include/state-observation/tools/rigid-body-kinematics.hxx: derivateHomogeneousMatrixFD", "include/state-observation/tools/rigid-body-kinematics.hxx: derivatePoseThetaUFD"]}
{"id": "C142", "title": "A reconstructed trajectory passes by its samples", "statement": "reconstructStateTrajectory returns one state per sample at the same times with the same position and orientation; integrating the velocity of a state over dt gives the next sample and integrating its acceleration gives the next velocity.", "quantifier": "every list of samples of every length, first time and non-zero period", "why_tests_cant": "Trajectories of every length, including empty and shorter than three samples.", "anchors": ["include/state-observation/tools/rigid-body-kinematics.hxx: reconstructStateTrajectory"]}
{"id": "C143", "title": "A reconstructed trajectory of a uniformly accelerated motion has its acceleration", "statement": "On samples of p0 + v t + a t^2/2, the reconstructed accelerations are a, the velocities are those of the motion half a period later; integrateKinematics without the acceleration reaches the next sample, with the acceleration it overshoots by a dt^2/2.", "quantifier": "every motion, number of samples and non-zero period", "why_tests_cant": "An exact statement on all motions; a test compares with a tolerance.", "anchors": ["include/state-observation/tools/rigid-body-kinematics.hxx: reconstructStateTrajectory", "include/state-observation/tools/rigid-body-kinematics.hxx: integrateKinematics"]}
{"id": "C144", "title": "A rotation about a fixed point becomes the motion that keeps the point", "statement": "Along any differentiable rotation, the translation returned by fixedPointRotationToTranslation keeps the given point where it is, the velocity returned is the derivative of this translation and the acceleration the derivative of this velocity.", "quantifier": "every rotation motion and every point", "why_tests_cant": "Derivatives along all motions.", "anchors": ["include/state-observation/tools/rigid-body-kinematics.hxx: fixedPointRotationToTranslation"]}
{"id": "C145", "title": "isRotationMatrix tells rotations from reflections", "statement": "isRotationMatrix accepts every rotation matrix and refuses every orthogonal matrix of determinant -1.", "quantifier": "every orthogonal matrix and positive precision", "why_tests_cant": "The existing test draws random reflections; the ones wrongly accepted have measure zero.", "anchors": ["include/state-observation/tools/rigid-body-kinematics.hxx: isRotationMatrix"]}
{"id": "C146", "title": "orthogonalizeRotationMatrix gives the nearest rotation", "statement": "orthogonalizeRotationMatrix returns an orthogonal matrix, the closest to its argument, a rotation, and leaves rotation matrices unchanged.", "quantifier": "every matrix and every singular value decomposition of it", "why_tests_cant": "All matrices and all decompositions Eigen may choose.", "anchors": ["include/state-observation/tools/rigid-body-kinematics.hxx: orthogonalizeRotationMatrix"]}
{"id": "C147", "title": "getMeasurementVector returns the signals reported in the iteration", "statement": "Between two updates getMeasurementVector returns the signals of the IMUs, of the contacts and of the absolute sensors reported since the last update, in the order of the measurement vector, which is what the next update gives to the filter; when nothing was reported it is empty.", "quantifier": "every history of the observer and every set of reports", "why_tests_cant": "All histories, and all orders and subsets of sensors.", "anchors": ["src/kinetics-observer.cpp:getMeasurementVector", "src/kinetics-observer.cpp:getMeasurementSize"]}
{"id": "C148", "title": "The kinematics returned by the kinetics observer are those of its state", "statement": "After any sequence of calls getKinematics agrees with the state vector; estimateAccelerations adds the accelerations of the current state; the accelerations returned belong to the state returned.", "quantifier": "every sequence of calls, state, body parameters and filter", "why_tests_cant": "An invariant between two stored copies over all sequences of calls.", "anchors": ["src/kinetics-observer.cpp:getKinematics", "src/kinetics-observer.cpp:estimateAccelerations", "src/kinetics-observer.cpp:updateKine_", "src/kinetics-observer.cpp:setStateVector", "src/kinetics-observer.cpp:setStateKinematics", "src/kinetics-observer.cpp:update"]}
{"id": "C149", "title": "The getters of contacts and wrenches return what was set", "statement": "getContactPosition and getContactWrench return the pose and the wrench of that contact in the state; a contact just added is at the pose given with a zero wrench; setting the unmodeled wrench, the bias of a gyrometer or the kinematics changes that component and no other; reporting a measurement changes no estimate.", "quantifier": "every history, number of contacts and IMUs", "why_tests_cant": "All histories and numbers of contacts; aliasing of components in the state vector.", "anchors": ["src/kinetics-observer.cpp:getContactPosition", "src/kinetics-observer.cpp:getContactWrench", "src/kinetics-observer.cpp:getUnmodeledWrench", "src/kinetics-observer.cpp:setGyroBias", "src/kinetics-observer.cpp:setStateUnmodeledWrench", "src/kinetics-observer.cpp:setStateKinematics"]}
{"id": "C150", "title": "The kinetics observer never returns a NaN", "statement": "Whatever the filter computes, the state returned by an update holds no NaN; in Debug an estimate with a NaN stops the program; while the estimates are numbers the test changes nothing.", "quantifier": "every sequence of calls, every filter and every state set by the user", "why_tests_cant": "NaN of the filter cannot be provoked at will; all sequences of calls.", "anchors": ["src/kinetics-observer.cpp:updateKine_", "src/kinetics-observer.cpp:update", "src/kinetics-observer.cpp:stateNaNCorrection_"]}
{"id": "C151", "title": "The kinetics observer recovers after a NaN", "statement": "After an update whose estimate held a NaN, the observer goes on from the last state it had: later updates use the measurements, and a state set by the user is kept.", "quantifier": "every sequence of calls after the bad update", "why_tests_cant": "NaN of the filter cannot be provoked at will; all sequences of calls.", "anchors": ["src/kinetics-observer.cpp:update", "src/kinetics-observer.cpp:stateNaNCorrection_"]}
{"id": "C152", "title": "The estimate of the linear Kalman filter is the least-squares one", "statement": "getEstimatedState(k) of a LinearKalmanFilter returns the last state of the sequence of states that minimises the sum of the squares of the initial error, the disturbances and the measurement errors weighted by the inverses of P, Q and R, over all the measurements recorded; the inverse of the covariance returned by getStateCovariance is the curvature of the minimum as a function of the last state.", "quantifier": "every size, matrices with P, Q, R positive definite, inputs and number of recorded measurements", "why_tests_cant": "A minimum over all trajectories of every length.", "anchors": ["src/kalman-filter-base.cpp: oneStepEstimation_", "src/linear-kalman-filter.cpp: prediction_", "src/zero-delay-observer.cpp: getEstimatedState"]}
{"id": "C153", "title": "Two sensors can be processed together or in turn", "statement": "A step of the linear Kalman filter with the measurements of two sensors with independent noises gives the state and the covariance of a step with the first followed by a step at the same time with the second.", "quantifier": "every size, matrices, state and measurements", "why_tests_cant": "An equality of real matrices of every size.", "anchors": ["src/kalman-filter-base.cpp: oneStepEstimation_"]}
{"id": "C154", "title": "The error of the linear Kalman filter is bounded by the noise", "statement": "Whatever the disturbances and measurement errors of the true system, the error of the estimate weighted by the inverse of the covariance reported is at most the sum of the weighted squares of the initial error, the disturbances and the measurement errors.", "quantifier": "every system, noise sequence and number of steps", "why_tests_cant": "All noise sequences of every length.", "anchors": ["src/kalman-filter-base.cpp: oneStepEstimation_", "src/kalman-filter-base.cpp: getStateCovariance"]}
{"id": "C155", "title": "The covariance of the filter grows with the noises it is given", "statement": "After the same number of steps, a filter given smaller or equal Q, R and initial covariance reports a smaller or equal covariance (in the order of quadratic forms), whatever the data.", "quantifier": "every size, number of steps, data and ordered matrices", "why_tests_cant": "A matrix inequality for all matrices and numbers of steps.", "anchors": ["src/kalman-filter-base.cpp: oneStepEstimation_", "src/kalman-filter-base.cpp: getStateCovariance"]}
{"id": "C156", "title": "The kinetics observer accepts every measurement it offers to take", "statement": "Once the calls that report the measurements of IMUs, force sensors and the absolute pose are accepted and the measurement vector is built, update() completes: every matrix it gives its extended Kalman filter has the size the filter expects, and the filter ends at the time of the estimate.", "quantifier": "every sequence of calls, numbers of contacts and IMUs, both build modes", "why_tests_cant": "All sequences of calls; with a pose the fault is an assertion in Debug and memory corruption in Release.", "anchors": ["src/kinetics-observer.cpp:update", "src/extended-kalman-filter.cpp: getCMatrixFD", "src/kalman-filter-base.cpp: setC", "src/kalman-filter-base.cpp: oneStepEstimation_"]}
{"id": "C157", "title": "Measurements equal to the predicted ones leave the prediction unchanged", "statement": "If the measurements reported to the kinetics observer are those predicted from the predicted state, update() returns the predicted state, with the same orientation quaternion, whatever the covariances.", "quantifier": "every history of calls, body, set of sensors, gain of the filter", "why_tests_cant": "All states and gains; the state lives on a manifold with rotation vectors.", "anchors": ["src/kinetics-observer.cpp:update", "src/kinetics-observer.cpp:measurementDifference", "src/kinetics-observer.cpp:stateSum", "src/kalman-filter-base.cpp: oneStepEstimation_"]}
{"id": "C158", "title": "The orientation of the estimate stays a unit quaternion", "statement": "Once the state is set with a unit quaternion, the orientation in the state of the kinetics observer is a unit quaternion after any sequence of updates and calls.", "quantifier": "every sequence of calls and updates, measurements, bodies and gains", "why_tests_cant": "An invariant of unbounded histories.", "anchors": ["src/kinetics-observer.cpp:update", "src/kinetics-observer.cpp:stateSum", "src/kinetics-observer.cpp:stateDynamics"]}
{"id": "C159", "title": "The errors of the LIPM estimator are bounded by those of its data", "statement": "If the measured DCM, the given ZMP, the drift of the bias and the initial bias have errors of any kind, the error of the estimated DCM and bias in every direction is at most the standard deviation reported by the estimator times the root of the sum of the squares of these errors, each divided by the standard deviation given for it; the error of the sum of DCM and bias is at most the DCM measurement deviation times that root.", "quantifier": "every history of calls, orientation, number of samples, sequence of errors, direction", "why_tests_cant": "Unbounded runs with arbitrary error sequences.", "anchors": ["src/lipm-dcm-estimator.cpp: update", "src/lipm-dcm-estimator.cpp: setInputs", "src/lipm-dcm-estimator.cpp: resetWithMeasurements", "src/kalman-filter-base.cpp: oneStepEstimation_", "src/unidim-lipm-dcm-estimator.cpp: update"]}
{"id": "C160", "title": "The tilt estimator converges at rest", "statement": "Fed with the measurements of a sensor that does not turn and moves at a constant velocity, the velocity and the tilts estimated tend to the true ones from every initial estimate, exactly when the gains satisfy 0 < 9.8 beta dt < alpha and 2 alpha dt < 4 + 9.8 beta dt^2 for the linear part, and with 0 < gamma dt < 2 for the tilt.", "quantifier": "every gain, initial estimate, tilt, velocity and build mode, in the limit of infinitely many measurements", "why_tests_cant": "A limit over unbounded runs and a necessary and sufficient condition on real gains.", "anchors": ["src/tilt-estimator.cpp: oneStepEstimation_", "src/tilt-estimator.cpp: setMeasurement"]}
{"id": "C161", "title": "A constant quantity is estimated by the weighted mean of its measurements", "statement": "With A = 1 and no process noise, the estimate of the linear Kalman filter is the mean of the initial state and of all the measurements, weighted with the inverses of their covariances, known displacements being removed; the inverse of the covariance grows by the same amount at each measurement; the order of the measurements does not matter.", "quantifier": "every size, number and order of measurements, covariances, displacements, both build modes", "why_tests_cant": "All numbers of measurements and all matrices.", "anchors": ["src/kalman-filter-base.cpp: oneStepEstimation_", "src/kalman-filter-base.cpp: getStateCovariance", "src/zero-delay-observer.cpp: getEstimatedState"]}
{"id": "C162", "title": "An input that the extended filter was told it does not need has no effect", "statement": "Let an extended Kalman filter have both feedthroughs switched off. Then its estimate, covariance, gain and innovation do not depend on the inputs given to it, whatever they are. The two switches hold what was last asked for, and stay off in a filter built without inputs.", "quantifier": "for all sizes, dynamics and sensor models, state sums and measurement differences, filters, times, pairs of input sequences and sequences of calls of the two setters", "why_tests_cant": "A test compares a few input sequences for one model; independence of every input is a statement about all pairs of sequences, and holds or fails according to what the sensor model reads and what was already recorded.", "anchors": ["src/extended-kalman-filter.cpp: 14-54", "src/extended-kalman-filter.cpp: 70-84", "src/extended-kalman-filter.cpp: 86-143", "include/state-observation/observer/extended-kalman-filter.hpp: 56-59, 98-102", "src/kalman-filter-base.cpp: 108-171"]}
{"id": "C163", "title": "A robot standing still in equilibrium is predicted to stay there", "statement": "Let the state of the kinetics observer have no velocity and let nothing move inside the robot. Then the prediction has no velocity exactly when the forces of the contacts, the unmodelled one and the given one carry the weight of the robot and have its moment. When moreover the wrenches of the contacts are the elastic reactions to the pose, every further prediction is the state itself. This holds wherever the robot stands in the world.", "quantifier": "for all numbers of contacts and IMUs, histories of calls, states, masses, centres of mass, inertias, stiffnesses, contact poses, given wrenches, sampling periods and numbers of predictions", "why_tests_cant": "A test simulates one robot for some steps with a tolerance; equality of all iterates and the equivalence with the balance of forces are statements about every state.", "anchors": ["src/kinetics-observer.cpp:1342-1377", "src/kinetics-observer.cpp:1509-1571", "include/state-observation/tools/rigid-body-kinematics.hxx: 1167-1190"]}
{"id": "C164", "title": "The linear filter is least squares also when its matrices change at every step", "statement": "Between the estimations let a user of the linear Kalman filter set any of its matrices and noise covariances, and record or clear measurements and inputs. Then the estimate is the last state of the sequence of states that minimises the squares of the initial error, the disturbances and the measurement errors, each weighted with the matrices of its own step; the inverse of the covariance reported is the curvature of that cost; and the error is bounded by the noises. A program that sets every matrix before each step never fails.", "quantifier": "for all sizes, numbers of steps, sequences of matrices and positive definite covariances, measurements, inputs, sequences of calls in between and both build modes", "why_tests_cant": "A test compares one time-varying system with a batch solution for a few steps; the statement is for every sequence of matrices and every number of steps, and for calls made in any order in between.", "anchors": ["src/kalman-filter-base.cpp: 27-89", "src/kalman-filter-base.cpp: 108-171", "src/linear-kalman-filter.cpp: 6-26, 57-110", "src/zero-delay-observer.cpp: getEstimatedState"]}
{"id": "C165", "title": "The linear Kalman filter converges whenever a constant-gain observer does", "statement": "Let some observer with a constant gain make every error shrink in some number of steps. Then the squared error of the estimate of the linear Kalman filter is, at every time, at most a constant times a geometric sequence times the initial squared error, plus a constant times the largest squared disturbance or measurement error; and the covariance it reports stays bounded. The constants do not depend on the data, the inputs nor the number of steps. With exact measurements and no disturbance the estimate converges to the true state from any initial one.", "quantifier": "for all sizes, matrices, positive definite covariances, gains of the comparison observer, initial estimates, inputs, true trajectories, bounded disturbances and measurement errors, numbers of steps, both build modes", "why_tests_cant": "Convergence is about all numbers of steps and all initial errors; a test sees some steps of one system and cannot show that an error does not come back or that a constant is uniform.", "anchors": ["src/kalman-filter-base.cpp: 108-171", "src/kalman-filter-base.cpp: 27-89", "src/linear-kalman-filter.cpp: 57-110", "src/zero-delay-observer.cpp: getEstimatedState"]}
{"id": "C166", "title": "The estimators of the divergent component of motion converge: the initial errors of the DCM and of the bias are forgotten", "statement": "Let the natural frequency times the period be positive, and the drift rate of the bias, the noise levels of the ZMP and of the DCM and the initial uncertainties be non zero. Then there are constants rho < 1, c1, c2, c3, which depend on these parameters only, such that, after any history of calls and a reset on any measurement with any initial bias (planar estimator, limits of the bias off), or from the construction with any initial DCM and bias (unidimensional estimator), and after n samples with any ZMP and any sequence of orientations: if the true DCM follows the pendulum, the true bias is constant in the frame of the robot, and the errors of the ZMP, the drifts of the bias and the errors of the measured DCM have a squared norm of at most q, then the squared error of the estimated DCM and bias is at most c1 rho^n times the initial one plus c2 q. The covariance reported stays below c3. In particular without noise the estimated DCM and bias tend to the true ones, although only their sum is measured.", "quantifier": "for all parameters, histories of calls, initial estimates, trajectories of the ZMP, sequences of orientations, bounded errors, numbers of samples, both build modes", "why_tests_cant": "Convergence holds for all numbers of samples and all sequences of orientations; a test runs one walk of a finite length and cannot show that the rate does not depend on the walk.", "anchors": ["src/lipm-dcm-estimator.cpp: 50-110, 190-257", "src/unidim-lipm-dcm-estimator.cpp: 22-49, 169-210", "include/state-observation/dynamics-estimators/lipm-dcm-estimator.hpp"]}
{"id": "C167", "title": "The linear filter with matrices that change at every step converges whenever an observer with changing gains does, with a rate that depends on the bounds only", "statement": "Let a bound on the coefficients of all the matrices, a positive lower bound on the covariances, a number of steps and a factor below one be given. There are constants rho < 1, c1, c2, c3, which depend on these numbers and on the sizes only, such that for every sequence of matrices within the bounds for which some sequence of gains makes the error of the corresponding observer, started at any time, shrink by the factor in the number of steps: the program that, at each step, sets A, B, C, D, Q and R, gives the input and the measurement and asks for the estimate never fails, in debug and in release, and after any number N of steps the squared error of its estimate is at most c1 rho^N times the initial one plus c2 times the bound on the squared norms of the disturbances and of the measurement errors; the covariance it reports is at most c3. The matrices B, D and the inputs are arbitrary.", "quantifier": "for all sizes, bounds, sequences of matrices, gains of the comparison observer, inputs, initial estimates, true trajectories, bounded disturbances and errors, numbers of steps, both build modes", "why_tests_cant": "The claim is about all sequences of matrices and all numbers of steps with constants that do not depend on the system; a test runs finitely many systems for finitely many steps.", "anchors": ["src/kalman-filter-base.cpp: 108-171", "src/kalman-filter-base.cpp: 27-89", "src/linear-kalman-filter.cpp: 57-110", "src/zero-delay-observer.cpp: getEstimatedState"]}
{"id": "C168", "title": "The kinetics observer follows the trajectories of its own model", "statement": "If the state kept by the filter is the true one, the true state moves at each cycle as stateDynamics says and the sensors report what measureDynamics says of the new true state, then every update succeeds and the estimate is the true state after any number of cycles, whatever the gains.", "quantifier": "every history of calls and updates before, number of cycles, inputs, sensor calls, gains and build mode", "why_tests_cant": "Unbounded runs over real trajectories and gains.", "anchors": ["src/kinetics-observer.cpp: update", "src/kinetics-observer.cpp: stateDynamics", "src/kinetics-observer.cpp: measureDynamics", "src/kalman-filter-base.cpp: oneStepEstimation_"]}
{"id": "C169", "title": "An update of the kinetics observer corrects the prediction by the gain times the measurement error", "statement": "After any calls and updates, an update with new signals and no absolute pose gives, for each component of the state in use, the predicted component plus the part of the correction that the gain gives to it from the difference between the measurements and their predictions; orientations are turned by the rotation vector of their part; other entries keep the prediction.", "quantifier": "every history of calls and updates, inputs, signals, gain and build mode", "why_tests_cant": "Histories of any length, real states and gains.", "anchors": ["src/kinetics-observer.cpp: update", "src/kinetics-observer.cpp: stateSum", "src/kinetics-observer.cpp: measurementDifference", "src/kalman-filter-base.cpp: oneStepEstimation_"]}
