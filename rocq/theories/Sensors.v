(** Model of the simulated sensors: src/algebraic-sensor.cpp, src/sensor-base.cpp,
    src/accelerometer-gyrometer.cpp, src/accelerometer-gyrometer-magnetometer.cpp and the algorithms
    src/linear-acceleration.cpp, src/rotation-velocity.cpp, src/magnetic-field.cpp. *)
From Coq Require Import ZArith List Lia Bool.
From Verif Require Import Base.
Import ListNotations.

(** ** AlgebraicSensor, generic in its concrete class *)
Section Alg.
Context {A : Type}.

(** The virtual functions of a concrete sensor (algebraic-sensor.hpp:67-71); the flag is its
    matrixMode_: getStateSize_, getMeasurementSize_, computeNoiselessMeasurement_. *)
Record sclass := mkSC { c_ssize : bool -> nat; c_msize : nat; c_fun : mode -> bool -> list A -> outcome (list A) }.

(** The noise sources: NoiseBase::getNoisy of source [id] at its call number [n] (noise-base.hpp). A
    random generator is a function of the number of earlier calls; the source may also fail. *)
Definition noises := nat -> nat -> list A -> outcome (list A).

(** algebraic-sensor.hpp:77-93 and sensor-base.hpp: members. The two flags storedNoisyMeasurement_
    and storedNoiselessMeasurement_, the matrix mode of the concrete class. [a_buf] is
    noiselessMeasurement_: its size and its content, None when it was resized (uninitialised).
    [a_calls] counts the calls to the noise source. *)
Record asensor := mkA { a_time : Z; a_concat : nat; a_state : list A; a_direct : list A; a_noisyStored : bool; a_noisy : list A;
  a_stored : bool; a_buf : nat * option (list A); a_noise : option nat; a_mat : bool; a_calls : nat }.

Variable C : sclass.
Variable nz : noises.

(** algebraic-sensor.cpp:5-7, sensor-base.cpp:5, accelerometer-gyrometer.cpp:13.
    storedNoisyMeasurement_ is value-initialised. *)
Definition a_init : asensor := mkA 0%Z 0%nat [] [] false [] false (0%nat, Some []) None false 0%nat.
(** algebraic-sensor.cpp:19-27. *)
Definition a_getStateSize (s : asensor) : nat := c_ssize C (a_mat s) + a_concat s.
Definition a_getMeasurementSize (s : asensor) : nat := c_msize C + a_concat s.
(** eigen_assert: an assertion in debug, an access out of range (undefined) in release. *)
Definition eigen_assert (md : mode) (b : bool) : outcome unit :=
  if b then Ok tt else match md with Debug => AssertFail | Release => UB end.

(** algebraic-sensor.cpp:9-17: tail and head of Eigen check that the vector is long enough. *)
Definition a_setState (md : mode) (v : list A) (k : Z) (s : asensor) : outcome asensor :=
  do _ <- eigen_assert md (Nat.leb (a_concat s) (length v));
  do _ <- eigen_assert md (Nat.leb (c_ssize C (a_mat s)) (length v));
  Ok (mkA k (a_concat s) (firstn (c_ssize C (a_mat s)) v) (skipn (length v - a_concat s) v) false (a_noisy s) false (a_buf s)
          (a_noise s) (a_mat s) (a_calls s)).

(** algebraic-sensor.cpp:44-47 and 72-75. The comma initialiser of Eigen asserts that the two parts
    fill the vector. In release a larger vector would keep uninitialised entries and a smaller one be
    written out of range: undefined in both cases. *)
Definition a_computeNoiseless (md : mode) (s : asensor) : outcome asensor :=
  do m <- c_fun C md (a_mat s) (a_state s);
  do b <- (if Nat.ltb 0 (a_concat s) then
             do _ <- eigen_assert md (Nat.eqb (length m + length (a_direct s)) (fst (a_buf s)));
             Ok (m ++ a_direct s)
           else Ok m);
  Ok (mkA (a_time s) (a_concat s) (a_state s) (a_direct s) (a_noisyStored s) (a_noisy s) true (length b, Some b) (a_noise s) (a_mat s) (a_calls s)).
(** Reading noiselessMeasurement_: undefined when uninitialised. *)
Definition a_readNoiseless (s : asensor) : outcome (list A) := match snd (a_buf s) with Some l => Ok l | None => UB end.

(** algebraic-sensor.cpp:66-80, sensor-base.cpp:7-10. *)
Definition a_computeNoisy (md : mode) (id : nat) (s : asensor) : outcome (list A * asensor) :=
  do s <- (if a_stored s then Ok s
           else do _ <- boost_assert md (Nat.eqb (length (a_state s)) (a_getStateSize s)); a_computeNoiseless md s);
  do m <- a_readNoiseless s;
  do y <- nz id (a_calls s) m;
  Ok (y, mkA (a_time s) (a_concat s) (a_state s) (a_direct s) (a_noisyStored s) (a_noisy s) (a_stored s) (a_buf s) (a_noise s) (a_mat s) (S (a_calls s))).
(** algebraic-sensor.cpp:29-53. *)
Definition a_getMeasurements (md : mode) (noisy : bool) (s : asensor) : outcome (list A * asensor) :=
  match noisy, a_noise s with
  | true, Some id =>
      if a_noisyStored s then Ok (a_noisy s, s)
      else
        do (y, s) <- a_computeNoisy md id s;
        Ok (y, mkA (a_time s) (a_concat s) (a_state s) (a_direct s) true y (a_stored s) (a_buf s) (a_noise s) (a_mat s) (a_calls s))
  | _, _ =>
      do s <- (if a_stored s then Ok s else a_computeNoiseless md s);
      do m <- a_readNoiseless s; Ok (m, s)
  end.
(** algebraic-sensor.cpp:82-87: Eigen's resize keeps the content only when the size is unchanged. *)
Definition a_concatenate (n : nat) (s : asensor) : asensor :=
  let sz := (c_msize C + n)%nat in
  mkA (a_time s) n (a_state s) (a_direct s) (a_noisyStored s) (a_noisy s) (a_stored s)
      (if Nat.eqb sz (fst (a_buf s)) then a_buf s else (sz, None)) (a_noise s) (a_mat s) (a_calls s).
(** sensor-base.cpp:12-20. *)
Definition a_setNoise (o : option nat) (s : asensor) : asensor :=
  mkA (a_time s) (a_concat s) (a_state s) (a_direct s) (a_noisyStored s) (a_noisy s) (a_stored s) (a_buf s) o (a_mat s) (a_calls s).
(** accelerometer-gyrometer.cpp:49-56. *)
Definition a_setMatrixMode (b : bool) (s : asensor) : asensor :=
  mkA (a_time s) (a_concat s) (a_state s) (a_direct s) (a_noisyStored s) (a_noisy s) (a_stored s) (a_buf s) (a_noise s) b (a_calls s).

(** The public calls; [a_run] also collects what getMeasurements returned, with the noisy flag and
    whether a noise source was set. *)
Inductive aop := ASetState (v : list A) (k : Z) | AGet (noisy : bool) | ASetNoise (id : nat) | AResetNoise | AMatrixMode (b : bool) | AConcat (n : nat).
Definition a_step (md : mode) (o : aop) (s : asensor) : outcome (list (bool * list A) * asensor) :=
  match o with
  | ASetState v k => do s <- a_setState md v k s; Ok ([], s)
  | AGet noisy => let b := noisy && match a_noise s with Some _ => true | None => false end in
                  do (y, s) <- a_getMeasurements md noisy s; Ok ([(b, y)], s)
  | ASetNoise id => Ok ([], a_setNoise (Some id) s)
  | AResetNoise => Ok ([], a_setNoise None s)
  | AMatrixMode b => Ok ([], a_setMatrixMode b s)
  | AConcat n => Ok ([], a_concatenate n s)
  end.
Fixpoint a_run (md : mode) (ops : list aop) (s : asensor) : outcome (list (bool * list A) * asensor) :=
  match ops with
  | [] => Ok ([], s)
  | o :: os => do (l, s) <- a_step md o s; do (l', s) <- a_run md os s; Ok (l ++ l', s)
  end.
End Alg.
Arguments sclass : clear implicits.
Arguments noises : clear implicits.
Arguments asensor : clear implicits.
Arguments aop : clear implicits.

(** ** The inertial sensors *)
From Coq Require Import Reals.
From Verif Require Import Vec3.
Open Scope R_scope.

(** definitions.hpp:548-551 cst::gravity. *)
Definition sgravity : V3 := mkV 0 0 (98 / 10).
(** linear-acceleration.cpp:7-10. *)
Definition accelerationMeasure (acc : V3) (r : M3) : V3 := mvec (mtr r) (vadd acc sgravity).
(** rotation-velocity.cpp:7-10. *)
Definition rotationVelocityMeasure (w : V3) (r : M3) : V3 := mvec (mtr r) w.
(** magnetic-field.cpp:8: the constant field; the member magne_ of the sensor
    (accelerometer-gyrometer-magnetometer.cpp:16-18) is not used. *)
Definition earthField : V3 := mkV 0 28 (- (337 / 10)).
(** magnetic-field.cpp:10-13. *)
Definition magneticFieldMeasure (r : M3) : V3 := mvec (mtr r) earthField.

(** Entry i of a vector (totalised; every use below is guarded by a size check). *)
Definition at_ (v : list R) (i : nat) : R := nth i v 0.
(** segment<3>(i). *)
Definition seg3 (v : list R) (i : nat) : V3 := mkV (at_ v i) (at_ v (i + 1)) (at_ v (i + 2)).
Definition vlist (v : V3) : list R := [vx v; vy v; vz v].
(** Quaternion(state_.head<4>()): Eigen's coefficient order is x, y, z, w. *)
Definition quat_coeffs (v : list R) : Q4 := mkQ (at_ v 3) (at_ v 0) (at_ v 1) (at_ v 2).
(** Eigen::Map<Matrix3>(&state_[0]): column-major. *)
Definition map_mat (v : list R) : M3 :=
  mkM (at_ v 0) (at_ v 3) (at_ v 6) (at_ v 1) (at_ v 4) (at_ v 7) (at_ v 2) (at_ v 5) (at_ v 8).
(** accelerometer-gyrometer.cpp:28-41 and accelerometer-gyrometer-magnetometer.cpp:33-46: orientation, acceleration and angular velocity read in the
    state. In matrix mode the map reads nine values from the address of the first one (a read out of
    range is undefined in both modes); segment<3>(9) and tail check the size. *)
Definition imu_read (md : mode) (mat : bool) (v : list R) : outcome (M3 * V3 * V3) :=
  if mat then
    do _ <- eigen_assert md (Nat.leb 1 (length v));
    do _ <- (if Nat.leb 9 (length v) then Ok tt else UB);
    do _ <- eigen_assert md (Nat.leb 12 (length v));
    Ok (map_mat v, seg3 v 9, seg3 v (length v - 3))
  else
    do _ <- eigen_assert md (Nat.leb 7 (length v));
    Ok (qrot (quat_coeffs v), seg3 v 4, seg3 v (length v - 3)).
(** accelerometer-gyrometer.cpp:26-47, accelerometer-gyrometer.hpp:61-64. *)
Definition accgyro : sclass R :=
  mkSC (fun mat => if mat then 15%nat else 10%nat) 6
    (fun md mat v => do (r, acc, w) <- imu_read md mat v;
       Ok (vlist (accelerationMeasure acc r) ++ vlist (rotationVelocityMeasure w r))).
(** accelerometer-gyrometer-magnetometer.cpp:31-53, accelerometer-gyrometer-magnetometer.hpp:65-68. *)
Definition accgyromag : sclass R :=
  mkSC (fun mat => if mat then 15%nat else 10%nat) 9
    (fun md mat v => do (r, acc, w) <- imu_read md mat v;
       Ok (vlist (accelerationMeasure acc r) ++ vlist (rotationVelocityMeasure w r) ++ vlist (magneticFieldMeasure r))).
