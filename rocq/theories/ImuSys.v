(** Model of the dynamical systems of an inertial unit: src/imu-dynamical-system.cpp,
    src/imu-magnetometer-dynamical-system.cpp, src/imu-fixed-contact-dynamical-system.cpp,
    src/stable-imu-fixed-contact-dynamical-system.cpp (rotation vectors, with a cached quaternion),
    src/imu-mltpctive-dynamical-system.cpp (quaternions) and src/bidim-elastic-inv-pendulum-dyn-sys.cpp. *)
From Coq Require Import ZArith List Bool Reals.
From Verif Require Import Base Vec3 Rot Kine Sensors.
Import ListNotations.
Open Scope R_scope.

(** Comparison of Eigen vectors: every component equal. *)
Definition veqb (a b : V3) : bool :=
  (if Req_EM_T (vx a) (vx b) then true else false) && (if Req_EM_T (vy a) (vy b) then true else false) && (if Req_EM_T (vz a) (vz b) then true else false).

(** The four classes with a cached quaternion: IMUDynamicalSystem, IMUMagnetometerDynamicalSystem,
    IMUFixedContactDynamicalSystem, StableIMUFixedContactDynamicalSystem. *)
Inductive ikind := KImu | KMag | KFix | KStab.
(** imu-dynamical-system.hpp:73-85 (the same in the other headers), imu-fixed-contact-dynamical-system.hpp:90-107.
    [i_pn] is processNoise_, [i_pcalls] the number of calls to it. Simplification: the two noise sources
    are distinct objects. *)
Record isys := mkIS { i_dt : R; i_ov : V3; i_q : Q4; i_sens : asensor R; i_pn : option nat; i_pcalls : nat; i_msize : nat; i_contacts : list V3 }.

Section Imu.
Variable nz : noises R.
Variable kd : ikind.

(** sensor_: AccelerometerGyrometerMagnetometer (imu-magnetometer-dynamical-system.hpp:77) or
    AccelerometerGyrometer. *)
Definition i_class : sclass R := match kd with KMag => accgyromag | _ => accgyro end.
(** The constructors (imu-dynamical-system.cpp:8-9, imu-magnetometer-dynamical-system.cpp:8-9,
    imu-fixed-contact-dynamical-system.cpp:10-12, stable-imu-fixed-contact-dynamical-system.cpp:10-12);
    [dt] is 1 in the first two. measurementSize_ is 6, 9, and 6 plus three per contact. *)
Definition i_init (dt : R) : isys :=
  mkIS (match kd with KImu | KMag => 1 | _ => dt end) v0 q1 a_init None 0 (c_msize i_class) [].
Definition with_cache (o : V3) (q : Q4) (s : isys) : isys := mkIS (i_dt s) o q (i_sens s) (i_pn s) (i_pcalls s) (i_msize s) (i_contacts s).
Definition with_sens (a : asensor R) (s : isys) : isys := mkIS (i_dt s) (i_ov s) (i_q s) a (i_pn s) (i_pcalls s) (i_msize s) (i_contacts s).

(** imu-dynamical-system.cpp:64-73 (imu-magnetometer:62-71, imu-fixed-contact:59-68, stable-imu:77-86) computeQuaternion_. *)
Definition computeQuaternion (x : V3) (s : isys) : Q4 * isys :=
  if veqb (i_ov s) x then (i_q s, s) else (rv_quat x, with_cache x (rv_quat x) s).

(** dynamical-system-functor-base.hpp:61-70 assertStateVector_, assertInputVector_. Simplification: in
    release a vector of another size is read by segments, which is undefined when it is shorter; the
    model stops for a longer one too. *)
Definition vsize (md : mode) (n : nat) (x : list R) : outcome unit := eigen_assert md (Nat.eqb (length x) n).
(** The six segments of a state (rigid-body-kinematics.hpp:323-335 indexes<rotationVector>). *)
Definition pack (p o v w a al : V3) : list R := vlist p ++ vlist o ++ vlist v ++ vlist w ++ vlist a ++ vlist al.
(** processNoise_->getNoisy. *)
Definition process_noise (y : list R) (s : isys) : outcome (list R * isys) :=
  match i_pn s with
  | None => Ok (y, s)
  | Some id => do y <- nz id (i_pcalls s) y;
               Ok (y, mkIS (i_dt s) (i_ov s) (i_q s) (i_sens s) (i_pn s) (S (i_pcalls s)) (i_msize s) (i_contacts s))
  end.
(** stable-imu-fixed-contact-dynamical-system.cpp:23-37 stabilizeAccelerationLinear, stabilizeAccelerationAngular. *)
Definition stabilize (x xdot : V3) : V3 :=
  let w := 5 in let e := 1 / 10 in
  vsub (vneg (mkV (w * (w * vx x)) (w * (w * vy x)) (w * (w * vz x))))
       (mkV (2 * e * (w * vx xdot)) (2 * e * (w * vy xdot)) (2 * e * (w * vz xdot))).
(** imu-dynamical-system.cpp:22-62, imu-magnetometer:22-60, imu-fixed-contact:24-57, stable-imu:39-75
    stateDynamics. Only IMUDynamicalSystem looks at its input. *)
Definition i_stateDynamics (md : mode) (x u : list R) (s : isys) : outcome (list R * isys) :=
  do _ <- vsize md 18 x;
  do _ <- (match kd with KImu => vsize md 6 u | _ => Ok tt end);
  let p := seg3 x 0 in let o := seg3 x 3 in let v := seg3 x 6 in let w := seg3 x 9 in
  let a := match kd with KStab => stabilize p v | _ => seg3 x 12 end in
  let al := match kd with KStab => stabilize o w | _ => seg3 x 15 end in
  let '(q, s) := computeQuaternion o s in
  let '(p', v') := int_pv (i_dt s) a p v in
  let '(q', w') := int_qw (i_dt s) al q w in
  let o' := quat_rv q' in
  let '(a', al') := match kd with
    | KImu => (vadd v0 (seg3 u 0), vadd v0 (seg3 u 3))
    | KMag => (v0, v0)
    | KFix => (seg3 x 12, seg3 x 15)
    | KStab => (a, al)
    end in
  process_noise (pack p' o' v' w' a' al') s.

(** sensor_.setState(v, k); sensor_.getMeasurements(), on v of 10 entries: quaternion coefficients,
    acceleration and angular velocity. *)
Definition i_sense (md : mode) (q : Q4) (a w : V3) (k : Z) (s : isys) : outcome (list R * isys) :=
  do sn <- a_setState i_class md (l4 q ++ vlist a ++ vlist w) k (i_sens s);
  do (y, sn) <- a_getMeasurements i_class nz md true sn;
  Ok (y, with_sens sn s).
(** imu-dynamical-system.cpp:75-97, imu-magnetometer:73-95: the state alone.
    imu-fixed-contact:70-121, stable-imu:88-140: the unit is moved by the input on the flexible base; then the
    virtual measurements of the contacts. [y] has measurementSize_ entries. *)
Definition i_measureDynamics (md : mode) (x u : list R) (k : Z) (s : isys) : outcome (list R * isys) :=
  do _ <- vsize md 18 x;
  let p := seg3 x 0 in let o := seg3 x 3 in let w := seg3 x 9 in let a := seg3 x 12 in let al := seg3 x 15 in
  let '(q, s) := computeQuaternion o s in
  match kd with
  | KImu | KMag => i_sense md q a w k s
  | KFix | KStab =>
      let r := qrot q in
      do _ <- vsize md 15 u;
      let pc := seg3 u 0 in let oc := seg3 u 3 in let vc := seg3 u 6 in let wc := seg3 u 9 in let ac := seg3 u 12 in
      let '(qc, s) := computeQuaternion oc s in
      let acc := vadd (vadd (vadd (mvec (mmul (madd (skew al) (mmul (skew w) (skew w))) r) pc) (mvec (mmul (mscal 2 (skew w)) r) vc)) a) (mvec r ac) in
      let om := vadd w (mvec r wc) in
      do (y, s) <- i_sense md (qmul q qc) acc om k s;
      do _ <- eigen_assert md (Nat.eqb (length y + 3 * length (i_contacts s)) (i_msize s));
      Ok (y ++ concat (map (fun c => vlist (vsub (vadd (mvec r c) p) c)) (i_contacts s)), s)
  end.

(** imu-fixed-contact:172-176, stable-imu:192-196 setContactsNumber (std::vector::resize with zeros), and
    178-183, 198-203 setContactPosition. *)
Definition i_setContactsNumber (n : nat) (s : isys) : isys :=
  mkIS (i_dt s) (i_ov s) (i_q s) (i_sens s) (i_pn s) (i_pcalls s) (6 + 3 * n)
       (firstn n (i_contacts s) ++ repeat v0 (n - length (i_contacts s))).
Definition i_setContactPosition (md : mode) (i : nat) (c : V3) (s : isys) : outcome isys :=
  do _ <- boost_assert md (Nat.ltb i (length (i_contacts s)));
  if Nat.ltb i (length (i_contacts s)) then
    Ok (mkIS (i_dt s) (i_ov s) (i_q s) (i_sens s) (i_pn s) (i_pcalls s) (i_msize s) (list_set i c (i_contacts s)))
  else UB.

(** The public calls. *)
Inductive iop := IState (x u : list R) | IMeas (x u : list R) (k : Z) | IProc (o : option nat) | IMNoise (o : option nat) | IPeriod (dt : R)
  | IContacts (n : nat) | IContact (i : nat) (c : V3).
Definition i_step (md : mode) (o : iop) (s : isys) : outcome (option (list R) * isys) :=
  match o with
  | IState x u => do (y, s) <- i_stateDynamics md x u s; Ok (Some y, s)
  | IMeas x u k => do (y, s) <- i_measureDynamics md x u k s; Ok (Some y, s)
  | IProc o => Ok (None, mkIS (i_dt s) (i_ov s) (i_q s) (i_sens s) o (i_pcalls s) (i_msize s) (i_contacts s))
  | IMNoise o => Ok (None, with_sens (a_setNoise o (i_sens s)) s)
  | IPeriod dt => Ok (None, mkIS dt (i_ov s) (i_q s) (i_sens s) (i_pn s) (i_pcalls s) (i_msize s) (i_contacts s))
  | IContacts n => match kd with KImu | KMag => Ok (None, s) | _ => Ok (None, i_setContactsNumber n s) end
  | IContact i c => match kd with KImu | KMag => Ok (None, s) | _ => do s <- i_setContactPosition md i c s; Ok (None, s) end
  end.
Fixpoint i_run (md : mode) (ops : list iop) (s : isys) : outcome isys :=
  match ops with [] => Ok s | o :: os => do (_, s) <- i_step md o s; i_run md os s end.
End Imu.

(** ** IMUMltpctiveDynamicalSystem *)
(** indexes<quaternion> (rigid-body-kinematics.hpp:337-349): the orientation has four entries. *)
Definition quat_at (x : list R) (i : nat) : Q4 := mkQ (at_ x (i + 3)) (at_ x i) (at_ x (i + 1)) (at_ x (i + 2)).
Definition packq (p : V3) (q : Q4) (v w a al : V3) : list R := vlist p ++ l4 q ++ vlist v ++ vlist w ++ vlist a ++ vlist al.
(** Eigen Quaternion::normalize (as Matrix::normalize: nothing when the norm is 0). *)
Definition qnormalize (q : Q4) : Q4 :=
  if Rlt_dec 0 (qn2 q) then let n := sqrt (qn2 q) in mkQ (qw q / n) (qx q / n) (qy q / n) (qz q / n) else q.
(** rigid-body-kinematics.hpp:352 quatNormTol. *)
Definition quatNormTol : R := / 1000000.
(** imu-mltpctive-dynamical-system.cpp:22-64 stateDynamics (without noise). *)
Definition ml_next (md : mode) (dt : R) (x u : list R) : outcome (list R) :=
  do _ <- vsize md 19 x; do _ <- vsize md 6 u;
  let '(p', v') := int_pv dt (seg3 x 13) (seg3 x 0) (seg3 x 7) in
  let '(q', w') := int_qw dt (seg3 x 16) (quat_at x 3) (seg3 x 10) in
  let n := qn2 q' in
  let q' := if Rlt_dec (1 + quatNormTol) n then qnormalize q' else if Rlt_dec n (1 - quatNormTol) then qnormalize q' else q' in
  Ok (packq p' q' v' w' (seg3 u 0) (seg3 u 3)).
(** imu-mltpctive-dynamical-system.cpp:66-88 measureDynamics: what a new sensor returns. *)
Definition ml_measure (md : mode) (x : list R) : outcome (list R) :=
  do _ <- vsize md 19 x; c_fun accgyro md false (l4 (quat_at x 3) ++ vlist (seg3 x 13) ++ vlist (seg3 x 10)).
(** imu-mltpctive-dynamical-system.cpp:167-182 stateSum, 184-205 stateDifference. *)
Definition ml_sum (md : mode) (x t : list R) : outcome (list R) :=
  do _ <- vsize md 19 x; do _ <- vsize md 18 t;
  Ok (packq (vadd (seg3 x 0) (seg3 t 0)) (qmul (rv_quat (seg3 t 3)) (quat_at x 3)) (vadd (seg3 x 7) (seg3 t 6)) (vadd (seg3 x 10) (seg3 t 9))
       (vadd (seg3 x 13) (seg3 t 12)) (vadd (seg3 x 16) (seg3 t 15))).
Definition ml_diff (md : mode) (x y : list R) : outcome (list R) :=
  do _ <- vsize md 19 x; do _ <- vsize md 19 y;
  Ok (pack (vsub (seg3 x 0) (seg3 y 0)) (quat_rv (qmul (quat_at x 3) (qconj (quat_at y 3)))) (vsub (seg3 x 7) (seg3 y 7)) (vsub (seg3 x 10) (seg3 y 10))
       (vsub (seg3 x 13) (seg3 y 13)) (vsub (seg3 x 16) (seg3 y 16))).

(** definitions.hpp cst::epsilonAngle is epsA. rigid-body-kinematics.hxx:525-545
    derivateRotationMultiplicative. *)
Definition outer (v : V3) : M3 := mkM (vx v * vx v) (vx v * vy v) (vx v * vz v) (vy v * vx v) (vy v * vy v) (vy v * vz v) (vz v * vx v) (vz v * vy v) (vz v * vz v).
Definition dRdR (d : V3) : M3 := rv_mat d.
Definition dRddelta (d : V3) : M3 :=
  let n := vnorm d in
  if Rlt_dec n epsA then m1
  else madd (madd (mscal (/ (n * n * n)) (mscal (n - sin n) (outer d))) (mscal (sin n / n) m1)) (mscal ((1 - cos n) / (n * n)) (skew d)).
(** rigid-body-kinematics.hxx:549-552 derivateRtvMultiplicative. *)
Definition dRtv (r : M3) (v : V3) : M3 := mmul (mneg (mtr r)) (skew v).
(** imu-mltpctive-dynamical-system.cpp:90-107 getAMatrix, as the product with a tangent vector: the blocks of
    AJacobian (constructor of opt: imu-mltpctive-dynamical-system.hpp:103-110) by blocks of three. *)
Definition ml_A (dt : R) (x : list R) (p o v w a al : V3) : V3 * V3 * V3 * V3 * V3 * V3 :=
  let d := vadd (vscal dt (seg3 x 10)) (vscal (dt * dt / 2) (seg3 x 16)) in
  let jR := dRdR d in let jv := dRddelta d in
  (vadd (vadd p (vscal dt v)) (vscal (dt * dt * (1 / 2)) a),
   vadd (vadd (mvec jR o) (mvec (mscal dt jv) w)) (mvec (mscal (dt * dt / 2) jv) al),
   vadd v (vscal dt a), vadd w (vscal dt al), v0, v0).
(** imu-mltpctive-dynamical-system.cpp:109-126 getCMatrix, in the same form. *)
Definition ml_C (x : list R) (o w a : V3) : V3 * V3 :=
  let rt := mtr (qrot (quat_at x 3)) in
  (vadd (mvec (mmul rt (skew (vadd (seg3 x 13) sgravity))) o) (mvec rt a),
   vadd (mvec (mmul rt (skew (seg3 x 10))) o) (mvec rt w)).

(** ** BidimElasticInvPendulum *)
(** bidim-elastic-inv-pendulum-dyn-sys.hpp:77-83: k_ is not initialised by the constructor (cpp:8). *)
Record bip := mkBip { b_k : option R; b_m : R; b_h : R; b_dt : R }.
Definition bip_init : bip := mkBip None 1 1 1.
(** bidim-elastic-inv-pendulum-dyn-sys.cpp:32-35 the angular acceleration. *)
Definition bip_acc (k m h p pd pdd th thd : R) : R :=
  1 / (m * (p * p + h * h)) * (- k * th - m * (98 / 10) * (cos th * p - sin th * h) + m * (h * pdd - 2 * thd * (h * pd))).
(** bidim-elastic-inv-pendulum-dyn-sys.cpp:22-46 stateDynamics (without noise); reading k_ before
    setElasticity is undefined. *)
Definition bip_next (md : mode) (x u : list R) (s : bip) : outcome (list R) :=
  do _ <- vsize md 4 x; do _ <- vsize md 1 u;
  match b_k s with
  | None => UB
  | Some k =>
      let p := at_ x 0 in let pd := at_ x 2 in let pdd := at_ u 0 in let th := at_ x 1 in let thd := at_ x 3 in
      let thdd := bip_acc k (b_m s) (b_h s) p pd pdd th thd in
      Ok [p + b_dt s * pd; th + b_dt s * thd; pd + b_dt s * pdd; thd + b_dt s * thdd]
  end.
(** cpp:48-64 setHeight, setMass, setElasticity and 93-96 setSamplingPeriod. *)
Inductive bop := BHeight (h : R) | BMass (m : R) | BElast (k : R) | BPeriod (dt : R).
Definition bip_step (o : bop) (s : bip) : bip :=
  match o with
  | BHeight h => mkBip (b_k s) (b_m s) h (b_dt s)
  | BMass m => mkBip (b_k s) m (b_h s) (b_dt s)
  | BElast k => mkBip (Some k) (b_m s) (b_h s) (b_dt s)
  | BPeriod dt => mkBip (b_k s) (b_m s) (b_h s) dt
  end.
