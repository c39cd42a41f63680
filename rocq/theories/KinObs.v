(** Model of the bookkeeping of the kinetics observer (src/kinetics-observer.cpp,
    include/state-observation/dynamics-estimators/kinetics-observer.{hpp,hxx}): indices of the state
    vector, contacts, sensors, iterations, measurement vector.

    Simplifications: the indices and sizes are integers that do not wrap (the code uses unsigned and
    int); vectors are lists over an arbitrary type of scalars; the kinematics of the contacts and of
    the IMUs are values of an arbitrary type with given update functions; covariance matrices are
    values of an arbitrary type; the extended Kalman filter is represented by its current state and the
    estimate it returns is given by the caller of update (an arbitrary function of the previous filter
    state and of the measurement); the test for NaN (line 323) is not modelled. *)
From Coq Require Import ZArith List Lia Bool.
From Verif Require Import Base.
Import ListNotations.
Open Scope Z_scope.

(** ** Sizes: kinetics-observer.hpp:1087-1119 *)
Definition sizePos := 3.
Definition sizeOri := 4.
Definition sizeOriTangent := 3.
Definition sizeLinVel := sizePos.
Definition sizeAngVel := sizeOriTangent.
Definition sizeGyroBias := 3.
Definition sizeForce := 3.
Definition sizeTorque := 3.
Definition sizeWrench := sizeForce + sizeTorque.
Definition sizeIMUSignal := 3 + 3.
Definition sizeStateKine := sizePos + sizeOri + sizeLinVel + sizeAngVel.
Definition sizeStateBase := sizeStateKine + sizeForce + sizeTorque.
Definition sizeStateKineTangent := sizePos + sizeOriTangent + sizeLinVel + sizeAngVel.
Definition sizeStateTangentBase := sizeStateKineTangent + sizeForce + sizeTorque.
Definition sizePose := sizePos + sizeOri.
Definition sizePoseTangent := sizePos + sizeOriTangent.
Definition sizeContactKine := sizePose.
Definition sizeContactKineTangent := sizePoseTangent.
Definition sizeContact := sizeContactKine + sizeWrench.
Definition sizeContactTangent := sizeContactKineTangent + sizeWrench.

(** ** Indices: kinetics-observer.hxx:1-41 and 109-150 *)
Definition kineIndex := 0.
Definition posIndex := 0.
Definition oriIndex := posIndex + sizePos.
Definition linVelIndex := oriIndex + sizeOri.
Definition angVelIndex := linVelIndex + sizeLinVel.
Definition kineIndexTangent := 0.
Definition posIndexTangent := 0.
Definition oriIndexTangent := posIndexTangent + sizePos.
Definition linVelIndexTangent := oriIndexTangent + sizeOriTangent.
Definition angVelIndexTangent := linVelIndexTangent + sizeLinVel.
(** hxx:21-26, 129-134. *)
Definition gyroBiasIndex (md : mode) (maxI i : Z) : outcome Z :=
  do _ <- boost_assert md (i <? maxI); Ok (angVelIndex + sizeAngVel + sizeGyroBias * i).
Definition gyroBiasIndexTangent (md : mode) (maxI i : Z) : outcome Z :=
  do _ <- boost_assert md (i <? maxI); Ok (angVelIndexTangent + sizeAngVel + sizeGyroBias * i).
(** hxx:27-42, 135-150. *)
Definition unmodeledWrenchIndex md maxI := do g <- gyroBiasIndex md maxI 0; Ok (g + sizeGyroBias * maxI).
Definition unmodeledForceIndex md maxI := unmodeledWrenchIndex md maxI.
Definition unmodeledTorqueIndex md maxI := do u <- unmodeledForceIndex md maxI; Ok (u + sizeForce).
Definition contactsIndex md maxI := do u <- unmodeledWrenchIndex md maxI; Ok (u + sizeWrench).
Definition unmodeledWrenchIndexTangent md maxI := do g <- gyroBiasIndexTangent md maxI 0; Ok (g + sizeGyroBias * maxI).
Definition unmodeledForceIndexTangent md maxI := unmodeledWrenchIndexTangent md maxI.
Definition unmodeledTorqueIndexTangent md maxI := do u <- unmodeledForceIndexTangent md maxI; Ok (u + sizeForce).
Definition contactsIndexTangent md maxI := do u <- unmodeledWrenchIndexTangent md maxI; Ok (u + sizeWrench).
(** kinetics-observer.cpp:89-90. *)
Definition stateSize (maxC maxI : Z) := sizeStateBase + maxI * sizeGyroBias + maxC * sizeContact.
Definition stateTangentSize (maxC maxI : Z) := sizeStateTangentBase + maxI * sizeGyroBias + sizeContactTangent * maxC.

(** v[i] on a std::vector (no check in either build). *)
Definition vec_at {A} (i : Z) (v : list A) : outcome A :=
  if i <? 0 then UB else match nth_error v (Z.to_nat i) with Some x => Ok x | None => UB end.
Definition vec_set {A} (i : Z) (x : A) (v : list A) : list A := list_set (Z.to_nat i) x v.
(** v.segment(i, n) = w, w of size n: eigen_assert on the range. *)
Definition seg_set {A} (md : mode) (i : Z) (w v : list A) : outcome (list A) :=
  if (0 <=? i) && (i + Z.of_nat (length w) <=? Z.of_nat (length v))
  then Ok (firstn (Z.to_nat i) v ++ w ++ skipn (Z.to_nat i + length w) v)
  else match md with Debug => AssertFail | Release => UB end.
Definition seg_get {A} (i n : nat) (v : list A) : list A := firstn n (skipn i v).

Section Obs.
Context {S : Type} (s0 : S). (* scalars and zero *)
Context {Kn : Type} (k0 : Kn). (* kinematics; k0: nothing set *)
Context (kfirst : mode -> Kn -> outcome Kn). (* lines 527-541: checks, and zero for the unset parts *)
Context (kupd : mode -> Z -> Kn -> Kn -> outcome Kn). (* md n old new: old.update(new, n * dt_, flags) *)
Context {M : Type} (mzero : M -> bool). (* Matrix3, comparison with zero *)
Context {C : Type}. (* covariance matrices *)

(** kinetics-observer.hpp:797-879. A contact has no measurement index before the first update. *)
Record imu := mkImu { i_time : Z; i_sig : list S; i_cov : C * C; i_kine : Kn; i_midx : Z }.
Record contact := mkContact { c_set : bool; c_real : bool; c_time : Z; c_sidx : Z; c_tidx : Z; c_midx : Z;
  c_wrench : list S; c_cov : option C; c_kine : Kn; c_pose : list S; c_stiff : M * M * M * M (* linear stiffness, linear damping, angular stiffness, angular damping *) }.
Record pose := mkPose { p_time : Z; p_sig : list S; p_cov : option C; p_midx : Z }.
(** kinetics-observer.hpp:978-1040. [o_ekf]: the state kept by the filter. [o_meas]: the measurement
    vector built by the last update (None: not written after resize), [o_R]: the diagonal blocks
    written in the (otherwise zero) measurement covariance, with their positions. *)
Record obs := mkObs { o_maxC : Z; o_maxI : Z; o_contacts : list contact; o_imus : list imu; o_pose : pose;
  o_kest : Z; o_kdata : Z; o_nreal : Z; o_nimu : Z;
  o_withGyro : bool; o_withUnm : bool; o_withAcc : bool;
  o_state : list S; o_ekf : list S; o_meas : list (option S); o_R : list (Z * C);
  o_dstiff : M * M * M * M; o_dimu : C * C; o_dwrench : C; o_dpose : C }.

(** Contact(): hpp:844, the constructor of the observer: cpp:88-178, with default matrices [ds], [di],
    [dw], [dp]. The indices used by resetStateCovarianceMat and resetProcessCovarianceMat (lines
    172-173, 1155-1160) are computed, so that the assertion of gyroBiasIndex applies. *)
Definition contact_init (c0 : M * M * M * M) : contact := mkContact false false 0 (-1) (-1) 0 [] None k0 [] c0.
Definition imu_init (di : C * C) : imu := mkImu 0 [] di k0 0.
Definition ko_init (md : mode) (maxC maxI : nat) ds di dw dp : outcome obs :=
  do _ <- unmodeledForceIndexTangent md (Z.of_nat maxI);
  let x := repeat s0 (Z.to_nat (stateSize (Z.of_nat maxC) (Z.of_nat maxI))) in
  Ok (mkObs (Z.of_nat maxC) (Z.of_nat maxI) (repeat (contact_init ds) maxC) (repeat (imu_init di) maxI) (mkPose 0 [] None 0)
        0 0 0 0 true false false x x [] [] ds di dw dp).

Definition set_contacts cs s := mkObs (o_maxC s) (o_maxI s) cs (o_imus s) (o_pose s) (o_kest s) (o_kdata s) (o_nreal s) (o_nimu s) (o_withGyro s) (o_withUnm s) (o_withAcc s) (o_state s) (o_ekf s) (o_meas s) (o_R s) (o_dstiff s) (o_dimu s) (o_dwrench s) (o_dpose s).
Definition set_imus is s := mkObs (o_maxC s) (o_maxI s) (o_contacts s) is (o_pose s) (o_kest s) (o_kdata s) (o_nreal s) (o_nimu s) (o_withGyro s) (o_withUnm s) (o_withAcc s) (o_state s) (o_ekf s) (o_meas s) (o_R s) (o_dstiff s) (o_dimu s) (o_dwrench s) (o_dpose s).
Definition set_pose p s := mkObs (o_maxC s) (o_maxI s) (o_contacts s) (o_imus s) p (o_kest s) (o_kdata s) (o_nreal s) (o_nimu s) (o_withGyro s) (o_withUnm s) (o_withAcc s) (o_state s) (o_ekf s) (o_meas s) (o_R s) (o_dstiff s) (o_dimu s) (o_dwrench s) (o_dpose s).
Definition set_iter ke kd nr ni s := mkObs (o_maxC s) (o_maxI s) (o_contacts s) (o_imus s) (o_pose s) ke kd nr ni (o_withGyro s) (o_withUnm s) (o_withAcc s) (o_state s) (o_ekf s) (o_meas s) (o_R s) (o_dstiff s) (o_dimu s) (o_dwrench s) (o_dpose s).
Definition set_state x e s := mkObs (o_maxC s) (o_maxI s) (o_contacts s) (o_imus s) (o_pose s) (o_kest s) (o_kdata s) (o_nreal s) (o_nimu s) (o_withGyro s) (o_withUnm s) (o_withAcc s) x e (o_meas s) (o_R s) (o_dstiff s) (o_dimu s) (o_dwrench s) (o_dpose s).
Definition set_meas y r s := mkObs (o_maxC s) (o_maxI s) (o_contacts s) (o_imus s) (o_pose s) (o_kest s) (o_kdata s) (o_nreal s) (o_nimu s) (o_withGyro s) (o_withUnm s) (o_withAcc s) (o_state s) (o_ekf s) y r (o_dstiff s) (o_dimu s) (o_dwrench s) (o_dpose s).
Definition set_flags g u a s := mkObs (o_maxC s) (o_maxI s) (o_contacts s) (o_imus s) (o_pose s) (o_kest s) (o_kdata s) (o_nreal s) (o_nimu s) g u a (o_state s) (o_ekf s) (o_meas s) (o_R s) (o_dstiff s) (o_dimu s) (o_dwrench s) (o_dpose s).

Definition set_nreal n s := set_iter (o_kest s) (o_kdata s) n (o_nimu s) s.

(** cpp:1287-1295. *)
Definition ko_start (s : obs) : obs :=
  if o_kest s =? o_kdata s then set_iter (o_kest s) (o_kdata s + 1) 0 0 s else s.

(** ** Configuration: cpp:488-501 *)
Definition ko_setWithUnmodeledWrench b s := set_flags (o_withGyro s) b (o_withAcc s) s.
Definition ko_setWithAccelerationEstimation b s := set_flags (o_withGyro s) (o_withUnm s) b s.
Definition ko_setWithGyroBias b s := set_flags (o_withGyro s) (o_withUnm s) b s.

(** ** IMUs: cpp:503-611. [cov]: None for the overload without covariances. *)
(** Lines 511-516: the first index, from num on, whose IMU has time k_data_; v[size] is read before
    the size is tested. *)
Fixpoint imu_search (kd : Z) (l : list imu) (n : Z) : outcome Z :=
  match l with [] => UB | i :: l' => if i_time i =? kd then Ok n else imu_search kd l' (n + 1) end.
Definition ko_setIMU (md : mode) (sig : list S) (cov : option (C * C)) (k : Kn) (num : Z) (s : obs) : outcome (Z * obs) :=
  let s := ko_start s in
  do n <- (if num <? 0 then imu_search (o_kdata s) (o_imus s) 0 else Ok num);
  do _ <- boost_assert md (n <? o_maxI s);
  do i <- vec_at n (o_imus s);
  do _ <- boost_assert md (i_time i <? o_kdata s);
  do k' <- (if i_time i =? 0 then kfirst md k else kupd md (o_kdata s - o_kdata s) (i_kine i) k);
  let c := match cov with Some c => c | None => if i_time i =? 0 then o_dimu s else i_cov i end in
  Ok (n, set_iter (o_kest s) (o_kdata s) (o_nreal s) (o_nimu s + 1)
           (set_imus (vec_set n (mkImu (o_kdata s) sig c k' (i_midx i)) (o_imus s)) s)).

(** ** Contact sensors: cpp:622-720 *)
Definition ko_contactKine (md : mode) (k : Kn) (c : contact) (s : obs) : outcome Kn :=
  if c_time c =? o_kdata s - 1 then kupd md 1 (c_kine c) k else Ok k.
Definition ko_updateWrench (md : mode) (w : list S) (cov : option C) (k : Kn) (n : Z) (s : obs) : outcome obs :=
  let s := ko_start s in
  do _ <- boost_assert md (n <? o_maxC s);
  do c <- vec_at n (o_contacts s);
  do _ <- boost_assert md (c_set c);
  do k' <- ko_contactKine md k c s;
  let cv := match cov with Some x => Some x | None => match c_cov c with Some x => Some x | None => Some (o_dwrench s) end end in
  Ok (set_nreal (if c_real c then o_nreal s else o_nreal s + 1)
        (set_contacts (vec_set n (mkContact (c_set c) true (o_kdata s) (c_sidx c) (c_tidx c) (c_midx c) w cv k' (c_pose c) (c_stiff c)) (o_contacts s)) s)).
Definition ko_updateNoSensor (md : mode) (k : Kn) (n : Z) (s : obs) : outcome obs :=
  let s := ko_start s in
  do _ <- boost_assert md (n <? o_maxC s);
  do c <- vec_at n (o_contacts s);
  do _ <- boost_assert md (c_set c);
  do k' <- ko_contactKine md k c s;
  Ok (set_nreal (if c_real c then o_nreal s - 1 else o_nreal s)
        (set_contacts (vec_set n (mkContact (c_set c) false (o_kdata s) (c_sidx c) (c_tidx c) (c_midx c) (c_wrench c) (c_cov c) k' (c_pose c) (c_stiff c)) (o_contacts s)) s)).

(** ** Pose sensor: cpp:722-746. The vector of the pose is given. *)
Definition ko_setPose (sig : list S) (cov : option C) (s : obs) : obs :=
  let s := ko_start s in
  let cv := match cov with Some x => Some x | None => match p_cov (o_pose s) with Some x => Some x | None => Some (o_dpose s) end end in
  set_pose (mkPose (o_kdata s) sig cv (p_midx (o_pose s))) s.
(** setInertiaMatrix, setCenterOfMass, setAngularMomentum (cpp:752-855): their effect on the
    iteration. *)
Definition ko_input (s : obs) : obs := ko_start s.

(** ** Contacts: cpp:857-999 *)
(** Lines 873-878. *)
Fixpoint contact_search (fuel : nat) (maxC : Z) (cs : list contact) (n : Z) : outcome Z :=
  match fuel with
  | O => Ok n
  | Datatypes.S f => if n <? maxC then do c <- vec_at n cs; if c_set c then contact_search f maxC cs (n + 1) else Ok n else Ok n
  end.
(** [pv]: the 7 components of the pose. [st]: linear stiffness, linear damping, angular stiffness,
    angular damping; zero selects the default, but line 903 tests the linear damping for the linear
    stiffness. The covariances (lines 941-949) are in KinCov.v. *)
Definition pick (a d : M) : M := if mzero a then d else a.
Definition ko_addContact (md : mode) (pv : list S) (num : Z) (st : M * M * M * M) (s : obs) : outcome (Z * obs) :=
  do n <- (if num <? 0 then contact_search (Z.to_nat (o_maxC s)) (o_maxC s) (o_contacts s) 0 else Ok num);
  do _ <- boost_assert md (n <? o_maxC s);
  let n := if o_maxC s <=? n then o_maxC s - 1 else n in
  do c <- vec_at n (o_contacts s);
  do _ <- boost_assert md (negb (c_set c));
  do ci <- contactsIndex md (o_maxI s);
  do ct <- contactsIndexTangent md (o_maxI s);
  let '(lk, ld, ak, ad) := st in let '(dlk, dld, dak, dad) := o_dstiff s in
  let lk' := if mzero ld then dlk else lk in
  let c' := mkContact true (c_real c) (c_time c) (ci + n * sizeContact) (ct + n * sizeContactTangent) (c_midx c) (c_wrench c) (c_cov c) (c_kine c) pv
              (lk', pick ld dld, pick ak dak, pick ad dad) in
  do x <- seg_set md (ci + n * sizeContact) (pv ++ repeat s0 6) (o_state s);
  Ok (n, set_state x (o_ekf s) (set_contacts (vec_set n c' (o_contacts s)) s)).
Definition ko_removeContact (md : mode) (n : Z) (s : obs) : outcome obs :=
  do c <- vec_at n (o_contacts s);
  do _ <- boost_assert md (negb (c_set c));
  Ok (set_nreal (if c_real c then o_nreal s - 1 else o_nreal s)
        (set_contacts (vec_set n (mkContact false false (c_time c) (c_sidx c) (c_tidx c) (c_midx c) (c_wrench c) (c_cov c) (c_kine c) (c_pose c) (c_stiff c)) (o_contacts s)) s)).
Definition ko_clearContacts (s : obs) : obs := set_nreal 0 (set_contacts [] s).
Definition ko_getNumberOfContacts (s : obs) : Z := Z.of_nat (length (o_contacts s)).
Fixpoint list_set_contacts (cs : list contact) (n : Z) : list Z :=
  match cs with [] => [] | c :: cs' => if c_set c then n :: list_set_contacts cs' (n + 1) else list_set_contacts cs' (n + 1) end.
Definition ko_getListOfContacts (s : obs) : list Z := list_set_contacts (o_contacts s) 0.
(** hxx:43-50, 151-158 (the other contact index functions add constants, hxx:51-74, 159-182). *)
Definition ko_contactIndex md n s : outcome Z :=
  do _ <- boost_assert md (n <? o_maxC s); do c <- vec_at n (o_contacts s); do _ <- boost_assert md (c_set c); Ok (c_sidx c).
Definition ko_contactPosIndex md n s := ko_contactIndex md n s.
Definition ko_contactOriIndex md n s := do i <- ko_contactPosIndex md n s; Ok (i + sizePos).
Definition ko_contactForceIndex md n s := do i <- ko_contactIndex md n s; Ok (i + sizeContactKine).
Definition ko_contactTorqueIndex md n s := do i <- ko_contactForceIndex md n s; Ok (i + sizeForce).
Definition ko_contactIndexTangent md n s : outcome Z :=
  do _ <- boost_assert md (n <? o_maxC s); do c <- vec_at n (o_contacts s); do _ <- boost_assert md (c_set c); Ok (c_tidx c).
Definition ko_contactPosIndexTangent md n s := ko_contactIndexTangent md n s.
Definition ko_contactOriIndexTangent md n s := do i <- ko_contactPosIndexTangent md n s; Ok (i + sizePos).
Definition ko_contactForceIndexTangent md n s := do i <- ko_contactIndexTangent md n s; Ok (i + sizeContactKineTangent).
Definition ko_contactTorqueIndexTangent md n s := do i <- ko_contactForceIndexTangent md n s; Ok (i + sizeForce).

(** ** Setting the state: cpp:401-478, without the covariances (KinCov.v) *)
(** Lines 411-418: the wrench of each set contact. *)
Fixpoint zero_wrenches (md : mode) (cs : list contact) (x : list S) : outcome (list S) :=
  match cs with
  | [] => Ok x
  | c :: cs' =>
      do x <- (if c_set c then do _ <- boost_assert md (0 <? c_sidx c); seg_set md (c_sidx c + sizeContactKine) (repeat s0 6) x else Ok x);
      zero_wrenches md cs' x
  end.
(** [kv]: the 13 components of the kinematics. *)
Definition ko_setStateKinematics (md : mode) (kv : list S) (resetForces : bool) (s : obs) : outcome obs :=
  do x <- seg_set md kineIndex kv (o_state s);
  do x <- (if resetForces then zero_wrenches md (o_contacts s) x else Ok x);
  Ok (set_state x x s).
Definition ko_setGyroBias (md : mode) (b : list S) (i : Z) (s : obs) : outcome obs :=
  do g <- gyroBiasIndex md (o_maxI s) i; do x <- seg_set md g b (o_state s); Ok (set_state x x s).
Definition ko_setStateUnmodeledWrench (md : mode) (w : list S) (s : obs) : outcome obs :=
  do g <- unmodeledWrenchIndex md (o_maxI s); do x <- seg_set md g w (o_state s); Ok (set_state x x s).
Definition ko_setStateVector (v : list S) (s : obs) : obs := set_state v v s.

(** ** Update: cpp:229-347 *)
(** Lines 233-254: the contacts that were not updated. *)
Fixpoint drop_lost (md : mode) (kd : Z) (cs : list contact) (nr : Z) : outcome (list contact * Z) :=
  match cs with
  | [] => Ok ([], nr)
  | c :: cs' =>
      do (c', nr') <- (if c_set c then
           do _ <- boost_assert md (c_time c =? kd);
           if c_time c =? kd then Ok (c, nr)
           else Ok (mkContact false false (c_time c) (c_sidx c) (c_tidx c) (c_midx c) (c_wrench c) (c_cov c) (c_kine c) (c_pose c) (c_stiff c),
                    if c_real c then nr - 1 else nr)
         else Ok (c, nr));
      do (cs'', nr'') <- drop_lost md kd cs' nr'; Ok (c' :: cs'', nr'')
  end.
(** Lines 271-284. *)
Fixpoint write_imus (md : mode) (kd : Z) (is : list imu) (y : list (option S)) (r : list (Z * C)) (cur : Z)
  : outcome (list imu * list (option S) * list (Z * C) * Z) :=
  match is with
  | [] => Ok ([], y, r, cur)
  | i :: is' =>
      if i_time i =? kd then
        do y <- seg_set md cur (map Some (i_sig i)) y;
        do (is'', y, r, cur') <- write_imus md kd is' y (r ++ [(cur, fst (i_cov i)); (cur + 3, snd (i_cov i))]) (cur + 3 + 3);
        Ok (mkImu (i_time i) (i_sig i) (i_cov i) (i_kine i) cur :: is'', y, r, cur')
      else do (is'', y, r, cur') <- write_imus md kd is' y r cur; Ok (i :: is'', y, r, cur')
  end.
(** Lines 286-295; the covariance of a contact with sensor must have been set (CheckedItem). *)
Fixpoint write_contacts (md : mode) (cs : list contact) (y : list (option S)) (r : list (Z * C)) (cur : Z)
  : outcome (list contact * list (option S) * list (Z * C) * Z) :=
  match cs with
  | [] => Ok ([], y, r, cur)
  | c :: cs' =>
      if c_real c then
        do y <- seg_set md cur (map Some (c_wrench c)) y;
        do cv <- match c_cov c with Some v => Ok v | None => match md with Debug => AssertFail | Release => UB end end;
        do (cs'', y, r, cur') <- write_contacts md cs' y (r ++ [(cur, cv)]) (cur + sizeWrench);
        Ok (mkContact (c_set c) (c_real c) (c_time c) (c_sidx c) (c_tidx c) cur (c_wrench c) (c_cov c) (c_kine c) (c_pose c) (c_stiff c) :: cs'', y, r, cur')
      else do (cs'', y, r, cur') <- write_contacts md cs' y r cur; Ok (c :: cs'', y, r, cur')
  end.
(** Lines 231-309: from the reported signals to the measurement vector given to the filter. A negative
    size is, as an unsigned, too large for the covariance matrix: std::bad_alloc. *)
Definition ko_prepare (md : mode) (s : obs) : outcome obs :=
  do (cs, nr) <- drop_lost md (o_kdata s) (o_contacts s) (o_nreal s);
  let hasPose := p_time (o_pose s) =? o_kdata s in
  let n := sizeIMUSignal * o_nimu s + sizeWrench * nr in
  let size := if hasPose then n + sizePose else n in
  if n <? 0 then Throw else
  do (is, y, r, cur) <- write_imus md (o_kdata s) (o_imus s) (repeat None (Z.to_nat size)) [] 0;
  do (cs, y, r, cur) <- write_contacts md cs y r cur;
  do (p, y, r) <- (if hasPose then
      do y <- seg_set md cur (map Some (p_sig (o_pose s))) y;
      do cv <- match p_cov (o_pose s) with Some v => Ok v | None => match md with Debug => AssertFail | Release => UB end end;
      Ok (mkPose (p_time (o_pose s)) (p_sig (o_pose s)) (p_cov (o_pose s)) cur, y, r ++ [(cur, cv)])
    else Ok (o_pose s, y, r));
  Ok (set_meas y r (set_nreal nr (set_pose p (set_imus is (set_contacts cs s))))).
(** Lines 310-337: the filter estimates the state; [e] is its estimation function. *)
Definition ko_finish (e : list S -> list (option S) -> list S) (s : obs) : obs :=
  let x := e (o_ekf s) (o_meas s) in
  set_iter (o_kest s + 1) (o_kdata s) (o_nreal s) (o_nimu s) (set_state x x s).
Definition ko_update (md : mode) (e : list S -> list (option S) -> list S) (s : obs) : outcome obs :=
  if o_kest s =? o_kdata s then Ok s else do s <- ko_prepare md s; Ok (ko_finish e s).

(** cpp:190-213. *)
Definition ko_getMeasurementSize (s : obs) : Z :=
  if o_kest s =? o_kdata s then 0
  else sizeIMUSignal * Z.of_nat (length (filter (fun i => i_time i =? o_kdata s) (o_imus s))) + o_nreal s * sizeWrench
       + (if p_time (o_pose s) =? o_kdata s then sizePose else 0).
(** cpp:1575-1622: the predicted measurement, from the predicted signals of the IMUs, contacts and
    pose; called by the filter after ko_prepare with k = k_data_. *)
Fixpoint predict_imus (md : mode) (kd : Z) (h : Z -> list S) (is : list imu) (j : Z) (y : list (option S)) : outcome (list (option S)) :=
  match is with
  | [] => Ok y
  | i :: is' => do y <- (if i_time i =? kd then seg_set md (i_midx i) (map Some (h j)) y else Ok y); predict_imus md kd h is' (j + 1) y
  end.
Fixpoint predict_contacts (md : mode) (kd : Z) (h : Z -> list S) (cs : list contact) (j : Z) (y : list (option S)) : outcome (list (option S)) :=
  match cs with
  | [] => Ok y
  | c :: cs' => do y <- (if c_set c && (c_time c =? kd) && c_real c then seg_set md (c_midx c) (map Some (h j)) y else Ok y);
                predict_contacts md kd h cs' (j + 1) y
  end.
Definition ko_measureDynamics (md : mode) (hI hC : Z -> list S) (hP : list S) (s : obs) : outcome (list (option S)) :=
  let y := repeat None (Z.to_nat (ko_getMeasurementSize s)) in
  do y <- predict_imus md (o_kdata s) hI (o_imus s) 0 y;
  do y <- predict_contacts md (o_kdata s) hC (o_contacts s) 0 y;
  if p_time (o_pose s) =? o_kdata s then seg_set md (p_midx (o_pose s)) (map Some hP) y else Ok y.

(** cpp:1255-1268. *)
Definition ko_resetInputs (s : obs) : obs :=
  set_pose (mkPose (o_kest s) (p_sig (o_pose s)) (p_cov (o_pose s)) (p_midx (o_pose s)))
  (set_contacts (map (fun c => mkContact (c_set c) (c_real c) (o_kest s) (c_sidx c) (c_tidx c) (c_midx c) (c_wrench c) (c_cov c) (c_kine c) (c_pose c) (c_stiff c)) (o_contacts s))
  (set_imus (map (fun i => mkImu (o_kest s) (i_sig i) (i_cov i) (i_kine i) (i_midx i)) (o_imus s)) s)).

(** ** Histories of public calls *)
Inductive ko_op :=
| KAdd (pv : list S) (num : Z) (st : M * M * M * M) | KRemove (n : Z) | KClear
| KIMU (sig : list S) (cov : option (C * C)) (k : Kn) (num : Z)
| KWrench (w : list S) (cov : option C) (k : Kn) (n : Z) | KNoSensor (k : Kn) (n : Z)
| KPose (sig : list S) (cov : option C) | KInput
| KSetKine (kv : list S) (resetForces : bool) | KSetBias (b : list S) (i : Z) | KSetWrench (w : list S) | KSetVector (v : list S)
| KFlagGyro (b : bool) | KFlagUnm (b : bool) | KFlagAcc (b : bool)
| KResetInputs | KUpdate (e : list S -> list (option S) -> list S).
Definition ko_step (md : mode) (o : ko_op) (s : obs) : outcome obs :=
  match o with
  | KAdd pv num st => do (_, s) <- ko_addContact md pv num st s; Ok s
  | KRemove n => ko_removeContact md n s
  | KClear => Ok (ko_clearContacts s)
  | KIMU sig cov k num => do (_, s) <- ko_setIMU md sig cov k num s; Ok s
  | KWrench w cov k n => ko_updateWrench md w cov k n s
  | KNoSensor k n => ko_updateNoSensor md k n s
  | KPose sig cov => Ok (ko_setPose sig cov s)
  | KInput => Ok (ko_input s)
  | KSetKine kv b => ko_setStateKinematics md kv b s
  | KSetBias b i => ko_setGyroBias md b i s
  | KSetWrench w => ko_setStateUnmodeledWrench md w s
  | KSetVector v => Ok (ko_setStateVector v s)
  | KFlagGyro b => Ok (ko_setWithGyroBias b s)
  | KFlagUnm b => Ok (ko_setWithUnmodeledWrench b s)
  | KFlagAcc b => Ok (ko_setWithAccelerationEstimation b s)
  | KResetInputs => Ok (ko_resetInputs s)
  | KUpdate e => ko_update md e s
  end.
Definition ko_run md ops s := orun (ko_step md) ops s.
End Obs.
Arguments imu : clear implicits.
Arguments contact : clear implicits.
Arguments pose : clear implicits.
Arguments obs : clear implicits.
Arguments ko_op : clear implicits.
