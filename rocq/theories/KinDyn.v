(** Model of the dynamics and measurement functions of the kinetics observer: kinetics-observer.cpp:
    384-399, 1342-1376, 1509-1633, over the layout of KinObs.v. *)
From Coq Require Import Reals ZArith List Bool.
From Verif Require Import Base Vec3 Rot Orient Kine KinObs KinSum.
Import ListNotations.
Open Scope R_scope.

(** definitions.hpp:548-551 cst::gravity. *)
Definition gravity : V3 := mkV 0 0 (98 / 10).
(** Eigen's inverse() of a 3x3 matrix: adjugate over determinant, without a test. A zero determinant (in the
    code, a division by zero) is excluded by a hypothesis where the result is used. *)
Definition minv (m : M3) : M3 := mscal (/ mdet m) (madj m).

(** kinetics-observer.hpp:1029-1043: what the user gave about the robot. The items are checked when read
    (IndexedMatrixT, definitions.hxx: [oget]). *)
Record body := mkBody { b_mass : R; b_com : option V3; b_comd : option V3; b_comdd : option V3; b_sigma : option V3; b_sigmad : option V3;
  b_I : option M3; b_Id : option M3; b_addF : V3; b_addT : V3; b_dt : R }.
(** kinetics-observer.hpp:1117-1122 flagsStateKine, flagsPoseKine. *)
Definition fState : flags := mkF true true true true false false.
Definition fPose : flags := mkF true true false false false false.

Section Dyn.
Context {C : Type}.
Notation obs := (obs R Kin M3 C).
Notation contact := (contact R Kin M3 C).
Notation imu := (imu R Kin C).

(** cpp:1347-1358, the loop of addUnmodeledAndContactWrench_. The caches that this may fill in the
    orientation of a contact are not recorded (they do not change its rotation: C30). *)
Fixpoint add_contacts (md : mode) (x : list R) (cs : list contact) (f t : V3) : outcome (V3 * V3) :=
  match cs with
  | [] => Ok (f, t)
  | c :: cs' =>
      if c_set c then
        do _ <- boost_assert md (0 <? c_sidx c)%Z;
        do fc <- rd3 md (c_sidx c + sizeContactKine) x;
        do (lf, o) <- o_rot md (ko (c_kine c)) fc;
        do tc <- rd3 md (c_sidx c + sizeContactKine + sizeForce) x;
        do (lt, _) <- o_rot md o tc;
        do p <- oget md (kp (c_kine c));
        add_contacts md x cs' (vadd f lf) (vadd t (vadd lt (vcross p lf)))
      else add_contacts md x cs' f t
  end.
(** cpp:1342-1359. *)
Definition add_wrench (md : mode) (s : obs) (x : list R) (f t : V3) : outcome (V3 * V3) :=
  do i <- unmodeledWrenchIndex md (o_maxI s); do uf <- rd3 md i x;
  do j <- unmodeledTorqueIndex md (o_maxI s); do ut <- rd3 md j x;
  add_contacts md x (o_contacts s) (vadd f uf) (vadd t ut).

(** cpp:1361-1377 computeAccelerations_: the linear and the angular acceleration, and the orientation of the
    state with its caches. *)
Definition accelerations (md : mode) (b : body) (k : Kin) (F T : V3) : outcome (V3 * V3 * Ori) :=
  do (r, o) <- o_toMat md (ko k);
  do w <- oget md (kw k);
  let rtw := mvec (mtr r) w in
  do com <- oget md (b_com b); do comd <- oget md (b_comd b); do comdd <- oget md (b_comdd b);
  do In <- oget md (b_I b); do Id <- oget md (b_Id b); do sigma <- oget md (b_sigma b); do sigmad <- oget md (b_sigmad b);
  let cc := vscal 2 (vcross rtw (vadd comd (vcross rtw com))) in
  do (al, o) <- o_rot md o (mvec (minv (madd In (mscal (b_mass b) (skew2 com))))
     (vsub (vsub (vsub (vsub T (mvec Id rtw)) sigmad) (vcross rtw (vadd (mvec In rtw) sigma)))
        (vcross com (vsub F (vscal (b_mass b) (vadd comdd cc))))));
  do (la, o) <- o_rot md o (vadd (vsub (vsub (vscal (/ b_mass b) F) comdd) cc) (vcross com (mvec (mtr r) al)));
  Ok (vsub la gravity, al, o).
(** cpp:1519-1528, 1582-1591: the kinematics of the state with its accelerations. *)
Definition state_kine (md : mode) (b : body) (s : obs) (x : list R) : outcome Kin :=
  do (f, t) <- add_wrench md s x (b_addF b) (b_addT b);
  do v <- seg_rd md kineIndex (Z.to_nat sizeStateKine) x;
  do k <- k_fromVec md v fState k_empty;
  do (la, al, o) <- accelerations md b k f t;
  Ok (mkK (kp k) o (kv k) (kw k) (Some la) (Some al)).

(** cpp:1534-1562: the wrench of one contact, from the kinematics [k] of the state after integration. *)
Definition contact_wrench (md : mode) (k : Kin) (c : contact) : outcome (V3 * V3) :=
  let '(Kpt, Kdt, Kpr, Kdr) := c_stiff c in
  do (g, _, l) <- k_mul md k (c_kine c);
  do li <- k_inv md l;
  do (e, g, _) <- k_mul md g li;
  do rc <- o_inv md (ko g);
  do p <- oget md (kp e); do v <- oget md (kv e);
  do (f, rc) <- o_rot md rc (vadd (mvec Kpt p) (mvec Kdt v));
  do (q, _) <- o_toQuat md (ko e); do w <- oget md (kw e);
  do (t, _) <- o_rot md rc (vadd (vscal (1 / 2) (mvec Kpr (qvec q))) (mvec Kdr w));
  Ok (vneg f, vneg t).
Fixpoint predict_wrenches (md : mode) (k : Kin) (cs : list contact) (x : list R) : outcome (list R) :=
  match cs with
  | [] => Ok x
  | c :: cs' =>
      if c_set c then
        do (f, t) <- contact_wrench md k c;
        do _ <- boost_assert md (0 <? c_sidx c)%Z;
        do x <- seg_set md (c_sidx c + sizeContactKine) (l3 f) x;
        do x <- seg_set md (c_sidx c + sizeContactKine + sizeForce) (l3 t) x;
        predict_wrenches md k cs' x
      else predict_wrenches md k cs' x
  end.
(** cpp:1509-1571 stateDynamics. [noise]: the process noise; line 1567 discards what it returns. *)
Definition ko_stateDynamics (md : mode) (b : body) (noise : option (list R -> list R)) (s : obs) (x : list R) : outcome (list R) :=
  do k <- state_kine md b s x;
  do k <- k_integrate md (b_dt b) k;
  do (v, k) <- k_toVec md fState k;
  do x <- seg_set md kineIndex v x;
  do x <- predict_wrenches md k (o_contacts s) x;
  let _ := match noise with Some f => f x | None => x end in Ok x.

(** cpp:1596-1609: the accelerometer and gyrometer signals. *)
Definition imu_predict (md : mode) (k : Kin) (i : imu) : outcome (list R) :=
  do (g, _, _) <- k_mul md k (i_kine i);
  do (r, _) <- o_toMat md (ko g);
  do a <- oget md (ka g); do w <- oget md (kw g);
  Ok (l3 (mvec (mtr r) (vadd a gravity)) ++ l3 (mvec (mtr r) w)).
Fixpoint measure_imus (md : mode) (kd : Z) (k : Kin) (is : list imu) (y : list (option R)) : outcome (list (option R)) :=
  match is with
  | [] => Ok y
  | i :: is' => do y <- (if (i_time i =? kd)%Z then do m <- imu_predict md k i; seg_set md (i_midx i) (map Some m) y else Ok y);
                measure_imus md kd k is' y
  end.
(** cpp:1611-1617. *)
Fixpoint measure_contacts (md : mode) (kd : Z) (x : list R) (cs : list contact) (y : list (option R)) : outcome (list (option R)) :=
  match cs with
  | [] => Ok y
  | c :: cs' =>
      do y <- (if (c_set c && (c_time c =? kd)%Z && c_real c)%bool then
                 do _ <- boost_assert md (0 <? c_sidx c)%Z; do w <- seg_rd md (c_sidx c + sizeContactKine) 6 x;
                 seg_set md (c_midx c) (map Some w) y
               else Ok y);
      measure_contacts md kd x cs' y
  end.
(** cpp:1573-1633 measureDynamics at time [k]; line 1627 discards what the measurement noise returns. The entries
    of y not written are not specified (None). *)
Definition ko_measure (md : mode) (b : body) (noise : option (list (option R) -> list (option R))) (s : obs) (x : list R) (time : Z) : outcome (list (option R)) :=
  let y := repeat None (Z.to_nat (ko_getMeasurementSize s)) in
  do k <- state_kine md b s x;
  do y <- measure_imus md (o_kdata s) k (o_imus s) y;
  do y <- measure_contacts md (o_kdata s) x (o_contacts s) y;
  do y <- (if (p_time (o_pose s) =? time)%Z then do (v, _) <- k_toVec md fPose k; seg_set md (p_midx (o_pose s)) (map Some v) y else Ok y);
  let _ := match noise with Some f => f y | None => y end in Ok y.
End Dyn.
