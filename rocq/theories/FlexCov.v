(** The covariance matrices kept by the flexibility estimators
    (src/model-base-ekf-flex-estimator-imu.cpp, src/fixed-contact-ekf-flex-estimator-imu.cpp)
    and those they give to their Kalman filter.

    Numbers are rationals (doubles without infinities and NaN, products with zero being zero);
    an entry is [None] when the code never wrote it (uninitialised memory). Matrices are
    square. *)
From Coq Require Import QArith List Bool Arith Lia.
From Verif Require Import Base Sensors.
Import ListNotations.
Open Scope nat_scope.

(** A square dynamic matrix: number of rows, entries (Eigen::MatrixXd). *)
Record mx := mkMx { mr : nat; me : nat -> nat -> option Q }.

(** Matrix::Identity(n, n) * c. *)
Definition m_scal (n : nat) (c : Q) : mx := mkMx n (fun i j => Some (if i =? j then c else 0%Q)).
(** Eigen's conservativeResize(n, n): kept entries, new ones uninitialised. *)
Definition m_resize (n : nat) (M : mx) : mx :=
  mkMx n (fun i j => if (i <? mr M) && (j <? mr M) then me M i j else None).
(** i in lo, ..., lo+len-1. *)
Definition within (lo len i : nat) : bool := (lo <=? i) && (i <? lo + len).
(** M.block(r, c, h, w) = f, with Eigen's range assertion. *)
Definition m_block (md : mode) (r c h w : nat) (f : nat -> nat -> option Q) (M : mx) : outcome mx :=
  do _ <- eigen_assert md ((r + h <=? mr M) && (c + w <=? mr M));
  Ok (mkMx (mr M) (fun i j => if within r h i && within c w j then f (i - r) (j - c) else me M i j)).
(** M.block(r, r, 6, 6) = N for a dynamic N: Eigen checks that N is 6x6. *)
Definition m_blockm (md : mode) (r : nat) (N : mx) (M : mx) : outcome mx :=
  do _ <- eigen_assert md (mr N =? 6);
  m_block md r r 6 6 (me N) M.
(** setZero() and multiples of the identity as block contents. *)
Definition f_zero : nat -> nat -> option Q := fun _ _ => Some 0%Q.
Definition f_scal (c : Q) : nat -> nat -> option Q := fun i j => Some (if i =? j then c else 0%Q).
(** M.diagonal().segment<6>(r).setConstant(d). *)
Definition m_diag6 (md : mode) (r : nat) (d : Q) (M : mx) : outcome mx :=
  do _ <- eigen_assert md (r + 6 <=? mr M);
  Ok (mkMx (mr M) (fun i j => if (i =? j) && within r 6 i then Some d else me M i j)).

(** Constants of the code: 1e-2, 1e-4, 1e-6, 1e-8, 2.5e-10, 1e-10. *)
Definition q2 : Q := (1 # 100)%Q.
Definition q4 : Q := (1 # 10000)%Q.
Definition q6 : Q := (1 # 1000000)%Q.
Definition q8 : Q := (1 # 100000000)%Q.
Definition q25 : Q := (1 # 4000000000)%Q.
Definition q10 : Q := (1 # 10000000000)%Q.

(** ** ModelBaseEKFFlexEstimatorIMU *)
(** Members (model-base-ekf-flex-estimator-imu.hpp:240-281): the number of contacts of the
    functor; useFTSensors_, withAbsolutePos_, withComBias_, withUnmodeledForces_ (the functor
    holds equal copies); R_; forceVariance_; absPosVariance_; Q_; P_; and of the filter: measure
    size, R, Q and covariance. [None] is an empty R. *)
Record fcov := mkF {
  v_nc : nat; v_ft : bool; v_abs : bool; v_cb : bool; v_uf : bool;
  v_R : mx; v_fv : mx; v_av : Q; v_Q : mx; v_P : mx;
  v_km : nat; v_kR : option mx; v_kQ : mx; v_kP : mx }.

(** imu-elastic-local-frame-dynamical-system.cpp:1304-1319. *)
Definition v_msize (s : fcov) : nat :=
  6 + (if v_ft s then v_nc s * 6 else 0) + (if v_abs s then 6 else 0).

(** Record updates (no code). *)
Definition w_nc s nc := mkF nc (v_ft s) (v_abs s) (v_cb s) (v_uf s) (v_R s) (v_fv s) (v_av s) (v_Q s) (v_P s) (v_km s) (v_kR s) (v_kQ s) (v_kP s).
Definition w_ft s b := mkF (v_nc s) b (v_abs s) (v_cb s) (v_uf s) (v_R s) (v_fv s) (v_av s) (v_Q s) (v_P s) (v_km s) (v_kR s) (v_kQ s) (v_kP s).
Definition w_abs s b := mkF (v_nc s) (v_ft s) b (v_cb s) (v_uf s) (v_R s) (v_fv s) (v_av s) (v_Q s) (v_P s) (v_km s) (v_kR s) (v_kQ s) (v_kP s).
Definition w_cb s b := mkF (v_nc s) (v_ft s) (v_abs s) b (v_uf s) (v_R s) (v_fv s) (v_av s) (v_Q s) (v_P s) (v_km s) (v_kR s) (v_kQ s) (v_kP s).
Definition w_uf s b := mkF (v_nc s) (v_ft s) (v_abs s) (v_cb s) b (v_R s) (v_fv s) (v_av s) (v_Q s) (v_P s) (v_km s) (v_kR s) (v_kQ s) (v_kP s).
Definition w_R s R := mkF (v_nc s) (v_ft s) (v_abs s) (v_cb s) (v_uf s) R (v_fv s) (v_av s) (v_Q s) (v_P s) (v_km s) (v_kR s) (v_kQ s) (v_kP s).
Definition w_fv s M := mkF (v_nc s) (v_ft s) (v_abs s) (v_cb s) (v_uf s) (v_R s) M (v_av s) (v_Q s) (v_P s) (v_km s) (v_kR s) (v_kQ s) (v_kP s).
Definition w_av s q := mkF (v_nc s) (v_ft s) (v_abs s) (v_cb s) (v_uf s) (v_R s) (v_fv s) q (v_Q s) (v_P s) (v_km s) (v_kR s) (v_kQ s) (v_kP s).
Definition w_Q s M := mkF (v_nc s) (v_ft s) (v_abs s) (v_cb s) (v_uf s) (v_R s) (v_fv s) (v_av s) M (v_P s) (v_km s) (v_kR s) (v_kQ s) (v_kP s).
Definition w_P s M := mkF (v_nc s) (v_ft s) (v_abs s) (v_cb s) (v_uf s) (v_R s) (v_fv s) (v_av s) (v_Q s) M (v_km s) (v_kR s) (v_kQ s) (v_kP s).
Definition w_km s m r := mkF (v_nc s) (v_ft s) (v_abs s) (v_cb s) (v_uf s) (v_R s) (v_fv s) (v_av s) (v_Q s) (v_P s) m r (v_kQ s) (v_kP s).
Definition w_kQ s M := mkF (v_nc s) (v_ft s) (v_abs s) (v_cb s) (v_uf s) (v_R s) (v_fv s) (v_av s) (v_Q s) (v_P s) (v_km s) (v_kR s) M (v_kP s).
Definition w_kP s M := mkF (v_nc s) (v_ft s) (v_abs s) (v_cb s) (v_uf s) (v_R s) (v_fv s) (v_av s) (v_Q s) (v_P s) (v_km s) (v_kR s) (v_kQ s) M.

(** kalman-filter-base.cpp:370-379 setMeasureSize: a new size empties R. *)
Definition k_setMeasureSize (m : nat) (s : fcov) : fcov :=
  if m =? v_km s then s else w_km s m None.
(** kalman-filter-base.cpp:59-63 setR, 75-79 setQ, 85-89 setStateCovariance. *)
Definition k_setR (md : mode) (M : mx) (s : fcov) : outcome fcov :=
  do _ <- boost_assert md (mr M =? v_km s); Ok (w_km s (v_km s) (Some M)).
Definition k_setQ (md : mode) (M : mx) (s : fcov) : outcome fcov :=
  do _ <- boost_assert md (mr M =? 35); Ok (w_kQ s M).
Definition k_setP (md : mode) (M : mx) (s : fcov) : outcome fcov :=
  do _ <- boost_assert md (mr M =? 35); Ok (w_kP s M).

(** model-base-ekf-flex-estimator-imu.cpp:280-284: the loop over the contacts; n contacts left,
    the next block at cur. *)
Fixpoint fill_force (md : mode) (fv : mx) (n cur : nat) (M : mx) : outcome (nat * mx) :=
  match n with
  | O => Ok (cur, M)
  | S n => do M' <- m_blockm md cur fv M; fill_force md fv n (cur + 6) M'
  end.

(** model-base-ekf-flex-estimator-imu.cpp:263-302. *)
Definition v_update (md : mode) (s : fcov) : outcome fcov :=
  do R <- (if mr (v_R s) =? v_msize s then Ok (v_R s)
           else
             let real := mr (v_R s) in
             let M := m_resize (v_msize s) (v_R s) in
             do cm <- (if v_ft s && (real <? 6 + v_nc s * 6) then
                         do M1 <- m_block md 6 0 (v_nc s * 6) 6 f_zero M;
                         do M2 <- m_block md 0 6 6 (v_nc s * 6) f_zero M1;
                         fill_force md (v_fv s) (v_nc s) 6 M2
                       else Ok (6, M));
             let '(cur, M) := cm in
             if v_abs s && (real <? cur + 6) then
               do M1 <- m_block md cur 0 6 cur f_zero M;
               do M2 <- m_block md 0 cur cur 6 f_zero M1;
               m_block md cur cur 6 6 (f_scal (v_av s)) M2
             else Ok M);
  k_setR md R (w_R s R).

(** model-base-ekf-flex-estimator-imu.cpp:64-79 getDefaultQ: the identity except for the first
    24 diagonal entries. *)
Definition default_Q : mx := mkMx 35 (fun i j => Some
  (if i =? j then if i <? 12 then q8 else if i <? 24 then q4 else 1%Q else 0%Q)).
(** model-base-ekf-flex-estimator-imu.cpp:81-89 getDefaultRIMU: a fixed-size matrix of which
    only two 3x3 blocks are written. *)
Definition default_RIMU : nat -> nat -> option Q := fun i j =>
  if Bool.eqb (i <? 3) (j <? 3) then Some (if i =? j then q6 else 0%Q) else None.

(** model-base-ekf-flex-estimator-imu.cpp:125-129. *)
Definition v_resetP (md : mode) (s : fcov) : outcome fcov :=
  k_setP md (v_Q s) (w_P s (v_Q s)).

(** model-base-ekf-flex-estimator-imu.cpp:91-123. *)
Definition v_reset (md : mode) (s : fcov) : outcome fcov :=
  do R <- m_block md 0 0 6 6 default_RIMU (m_scal (v_msize s) 1%Q);
  do s1 <- v_update md (w_R s R);
  do Q1 <- m_block md 24 24 6 6 (if v_uf s then f_scal q2 else f_zero) default_Q;
  do Q2 <- m_block md 30 30 2 2 (if v_cb s then f_scal q25 else f_zero) Q1;
  do Q3 <- m_block md 32 32 3 3 (if v_abs s then f_scal q8 else f_zero) Q2;
  do s2 <- k_setQ md Q3 (w_Q s1 Q3);
  v_resetP md s2.

(** The empty matrix of a default-constructed member. *)
Definition m_empty : mx := mkMx 0 (fun _ _ => None).
(** model-base-ekf-flex-estimator-imu.cpp:13-58: member initialisers, then
    resetCovarianceMatrices() and setStateCovariance(Q_). The sizes given to the filter are
    those of the functor. *)
Definition v_blank : fcov :=
  mkF 0 false false false false m_empty (m_scal 6 q4) q4 m_empty m_empty 6 None m_empty m_empty.
Definition v_new (md : mode) : outcome fcov :=
  do s <- v_reset md v_blank; k_setP md (v_Q s) s.

(** Public calls. [VNan]: the part of getFlexibilityVector() that handles an estimate with NaN
    (cpp:395-407), which resets everything. [VEstimate P]: the same function otherwise; the
    filter replaces its covariance by some matrix. [VSwitchedOff]: the same function when the
    estimator is off (cpp:421-431). *)
Inductive vop :=
| VContacts (n : nat)
| VForces (b : bool)
| VAbs (b : bool)
| VUnmodeled (b : bool)
| VComBias (b : bool)
| VNoiseR (M : mx)
| VNoiseQ (M : mx)
| VForceVar (d : Q)
| VForceVar3 (f : nat -> nat -> option Q)
| VAbsVar (d : Q)
| VUnmodeledVar (d : Q)
| VUnmodeledProc (d : Q)
| VGuess
| VResetAll
| VResetP
| VEstimate (P : nat -> nat -> option Q)
| VNan
| VSwitchedOff.

(** model-base-ekf-flex-estimator-imu.cpp:543-553 setWithUnmodeledForces. *)
Definition v_setUnmodeled (md : mode) (b : bool) (s : fcov) : outcome fcov :=
  if Bool.eqb (v_uf s) b then Ok s
  else v_update md (w_uf (k_setMeasureSize (v_msize s) s) b).

Definition v_step (md : mode) (o : vop) (s : fcov) : outcome fcov :=
  match o with
  (* cpp:131-143 setContactsNumber *)
  | VContacts n =>
      let s1 := w_nc s n in
      if v_ft s1 then v_update md (k_setMeasureSize (v_msize s1) s1) else Ok s1
  (* cpp:520-530 setWithForcesMeasurements *)
  | VForces b =>
      if Bool.eqb (v_ft s) b then Ok s
      else let s1 := w_ft s b in v_update md (k_setMeasureSize (v_msize s1) s1)
  (* cpp:532-541 setWithAbsolutePos *)
  | VAbs b =>
      if Bool.eqb (v_abs s) b then Ok s
      else let s1 := w_abs s b in v_update md (k_setMeasureSize (v_msize s1) s1)
  | VUnmodeled b => v_setUnmodeled md b s
  (* cpp:560-567 setWithComBias *)
  | VComBias b => Ok (if Bool.eqb (v_cb s) b then s else w_cb s b)
  (* cpp:196-207 setMeasurementNoiseCovariance; the argument is square *)
  | VNoiseR M =>
      do _ <- boost_assert md ((0 <? mr M) && (mr M mod 6 =? 0));
      v_update md (w_R s M)
  (* cpp:209-213 setProcessNoiseCovariance *)
  | VNoiseQ M => k_setQ md M (w_Q s M)
  (* cpp:591-595 setForceVariance(double) *)
  | VForceVar d => v_update md (w_fv s (m_scal 6 d))
  (* cpp:597-601 setForceVariance(Matrix3) *)
  | VForceVar3 f => v_update md (w_fv s (mkMx 3 f))
  (* cpp:603-607 setAbsolutePosVariance *)
  | VAbsVar d => v_update md (w_av s d)
  (* cpp:569-579 setUnmodeledForceVariance *)
  | VUnmodeledVar d =>
      do s1 <- (if Qle_bool d 0 then Ok s else v_setUnmodeled md true s);
      do P <- m_diag6 md 24 d (v_kP s1);
      k_setP md P (w_P s1 P)
  (* cpp:581-589 setUnmodeledForceProcessVariance *)
  | VUnmodeledProc d =>
      do Q1 <- m_diag6 md 24 d (v_Q s);
      do s1 <- k_setQ md Q1 (w_Q s Q1);
      if Qle_bool d 0 then Ok s1 else v_setUnmodeled md true s1
  (* cpp:159-188 setFlexibilityGuess with a pose: the filter is given Q_ again *)
  | VGuess => k_setQ md (v_Q s) s
  | VResetAll => v_reset md s
  | VResetP => v_resetP md s
  | VEstimate P => Ok (w_kP s (mkMx 35 P))
  (* cpp:399-407 *)
  | VNan => do s1 <- v_reset md s; v_resetP md s1
  | VSwitchedOff => v_resetP md s
  end.

Definition v_run (md : mode) (ops : list vop) (s : fcov) : outcome fcov := orun (v_step md) ops s.
(** A history from construction. *)
Definition v_hist (md : mode) (ops : list vop) : outcome fcov := do s <- v_new md; v_run md ops s.

(** ** FixedContactEKFFlexEstimatorIMU *)
(** Members (fixed-contact-ekf-flex-estimator-imu.hpp:96-113): number of contacts of the
    functor, R_, Q_, virtualMeasurementCovariance_; of the filter: measure size, R, Q,
    covariance; dt_ and the sampling period of the functor. *)
Record xcov := mkXc {
  x_nc : nat; x_R : mx; x_Q : mx; x_vc : Q;
  x_km : nat; x_kR : option mx; x_kQ : mx; x_kP : mx }.

(** fixed-contact-ekf-flex-estimator-imu.cpp:166-177; getRmatrixIdentity has the measure size
    of the filter (kalman-filter-base.cpp). The virtual measurements are the rows from 6 on. *)
Definition x_update (md : mode) (s : xcov) : outcome xcov :=
  let I := m_scal (x_km s) 1%Q in
  do _ <- eigen_assert md (mr (x_R s) =? 6);
  do R1 <- m_block md 0 0 6 6 (me (x_R s)) I;
  let R2 := mkMx (mr R1) (fun i j => if (i =? j) && (6 <=? i) then Some (x_vc s) else me R1 i j) in
  do _ <- boost_assert md (mr R2 =? x_km s);
  Ok (mkXc (x_nc s) (x_R s) (x_Q s) (x_vc s) (x_km s) (Some R2) (x_kQ s) (x_kP s)).

(** fixed-contact-ekf-flex-estimator-imu.cpp:48-75. State: pos, ori, linVel, angVel, linAcc,
    angAcc of three entries each. *)
Definition x_defQ : mx := mkMx 18 (fun i j => Some
  (if i =? j then if i <? 6 then q8 else if i <? 12 then q4 else q2 else 0%Q)).
Definition x_reset (md : mode) (s : xcov) : outcome xcov :=
  let R := m_scal 6 q6 in
  do s1 <- x_update md (mkXc (x_nc s) R (x_Q s) (x_vc s) (x_km s) (x_kR s) (x_kQ s) (x_kP s));
  Ok (mkXc (x_nc s1) (x_R s1) x_defQ (x_vc s1) (x_km s1) (x_kR s1) x_defQ (m_scal 18 q2)).

(** Public calls of the fixed-contact estimator; [XEstimate] as above, [XNan] the reset by the
    base class (ekf-flexibility-estimator-base.cpp:121-129). *)
Inductive xop :=
| XContacts (n : nat)
| XVirtual (c : Q)
| XNoiseR (M : mx)
| XNoiseQ (M : mx)
| XGuess
| XResetAll
| XEstimate (P : nat -> nat -> option Q)
| XNan.

Definition x_step (md : mode) (o : xop) (s : xcov) : outcome xcov :=
  match o with
  (* cpp:77-82 setContactsNumber; imu-fixed-contact-dynamical-system.cpp:177-181 *)
  | XContacts n =>
      let m := 6 + 3 * n in
      let r := if m =? x_km s then x_kR s else None in
      x_update md (mkXc n (x_R s) (x_Q s) (x_vc s) m r (x_kQ s) (x_kP s))
  (* cpp:98-102 setVirtualMeasurementsCovariance *)
  | XVirtual c => x_update md (mkXc (x_nc s) (x_R s) (x_Q s) c (x_km s) (x_kR s) (x_kQ s) (x_kP s))
  (* cpp:141-149 setMeasurementNoiseCovariance; the argument is square *)
  | XNoiseR M =>
      do _ <- boost_assert md (mr M =? 6);
      x_update md (mkXc (x_nc s) M (x_Q s) (x_vc s) (x_km s) (x_kR s) (x_kQ s) (x_kP s))
  (* cpp:151-155 setProcessNoiseCovariance *)
  | XNoiseQ M =>
      do _ <- boost_assert md (mr M =? 18);
      Ok (mkXc (x_nc s) (x_R s) M (x_vc s) (x_km s) (x_kR s) M (x_kP s))
  (* cpp:109-139 setFlexibilityGuess with a pose *)
  | XGuess =>
      do _ <- boost_assert md (mr (x_Q s) =? 18);
      Ok (mkXc (x_nc s) (x_R s) (x_Q s) (x_vc s) (x_km s) (x_kR s) (x_Q s) (x_kP s))
  | XResetAll => x_reset md s
  | XEstimate P => Ok (mkXc (x_nc s) (x_R s) (x_Q s) (x_vc s) (x_km s) (x_kR s) (x_kQ s) (mkMx 18 P))
  | XNan => x_reset md s
  end.

(** fixed-contact-ekf-flex-estimator-imu.cpp:12-41. The covariance set at the end of the
    constructor is Q_. *)
Definition x_new (md : mode) : outcome xcov :=
  do s <- x_reset md (mkXc 0 m_empty m_empty q10 6 None m_empty m_empty);
  Ok (mkXc (x_nc s) (x_R s) (x_Q s) (x_vc s) (x_km s) (x_kR s) (x_kQ s) (x_Q s)).
Definition x_hist (md : mode) (ops : list xop) : outcome xcov :=
  do s <- x_new md; orun (x_step md) ops s.
