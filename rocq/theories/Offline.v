(** Model of the offline reconstructions imuAttitudeTrajectoryReconstruction
    (include/state-observation/examples/imu-attitude-trajectory-reconstruction.hxx) and
    imuMultiplicativeAttitudeReconstruction
    (include/state-observation/examples/imu-multiplicative-attitude-reconstruction.hxx).

    The functor (IMUDynamicalSystem, IMUMltpctiveDynamicalSystem) is a pair of arbitrary pure
    functions, the sizes are arbitrary, numbers are exact. *)
From Coq Require Import ZArith List.
From mathcomp Require Import all_ssreflect all_algebra.
From Verif Require Import Base Defs ZDO MxLib Kalman KFilter EKFJac.
Set Implicit Arguments.
Unset Strict Implicit.
Unset Printing Implicit Defensive.
Import GRing.Theory.
Open Scope ring_scope.

Section Offline.
Variable R : rcfType.
Variables (n nt m p : nat).
Notation X := 'cV[R]_n.
Notation Y := 'cV[R]_m.
Notation U := 'cV[R]_p.
Notation kfe := (kfe R n nt m m p).
Notation kf := (zdo X Y U kfe).
(** stateDynamics and measureDynamics of the functor. *)
Variable f : X -> U -> Z -> X.
Variable h : X -> U -> Z -> Y.
(** stateSum, stateDifference and measurementDifference of the arithmetics. *)
Variable ssum : X -> 'cV[R]_nt -> X.
Variable sdiff : X -> X -> 'cV[R]_nt.
Variable mdiff : Y -> Y -> 'cV[R]_m.

(** The filters are built with directInputOutputFeedthrough = false and
    directInputStateProcessFeedthrough = true (imu-attitude-trajectory-reconstruction.hxx:19,
    extended-kalman-filter.hpp:60-64; imu-multiplicative-attitude-reconstruction.hxx:19). *)
Definition off_predict := @ekf_predict R n nt m m p f h false true.
Definition off_step := kf_step off_predict ssum mdiff.

(** How the Jacobians are obtained, from the previous estimate and the filter. *)
Definition jacfun := mode -> X -> kf -> outcome (kf * 'M[R]_nt * 'M[R]_(m, nt)).

(** imu-attitude-trajectory-reconstruction.hxx:60-63: finite differences. *)
Definition jac_fd (dx : 'cV[R]_nt) : jacfun := fun md _ s =>
  do r1 <- ekf_getA f true ssum sdiff md dx s;
  do r2 <- ekf_getC f h false true ssum md dx r1.1;
  Ok (r2.1, r1.2, r2.2).

(** imu-multiplicative-attitude-reconstruction.hxx:58-61: getAMatrix at the previous estimate,
    then updateStatePrediction() (kalman-filter-base.hpp:384-388), getLastPrediction()
    (kalman-filter-base.cpp:391-394) and getCMatrix there. *)
Definition jac_analytic (fA : X -> 'M[R]_nt) (fC : X -> 'M[R]_(m, nt)) : jacfun := fun md xkp s =>
  do k <- z_time md s;
  do x <- im_get md (z_x s);
  do xb <- ekf_statepred f true (z_e s) k x (ia_get md (z_u s) k);
  let s1 := with_e s (k_with_xbar (z_e s) xb) in
  do v <- im_get md (kxbar (z_e s1));
  Ok (s1, fA xkp, fC v).

Section Loop.
Variable jac : jacfun.
(** What is done to the estimate before it is given back to the filter:
    regulateOrientationVector on the orientation
    (imu-attitude-trajectory-reconstruction.hxx:69-70), nothing in the multiplicative case. *)
Variable reg : X -> X.

(** Body of the loop (imu-attitude-trajectory-reconstruction.hxx:48-79,
    imu-multiplicative-attitude-reconstruction.hxx:49-83), [c] iterations left, the next one
    for the time [i]; [xkp] is the previous estimate. *)
Fixpoint off_loop (md : mode) (y : iarr Y) (u : iarr U) (c : nat) (i : Z) (xkp : X) (s : kf)
    (xh : iarr X) : outcome (iarr X) :=
  match c with
  | O => Ok xh
  | c.+1 =>
      do yi <- ia_get md y i;
      do s1 <- z_setMeasurement (@sym_ R m) md yi i s;
      do s2 <- (if Z.ltb i (ia_last y)
                then do ui <- ia_get md u i; z_setInput (@sup R p) md ui i s1
                else Ok s1);
      do r <- jac md xkp s2;
      let s3 := r.1.1 in
      let s4 := with_e s3 (k_set (SetC _ _ _ (Some r.2)) (k_set (SetA _ _ _ _ (Some r.1.2)) (z_e s3))) in
      do sx <- z_getEstimatedState (local_step off_step) md i s4;
      let xk := reg sx.2 in
      do s5 <- z_setState (@sxn R n) md xk i sx.1;
      do xh' <- ia_setValue md xk i xh;
      off_loop md y u c (nxt i) xk s5 xh'
  end.

(** imu-attitude-trajectory-reconstruction.hxx:1-82,
    imu-multiplicative-attitude-reconstruction.hxx:1-86. The loop runs from getFirstIndex() to
    getNextIndex() excluded, the number of measurements. *)
Definition off_rec (md : mode) (y : iarr Y) (u : iarr U) (xh0 : X) (P Q : 'M[R]_nt) (Rm : 'M[R]_m) :
    outcome (iarr X) :=
  let k0 := Z.sub (ia_first y) (Zpos xH) in
  do s1 <- z_setState (@sxn R n) md xh0 k0 (kf_init R n nt m m p);
  let s2 := with_e s1 (k_set (SetP _ _ _ _ (Some P)) (z_e s1)) in
  do u0 <- ia_get md u k0;
  do s3 <- z_setInput (@sup R p) md u0 k0 s2;
  let s4 := with_e s3 (k_set (SetQ _ _ _ _ (Some Q)) (k_set (SetR _ _ _ _ (Some Rm)) (z_e s3))) in
  do xh <- ia_setValue md xh0 k0 ia_empty;
  off_loop md y u (length (ia_v y)) (ia_first y) xh0 s4 xh.

(** imu-attitude-trajectory-reconstruction.hxx:92-97: zeros from the index before the first
    measurement to the last one; [c] values left, the next one at [k]. *)
Fixpoint zero_inputs (md : mode) (c : nat) (k : Z) (u : iarr U) : outcome (iarr U) :=
  match c with
  | O => Ok u
  | c.+1 => do u' <- ia_setValue md 0 k u; zero_inputs md c (nxt k) u'
  end.

(** imu-attitude-trajectory-reconstruction.hxx:84-100,
    imu-multiplicative-attitude-reconstruction.hxx:90-108: no input given. *)
Definition off_rec0 (md : mode) (y : iarr Y) (xh0 : X) (P Q : 'M[R]_nt) (Rm : 'M[R]_m) : outcome (iarr X) :=
  do u <- zero_inputs md (length (ia_v y)).+1 (Z.sub (ia_first y) (Zpos xH)) ia_empty;
  off_rec md y u xh0 P Q Rm.
End Loop.

(** ** Specification: the extended Kalman filter of the textbooks *)
Section Spec.
(** Jacobians as functions: of the state, input and time for A, of the predicted state, input
    and time for C. *)
Variable JA : X -> U -> Z -> 'M[R]_nt.
Variable JC : X -> U -> Z -> 'M[R]_(m, nt).
Variable reg : X -> X.
Variables (Q : 'M[R]_nt) (Rm : 'M[R]_m).

(** One step from the time k: u the input at k, u1 the one at k+1, y the measurement at k+1. *)
Definition ref_step (k : Z) (u u1 : U) (y : Y) (xP : X * 'M[R]_nt) : X * 'M[R]_nt :=
  let: (x, P) := xP in
  let A := JA x u k in
  let xb := f x u k in
  let C := JC xb u1 (nxt k) in
  let Pb := A *m P *m A^T + Q in
  let K := Pb *m C^T *m invmx (C *m Pb *m C^T + Rm) in
  (reg (ssum xb (K *m mdiff y (h xb u1 (nxt k)))), (1%:M - K *m C) *m Pb).

(** The estimate and its covariance at the time k0 + j, from the measurements and inputs as
    functions of the time. *)
Fixpoint ref_traj (yin : Z -> Y) (uin : Z -> U) (k0 : Z) (xP : X * 'M[R]_nt) (j : nat) : X * 'M[R]_nt :=
  match j with
  | O => xP
  | j.+1 => let k := Z.add k0 (Z.of_nat j) in
            ref_step k (uin k) (uin (nxt k)) (yin (nxt k)) (ref_traj yin uin k0 xP j)
  end.
End Spec.

(** Finite differences with the steps dx. *)
Definition fd_A (dx : 'cV[R]_nt) (x : X) (u : U) (k : Z) : 'M[R]_nt :=
  \matrix_(i, j) (sdiff (f (ssum x (\col_l if l == j then dx j 0 else 0)) u k) (f x u k) i 0 / dx j 0).
Definition fd_C (dx : 'cV[R]_nt) (x : X) (u : U) (k : Z) : 'M[R]_(m, nt) :=
  \matrix_(i, j) ((h (ssum x (\col_l if l == j then dx j 0 else 0)) u k - h x u k) i 0 / dx j 0).
End Offline.
