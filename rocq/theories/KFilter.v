(** Model of KalmanFilterBase, LinearKalmanFilter and ExtendedKalmanFilter as zero-delay
    observers (src/kalman-filter-base.cpp, src/linear-kalman-filter.cpp,
    src/extended-kalman-filter.cpp). Sizes are fixed here; size changes are modelled
    separately in KSize.v. *)
From Coq Require Import ZArith List.
From mathcomp Require Import all_ssreflect all_algebra.
From Verif Require Import Base Defs ZDO MxLib Cholesky Kalman.
Set Implicit Arguments.
Unset Strict Implicit.
Unset Printing Implicit Defensive.
Import Order.TTheory GRing.Theory Num.Theory.
Open Scope ring_scope.

(** k + 1 for time indices. *)
Notation nxt k := (Z.add k (Zpos xH)).

Definition is_ok {A} (o : outcome A) : bool := if o is Ok _ then true else false.

(** A matrix that may have been left empty: its size is checked by an assertion in debug
    builds; in release builds products of matrices of the wrong size are undefined. *)
Definition need {A} (md : mode) (o : option A) : outcome A :=
  match o with
  | Some a => Ok a
  | None => match md with Debug => AssertFail | Release => UB end
  end.

Section KF.
Variable R : rcfType.
Variables (n nt m mt p : nat).

(** Members of KalmanFilterBase (kalman-filter-base.hpp:311-374) and of LinearKalmanFilter
    (b_, d_, linear-kalman-filter.hpp:119-126; unused by the extended filter). [None] is an
    empty (0x0) matrix. Cached predictions xbar_ and ybar_ are IndexedMatrix. *)
Record kfe := mkK {
  kA : option 'M[R]_nt;
  kC : option 'M[R]_(mt, nt);
  kQ : option 'M[R]_nt;
  kR : option 'M[R]_mt;
  kP : option 'M[R]_nt;
  kB : option 'M[R]_(n, p);
  kD : option 'M[R]_(m, p);
  kxbar : imat 'cV[R]_n;
  kybar : imat 'cV[R]_m;
  kinno : option 'cV[R]_nt;
  kgain : option 'M[R]_(nt, mt) }.

(** kalman-filter-base.cpp:15-25: all matrices empty, predictions unset. *)
Definition k_init : kfe :=
  mkK None None None None None None None im_empty im_empty None None.

(** Setters and their clearing counterparts (kalman-filter-base.cpp:27-106,
    linear-kalman-filter.cpp:6-27). The size assertions hold by typing. *)
Inductive kset :=
| SetA of option 'M[R]_nt
| SetC of option 'M[R]_(mt, nt)
| SetQ of option 'M[R]_nt
| SetR of option 'M[R]_mt
| SetP of option 'M[R]_nt
| SetB of option 'M[R]_(n, p)
| SetD of option 'M[R]_(m, p).

Definition k_set (s : kset) (e : kfe) : kfe :=
  let: mkK a c q r pr b d xb yb i g := e in
  match s with
  | SetA a' => mkK a' c q r pr b d xb yb i g
  | SetC c' => mkK a c' q r pr b d xb yb i g
  | SetQ q' => mkK a c q' r pr b d xb yb i g
  | SetR r' => mkK a c q r' pr b d xb yb i g
  | SetP p' => mkK a c q r p' b d xb yb i g
  | SetB b' => mkK a c q r pr b' d xb yb i g
  | SetD d' => mkK a c q r pr b d' xb yb i g
  end.

Definition k_with_pred (e : kfe) (xy : imat 'cV[R]_n * imat 'cV[R]_m) : kfe :=
  let: mkK a c q r pr b d _ _ i g := e in mkK a c q r pr b d xy.1 xy.2 i g.
Definition k_with_res (e : kfe) (P : 'M[R]_nt) (i : 'cV[R]_nt) (g : 'M[R]_(nt, mt)) : kfe :=
  let: mkK a c q r _ b d xb yb _ _ := e in mkK a c q r (Some P) b d xb yb (Some i) (Some g).

Notation X := 'cV[R]_n.
Notation Y := 'cV[R]_m.
Notation U := 'cV[R]_p.

(** The virtual prediction_() and predictSensor_(): from the state x at time k and the inputs
    read at k and k+1, the new contents of xbar_ and ybar_
    (updateStateAndMeasurementPrediction, kalman-filter-base.hpp:390-395). *)
Definition predfun := mode -> kfe -> Z -> X -> outcome U -> outcome U ->
  outcome (imat X * imat Y).

Section Base.
Variable predict : predfun.
(** StateVectorArithmetics: stateSum and measurementDifference
    (state-vector-arithmetics.hpp:29-35), virtual. *)
Variable ssum : X -> 'cV[R]_nt -> X.
Variable mdiff : Y -> Y -> 'cV[R]_mt.

(** kalman-filter-base.cpp:108-171 oneStepEstimation_. UB stands for a division by zero in
    the triangular solves (see chol_inverse). *)
Definition kf_step : @stepfun X Y U kfe := fun md e k x oy u0 u1 =>
  do _ <- boost_assert md (is_ok oy);
  do A <- need md (kA e); do C <- need md (kC e); do Q <- need md (kQ e);
  do Rm <- need md (kR e); do P <- need md (kP e);
  do xy <- predict md e k x u0 u1;
  do xb <- im_get md xy.1;
  do yb <- im_get md xy.2;
  do y <- oy;
  match k_cov A C Q Rm P with
  | None => UB
  | Some (K, P') =>
      let inno := K *m mdiff y yb in
      Ok (ssum xb inno, k_with_res (k_with_pred e xy) P' inno K)
  end.

(** rows() of vectors: fixed by typing. *)
Definition sxn (_ : X) : Z := Z.of_nat n.
Definition sym_ (_ : Y) : Z := Z.of_nat m.
Definition sup (_ : U) : Z := Z.of_nat p.

Notation kf := (zdo X Y U kfe).

(** Public calls on a filter: observer calls, matrix setters, and
    updateStateAndMeasurementPrediction(). *)
Inductive kop :=
| KZ of z_op X Y U
| KS of kset
| KPredict.

(** kalman-filter-base.hpp:390-395. *)
Definition k_predict (md : mode) (s : kf) : outcome kf :=
  do k <- z_time md s;
  do x <- im_get md (z_x s);
  do xy <- predict md (z_e s) k x (ia_get md (z_u s) k) (ia_get md (z_u s) (nxt k));
  Ok (with_e s (k_with_pred (z_e s) xy)).

(** Calls that change a size: outside this fixed-size model unless the size is unchanged (the
    call then does nothing). *)
Definition resizes (o : z_op X Y U) : bool :=
  match o with
  | ZStateSize k => negb (Z.eqb k (Z.of_nat n))
  | ZMeasSize k => negb (Z.eqb k (Z.of_nat m))
  | ZInputSize k => negb (Z.eqb k (Z.of_nat p))
  | _ => false
  end.

(** Dispatch. clearStates() and reset() also clear the covariance
    (kalman-filter-base.cpp:91-95, 178-183). *)
Definition k_step (md : mode) (o : kop) (s : kf) : outcome kf :=
  match o with
  | KZ o =>
      if resizes o then UB else
      do s' <- z_step sxn sym_ sup (local_step kf_step) md o s;
      match o with
      | ZClearStates | ZReset => Ok (with_e s' (k_set (SetP None) (z_e s')))
      | _ => Ok s'
      end
  | KS ks => Ok (with_e s (k_set ks (z_e s)))
  | KPredict => k_predict md s
  end.

Definition k_run (md : mode) (ops : list kop) (s : kf) : outcome kf := orun (k_step md) ops s.

(** kalman-filter-base.cpp:17-25. *)
Definition kf_init : kf := z_init (Z.of_nat n) (Z.of_nat m) (Z.of_nat p) k_init.
End Base.

(** ** Extended Kalman filter *)
Section EKF.
(** DynamicalSystemFunctorBase: stateDynamics(x,u,k) and measureDynamics(x,u,k), taken as pure
    functions. *)
Variable f : X -> U -> Z -> X.
Variable h : X -> U -> Z -> Y.
(** directInputOutputFeedthrough_ and directInputStateProcessFeedthrough_. *)
Variables (ff_out ff_state : bool).

(** extended-kalman-filter.cpp:118-143 simulateSensor_ at time k+1. With p = 0 opt.u_ is the
    empty vector, i.e. 0. *)
Definition ekf_sensor (md : mode) (x : X) (k1 : Z) (u1 : outcome U) : outcome Y :=
  if (0 < p)%N then
    do _ <- boost_assert md (~~ ff_out || is_ok u1);
    Ok (h x (match u1 with Ok u => u | _ => 0 end) k1)
  else Ok (h x 0 k1).

(** extended-kalman-filter.cpp:86-105 prediction_ and 107-116 predictSensor_: a cached value
    is reused when its time matches. *)
Definition ekf_predict : predfun := fun md e k x u0 u1 =>
  do xb <- (if im_set (kxbar e) && Z.eqb (im_k (kxbar e)) (nxt k) then Ok (kxbar e)
            else do u <- (if (0 < p)%N && ff_state then u0 else Ok 0);
                 Ok (im_put (f x u k) (nxt k)));
  do yb <- (if im_set (kybar e) && Z.eqb (im_k (kybar e)) (nxt k) then Ok (kybar e)
            else do xv <- im_get md xb;
                 do y <- ekf_sensor md xv (nxt k) u1;
                 Ok (im_put y (nxt k)));
  Ok (xb, yb).
End EKF.
End KF.

(** ** Linear Kalman filter: tangent sizes equal the sizes *)
Section LKF.
Variable R : rcfType.
Variables (n m p : nat).
Notation kfe := (kfe R n n m m p).

(** linear-kalman-filter.cpp:29-50 prediction_, 52-71 simulateSensor_ and
    kalman-filter-base.cpp:406-409 predictSensor_. b_ is compared with a zero matrix only
    when p > 0. *)
Definition lkf_predict : @predfun R n n m m p := fun md e k x u0 u1 =>
  do A <- need md (kA e);
  do _ <- boost_assert md (isSome (kB e));
  do C <- need md (kC e);
  do xb <- (if (0 < p)%N then
              do B <- need md (kB e);
              if B == 0 then Ok (A *m x) else do u <- u0; Ok (A *m x + B *m u)
            else Ok (A *m x));
  do yb <- (match kD e with
            | Some D => if (0 < p)%N && (D != 0) then do u <- u1; Ok (C *m xb + D *m u)
                        else Ok (C *m xb)
            | None => Ok (C *m xb)
            end);
  Ok (im_put xb (nxt k), im_put yb (nxt k)).

(** StateVectorArithmetics defaults (src/state-vector-arithmetics.cpp): plain sum and
    difference. *)
Definition vsum (x dx : 'cV[R]_n) : 'cV[R]_n := x + dx.
Definition vdiff (y1 y2 : 'cV[R]_m) : 'cV[R]_m := y1 - y2.

Definition lkf_step := kf_step lkf_predict vsum vdiff.
Definition lkf_run := k_run lkf_predict vsum vdiff.
Definition lkf_init : zdo 'cV[R]_n 'cV[R]_m 'cV[R]_p kfe := kf_init R n n m m p.
End LKF.
