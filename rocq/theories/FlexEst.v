(** Model of the flexibility estimators: src/ekf-flexibility-estimator-base.cpp,
    src/model-base-ekf-flex-estimator-imu.cpp and src/fixed-contact-ekf-flex-estimator-imu.cpp:
    the protocol of measurements, inputs, guesses and estimations on top of the extended Kalman
    filter (model of ZeroDelayObserver in ZDO.v), the detection of NaN, the regulation of the
    orientation and the saturation of the forces.

    The numerical content of the filter (prediction, gain, update, Jacobians, covariances) is a
    parameter: the theorems hold for every filter. *)
From Coq Require Import Reals ZArith List Lia Bool.
From Verif Require Import Base Defs ZDO Vec3 Rot Sensors.
Import ListNotations.
Open Scope Z_scope.

(** A component of an Eigen vector of double: a real number (no rounding), an infinity (the
    argument tells the negative one) or not a number. *)
Inductive fl := Fin (r : R) | Inf (neg : bool) | Nan.
(** x.hasNaN() (model-base-ekf-flex-estimator-imu.cpp:375) and !(x == x)
    (ekf-flexibility-estimator-base.cpp:116): some component is not equal to itself. *)
Definition is_nan (f : fl) : bool := match f with Nan => true | _ => false end.
Definition has_nan (x : list fl) : bool := existsb is_nan x.
(** std::min(a, l) is (l < a) ? l : a; std::max(a, l) is (a < l) ? l : a
    (model-base-ekf-flex-estimator-imu.cpp:390-393). *)
Definition f_min (a : fl) (l : R) : fl :=
  match a with Fin r => if Rlt_dec l r then Fin l else a | Inf false => Fin l | _ => a end.
Definition f_max (a : fl) (l : R) : fl :=
  match a with Fin r => if Rlt_dec r l then Fin l else a | Inf true => Fin l | _ => a end.

(** rigid-body-kinematics.hxx:107-120 regulateOrientationVector on machine numbers: a NaN makes the
    test of line 110 false; an infinity makes it true and the conversion to unsigned of line 113
    undefined, as it is for a finite ceiling of 2^32 and more. The finite case is [regulate]. *)
Definition f_regulate (a b c : fl) : outcome (list fl) :=
  match a, b, c with
  | Fin x, Fin y, Fin z =>
      let v := mkV x y z in
      if Rlt_dec ((3 / 2 * PI) ^ 2) (vsq v) then
        if Zceil ((sqrt (vsq v) - PI) / (2 * PI)) <? 4294967296
        then Ok [Fin (vx (regulate v)); Fin (vy (regulate v)); Fin (vz (regulate v))]
        else UB
      else Ok [a; b; c]
  | _, _, _ => if has_nan [a; b; c] then Ok [a; b; c] else UB
  end.

(** x[i] on a vector of the state size (simplified: total; the vectors of the estimators have
    the size of the state, an invariant of the theorems). *)
Definition ent (x : list fl) (i : nat) : fl := nth i x Nan.
(** model-base-ekf-flex-estimator-imu.cpp:384, fixed-contact-ekf-flex-estimator-imu.cpp:212
    lastX_.segment(ori, 3) = regulateOrientationVector(lastX_.segment(ori, 3)), ori = 3
    (imu-elastic-local-frame-dynamical-system.hpp:61, rigid-body-kinematics.hpp indexes). *)
Definition regulate_at (x : list fl) : outcome (list fl) :=
  do r <- f_regulate (ent x 3) (ent x 4) (ent x 5);
  Ok (list_set 5 (ent r 2) (list_set 4 (ent r 1) (list_set 3 (ent r 0) x))).

(** model-base-ekf-flex-estimator-imu.cpp:387-394 body of the loop, fc = 12
    (imu-elastic-local-frame-dynamical-system.hpp:64): the four statements touch two components. *)
Definition sat1 (i : nat) (lf lt : R) (x : list fl) : list fl :=
  let x1 := list_set (18 + i) (f_min (ent x (18 + i)) lt) x in
  let x2 := list_set (12 + i) (f_min (ent x1 (12 + i)) lf) x1 in
  let x3 := list_set (18 + i) (f_max (ent x2 (18 + i)) (- lt)) x2 in
  list_set (12 + i) (f_max (ent x3 (12 + i)) (- lf)) x3.
(** model-base-ekf-flex-estimator-imu.cpp:387-394 *)
Definition saturate (lf lt : V3) (x : list fl) : list fl :=
  sat1 2 (vz lf) (vz lt) (sat1 1 (vy lf) (vy lt) (sat1 0 (vx lf) (vx lt) x)).

(** The argument of setFlexibilityGuess, a Matrix: a column or another shape. *)
Inductive guess := GCol (v : list fl) | GMat (rows cols : Z).

Section Est.
Context {Y U E : Type}.
Notation X := (list fl).
(** Sizes of the measurement and input vectors (observer-base.cpp:48-51, 68-71). *)
Variable sy : Y -> Z.
Variable su : U -> Z.
(** The filter: one step (kalman-filter-base.cpp:102-196), the update of the Jacobians before it
    (ekf-flexibility-estimator-base.cpp:106-110: getAMatrixFD, getCMatrixFD, setA, setC;
    model-base-ekf-flex-estimator-imu.cpp:361-369: updateStateAndMeasurementPrediction, setA,
    setC, or nothing when the Jacobians are given), resetCovarianceMatrices() and
    resetStateCovarianceMatrix() (model-base:91-129, fixed-contact:48-73), ekf_.setQ(Q_)
    (model-base:186) and the effect of a change of sizes on the matrices
    (kalman-filter-base.cpp:365-379, model-base:263-302). *)
Variable st : @stepfun X Y U E.
Variable jac : mode -> E -> Z -> X -> outcome Y -> outcome U -> outcome U -> outcome E.
Variable creset preset setQ : E -> E.
Variable esize : Z -> Z -> E -> E.

(** rows() of a state vector (observer-base.cpp:28-31). *)
Definition sxl (x : X) : Z := Z.of_nat (length x).

(** ekf-flexibility-estimator-base.hpp:144-152 (ekf_, lastX_, k_) and
    model-base-ekf-flex-estimator-imu.hpp:256-271 (on_, limitOn_, limitForces_, limitTorques_). *)
Record fest := mkF {
  e_ekf : zdo X Y U E; e_k : Z; e_last : X;
  e_on : bool; e_lim : bool; e_lf : V3; e_lt : V3 }.
Definition with_ekf (q : fest) s := mkF s (e_k q) (e_last q) (e_on q) (e_lim q) (e_lf q) (e_lt q).
Definition with_k (q : fest) k := mkF (e_ekf q) k (e_last q) (e_on q) (e_lim q) (e_lf q) (e_lt q).
Definition with_last (q : fest) l := mkF (e_ekf q) (e_k q) l (e_on q) (e_lim q) (e_lf q) (e_lt q).

(** The update of the Jacobians: reads what a step of the filter reads. *)
Definition jac_step (md : mode) (s : zdo X Y U E) : outcome (zdo X Y U E) :=
  do k <- z_time md s;
  do x <- im_get md (z_x s);
  do e <- jac md (z_e s) k x (ia_get md (z_y s) (k + 1)) (ia_get md (z_u s) k)
            (ia_get md (z_u s) (k + 1));
  Ok (with_e s e).

(** ekf-flexibility-estimator-base.cpp:104-112, model-base-ekf-flex-estimator-imu.cpp:359-372:
    [n] iterations starting at the time [i]. *)
Fixpoint catch_up (md : mode) (n : nat) (i : Z) (s : zdo X Y U E) : outcome (zdo X Y U E) :=
  match n with
  | O => Ok s
  | S n' =>
      do s1 <- jac_step md s;
      do s2 <- omap fst (z_getEstimatedState (local_step st) md i s1);
      catch_up md n' (i + 1) s2
  end.

(** ekf-flexibility-estimator-base.cpp:101-114, model-base-ekf-flex-estimator-imu.cpp:356-373:
    catching up with the time of the last measurement. *)
Definition reach (md : mode) (s : zdo X Y U E) : outcome (Z * zdo X Y U E * X) :=
  let k := ia_last (z_y s) in
  do t <- z_time md s;
  do s1 <- catch_up md (Z.to_nat (k - t)) (t + 1) s;
  do sx <- z_getEstimatedState (local_step st) md k s1;
  Ok (k, fst sx, snd sx).

(** ekf-flexibility-estimator-base.cpp:97-132 getFlexibilityVector. *)
Definition b_get (md : mode) (q : fest) : outcome (fest * X) :=
  if 0 <? ia_size (z_y (e_ekf q)) then
    do r <- reach md (e_ekf q);
    let k := fst (fst r) in let s := snd (fst r) in let x := snd r in
    if has_nan x then
      do s1 <- z_setState sxl md (e_last q) k s;
      let s2 := if 1 <? k then with_e s1 (creset (z_e s1)) else s1 in
      Ok (with_k (with_ekf q s2) k, e_last q)
    else Ok (with_last (with_k (with_ekf q s) k) x, x)
  else Ok (q, e_last q).

(** fixed-contact-ekf-flex-estimator-imu.cpp:205-217 getFlexibilityVector. *)
Definition fc_get (md : mode) (q : fest) : outcome (fest * X) :=
  if 0 <? ia_size (z_y (e_ekf q)) then
    do ql <- b_get md q;
    do l <- regulate_at (snd ql);
    do t <- z_time md (e_ekf (fst ql));
    do s <- z_setState sxl md l t (e_ekf (fst ql));
    Ok (with_last (with_ekf (fst ql) s) l, l)
  else Ok (q, e_last q).

(** model-base-ekf-flex-estimator-imu.cpp:348-435 getFlexibilityVector. *)
Definition mb_get (md : mode) (q : fest) : outcome (fest * X) :=
  if e_on q then
    if 0 <? ia_size (z_y (e_ekf q)) then
      do r <- reach md (e_ekf q);
      let k := fst (fst r) in let s := snd (fst r) in let x := snd r in
      if has_nan x then
        do s1 <- z_setState sxl md (e_last q) k s;
        let s2 := if 1 <? k then with_e s1 (preset (creset (z_e s1))) else s1 in
        Ok (with_k (with_ekf q s2) k, e_last q)
      else
        do x1 <- regulate_at x;
        let l := if e_lim q then saturate (e_lf q) (e_lt q) x1 else x1 in
        do t <- z_time md s;
        do s1 <- z_setState sxl md l t s;
        Ok (with_last (with_k (with_ekf q s1) k) l, l)
    else Ok (q, e_last q)
  else
    let l := map (fun _ => Fin 0) (e_last q) in
    do t <- z_time md (e_ekf q);
    do s1 <- z_setState sxl md l t (e_ekf q);
    let s2 := if 0 <? ia_size (z_y s1)
              then let s' := z_clearInputs (z_clearMeasurements s1) in with_e s' (preset (z_e s'))
              else s1 in
    Ok (with_last (with_ekf q s2) l, l).

(** ekf-flexibility-estimator-base.cpp:31-34, model-base:150-155 setMeasurement (the size
    asserted there is the one of the functor, kept equal to the one of the filter). *)
Definition fe_meas (md : mode) (y : Y) (q : fest) : outcome fest :=
  do s <- z_setMeasurement sy md y (e_k q + 1) (e_ekf q); Ok (with_ekf q s).
(** ekf-flexibility-estimator-base.cpp:76-79 setInput *)
Definition fe_input (md : mode) (u : U) (q : fest) : outcome fest :=
  do s <- z_setInput su md u (e_k q) (e_ekf q); Ok (with_ekf q s).
(** ekf-flexibility-estimator-base.cpp:81-85 setMeasurementInput *)
Definition fe_minput (md : mode) (u : U) (q : fest) : outcome fest :=
  do s <- (if ia_size (z_u (e_ekf q)) =? 0 then z_setInput su md u (e_k q) (e_ekf q) else Ok (e_ekf q));
  do s1 <- z_setInput su md u (e_k q + 1) s;
  Ok (with_ekf q s1).

(** model-base-ekf-flex-estimator-imu.cpp:157-188, fixed-contact:107-138 setFlexibilityGuess.
    A matrix that is not a column is converted to a Vector first (Vector x0(x)), which Eigen
    rejects. *)
Definition fe_guess (md : mode) (g : guess) (q : fest) : outcome fest :=
  match g with
  | GMat r c => do _ <- boost_assert md ((r =? 4) && (c =? 4)); do _ <- eigen_assert md false; Ok q
  | GCol v =>
      let bstate := sxl v =? z_n (e_ekf q) in
      do _ <- boost_assert md (bstate || (sxl v =? 6));
      if bstate then do s <- z_setState sxl md v (e_k q) (e_ekf q); Ok (with_ekf q s)
      else
        do _ <- eigen_assert md (3 <=? sxl v);
        let z := repeat (Fin 0) (Z.to_nat (z_n (e_ekf q))) in
        let n := length v in
        let x := list_set 5 (ent v (n - 1)) (list_set 4 (ent v (n - 2)) (list_set 3 (ent v (n - 3))
                 (list_set 2 (ent v 2) (list_set 1 (ent v 1) (list_set 0 (ent v 0) z))))) in
        do s <- z_setState sxl md x (e_k q) (e_ekf q);
        Ok (with_ekf q (with_e s (setQ (z_e s))))
  end.

(** model-base-ekf-flex-estimator-imu.cpp:190-194 setComBiasGuess, comBias = 30. *)
Definition fe_bias (md : mode) (v : list fl) (q : fest) : outcome fest :=
  do _ <- eigen_assert md (2 <=? sxl v);
  let l := list_set 31 (ent v 1) (list_set 30 (ent v 0) (e_last q)) in
  fe_guess md (GCol l) (with_last q l).

(** The calls of model-base-ekf-flex-estimator-imu.cpp that change the sizes of the measurements
    and of the inputs: 131-143 setContactsNumber, 520-553 setWithForcesMeasurements,
    setWithAbsolutePos, setWithUnmodeledForces. *)
Definition fe_sizes (m p : Z) (q : fest) : fest :=
  let s := z_setInputSize p (z_setMeasureSize m (e_ekf q)) in
  with_ekf q (with_e s (esize m p (z_e s))).

(** Public calls. setOn (455-458), setLimitOn, setForcesLimit, setTorquesLimit
    (model-base-ekf-flex-estimator-imu.hpp:204-227) only assign a member. *)
Inductive fe_op :=
| FeMeas (y : Y) | FeInput (u : U) | FeMInput (u : U) | FeGet
| FeGuess (g : guess) | FeBias (v : list fl) | FeSizes (m p : Z)
| FeOn (b : bool) | FeLimitOn (b : bool) | FeForces (v : V3) | FeTorques (v : V3).

(** Dispatch; getFlexibilityVector is the one that returns a vector. *)
Definition fe_step (get : mode -> fest -> outcome (fest * X)) (md : mode) (o : fe_op) (q : fest) :
    outcome (fest * list X) :=
  match o with
  | FeMeas y => do q' <- fe_meas md y q; Ok (q', [])
  | FeInput u => do q' <- fe_input md u q; Ok (q', [])
  | FeMInput u => do q' <- fe_minput md u q; Ok (q', [])
  | FeGet => do r <- get md q; Ok (fst r, [snd r])
  | FeGuess g => do q' <- fe_guess md g q; Ok (q', [])
  | FeBias v => do q' <- fe_bias md v q; Ok (q', [])
  | FeSizes m p => Ok (fe_sizes m p q, [])
  | FeOn b => Ok (mkF (e_ekf q) (e_k q) (e_last q) b (e_lim q) (e_lf q) (e_lt q), [])
  | FeLimitOn b => Ok (mkF (e_ekf q) (e_k q) (e_last q) (e_on q) b (e_lf q) (e_lt q), [])
  | FeForces v => Ok (mkF (e_ekf q) (e_k q) (e_last q) (e_on q) (e_lim q) v (e_lt q), [])
  | FeTorques v => Ok (mkF (e_ekf q) (e_k q) (e_last q) (e_on q) (e_lim q) (e_lf q) v, [])
  end.

(** A sequence of calls and the vectors returned on the way. *)
Fixpoint fe_run (get : mode -> fest -> outcome (fest * X)) (md : mode) (ops : list fe_op) (q : fest) :
    outcome (fest * list X) :=
  match ops with
  | [] => Ok (q, [])
  | o :: os =>
      do r <- fe_step get md o q;
      do r' <- fe_run get md os (fst r);
      Ok (fst r', snd r ++ snd r')
  end.

(** Constructors (model-base-ekf-flex-estimator-imu.cpp:13-57 with n = 35 and the limits of
    lines 49-56, cst::gravityConstant = 9.8 and hrp2::m = 56.8; fixed-contact:12-41 with n = 18). *)
Definition fe_init (n m p : Z) (e : E) : fest :=
  let z := repeat (Fin 0) (Z.to_nat n) in
  mkF (mkZ n m p (im_put z 0) ia_empty ia_empty e) 0 z true true
    (vscal (9.8 * 56.8) (mkV 100 100 1000)) (vscal (9.8 * 56.8) (mkV 10 10 100)).
End Est.
Arguments fest Y U E : clear implicits.
Arguments fe_op Y U : clear implicits.
