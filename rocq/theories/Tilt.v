(** Model of TiltEstimator (src/tilt-estimator.cpp, include/state-observation/observer/
    tilt-estimator.hpp), on top of the model of ZeroDelayObserver (ZDO.v). Real arithmetic is
    exact. The state vector of size 9 is its three blocks, the measurement of size 6 its two. *)
From Coq Require Import Reals ZArith List Bool.
From Verif Require Import Base Defs ZDO Vec3.
Import ListNotations.
Open Scope R_scope.

(** State segments 0, 3 and 6 (tilt-estimator.cpp:32-34). *)
Record TX := mkT { x_v : V3; x_tp : V3; x_t : V3 }.
(** Accelerometer and gyrometer, head and tail of the measurement (tilt-estimator.cpp:26-27). *)
Definition TY := (V3 * V3)%type.
(** Members alpha_ ... v_C_ (tilt-estimator.hpp:157-176). The remaining members (hpp:178-183)
    are scratch variables, written before being read in every step. *)
Record TE := mkTE { t_al : R; t_be : R; t_ga : R; t_dt : R; t_p : V3; t_R : M3; t_vs : V3; t_ws : V3; t_vc : V3 }.

(** definitions.hpp:548 cst::gravityConstant. *)
Definition grav : R := 98 / 10.

(** Sizes: the state and measurement types are of the sizes fixed by the constructor. *)
Definition tsx (_ : TX) : Z := 9%Z.
Definition tsy (_ : TY) : Z := 6%Z.
Definition tsu (_ : unit) : Z := 0%Z.

(** tilt-estimator.cpp:6-10 constructor; the input size of ZeroDelayObserver(9, 6) is 0
    (zero-delay-observer.hpp:50). *)
Definition t_init (al be ga : R) : zdo TX TY unit TE :=
  z_init 9 6 0 (mkTE al be ga (5 / 1000) v0 m1 v0 v0 v0).

(** tilt-estimator.cpp:29: velocity of the sensor given by the control frame. *)
Definition t_x1 (e : TE) (yg : V3) : V3 :=
  vadd (mvec (mtr (t_R e)) (vadd (t_vc e) (t_vs e)))
       (vcross (vsub yg (mvec (mtr (t_R e)) (t_ws e))) (mvec (mtr (t_R e)) (t_p e))).

(** tilt-estimator.cpp:36-39: the derivative of the estimate. *)
Definition t_dx (e : TE) (ya yg : V3) (x : TX) : TX :=
  let x1 := t_x1 e yg in
  mkT (vadd (vadd (vsub (vcross (x_v x) yg) (vscal grav (x_tp x))) ya) (vscal (t_al e) (vsub x1 (x_v x))))
      (vsub (vcross (x_tp x) yg) (vscal (t_be e) (vsub x1 (x_v x))))
      (vcross (x_t x) (vsub yg (vscal (t_ga e) (vcross (x_t x) (x_tp x))))).

(** tilt-estimator.cpp:41: explicit Euler step, before the normalisation. *)
Definition t_euler (e : TE) (ya yg : V3) (x : TX) : TX :=
  let d := t_dx e ya yg x in
  mkT (vadd (x_v x) (vscal (t_dt e) (x_v d))) (vadd (x_tp x) (vscal (t_dt e) (x_tp d)))
      (vadd (x_t x) (vscal (t_dt e) (x_t d))).

(** tilt-estimator.cpp:43: division of the last block by its norm. A zero norm makes the C++
    block NaN; the model has no such value and reports [UB], so that nothing can be proved about
    the division by zero. *)
Definition t_normalize (x : TX) : outcome TX :=
  if Req_EM_T (vnorm (x_t x)) 0 then UB
  else Ok (mkT (x_v x) (x_tp x) (vscal (/ vnorm (x_t x)) (x_t x))).

(** tilt-estimator.cpp:26-43: new estimate from the old one and the measurement. *)
Definition t_update (e : TE) (y : TY) (x : TX) : outcome TX := t_normalize (t_euler e (fst y) (snd y) x).

(** tilt-estimator.cpp:20-48 oneStepEstimation_. The nested call getEstimatedState(k) of line 31
    is at the current time: its loop runs zero times, so the virtual step it would call is
    passed as [UB]. *)
Definition t_oneStep (md : mode) (s : zdo TX TY unit TE) : outcome (zdo TX TY unit TE) :=
  do k <- im_time md (z_x s);
  do _ <- boost_assert md ((0 <? ia_size (z_y s))%Z && ia_checkIndex (z_y s) (k + 1)%Z);
  do y <- ia_get md (z_y s) (k + 1)%Z;
  do (s1, x) <- z_getEstimatedState (fun _ _ => UB) md k s;
  do x' <- t_update (z_e s1) y x;
  z_setState tsx md x' (k + 1)%Z s1.

(** tilt-estimator.cpp:12-18 setMeasurement(ya, yg, k). *)
Definition t_setMeasurement (md : mode) (ya yg : V3) (k : Z) (s : zdo TX TY unit TE) := z_setMeasurement tsy md (ya, yg) k s.

(** Operations: everything inherited from ZeroDelayObserver, and the setters of
    tilt-estimator.hpp:42-126, of which each assigns one of the parameters ([TPar] may change any
    of them at once). *)
Inductive t_op := TZ (o : z_op TX TY unit) | TPar (e : TE).
Definition t_step (md : mode) (o : t_op) (s : zdo TX TY unit TE) : outcome (zdo TX TY unit TE) :=
  match o with
  | TZ o => z_step tsx tsy tsu t_oneStep md o s
  | TPar e => Ok (with_e s e)
  end.
Definition t_run md ops s := orun (t_step md) ops s.
Definition t_get md k s := z_getEstimatedState t_oneStep md k s.
