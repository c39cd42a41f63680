(** Model of ZeroDelayObserver (src/zero-delay-observer.cpp,
    include/state-observation/observer/zero-delay-observer.hpp) and ObserverBase
    (src/observer-base.cpp).

    Vector types are abstract ([X], [Y], [U] with a size function each); [E] is the extra
    state of the derived class. The virtual oneStepEstimation_() is a parameter. *)
From Coq Require Import ZArith List Lia Bool.
From Verif Require Import Base Defs.
Import ListNotations.
Open Scope Z_scope.

Section ZDO.
Context {X Y U E : Type}.
(** rows() of a vector, used by checkStateVector/checkMeasureVector/checkInputVector
    (observer-base.cpp:28-31, 48-51, 68-71). *)
Variable sx : X -> Z.
Variable sy : Y -> Z.
Variable su : U -> Z.

(** Members of ZeroDelayObserver (zero-delay-observer.hpp:191-200) and ObserverBase
    (observer-base.hpp:147-155). *)
Record zdo := mkZ {
  z_n : Z; z_m : Z; z_p : Z;
  z_x : imat X;
  z_y : iarr Y;
  z_u : iarr U;
  z_e : E }.

Definition with_x (s : zdo) x := mkZ (z_n s) (z_m s) (z_p s) x (z_y s) (z_u s) (z_e s).
Definition with_y (s : zdo) y := mkZ (z_n s) (z_m s) (z_p s) (z_x s) y (z_u s) (z_e s).
Definition with_u (s : zdo) u := mkZ (z_n s) (z_m s) (z_p s) (z_x s) (z_y s) u (z_e s).
Definition with_e (s : zdo) e := mkZ (z_n s) (z_m s) (z_p s) (z_x s) (z_y s) (z_u s) e.

(** zero-delay-observer.hpp:50, observer-base.cpp:11 constructor. *)
Definition z_init (n m p : Z) (e : E) : zdo := mkZ n m p im_empty ia_empty ia_empty e.

(** zero-delay-observer.cpp:171-175 getCurrentTime (both asserts test isSet). *)
Definition z_time (md : mode) (s : zdo) : outcome Z := im_time md (z_x s).

(** Loops of zero-delay-observer.cpp:19-22 and 25-28: pop the front while the first index is
    below a bound. The number of iterations is at most the size. [lim] is the first index
    that is kept. popFront never fails because size() > 0 is tested. *)
Fixpoint pop_below {A} (lim : Z) (k : Z) (l : list A) : iarr A :=
  match l with
  | [] => mkIarr k []
  | _ :: l' => if k <? lim then pop_below lim (k + 1) l' else mkIarr k l
  end.

(** zero-delay-observer.cpp:6-30 setState. The test of line 12 is evaluated after x_ has been
    overwritten (line 10), so getCurrentTime() is k and the test k < k is written as such. *)
Definition z_setState (md : mode) (x : X) (k : Z) (s : zdo) : outcome zdo :=
  do _ <- boost_assert md (sx x =? z_n s);
  let s1 := with_x s (im_put x k) in
  do t <- z_time md s1;
  if k <? t then
    Ok (with_u (with_y s1 (ia_clear (z_y s1))) (ia_clear (z_u s1)))
  else
    let s2 := with_y s1 (pop_below (k + 1) (ia_k (z_y s1)) (ia_v (z_y s1))) in
    if 0 <? z_p s2 then Ok (with_u s2 (pop_below k (ia_k (z_u s2)) (ia_v (z_u s2)))) else Ok s2.

(** zero-delay-observer.cpp:32-38 setCurrentState. *)
Definition z_setCurrentState (md : mode) (x : X) (s : zdo) : outcome zdo :=
  do _ <- boost_assert md (im_set (z_x s));
  do _ <- boost_assert md (sx x =? z_n s);
  Ok (with_x s (mkImat (im_set (z_x s)) (im_k (z_x s)) (Some x))).

(** zero-delay-observer.cpp:40-43 clearStates. *)
Definition z_clearStates (s : zdo) : zdo := with_x s (im_reset (z_x s)).

(** zero-delay-observer.cpp:50-62 setMeasurement. *)
Definition z_setMeasurement (md : mode) (y : Y) (k : Z) (s : zdo) : outcome zdo :=
  do _ <- boost_assert md (sy y =? z_m s);
  do _ <- (if 0 <? ia_size (z_y s)
           then boost_assert md ((ia_next (z_y s) =? k) || ia_checkIndex (z_y s) k)
           else boost_assert md (negb (im_set (z_x s)) || (im_k (z_x s) =? k - 1)));
  do y' <- ia_setValue md y k (z_y s);
  Ok (with_y s y').

(** zero-delay-observer.cpp:64-79 pushMeasurement. *)
Definition z_pushMeasurement (md : mode) (y : Y) (s : zdo) : outcome zdo :=
  do _ <- boost_assert md (sy y =? z_m s);
  if 0 <? ia_size (z_y s) then Ok (with_y s (ia_pushBack y (z_y s)))
  else
    do _ <- boost_assert md (im_set (z_x s));
    do t <- im_time md (z_x s);
    do y' <- ia_setValue md y (t + 1) (z_y s);
    Ok (with_y s y').

(** zero-delay-observer.cpp:81-84 clearMeasurements. *)
Definition z_clearMeasurements (s : zdo) : zdo := with_y s (ia_reset (z_y s)).

(** zero-delay-observer.cpp:86-104 setInput. *)
Definition z_setInput (md : mode) (u : U) (k : Z) (s : zdo) : outcome zdo :=
  if 0 <? z_p s then
    do _ <- boost_assert md (su u =? z_p s);
    do _ <- (if 0 <? ia_size (z_u s)
             then boost_assert md ((ia_next (z_u s) =? k) || ia_checkIndex (z_u s) k)
             else boost_assert md (negb (im_set (z_x s)) || (im_k (z_x s) =? k) || (im_k (z_x s) =? k - 1)));
    do u' <- ia_setValue md u k (z_u s);
    Ok (with_u s u')
  else Ok s.

(** zero-delay-observer.cpp:106-123 pushInput. *)
Definition z_pushInput (md : mode) (u : U) (s : zdo) : outcome zdo :=
  if 0 <? z_p s then
    do _ <- boost_assert md (su u =? z_p s);
    if 0 <? ia_size (z_u s) then Ok (with_u s (ia_pushBack u (z_u s)))
    else
      do _ <- boost_assert md (im_set (z_x s));
      do t <- im_time md (z_x s);
      do u' <- ia_setValue md u t (z_u s);
      Ok (with_u s u')
  else Ok s.

(** zero-delay-observer.cpp:125-128 clearInputs. *)
Definition z_clearInputs (s : zdo) : zdo := with_u s (ia_reset (z_u s)).

(** observer-base.cpp:79-84 reset (virtual calls resolve to the ZeroDelayObserver ones). *)
Definition z_reset (s : zdo) : zdo := z_clearInputs (z_clearMeasurements (z_clearStates s)).

(** zero-delay-observer.cpp:210-235 setStateSize, setMeasureSize, setInputSize. *)
Definition z_setStateSize (n : Z) (s : zdo) : zdo :=
  if n =? z_n s then s
  else z_clearStates (mkZ n (z_m s) (z_p s) (z_x s) (z_y s) (z_u s) (z_e s)).
Definition z_setMeasureSize (m : Z) (s : zdo) : zdo :=
  if m =? z_m s then s
  else z_clearMeasurements (mkZ (z_n s) m (z_p s) (z_x s) (z_y s) (z_u s) (z_e s)).
Definition z_setInputSize (p : Z) (s : zdo) : zdo :=
  if p =? z_p s then s
  else z_clearInputs (mkZ (z_n s) (z_m s) p (z_x s) (z_y s) (z_u s) (z_e s)).

Section Estimate.
(** The virtual method oneStepEstimation_() (zero-delay-observer.hpp:187-189). *)
Variable oneStep : mode -> zdo -> outcome zdo.

(** Body of the loop of zero-delay-observer.cpp:153-160, for target time [k]. *)
Definition z_iter (md : mode) (k : Z) (s : zdo) : outcome zdo :=
  do s1 <- oneStep md s;
  do s2 <- (if ia_first (z_y s1) <? k
            then do y' <- ia_popFront md (z_y s1); Ok (with_y s1 y') else Ok s1);
  if 0 <? z_p s2 then
    if ia_first (z_u s2) <? k
    then do u' <- ia_popFront md (z_u s2); Ok (with_u s2 u') else Ok s2
  else Ok s2.

(** zero-delay-observer.cpp:145-163 getEstimatedState(k); the loop runs k - k0 times. *)
Definition z_getEstimatedState (md : mode) (k : Z) (s : zdo) : outcome (zdo * X) :=
  do _ <- boost_assert md (im_set (z_x s));
  do k0 <- z_time md s;
  do _ <- boost_assert md (k0 <=? k);
  do s' <- oiter (Z.to_nat (k - k0)) (z_iter md k) s;
  do x <- im_get md (z_x s');
  Ok (s', x).

(** zero-delay-observer.cpp:136-143 estimateState. *)
Definition z_estimateState (md : mode) (s : zdo) : outcome (zdo * Z) :=
  do s' <- (if 0 <? ia_size (z_y s) then
              do t <- (do _ <- boost_assert md (0 <? ia_size (z_y s)); Ok (ia_last (z_y s)));
              omap fst (z_getEstimatedState md t s)
            else Ok s);
  do t <- z_time md s';
  Ok (s', t).

(** Public mutators as an alphabet. *)
Inductive z_op :=
| ZSetState (x : X) (k : Z)
| ZSetCurrentState (x : X)
| ZClearStates
| ZSetMeas (y : Y) (k : Z)
| ZPushMeas (y : Y)
| ZClearMeas
| ZSetInput (u : U) (k : Z)
| ZPushInput (u : U)
| ZClearInputs
| ZReset
| ZStateSize (n : Z)
| ZMeasSize (m : Z)
| ZInputSize (p : Z)
| ZEstimate
| ZGetEstimate (k : Z).

(** Dispatch to the functions above. *)
Definition z_step (md : mode) (o : z_op) (s : zdo) : outcome zdo :=
  match o with
  | ZSetState x k => z_setState md x k s
  | ZSetCurrentState x => z_setCurrentState md x s
  | ZClearStates => Ok (z_clearStates s)
  | ZSetMeas y k => z_setMeasurement md y k s
  | ZPushMeas y => z_pushMeasurement md y s
  | ZClearMeas => Ok (z_clearMeasurements s)
  | ZSetInput u k => z_setInput md u k s
  | ZPushInput u => z_pushInput md u s
  | ZClearInputs => Ok (z_clearInputs s)
  | ZReset => Ok (z_reset s)
  | ZStateSize n => Ok (z_setStateSize n s)
  | ZMeasSize m => Ok (z_setMeasureSize m s)
  | ZInputSize p => Ok (z_setInputSize p s)
  | ZEstimate => omap fst (z_estimateState md s)
  | ZGetEstimate k => omap fst (z_getEstimatedState md k s)
  end.
Definition z_run md ops s := orun (z_step md) ops s.
End Estimate.

(** The shape of oneStepEstimation_ in the derived Kalman filters
    (kalman-filter-base.cpp:134-196: reads x_ and its time k, y_[k+1], u_[k], u_[k+1], and
    ends with x_.set(.., k+1)); the data are passed as read outcomes because a filter may
    not read them. *)
Definition stepfun := mode -> E -> Z -> X -> outcome Y -> outcome U -> outcome U -> outcome (X * E).

Definition local_step (st : stepfun) (md : mode) (s : zdo) : outcome zdo :=
  do k <- z_time md s;
  do x <- im_get md (z_x s);
  do xe <- st md (z_e s) k x (ia_get md (z_y s) (k + 1)) (ia_get md (z_u s) k)
              (ia_get md (z_u s) (k + 1));
  Ok (with_e (with_x s (im_put (fst xe) (k + 1))) (snd xe)).
End ZDO.
Arguments zdo X Y U E : clear implicits.
Arguments z_op X Y U : clear implicits.
