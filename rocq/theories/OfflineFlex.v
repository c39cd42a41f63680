(** Model of the offline estimations of the flexibility
    (include/state-observation/examples/offline-ekf-flexibility-estimation.hxx and
    include/state-observation/examples/offline-model-base-flex-estimation.hxx) on top of the
    estimators of FlexEst.v. Measurements and inputs are vectors, the filter is arbitrary. The
    optional arrays of innovations, predictions and simulated measurements and the printing
    are not modelled (null pointers, verbose = 0). *)
From Coq Require Import Reals ZArith List Bool.
From Verif Require Import Base Defs ZDO Vec3 Sensors FlexEst.
Import ListNotations.
Open Scope Z_scope.

Section OfflineFlex.
Context {E : Type}.
Notation X := (list fl).
(** The filter, as in FlexEst.v; sizes of vectors are their rows(). *)
Variable st : @stepfun X X X E.
Variable jac : mode -> E -> Z -> X -> outcome X -> outcome X -> outcome X -> outcome E.
Variable creset preset setQ : E -> E.
Variable esize : Z -> Z -> E -> E.
Notation fest := (fest X X E).

(** fixed-contact-ekf-flex-estimator-imu.cpp:87-94 setMeasurement: the vector of the IMU,
    measurementSizeConst_ = 6 (fixed-contact-ekf-flex-estimator-imu.hpp:107), is completed with
    the zeros of the virtual measurements of the contacts. *)
Definition fc_meas (md : mode) (y : X) (q : fest) : outcome fest :=
  do _ <- boost_assert md (sxl y =? 6);
  do _ <- eigen_assert md (sxl y =? 6);
  fe_meas sxl md (y ++ repeat (Fin 0) (Z.to_nat (z_m (e_ekf q) - 6))) q.

(** offline-ekf-flexibility-estimation.hxx:47-70: [c] iterations left, the next one for [i]. *)
Fixpoint fx_loop (md : mode) (y u : iarr X) (c : nat) (i : Z) (q : fest) (xh : iarr X) : outcome (iarr X) :=
  match c with
  | O => Ok xh
  | S c' =>
      do yi <- ia_get md y i;
      do q1 <- fc_meas md yi q;
      do ui <- ia_get md u i;
      do q2 <- fe_minput sxl md ui q1;
      do r <- fc_get st jac creset md q2;
      fx_loop md y u c' (i + 1) (fst r) (ia_pushBack (snd r) xh)
  end.

(** offline-ekf-flexibility-estimation.hxx:1-74. The constructor gives n = 18, m = 6, p = 15
    (fixed-contact-ekf-flex-estimator-imu.hpp:106-108); setContactsNumber changes the size of the
    measurements of the filter to 6 + 3 nc (imu-fixed-contact-dynamical-system.cpp:177-181).
    [e] is the content of the filter after the covariances are given. contactsPositions has at
    least nc elements. *)
Definition off_fixed (md : mode) (y u : iarr X) (xh0 : X) (nc : Z) (e : E) : outcome (iarr X) :=
  let q0 := fe_sizes esize (6 + 3 * nc) 15 (fe_init 18 6 15 e) in
  do q1 <- fe_guess setQ md (GCol xh0) q0;
  do xh <- ia_setValue md xh0 (ia_first y - 1) ia_empty;
  fx_loop md y u (length (ia_v y)) (ia_first y) q1 xh.

(** offline-ekf-flexibility-estimation.hxx:86-90: zeros of size 15; [c] left, next at [k]. *)
Fixpoint zero_in (md : mode) (c : nat) (k : Z) (u : iarr X) : outcome (iarr X) :=
  match c with
  | O => Ok u
  | S c' => do u' <- ia_setValue md (repeat (Fin 0) 15) k u; zero_in md c' (k + 1) u'
  end.
(** offline-ekf-flexibility-estimation.hxx:77-94 *)
Definition off_fixed0 (md : mode) (y : iarr X) (xh0 : X) (nc : Z) (e : E) : outcome (iarr X) :=
  do u <- zero_in md (S (length (ia_v y))) (ia_first y - 1) ia_empty;
  off_fixed md y u xh0 nc e.

(** The matrices Q and R given at each time (offline-model-base-flex-estimation.hxx:160-169):
    their effect on the filter, nothing when they are not given for each time. *)
Variable cust : Z -> E -> E.

(** imu-elastic-local-frame-dynamical-system.cpp:1296-1318 setContactsNumber: sizes of the
    measurements (6 for the IMU and 6 for each contact with forces) and of the inputs
    (sizeBase = 48, imu-elastic-local-frame-dynamical-system.hpp:55). *)
Definition mb_msize (wf : bool) (nc : Z) : Z := 6 + (if wf then nc * 6 else 0).
Definition mb_psize (nc : Z) : Z := 48 + 12 * nc.

(** offline-model-base-flex-estimation.hxx:122-176: [nc] is the array of the numbers of contacts,
    already rounded to unsigned; [c] iterations left, the next one for [i]. *)
Fixpoint mx_loop (md : mode) (wf : bool) (y u : iarr X) (nc : iarr Z) (c : nat) (i : Z) (q : fest)
    (xh : iarr X) : outcome (iarr X) :=
  match c with
  | O => Ok xh
  | S c' =>
      do n <- ia_get md nc i;
      let q0 := fe_sizes esize (mb_msize wf n) (mb_psize n) q in
      do yi <- ia_get md y i;
      do _ <- eigen_assert md (mb_msize wf n <=? sxl yi);
      do q1 <- fe_meas sxl md (firstn (Z.to_nat (mb_msize wf n)) yi) q0;
      do ui <- ia_get md u i;
      do q2 <- fe_minput sxl md ui q1;
      let q3 := with_ekf q2 (with_e (e_ekf q2) (cust i (z_e (e_ekf q2)))) in
      do r <- mb_get st jac creset preset md q3;
      mx_loop md wf y u nc c' (i + 1) (fst r) (ia_pushBack (snd r) xh)
  end.

(** offline-model-base-flex-estimation.hxx:13-201. The constructor gives n = 35, m = 6, p = 48;
    the guess is given before the sensors are chosen. *)
Definition off_model (md : mode) (wf : bool) (y u : iarr X) (xh0 : X) (nc : iarr Z) (e : E) : outcome (iarr X) :=
  do q1 <- fe_guess setQ md (GCol xh0) (fe_init 35 6 48 e);
  let q2 := fe_sizes esize (mb_msize wf 0) (mb_psize 0) q1 in
  do xh <- (if 0 <? ia_first y then ia_setValue md xh0 (ia_first y - 1) ia_empty else Ok ia_empty);
  mx_loop md wf y u nc (length (ia_v y)) (ia_first y) q2 xh.
End OfflineFlex.

(** ** Specification *)
(** A filter that works: [ok m p e] says that its matrices have the sizes of measurements of size
    m and inputs of size p. A step with data of these sizes succeeds, keeps the sizes and returns a
    state of the right size, with a NaN somewhere or an orientation that can be regulated; resets
    and new matrices keep the sizes; a change of sizes gives the new ones. *)
Record works {E : Type} (n : Z) (ok : Z -> Z -> E -> Prop) (st : @stepfun (list fl) (list fl) (list fl) E)
    (jac : mode -> E -> Z -> list fl -> outcome (list fl) -> outcome (list fl) -> outcome (list fl) -> outcome E)
    (creset preset setQ : E -> E) (esize : Z -> Z -> E -> E) : Prop := mkWorks {
  w_step : forall md m p e k x y u v, ok m p e ->
    Z.of_nat (length x) = n -> Z.of_nat (length y) = m -> Z.of_nat (length u) = p -> Z.of_nat (length v) = p ->
    exists e1, jac md e k x (Ok y) (Ok u) (Ok v) = Ok e1 /\
    exists x' e2, st md e1 k x (Ok y) (Ok u) (Ok v) = Ok (x', e2) /\ ok m p e2 /\ Z.of_nat (length x') = n /\
      (In Nan x' \/ exists l, regulate_at x' = Ok l);
  w_creset : forall m p e, ok m p e -> ok m p (creset e);
  w_preset : forall m p e, ok m p e -> ok m p (preset e);
  w_setQ : forall m p e, ok m p e -> ok m p (setQ e);
  w_size : forall m p m' p' e, ok m p e -> ok m' p' (esize m' p' e) }.

(** A vector of n numbers, none of them a NaN, whose orientation is at most 3 pi / 2. *)
Definition usable (n : Z) (l : list fl) : Prop :=
  Z.of_nat (length l) = n /\ ~ In Nan l /\
  exists a b c, nth_error l 3 = Some (Fin a) /\ nth_error l 4 = Some (Fin b) /\ nth_error l 5 = Some (Fin c) /\
    (a * a + b * b + c * c <= (3 / 2 * PI) * (3 / 2 * PI))%R.

(** Reference for the estimates: what the filter is given and what is done with its result, for
    every filter, without the buffers of the estimator. *)
Section Ref.
Context {E : Type}.
Notation X := (list fl).
Variable st : @stepfun X X X E.
Variable jac : mode -> E -> Z -> X -> outcome X -> outcome X -> outcome X -> outcome E.
Variable creset preset setQ : E -> E.
Variable esize : Z -> Z -> E -> E.
Variable cust : Z -> E -> E.

(** Matrices of the filter, its state, the last estimate, the input of the previous time. *)
Record rs := mkRs { rs_e : E; rs_x : X; rs_last : X; rs_prev : option X }.

(** A step with the measurement y and the input u of the new time; the input of the previous time
    is the new one when there is none. *)
Definition ref_filter (md : mode) (k : Z) (y u : X) (s : rs) : outcome (X * E) :=
  let c := match rs_prev s with Some c => c | None => u end in
  do e1 <- jac md (rs_e s) k (rs_x s) (Ok y) (Ok c) (Ok u);
  st md e1 k (rs_x s) (Ok y) (Ok c) (Ok u).

(** Fixed contacts: an estimate with a NaN is replaced by the last one and the covariances are
    reset, except at the first step; the orientation is regulated. *)
Definition ref_fixed (md : mode) (k : Z) (y u : X) (s : rs) : outcome (rs * X) :=
  do r <- ref_filter md k y u s;
  let bad := has_nan (fst r) in
  do l <- regulate_at (if bad then rs_last s else fst r);
  Ok (mkRs (if bad && (0 <? k) then creset (snd r) else snd r) l l (Some u), l).
Fixpoint ref_fixed_run (md : mode) (nc k : Z) (data : list (X * X)) (s : rs) : outcome (list X) :=
  match data with
  | [] => Ok []
  | (y, u) :: ds =>
      do r <- ref_fixed md k (y ++ repeat (Fin 0) (Z.to_nat (3 * nc))) u s;
      do ls <- ref_fixed_run md nc (k + 1) ds (fst r);
      Ok (snd r :: ls)
  end.

(** The model-based estimator: the same, forces and moments are saturated. *)
Definition ref_model (md : mode) (k : Z) (y u : X) (s : rs) : outcome (rs * X) :=
  do r <- ref_filter md k y u s;
  if has_nan (fst r) then
    Ok (mkRs (if 0 <? k then preset (creset (snd r)) else snd r) (rs_last s) (rs_last s) (Some u), rs_last s)
  else
    do x <- regulate_at (fst r);
    let l := saturate (vscal (9.8 * 56.8) (mkV 100 100 1000)) (vscal (9.8 * 56.8) (mkV 10 10 100)) x in
    Ok (mkRs (snd r) l l (Some u), l).
(** [i] is the time in the log, [n0] the previous number of contacts: the previous input is
    forgotten when it changes. *)
Fixpoint ref_model_run (md : mode) (wf : bool) (i k n0 : Z) (data : list (X * X * Z)) (s : rs) : outcome (list X) :=
  match data with
  | [] => Ok []
  | (y, u, n) :: ds =>
      let m := 6 + (if wf then n * 6 else 0) in
      let s1 := mkRs (cust i (esize m (48 + 12 * n) (rs_e s))) (rs_x s) (rs_last s) (if n =? n0 then rs_prev s else None) in
      do r <- ref_model md k (firstn (Z.to_nat m) y) u s1;
      do ls <- ref_model_run md wf (i + 1) (k + 1) n ds (fst r);
      Ok (snd r :: ls)
  end.
(** The guess: a state, or a position and an orientation. *)
Definition ref_guess (n : nat) (v : X) (e : E) : rs :=
  if Nat.eqb (length v) n then mkRs e v (repeat (Fin 0) n) None
  else mkRs (setQ e) (v ++ repeat (Fin 0) (n - 6)) (repeat (Fin 0) n) None.
End Ref.
