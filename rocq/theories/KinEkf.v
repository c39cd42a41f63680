(** The filter of the kinetics observer (ekf_, src/kinetics-observer.cpp): the sizes of its matrices during
    the calls of the observer, and the estimate it computes. *)
From Coq Require Import Reals ZArith List Bool Lia.
From Verif Require Import Base Vec3 Kine KinObs KinSum KinDyn KSize.
Import ListNotations.
Open Scope Z_scope.

Section Sizes.
Context {S : Type} (s0 : S) {Kn : Type} (k0 : Kn) (kfirst : mode -> Kn -> outcome Kn) (kupd : mode -> Z -> Kn -> Kn -> outcome Kn).
Context {M : Type} (mzero : M -> bool) {C : Type}.
Notation obs := (obs S Kn M C).
Implicit Types s : obs.

(** kinetics-observer.cpp:256-263: measurementSize_ and measurementTangentSize_. *)
Definition meas_sizes s : Z * Z :=
  let n := sizeIMUSignal * o_nimu s + sizeWrench * o_nreal s in
  if p_time (o_pose s) =? o_kdata s then (n + sizePose, n + sizePoseTangent) else (n, n).
(** extended-kalman-filter.cpp:145-180: the size of getAMatrixFD (line 150). *)
Definition fd_A (f : ksz) : dim := (s_nt f, s_nt f).
(** extended-kalman-filter.cpp:182-211: the size of getCMatrixFD (line 186; each column is the difference of two
    measurement vectors, lines 202-205). *)
Definition fd_C (f : ksz) : dim := (s_m f, s_nt f).
(** kinetics-observer.cpp:306-321, after the measurement vector is built. The two branches of line 309 give the same
    matrices (computeAMatrix_, computeCMatrix_: 1327-1335). setMeasurement asserts the size of the vector
    (zero-delay-observer.cpp:53); its assertion on the times holds (PropKinEkf, s_x). *)
Definition kf_filter (md : mode) s (f : ksz) : outcome ksz :=
  let '(m, mt) := meas_sizes s in
  do f <- s_step false md (SMeasSize m mt) f;
  do _ <- boost_assert md (Z.of_nat (length (o_meas s)) =? s_m f);
  do f <- s_step false md (SR (mt, mt)) f;
  do f <- s_step false md (SA (fd_A f)) f;
  do f <- s_step false md (SC (fd_C f)) f;
  s_step false md SStep f.
(** The constructor: kinetics-observer.cpp:96 and 136, 171-176. *)
Definition kf_init (md : mode) (maxC maxI : nat) : outcome ksz :=
  let n := stateSize (Z.of_nat maxC) (Z.of_nat maxI) in let nt := stateTangentSize (Z.of_nat maxC) (Z.of_nat maxI) in
  s_run false md [SSetState 0; SP (nt, nt); SQ (nt, nt); SR (0, 0)] (s_init n nt 0 0 0).
(** The calls of the observer: the update uses the filter, the calls that set the state give it to the filter with the time
    k_est_ (kinetics-observer.cpp:420, 444, 458, 472), the other ones change entries of its covariance matrices
    and keep their sizes. *)
Definition kf_step (md : mode) (o : ko_op S Kn M C) (sf : obs * ksz) : outcome (obs * ksz) :=
  let '(s, f) := sf in
  match o with
  | KUpdate e =>
      if o_kest s =? o_kdata s then Ok (s, f) else
      do s <- ko_prepare md s; do f <- kf_filter md s f; Ok (ko_finish e s, f)
  | KSetKine _ _ | KSetBias _ _ | KSetWrench _ | KSetVector _ =>
      do s <- ko_step s0 kfirst kupd mzero md o s; do f <- s_step false md (SSetState (o_kest s)) f; Ok (s, f)
  | _ => do s <- ko_step s0 kfirst kupd mzero md o s; Ok (s, f)
  end.
Definition kf_run md ops sf := orun (kf_step md) ops sf.
Definition kf_start (md : mode) (maxC maxI : nat) ds di dw dp : outcome (obs * ksz) :=
  do s <- ko_init s0 k0 md maxC maxI ds di dw dp; do f <- kf_init md maxC maxI; Ok (s, f).
End Sizes.

Section Values.
Context {C : Type}.
Notation obs := (obs R Kin M3 C).
(** Reading entries that were never written is undefined. *)
Fixpoint known {A} (l : list (option A)) : outcome (list A) :=
  match l with [] => Ok [] | Some a :: l => do r <- known l; Ok (a :: r) | None :: _ => UB end.
(** The estimate of the filter: kalman-filter-base.cpp:108-171 with the predictions of
    extended-kalman-filter.cpp:86-143, for the observer [s] after its measurement vector is built. [gain]: the innovation
    kGain * inoMeas (lines 134-135) as a function of the measurement difference; [d0]: the previous entries of inoMeas. Noise
    functors only change what is discarded (KinDyn). *)
Definition ko_estimate (md : mode) (b : body) noise noise' (gain : list R -> list R) (d0 : list R) (s : obs) : outcome (list R) :=
  do xbar <- ko_stateDynamics md b noise s (o_ekf s);
  do yb <- ko_measure md b noise' s xbar (o_kdata s);
  do ybar <- known yb; do y <- known (o_meas s);
  do ino <- ko_measurementDifference md s y ybar d0;
  ko_stateSum md s xbar (gain ino).
(** kinetics-observer.cpp:229-337 with this filter. *)
Definition ko_update_est (md : mode) (b : body) noise noise' (gain : list R -> list R) (d0 : list R) (s : obs) : outcome obs :=
  if o_kest s =? o_kdata s then Ok s else
  do s <- ko_prepare md s; do x <- ko_estimate md b noise noise' gain d0 s; Ok (ko_finish (fun _ _ => x) s).
(** Histories of calls with such updates. *)
Inductive est_op := ECall (o : ko_op R Kin M3 C)
| EUpdate (b : body) (noise : option (list R -> list R)) (noise' : option (list (option R) -> list (option R))) (gain : list R -> list R) (d0 : list R).
Context (kfirst : mode -> Kin -> outcome Kin) (kupd : mode -> Z -> Kin -> Kin -> outcome Kin) (mzero : M3 -> bool).
Definition est_step (md : mode) (o : est_op) (s : obs) : outcome obs :=
  match o with ECall o => ko_step 0%R kfirst kupd mzero md o s | EUpdate b n n' g d0 => ko_update_est md b n n' g d0 s end.
Definition est_run md ops s := orun (est_step md) ops s.
End Values.
Arguments est_op : clear implicits.
