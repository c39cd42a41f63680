(** Model of what the kinetics observer answers: kinetics-observer.cpp:334-399, 401-408, 469-474, 1085-1120,
    1337-1340, over the layout of KinObs.v. *)
From Coq Require Import Reals ZArith List Bool.
From Verif Require Import Base Vec3 Rot Orient Kine KinObs KinSum KinDyn.
Import ListNotations.
Open Scope Z_scope.

Section Get.
Context {S Kn M C : Type}.
Notation obs := (obs S Kn M C).
Notation contact := (contact S Kn M C).
Notation imu := (imu S Kn C).

(** cpp:1091-1098: the signals of the IMUs. [None]: a coefficient of the vector that was never written. *)
Fixpoint get_imus (md : mode) (kd : Z) (is : list imu) (y : list (option S)) (cur : Z) : outcome (list (option S) * Z) :=
  match is with
  | [] => Ok (y, cur)
  | i :: is' =>
      if i_time i =? kd then do y <- seg_set md cur (map Some (i_sig i)) y; get_imus md kd is' y (cur + sizeIMUSignal)
      else get_imus md kd is' y cur
  end.
(** cpp:1100-1110: the wrenches of the contacts. *)
Fixpoint get_contacts (md : mode) (kd : Z) (cs : list contact) (y : list (option S)) (cur : Z) : outcome (list (option S) * Z) :=
  match cs with
  | [] => Ok (y, cur)
  | c :: cs' =>
      if c_set c && ((c_time c =? kd) && c_real c)
      then do y <- seg_set md cur (map Some (c_wrench c)) y; get_contacts md kd cs' y (cur + sizeWrench)
      else get_contacts md kd cs' y cur
  end.
(** cpp:1085-1120. Building a vector of negative size is an assertion of Eigen, or a failed allocation. *)
Definition ko_getMeasurementVector (md : mode) (s : obs) : outcome (list (option S)) :=
  let n := ko_getMeasurementSize s in
  if n <? 0 then match md with Debug => AssertFail | Release => Throw end
  else
    let y := repeat None (Z.to_nat n) in
    if o_kest s =? o_kdata s then Ok y
    else
      do (y, cur) <- get_imus md (o_kdata s) (o_imus s) y 0;
      do (y, cur) <- get_contacts md (o_kdata s) (o_contacts s) y cur;
      if p_time (o_pose s) =? o_kdata s then seg_set md cur (map Some (p_sig (o_pose s))) y else Ok y.

(** cpp:369-372. The index is an unsigned integer: that of a contact never added is the largest one, to which
    adding sizeContactKine gives a small one; the integers give the same value. *)
Definition ko_getContactWrench (md : mode) (n : Z) (s : obs) : outcome (list S) :=
  do i <- ko_contactForceIndex md n s; seg_rd md i (Z.to_nat sizeWrench) (o_state s).
(** cpp:379-382. *)
Definition ko_getUnmodeledWrench (md : mode) (s : obs) : outcome (list S) :=
  do i <- unmodeledWrenchIndex md (o_maxI s); seg_rd md i (Z.to_nat sizeWrench) (o_state s).
(** The calls that neither use nor change stateKinematics_ (all but cpp:229, 401 and 469). *)
Definition kq_other (o : ko_op S Kn M C) : bool := match o with KSetKine _ _ | KSetVector _ | KUpdate _ => false | _ => true end.
End Get.

Section Cache.
Context {C : Type} (kfirst : mode -> Kin -> outcome Kin) (kupd : mode -> Z -> Kin -> Kin -> outcome Kin) (mzero : M3 -> bool).
Notation obs := (obs R Kin M3 C).
Notation ko_op := (ko_op R Kin M3 C).

(** cpp:374-377: 13 coefficients are read, of which flagsContactKine (hpp:1119, position and orientation) uses 7. *)
Definition ko_getContactPosition (md : mode) (n : Z) (s : obs) : outcome Kin :=
  do i <- ko_contactPosIndex md n s;
  do v <- seg_rd md i (Z.to_nat sizeStateKine) (o_state s);
  k_fromVec md v fPose k_empty.

(** The observer with the member stateKinematics_ (hpp:1023). *)
Record kq := mkKq { q_obs : obs; q_kin : Kin }.
(** cpp:1337-1340 updateKine_: the accelerations that [k] holds are kept. *)
Definition kq_updateKine (md : mode) (s : obs) (k : Kin) : outcome Kin :=
  do v <- seg_rd md kineIndex (Z.to_nat sizeStateKine) (o_state s); k_fromVec md v fState k.
(** cpp:178, the end of the constructor; stateKinematics_ has nothing set before. *)
Definition kq_init (md : mode) (maxC maxI : nat) ds di dw dp : outcome kq :=
  do s <- ko_init 0%R k_empty md maxC maxI ds di dw dp; do k <- kq_updateKine md s k_empty; Ok (mkKq s k).
(** cpp:359-362, 364-367 (the product; the caches filled in a copy are not kept, those in the member are not
    recorded: they do not change its rotation, C30). *)
Definition kq_getKinematics (q : kq) : Kin := q_kin q.
Definition kq_getKinematicsOf (md : mode) (l : Kin) (q : kq) : outcome Kin := do (k, _, _) <- k_mul md (q_kin q) l; Ok k.
(** cpp:384-399. *)
Definition kq_estimate (md : mode) (b : body) (q : kq) : outcome kq :=
  do (f, t) <- add_wrench md (q_obs q) (o_state (q_obs q)) (b_addF b) (b_addT b);
  do (la, al, o) <- accelerations md b (q_kin q) f t;
  Ok (mkKq (q_obs q) (mkK (kp (q_kin q)) o (kv (q_kin q)) (kw (q_kin q)) (Some la) (Some al))).
(** cpp:229-347: update, [b] what the user gave about the robot when it is called. *)
Definition kq_update (md : mode) (b : body) (e : list R -> list (option R) -> list R) (q : kq) : outcome kq :=
  if o_kest (q_obs q) =? o_kdata (q_obs q) then Ok q
  else
    do s <- ko_update md e (q_obs q);
    do k <- kq_updateKine md s k_empty;
    if o_withAcc s then kq_estimate md b (mkKq s k) else Ok (mkKq s k).
(** cpp:401-422 (the covariances: KinCov.v). *)
Definition kq_setStateKinematics (md : mode) (k : Kin) (resetForces : bool) (q : kq) : outcome kq :=
  do _ <- boost_assert md (isSome (kp k) && o_isSet (ko k) && isSome (kv k) && isSome (kw k));
  do (v, k) <- k_toVec md fState k;
  do s <- ko_setStateKinematics 0%R md v resetForces (q_obs q); Ok (mkKq s k).
(** cpp:469-474. *)
Definition kq_setStateVector (md : mode) (v : list R) (q : kq) : outcome kq :=
  let s := ko_setStateVector v (q_obs q) in do k <- kq_updateKine md s (q_kin q); Ok (mkKq s k).
(** The calls of the user; the others (KinObs.v) do not use stateKinematics_. *)
Inductive kq_op :=
| QSetKine (k : Kin) (resetForces : bool) | QSetVector (v : list R) | QUpdate (b : body) (e : list R -> list (option R) -> list R)
| QEstimate (b : body) | QOther (o : ko_op).
Definition kq_step (md : mode) (o : kq_op) (q : kq) : outcome kq :=
  match o with
  | QSetKine k b => kq_setStateKinematics md k b q
  | QSetVector v => kq_setStateVector md v q
  | QUpdate b e => kq_update md b e q
  | QEstimate b => kq_estimate md b q
  | QOther o => do s <- ko_step 0%R kfirst kupd mzero md o (q_obs q); Ok (mkKq s (q_kin q))
  end.
Definition kq_run md ops q := orun (kq_step md) ops q.
End Cache.
