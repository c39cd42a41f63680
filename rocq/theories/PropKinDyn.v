(** Properties C56 and C82 to C88: dynamics and predicted measurements of the kinetics observer. *)
From Coq Require Import Reals ZArith List Bool Lia Lra.
From Verif Require Import Base Vec3 Rot SpecRot RotProofs RotProofs3 Orient SpecOrient OrientProofs Kine SpecKine KineProofs KineProofs2
  KinObs SpecKin KinSum SpecKinSum KinProofs KinInv KinThms KinMeas SegProofs KinSumProofs KinSumProofs2 KinDyn SpecKinDyn KinDynProofs KinDynProofs2 KinDynThms
  KinDynMeas KinDynMotion PropKin.
Import ListNotations.
Open Scope R_scope.

Section KineticsDynamics.
Context (k0 : Kin) (kfirst : mode -> Kin -> outcome Kin) (kupd : mode -> Z -> Kin -> Kin -> outcome Kin) (mzero : M3 -> bool) {C : Type}.
Notation obs := (obs R Kin M3 C).
Notation init := (ko_init 0 k0).
Notation run := (ko_run 0 kfirst kupd mzero).
Notation in_use := (in_use 0 kfirst kupd mzero).
Notation N maxC maxI := (Z.to_nat (stateSize (Z.of_nat maxC) (Z.of_nat maxI))).
Implicit Types s : obs.

(** ** C84 *)
(** From every state with a unit quaternion, in every state of the observer reached without clearContacts whose
    present contacts have kinematics: the dynamics integrate the position, the orientation and the velocities
    with constant accelerations over the sampling period, the quaternion keeps norm 1, and everything else but
    the wrenches of the present contacts is left as it is. *)
Theorem C84_state_dynamics md maxC maxI ds di dw dp s h s' (x : list R) a noise m c cd cdd sg sgd In' Id aF aT dt :
  init md maxC maxI ds di dw dp = Ok s -> forallb no_clear h = true -> Forall (wf_op (N maxC maxI)) h -> in_use md h s s' ->
  length x = N maxC maxI -> contacts_at s' a -> qn2 (qat md s' x) = 1 ->
  let b := mkBody m (Some c) (Some cd) (Some cdd) (Some sg) (Some sgd) (Some In') (Some Id) aF aT dt in
  exists y A L, ko_stateDynamics md b noise s' x = Ok y /\ length y = length x /\
    vat md s' y CPos = vadd (vat md s' x CPos) (vadd (vscal dt (vat md s' x CLinVel)) (vscal (dt * dt / 2) A)) /\
    vat md s' y CLinVel = vadd (vat md s' x CLinVel) (vscal dt A) /\ vat md s' y CAngVel = vadd (vat md s' x CAngVel) (vscal dt L) /\
    qn2 (qat md s' y) = 1 /\
    (let v := vadd (vscal dt (vat md s' x CAngVel)) (vscal (dt * dt / 2) L) in v = v0 \/ / 10000000000000000 < vnorm v ->
       qrot (qat md s' y) = mmul (rodrigues v) (qrot (qat md s' x))) /\
    (forall n, (13 <= n)%nat -> (forall j z, In j (ko_getListOfContacts s') -> comp_start md false s' (CCForce j) = Ok z -> ~ (z <= Z.of_nat n < z + 6)%Z) ->
       nth_error y n = nth_error x n).
Proof.
  intros E0 Hn Hw Hu Lx Ha Hq b. destruct (use_inv _ _ _ _ _ _ _ _ _ _ _ _ _ _ _ E0 Hn Hw Hu) as [Hi Hm].
  destruct (state_dynamics_ok md maxC maxI s' x a noise m c cd cdd sg sgd In' Id aF aT dt Hi Hm Lx Ha Hq) as (y & E & Ly & P & Q & U & V & W & _ & Fr).
  do 3 eexists. split; [exact E|]. split; [exact Ly|]. split; [exact P|]. split; [exact V|]. split; [exact W|]. rewrite Q. split; [exact U|]. split.
  - intros v Hv. rewrite qrot_mul by (auto using rv_quat_unit). rewrite <- rv_mat_quat. f_equal. apply rv_rodrigues.
    destruct Hv as [Hv|Hv]; [now right|left]. unfold tiny. fold epsA in Hv. rewrite <- vnorm_sq. pose proof epsA_pos. fold v. nra.
  - intros n H13 Ho. apply Fr; [exact H13|]. intros j Hj. replace (cidx (Z.of_nat maxI) j + 13)%Z with (cidx (Z.of_nat maxI) j + 7 + 6)%Z by lia. apply (Ho j); [exact Hj|].
    rewrite (comp_start_ok md false maxC maxI s' (CCForce j) Hi Hm Hj). reflexivity.
Qed.

(** ** C82 *)
(** The predicted accelerations satisfy the balance of moments. Take any motion of the robot that has the
    orientation and the angular velocity of the state at time t and the accelerations with which the dynamics change the
    velocities, any inertia and any internal momentum that have the given values and derivatives at t: the
    angular momentum about the origin of the robot has for derivative the moment of all forces about it, less
    the moment of the inertial force and of gravity. *)
Theorem C82_balance_of_moments md maxC maxI ds di dw dp s h s' (x : list R) a noise m c cd cdd (sc : R -> V3) sgd (Ic : R -> M3) Id aF aT dt t :
  init md maxC maxI ds di dw dp = Ok s -> forallb no_clear h = true -> Forall (wf_op (N maxC maxI)) h -> in_use md h s s' ->
  length x = N maxC maxI -> contacts_at s' a -> qn2 (qat md s' x) = 1 ->
  m <> 0 -> mdet (madd (Ic t) (mscal m (skew2 c))) <> 0 -> dt <> 0 -> mderiv Ic t Id -> vderiv sc t sgd ->
  let b := mkBody m (Some c) (Some cd) (Some cdd) (Some (sc t)) (Some sgd) (Some (Ic t)) (Some Id) aF aT dt in
  exists y, ko_stateDynamics md b noise s' x = Ok y /\
    forall mo, is_motion mo -> mr mo t = qrot (qat md s' x) -> mw mo t = vat md s' x CAngVel ->
      vat md s' y CLinVel = vadd (vat md s' x CLinVel) (vscal dt (ma mo t)) -> vat md s' y CAngVel = vadd (vat md s' x CAngVel) (vscal dt (mal mo t)) ->
      vderiv (fun u => mvec (mr mo u) (vadd (mvec (Ic u) (mvec (mtr (mr mo u)) (mw mo u))) (sc u))) t
        (vsub (mvec (mr mo t) (total_torque md b s' a x)) (vcross (mvec (mr mo t) c) (vscal m (vadd (ma mo t) gravity)))).
Proof.
  intros E0 Hn Hw Hu Lx Ha Hq Hz Hd Hdt DI Ds b. destruct (use_inv _ _ _ _ _ _ _ _ _ _ _ _ _ _ _ E0 Hn Hw Hu) as [Hi Hm].
  destruct (state_dynamics_ok md maxC maxI s' x a noise m c cd cdd (sc t) sgd (Ic t) Id aF aT dt Hi Hm Lx Ha Hq) as (y & E & Ly & P & Q & U & V & W & _).
  exists y. split; [exact E|]. intros mo Hmo Er Ew EV EW. rewrite V in EV. rewrite W in EW.
  assert (X : forall u p q : V3, vadd u (vscal dt p) = vadd u (vscal dt q) -> p = q).
  { clear - Hdt. intros [u1 u2 u3] [p1 p2 p3] [q1 q2 q3] H. unfold vadd, vscal in H. cbn in H. injection H. intros. f_equal; apply (Rmult_eq_reg_l dt); auto; lra. }
  apply X in EV. apply X in EW. rewrite <- Er in EV, EW. rewrite <- Ew in EV, EW.
  eapply (momentum_deriv mo Ic sc t Id sgd m c cd cdd); eauto.
Qed.

(** ** C83 *)
(** The balance of forces: take such a motion and any motion of the centre of mass in the frame of the robot with the given
    position, velocity and acceleration. The acceleration of the centre of mass in the world times the mass is the sum
    of the forces and of the weight exactly when w x (w x c) is zero. Missing: the other cases, in which it is not
    (the centrifugal acceleration is counted twice). *)
Theorem C83_balance_of_forces_partial md maxC maxI ds di dw dp s h s' (x : list R) a noise m (cc ccd ccdd : R -> V3) sg sgd In' Id aF aT dt t :
  init md maxC maxI ds di dw dp = Ok s -> forallb no_clear h = true -> Forall (wf_op (N maxC maxI)) h -> in_use md h s s' ->
  length x = N maxC maxI -> contacts_at s' a -> qn2 (qat md s' x) = 1 -> m <> 0 -> dt <> 0 ->
  (forall u, vderiv cc u (ccd u)) -> (forall u, vderiv ccd u (ccdd u)) ->
  let b := mkBody m (Some (cc t)) (Some (ccd t)) (Some (ccdd t)) (Some sg) (Some sgd) (Some In') (Some Id) aF aT dt in
  exists y, ko_stateDynamics md b noise s' x = Ok y /\
    forall mo, is_motion mo -> mr mo t = qrot (qat md s' x) -> mw mo t = vat md s' x CAngVel ->
      vat md s' y CLinVel = vadd (vat md s' x CLinVel) (vscal dt (ma mo t)) -> vat md s' y CAngVel = vadd (vat md s' x CAngVel) (vscal dt (mal mo t)) ->
      exists V G, (forall u, vderiv (fun u => vadd (mp mo u) (mvec (mr mo u) (cc u))) u (V u)) /\ vderiv V t G /\
        (vscal m (vadd G gravity) = mvec (mr mo t) (total_force md b s' a x) <-> let w := mvec (mtr (mr mo t)) (mw mo t) in vcross w (vcross w (cc t)) = v0).
Proof.
  intros E0 Hn Hw Hu Lx Ha Hq Hz Hdt D1 D2 b. destruct (use_inv _ _ _ _ _ _ _ _ _ _ _ _ _ _ _ E0 Hn Hw Hu) as [Hi Hm].
  destruct (state_dynamics_ok md maxC maxI s' x a noise m (cc t) (ccd t) (ccdd t) sg sgd In' Id aF aT dt Hi Hm Lx Ha Hq) as (y & E & Ly & P & Q & U & V & W & _).
  exists y. split; [exact E|]. intros mo Hmo Er Ew EV EW. rewrite V in EV. rewrite W in EW.
  assert (X : forall u p q : V3, vadd u (vscal dt p) = vadd u (vscal dt q) -> p = q).
  { clear - Hdt. intros [u1 u2 u3] [p1 p2 p3] [q1 q2 q3] H. unfold vadd, vscal in H. cbn in H. injection H. intros. f_equal; apply (Rmult_eq_reg_l dt); auto; lra. }
  apply X in EV. apply X in EW. rewrite <- Er in EV, EW. rewrite <- Ew in EV, EW.
  destruct (com_deriv mo cc ccd ccdd t m (total_force md b s' a x) _ Hmo D1 D2 Hz (eq_sym EW) (eq_sym EV)) as (Vc & G & D3 & D4 & D5).
  exists Vc, G. split; [exact D3|]. split; [exact D4|]. rewrite D5. cbv zeta. destruct (Hmo t) as (S & _). clear - S Hz.
  set (w := mvec (mtr _) _). set (k := vcross w _). set (F := total_force _ _ _ _ _). clearbody k F. split.
  - intros H. apply (f_equal (mvec (mtr (mr mo t)))) in H. rewrite !so3_tr_vec in H by exact S.
    destruct F as [f1 f2 f3], k as [k1 k2 k3]. unfold vsub, vscal in H. cbn in H. injection H. intros. unfold v0.
    f_equal; apply (Rmult_eq_reg_l m); auto; lra.
  - intros ->. f_equal. clear. c3.
Qed.

(** ** C56 *)
(** The predicted wrench of a contact: a viscoelastic reaction, but to the displacement of the robot from the origin of the
    world. Missing: the displacement of the contact from its rest pose, which plays no part. *)
Theorem C56_contact_wrench_partial md maxC maxI ds di dw dp s h s' (x : list R) a noise m c cd cdd sg sgd In' Id aF aT dt :
  init md maxC maxI ds di dw dp = Ok s -> forallb no_clear h = true -> Forall (wf_op (N maxC maxI)) h -> in_use md h s s' ->
  length x = N maxC maxI -> contacts_at s' a -> qn2 (qat md s' x) = 1 ->
  let b := mkBody m (Some c) (Some cd) (Some cdd) (Some sg) (Some sgd) (Some In') (Some Id) aF aT dt in
  exists y, ko_stateDynamics md b noise s' x = Ok y /\
    forall j, In j (ko_getListOfContacts s') -> exists ct Kp Kd Kr Kdr q, nth_error (o_contacts s') (Z.to_nat j) = Some ct /\ c_stiff ct = (Kp, Kd, Kr, Kdr) /\
      qn2 q = 1 /\ qrot q = qrot (qat md s' y) /\ let rc := mmul (qrot (qat md s' y)) (fr a j) in
      mvec rc (vat md s' y (CCForce j)) = vneg (vadd (mvec Kp (vat md s' y CPos)) (mvec Kd (vat md s' y CLinVel))) /\
      mvec rc (vat md s' y (CCTorque j)) = vneg (vadd (mvec Kr (vscal (1 / 2) (qvec q))) (mvec Kdr (vat md s' y CAngVel))).
Proof.
  intros E0 Hn Hw Hu Lx Ha Hq b. destruct (use_inv _ _ _ _ _ _ _ _ _ _ _ _ _ _ _ E0 Hn Hw Hu) as [Hi Hm].
  destruct (state_dynamics_ok md maxC maxI s' x a noise m c cd cdd sg sgd In' Id aF aT dt Hi Hm Lx Ha Hq) as (y & E & Ly & P & Q & U & V & W & K & _).
  exists y. split; [exact E|]. intros j Hj. destruct (K j Hj) as (ct & q & Ec & Uq & Rq & _ & Kf & Kt).
  destruct (c_stiff ct) as [[[Kp Kd] Kr] Kdr] eqn:St. exists ct, Kp, Kd, Kr, Kdr, q. rewrite Q. do 4 (split; [auto|]). cbv zeta.
  assert (S : so3 (mmul (qrot (qat md s' y)) (fr a j))).
  { destruct (Ha j Hj) as (ct' & _ & Hc & Hr & _). apply so3_mul; [rewrite Q; now apply qrot_so3|exact (coh_so3 _ _ Hc Hr)]. }
  rewrite Q in S. rewrite Kf, Kt. unfold wforce, wtorque. rewrite !mvec_neg, !(so3_vec_tr _ _ S), mvec_scal. auto.
Qed.
(** Refuted in full: two states that differ in the rest poses only are given the same forces. *)
Theorem C56_rest_pose_refuted md maxC maxI ds di dw dp s h s' (x x' : list R) a noise m c cd cdd sg sgd In' Id aF aT dt :
  init md maxC maxI ds di dw dp = Ok s -> forallb no_clear h = true -> Forall (wf_op (N maxC maxI)) h -> in_use md h s s' ->
  length x = N maxC maxI -> length x' = N maxC maxI -> contacts_at s' a -> qn2 (qat md s' x) = 1 ->
  (forall k, comp_exists s' k -> (forall j, k <> CCPos j /\ k <> CCOri j) -> part md false s' k x' = part md false s' k x) ->
  let b := mkBody m (Some c) (Some cd) (Some cdd) (Some sg) (Some sgd) (Some In') (Some Id) aF aT dt in
  exists y y', ko_stateDynamics md b noise s' x = Ok y /\ ko_stateDynamics md b noise s' x' = Ok y' /\
    forall j, In j (ko_getListOfContacts s') -> vat md s' y (CCForce j) = vat md s' y' (CCForce j).
Proof.
  intros E0 Hn Hw Hu Lx Lx' Ha Hq He b. destruct (use_inv _ _ _ _ _ _ _ _ _ _ _ _ _ _ _ E0 Hn Hw Hu) as [Hi Hm].
  assert (Ev : forall k, comp_exists s' k -> (forall j, k <> CCPos j /\ k <> CCOri j) -> vat md s' x' k = vat md s' x k) by (intros; unfold vat; now rewrite He).
  assert (EQ : qat md s' x' = qat md s' x) by (unfold qat; rewrite He; [reflexivity|exact I|intros; split; discriminate]).
  assert (Hq' : qn2 (qat md s' x') = 1) by (rewrite EQ; exact Hq).
  destruct (state_dynamics_ok md maxC maxI s' x a noise m c cd cdd sg sgd In' Id aF aT dt Hi Hm Lx Ha Hq) as (y & E & Ly & P & Q & U & V & W & K & _).
  destruct (state_dynamics_ok md maxC maxI s' x' a noise m c cd cdd sg sgd In' Id aF aT dt Hi Hm Lx' Ha Hq') as (y' & E' & Ly' & P' & Q' & U' & V' & W' & K' & _).
  exists y, y'. split; [exact E|]. split; [exact E'|]. intros j Hj. destruct (K j Hj) as (ct & q & Ec & Uq & Rq & _ & Kf & Kt). destruct (K' j Hj) as (ct' & q' & Ec' & Uq' & Rq' & _ & Kf' & Kt').
  rewrite Ec in Ec'. injection Ec' as <-. rewrite Kf, Kf'.
  assert (EF : total_force md (bodyv m c cd cdd sg sgd In' Id aF aT dt) s' a x' = total_force md (bodyv m c cd cdd sg sgd In' Id aF aT dt) s' a x).
  { unfold total_force. rewrite Ev by (try exact I; intros; split; discriminate). do 3 f_equal. apply map_ext_in. intros i Hin. rewrite Ev; [reflexivity|exact Hin|intros; split; discriminate]. }
  assert (ET : total_torque md (bodyv m c cd cdd sg sgd In' Id aF aT dt) s' a x' = total_torque md (bodyv m c cd cdd sg sgd In' Id aF aT dt) s' a x).
  { unfold total_torque. rewrite Ev by (try exact I; intros; split; discriminate). do 3 f_equal. apply map_ext_in. intros i Hin. rewrite !Ev; [reflexivity|exact Hin|intros; split; discriminate|exact Hin|intros; split; discriminate]. }
  rewrite P, P', V, V', EQ, EF, ET. rewrite !(Ev CPos), !(Ev CLinVel), !(Ev CAngVel) by (try exact I; intros; split; discriminate). reflexivity.
Qed.

(** ** C85 *)
(** In the iterations of C51: the predicted measurement is made, in the layout of the measurement vector, of the signals
    of ideal sensors. The IMU i moves with [mg i], the composition of a motion of the robot that has at t the
    state and the predicted accelerations, and of the motion of the IMU in the robot; an ideal IMU measures the specific force
    and the angular velocity in its frame. The wrench sensors measure the wrenches of the state, the
    pose sensor its pose. Missing: the other iterations (see C51), and the bias of the gyrometer (C86). *)
Theorem C85_predicted_measurement_partial md md' maxC maxI ds di dw dp s h1 s1 h2 s2 x a noise noise' m c cd cdd sg sgd In' Id aF aT dt :
  (forall k k', kfirst Debug k = Ok k' -> kfirst Release k = Ok k') -> (forall n a b k', kupd Debug n a b = Ok k' -> kupd Release n a b = Ok k') ->
  init md maxC maxI ds di dw dp = Ok s -> forallb no_clear h1 = true -> forallb no_wrench h1 = true -> Forall (wf_op (N maxC maxI)) h1 -> run md h1 s = Ok s1 ->
  cs_iter (cset_run maxC h1) = false ->
  forallb in_iteration h2 = true -> existsb reports h2 = true -> Forall (wf_op (N maxC maxI)) h2 -> run Debug h2 s1 = Ok s2 ->
  (forall j, In j (ko_getListOfContacts s2) -> existsb (updates_contact j) h2 = true) -> (md' = Debug -> (0 < maxI)%nat) ->
  let b := mkBody m (Some c) (Some cd) (Some cdd) (Some sg) (Some sgd) (Some In') (Some Id) aF aT dt in
  dt <> 0 -> length x = N maxC maxI ->
  exists s3, ko_prepare md' s2 = Ok s3 /\ (contacts_at s3 a -> qn2 (qat md' s3 x) = 1 ->
    exists y, ko_stateDynamics md' b noise s3 x = Ok y /\ forall mo mi mg t,
     is_motion mo -> mp mo t = vat md' s3 x CPos -> mr mo t = qrot (qat md' s3 x) -> mv mo t = vat md' s3 x CLinVel -> mw mo t = vat md' s3 x CAngVel ->
      vat md' s3 y CLinVel = vadd (vat md' s3 x CLinVel) (vscal dt (ma mo t)) -> vat md' s3 y CAngVel = vadd (vat md' s3 x CAngVel) (vscal dt (mal mo t)) ->
      (forall n u, nth_error (o_imus s3) n = Some u -> i_time u = o_kdata s3 -> let i := Z.of_nat n in
         is_motion (mi i) /\ holds (i_kine u) (mi i) t /\ is_motion (mg i) /\
         forall u, mp (mg i) u = vadd (mp mo u) (mvec (mr mo u) (mp (mi i) u)) /\ mr (mg i) u = mmul (mr mo u) (mr (mi i) u)) ->
      ko_measure md' b noise' s3 x (o_kdata s3) = Ok (map Some (meas_of maxI maxC
         (fun i => option_map (fun _ => l3 (mvec (mtr (mr (mg i) t)) (vadd (ma (mg i) t) gravity)) ++ l3 (mvec (mtr (mr (mg i) t)) (mw (mg i) t))) (imu_signal h2 i))
         (fun j => option_map (fun _ => l3 (vat md' s3 x (CCForce j)) ++ l3 (vat md' s3 x (CCTorque j))) (contact_signal h2 j))
         (option_map (fun _ => part md' false s3 CPos x ++ part md' false s3 COri x) (pose_signal h2))))).
Proof.
  intros KF KU E0 Hn Hnw Hw E1 Hit Hf Hr Hw2 E2 Hall Hm b Hdt Lx.
  destruct (C51_measurement_vector_partial 0 k0 kfirst kupd mzero md md' maxC maxI ds di dw dp s h1 s1 h2 s2 (fun x _ => x) KF KU E0 Hn Hnw Hw E1 Hit Hf Hr Hw2 E2 Hall) as (E2' & s3 & Ep & _ & _ & HM & _).
  exists s3. split; [exact Ep|]. intros Ha Hq.
  assert (Hi : inv maxC maxI s3).
  { pose proof (init_inv _ _ _ _ _ _ _ _ _ _ E0) as Hi0. pose proof (run_inv _ _ _ _ _ _ _ _ _ _ Hn Hw Hi0 E1) as Hi1.
    eapply prepare_keep; [|exact Ep]. eapply run_inv; [|exact Hw2|exact Hi1|exact E2]. clear - Hf. induction h2 as [|o l IH]; [reflexivity|]. cbn in *.
    apply andb_prop in Hf. destruct Hf as [A B]. rewrite IH by exact B. now destruct o. }
  destruct (state_dynamics_ok md' maxC maxI s3 x a noise m c cd cdd sg sgd In' Id aF aT dt Hi Hm Lx Ha Hq) as (y & E & Ly & P & Q & U & V & W & _).
  exists y. split; [exact E|]. intros mo mi mg t Hmo Mp Mr Mv Mw EV EW HI. rewrite V in EV. rewrite W in EW.
  assert (X : forall u p q : V3, vadd u (vscal dt p) = vadd u (vscal dt q) -> p = q).
  { clear - Hdt. intros [u1 u2 u3] [p1 p2 p3] [q1 q2 q3] H. unfold vadd, vscal in H. cbn in H. injection H. intros. f_equal; apply (Rmult_eq_reg_l dt); auto; lra. }
  apply X in EV. apply X in EW.
  pose proof (measure_eq md' maxC maxI s3 x a noise' m c cd cdd sg sgd In' Id aF aT dt mo mi (fun i => ideal_imu (mg i) t) t Hi Hm Lx Ha Hq Mp Mr Mv Mw (eq_sym EV) (eq_sym EW)) as ME.
  unfold b. change (mkBody m _ _ _ _ _ _ _ _ _ _) with (bodyv m c cd cdd sg sgd In' Id aF aT dt). rewrite ME; clear ME.
  - apply HM; [reflexivity|reflexivity|]. rewrite app_length. pose proof (nx_eq maxC maxI) as NE. unfold cidx in NE.
    rewrite !(part_eq md' maxC maxI s3 _ x Hi Hm) by exact I. cbn [cval comp_size]. rewrite !seg_get_length by (change (N maxC maxI) with (nx maxC maxI) in Lx; lia). reflexivity.
  - intros j u Ej Tj. destruct (HI j u Ej Tj) as (Mi & Hh & Mg & HG). split; [exact Hh|].
    pose proof (mo_mul_motion _ _ Hmo Mi) as Mm.
    destruct (motion_unique _ _ Mm Mg) with (u := t) as (A1 & A2 & A3 & A4).
    + intros u'. rewrite (proj1 (HG u')). cbn. generalize (mvec (mr mo u') (mp (mi (Z.of_nat j)) u')) (mp mo u'). clear. intros; c3.
    + intros u'. rewrite (proj2 (HG u')). reflexivity.
    + unfold ideal_imu. rewrite A2, A3, (proj2 (HG t)). reflexivity.
Qed.

(** ** C86 *)
(** Refuted: the biases of the gyrometers are part of the state, but the predicted measurement does not depend on them. *)
Theorem C86_gyro_bias_refuted md maxC maxI ds di dw dp s h s' (x x' : list R) a mi t noise m c cd cdd sg sgd In' Id aF aT dt :
  init md maxC maxI ds di dw dp = Ok s -> forallb no_clear h = true -> Forall (wf_op (N maxC maxI)) h -> in_use md h s s' ->
  length x = N maxC maxI -> length x' = N maxC maxI -> contacts_at s' a -> qn2 (qat md s' x) = 1 ->
  (forall n u, nth_error (o_imus s') n = Some u -> i_time u = o_kdata s' -> holds (i_kine u) (mi (Z.of_nat n)) t) ->
  (forall k, (forall i, k <> CGyro i) -> part md false s' k x' = part md false s' k x) ->
  let b := mkBody m (Some c) (Some cd) (Some cdd) (Some sg) (Some sgd) (Some In') (Some Id) aF aT dt in
  ko_measure md b noise s' x' (o_kdata s') = ko_measure md b noise s' x (o_kdata s').
Proof.
  intros E0 Hn Hw Hu Lx Lx' Ha Hq HI He b. destruct (use_inv _ _ _ _ _ _ _ _ _ _ _ _ _ _ _ E0 Hn Hw Hu) as [Hi Hm].
  assert (Ev : forall k, (forall i, k <> CGyro i) -> vat md s' x' k = vat md s' x k) by (intros; unfold vat; now rewrite He).
  assert (EQ : qat md s' x' = qat md s' x) by (unfold qat; rewrite He; [reflexivity|discriminate]).
  assert (Hq' : qn2 (qat md s' x') = 1) by (rewrite EQ; exact Hq).
  assert (EF : total_force md b s' a x' = total_force md b s' a x).
  { unfold total_force. rewrite Ev by discriminate. do 3 f_equal. apply map_ext. intros i. rewrite Ev; [reflexivity|discriminate]. }
  assert (ET : total_torque md b s' a x' = total_torque md b s' a x).
  { unfold total_torque. rewrite Ev by discriminate. do 3 f_equal. apply map_ext. intros i. rewrite !Ev; [reflexivity|discriminate|discriminate]. }
  set (r := qrot (qat md s' x)). set (wl := mvec (mtr r) (vat md s' x CAngVel)). set (al := al_loc m c cd cdd sg sgd In' Id wl (total_force md b s' a x) (total_torque md b s' a x)).
  set (mo := mkMo (fun _ => vat md s' x CPos) (fun _ => r) (fun _ => vat md s' x CLinVel) (fun _ => vat md s' x CAngVel)
     (fun _ => vsub (mvec r (la_loc m c cd cdd wl (total_force md b s' a x) al)) gravity) (fun _ => mvec r al)).
  pose proof (measure_eq md maxC maxI s' x a noise m c cd cdd sg sgd In' Id aF aT dt mo mi (fun i => ideal_imu (mo_mul mo (mi i)) t) t Hi Hm Lx Ha Hq eq_refl eq_refl eq_refl eq_refl eq_refl eq_refl) as M1.
  pose proof (measure_eq md maxC maxI s' x' a noise m c cd cdd sg sgd In' Id aF aT dt mo mi (fun i => ideal_imu (mo_mul mo (mi i)) t) t Hi Hm Lx' Ha Hq') as M2.
  change (bodyv m c cd cdd sg sgd In' Id aF aT dt) with b in M1, M2. cbv zeta in M2. rewrite EQ, EF, ET, !(Ev CPos), !(Ev CLinVel), !(Ev CAngVel) in M2 by discriminate.
  rewrite M1, M2; auto; clear M1 M2.
  rewrite !He by discriminate. unfold ko_measureDynamics.
  assert (G : forall cs z y, predict_contacts md (o_kdata s') (fun j => l3 (vat md s' x' (CCForce j)) ++ l3 (vat md s' x' (CCTorque j))) cs z y =
     predict_contacts md (o_kdata s') (fun j => l3 (vat md s' x (CCForce j)) ++ l3 (vat md s' x (CCTorque j))) (cs : list (contact R Kin M3 C)) z y).
  { induction cs as [|ct cs IH]; intros z y; cbn [predict_contacts]; [reflexivity|]. rewrite !Ev by discriminate.
    destruct (c_set ct && (c_time ct =? o_kdata s')%Z && c_real ct); cbn [obind]; [|apply IH].
    destruct (seg_set md (c_midx ct) _ y); cbn [obind]; try reflexivity. apply IH. }
  destruct (predict_imus md (o_kdata s') _ (o_imus s') 0 _) as [y1| | |]; try reflexivity. cbn [obind]. rewrite G. reflexivity.
Qed.

(** ** C88 *)
(** Refuted: the noises that the user can set change neither the predicted state nor the predicted measurement. *)
Theorem C88_noise_refuted md b (f : list R -> list R) (g : list (option R) -> list (option R)) s x k :
  ko_stateDynamics md b (Some f) s x = ko_stateDynamics md b None s x /\ ko_measure md b (Some g) s x k = ko_measure md b None s x k.
Proof. split; reflexivity. Qed.
End KineticsDynamics.

(** ** Concrete cases *)
Notation xobs := (obs R Kin M3 unit).
Definition xinit md maxC maxI : outcome xobs := ko_init 0 k_empty md maxC maxI (m1, m1, m1, m1) (tt, tt) tt tt.
Definition xrun md : list (ko_op R Kin M3 unit) -> xobs -> outcome xobs := ko_run 0 (fun _ k => Ok k) (fun _ _ _ k => Ok k) (fun _ => false) md.
Definition xuse md : list (ko_op R Kin M3 unit) -> xobs -> xobs -> Prop := in_use 0 (fun _ k => Ok k) (fun _ _ _ k => Ok k) (fun _ => false) md.
(** The contact and the IMU are at the origin of the robot and at rest in it. *)
Definition xkine : Kin := mkK (Some v0) (o_quat q1) (Some v0) (Some v0) (Some v0) (Some v0).
Definition xframes : frames := mkFr (fun _ => m1) (fun _ => v0) (fun _ => v0) (fun _ => v0).
Definition xhist : list (ko_op R Kin M3 unit) := [KAdd [1; 0; 0; 0; 0; 0; 1] 0 (m1, m1, m1, m1); KIMU [0; 0; 0; 0; 0; 0] None xkine 0; KNoSensor xkine 0].
(** One contact, one IMU; a state: the robot at [p] with orientation [q] and velocities [v], [w], the bias [g] of the gyrometer,
    the rest position [r] of the contact, no wrench. *)
Definition xstate (p : V3) (q : Q4) (v w g r : V3) : list R := l3 p ++ l4 q ++ l3 v ++ l3 w ++ l3 g ++ [0; 0; 0; 0; 0; 0] ++ l3 r ++ [0; 0; 0; 1] ++ [0; 0; 0; 0; 0; 0].
Definition xs : xobs := match xinit Debug 1 1 with Ok s => match xrun Debug xhist s with Ok s' => s' | _ => s end
  | _ => mkObs 0 0 [] [] (mkPose 0 [] None 0) 0 0 0 0 true false false [] [] [] [] (m1, m1, m1, m1) (tt, tt) tt tt end.
Lemma x_use md : exists s, xinit md 1 1 = Ok s /\ forallb no_clear xhist = true /\ Forall (wf_op (Z.to_nat (stateSize 1 1))) xhist /\ xuse md xhist s xs.
Proof.
  destruct (xinit md 1 1) as [s| | |] eqn:E; try (destruct md; vm_compute in E; discriminate). exists s. split; [reflexivity|]. split; [reflexivity|].
  split; [unfold xhist; repeat (apply Forall_cons; [exact eq_refl || exact I|]); apply Forall_nil|].
  left. unfold xrun. destruct md; vm_compute in E; injection E as <-; vm_compute; reflexivity.
Qed.
Lemma x_inv : inv 1 1 xs.
Proof.
  destruct (x_use Debug) as (s & E0 & Hn & Hw & Hu). eapply use_inv; [exact E0|exact Hn|exact Hw|exact Hu].
Qed.
Lemma x_contacts : contacts_at xs xframes.
Proof.
  intros j Hj. assert (j = 0%Z) as -> by (vm_compute in Hj; intuition lia).
  assert (Cq : coh (o_quat q1)) by (apply coh_quat; unfold qn2, q1; cbn; ring).
  eexists. split; [vm_compute; reflexivity|]. cbn [c_kine ko kp kv kw]. change (mkO _ _) with (o_quat q1). split; [exact Cq|]. split; [|auto]. unfold rot. cbn [om oq o_quat]. f_equal. vm_compute. f_equal; ring.
Qed.
Lemma x_parts md p q v w g r : let x := xstate p q v w g r in length x = 35%nat /\ vat md xs x CPos = p /\ qat md xs x = q /\ vat md xs x CLinVel = v /\
  vat md xs x CAngVel = w /\ vat md xs x (CGyro 0) = g /\ vat md xs x CUForce = v0 /\ vat md xs x CUTorque = v0 /\
  vat md xs x (CCPos 0) = r /\ vat md xs x (CCForce 0) = v0 /\ vat md xs x (CCTorque 0) = v0.
Proof. destruct md, p, q, v, w, g, r; repeat split. Qed.
(** The predicted state of this observer. *)
Lemma x_dyn md p q v w g r noise m c cd cdd sg sgd In' Id aF aT dt A L : qn2 q = 1 -> let wl := mvec (mtr (qrot q)) w in let al := al_loc m c cd cdd sg sgd In' Id wl aF aT in
  mvec (qrot q) al = L -> vsub (mvec (qrot q) (la_loc m c cd cdd wl aF al)) gravity = A ->
  let b := mkBody m (Some c) (Some cd) (Some cdd) (Some sg) (Some sgd) (Some In') (Some Id) aF aT dt in
  let q' := qmul (rv_quat (vadd (vscal dt w) (vscal (dt * dt / 2) L))) q in let p' := vadd p (vadd (vscal dt v) (vscal (dt * dt / 2) A)) in
  total_force md b xs xframes (xstate p q v w g r) = aF /\ total_torque md b xs xframes (xstate p q v w g r) = aT /\
  exists y, ko_stateDynamics md b noise xs (xstate p q v w g r) = Ok y /\ vat md xs y CPos = p' /\ qat md xs y = q' /\
    vat md xs y CLinVel = vadd v (vscal dt A) /\ vat md xs y CAngVel = vadd w (vscal dt L) /\
    vat md xs y (CCForce 0) = vneg (mvec (mtr (qrot q')) (vadd p' (vadd v (vscal dt A)))) /\
    vat md xs y (CCTorque 0) = vneg (mvec (mtr (qrot q')) (vadd (vscal (1 / 2) (qvec q')) (vadd w (vscal dt L)))).
Proof.
  intros U wl al EL EA b q' p'. pose proof (x_parts md p q v w g r) as X. cbv zeta in X. destruct X as (Lx & X1 & X2 & X3 & X4 & X5 & X6 & X7 & X8 & X9 & X10).
  set (x := xstate p q v w g r) in *.
  assert (EF : total_force md b xs xframes x = aF).
  { unfold total_force. change (ko_getListOfContacts xs) with [0%Z]. cbn [map vsum fold_right fr xframes b b_addF]. rewrite X6, X9, mvec_0. clear. c3. }
  assert (ET : total_torque md b xs xframes x = aT).
  { unfold total_torque. change (ko_getListOfContacts xs) with [0%Z]. cbn [map vsum fold_right fr fp xframes b b_addT]. rewrite X7, X9, X10, !mvec_0. clear. c3. }
  split; [exact EF|]. split; [exact ET|].
  assert (Hq : qn2 (qat md xs x) = 1) by (rewrite X2; exact U).
  destruct (state_dynamics_ok md 1 1 xs x xframes noise m c cd cdd sg sgd In' Id aF aT dt x_inv (fun _ => le_n 1) Lx x_contacts Hq) as (y & E & Ly & P & Q & U' & V & W & K & _).
  change (bodyv m c cd cdd sg sgd In' Id aF aT dt) with b in *. rewrite X1, X2, X3, X4, EF, ET in *. fold wl al in P, Q, V, W. rewrite EA, EL in *. fold q' in Q. fold p' in P.
  exists y. split; [exact E|]. do 4 (split; [assumption|]).
  destruct (K 0%Z) as (ct & qq & Ec & _ & _ & Hqq & Kf & Kt); [left; reflexivity|]. fold wl al in Hqq, Kf, Kt. rewrite EL in Hqq, Kf, Kt. fold q' in Hqq, Kf, Kt.
  vm_compute in Ec. injection Ec as <-. specialize (Hqq q1 eq_refl). subst qq. rewrite Kf, Kt, P, V, W.
  assert (St : forall st : M3 * M3 * M3 * M3, st = (m1, m1, m1, m1) -> forall r1 p1 v1 w1, wforce r1 m1 st p1 v1 = vneg (mvec (mtr r1) (vadd p1 v1)) /\
     wtorque r1 m1 st q' w1 = vneg (mvec (mtr r1) (vadd (vscal (1 / 2) (qvec q')) w1))).
  { clear. intros st -> r1 p1 v1 w1. unfold wforce, wtorque. rewrite mmul_1_r, !mvec_1. auto. }
  cbn [fr xframes c_stiff]. match goal with |- context [wforce _ _ ?st _ _] => destruct (St st eq_refl (qrot q') p' (vadd v (vscal dt A)) (vadd w (vscal dt L))) as [S1 S2] end.
  rewrite S1, S2. auto.
Qed.
Lemma rv_quat_v0 : rv_quat v0 = q1.
Proof.
  unfold rv_quat, rv_aa. destruct (Rlt_dec _ _) as [H|_].
  - exfalso. pose proof epsA_pos. unfold vsq, vdot, v0 in H. cbn in H. nra.
  - unfold aa_quat, uz, q1. cbn [vx vy vz]. replace (0 / 2) with 0 by field. rewrite cos_0, sin_0. f_equal; ring.
Qed.
(** The robot at rest, its weight compensated by the additional force. *)
Definition xbody (q : Q4) (dt : R) : body := mkBody 1 (Some v0) (Some v0) (Some v0) (Some v0) (Some v0) (Some m1) (Some mz) (mvec (mtr (qrot q)) gravity) v0 dt.
Lemma x_rest md p q g r noise dt : qn2 q = 1 -> exists y, ko_stateDynamics md (xbody q dt) noise xs (xstate p q v0 v0 g r) = Ok y /\
  vat md xs y CPos = p /\ qat md xs y = q /\ vat md xs y CLinVel = v0 /\ vat md xs y CAngVel = v0 /\
  vat md xs y (CCForce 0) = vneg (mvec (mtr (qrot q)) p) /\ vat md xs y (CCTorque 0) = vneg (mvec (mtr (qrot q)) (vscal (1 / 2) (qvec q))).
Proof.
  intros U. pose proof (qrot_so3 q U) as S.
  assert (Hal : al_loc 1 v0 v0 v0 v0 v0 m1 mz (mvec (mtr (qrot q)) v0) (mvec (mtr (qrot q)) gravity) v0 = v0).
  { unfold al_loc. rewrite mvec_0. match goal with |- mvec _ ?u = _ => assert (Z : u = v0) end.
    - unfold corio. generalize (mvec (mtr (qrot q)) gravity). clear. intros. c3.
    - rewrite Z. apply mvec_0. }
  assert (Hla : la_loc 1 v0 v0 v0 (mvec (mtr (qrot q)) v0) (mvec (mtr (qrot q)) gravity) v0 = mvec (mtr (qrot q)) gravity).
  { unfold la_loc, corio. rewrite mvec_0. generalize (mvec (mtr (qrot q)) gravity). clear. intros. d3. u3. f_equal; field. }
  destruct (x_dyn md p q v0 v0 g r noise 1 v0 v0 v0 v0 v0 m1 mz (mvec (mtr (qrot q)) gravity) v0 dt v0 v0 U) as (_ & _ & y & E & P & Q & V & W & Kf & Kt).
  - rewrite Hal. apply mvec_0.
  - rewrite Hal, Hla, so3_vec_tr by exact S. generalize gravity. clear. intros. c3.
  - assert (Z : forall u k, vadd u (vscal k v0) = u) by (clear; intros; c3). assert (Z0 : forall k, vscal k v0 = v0) by (clear; intros; c3).
    rewrite !Z, ?Z0, ?rv_quat_v0, ?qmul_1_l, ?vadd_0_r in *. exists y. auto 10.
Qed.
(** C56: the robot (and the contact with it) rests at p, the rest position of the contact is r, the stiffness is the identity: the
    predicted force is -p, not r - p. With p = 0 and r far away there is none. *)
Theorem C56_displacement_refuted md dt (p r : V3) : exists y, let x := xstate p q1 v0 v0 v0 r in ko_stateDynamics md (xbody q1 dt) None xs x = Ok y /\
  vat md xs x (CCPos 0) = r /\ vat md xs y CPos = p /\ vat md xs y CLinVel = v0 /\ vat md xs y (CCForce 0) = vneg p.
Proof.
  assert (U : qn2 q1 = 1) by (unfold qn2, q1; cbn; ring).
  destruct (x_rest md p q1 v0 r None dt U) as (y & E & P & Q & V & W & Kf & _). exists y. cbv zeta. pose proof (x_parts md p q1 v0 v0 v0 r) as X. cbv zeta in X.
  split; [exact E|]. split; [apply X|]. split; [exact P|]. split; [exact V|]. rewrite Kf. f_equal. clear. destruct p. unfold qrot, q1. c3.
Qed.
(** ** C87 *)
(** Refuted: the predicted torque of a contact depends on which of the two quaternions of the orientation is in the
    state. *)
Theorem C87_quaternion_sign_refuted md dt : let q := mkQ (3 / 5) (4 / 5) 0 0 in
  qn2 q = 1 /\ qrot (qneg q) = qrot q /\
  exists y y', ko_stateDynamics md (xbody q dt) None xs (xstate v0 q v0 v0 v0 v0) = Ok y /\ ko_stateDynamics md (xbody q dt) None xs (xstate v0 (qneg q) v0 v0 v0 v0) = Ok y' /\
    vat md xs y (CCTorque 0) = mkV (- (2 / 5)) 0 0 /\ vat md xs y' (CCTorque 0) = mkV (2 / 5) 0 0.
Proof.
  intros q. assert (U : qn2 q = 1) by (unfold qn2, q; cbn; field). assert (U' : qn2 (qneg q) = 1) by (unfold qn2, qneg, q; cbn; field).
  assert (Rq : qrot (qneg q) = qrot q) by (unfold q, qneg; clear; c3). split; [exact U|]. split; [exact Rq|].
  destruct (x_rest md v0 q v0 v0 None dt U) as (y & E & _ & _ & _ & _ & _ & Kt). destruct (x_rest md v0 (qneg q) v0 v0 None dt U') as (y' & E' & _ & _ & _ & _ & _ & Kt').
  assert (B : xbody (qneg q) dt = xbody q dt) by (unfold xbody; now rewrite Rq). rewrite B in E'. rewrite Rq in Kt'.
  exists y, y'. split; [exact E|]. split; [exact E'|]. rewrite Kt, Kt'. unfold q. clear. split; unfold qneg, qrot, qvec; u3; cbn; unfold vneg, vscal, mvec; cbn; f_equal; field.
Qed.
(** ** C83 refuted, C82 met *)
(** A robot of mass 1 turns about the vertical at 1 rad/s, its centre of mass 1 m away from the axis; the given wrench is such
    that the dynamics predict no acceleration of the origin. *)
Definition wz : V3 := mkV 0 0 1.
Definition sbody (dt : R) : body := mkBody 1 (Some ux) (Some v0) (Some v0) (Some v0) (Some v0) (Some (mscal 2 m1)) (Some mz) (mkV (- 2) 0 (98 / 10)) (mkV 0 (- (98 / 10)) 0) dt.
Definition smo : motion := mo_const v0 v0 v0 m1 wz.
Lemma smo_ok : is_motion smo /\ mp smo 0 = v0 /\ mr smo 0 = m1 /\ mv smo 0 = v0 /\ mw smo 0 = wz /\ ma smo 0 = v0 /\ mal smo 0 = v0.
Proof.
  split; [apply mo_const_motion, so3_1|]. unfold smo, mo_const. cbn [mp mr mv mw ma mal]. rewrite !vscal_0, rodrigues_0, mmul_1_l.
  replace (0 * 0 / 2) with 0 by field. rewrite vscal_0, !vadd_0_r. auto 10.
Qed.
Lemma s_dyn md dt : let x := xstate v0 q1 v0 wz v0 v0 in
  total_force md (sbody dt) xs xframes x = mkV (- 2) 0 (98 / 10) /\ total_torque md (sbody dt) xs xframes x = mkV 0 (- (98 / 10)) 0 /\
  exists y, ko_stateDynamics md (sbody dt) None xs x = Ok y /\ vat md xs y CLinVel = vadd (vat md xs x CLinVel) (vscal dt (ma smo 0)) /\ vat md xs y CAngVel = vadd (vat md xs x CAngVel) (vscal dt (mal smo 0)).
Proof.
  cbv zeta. assert (U : qn2 q1 = 1) by (unfold qn2, q1; cbn; ring).
  assert (Hal : al_loc 1 ux v0 v0 v0 v0 (mscal 2 m1) mz (mvec (mtr (qrot q1)) wz) (mkV (- 2) 0 (98 / 10)) (mkV 0 (- (98 / 10)) 0) = v0).
  { unfold al_loc. match goal with |- mvec _ ?u = _ => assert (Z : u = v0) end; [|rewrite Z; apply mvec_0]. unfold corio, qrot, q1, wz, ux. clear. u3. cbn. f_equal; field. }
  destruct (x_dyn md v0 q1 v0 wz v0 v0 None 1 ux v0 v0 v0 v0 (mscal 2 m1) mz (mkV (- 2) 0 (98 / 10)) (mkV 0 (- (98 / 10)) 0) dt v0 v0 U) as (F & T & y & E & _ & _ & V & W & _).
  - rewrite Hal. apply mvec_0.
  - rewrite Hal. unfold la_loc, corio, qrot, q1, wz, ux, gravity. clear. u3. cbn. f_equal; field.
  - split; [exact F|]. split; [exact T|]. exists y. split; [exact E|]. destruct smo_ok as (_ & _ & _ & _ & _ & -> & ->).
    pose proof (x_parts md v0 q1 v0 wz v0 v0) as X. cbv zeta in X. destruct X as (_ & _ & _ & -> & -> & _). auto.
Qed.
Theorem C83_balance_of_forces_refuted md dt : dt <> 0 -> let x := xstate v0 q1 v0 wz v0 v0 in
  exists y mo V G, ko_stateDynamics md (sbody dt) None xs x = Ok y /\ is_motion mo /\ mp mo 0 = vat md xs x CPos /\ mr mo 0 = qrot (qat md xs x) /\ mv mo 0 = vat md xs x CLinVel /\ mw mo 0 = vat md xs x CAngVel /\
    vat md xs y CLinVel = vadd (vat md xs x CLinVel) (vscal dt (ma mo 0)) /\ vat md xs y CAngVel = vadd (vat md xs x CAngVel) (vscal dt (mal mo 0)) /\
    (forall u, vderiv (fun u => vadd (mp mo u) (mvec (mr mo u) ux)) u (V u)) /\ vderiv V 0 G /\
    vscal 1 (vadd G gravity) <> mvec (mr mo 0) (total_force md (sbody dt) xs xframes x).
Proof.
  intros Hdt x. destruct (x_use md) as (s & E0 & Hn & Hw & Hu). pose proof (x_parts md v0 q1 v0 wz v0 v0) as X. cbv zeta in X. fold x in X. destruct X as (Lx & X1 & X2 & X3 & X4 & _).
  assert (U : qn2 (qat md xs x) = 1) by (rewrite X2; unfold qn2, q1; cbn; ring).
  destruct (C83_balance_of_forces_partial k_empty _ _ _ md 1 1 _ _ _ _ s xhist xs x xframes None 1 (fun _ => ux) (fun _ => v0) (fun _ => v0) v0 v0 (mscal 2 m1) mz (mkV (- 2) 0 (98 / 10)) (mkV 0 (- (98 / 10)) 0) dt 0
     E0 Hn Hw Hu Lx x_contacts U R1_neq_R0 Hdt (fun u => vd_const _ u) (fun u => vd_const _ u)) as (y & E & H).
  destruct (s_dyn md dt) as (F & T & y' & E' & V & W). change (mkBody 1 _ _ _ _ _ _ _ _ _ _) with (sbody dt) in *. fold x in E', V, W, F.
  assert (y' = y) as -> by congruence. destruct smo_ok as (M0 & M1 & M2 & M3 & M4 & M5 & M6).
  assert (RM : mr smo 0 = qrot (qat md xs x)) by (rewrite M2, X2; unfold qrot, q1; clear; c3).
  destruct (H smo M0 RM) as (Vc & G & D1 & D2 & Hi); [congruence|exact V|exact W|].
  exists y, smo, Vc, G. do 2 (split; [assumption|]). split; [congruence|]. split; [exact RM|]. split; [congruence|]. split; [congruence|]. do 4 (split; [assumption|]).
  intros Z. apply (proj1 Hi) in Z. rewrite M2, M4 in Z. cbv zeta in Z. apply (f_equal vx) in Z. unfold wz, ux in Z. cbn in Z. lra.
Qed.
Lemma s_curves dt : dt <> 0 -> mdet (madd (mscal 2 m1) (mscal 1 (skew2 ux))) <> 0 /\ mderiv (fun _ => mscal 2 m1) 0 mz /\ vderiv (fun _ => v0) 0 v0.
Proof.
  intros H. split; [|split; [apply md_const|apply vd_const]]. replace (mdet _) with 2 by (unfold ux; clear; u3; cbn; ring). lra.
Qed.
(** The hypotheses of C82, C83 and C84: this robot, with the observer after its history. *)
Example C82_case md dt : dt <> 0 -> let x := xstate v0 q1 v0 wz v0 v0 in (exists s, xinit md 1 1 = Ok s /\ forallb no_clear xhist = true /\ Forall (wf_op (Z.to_nat (stateSize 1 1))) xhist /\ xuse md xhist s xs) /\
  length x = Z.to_nat (stateSize 1 1) /\ contacts_at xs xframes /\ qn2 (qat md xs x) = 1 /\
  mdet (madd (mscal 2 m1) (mscal 1 (skew2 ux))) <> 0 /\ mderiv (fun _ => mscal 2 m1) 0 mz /\ vderiv (fun _ => v0) 0 v0 /\
  is_motion smo /\ mr smo 0 = qrot (qat md xs x) /\ mw smo 0 = vat md xs x CAngVel /\
  exists y, ko_stateDynamics md (sbody dt) None xs x = Ok y /\ vat md xs y CLinVel = vadd (vat md xs x CLinVel) (vscal dt (ma smo 0)) /\ vat md xs y CAngVel = vadd (vat md xs x CAngVel) (vscal dt (mal smo 0)).
Proof.
  intros Hdt x. pose proof (x_parts md v0 q1 v0 wz v0 v0) as X. cbv zeta in X. fold x in X. destruct X as (Lx & X1 & X2 & X3 & X4 & _). destruct (s_curves dt Hdt) as (C1 & C2 & C3). destruct smo_ok as (M0 & M1 & M2 & M3 & M4 & M5 & M6).
  split; [apply x_use|]. split; [exact Lx|]. split; [apply x_contacts|]. split; [rewrite X2; unfold qn2, q1; cbn; ring|]. do 4 (split; [assumption|]).
  split; [rewrite M2, X2; unfold qrot, q1; clear; c3|]. split; [congruence|]. apply s_dyn.
Qed.
(** Two states that differ in the rest pose only, and two that differ in the bias only: the hypotheses of C56 and C86. *)
Lemma x_start md k : comp_start md false xs k = match k with
  | CPos => Ok 0%Z | COri => Ok 3%Z | CLinVel => Ok 7%Z | CAngVel => Ok 10%Z | CGyro i => gyroBiasIndex md 1 i | CUForce => Ok 16%Z | CUTorque => Ok 19%Z
  | CCPos j => ko_contactPosIndex md j xs | CCOri j => ko_contactOriIndex md j xs | CCForce j => ko_contactForceIndex md j xs | CCTorque j => ko_contactTorqueIndex md j xs end.
Proof. destruct md, k; reflexivity. Qed.
Lemma x_index md j z : ko_contactIndex md j xs = Ok z -> z = 22%Z.
Proof.
  unfold ko_contactIndex. intros E. apply obind_Ok_inv in E. destruct E as (? & _ & E). apply obind_Ok_inv in E. destruct E as (c & Ec & E). apply obind_Ok_inv in E. destruct E as (? & _ & E).
  assert (Z : c_sidx c = 22%Z).
  { unfold vec_at in Ec. destruct (_ <? 0)%Z; [discriminate|]. destruct (Z.to_nat j) as [|n]; [vm_compute in Ec; injection Ec as <-; reflexivity|].
    exfalso. change (nth_error (o_contacts xs) (S n)) with (nth_error (@nil (contact R Kin M3 unit)) n) in Ec. destruct n; discriminate. }
  rewrite Z in E. apply Ok_inj in E. auto.
Qed.
Example C56_rest_case md p q v w g r r' : let x := xstate p q v w g r in let x' := xstate p q v w g r' in
  forall k, comp_exists xs k -> (forall j, k <> CCPos j /\ k <> CCOri j) -> part md false xs k x' = part md false xs k x.
Proof.
  cbv zeta. intros k Hk Hn. destruct k as [| | | |i| | |j|j|j|j]; try (destruct md, p, q, v, w; reflexivity);
    try (exfalso; destruct (Hn j); congruence); cbn [comp_exists] in Hk.
  - assert (i = 0%Z) as -> by (change (o_maxI xs) with 1%Z in Hk; lia). destruct md, p, q, v, w, g; reflexivity.
  - assert (j = 0%Z) as -> by (vm_compute in Hk; intuition lia). destruct md, p, q, v, w, g, r, r'; reflexivity.
  - assert (j = 0%Z) as -> by (vm_compute in Hk; intuition lia). destruct md, p, q, v, w, g, r, r'; reflexivity.
Qed.
Definition still : motion := mkMo (fun _ => v0) (fun _ => m1) (fun _ => v0) (fun _ => v0) (fun _ => v0) (fun _ => v0).
Lemma still_motion : is_motion still.
Proof. intros t. cbn. split; [exact so3_1|]. split; [apply vd_const|]. split; [apply vd_const|]. split; [eapply md_eq; [apply md_const|c3]|apply vd_const]. Qed.
Lemma still_holds t : holds xkine still t.
Proof.
  unfold holds, xkine, still. cbn. split; [reflexivity|]. split; [apply coh_quat; unfold qn2, q1; cbn; ring|]. split; [unfold rot; cbn; f_equal; c3|]. auto.
Qed.
Example C86_case md p q v w g g' r : let x := xstate p q v w g r in let x' := xstate p q v w g' r in
  (forall k, (forall i, k <> CGyro i) -> part md false xs k x' = part md false xs k x) /\ vat md xs x (CGyro 0) = g /\ vat md xs x' (CGyro 0) = g' /\
  (exists u, nth_error (o_imus xs) 0 = Some u /\ i_time u = o_kdata xs) /\
  (forall n u, nth_error (o_imus xs) n = Some u -> i_time u = o_kdata xs -> holds (i_kine u) still 0).
Proof.
  cbv zeta. split.
  { intros k Hk. unfold part. rewrite x_start. destruct k as [| | | |i| | |j|j|j|j]; try (destruct p, q, v, w, g, g'; reflexivity).
    - exfalso. apply (Hk i). reflexivity.
    - unfold ko_contactPosIndex. destruct (ko_contactIndex md j xs) eqn:E; try reflexivity. apply x_index in E. subst. destruct p, q, v, w, g, g'; reflexivity.
    - unfold ko_contactOriIndex, ko_contactPosIndex. destruct (ko_contactIndex md j xs) eqn:E; try reflexivity. apply x_index in E. subst. destruct p, q, v, w, g, g'; reflexivity.
    - unfold ko_contactForceIndex. destruct (ko_contactIndex md j xs) eqn:E; try reflexivity. apply x_index in E. subst. destruct p, q, v, w, g, g'; reflexivity.
    - unfold ko_contactTorqueIndex, ko_contactForceIndex. destruct (ko_contactIndex md j xs) eqn:E; try reflexivity. apply x_index in E. subst. destruct p, q, v, w, g, g'; reflexivity. }
  split; [apply x_parts|]. split; [apply x_parts|]. split; [eexists; split; [vm_compute; reflexivity|reflexivity]|].
  intros [|n] u E _; [|exfalso; destruct n; vm_compute in E; discriminate].
  assert (i_kine u = xkine) as -> by (vm_compute in E; injection E as <-; reflexivity). apply still_holds.
Qed.
(** The hypotheses of C85: a contact is added; in the first iteration the IMU and the contact report; the robot is at rest. *)
Example C85_case : exists s s1 s2 s3, xinit Debug 1 1 = Ok s /\ xrun Debug [KAdd [1; 0; 0; 0; 0; 0; 1] 0 (m1, m1, m1, m1)] s = Ok s1 /\
  xrun Debug [KIMU [0; 0; 0; 0; 0; 0] None xkine 0; KWrench [0; 0; 0; 0; 0; 0] None xkine 0] s1 = Ok s2 /\ ko_prepare Debug s2 = Ok s3 /\ contacts_at s3 xframes /\
  (exists u, nth_error (o_imus s3) 0 = Some u /\ i_time u = o_kdata s3 /\ i_kine u = xkine) /\ holds xkine still 0 /\ is_motion still /\ length (o_meas s3) = 12%nat.
Proof.
  do 4 eexists. split; [vm_compute; reflexivity|]. split; [vm_compute; reflexivity|]. split; [vm_compute; reflexivity|]. split; [vm_compute; reflexivity|]. split; [|split; [|split; [apply still_holds|split; [apply still_motion|reflexivity]]]].
  - intros j Hj. assert (j = 0%Z) as -> by (vm_compute in Hj; intuition lia).
    assert (Cq : coh (o_quat q1)) by (apply coh_quat; unfold qn2, q1; cbn; ring).
    eexists. split; [vm_compute; reflexivity|]. cbn [c_kine ko kp kv kw]. change (mkO _ _) with (o_quat q1). split; [exact Cq|]. split; [|auto]. unfold rot. cbn [om oq o_quat]. f_equal. vm_compute. f_equal; ring.
  - eexists. split; [vm_compute; reflexivity|]. split; reflexivity.
Qed.

Print Assumptions C84_state_dynamics.
Print Assumptions C82_balance_of_moments.
Print Assumptions C83_balance_of_forces_partial.
Print Assumptions C56_contact_wrench_partial.
Print Assumptions C56_rest_pose_refuted.
Print Assumptions C85_predicted_measurement_partial.
Print Assumptions C86_gyro_bias_refuted.
Print Assumptions C88_noise_refuted.
Print Assumptions C56_displacement_refuted.
Print Assumptions C87_quaternion_sign_refuted.
Print Assumptions C83_balance_of_forces_refuted.
