(** Property C163: the kinetics observer of a robot that stands still. *)
From Coq Require Import Reals ZArith List Bool Lia Lra.
From Verif Require Import Base Vec3 Rot SpecRot RotProofs RotProofs3 Orient SpecOrient OrientProofs Kine SpecKine KineProofs KineProofs2
  KinObs SpecKin KinSum SpecKinSum KinProofs KinInv KinThms KinMeas SegProofs KinSumProofs KinSumProofs2 KinDyn SpecKinDyn KinDynProofs KinDynProofs2 KinDynThms
  KinDynMeas KinRest PropKin PropKinDyn.
Import ListNotations.
Open Scope R_scope.

Section KineticsRest.
Context (k0 : Kin) (kfirst : mode -> Kin -> outcome Kin) (kupd : mode -> Z -> Kin -> Kin -> outcome Kin) (mzero : M3 -> bool) {C : Type}.
Notation obs := (obs R Kin M3 C).
Notation init := (ko_init 0 k0).
Notation in_use := (in_use 0 kfirst kupd mzero).
Notation N maxC maxI := (Z.to_nat (stateSize (Z.of_nat maxC) (Z.of_nat maxI))).
Implicit Types s : obs.

(** C163. A robot whose body does not move (no velocity in the state, nothing moving inside the robot) is predicted without velocity
    exactly when the forces carry its weight and have the moment of the weight about the origin of the robot. Its
    position and its quaternion are then predicted as they are. *)
Theorem C163_at_rest_exactly_in_equilibrium md maxC maxI ds di dw dp s h s' (x : list R) a noise m c In' Id aF aT dt :
  init md maxC maxI ds di dw dp = Ok s -> forallb no_clear h = true -> Forall (wf_op (N maxC maxI)) h -> in_use md h s s' ->
  length x = N maxC maxI -> contacts_at s' a -> qn2 (qat md s' x) = 1 -> vat md s' x CLinVel = v0 -> vat md s' x CAngVel = v0 ->
  m <> 0 -> mdet (madd In' (mscal m (skew2 c))) <> 0 -> dt <> 0 ->
  let b := mkBody m (Some c) (Some v0) (Some v0) (Some v0) (Some v0) (Some In') (Some Id) aF aT dt in
  let F := total_force md b s' a x in let T := total_torque md b s' a x in
  exists y, ko_stateDynamics md b noise s' x = Ok y /\
    (vat md s' y CLinVel = v0 /\ vat md s' y CAngVel = v0 <-> mvec (qrot (qat md s' x)) F = vscal m gravity /\ T = vcross c F) /\
    (vat md s' y CLinVel = v0 /\ vat md s' y CAngVel = v0 -> vat md s' y CPos = vat md s' x CPos /\ qat md s' y = qat md s' x).
Proof.
  intros E0 Hn Hw Hu Lx Ha Hq V0 W0 Hm0 Hd Hdt b F T. destruct (use_inv _ _ _ _ _ _ _ _ _ _ _ _ _ _ _ E0 Hn Hw Hu) as [Hi Hm].
  destruct (state_dynamics_ok md maxC maxI s' x a noise m c v0 v0 v0 v0 In' Id aF aT dt Hi Hm Lx Ha Hq) as (y & E & Ly & P & Q & U & V & W & _).
  exists y. split; [exact E|]. change (bodyv m c v0 v0 v0 v0 In' Id aF aT dt) with b in *. fold F T in P, Q, V, W. rewrite V0, W0, mvec_0 in *.
  pose proof (rest_accelerations m c In' Id (qrot (qat md s' x)) F T (qrot_so3 _ Hq) Hm0 Hd) as EQ. cbv zeta in EQ.
  set (A := vsub _ gravity) in *. set (L := mvec _ (al_loc _ _ _ _ _ _ _ _ _ _ _)) in *.
  assert (EV : vat md s' y CLinVel = v0 /\ vat md s' y CAngVel = v0 <-> A = v0 /\ L = v0).
  { rewrite V, W, !vadd_0_l. split; intros (H1 & H2); [split; eapply vscal_inj; eauto|rewrite H1, H2, vscal_v0; auto]. }
  split; [rewrite EV; exact EQ|]. intros H. apply EV in H. destruct H as (HA & HL). rewrite P, Q, HA, HL, !vscal_v0, !vadd_0_r, rv_quat_v0, qmul_1_l. auto.
Qed.

(** C163. When moreover the wrench of every present contact is the reaction that the model gives to the pose of the robot, the predicted
    state is the state itself, after any number of predictions. *)
Theorem C163_stays_in_equilibrium md maxC maxI ds di dw dp s h s' (x : list R) a noise m c In' Id aF aT dt :
  init md maxC maxI ds di dw dp = Ok s -> forallb no_clear h = true -> Forall (wf_op (N maxC maxI)) h -> in_use md h s s' ->
  length x = N maxC maxI -> contacts_at s' a -> qn2 (qat md s' x) = 1 -> vat md s' x CLinVel = v0 -> vat md s' x CAngVel = v0 ->
  m <> 0 -> mdet (madd In' (mscal m (skew2 c))) <> 0 ->
  let b := mkBody m (Some c) (Some v0) (Some v0) (Some v0) (Some v0) (Some In') (Some Id) aF aT dt in
  let F := total_force md b s' a x in let T := total_torque md b s' a x in
  mvec (qrot (qat md s' x)) F = vscal m gravity -> T = vcross c F ->
  (forall j, In j (ko_getListOfContacts s') -> exists ct Kp Kd Kr Kdr, nth_error (o_contacts s') (Z.to_nat j) = Some ct /\ c_stiff ct = (Kp, Kd, Kr, Kdr) /\
     oq (ko (c_kine ct)) <> None /\ let rc := mmul (qrot (qat md s' x)) (fr a j) in
     mvec rc (vat md s' x (CCForce j)) = vneg (mvec Kp (vat md s' x CPos)) /\
     mvec rc (vat md s' x (CCTorque j)) = vneg (vscal (1 / 2) (mvec Kr (qvec (qat md s' x))))) ->
  forall n, oiter n (ko_stateDynamics md b noise s') x = Ok x.
Proof.
  intros E0 Hn Hw Hu Lx Ha Hq V0 W0 Hm0 Hd b F T HF HT HK. destruct (use_inv _ _ _ _ _ _ _ _ _ _ _ _ _ _ _ E0 Hn Hw Hu) as [Hi Hm].
  destruct (state_dynamics_ok md maxC maxI s' x a noise m c v0 v0 v0 v0 In' Id aF aT dt Hi Hm Lx Ha Hq) as (y & E & Ly & P & Q & U & V & W & K & Fr).
  change (bodyv m c v0 v0 v0 v0 In' Id aF aT dt) with b in *. fold F T in P, Q, U, V, W, K. rewrite V0, W0, mvec_0 in *.
  pose proof (rest_accelerations m c In' Id (qrot (qat md s' x)) F T (qrot_so3 _ Hq) Hm0 Hd) as EQ. cbv zeta in EQ.
  destruct (proj2 EQ (conj HF HT)) as (HA & HL). rewrite HA, HL, !vscal_v0, !vadd_0_r, rv_quat_v0, qmul_1_l in *.
  assert (y = x) as ->.
  { apply (states_eq md maxC maxI s' x y Hi Hm Lx Ly P Q); [congruence|congruence| |exact Fr]. intros j Hj.
    destruct (K j Hj) as (ct & q & Ec & _ & _ & Hql & Kf & Kt). destruct (HK j Hj) as (ct' & Kp & Kd & Kr & Kdr & Ec' & St & Hoq & Rf & Rt).
    rewrite Ec in Ec'. injection Ec' as <-. destruct (oq (ko (c_kine ct))) as [ql|]; [|congruence]. specialize (Hql ql eq_refl). subst q.
    assert (S : so3 (mmul (qrot (qat md s' x)) (fr a j))).
    { destruct (Ha j Hj) as (ct' & _ & Hc & Hr & _). apply so3_mul; [now apply qrot_so3|exact (coh_so3 _ _ Hc Hr)]. }
    assert (X : forall u v, mvec (mmul (qrot (qat md s' x)) (fr a j)) u = vneg v -> u = vneg (mvec (mtr (mmul (qrot (qat md s' x)) (fr a j))) v)).
    { intros u v H. rewrite <- mvec_neg, <- H, so3_tr_vec; auto. }
    cbv zeta in Rf, Rt. apply X in Rf. apply X in Rt. rewrite Kf, Kt, Rf, Rt, P, V, W. unfold wforce, wtorque. rewrite St, !mvec_0, !vadd_0_r. auto. }
  induction n as [|n IH]; [reflexivity|]. cbn [oiter]. rewrite E. cbn [obind]. exact IH.
Qed.
End KineticsRest.

(** ** A robot of mass 1 on one elastic contact of stiffness 1 at its origin *)
(** The robot at [p], upright, at rest; the contact exerts the force [f] and no torque, its rest position is [r]. *)
Definition rpre (p r : V3) : list R := l3 p ++ l4 q1 ++ l3 v0 ++ l3 v0 ++ l3 v0 ++ [0; 0; 0; 0; 0; 0] ++ l3 r ++ [0; 0; 0; 1].
Definition rstate (p f r : V3) : list R := rpre p r ++ l3 f ++ l3 v0.
Definition rbody (dt : R) : body := mkBody 1 (Some v0) (Some v0) (Some v0) (Some v0) (Some v0) (Some m1) (Some mz) v0 v0 dt.
Lemma r_parts md p f r : let x := rstate p f r in length x = 35%nat /\ vat md xs x CPos = p /\ qat md xs x = q1 /\ vat md xs x CLinVel = v0 /\
  vat md xs x CAngVel = v0 /\ vat md xs x CUForce = v0 /\ vat md xs x CUTorque = v0 /\ vat md xs x (CCPos 0) = r /\ vat md xs x (CCForce 0) = f /\ vat md xs x (CCTorque 0) = v0.
Proof. destruct md, p, f, r; repeat split. Qed.
Lemma r_balance md p f r dt : let x := rstate p f r in total_force md (rbody dt) xs xframes x = f /\ total_torque md (rbody dt) xs xframes x = v0.
Proof.
  intros x. pose proof (r_parts md p f r) as X. cbv zeta in X. fold x in X. destruct X as (_ & _ & _ & _ & _ & X6 & X7 & _ & X9 & X10).
  unfold total_force, total_torque. change (ko_getListOfContacts xs) with [0%Z]. cbn [map vsum fold_right fr fp xframes rbody b_addF b_addT]. rewrite X6, X7, X9, X10. clear. split; c3.
Qed.
Lemma qrot_q1 v : mvec (qrot q1) v = v. Proof. unfold qrot, q1. c3. Qed.
Lemma r_det : mdet (madd m1 (mscal 1 (skew2 v0))) <> 0.
Proof. unfold mdet, madd, mscal, skew2, m1, v0. cbn. lra. Qed.
Lemma q1_unit : qn2 q1 = 1. Proof. unfold qn2, q1. cbn. ring. Qed.

(** The hypotheses of the two theorems are met: hanging 9.8 m below the origin of the world, where the contact carries its weight. *)
Example C163_case md dt n : let p := mkV 0 0 (- (98 / 10)) in let x := rstate p gravity v0 in
  (exists s, xinit md 1 1 = Ok s /\ forallb no_clear xhist = true /\ Forall (wf_op (Z.to_nat (stateSize 1 1))) xhist /\ xuse md xhist s xs) /\
  contacts_at xs xframes /\ total_force md (rbody dt) xs xframes x = gravity /\ oiter n (ko_stateDynamics md (rbody dt) None xs) x = Ok x.
Proof.
  intros p x. split; [exact (x_use md)|]. split; [exact x_contacts|]. destruct (r_balance md p gravity v0 dt) as (EF & ET). split; [exact EF|].
  pose proof (r_parts md p gravity v0) as X. cbv zeta in X. fold x in X, EF, ET. destruct X as (Lx & X1 & X2 & X3 & X4 & X6 & X7 & X8 & X9 & X10).
  destruct (x_use md) as (s & E0 & Hn & Hw & Hu).
  apply (C163_stays_in_equilibrium k_empty _ _ _ md 1 1 _ _ _ _ s xhist xs x xframes None 1 v0 m1 mz v0 v0 dt E0 Hn Hw Hu Lx x_contacts); auto using r_det.
  - rewrite X2. exact q1_unit.
  - change (mkBody _ _ _ _ _ _ _ _ _ _ _) with (rbody dt). rewrite EF, X2, qrot_q1. symmetry. apply vscal_1.
  - change (mkBody _ _ _ _ _ _ _ _ _ _ _) with (rbody dt). rewrite EF, ET. clear. c3.
  - intros j Hj. assert (j = 0%Z) as -> by (vm_compute in Hj; intuition lia). do 5 eexists. split; [vm_compute; reflexivity|]. cbn [c_stiff c_kine ko]. split; [reflexivity|]. split; [discriminate|].
    cbv zeta. rewrite X1, X2, X9, X10. cbn [fr xframes]. split; unfold qrot, q1, gravity, p, v0; u3; f_equal; field.
Qed.

(** One prediction from a state in equilibrium. *)
Lemma r_step md p r dt : ko_stateDynamics md (rbody dt) None xs (rstate p gravity r) = Ok (rstate p (vneg p) r).
Proof.
  set (x := rstate p gravity r). destruct (r_balance md p gravity r dt) as (EF & ET). pose proof (r_parts md p gravity r) as X. cbv zeta in X. fold x in X, EF, ET.
  destruct X as (Lx & X1 & X2 & X3 & X4 & X6 & X7 & X8 & X9 & X10).
  pose proof (r_parts md p (vneg p) r) as Y. cbv zeta in Y. destruct Y as (Lz & Y1 & Y2 & Y3 & Y4 & Y6 & Y7 & Y8 & Y9 & Y10). set (z := rstate p (vneg p) r) in *.
  assert (Hq : qn2 (qat md xs x) = 1) by (rewrite X2; exact q1_unit).
  destruct (state_dynamics_ok md 1 1 xs x xframes None 1 v0 v0 v0 v0 v0 m1 mz v0 v0 dt x_inv (fun _ => le_n 1) Lx x_contacts Hq) as (y & E & Ly & P & Q & U & V & W & K & Fr).
  change (bodyv 1 v0 v0 v0 v0 v0 m1 mz v0 v0 dt) with (rbody dt) in *. rewrite X1, X2, X3, X4, EF, ET, mvec_0 in *.
  pose proof (rest_accelerations 1 v0 m1 mz (qrot q1) gravity v0 (qrot_so3 _ q1_unit) R1_neq_R0 r_det) as EQ. cbv zeta in EQ.
  destruct (proj2 EQ) as (HA & HL); [split; [rewrite qrot_q1; symmetry; apply vscal_1|clear; c3]|]. rewrite HA, HL, !vscal_v0, !vadd_0_r, rv_quat_v0, qmul_1_l in *.
  rewrite E. f_equal. apply (states_eq md 1 1 xs z y x_inv (fun _ => le_n 1) Lz); try congruence.
  - intros j Hj. destruct (K j Hj) as (ct & q & Ec & _ & _ & Hql & Kf & Kt). assert (j = 0%Z) as -> by (vm_compute in Hj; intuition lia).
    vm_compute in Ec. injection Ec as <-. specialize (Hql q1 eq_refl). subst q. rewrite Kf, Kt, P, V, W, Y9, Y10. clear. cbn [fr xframes c_stiff].
    match goal with |- context [wforce _ _ ?st _ _] => change st with (m1, m1, m1, m1) end. unfold wforce, wtorque. split; unfold qrot, q1; c3.
  - intros n H13 Ho. rewrite (Fr n H13 Ho). assert (Hn : (n < 29 \/ 35 <= n)%nat) by (specialize (Ho 0%Z (or_introl eq_refl)); unfold cidx in Ho; cbn in Ho; lia).
    destruct Hn as [Hn|Hn].
    + unfold x, z, rstate. rewrite !nth_error_app1; [reflexivity|destruct p, r; exact Hn|destruct p, r; exact Hn].
    + rewrite (proj2 (nth_error_None x n)), (proj2 (nth_error_None z n)); [reflexivity|lia|lia].
Qed.

(** C163 is false of a robot standing elsewhere. Its contact is compressed from its rest position r and carries its weight. Wherever that
    is, except at the origin of the world, the second prediction has a velocity, towards that origin. *)
Theorem C163_anywhere_refuted md dt (r : V3) : exists p f, let x := rstate p f r in
  mvec m1 (vsub (vat md xs x (CCPos 0)) (vat md xs x CPos)) = vat md xs x (CCForce 0) /\ vat md xs x CLinVel = v0 /\ vat md xs x CAngVel = v0 /\
  mvec (qrot (qat md xs x)) (total_force md (rbody dt) xs xframes x) = vscal 1 gravity /\ total_torque md (rbody dt) xs xframes x = v0 /\
  exists y, oiter 2 (ko_stateDynamics md (rbody dt) None xs) x = Ok y /\ vat md xs y CLinVel = vscal (- dt) r.
Proof.
  exists (vsub r gravity), gravity. intros x. destruct (r_balance md (vsub r gravity) gravity r dt) as (EF & ET). fold x in EF, ET.
  pose proof (r_parts md (vsub r gravity) gravity r) as X. cbv zeta in X. fold x in X. destruct X as (Lx & X1 & X2 & X3 & X4 & X6 & X7 & X8 & X9 & X10).
  rewrite X1, X2, X3, X4, X8, X9, EF, ET. split; [clear; generalize gravity; intros; c3|]. split; [reflexivity|]. split; [reflexivity|].
  split; [rewrite qrot_q1; symmetry; apply vscal_1|]. split; [reflexivity|].
  cbn [oiter]. unfold x. rewrite r_step. cbn [obind]. set (z := rstate _ _ r).
  pose proof (r_parts md (vsub r gravity) (vneg (vsub r gravity)) r) as Y. cbv zeta in Y. fold z in Y. destruct Y as (Lz & Y1 & Y2 & Y3 & Y4 & _).
  destruct (r_balance md (vsub r gravity) (vneg (vsub r gravity)) r dt) as (EF' & ET'). fold z in EF', ET'.
  assert (Hq : qn2 (qat md xs z) = 1) by (rewrite Y2; exact q1_unit).
  destruct (state_dynamics_ok md 1 1 xs z xframes None 1 v0 v0 v0 v0 v0 m1 mz v0 v0 dt x_inv (fun _ => le_n 1) Lz x_contacts Hq) as (y & E & _ & _ & _ & _ & V & _).
  change (bodyv 1 v0 v0 v0 v0 v0 m1 mz v0 v0 dt) with (rbody dt) in *. rewrite Y2, Y3, Y4, EF', ET', mvec_0, al_rest, la_rest in V.
  assert (Z : vsub v0 (vcross v0 (vneg (vsub r gravity))) = v0) by (clear; c3). rewrite Z, mvec_0, qrot_q1 in V.
  rewrite E. cbn [obind]. exists y. split; [reflexivity|]. rewrite V. clear. generalize gravity. intros g. d3; u3; f_equal; field.
Qed.

Print Assumptions C163_at_rest_exactly_in_equilibrium.
Print Assumptions C163_stays_in_equilibrium.
Print Assumptions C163_case.
Print Assumptions C163_anywhere_refuted.
