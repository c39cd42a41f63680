(** Properties C147-C149: what the kinetics observer answers. *)
From Coq Require Import Reals ZArith List Bool Lia Lra.
From Verif Require Import Base Vec3 Rot SpecRot Orient SpecOrient OrientProofs Kine SpecKine KineProofs KinObs KinSum SegProofs KinDyn SpecKinDyn KinQuery SpecKin KinProofs KinInv KinThms KinMeas KinHist KinIter KinDynProofs KinQueryProofs.
Import ListNotations.
Open Scope Z_scope.

Section Measurement.
Context {S : Type} (s0 : S) {Kn : Type} (k0 : Kn) (kfirst : mode -> Kn -> outcome Kn) (kupd : mode -> Z -> Kn -> Kn -> outcome Kn).
Context {M : Type} (mzero : M -> bool) {C : Type}.
Notation obs := (obs S Kn M C).
Notation op := (ko_op S Kn M C).
Notation init := (ko_init s0 k0).
Notation run := (ko_run s0 kfirst kupd mzero).
Notation N maxC maxI := (Z.to_nat (stateSize (Z.of_nat maxC) (Z.of_nat maxI))).
Implicit Types (s : obs) (h : list op).

(** ** C147 *)
(** Missing: any iteration; here those of C51. In such an iteration getMeasurementVector returns the signals
    reported, which are those that the update then gives to the filter. *)
Theorem C147_measurement_vector_partial md md' maxC maxI ds di dw dp s h1 s1 h2 s2 e :
  (forall k k', kfirst Debug k = Ok k' -> kfirst Release k = Ok k') -> (forall n a b k', kupd Debug n a b = Ok k' -> kupd Release n a b = Ok k') ->
  init md maxC maxI ds di dw dp = Ok s -> forallb no_clear h1 = true -> forallb no_wrench h1 = true -> Forall (wf_op (N maxC maxI)) h1 -> run md h1 s = Ok s1 ->
  cs_iter (cset_run maxC h1) = false ->
  forallb in_iteration h2 = true -> existsb reports h2 = true -> Forall (wf_op (N maxC maxI)) h2 -> run Debug h2 s1 = Ok s2 ->
  (forall j, In j (ko_getListOfContacts s2) -> existsb (updates_contact j) h2 = true) ->
  run md' h2 s1 = Ok s2 /\
  ko_getMeasurementVector md' s2 = Ok (map Some (meas_of maxI maxC (imu_signal h2) (contact_signal h2) (pose_signal h2))) /\
  exists s3, run md' [KUpdate e] s2 = Ok s3 /\ ko_getMeasurementVector md' s2 = Ok (o_meas s3) /\ ko_getMeasurementVector md' s3 = Ok [].
Proof.
  intros KF KU E0 Hn Hnw Hw E1 Hit Hf Hr Hw2 E2 Hall.
  pose proof (init_inv _ _ _ _ _ _ _ _ _ _ E0) as Hi0. pose proof (run_inv _ _ _ _ _ _ _ _ _ _ Hn Hw Hi0 E1) as Hi.
  pose proof (init_sim _ _ _ _ _ _ _ _ _ _ E0) as Hs0. pose proof (run_sim _ _ _ _ _ _ _ _ _ _ _ Hn Hw Hi0 Hs0 E1) as Hs.
  assert (Hk : o_kest s1 = o_kdata s1).
  { pose proof (m_it _ _ _ Hs) as X. unfold cset_run in Hit. rewrite Hit in X. destruct (Z.eqb_spec (o_kest s1) (o_kdata s1)); [assumption|discriminate]. }
  pose proof (noreal_run _ _ _ _ _ _ _ _ Hnw (init_noreal _ _ _ _ _ _ _ _ _ _ E0) E1) as Hnr.
  pose proof (iter_run _ _ _ _ _ _ _ _ _ Hf Hw2 Hi Hk Hnr E2) as Ht. destruct (iter_ready _ _ _ _ Ht Hr Hall) as [HR HM].
  assert (K : kmono kfirst kupd) by (split; unfold ole; auto).
  split; [apply debug_any; assumption|].
  destruct (prepare_ok md' _ _ _ HR) as (p & r & EP & P1 & P2 & P3 & ER). pose proof (get_measurement _ _ _ _ _ HR EP) as G.
  split; [rewrite G; cbn [o_meas set_meas]; rewrite HM; reflexivity|].
  eexists. split; [|split].
  - unfold ko_run. cbn [orun ko_step]. unfold ko_update. pose proof (r_iter _ _ _ HR) as X. apply Z.eqb_neq in X. rewrite X, EP. reflexivity.
  - exact G.
  - pose proof (proj2 (v_k _ _ _ (r_inv _ _ _ HR))) as V. pose proof (r_iter _ _ _ HR).
    unfold ko_getMeasurementVector, ko_getMeasurementSize. cbn -[Z.add]. destruct (Z.eqb_spec (o_kest s2 + 1) (o_kdata s2)) as [|Y]; [reflexivity|lia].
Qed.
(** Outside an iteration there is nothing. *)
Theorem C147_outside_an_iteration md s : o_kest s = o_kdata s -> ko_getMeasurementVector md s = Ok [].
Proof. intros E. unfold ko_getMeasurementVector, ko_getMeasurementSize. rewrite E, Z.eqb_refl. reflexivity. Qed.
End Measurement.

Section Cache.
Context {C : Type} (kfirst : mode -> Kin -> outcome Kin) (kupd : mode -> Z -> Kin -> Kin -> outcome Kin) (mzero : M3 -> bool).
Notation obs := (obs R Kin M3 C).
Notation kq := (@kq C).
Notation init := (kq_init (C := C)).
Notation run := (kq_run kfirst kupd mzero).
Notation N maxC maxI := (Z.to_nat (stateSize (Z.of_nat maxC) (Z.of_nat maxI))).

(** ** C148 *)
(** After any sequence of calls, the kinematics that the observer returns are those of its state vector. *)
Theorem C148_kinematics_of_the_state md md' maxC maxI ds di dw dp q h q' :
  init md maxC maxI ds di dw dp = Ok q -> Forall (wf_qop (N maxC maxI)) h -> run md h q = Ok q' ->
  exists k, k_toVec md' fState (kq_getKinematics q') = Ok (firstn 13 (o_state (q_obs q')), k).
Proof.
  intros E0 Hw E. pose proof (run_kinv _ _ _ _ _ _ (nx_13 maxC maxI) Hw _ _ (init_kinv _ _ _ _ _ _ _ _ E0) E) as K.
  eexists. apply agrees_toVec. apply (ki_kin _ _ K).
Qed.
(** The rotation, when those given by the user are rotations, is that of the quaternion in the state vector; the velocities and
    the position are the entries. *)
Theorem C148_rotation_of_the_state md maxC maxI ds di dw dp q h q' :
  init md maxC maxI ds di dw dp = Ok q -> Forall (wf_qop (N maxC maxI)) h -> Forall coh_qop h -> run md h q = Ok q' ->
  exists p r v w, let k := kq_getKinematics q' in firstn 13 (o_state (q_obs q')) = l3 p ++ l4 r ++ l3 v ++ l3 w /\
    kp k = Some p /\ rot (ko k) = Some (qrot r) /\ kv k = Some v /\ kw k = Some w.
Proof.
  intros E0 Hw Hc E. pose proof (run_kinv _ _ _ _ _ _ (nx_13 maxC maxI) Hw _ _ (init_kinv _ _ _ _ _ _ _ _ E0) E) as K.
  pose proof (run_full _ _ _ _ _ _ (nx_13 maxC maxI) Hw Hc _ _ (init_kinv _ _ _ _ _ _ _ _ E0) (proj1 (init_full _ _ _ _ _ _ _ _ E0)) E) as F.
  destruct (ki_kin _ _ K) as (p & r & v & w & A & B & D & G & H). exists p, r, v, w. cbv zeta. split; [exact H|]. split; [exact A|]. split; [|auto].
  destruct F as (r' & F1 & F2). unfold kq_getKinematics, rot in *. rewrite B in *. injection F1 as <-. destruct F2 as [-> | ->]; reflexivity.
Qed.
(** The kinematics of a frame of the robot, when the quaternion of the state is a unit one: the motion of the frame carried by the
    state, whatever the representation of its orientation. *)
Theorem C148_kinematics_of_a_frame md md' maxC maxI ds di dw dp q h q' p r v w pl ol rl vl wl al bl :
  init md maxC maxI ds di dw dp = Ok q -> Forall (wf_qop (N maxC maxI)) h -> Forall coh_qop h -> run md h q = Ok q' ->
  firstn 13 (o_state (q_obs q')) = l3 p ++ l4 r ++ l3 v ++ l3 w -> qn2 r = 1%R -> coh ol -> rot ol = Some rl ->
  exists k, kq_getKinematicsOf md' (mkK (Some pl) ol (Some vl) (Some wl) al bl) q' = Ok k /\
    kp k = Some (vadd p (mvec (qrot r) pl)) /\ rot (ko k) = Some (mmul (qrot r) rl) /\
    kv k = Some (vadd v (vadd (vcross w (mvec (qrot r) pl)) (mvec (qrot r) vl))) /\ kw k = Some (vadd w (mvec (qrot r) wl)).
Proof.
  intros E0 Hw Hc E Hx U Ho Rl. destruct (C148_rotation_of_the_state _ _ _ _ _ _ _ _ _ _ E0 Hw Hc E) as (p' & r' & v' & w' & H & A & B & D & G).
  assert (Eq : p' = p /\ r' = r /\ v' = v /\ w' = w).
  { rewrite H in Hx. clear -Hx. destruct p, p', r, r', v, v', w, w'. unfold l3, l4 in Hx. cbn in Hx. injection Hx. intros. subst. auto. }
  destruct Eq as (-> & -> & -> & ->).
  pose proof (run_full _ _ _ _ _ _ (nx_13 maxC maxI) Hw Hc _ _ (init_kinv _ _ _ _ _ _ _ _ E0) (proj1 (init_full _ _ _ _ _ _ _ _ E0)) E) as F.
  pose proof (run_kinv _ _ _ _ _ _ (nx_13 maxC maxI) Hw _ _ (init_kinv _ _ _ _ _ _ _ _ E0) E) as K.
  destruct (ki_kin _ _ K) as (p2 & r2 & v2 & w2 & _ & B2 & _ & _ & H2).
  assert (r2 = r) by (rewrite H in H2; unfold l3, l4 in H2; cbn in H2; injection H2 as _ _ _ ? ? ? ? _ _ _ _ _ _; destruct r, r2; cbn in *; congruence). subst r2.
  assert (Hk : coh (ko (q_kin q'))).
  { destruct F as (r2 & F1 & F2). rewrite B2 in F1. injection F1 as <-. repeat split.
    - intros q0 Hq. congruence.
    - destruct F2 as [F2|F2]; rewrite F2 in *; [discriminate|]. injection H0 as <-. apply (qrot_so3 r U).
    - destruct F2 as [F2|F2]; rewrite F2 in *; [discriminate|]. injection H0 as <-. apply (qrot_so3 r U).
    - intros q0 m Hq Hm. rewrite B2 in Hq. injection Hq as <-. destruct F2 as [F2|F2]; rewrite F2 in Hm; congruence. }
  unfold kq_getKinematicsOf. unfold kq_getKinematics in *.
  destruct (k_mul_ok md' (q_kin q') (mkK (Some pl) ol (Some vl) (Some wl) al bl) (qrot r) Hk Ho B) as (c & a' & b' & Ec & _ & C1 & C2 & C3 & C4 & _); [left; discriminate|].
  rewrite Ec. exists c. split; [reflexivity|]. rewrite C1, C2, C3, C4, A, D, G. cbn [kp ko kv kw]. rewrite Rl. unfold c_p, c_o, c_v, c_w. repeat split; f_equal; d3; u3; f_equal; ring.
Qed.
(** estimateAccelerations, at any time, gives the kinematics that the prediction would integrate from the current state (state_kine; see
    C82 to C84 for its accelerations), and fails when it does. *)
Theorem C148_estimated_accelerations md md' maxC maxI ds di dw dp q h q' b :
  init md maxC maxI ds di dw dp = Ok q -> Forall (wf_qop (N maxC maxI)) h -> Forall coh_qop h -> run md h q = Ok q' ->
  kq_estimate md' b q' = (do k <- state_kine md' b (q_obs q') (o_state (q_obs q')); Ok (mkKq (q_obs q') k)).
Proof.
  intros E0 Hw Hc E. pose proof (run_kinv _ _ _ _ _ _ (nx_13 maxC maxI) Hw _ _ (init_kinv _ _ _ _ _ _ _ _ E0) E) as K.
  pose proof (run_full _ _ _ _ _ _ (nx_13 maxC maxI) Hw Hc _ _ (init_kinv _ _ _ _ _ _ _ _ E0) (proj1 (init_full _ _ _ _ _ _ _ _ E0)) E) as F.
  destruct q' as [s k]. apply state_kine_read; [rewrite (ki_len _ _ K); apply nx_13|apply (ki_kin _ _ K)|exact F].
Qed.
(** What an update that has something to estimate leaves: the accelerations of the new state when their estimation is on, otherwise none. *)
Theorem C148_accelerations_after_update md maxC maxI ds di dw dp q h q' b e q'' :
  init md maxC maxI ds di dw dp = Ok q -> Forall (wf_qop (N maxC maxI)) h -> run md h q = Ok q' ->
  (forall x y, length x = N maxC maxI -> length (e x y) = N maxC maxI) -> o_kest (q_obs q') <> o_kdata (q_obs q') -> run md [QUpdate b e] q' = Ok q'' ->
  (o_withAcc (q_obs q') = true -> state_kine md b (q_obs q'') (o_state (q_obs q'')) = Ok (kq_getKinematics q'')) /\
  (o_withAcc (q_obs q') = false -> ka (kq_getKinematics q'') = None /\ kal (kq_getKinematics q'') = None).
Proof.
  intros E0 Hw E He Hk E2. pose proof (run_kinv _ _ _ _ _ _ (nx_13 maxC maxI) Hw _ _ (init_kinv _ _ _ _ _ _ _ _ E0) E) as [L1 L2 P A].
  unfold kq_run in E2. cbn [orun kq_step] in E2. apply obind_Ok_inv in E2. destruct E2 as (q2 & E2 & E3). apply Ok_inj in E3. subst q2.
  unfold kq_update in E2. pose proof Hk as Hk'. apply Z.eqb_neq in Hk'. rewrite Hk' in E2.
  apply obind_Ok_inv in E2. destruct E2 as (s & Es & E2). destruct (update_ekf_len _ _ _ _ _ He P L1 L2 Hk Es) as (M1 & M2 & M3').
  apply obind_Ok_inv in E2. destruct E2 as (k & Ek & E2). pose proof (nx_13 maxC maxI) as N13.
  destruct (updateKine_ok md s k_empty) as (k' & Ek' & Ak & Ka & Kal & Em); [lia|]. rewrite Ek' in Ek. apply Ok_inj in Ek. subst k'.
  assert (Fk : full (ko k)) by (destruct Ak as (? & qq & ? & ? & ? & B & _); exists qq; auto).
  assert (Hacc : o_withAcc s = o_withAcc (q_obs q')).
  { unfold ko_update in Es. rewrite Hk' in Es. apply obind_Ok_inv in Es. destruct Es as (s1 & E1 & Es). apply Ok_inj in Es. subst s. apply prepare_shape in E1. destruct E1 as ((y & r & p & E1 & _) & _). cbn. rewrite E1. reflexivity. }
  split; intros Ha; rewrite Hacc, Ha in E2.
  - assert (L13 : (13 <= length (o_state s))%nat) by lia.
    destruct (state_kine_read md b s k L13 Ak Fk) as [R1 _]. rewrite R1 in E2. apply obind_Ok_inv in E2. destruct E2 as (k' & Es' & E2). apply Ok_inj in E2. subst q''. exact Es'.
  - apply Ok_inj in E2. subst q''. cbn. auto.
Qed.
(** Refuted: setStateVector keeps the accelerations that were there, whatever the new state. *)
Theorem C148_accelerations_kept_refuted md maxC maxI ds di dw dp q h q' v q'' :
  init md maxC maxI ds di dw dp = Ok q -> Forall (wf_qop (N maxC maxI)) h -> run md h q = Ok q' ->
  length v = N maxC maxI -> run md [QSetVector v] q' = Ok q'' ->
  o_state (q_obs q'') = v /\ ka (kq_getKinematics q'') = ka (kq_getKinematics q') /\ kal (kq_getKinematics q'') = kal (kq_getKinematics q').
Proof.
  intros E0 Hw E L E2. unfold kq_run in E2. cbn [orun kq_step] in E2. apply obind_Ok_inv in E2. destruct E2 as (q2 & E2 & E3). apply Ok_inj in E3. subst q2.
  unfold kq_setStateVector in E2. apply obind_Ok_inv in E2. destruct E2 as (k & Ek & E2). apply Ok_inj in E2. subst q''. pose proof (nx_13 maxC maxI) as N13.
  destruct (updateKine_ok md (ko_setStateVector v (q_obs q')) (q_kin q')) as (k' & Ek' & _ & Ka & Kal & _); [cbn; lia|]. rewrite Ek' in Ek. apply Ok_inj in Ek. subst k'. cbn. auto.
Qed.
(** Refuted: the kinematics of a new observer have no orientation: the quaternion is zero. The kinematics of any frame of the robot
    that is given by a quaternion then has the zero quaternion too, whose matrix is the identity: its orientation in the robot is lost. *)
Theorem C148_initial_orientation_refuted md md' maxC maxI ds di dw dp q pl ql :
  init md maxC maxI ds di dw dp = Ok q ->
  oq (ko (kq_getKinematics q)) = Some (mkQ 0 0 0 0) /\
  exists k, kq_getKinematicsOf md' (mkK (Some pl) (o_quat ql) None None None None) q = Ok k /\
    oq (ko k) = Some (mkQ 0 0 0 0) /\ rot (ko k) = Some m1 /\ kp k = Some pl.
Proof.
  intros E0. destruct (init_full _ _ _ _ _ _ _ _ E0) as (_ & B & Bm). pose proof (init_kinv _ _ _ _ _ _ _ _ E0) as K. destruct (ki_kin _ _ K) as (p & r & v & w & A & B' & D & G & H).
  split; [exact B|]. destruct q as [s k]. cbn [q_kin q_obs kq_getKinematics] in *. destruct k as [a [o m] b c d f]. cbn in A, B, Bm, B', D, G. subst.
  assert (Zp : p = v0).
  { unfold kq_init in E0. apply obind_Ok_inv in E0. destruct E0 as (s' & Es & E0). apply obind_Ok_inv in E0. destruct E0 as (k & _ & E0). apply Ok_inj in E0. injection E0 as -> _.
    unfold ko_init in Es. apply obind_Ok_inv in Es. destruct Es as (u & _ & Es). apply Ok_inj in Es. subst s. cbn [o_state] in H. pose proof (nx_13 maxC maxI) as N13.
    replace (N maxC maxI) with (13 + (N maxC maxI - 13))%nat in H by lia. rewrite repeat_app, firstn_app in H. cbn in H. destruct p. cbn in H. injection H as <- <- <- _. reflexivity. }
  subst p. unfold kq_getKinematicsOf, k_mul. cbn. eexists. split; [reflexivity|]. cbn. unfold rot. cbn. split; [|split].
  - f_equal. unfold qmul. cbn. f_equal; ring.
  - f_equal. unfold qrot, qmul, m1. cbn. f_equal; ring.
  - f_equal. destruct pl. unfold vadd, mvec, qrot, v0. cbn. f_equal; ring.
Qed.
End Cache.

Section Contacts.
Context (k0 : Kin) (kfirst : mode -> Kin -> outcome Kin) (kupd : mode -> Z -> Kin -> Kin -> outcome Kin) (mzero : M3 -> bool) {C : Type}.
Notation obs := (obs R Kin M3 C).
Notation op := (ko_op R Kin M3 C).
Notation init := (ko_init 0%R k0).
Notation run := (ko_run 0%R kfirst kupd mzero).
Notation N maxC maxI := (Z.to_nat (stateSize (Z.of_nat maxC) (Z.of_nat maxI))).
Implicit Types (s : obs) (h : list op).

(** ** C149 *)
(** The answers about a contact that is present are the pose and the wrench at its place in the state vector. *)
Theorem C149_answers_about_a_contact md maxC maxI ds di dw dp s h s' j :
  init md maxC maxI ds di dw dp = Ok s -> forallb no_clear h = true -> Forall (wf_op (N maxC maxI)) h -> run md h s = Ok s' -> In j (ko_getListOfContacts s') ->
  exists i p q, comp_start md false s' (CCPos j) = Ok i /\ seg_get (Z.to_nat i) 7 (o_state s') = l3 p ++ l4 q /\
    ko_getContactPosition md j s' = Ok (mkK (Some p) (o_quat q) None None None None) /\
    ko_getContactWrench md j s' = Ok (seg_get (Z.to_nat i + 7) 6 (o_state s')).
Proof.
  intros E0 Hn Hw E Hj. pose proof (run_inv _ _ _ _ _ _ _ _ _ _ Hn Hw (init_inv _ _ _ _ _ _ _ _ _ _ E0) E) as Hi.
  destruct (contact_index_ok md _ _ _ _ Hi Hj) as (B & Ei & _). destruct (get_position_ok md _ _ _ _ Hi Hj) as (p & q & P1 & P2).
  exists (cidx (Z.of_nat maxI) j), p, q. split; [exact Ei|]. rewrite cidx_eq. split; [exact P1|]. split; [exact P2|].
  rewrite (get_wrench_ok md _ _ _ _ Hi Hj). do 2 f_equal. lia.
Qed.
(** A contact that is added has the pose given and no wrench; the other answers do not change. *)
Theorem C149_added_contact md md' maxC maxI ds di dw dp s h s' p q num st n s'' :
  init md maxC maxI ds di dw dp = Ok s -> forallb no_clear h = true -> Forall (wf_op (N maxC maxI)) h -> run md h s = Ok s' ->
  ko_addContact 0%R mzero md (l3 p ++ l4 q) num st s' = Ok (n, s'') ->
  ko_getContactPosition md' n s'' = Ok (mkK (Some p) (o_quat q) None None None None) /\ ko_getContactWrench md' n s'' = Ok [0; 0; 0; 0; 0; 0]%R /\
  (forall j, j <> n -> In j (ko_getListOfContacts s') -> ko_getContactPosition md' j s'' = ko_getContactPosition md' j s' /\ ko_getContactWrench md' j s'' = ko_getContactWrench md' j s') /\
  ko_getUnmodeledWrench md' s'' = ko_getUnmodeledWrench md' s'.
Proof.
  intros E0 Hn Hw E Ea. pose proof (run_inv _ _ _ _ _ _ _ _ _ _ Hn Hw (init_inv _ _ _ _ _ _ _ _ _ _ E0) E) as Hi.
  assert (Hi' : inv maxC maxI s'').
  { eapply (step_inv 0%R kfirst kupd mzero md maxC maxI (KAdd (l3 p ++ l4 q) num st)); [reflexivity|reflexivity|exact Hi|]. cbn [ko_step]. rewrite Ea. reflexivity. }
  pose proof Ea as Ea'. apply add_inv in Ea. destruct Ea as (n0 & c & x & _ & _ & _ & Hn0 & Hc & _ & Ex & Es).
  assert (Lst : forall j, In j (ko_getListOfContacts s'') <-> j = n \/ In j (ko_getListOfContacts s')).
  { intros j. assert (Hs : c_set (added mzero (o_maxI s') n c (l3 p ++ l4 q) st (o_dstiff s')) = true) by (unfold added; destruct st as [[[? ?] ?] ?], (o_dstiff s') as [[[? ?] ?] ?]; reflexivity).
    pose proof (list_set_iff s' s'' n _ Hn0 ltac:(rewrite Hc; discriminate) ltac:(rewrite Es; reflexivity) j) as X. rewrite Hs in X. rewrite X. clear. destruct (Z.eqb_spec j n); intuition congruence. }
  assert (Hst : o_state s'' = x) by (rewrite Es; reflexivity). rewrite (v_maxI _ _ _ Hi), cidx_eq in Ex. assert (Hx : seg_get (Z.to_nat (19 + 3 * Z.of_nat maxI + 13 * n)) 13 x = (l3 p ++ l4 q) ++ repeat 0%R 6) by (apply seg_set_get in Ex; exact Ex).
  assert (Jn : In n (ko_getListOfContacts s'')) by (apply Lst; auto).
  assert (Lw : Z.of_nat (length ((l3 p ++ l4 q) ++ repeat 0%R 6)) = 13) by reflexivity.
  assert (U : ko_getUnmodeledWrench md' s'' = ko_getUnmodeledWrench md' s').
  { unfold ko_getUnmodeledWrench. rewrite (v_maxI _ _ _ Hi), (v_maxI _ _ _ Hi'). destruct (unmodeledWrenchIndex md' (Z.of_nat maxI)) as [g| | |] eqn:Eg; cbn [obind]; try reflexivity.
    unfold unmodeledWrenchIndex in Eg. apply obind_Ok_inv in Eg. destruct Eg as (g0 & Eg & Eg'). apply gyro_idx_inv in Eg. apply Ok_inj in Eg'. subst g g0. change sizeGyroBias with 3.
    assert (LN : Z.of_nat (N maxC maxI) = 19 + 3 * Z.of_nat maxI + 13 * Z.of_nat maxC) by (rewrite Z2Nat.id; rewrite nx_pos; lia).
    rewrite !seg_rd_ok; rewrite ?(v_x _ _ _ Hi), ?(v_x _ _ _ Hi'); unfold nx; rewrite ?LN; change (Z.of_nat (Z.to_nat sizeWrench)) with 6; try lia.
    f_equal. rewrite Hst. eapply seg_other; [exact Ex|]. change (Z.to_nat sizeWrench) with 6%nat. lia. }
  split; [|split; [|split; [|exact U]]].
  - destruct (get_position_ok md' _ _ _ _ Hi' Jn) as (p' & q' & P1 & P2). rewrite P2. rewrite Hst in P1.
    assert (X : seg_get (Z.to_nat (19 + 3 * Z.of_nat maxI + 13 * n)) 7 x = firstn 7 (seg_get (Z.to_nat (19 + 3 * Z.of_nat maxI + 13 * n)) 13 x)) by (unfold seg_get; rewrite firstn_firstn; reflexivity).
    rewrite X, Hx in P1. destruct p, q, p', q'. cbn in P1. injection P1 as <- <- <- <- <- <- <-. reflexivity.
  - rewrite (get_wrench_ok md' _ _ _ _ Hi' Jn), Hst. f_equal.
    assert (X : seg_get (Z.to_nat (19 + 3 * Z.of_nat maxI + 13 * n + 7)) 6 x = seg_get 7 6 (seg_get (Z.to_nat (19 + 3 * Z.of_nat maxI + 13 * n)) 13 x)) by (rewrite seg_get_seg by lia; f_equal; lia).
    rewrite X, Hx. reflexivity.
  - intros j Hne Hj. assert (Hj' : In j (ko_getListOfContacts s'')) by (apply Lst; auto). destruct (contact_index_ok md' _ _ _ _ Hi Hj) as (B & _).
    split.
    + eapply position_eq; eauto. rewrite Hst. symmetry. eapply seg_other; [exact Ex|]. rewrite Lw. nia.
    + rewrite (get_wrench_ok md' _ _ _ _ Hi Hj), (get_wrench_ok md' _ _ _ _ Hi' Hj'), Hst. f_equal. eapply seg_other; [exact Ex|]. rewrite Lw. nia.
Qed.
(** setStateUnmodeledWrench is read back; it and setGyroBias (of an existing IMU) change no answer about contacts. *)
Theorem C149_unmodeled_wrench_and_bias md md' maxC maxI ds di dw dp s h s' o s'' :
  init md maxC maxI ds di dw dp = Ok s -> forallb no_clear h = true -> Forall (wf_op (N maxC maxI)) h -> run md h s = Ok s' -> run md [o] s' = Ok s'' ->
  (exists w, o = KSetWrench w /\ length w = 6%nat) \/ (exists b i, o = KSetBias b i /\ length b = 3%nat /\ 0 <= i < Z.of_nat maxI) ->
  (forall w, o = KSetWrench w -> ko_getUnmodeledWrench md s'' = Ok w) /\ (forall b i, o = KSetBias b i -> ko_getUnmodeledWrench md s'' = ko_getUnmodeledWrench md s') /\
  (forall j, In j (ko_getListOfContacts s') -> ko_getContactPosition md' j s'' = ko_getContactPosition md' j s' /\ ko_getContactWrench md' j s'' = ko_getContactWrench md' j s').
Proof.
  intros E0 Hn Hw E E2 Ho. pose proof (run_inv _ _ _ _ _ _ _ _ _ _ Hn Hw (init_inv _ _ _ _ _ _ _ _ _ _ E0) E) as Hi.
  assert (Hm : md = Debug -> (0 < maxI)%nat) by (intros ->; eapply init_debug; exact E0).
  unfold ko_run in E2. cbn [orun] in E2. apply obind_Ok_inv in E2. destruct E2 as (s2 & E2 & E3). apply Ok_inj in E3. subst s2.
  assert (Hi' : inv maxC maxI s'') by (eapply step_inv; [| |exact Hi|exact E2]; destruct Ho as [(w & -> & L)|(b & i & -> & L & B)]; cbn; auto; lia).
  assert (X : exists a w x, seg_set md a w (o_state s') = Ok x /\ 13 <= a /\ a + Z.of_nat (length w) <= 19 + 3 * Z.of_nat maxI /\ o_state s'' = x /\ ko_getListOfContacts s'' = ko_getListOfContacts s' /\
     ((o = KSetWrench w /\ a = 13 + 3 * Z.of_nat maxI) \/ a + Z.of_nat (length w) <= 13 + 3 * Z.of_nat maxI /\ exists b i, o = KSetBias b i)).
  { destruct Ho as [(w & -> & L)|(b & i & -> & L & B)]; cbn [ko_step] in E2.
    - unfold ko_setStateUnmodeledWrench in E2. apply obind_Ok_inv in E2. destruct E2 as (g & Eg & E2). apply obind_Ok_inv in E2. destruct E2 as (x & E1 & E2). apply Ok_inj in E2. subst s''.
      unfold unmodeledWrenchIndex in Eg. apply obind_Ok_inv in Eg. destruct Eg as (g0 & Eg & Eg'). apply gyro_idx_inv in Eg. apply Ok_inj in Eg'. subst g g0. change sizeGyroBias with 3 in E1. rewrite (v_maxI _ _ _ Hi) in E1.
      exists (13 + 3 * 0 + 3 * Z.of_nat maxI), w, x. split; [exact E1|]. split; [lia|]. split; [lia|]. split; [reflexivity|]. split; [reflexivity|]. left. split; [reflexivity|lia].
    - unfold ko_setGyroBias in E2. apply obind_Ok_inv in E2. destruct E2 as (g & Eg & E2). apply obind_Ok_inv in E2. destruct E2 as (x & E1 & E2). apply Ok_inj in E2. subst s''.
      apply gyro_idx_inv in Eg. subst g. exists (13 + 3 * i), b, x. split; [exact E1|]. split; [lia|]. split; [lia|]. split; [reflexivity|]. split; [reflexivity|]. right. split; [lia|eauto]. }
  destruct X as (a & w & x & Ex & A1 & A2 & Hst & Hl & Hcase).
  split; [|split].
  - intros w' ->. destruct Hcase as [[X ->]|(_ & b & i & X)]; [|discriminate]. injection X as <-. rewrite (get_unmodeled_ok md _ _ _ Hi' Hm), Hst. f_equal. destruct Ho as [(w2 & X & L)|(b & i & X & _)]; [|discriminate]. injection X as <-.
    apply seg_set_get in Ex. rewrite L in Ex. exact Ex.
  - intros b i ->. destruct Hcase as [[X _]|(A3 & _)]; [discriminate|]. rewrite (get_unmodeled_ok md _ _ _ Hi' Hm), (get_unmodeled_ok md _ _ _ Hi Hm), Hst. f_equal. eapply seg_other; [exact Ex|]. lia.
  - intros j Hj. assert (Hj' : In j (ko_getListOfContacts s'')) by (rewrite Hl; exact Hj). destruct (contact_index_ok md' _ _ _ _ Hi Hj) as (B & _). split.
    + eapply position_eq; eauto. rewrite Hst. symmetry. eapply seg_other; [exact Ex|]. lia.
    + rewrite (get_wrench_ok md' _ _ _ _ Hi Hj), (get_wrench_ok md' _ _ _ _ Hi' Hj'), Hst. f_equal. eapply seg_other; [exact Ex|]. lia.
Qed.
(** setStateKinematics: the wrenches of the contacts become zero if asked, nothing else that is answered about contacts and unmodeled
    wrench changes. *)
Theorem C149_state_kinematics md md' maxC maxI ds di dw dp s h s' kv rf s'' :
  init md maxC maxI ds di dw dp = Ok s -> forallb no_clear h = true -> Forall (wf_op (N maxC maxI)) h -> run md h s = Ok s' ->
  length kv = 13%nat -> run md [KSetKine kv rf] s' = Ok s'' ->
  ko_getUnmodeledWrench md s'' = ko_getUnmodeledWrench md s' /\
  forall j, In j (ko_getListOfContacts s') -> ko_getContactPosition md' j s'' = ko_getContactPosition md' j s' /\
    ko_getContactWrench md' j s'' = if rf then Ok [0; 0; 0; 0; 0; 0]%R else ko_getContactWrench md' j s'.
Proof.
  intros E0 Hn Hw E L E2. pose proof (run_inv _ _ _ _ _ _ _ _ _ _ Hn Hw (init_inv _ _ _ _ _ _ _ _ _ _ E0) E) as Hi.
  assert (Hm : md = Debug -> (0 < maxI)%nat) by (intros ->; eapply init_debug; exact E0).
  unfold ko_run in E2. cbn [orun] in E2. apply obind_Ok_inv in E2. destruct E2 as (s2 & E2 & E3). apply Ok_inj in E3. subst s2.
  assert (Hi' : inv maxC maxI s'') by (eapply (step_inv _ _ _ _ _ _ _ (KSetKine kv rf)); [reflexivity|exact L|exact Hi|exact E2]).
  cbn [ko_step] in E2. unfold ko_setStateKinematics in E2. apply obind_Ok_inv in E2. destruct E2 as (x & Ex & E2). apply obind_Ok_inv in E2. destruct E2 as (x' & Ez & E2). apply Ok_inj in E2.
  assert (Hst : o_state s'' = x') by (rewrite <- E2; reflexivity). assert (Hl : ko_getListOfContacts s'' = ko_getListOfContacts s') by (rewrite <- E2; reflexivity). clear E2.
  assert (Lo : forall a n, 13 <= Z.of_nat a -> seg_get a n x = seg_get a n (o_state s')) by (intros a n Ha; eapply seg_other; [exact Ex|]; rewrite L; change kineIndex with 0; lia).
  assert (Pl : forall i c, nth_error (o_contacts s') i = Some c -> c_set c = true -> c_sidx c = 19 + 3 * Z.of_nat maxI + 13 * Z.of_nat i).
  { intros i c Hc Hs. destruct (v_ci _ _ _ Hi _ _ Hc Hs) as [A _]. exact A. }
  assert (Ot : forall a n, 13 <= Z.of_nat a -> (forall i, Z.of_nat a + Z.of_nat n <= 19 + 3 * Z.of_nat maxI + 13 * Z.of_nat i + 7 \/ 19 + 3 * Z.of_nat maxI + 13 * Z.of_nat i + 13 <= Z.of_nat a) -> seg_get a n x' = seg_get a n (o_state s')).
  { intros a n Ha Hd. rewrite <- (Lo a n Ha). destruct rf; [|apply Ok_inj in Ez; subst; reflexivity]. eapply zero_other; [|exact Ez].
    apply Forall_forall. intros c Hc Hs. apply In_nth_error in Hc. destruct Hc as [i Hc]. rewrite (Pl _ _ Hc Hs). apply Hd. }
  split.
  - rewrite (get_unmodeled_ok md _ _ _ Hi' Hm), (get_unmodeled_ok md _ _ _ Hi Hm), Hst. f_equal. apply Ot; lia.
  - intros j Hj. assert (Hj' : In j (ko_getListOfContacts s'')) by (rewrite Hl; exact Hj). destruct (contact_index_ok md' _ _ _ _ Hi Hj) as (B & _). split.
    + eapply position_eq; eauto. rewrite Hst. symmetry. apply Ot; [lia|]. intros i. nia.
    + rewrite (get_wrench_ok md' _ _ _ _ Hi' Hj'), Hst. destruct rf.
      * f_equal. eapply zero_in; [|intros i1 j1 c d H1 H2 S1 S2 Hne; rewrite (Pl _ _ H1 S1), (Pl _ _ H2 S2); nia| |exact Ez]; [lia|].
        apply list_iff in Hj. destruct Hj as (J0 & c & J1 & J2). exists c. split; [eapply nth_error_In; eauto|]. split; [exact J2|]. rewrite (Pl _ _ J1 J2). lia.
      * rewrite (get_wrench_ok md' _ _ _ _ Hi Hj). f_equal. apply Ok_inj in Ez. subst x'. apply Lo. lia.
Qed.
(** The sensors, the inputs, the switches and the removal of a contact do not change the state vector: the answers about the contacts
    that remain are the same. *)
Theorem C149_sensors_do_not_estimate md md' maxC maxI ds di dw dp s h s' o s'' :
  init md maxC maxI ds di dw dp = Ok s -> forallb no_clear h = true -> Forall (wf_op (N maxC maxI)) h -> run md h s = Ok s' ->
  no_clear o = true -> wf_op (N maxC maxI) o -> match o with KAdd _ _ _ | KSetKine _ _ | KSetBias _ _ | KSetWrench _ | KSetVector _ | KUpdate _ => False | _ => True end -> run md [o] s' = Ok s'' ->
  ko_getUnmodeledWrench md' s'' = ko_getUnmodeledWrench md' s' /\
  forall j, In j (ko_getListOfContacts s'') -> In j (ko_getListOfContacts s') ->
    ko_getContactPosition md' j s'' = ko_getContactPosition md' j s' /\ ko_getContactWrench md' j s'' = ko_getContactWrench md' j s'.
Proof.
  intros E0 Hn Hw E Ho Hwo Hk E2. pose proof (run_inv _ _ _ _ _ _ _ _ _ _ Hn Hw (init_inv _ _ _ _ _ _ _ _ _ _ E0) E) as Hi.
  unfold ko_run in E2. cbn [orun] in E2. apply obind_Ok_inv in E2. destruct E2 as (s2 & E2 & E3). apply Ok_inj in E3. subst s2.
  assert (Hi' : inv maxC maxI s'') by (eapply step_inv; [exact Ho|exact Hwo|exact Hi|exact E2]).
  assert (Hst : o_state s'' = o_state s').
  { assert (St : o_state (ko_start s') = o_state s') by (unfold ko_start; destruct (_ =? _); cbn; auto).
    destruct o as [pv num st|n| |sig cov k num|w cov k n|k n|sig cov| |kv rf|b i|w|v|b|b|b| |e]; cbn [ko_step] in E2; try contradiction; try discriminate.
    - apply remove_inv in E2. destruct E2 as (c & _ & _ & _ & ->). reflexivity.
    - apply obind_Ok_inv in E2. destruct E2 as ([n s1] & E2 & Es). injection Es as <-. apply setIMU_inv in E2. destruct E2 as (i & k' & _ & _ & _ & _ & _ & ->). exact St.
    - apply wrench_inv in E2. destruct E2 as (c & k' & _ & _ & _ & _ & ->). exact St.
    - apply nosensor_inv in E2. destruct E2 as (c & k' & _ & _ & _ & _ & ->). exact St.
    - apply Ok_inj in E2. subst s''. exact St.
    - apply Ok_inj in E2. subst s''. exact St.
    - apply Ok_inj in E2. subst s''. reflexivity.
    - apply Ok_inj in E2. subst s''. reflexivity.
    - apply Ok_inj in E2. subst s''. reflexivity.
    - apply Ok_inj in E2. subst s''. reflexivity. }
  split.
  - unfold ko_getUnmodeledWrench. rewrite Hst, (v_maxI _ _ _ Hi), (v_maxI _ _ _ Hi'). reflexivity.
  - intros j Hj' Hj. split.
    + eapply position_eq; eauto. rewrite Hst. reflexivity.
    + rewrite (get_wrench_ok md' _ _ _ _ Hi Hj), (get_wrench_ok md' _ _ _ _ Hi' Hj'), Hst. reflexivity.
Qed.
(** A contact that is not present: an assertion in Debug. *)
Theorem C149_absent_contact_debug s n : ~ In n (ko_getListOfContacts s) -> 0 <= n < Z.of_nat (length (o_contacts s)) ->
  ko_getContactWrench Debug n s = AssertFail /\ ko_getContactPosition Debug n s = AssertFail.
Proof.
  intros Hn Hr. assert (X : ko_contactIndex Debug n s = AssertFail).
  { unfold ko_contactIndex. destruct (n <? o_maxC s); cbn [boost_assert obind]; [|reflexivity]. destruct (vec_at_in n (o_contacts s) Hr) as [c Hc]. rewrite Hc. cbn [obind].
    destruct (c_set c) eqn:Es; [|reflexivity]. exfalso. apply Hn. apply list_iff. split; [lia|]. exists c. split; [|exact Es]. apply vec_at_inv in Hc. apply Hc. }
  unfold ko_getContactWrench, ko_getContactPosition, ko_contactForceIndex, ko_contactPosIndex. rewrite X. auto.
Qed.
(** Refuted in Release: the wrench of a contact that was never added is made of the last entry of the quaternion, the linear
    velocity and two entries of the angular velocity of the state. *)
Theorem C149_absent_contact_refuted maxC maxI ds di dw dp s v n :
  init Release maxC maxI ds di dw dp = Ok s -> 0 <= n < Z.of_nat maxC -> length v = N maxC maxI ->
  exists s', run Release [KSetVector v] s = Ok s' /\ ko_getListOfContacts s' = [] /\ ko_getContactWrench Release n s' = Ok (seg_get 6 6 v).
Proof.
  intros E0 Hn Lv. eexists. split; [reflexivity|].
  unfold ko_init in E0. apply obind_Ok_inv in E0. destruct E0 as (u & _ & E0). apply Ok_inj in E0. subst s. cbn [ko_setStateVector set_state].
  split.
  - assert (G : forall m z, list_set_contacts (repeat (contact_init (S := R) (C := C) k0 ds) m) z = []) by (clear; induction m as [|m IH]; intros z; [reflexivity|]; cbn; apply IH). apply (G maxC 0).
  - unfold ko_getContactWrench, ko_contactForceIndex, ko_contactIndex. unfold ko_setStateVector, set_state. cbn [o_maxC o_contacts o_state]. destruct (Z.ltb_spec n (Z.of_nat maxC)); [|lia]. cbn [boost_assert obind].
    unfold vec_at. destruct (Z.ltb_spec n 0); [lia|]. rewrite nth_error_repeat by lia. cbn [obind contact_init c_set c_sidx boost_assert].
    change (-1 + sizeContactKine) with 6. apply seg_rd_ok; [lia|]. rewrite Lv. pose proof (nx_13 maxC maxI). change (Z.of_nat (Z.to_nat sizeWrench)) with 6. lia.
Qed.
(** Refuted in Release: the bias of an IMU beyond the last one is written over the unmodeled force. *)
Theorem C149_bias_of_a_missing_imu_refuted maxC maxI ds di dw dp s h s' b :
  init Release maxC maxI ds di dw dp = Ok s -> forallb no_clear h = true -> Forall (wf_op (N maxC maxI)) h -> run Release h s = Ok s' -> length b = 3%nat ->
  exists s'' w, run Release [KSetBias b (Z.of_nat maxI)] s' = Ok s'' /\ ko_getUnmodeledWrench Release s'' = Ok w /\ firstn 3 w = b.
Proof.
  intros E0 Hn Hw E L. pose proof (run_inv _ _ _ _ _ _ _ _ _ _ Hn Hw (init_inv _ _ _ _ _ _ _ _ _ _ E0) E) as Hi.
  assert (LN : Z.of_nat (length (o_state s')) = 19 + 3 * Z.of_nat maxI + 13 * Z.of_nat maxC) by (rewrite (v_x _ _ _ Hi); unfold nx; rewrite Z2Nat.id; rewrite nx_pos; lia).
  assert (Ex : exists x, seg_set Release (13 + 3 * Z.of_nat maxI) b (o_state s') = Ok x).
  { unfold seg_set. destruct (Z.leb_spec 0 (13 + 3 * Z.of_nat maxI)); [|lia]. rewrite L. destruct (Z.leb_spec (13 + 3 * Z.of_nat maxI + Z.of_nat 3) (Z.of_nat (length (o_state s')))); [|lia]. cbn [andb]. eauto. }
  destruct Ex as [x Ex].
  assert (Er : run Release [KSetBias b (Z.of_nat maxI)] s' = Ok (set_state x x s')).
  { unfold ko_run. cbn [orun ko_step]. unfold ko_setGyroBias, gyroBiasIndex, boost_assert. destruct (_ <? _); cbn [obind]; change (angVelIndex + sizeAngVel + sizeGyroBias * Z.of_nat maxI) with (13 + 3 * Z.of_nat maxI); rewrite Ex; reflexivity. }
  assert (Hi' : inv maxC maxI (set_state x x s')).
  { apply (run_inv 0%R kfirst kupd mzero Release maxC maxI [KSetBias b (Z.of_nat maxI)] s' _ eq_refl); [repeat constructor; [exact L|lia]|exact Hi|exact Er]. }
  eexists. exists (seg_get (Z.to_nat (13 + 3 * Z.of_nat maxI)) 6 x). split; [exact Er|]. split.
  - apply (get_unmodeled_ok Release maxC maxI _ Hi'). discriminate.
  - apply seg_set_get in Ex. rewrite L in Ex. rewrite <- Ex. unfold seg_get. rewrite firstn_firstn. reflexivity.
Qed.
End Contacts.

(** ** Concrete cases *)
Definition yinit md maxC maxI := ko_init (S := Z) (M := Z) (C := Z) 0 tt md maxC maxI (1, 2, 3, 4) (10, 11) 12 13.
Definition yrun md h s := ko_run (S := Z) (Kn := unit) (M := Z) (C := Z) 0 (fun _ k => Ok k) (fun _ _ _ k => Ok k) (Z.eqb 0) md h s.
Definition yadd : ko_op Z unit Z Z := KAdd [5; 6; 7; 0; 0; 0; 1] (-1) (0, 0, 0, 0).
Definition yimu n : ko_op Z unit Z Z := KIMU [n; n; n; n; n; n] None tt n.
Definition ywrench v n : ko_op Z unit Z Z := KWrench [v; v; v; v; v; v] None tt n.
Definition yfilter (x : list Z) (y : list (option Z)) : list Z := x.
(** C147: an IMU, a contact with a sensor and the pose. *)
Example C147_case : exists s s', (do s <- yinit Debug 2 2; yrun Debug [yadd; yadd; yimu 1; ywrench 7 1; KNoSensor tt 0; KPose [9; 9; 9; 9; 9; 9; 9] None] s) = Ok s /\
  ko_getMeasurementVector Debug s = Ok (map Some ([1; 1; 1; 1; 1; 1] ++ [7; 7; 7; 7; 7; 7] ++ [9; 9; 9; 9; 9; 9; 9])) /\
  yrun Debug [KUpdate yfilter] s = Ok s' /\ Ok (o_meas s') = ko_getMeasurementVector Debug s.
Proof. do 2 eexists. vm_compute. repeat split. Qed.
(** An IMU that reports twice (Release): the vector returned has not the size of the one that the filter receives. *)
Theorem C147_imu_twice_refuted : exists s s', (do s <- yinit Release 1 1; yrun Release [yimu 0; yimu 0] s) = Ok s /\ ko_getMeasurementVector Release s = Ok (map Some [0; 0; 0; 0; 0; 0]) /\
  yrun Release [KUpdate yfilter] s = Ok s' /\ o_meas s' = map Some [0; 0; 0; 0; 0; 0] ++ [None; None; None; None; None; None].
Proof. do 2 eexists. vm_compute. repeat split. Qed.
(** A contact whose sensor reports in a second iteration: the vector has no room for its wrench. *)
Theorem C147_second_iteration_refuted : exists s, (do s <- yinit Debug 2 1; yrun Debug [yadd; yimu 0; ywrench 7 0; KUpdate yfilter; yimu 0; ywrench 8 0] s) = Ok s /\
  ko_getMeasurementVector Debug s = AssertFail /\ ko_getMeasurementVector Release s = UB.
Proof. eexists. vm_compute. repeat split. Qed.
(** A contact reported without its sensor in a second iteration: the size is negative. *)
Theorem C147_negative_size_refuted : exists s, (do s <- yinit Release 2 1; yrun Release [yadd; ywrench 7 0; KUpdate yfilter; KNoSensor tt 0] s) = Ok s /\
  ko_getMeasurementVector Debug s = AssertFail /\ ko_getMeasurementVector Release s = Throw.
Proof. eexists. vm_compute. repeat split. Qed.

Definition zinit md maxC maxI : outcome (@kq unit) := kq_init md maxC maxI (m1, m1, m1, m1) (tt, tt) tt tt.
Definition zrun md := kq_run (C := unit) (fun _ k => Ok k) (fun _ _ _ k => Ok k) (fun _ => false) md.
Definition zbody : body := mkBody 1 (Some v0) (Some v0) (Some v0) (Some v0) (Some v0) (Some m1) (Some mz) v0 v0 1.
Definition zkine : Kin := mkK (Some (mkV 1 2 3)) (o_both q1 m1) (Some (mkV 4 5 6)) (Some v0) None None.
Definition zfilter (x : list R) (y : list (option R)) : list R := x.
(** C148: the kinematics given with a matrix and a quaternion are kept; an update leaves those of its state. *)
Definition zhist : list (@kq_op unit) := [QSetKine zkine true; QOther (KIMU [0; 0; 0; 0; 0; 0]%R None zkine 0)].
Lemma zhist_wf : Forall (wf_qop (Z.to_nat (stateSize (Z.of_nat 1) (Z.of_nat 1)))) zhist /\ Forall coh_qop zhist.
Proof.
  split; unfold zhist; repeat (apply Forall_cons; [cbn; auto|]); try apply Forall_nil.
  apply coh_both; [unfold qn2, q1; cbn; ring|unfold qrot, q1, m1; cbn; f_equal; ring].
Qed.
Example C148_case md : exists q q' q'', zinit md 1 1 = Ok q /\ zrun md zhist q = Ok q' /\
  o_kest (q_obs q') <> o_kdata (q_obs q') /\ zrun md [QUpdate zbody zfilter] q' = Ok q'' /\
  kp (kq_getKinematics q'') = Some (mkV 1 2 3) /\ rot (ko (kq_getKinematics q')) = Some m1 /\ ka (kq_getKinematics q'') = None.
Proof.
  destruct (zinit md 1 1) as [q| | |] eqn:E; try (destruct md; vm_compute in E; discriminate). exists q.
  destruct (zrun md zhist q) as [q'| | |] eqn:E1; try (destruct md; vm_compute in E; injection E as <-; vm_compute in E1; discriminate). exists q'.
  destruct (zrun md [QUpdate zbody zfilter] q') as [q''| | |] eqn:E2; try (destruct md; vm_compute in E; injection E as <-; vm_compute in E1; injection E1 as <-; vm_compute in E2; discriminate). exists q''.
  destruct md; vm_compute in E; injection E as <-; vm_compute in E1; injection E1 as <-; vm_compute in E2; injection E2 as <-;
  (split; [reflexivity|]; split; [reflexivity|]; split; [vm_compute; discriminate|]; split; [reflexivity|]; repeat split).
Qed.
(** A robot without contact, on which an unmodeled force [f] acts upwards. *)
Definition zx (f : R) : list R := [0; 0; 0; 0; 0; 0; 1; 0; 0; 0; 0; 0; 0; 0; 0; 0; 0; 0; f; 0; 0; 0; 0; 0; 0; 0; 0; 0; 0; 0; 0; 0; 0; 0; 0]%R.
Lemma zx_acc md s f : zinit md 1 1 = Ok s -> forall s', q_obs s' = ko_setStateVector (zx f) (q_obs s) ->
  exists k, state_kine md zbody (q_obs s') (zx f) = Ok k /\ ka k = Some (mkV 0 0 (f - 98 / 10)).
Proof.
  intros E s' Es. rewrite Es.
  assert (Hi : inv 1 1 (q_obs s)).
  { unfold zinit, kq_init in E. apply obind_Ok_inv in E. destruct E as (o & Eo & E). apply obind_Ok_inv in E. destruct E as (k & _ & E). apply Ok_inj in E. subst s. eapply init_inv. exact Eo. }
  set (o := ko_setStateVector (zx f) (q_obs s)).
  assert (Hio : inv 1 1 o) by (destruct Hi; constructor; auto).
  assert (Hl : ko_getListOfContacts o = []) by (subst o; clear -E; destruct md; vm_compute in E; injection E as <-; reflexivity).
  assert (Hc : contacts_at o (mkFr (fun _ => m1) (fun _ => v0) (fun _ => v0) (fun _ => v0))) by (intros j Hj; rewrite Hl in Hj; destruct Hj).
  assert (HF : vat md o (zx f) CUForce = mkV 0 0 f) by (subst o; clear -E; destruct md; vm_compute in E; injection E as <-; reflexivity).
  assert (HW : vat md o (zx f) CAngVel = v0) by reflexivity.
  assert (HQ : qat md o (zx f) = q1) by reflexivity.
  assert (U : qn2 (qat md o (zx f)) = 1%R) by (rewrite HQ; unfold qn2, q1; cbn; ring).
  destruct (state_kine_ok md 1 1 o (zx f) _ 1 v0 v0 v0 v0 v0 m1 mz v0 v0 1 Hio (fun _ => le_n 1) eq_refl Hc U) as (r & Ek & _).
  eexists. split; [exact Ek|]. cbn [ka]. f_equal. unfold total_force. rewrite Hl, HF, HQ, HW. generalize (al_loc 1 v0 v0 v0 v0 v0 m1 mz (mvec (mtr (qrot q1)) v0)
    (vadd (b_addF (bodyv 1 v0 v0 v0 v0 v0 m1 mz v0 v0 1)) (vadd (mkV 0 0 f) (vsum (map (fun j : Z => mvec (fr (mkFr (fun _ => m1) (fun _ => v0) (fun _ => v0) (fun _ => v0)) j) (vat md o (zx f) (CCForce j))) []))))
    (total_torque md (bodyv 1 v0 v0 v0 v0 v0 m1 mz v0 v0 1) o (mkFr (fun _ => m1) (fun _ => v0) (fun _ => v0) (fun _ => v0)) (zx f))).
  clear. intros al. rewrite mvec_0. change (b_addF (bodyv 1 v0 v0 v0 v0 v0 m1 mz v0 v0 1)) with v0. cbn [map vsum fold_right].
  assert (A : forall F, la_loc 1 v0 v0 v0 v0 F al = F) by (clear; intros; unfold la_loc, corio; d3; u3; f_equal; field). rewrite A.
  assert (B : qrot q1 = m1) by (unfold qrot, q1, m1; cbn; f_equal; ring). rewrite B, mvec_1.
  unfold gravity, v0, vsub, vadd. cbn [vx vy vz]. f_equal; ring.
Qed.
(** Refuted: the accelerations estimated for a robot that falls are still returned after setStateVector to a state with no acceleration. *)
Theorem C148_stale_accelerations_refuted md : exists q q', zinit md 1 1 = Ok q /\ zrun md [QSetVector (zx 0); QEstimate zbody; QSetVector (zx (98 / 10))] q = Ok q' /\
  ka (kq_getKinematics q') = Some (mkV 0 0 (- 98 / 10)) /\
  exists k, state_kine md zbody (q_obs q') (o_state (q_obs q')) = Ok k /\ ka k = Some v0.
Proof.
  destruct (zinit md 1 1) as [q| | |] eqn:E0; try (destruct md; vm_compute in E0; discriminate). exists q.
  pose proof (zx_acc md q 0 E0) as A0. pose proof (zx_acc md q (98 / 10) E0) as A1.
  assert (W : forall f, length (zx f) = Z.to_nat (stateSize (Z.of_nat 1) (Z.of_nat 1))) by reflexivity.
  assert (I0 : exists q1, zrun md [QSetVector (zx 0)] q = Ok q1 /\ q_obs q1 = ko_setStateVector (zx 0) (q_obs q)) by (eexists; split; reflexivity).
  destruct I0 as (q1 & E1 & S1). destruct (A0 _ S1) as (k0 & K0 & Ka0). rewrite <- (f_equal o_state S1 : o_state (q_obs q1) = zx 0) in K0.
  assert (Hw : Forall (wf_qop (C := unit) (Z.to_nat (stateSize (Z.of_nat 1) (Z.of_nat 1)))) [QSetVector (zx 0)]) by (repeat constructor).
  assert (Hc : Forall (coh_qop (C := unit)) [QSetVector (zx 0)]) by (repeat constructor).
  pose proof (C148_estimated_accelerations (fun _ k => Ok k) (fun _ _ _ k => Ok k) (fun _ => false) md md 1 1 _ _ _ _ q _ q1 zbody E0 Hw Hc E1) as X. rewrite K0 in X. cbn [obind] in X.
  assert (E2 : exists q2, zrun md [QSetVector (zx (98 / 10))] (mkKq (q_obs q1) k0) = Ok q2 /\ q_obs q2 = ko_setStateVector (zx (98 / 10)) (q_obs q) /\ ka (q_kin q2) = ka k0).
  { eexists. split; [reflexivity|]. cbn. rewrite S1. auto. }
  destruct E2 as (q2 & E2 & S2 & Ka2). exists q2. split; [reflexivity|]. split.
  - unfold zrun, kq_run in *. change [QSetVector (zx 0); QEstimate zbody; QSetVector (zx (98 / 10))] with ([QSetVector (C := unit) (zx 0)] ++ [QEstimate zbody] ++ [QSetVector (zx (98 / 10))]).
    rewrite orun_app, E1. cbn [obind]. rewrite orun_app. cbn [orun kq_step]. rewrite X. cbn [obind]. exact E2.
  - split; [unfold kq_getKinematics; rewrite Ka2, Ka0; do 2 f_equal; lra|]. destruct (A1 _ S2) as (k1 & K1 & Ka1). exists k1. rewrite (f_equal o_state S2 : o_state (q_obs q2) = zx (98 / 10)). split; [exact K1|]. rewrite Ka1. unfold v0. do 2 f_equal. lra.
Qed.

(** C149: a contact is added, then a wrench is given to the state vector, then the kinematics are set with the forces reset. *)
Definition winit md maxC maxI := ko_init (C := unit) 0%R k_empty md maxC maxI (m1, m1, m1, m1) (tt, tt) tt tt.
Definition wrun md := ko_run (S := R) (C := unit) 0%R (fun _ k => Ok k) (fun _ _ _ (k : Kin) => Ok k) (fun _ : M3 => false) md.
Definition wpose : list R := l3 (mkV 1 2 3) ++ l4 q1.
Definition wx : list R := repeat 0%R 22 ++ wpose ++ [4; 5; 6; 7; 8; 9]%R.
Example C149_case md : exists s s1 s2, winit md 1 1 = Ok s /\ wrun md [KAdd wpose 0 (m1, m1, m1, m1); KSetVector wx] s = Ok s1 /\ ko_getListOfContacts s1 = [0] /\
  ko_getContactWrench md 0 s1 = Ok [4; 5; 6; 7; 8; 9]%R /\ ko_getContactPosition md 0 s1 = Ok (mkK (Some (mkV 1 2 3)) (o_quat q1) None None None None) /\
  wrun md [KSetWrench [1; 2; 3; 4; 5; 6]%R; KSetKine (repeat 1%R 13) true] s1 = Ok s2 /\ ko_getUnmodeledWrench md s2 = Ok [1; 2; 3; 4; 5; 6]%R /\ ko_getContactWrench md 0 s2 = Ok [0; 0; 0; 0; 0; 0]%R.
Proof.
  destruct md; (do 3 eexists; split; [vm_compute; reflexivity|]; split; [vm_compute; reflexivity|]; split; [vm_compute; reflexivity|]; split; [vm_compute; reflexivity|]; split; [vm_compute; reflexivity|]; split; [vm_compute; reflexivity|]; split; vm_compute; reflexivity).
Qed.
(** A second contact, an IMU beyond the last one and an absent contact in this observer. *)
Example C149_case2 : exists s s1, winit Release 2 1 = Ok s /\ wrun Release [KAdd wpose 0 (m1, m1, m1, m1); KSetBias [1; 2; 3]%R 1] s = Ok s1 /\ ~ In 1 (ko_getListOfContacts s1) /\ ko_getContactWrench Debug 1 s1 = AssertFail /\
  ko_getUnmodeledWrench Release s1 = Ok [1; 2; 3; 0; 0; 0]%R.
Proof. do 2 eexists. split; [vm_compute; reflexivity|]. split; [vm_compute; reflexivity|]. split; [vm_compute; intuition lia|]. split; vm_compute; reflexivity. Qed.

Print Assumptions C147_measurement_vector_partial.
Print Assumptions C147_outside_an_iteration.
Print Assumptions C148_kinematics_of_the_state.
Print Assumptions C148_rotation_of_the_state.
Print Assumptions C148_estimated_accelerations.
Print Assumptions C148_accelerations_after_update.
Print Assumptions C148_accelerations_kept_refuted.
Print Assumptions C148_initial_orientation_refuted.
Print Assumptions C149_answers_about_a_contact.
Print Assumptions C149_added_contact.
Print Assumptions C149_unmodeled_wrench_and_bias.
Print Assumptions C149_state_kinematics.
Print Assumptions C149_sensors_do_not_estimate.
Print Assumptions C149_absent_contact_debug.
Print Assumptions C149_absent_contact_refuted.
Print Assumptions C149_bias_of_a_missing_imu_refuted.
Print Assumptions C147_imu_twice_refuted.
Print Assumptions C147_second_iteration_refuted.
Print Assumptions C147_negative_size_refuted.
Print Assumptions C148_stale_accelerations_refuted.
Print Assumptions C148_kinematics_of_a_frame.
