(** Properties C49-C53 and C57: the bookkeeping of the kinetics observer. *)
From Coq Require Import ZArith List Lia Bool.
From Verif Require Import Base KinObs SpecKin KinProofs KinInv KinThms KinMeas KinHist KinIter.
Import ListNotations.
Open Scope Z_scope.

Section Kinetics.
(** Any scalars, kinematics, stiffness matrices and covariances. *)
Context {S : Type} (s0 : S) {Kn : Type} (k0 : Kn) (kfirst : mode -> Kn -> outcome Kn) (kupd : mode -> Z -> Kn -> Kn -> outcome Kn).
Context {M : Type} (mzero : M -> bool) {C : Type}.
Notation obs := (obs S Kn M C).
Notation op := (ko_op S Kn M C).
Notation init := (ko_init s0 k0).
Notation run := (ko_run s0 kfirst kupd mzero).
Notation N maxC maxI := (Z.to_nat (stateSize (Z.of_nat maxC) (Z.of_nat maxI))).
Implicit Types (s : obs) (h : list op).

(** ** C49 *)
(** In every state reached without clearContacts, the index functions return the first index of a
    segment inside the state vector (resp. tangent vector), segments of distinct components are
    disjoint, and every index is in the segment of a component or in the room of an absent contact. *)
Theorem C49_state_layout md maxC maxI ds di dw dp s h s' (t : bool) :
  init md maxC maxI ds di dw dp = Ok s -> forallb no_clear h = true -> Forall (wf_op (N maxC maxI)) h -> run md h s = Ok s' ->
  let size := if t then stateTangentSize (Z.of_nat maxC) (Z.of_nat maxI) else Z.of_nat (length (o_state s')) in
  (forall c, comp_exists s' c -> exists z, comp_start md t s' c = Ok z /\ 0 <= z /\ z + comp_size t c <= size) /\
  (forall c c' z z', comp_exists s' c -> comp_exists s' c' -> c <> c' -> comp_start md t s' c = Ok z -> comp_start md t s' c' = Ok z' ->
     z + comp_size t c <= z' \/ z' + comp_size t c' <= z) /\
  (forall i, 0 <= i < size -> (forall j, 0 <= j < Z.of_nat maxC -> In j (ko_getListOfContacts s')) ->
     exists c z, comp_exists s' c /\ comp_start md t s' c = Ok z /\ z <= i < z + comp_size t c).
Proof.
  intros E0 Hn Hw E. pose proof (init_inv _ _ _ _ _ _ _ _ _ _ E0) as Hi0. pose proof (run_inv _ _ _ _ _ _ _ _ _ _ Hn Hw Hi0 E) as Hi.
  assert (Hm : md = Debug -> (0 < maxI)%nat) by (intros ->; eapply init_debug; exact E0).
  assert (Hsz : (if t then stateTangentSize (Z.of_nat maxC) (Z.of_nat maxI) else Z.of_nat (length (o_state s'))) = vsize t maxC maxI).
  { unfold vsize. destruct t; [reflexivity|]. rewrite (v_x _ _ _ Hi). rewrite nx_eq. symmetry. apply (vsize_eq false). }
  cbv zeta. rewrite Hsz. split; [|split].
  - intros c Hc. exists (cval t (Z.of_nat maxI) c). split; [apply (comp_start_ok _ _ maxC); assumption|]. eapply layout_in; eassumption.
  - intros c c' z z' Hc Hc' Hne Ez Ez'. rewrite (comp_start_ok _ _ maxC maxI) in Ez, Ez' by assumption. apply Ok_inj in Ez, Ez'. subst. eapply layout_disj; eassumption.
  - intros i Hz Hall. destruct (layout_cover _ _ _ _ _ Hi Hz) as [(c & Hc & Hr)|(j & Hj & Hout & _)]; [|exfalso; apply Hout, Hall, Hj].
    exists c, (cval t (Z.of_nat maxI) c). split; [exact Hc|]. split; [apply (comp_start_ok _ _ maxC); assumption|exact Hr].
Qed.

(** ** C50 *)
(** The contacts listed after any sequence of calls without clearContacts are those of the abstract
    set of contacts: added, not removed since, and updated in every iteration that was estimated. *)
Theorem C50_list_of_contacts md maxC maxI ds di dw dp s h s' :
  init md maxC maxI ds di dw dp = Ok s -> forallb no_clear h = true -> Forall (wf_op (N maxC maxI)) h -> run md h s = Ok s' ->
  NoDup (ko_getListOfContacts s') /\ forall j, In j (ko_getListOfContacts s') <-> cs_present (cset_run maxC h) j = true.
Proof.
  intros E0 Hn Hw E. pose proof (init_inv _ _ _ _ _ _ _ _ _ _ E0) as Hi0. pose proof (run_inv _ _ _ _ _ _ _ _ _ _ Hn Hw Hi0 E) as Hi.
  pose proof (init_sim _ _ _ _ _ _ _ _ _ _ E0) as Hs0. pose proof (run_sim _ _ _ _ _ _ _ _ _ _ _ Hn Hw Hi0 Hs0 E) as Hs.
  split; [apply list_sorted|]. exact (list_after _ _ _ _ Hi Hs).
Qed.
(** addContact without a number gives the smallest free one and adds only that contact; with the number
    of an absent contact it adds that contact. *)
Theorem C50_add_contact md maxC maxI ds di dw dp s h s' pv num st n :
  init md maxC maxI ds di dw dp = Ok s -> forallb no_clear h = true -> Forall (wf_op (N maxC maxI)) h -> run md h s = Ok s' -> length pv = 7%nat ->
  0 <= n < Z.of_nat maxC -> ~ In n (ko_getListOfContacts s') -> (num = n \/ num < 0 /\ forall j, 0 <= j < n -> In j (ko_getListOfContacts s')) ->
  exists s'', ko_addContact s0 mzero md pv num st s' = Ok (n, s'') /\ forall j, In j (ko_getListOfContacts s'') <-> j = n \/ In j (ko_getListOfContacts s').
Proof.
  intros E0 Hn Hw E HL Hb Hf Hnum. pose proof (init_inv _ _ _ _ _ _ _ _ _ _ E0) as Hi0. pose proof (run_inv _ _ _ _ _ _ _ _ _ _ Hn Hw Hi0 E) as Hi.
  eapply add_ok; eauto. intros ->. eapply init_debug; exact E0.
Qed.
(** In Release, removing a contact removes it and only it. *)
Theorem C50_remove_contact_partial s n : In n (ko_getListOfContacts s) ->
  exists s', ko_removeContact Release n s = Ok s' /\ forall j, In j (ko_getListOfContacts s') <-> j <> n /\ In j (ko_getListOfContacts s).
Proof. apply remove_release. Qed.
(** In Debug, removing an existing contact always fails an assertion. *)
Theorem C50_remove_contact_debug_refuted s n : In n (ko_getListOfContacts s) -> ko_removeContact Debug n s = AssertFail.
Proof. apply remove_debug. Qed.
(** After clearContacts no contact can be added. *)
Theorem C50_add_after_clear_refuted md pv num st s r : ko_addContact s0 mzero md pv num st (ko_clearContacts s) <> Ok r.
Proof. apply add_after_clear. Qed.
(** getNumberOfContacts is the maximum number of contacts, whatever the contacts present. *)
Theorem C50_number_of_contacts_refuted md maxC maxI ds di dw dp s h s' :
  init md maxC maxI ds di dw dp = Ok s -> forallb no_clear h = true -> Forall (wf_op (N maxC maxI)) h -> run md h s = Ok s' ->
  ko_getNumberOfContacts s' = Z.of_nat maxC.
Proof.
  intros E0 Hn Hw E. pose proof (init_inv _ _ _ _ _ _ _ _ _ _ E0) as Hi0. pose proof (run_inv _ _ _ _ _ _ _ _ _ _ Hn Hw Hi0 E) as Hi.
  unfold ko_getNumberOfContacts. rewrite (v_lC _ _ _ Hi). reflexivity.
Qed.

(** ** C51 *)
(** Missing: any iteration; here the first one in which contacts with wrench sensors report (see
    C51_sensor_in_two_iterations_refuted), without resetInputs, and calls accepted in Debug.
    The measurement given to the filter is made of the signals reported in this iteration, in both
    modes; the predicted measurement has the same layout; each sensor has its own segment and its own
    blocks of the covariance. *)
Theorem C51_measurement_vector_partial md md' maxC maxI ds di dw dp s h1 s1 h2 s2 e :
  (forall k k', kfirst Debug k = Ok k' -> kfirst Release k = Ok k') -> (forall n a b k', kupd Debug n a b = Ok k' -> kupd Release n a b = Ok k') ->
  init md maxC maxI ds di dw dp = Ok s -> forallb no_clear h1 = true -> forallb no_wrench h1 = true -> Forall (wf_op (N maxC maxI)) h1 -> run md h1 s = Ok s1 ->
  cs_iter (cset_run maxC h1) = false ->
  forallb in_iteration h2 = true -> existsb reports h2 = true -> Forall (wf_op (N maxC maxI)) h2 -> run Debug h2 s1 = Ok s2 ->
  (forall j, In j (ko_getListOfContacts s2) -> existsb (updates_contact j) h2 = true) ->
  run md' h2 s1 = Ok s2 /\
  exists s3, ko_prepare md' s2 = Ok s3 /\ ko_update md' e s2 = Ok (ko_finish e s3) /\
    o_meas s3 = map Some (meas_of maxI maxC (imu_signal h2) (contact_signal h2) (pose_signal h2)) /\
    (forall hI hC hP, (forall i, length (hI i) = 6%nat) -> (forall j, length (hC j) = 6%nat) -> length hP = 7%nat ->
       ko_measureDynamics md' hI hC hP s3 = Ok (map Some (meas_of maxI maxC (fun i => option_map (fun _ => hI i) (imu_signal h2 i))
         (fun j => option_map (fun _ => hC j) (contact_signal h2 j)) (option_map (fun _ => hP) (pose_signal h2))))) /\
    (forall i u, nth_error (o_imus s3) i = Some u -> imu_signal h2 (Z.of_nat i) <> None ->
       seg_get (Z.to_nat (i_midx u)) 6 (o_meas s3) = map Some (i_sig u) /\ In (i_midx u, fst (i_cov u)) (o_R s3) /\ In (i_midx u + 3, snd (i_cov u)) (o_R s3)) /\
    (forall j c, nth_error (o_contacts s3) j = Some c -> contact_signal h2 (Z.of_nat j) <> None ->
       seg_get (Z.to_nat (c_midx c)) 6 (o_meas s3) = map Some (c_wrench c) /\ exists v, c_cov c = Some v /\ In (c_midx c, v) (o_R s3)).
Proof.
  intros KF KU E0 Hn Hnw Hw E1 Hit Hf Hr Hw2 E2 Hall.
  pose proof (init_inv _ _ _ _ _ _ _ _ _ _ E0) as Hi0. pose proof (run_inv _ _ _ _ _ _ _ _ _ _ Hn Hw Hi0 E1) as Hi.
  pose proof (init_sim _ _ _ _ _ _ _ _ _ _ E0) as Hs0. pose proof (run_sim _ _ _ _ _ _ _ _ _ _ _ Hn Hw Hi0 Hs0 E1) as Hs.
  assert (Hk : o_kest s1 = o_kdata s1).
  { pose proof (m_it _ _ _ Hs) as X. unfold cset_run in Hit. rewrite Hit in X. destruct (Z.eqb_spec (o_kest s1) (o_kdata s1)); [assumption|discriminate]. }
  pose proof (noreal_run _ _ _ _ _ _ _ _ Hnw (init_noreal _ _ _ _ _ _ _ _ _ _ E0) E1) as Hnr.
  pose proof (iter_run _ _ _ _ _ _ _ _ _ Hf Hw2 Hi Hk Hnr E2) as Ht. destruct (iter_ready _ _ _ _ Ht Hr Hall) as [HR HM].
  assert (K : kmono kfirst kupd) by (split; unfold ole; auto).
  split; [apply debug_any; assumption|].
  destruct (prepare_ok md' _ _ _ HR) as (p & r & EP & P1 & P2 & P3 & ER). destruct (prepare_ok Debug _ _ _ HR) as (p' & r' & EPD & Q1 & Q2 & Q3 & ERD).
  eexists. split; [exact EP|]. split; [|split; [|split; [|split]]].
  - unfold ko_update. pose proof (r_iter _ _ _ HR) as X. apply Z.eqb_neq in X. rewrite X, EP. reflexivity.
  - cbn. rewrite HM. reflexivity.
  - intros hI hC hP L1 L2 L3. eapply predict_ok; eauto. destruct md'; [exact EP|].
    pose proof (ole_prepare s2 _ EPD) as X. rewrite EP in X. apply Ok_inj in X. rewrite X. exact EPD.
  - intros i u Hu Hsig. cbn [set_meas set_nreal set_iter set_pose set_imus set_contacts o_imus o_meas o_R] in *. destruct (ready_sig _ _ _ HR) as [HI HC].
    assert (Et : i_time u = o_kdata s2).
    { destruct (Z.eq_dec (i_time u) (o_kdata s2)) as [|Hne]; [assumption|]. exfalso. apply Hsig.
      assert (G : forall (l : list (imu S Kn C)) n j v, nth_error (assignI (o_kdata s2) n l) j = Some v -> exists v', nth_error l j = Some v' /\ i_time v' = i_time v).
      { clear. intros l. induction l as [|x l IH]; intros n j v E; cbn [assignI] in E; [destruct j; discriminate|].
        destruct (i_time x =? o_kdata s2); destruct j as [|j]; cbn in E |- *; try (injection E as <-; eexists; split; reflexivity); eauto. }
      destruct (G _ _ _ _ Hu) as (v' & Hv & Ev). rewrite <- (t_imu _ _ _ _ Ht Hr _ _ Hv), Ev. apply Z.eqb_neq in Hne. rewrite Hne. reflexivity. }
    pose proof (assignI_located (o_kdata s2) (o_imus s2) HI [] (map Some (concat (map wrench_of (o_contacts s2)) ++ (if p_time (o_pose s2) =? o_kdata s2 then p_sig (o_pose s2) else []))) i u Hu Et) as (A & B & D).
    cbn [app length] in *. unfold meas_state. rewrite map_app. split; [exact A|]. rewrite ER. split; apply in_or_app; left; assumption.
  - intros j c Hc Hsig. cbn [set_meas set_nreal set_iter set_pose set_imus set_contacts o_contacts o_meas o_R] in *. destruct (ready_sig _ _ _ HR) as [HI HC].
    pose proof (sig_length _ _ HI) as L1.
    assert (Et : c_real c = true).
    { destruct (c_real c) eqn:X; [reflexivity|]. exfalso. apply Hsig.
      assert (G : forall (l : list (contact S Kn M C)) n i v, nth_error (assignC n l) i = Some v -> exists v', nth_error l i = Some v' /\ c_real v' = c_real v).
      { clear. intros l. induction l as [|x l IH]; intros n i v E; cbn [assignC] in E; [destruct i; discriminate|].
        destruct (c_real x) eqn:Ex; destruct i as [|i]; cbn in E |- *; try (injection E as <-; eexists; split; [reflexivity|]; cbn; congruence); eauto. }
      destruct (G _ _ _ _ Hc) as (v' & Hv & Ev). destruct (t_con _ _ _ _ Ht Hr _ _ Hv) as (<- & _). rewrite Ev, X. reflexivity. }
    assert (LP : 6 * count (is_cur (o_kdata s2)) (o_imus s2) = Z.of_nat (length (map (@Some S) (concat (map (sig_of (o_kdata s2)) (o_imus s2)))))) by (rewrite map_length; lia).
    rewrite LP in Hc, ER. pose proof (assignC_located (o_contacts s2) HC _ (map Some (if p_time (o_pose s2) =? o_kdata s2 then p_sig (o_pose s2) else [])) j c Hc Et) as (A & v & B & D).
    unfold meas_state. rewrite !map_app. split; [exact A|]. exists v. split; [exact B|]. rewrite ER. apply in_or_app. right. apply in_or_app. left. exact D.
Qed.
(** In Debug, once a contact has reported a wrench and the update has been done, no later update
    succeeds, whatever is reported (without clearContacts and resetInputs), unless the contact was
    updated without sensor before that update. *)
Theorem C51_sensor_in_two_iterations_refuted maxC maxI ds di dw dp s h1 h2 h3 w cov k n e e' s' :
  init Debug maxC maxI ds di dw dp = Ok s ->
  forallb keeps h1 = true -> forallb (keeps_sensor n) h2 = true -> forallb keeps h3 = true -> existsb reports h3 = true ->
  Forall (wf_op (N maxC maxI)) (h1 ++ KWrench w cov k n :: h2 ++ KUpdate e :: h3 ++ [KUpdate e']) ->
  run Debug (h1 ++ KWrench w cov k n :: h2 ++ KUpdate e :: h3 ++ [KUpdate e']) s <> Ok s'.
Proof. apply two_iterations. Qed.

(** ** C52 *)
(** In Debug, setIMU without a number never succeeds. *)
Theorem C52_automatic_number_debug_refuted sig cov k num s r : num < 0 -> ko_setIMU kfirst kupd Debug sig cov k num s <> Ok r.
Proof. apply imu_auto_debug. Qed.
(** In both modes, as the first call of an iteration, it reads past the end of the table of IMUs. *)
Theorem C52_automatic_number_refuted md maxC maxI ds di dw dp s h s' sig cov k num :
  init md maxC maxI ds di dw dp = Ok s -> forallb no_clear h = true -> Forall (wf_op (N maxC maxI)) h -> run md h s = Ok s' ->
  cs_iter (cset_run maxC h) = false -> num < 0 -> ko_setIMU kfirst kupd md sig cov k num s' = UB.
Proof.
  intros E0 Hn Hw E Hit Hnum. pose proof (init_inv _ _ _ _ _ _ _ _ _ _ E0) as Hi0. pose proof (run_inv _ _ _ _ _ _ _ _ _ _ Hn Hw Hi0 E) as Hi.
  pose proof (init_sim _ _ _ _ _ _ _ _ _ _ E0) as Hs0. pose proof (run_sim _ _ _ _ _ _ _ _ _ _ _ Hn Hw Hi0 Hs0 E) as Hs.
  eapply imu_auto_fresh; eauto. pose proof (m_it _ _ _ Hs) as X. unfold cset_run in Hit. rewrite Hit in X. destruct (Z.eqb_spec (o_kest s') (o_kdata s')); [assumption|discriminate].
Qed.

(** ** C53 *)
(** setWithUnmodeledWrench and setWithAccelerationEstimation set their own switch and no other. *)
Theorem C53_switches_partial b s :
  (o_withUnm (ko_setWithUnmodeledWrench b s) = b /\ o_withGyro (ko_setWithUnmodeledWrench b s) = o_withGyro s /\ o_withAcc (ko_setWithUnmodeledWrench b s) = o_withAcc s) /\
  (o_withAcc (ko_setWithAccelerationEstimation b s) = b /\ o_withGyro (ko_setWithAccelerationEstimation b s) = o_withGyro s /\ o_withUnm (ko_setWithAccelerationEstimation b s) = o_withUnm s).
Proof. cbn. auto. Qed.
(** No sequence of calls changes whether the gyro biases are estimated: setWithGyroBias switches the
    accelerations instead. *)
Theorem C53_gyro_switch_refuted md h : forall s s', run md h s = Ok s' -> o_withGyro s' = o_withGyro s.
Proof.
  unfold ko_run. induction h as [|o h IH]; intros s s' E; cbn [orun] in E; [injection E as <-; reflexivity|].
  apply obind_Ok_inv in E. destruct E as (s1 & E1 & E). rewrite (IH _ _ E). clear IH E.
  assert (St : o_withGyro (ko_start s) = o_withGyro s) by (unfold ko_start; destruct (_ =? _); reflexivity).
  destruct o as [pv num st|n| |sig cov k num|w cov k n|k n|sig cov| |kv rf|b i|w|v|b|b|b| |e]; cbn [ko_step] in E1.
  - apply obind_Ok_inv in E1. destruct E1 as ([n s2] & E & Es). injection Es as <-. apply add_inv in E. destruct E as (n0 & c & x & _ & _ & _ & _ & _ & _ & _ & ->). reflexivity.
  - apply remove_inv in E1. destruct E1 as (c & _ & _ & _ & ->). reflexivity.
  - injection E1 as <-. reflexivity.
  - apply obind_Ok_inv in E1. destruct E1 as ([n s2] & E & Es). injection Es as <-. apply setIMU_inv in E. destruct E as (i & k' & _ & _ & _ & _ & _ & ->). exact St.
  - apply wrench_inv in E1. destruct E1 as (c & k' & _ & _ & _ & _ & ->). exact St.
  - apply nosensor_inv in E1. destruct E1 as (c & k' & _ & _ & _ & _ & ->). exact St.
  - injection E1 as <-. exact St.
  - injection E1 as <-. exact St.
  - unfold ko_setStateKinematics in E1. apply obind_Ok_inv in E1. destruct E1 as (x & _ & E). apply obind_Ok_inv in E. destruct E as (x' & E2 & E). injection E as <-. reflexivity.
  - unfold ko_setGyroBias in E1. apply obind_Ok_inv in E1. destruct E1 as (g & _ & E). apply obind_Ok_inv in E. destruct E as (x & _ & E). injection E as <-. reflexivity.
  - unfold ko_setStateUnmodeledWrench in E1. apply obind_Ok_inv in E1. destruct E1 as (g & _ & E). apply obind_Ok_inv in E. destruct E as (x & _ & E). injection E as <-. reflexivity.
  - injection E1 as <-. reflexivity.
  - injection E1 as <-. reflexivity.
  - injection E1 as <-. reflexivity.
  - injection E1 as <-. reflexivity.
  - injection E1 as <-. reflexivity.
  - unfold ko_update in E1. destruct (_ =? _); [injection E1 as <-; reflexivity|]. apply obind_Ok_inv in E1. destruct E1 as (s2 & E & Es). injection Es as <-.
    apply prepare_shape in E. destruct E as ((y & r & p & E & _) & _). cbn. rewrite E. reflexivity.
Qed.
(** The stiffness and damping of an added contact: the given values when not zero, else the defaults,
    except that the linear stiffness is chosen according to the linear damping. *)
Theorem C53_contact_stiffness_partial md pv num lk ld ak ad s n s' : ko_addContact s0 mzero md pv num (lk, ld, ak, ad) s = Ok (n, s') ->
  exists c dlk dld dak dad, nth_error (o_contacts s') (Z.to_nat n) = Some c /\ o_dstiff s = (dlk, dld, dak, dad) /\
    c_stiff c = (if mzero ld then dlk else lk, if mzero ld then dld else ld, if mzero ak then dak else ak, if mzero ad then dad else ad).
Proof.
  intros E. apply add_inv in E. destruct E as (n0 & c & x & _ & _ & _ & Hn & Hc & _ & _ & ->). unfold added. destruct (o_dstiff s) as [[[dlk dld] dak] dad] eqn:Ed.
  eexists. exists dlk, dld, dak, dad. cbn. rewrite vec_set_nth, Nat.eqb_refl, Hc. split; [reflexivity|]. split; reflexivity.
Qed.
(** So a linear stiffness given without a linear damping is ignored, and a zero one given with a
    damping is used. *)
Theorem C53_linear_stiffness_refuted md pv num lk ld ak ad s n s' : ko_addContact s0 mzero md pv num (lk, ld, ak, ad) s = Ok (n, s') ->
  exists c, nth_error (o_contacts s') (Z.to_nat n) = Some c /\
    (mzero ld = true -> fst (fst (fst (c_stiff c))) = fst (fst (fst (o_dstiff s)))) /\ (mzero ld = false -> fst (fst (fst (c_stiff c))) = lk).
Proof.
  intros E. destruct (C53_contact_stiffness_partial _ _ _ _ _ _ _ _ _ _ E) as (c & dlk & dld & dak & dad & Hc & Hd & Hs). exists c. split; [exact Hc|]. rewrite Hs, Hd. cbn.
  split; intros ->; reflexivity.
Qed.

(** ** C57 *)
(** The estimate after the next update does not depend on the pose given to addContact. *)
Theorem C57_contact_pose_used_refuted md maxC maxI ds di dw dp s h0 s' pv pv' num st h e :
  init md maxC maxI ds di dw dp = Ok s -> forallb no_clear h0 = true -> Forall (wf_op (N maxC maxI)) h0 -> run md h0 s = Ok s' ->
  length pv = 7%nat -> length pv' = 7%nat -> forallb sensor h = true -> existsb reports h = true -> Forall (wf_op (N maxC maxI)) h ->
  omap o_state (run md (KAdd pv num st :: h ++ [KUpdate e]) s') = omap o_state (run md (KAdd pv' num st :: h ++ [KUpdate e]) s').
Proof.
  intros E0 Hn Hw E L1 L2 H1 H2 H3. pose proof (init_inv _ _ _ _ _ _ _ _ _ _ E0) as Hi0. pose proof (run_inv _ _ _ _ _ _ _ _ _ _ Hn Hw Hi0 E) as Hi.
  eapply pose_unused; eauto.
Qed.
(** The other setters do reach the filter: its state has the given values at the place of the
    component, is unchanged elsewhere in the current estimate, and is the current estimate. *)
Theorem C57_state_setters_partial md s s' :
  (forall b i, length b = 3%nat -> ko_setGyroBias md b i s = Ok s' -> exists z, gyroBiasIndex md (o_maxI s) i = Ok z /\ seg_get (Z.to_nat z) 3 (o_ekf s') = b /\
     o_state s' = o_ekf s' /\ forall j, ~ (Z.to_nat z <= j < Z.to_nat z + 3)%nat -> nth_error (o_state s') j = nth_error (o_state s) j) /\
  (forall w, length w = 6%nat -> ko_setStateUnmodeledWrench md w s = Ok s' -> exists z, unmodeledWrenchIndex md (o_maxI s) = Ok z /\ seg_get (Z.to_nat z) 6 (o_ekf s') = w /\
     o_state s' = o_ekf s' /\ forall j, ~ (Z.to_nat z <= j < Z.to_nat z + 6)%nat -> nth_error (o_state s') j = nth_error (o_state s) j) /\
  (forall kv, length kv = 13%nat -> ko_setStateKinematics s0 md kv false s = Ok s' -> seg_get 0 13 (o_ekf s') = kv /\
     o_state s' = o_ekf s' /\ forall j, ~ (j < 13)%nat -> nth_error (o_state s') j = nth_error (o_state s) j).
Proof.
  split; [|split].
  - intros b i HL E. unfold ko_setGyroBias in E. apply obind_Ok_inv in E. destruct E as (g & Eg & E). apply obind_Ok_inv in E. destruct E as (x & Ex & E). injection E as <-.
    exists g. apply seg_set_spec in Ex. rewrite HL in Ex. destruct Ex as (_ & A & B). cbn. auto.
  - intros w HL E. unfold ko_setStateUnmodeledWrench in E. apply obind_Ok_inv in E. destruct E as (g & Eg & E). apply obind_Ok_inv in E. destruct E as (x & Ex & E). injection E as <-.
    exists g. apply seg_set_spec in Ex. rewrite HL in Ex. destruct Ex as (_ & A & B). cbn. auto.
  - intros kv HL E. unfold ko_setStateKinematics in E. apply obind_Ok_inv in E. destruct E as (x & Ex & E). apply obind_Ok_inv in E. destruct E as (x' & Ex' & E). injection Ex' as <-. injection E as <-.
    apply seg_set_spec in Ex. rewrite HL in Ex. destruct Ex as (_ & A & B). cbn in *. split; [exact A|]. split; [reflexivity|]. intros j Hj. apply B. lia.
Qed.
End Kinetics.

(** ** Concrete cases *)
(** Integers as scalars, stiffnesses and covariances; kinematics without content. *)
Definition xinit md maxC maxI := ko_init (S := Z) (M := Z) (C := Z) 0 tt md maxC maxI (1, 2, 3, 4) (10, 11) 12 13.
Definition xrun md h s := ko_run (S := Z) (Kn := unit) (M := Z) (C := Z) 0 (fun _ k => Ok k) (fun _ _ _ k => Ok k) (Z.eqb 0) md h s.
Definition xpose : list Z := [5; 6; 7; 0; 0; 0; 1].
Definition xadd : ko_op Z unit Z Z := KAdd xpose (-1) (0, 0, 0, 0).
Definition ximu n : ko_op Z unit Z Z := KIMU [n; n; n; n; n; n] None tt n.
Definition xwrench v n : ko_op Z unit Z Z := KWrench [v; v; v; v; v; v] None tt n.
Definition xfilter (x : list Z) (y : list (option Z)) : list Z := x.
Definition xget {A} (d : A) (o : outcome A) : A := match o with Ok a => a | _ => d end.
Definition xs (md : mode) (maxC maxI : nat) := xget (mkObs 0 0 [] [] (mkPose 0 [] None 0) 0 0 0 0 false false false [] [] [] [] (0,0,0,0) (0,0) 0 0) (xinit md maxC maxI).

(** C49: two contacts present, all the components have their place. *)
Example C49_case : exists s, xrun Debug [xadd; xadd] (xs Debug 2 2) = Ok s /\ ko_getListOfContacts s = [0; 1] /\
  comp_start Debug false s (CCForce 1) = Ok 45 /\ comp_start Debug true s (CCForce 1) = Ok 42 /\ length (o_state s) = 51%nat.
Proof. eexists. vm_compute. repeat split. Qed.
(** With no IMU, the constructor itself fails an assertion in Debug. *)
Theorem C49_no_imu_refuted : xinit Debug 2 0 = AssertFail.
Proof. reflexivity. Qed.
(** C50. *)
Example C50_case : exists s, xrun Release [xadd; xadd; xadd; KRemove 1] (xs Release 4 1) = Ok s /\ ko_getListOfContacts s = [0; 2] /\ ko_getNumberOfContacts s = 4.
Proof. eexists. vm_compute. repeat split. Qed.
Theorem C50_number_differs_refuted : exists s, xrun Debug [xadd] (xs Debug 2 1) = Ok s /\ ko_getListOfContacts s = [0] /\ ko_getNumberOfContacts s = 2.
Proof. eexists. vm_compute. repeat split. Qed.
(** A contact that is not updated in an iteration is lost (Release) or an error (Debug). *)
Example C50_lost_case : exists s, xrun Release [xadd; ximu 0; KUpdate xfilter] (xs Release 2 1) = Ok s /\ ko_getListOfContacts s = [].
Proof. eexists. vm_compute. repeat split. Qed.
(** C51: an IMU, a contact with a sensor and the pose in the first iteration. *)
Example C51_case : exists s, xrun Debug [xadd; xadd; ximu 1; xwrench 7 1; KNoSensor tt 0; KPose [9; 9; 9; 9; 9; 9; 9] None; KUpdate xfilter] (xs Debug 2 2) = Ok s /\
  o_meas s = map Some ([1; 1; 1; 1; 1; 1] ++ [7; 7; 7; 7; 7; 7] ++ [9; 9; 9; 9; 9; 9; 9]) /\ o_R s = [(0, 10); (3, 11); (6, 12); (12, 13)].
Proof. eexists. vm_compute. repeat split. Qed.
(** The hypotheses of the refutation: the first update is done, the second one fails. *)
Theorem C51_second_iteration_refuted :
  (exists s, xrun Debug [xadd; ximu 0; xwrench 7 0; KUpdate xfilter; ximu 0; xwrench 8 0] (xs Debug 2 1) = Ok s) /\
  xrun Debug [xadd; ximu 0; xwrench 7 0; KUpdate xfilter; ximu 0; xwrench 8 0; KUpdate xfilter] (xs Debug 2 1) = AssertFail /\
  xrun Release [xadd; ximu 0; xwrench 7 0; KUpdate xfilter; ximu 0; xwrench 8 0; KUpdate xfilter] (xs Release 2 1) = UB.
Proof. split; [eexists; vm_compute; reflexivity|]. split; vm_compute; reflexivity. Qed.
(** In Release, an IMU that reports twice leaves entries that were never written in the measurement. *)
Theorem C51_imu_twice_refuted : exists s, xrun Release [ximu 0; ximu 0; KUpdate xfilter] (xs Release 1 1) = Ok s /\
  o_meas s = map Some [0; 0; 0; 0; 0; 0] ++ [None; None; None; None; None; None].
Proof. eexists. vm_compute. repeat split. Qed.
(** After resetInputs the room of the discarded signals remains. *)
Theorem C51_reset_inputs_refuted : exists s, xrun Debug [ximu 0; KResetInputs; KUpdate xfilter] (xs Debug 1 1) = Ok s /\ o_meas s = [None; None; None; None; None; None].
Proof. eexists. vm_compute. repeat split. Qed.
(** C52: two IMUs; in Release, after the first one reported, the number given is the one in use. *)
Theorem C52_number_in_use_refuted : exists s r, xrun Release [ximu 0] (xs Release 1 2) = Ok s /\ ko_setIMU (fun _ k => Ok k) (fun _ _ _ k => Ok k) Release [4; 4; 4; 4; 4; 4] None tt (-1) s = Ok r /\ fst r = 0.
Proof. eexists. eexists. vm_compute. repeat split. Qed.
Example C53_case : exists s n s', xrun Debug [KFlagGyro true] (xs Debug 1 1) = Ok s /\ o_withAcc s = true /\
  ko_addContact 0 (Z.eqb 0) Debug xpose 0 (100, 0, 300, 0) s = Ok (n, s') /\ map c_stiff (o_contacts s') = [(1, 2, 300, 4)].
Proof. eexists. eexists. eexists. vm_compute. repeat split. Qed.
(** C57: the current state shows the pose, the filter does not have it. *)
Example C57_case : exists s s', xrun Debug [xadd] (xs Debug 1 1) = Ok s /\ seg_get 22 7 (o_state s) = xpose /\ seg_get 22 7 (o_ekf s) = [0; 0; 0; 0; 0; 0; 0] /\
  xrun Debug [xadd; ximu 0; KNoSensor tt 0; KUpdate xfilter] (xs Debug 1 1) = Ok s' /\ seg_get 22 7 (o_state s') = [0; 0; 0; 0; 0; 0; 0].
Proof. eexists. eexists. vm_compute. repeat split. Qed.

Print Assumptions C49_state_layout.
Print Assumptions C49_no_imu_refuted.
Print Assumptions C50_list_of_contacts.
Print Assumptions C50_add_contact.
Print Assumptions C50_remove_contact_partial.
Print Assumptions C50_remove_contact_debug_refuted.
Print Assumptions C50_add_after_clear_refuted.
Print Assumptions C50_number_of_contacts_refuted.
Print Assumptions C50_number_differs_refuted.
Print Assumptions C51_measurement_vector_partial.
Print Assumptions C51_sensor_in_two_iterations_refuted.
Print Assumptions C51_second_iteration_refuted.
Print Assumptions C51_imu_twice_refuted.
Print Assumptions C51_reset_inputs_refuted.
Print Assumptions C52_automatic_number_debug_refuted.
Print Assumptions C52_automatic_number_refuted.
Print Assumptions C52_number_in_use_refuted.
Print Assumptions C53_switches_partial.
Print Assumptions C53_gyro_switch_refuted.
Print Assumptions C53_contact_stiffness_partial.
Print Assumptions C53_linear_stiffness_refuted.
Print Assumptions C57_contact_pose_used_refuted.
Print Assumptions C57_state_setters_partial.
