(** Properties C156 to C158: the filter of the kinetics observer. *)
From Coq Require Import Reals ZArith List Bool Lia Lra.
From Verif Require Import Base Vec3 Rot SpecRot RotProofs Orient SpecOrient OrientProofs Kine KinObs SpecKin KSize KinSum SpecKinSum KinProofs KinInv KinInputProofs KinDyn SpecKinDyn
  KinDynProofs KinDynProofs2 KinDynThms KinDynMeas KinSumThms KinNanProofs KinEkf KinEkfProofs KinEkfThms PropKinSum PropKinDyn.
Import ListNotations.
Open Scope Z_scope.

Section Sizes.
Context {S : Type} (s0 : S) {Kn : Type} (k0 : Kn) (kfirst : mode -> Kn -> outcome Kn) (kupd : mode -> Z -> Kn -> Kn -> outcome Kn).
Context {M : Type} (mzero : M -> bool) {C : Type}.
Notation obs := (obs S Kn M C).
Notation op := (ko_op S Kn M C).
Notation init := (ko_init s0 k0).
Notation run := (ko_run s0 kfirst kupd mzero).
Notation start := (kf_start s0 k0).
Notation frun := (kf_run s0 kfirst kupd mzero).

(** ** C156 *)
(** As long as no absolute pose is reported, the filter takes every update that the observer prepares: no matrix has the wrong
    size, and the filter is at the time of the estimate. *)
Theorem C156_updates_without_pose md maxC maxI ds di dw dp s (h : list op) s' :
  init md maxC maxI ds di dw dp = Ok s -> forallb no_pose h = true -> run md h s = Ok s' ->
  exists f f', start md maxC maxI ds di dw dp = Ok (s, f) /\ frun md h (s, f) = Ok (s', f') /\ s_x f' = Some (o_kest s') /\
    s_pr f' = (stateTangentSize (Z.of_nat maxC) (Z.of_nat maxI), stateTangentSize (Z.of_nat maxC) (Z.of_nat maxI)).
Proof.
  intros E0 Hn E. destruct (init_obs s0 k0 _ _ _ _ _ _ _ _ E0) as (K1 & K2 & K3). unfold kf_start. rewrite E0. cbn [obind].
  pose proof (init_eq md maxC maxI) as Ef. cbv zeta in Ef. rewrite Ef. cbn [obind]. eexists.
  pose proof (init_fits md maxC maxI _ s Ef K1) as F.
  assert (L : lag s) by (unfold lag; lia). assert (P : p_time (o_pose s) <= o_kest s) by lia.
  destruct (run_fits s0 kfirst kupd mzero md _ _ h s _ s' Hn L P F E) as (f' & Er & _ & _ & F').
  exists f'. split; [reflexivity|]. split; [exact Er|]. split; [apply (ft_x _ _ _ _ F')|apply (ft_p _ _ _ _ F')].
Qed.
(** Refuted: an update with an absolute pose never succeeds, whatever is called before it. *)
Theorem C156_pose_never_used md maxC maxI ds di dw dp sf (h1 h2 : list op) sig cov e r :
  start md maxC maxI ds di dw dp = Ok sf -> forallb keeps_pose h2 = true ->
  frun md (h1 ++ KPose sig cov :: h2 ++ [KUpdate e]) sf <> Ok r.
Proof.
  destruct sf as [s f]. intros E0 Hk E. unfold kf_start in E0. apply obind_Ok_inv in E0. destruct E0 as (s' & E0 & E1). apply obind_Ok_inv in E1. destruct E1 as (f0 & E1 & E2). injection E2 as <- <-.
  rewrite init_eq in E1. cbv zeta in E1. destruct (init_obs s0 k0 _ _ _ _ _ _ _ _ E0) as (K1 & K2 & K3).
  assert (X : s_x f0 <> None) by (injection E1 as <-; discriminate). assert (L : lag s') by (unfold lag; lia). clear E0 E1 K1 K2 K3.
  unfold kf_run in E. rewrite orun_app in E. apply obind_Ok_inv in E. destruct E as ([s1 f1] & E1 & E).
  pose proof (run_lag s0 kfirst kupd mzero md h1 s' s1 L (run_forget s0 kfirst kupd mzero md h1 _ _ _ _ E1)) as L1. pose proof (run_x s0 kfirst kupd mzero md h1 _ _ _ _ X E1) as X1.
  cbn [orun] in E. apply obind_Ok_inv in E. destruct E as ([s2 f2] & E2 & E). cbn in E2. injection E2 as <- <-.
  rewrite orun_app in E. apply obind_Ok_inv in E. destruct E as ([s3 f3] & E3 & E).
  destruct (start_lag s1 L1) as [A1 A2].
  assert (B0 : o_kdata (ko_setPose sig cov s1) = o_kest (ko_setPose sig cov s1) + 1) by (cbn; lia).
  destruct (run_keeps s0 kfirst kupd mzero md h2 _ s3 Hk B0 eq_refl (run_forget s0 kfirst kupd mzero md h2 _ _ _ _ E3)) as [B1 B2].
  pose proof (run_x s0 kfirst kupd mzero md h2 _ _ _ _ X1 E3) as X3.
  cbn [orun] in E. apply obind_Ok_inv in E. destruct E as ([s4 f4] & E4 & _). rewrite fstep_eq in E4. destruct (Z.eqb_spec (o_kest s3) (o_kdata s3)); [lia|].
  apply obind_Ok_inv in E4. destruct E4 as (s5 & Ep & E4). destruct (prepare_iter md s3 s5 Ep) as (P1 & P2 & P3 & P4).
  rewrite (filter_pose md s5 f3 P4) in E4 by (congruence || exact X3). destruct md; discriminate.
Qed.
(** How it fails: the first update with a pose that the observer prepares trips an assertion in Debug (setC) and is undefined in Release. *)
Theorem C156_pose_refuted md maxC maxI ds di dw dp s (h1 h2 : list op) sig cov e s2 s3 :
  init md maxC maxI ds di dw dp = Ok s -> forallb no_pose h1 = true -> forallb no_pose h2 = true -> forallb keeps_pose h2 = true ->
  run md (h1 ++ KPose sig cov :: h2) s = Ok s2 -> ko_prepare md s2 = Ok s3 ->
  exists f, start md maxC maxI ds di dw dp = Ok (s, f) /\
    frun md (h1 ++ KPose sig cov :: h2 ++ [KUpdate e]) (s, f) = match md with Debug => AssertFail | Release => UB end.
Proof.
  intros E0 Hn1 Hn2 Hk E Ep. unfold ko_run in E. rewrite orun_app in E. apply obind_Ok_inv in E. destruct E as (s1 & E1 & E).
  cbn [orun] in E. apply obind_Ok_inv in E. destruct E as (s1' & E2 & E). cbn in E2. injection E2 as <-.
  destruct (init_obs s0 k0 _ _ _ _ _ _ _ _ E0) as (K1 & K2 & K3). unfold kf_start. rewrite E0. cbn [obind].
  pose proof (init_eq md maxC maxI) as Ef. cbv zeta in Ef. rewrite Ef. cbn [obind]. eexists. split; [reflexivity|].
  assert (L : lag s) by (unfold lag; lia). assert (P : p_time (o_pose s) <= o_kest s) by lia.
  destruct (run_fits s0 kfirst kupd mzero md _ _ h1 s _ s1 Hn1 L P (init_fits md maxC maxI _ s Ef K1) E1) as (f1 & Er & L1 & _ & F1).
  unfold kf_run in *. rewrite orun_app, Er. cbn [obind orun]. cbn [kf_step ko_step obind].
  destruct (start_lag s1 L1) as [A1 A2].
  assert (R : exists f2, orun (kf_step s0 kfirst kupd mzero md) h2 (ko_setPose sig cov s1, f1) = Ok (s2, f2) /\ s_x f2 <> None).
  { assert (X1 : s_x f1 <> None) by (rewrite (ft_x _ _ _ _ F1); discriminate). clear - E Hk X1. revert E X1. generalize (ko_setPose sig cov s1) as t, f1 as f. induction h2 as [|o l IH]; intros t f E X; cbn [orun] in *.
    - injection E as <-. eauto.
    - cbn in Hk. apply andb_prop in Hk. destruct Hk as [Hk1 Hk2]. apply obind_Ok_inv in E. destruct E as (t1 & E1 & E).
      assert (Y : exists f', kf_step s0 kfirst kupd mzero md o (t, f) = Ok (t1, f')).
      { rewrite fstep_eq. destruct o; try discriminate Hk1; rewrite E1; cbn [obind sets_state]; eauto; destruct f; cbn; eauto. }
      destruct Y as (f' & Y). rewrite Y. cbn [obind]. apply IH; auto. eapply step_x; eauto. }
  destruct R as (f2 & R & X2). rewrite orun_app, R. cbn [obind orun].
  assert (B0 : o_kdata (ko_setPose sig cov s1) = o_kest (ko_setPose sig cov s1) + 1) by (cbn; lia).
  destruct (run_keeps s0 kfirst kupd mzero md h2 _ s2 Hk B0 eq_refl E) as [B1 B2].
  rewrite fstep_eq. destruct (Z.eqb_spec (o_kest s2) (o_kdata s2)); [lia|]. rewrite Ep. cbn [obind].
  destruct (prepare_iter md s2 s3 Ep) as (P1 & P2 & P3 & P4). rewrite (filter_pose md s3 f2 P4) by (congruence || exact X2). destruct md; reflexivity.
Qed.
End Sizes.

Section Values.
Context (k0 : Kin) (kfirst : mode -> Kin -> outcome Kin) (kupd : mode -> Z -> Kin -> Kin -> outcome Kin) (mzero : M3 -> bool) {C : Type}.
Notation obs := (obs R Kin M3 C).
Notation init := (ko_init 0%R k0).
Notation run := (ko_run 0%R kfirst kupd mzero).
Notation erun := (est_run kfirst kupd mzero).
Notation N maxC maxI := (Z.to_nat (stateSize (Z.of_nat maxC) (Z.of_nat maxI))).
Notation Nt maxC maxI := (Z.to_nat (stateTangentSize (Z.of_nat maxC) (Z.of_nat maxI))).
Implicit Types s : obs.

(** ** C157 *)
(** If the reported signals are the ones predicted from the predicted state, the update returns the predicted state, whatever the gain
    (a gain gives no correction for no difference). *)
Theorem C157_perfect_measurements md maxC maxI ds di dw dp s (h : list (ko_op R Kin M3 C)) s1 s2 b noise noise' gain d0 xbar y :
  init md maxC maxI ds di dw dp = Ok s -> forallb no_clear h = true -> Forall (wf_op (N maxC maxI)) h -> run md h s = Ok s1 ->
  o_kest s1 <> o_kdata s1 -> ko_prepare md s1 = Ok s2 -> p_time (o_pose s1) <> o_kdata s1 ->
  ko_stateDynamics md b noise s2 (o_ekf s1) = Ok xbar -> ko_measure md b noise' s2 xbar (o_kdata s1) = Ok (map Some y) -> o_meas s2 = map Some y ->
  length d0 = length y -> gain (repeat 0%R (length y)) = repeat 0%R (Nt maxC maxI) ->
  exists s3, ko_update_est md b noise noise' gain d0 s1 = Ok s3 /\ o_state s3 = xbar /\ o_ekf s3 = xbar /\ o_kest s3 = o_kest s1 + 1.
Proof.
  intros E0 Hn Hw E Hk Ep Hp Ex Ey Em Ld Hg.
  destruct (use_inv 0%R k0 kfirst kupd mzero md maxC maxI ds di dw dp s h s1 E0 Hn Hw (or_introl E)) as [Hi Hm].
  pose proof (prepare_keep _ _ _ _ _ Hi Ep) as Hi2. pose proof (prepare_ekf _ _ _ Ep) as Ek. destruct (prepare_iter md s1 s2 Ep) as (K1 & K2 & K3 & _).
  assert (Lx : length xbar = nx maxC maxI).
  { destruct (dyn_unit md b noise s2 (o_ekf s1) xbar (inv_placed _ _ _ Hi2)) as [L _]; [rewrite (v_e _ _ _ Hi); apply nx_13|exact Ex|]. rewrite L. apply (v_e _ _ _ Hi). }
  assert (Ly : length y = length (o_meas s2)) by (rewrite Em, map_length; reflexivity).
  assert (P : (p_time (o_pose s2) =? o_kdata s2)%Z = false) by (apply Z.eqb_neq; congruence).
  destruct (C81_measurement_difference md s1 s2 y y d0 Ep Ly Ly) as (d & Ed & _ & _ & _ & Dz).
  { rewrite P. lia. } { rewrite P. discriminate. }
  specialize (Dz eq_refl). rewrite Ld in Dz. subst d.
  unfold ko_update_est. destruct (Z.eqb_spec (o_kest s1) (o_kdata s1)); [contradiction|]. rewrite Ep. cbn [obind]. unfold ko_estimate. rewrite Ek, Ex. cbn [obind].
  rewrite K2, Ey. cbn [obind]. rewrite Em, known_some. cbn [obind]. rewrite Ed. cbn [obind]. rewrite Hg.
  rewrite (sum_zero md maxC maxI s2 xbar (Nt maxC maxI) Hi2 Hm Lx).
  - cbn [obind]. eexists. split; [reflexivity|]. cbn. rewrite K1. auto.
  - rewrite Z2Nat.id; [reflexivity|]. unfold stateTangentSize. change sizeStateTangentBase with 18. change sizeGyroBias with 3. change sizeContactTangent with 12. lia.
Qed.

(** ** C158 *)
(** Once the state is set with a unit quaternion, the orientation of the estimate is a unit quaternion after any sequence of calls and updates,
    whatever the signals, the inputs and the gains, as long as the state is set to unit quaternions. *)
Theorem C158_unit_quaternion md maxC maxI ds di dw dp s (h1 h2 : list (est_op C)) kv rf s' :
  init md maxC maxI ds di dw dp = Ok s -> (md = Debug -> (0 < maxI)%nat) -> Forall (est_ok maxC maxI) (h1 ++ ECall (KSetKine kv rf) :: h2) -> Forall unit_op (ECall (KSetKine kv rf) :: h2) ->
  erun md (h1 ++ ECall (KSetKine kv rf) :: h2) s = Ok s' -> (qn2 (quat_of (firstn 4 (skipn 3 (o_state s')))) = 1)%R.
Proof.
  intros E0 Hm Ho Hu E. pose proof (init_inv _ _ _ _ _ _ _ _ _ _ E0) as Hi. unfold est_run in E. rewrite orun_app in E. apply obind_Ok_inv in E. destruct E as (s1 & E1 & E).
  apply Forall_app in Ho. destruct Ho as [Ho1 Ho2]. inversion Ho2; subst. inversion Hu; subst.
  pose proof (est_run_inv kfirst kupd mzero md maxC maxI h1 s s1 Ho1 Hm Hi E1) as Hi1.
  cbn [orun] in E. apply obind_Ok_inv in E. destruct E as (s2 & E2 & E). pose proof (est_step_inv kfirst kupd mzero md maxC maxI _ s1 s2 H1 Hm Hi1 E2) as Hi2.
  destruct H1 as [_ W]. pose proof (setkine_unit kfirst kupd mzero md maxC maxI kv rf s1 s2 Hi1 W H3 E2) as U.
  exact (proj1 (est_run_unit kfirst kupd mzero md maxC maxI h2 s2 s' H2 H4 Hm Hi2 E U)).
Qed.
End Values.

(** ** Concrete cases *)
(** C156: a contact, an IMU and two updates; then the same with a pose. *)
Definition zkf md h := do sf <- kf_start (C := unit) 0 tt md 1 1 (tt, tt, tt, tt) (tt, tt) tt tt; kf_run (M := unit) 0 (fun _ k => Ok k) (fun _ _ _ k => Ok k) (fun _ => true) md h sf.
Definition zhist : list (ko_op Z unit unit unit) := [KAdd [0; 0; 0; 0; 0; 0; 1] 0 (tt, tt, tt, tt); KIMU [0; 0; 9; 0; 0; 0] None tt 0; KNoSensor tt 0; KUpdate (fun x _ => x);
  KIMU [0; 0; 9; 0; 0; 0] None tt 0; KNoSensor tt 0].
Example C156_case md : (exists r, zkf md (zhist ++ [KUpdate (fun x _ => x)]) = Ok r /\ s_x (snd r) = Some 2 /\ s_m (snd r) = 6) /\ forallb no_pose zhist = true /\
  zkf md (zhist ++ KPose [0; 0; 0; 0; 0; 0; 1] None :: [] ++ [KUpdate (fun x _ => x)]) = match md with Debug => AssertFail | Release => UB end.
Proof. split; [eexists; destruct md; (split; [vm_compute; reflexivity|]; split; reflexivity)|]. split; [reflexivity|]. destruct md; vm_compute; reflexivity. Qed.

Open Scope R_scope.
(** C157: the robot rests on a contact with a force sensor, its weight compensated; the sensor reports the predicted wrench. *)
(** The sensor reports the force (w, 0, 0) and no torque. *)
Definition whist_w (w : R) : list (ko_op R Kin M3 unit) := [KAdd [1; 0; 0; 0; 0; 0; 1] 0 (m1, m1, m1, m1); KSetKine (l3 v0 ++ l4 q1 ++ l3 v0 ++ l3 v0) false; KWrench [w; 0; 0; 0; 0; 0] None xkine 0].
Definition whist := whist_w 0.
Definition wgain (d : list R) : list R := repeat (hd 0 d) (Z.to_nat (stateTangentSize 1 1)).
Lemma seg_eq (x : list R) n (u : V3) : (n + 3 <= length x)%nat -> vec_of (firstn 3 (skipn n x)) = u -> firstn 3 (skipn n x) = l3 u.
Proof.
  intros L E. assert (H : length (firstn 3 (skipn n x)) = 3%nat) by (rewrite firstn_length, skipn_length; lia). destruct (firstn 3 (skipn n x)) as [|a [|b [|c [|]]]]; try discriminate.
  cbn in E. rewrite <- E. reflexivity.
Qed.
Lemma w_case dt w : exists s s1 s2 xbar, xinit Debug 1 1 = Ok s /\ xrun Debug (whist_w w) s = Ok s1 /\ o_kest s1 <> o_kdata s1 /\ p_time (o_pose s1) <> o_kdata s1 /\
  ko_prepare Debug s1 = Ok s2 /\ ko_stateDynamics Debug (xbody q1 dt) None s2 (o_ekf s1) = Ok xbar /\
  ko_measure Debug (xbody q1 dt) None s2 xbar (o_kdata s1) = Ok (map Some (repeat 0 6)) /\ o_meas s2 = map Some [w; 0; 0; 0; 0; 0] /\
  wgain (repeat 0 6) = repeat 0 (Z.to_nat (stateTangentSize 1 1)).
Proof.
  destruct (xinit Debug 1 1) as [s| | |] eqn:E0; try (vm_compute in E0; discriminate).
  destruct (xrun Debug (whist_w w) s) as [s1| | |] eqn:E1; try (vm_compute in E0; injection E0 as <-; vm_compute in E1; discriminate).
  assert (Hn : forallb no_clear (whist_w w) = true) by reflexivity.
  assert (Hw : Forall (wf_op (Z.to_nat (stateSize 1 1))) (whist_w w)) by (unfold whist_w; repeat (apply Forall_cons; [exact eq_refl || exact I|]); apply Forall_nil).
  destruct (use_inv _ _ _ _ _ _ _ _ _ _ _ _ _ _ _ E0 Hn Hw (or_introl E1)) as [Hi Hm].
  destruct (ko_prepare Debug s1) as [s2| | |] eqn:Ep; try (vm_compute in E0; injection E0 as <-; vm_compute in E1; injection E1 as <-; vm_compute in Ep; discriminate).
  pose proof (prepare_keep _ _ _ _ _ Hi Ep) as Hi2.
  assert (B : xinit Debug 1 1 = Ok s /\ xrun Debug (whist_w w) s = Ok s1 /\ ko_prepare Debug s1 = Ok s2) by auto.
  vm_compute in E0. injection E0 as Es. rewrite <- Es in E1. vm_compute in E1. injection E1 as Es1. rewrite <- Es1 in Ep. vm_compute in Ep. injection Ep as Es2.
  destruct B as (B0 & B1 & B2).
  assert (Ex : o_ekf s1 = xstate v0 q1 v0 v0 v0 ux) by (rewrite <- Es1; reflexivity).
  assert (X : let x := xstate v0 q1 v0 v0 v0 ux in length x = 35%nat /\ vat Debug s2 x CPos = v0 /\ qat Debug s2 x = q1 /\ vat Debug s2 x CLinVel = v0 /\ vat Debug s2 x CAngVel = v0 /\
     vat Debug s2 x CUForce = v0 /\ vat Debug s2 x CUTorque = v0 /\ vat Debug s2 x (CCForce 0) = v0 /\ vat Debug s2 x (CCTorque 0) = v0) by (rewrite <- Es2; repeat split).
  cbv zeta in X. destruct X as (Lx & X1 & X2 & X3 & X4 & X6 & X7 & X9 & X10). set (x := xstate v0 q1 v0 v0 v0 ux) in *.
  assert (Hc : contacts_at s2 xframes).
  { rewrite <- Es2. intros j Hj. assert (j = 0%Z) as -> by (vm_compute in Hj; intuition lia). assert (Cq : coh (o_quat q1)) by (apply coh_quat; unfold qn2, q1; cbn; ring).
    eexists. split; [vm_compute; reflexivity|]. cbn [c_kine ko kp kv kw]. change (mkO _ _) with (o_quat q1). split; [exact Cq|]. split; [|auto]. unfold rot. cbn [om oq o_quat]. f_equal. vm_compute. f_equal; ring. }
  set (b := xbody q1 dt). assert (EL : ko_getListOfContacts s2 = [0%Z]) by (rewrite <- Es2; reflexivity).
  assert (EF : total_force Debug b s2 xframes x = mvec (mtr (qrot q1)) gravity).
  { unfold total_force. rewrite EL. cbn [map vsum fold_right fr xframes b xbody b_addF]. rewrite X6, X9, mvec_0. clear. c3. }
  assert (ET : total_torque Debug b s2 xframes x = v0).
  { unfold total_torque. rewrite EL. cbn [map vsum fold_right fr fp xframes b xbody b_addT]. rewrite X7, X9, X10, !mvec_0. clear. c3. }
  assert (U : qn2 (qat Debug s2 x) = 1) by (rewrite X2; unfold qn2, q1; cbn; ring).
  assert (Hal : al_loc 1 v0 v0 v0 v0 v0 m1 mz v0 (mvec (mtr (qrot q1)) gravity) v0 = v0).
  { unfold al_loc. match goal with |- mvec _ ?u = _ => assert (Z : u = v0) end; [unfold corio; generalize (mvec (mtr (qrot q1)) gravity); clear; intros; c3|rewrite Z; apply mvec_0]. }
  assert (Hla : la_loc 1 v0 v0 v0 v0 (mvec (mtr (qrot q1)) gravity) v0 = mvec (mtr (qrot q1)) gravity).
  { unfold la_loc, corio. generalize (mvec (mtr (qrot q1)) gravity). clear. intros. d3. u3. f_equal; field. }
  destruct (state_dynamics_ok Debug 1 1 s2 x xframes None 1 v0 v0 v0 v0 v0 m1 mz (mvec (mtr (qrot q1)) gravity) v0 dt Hi2 Hm Lx Hc U) as (y & E & Ly & P & Q & U' & V & W & K & _).
  change (bodyv 1 v0 v0 v0 v0 v0 m1 mz (mvec (mtr (qrot q1)) gravity) v0 dt) with b in *. rewrite X1, X2, X3, X4, EF, ET, !mvec_0, Hal in *. rewrite !mvec_0, Hla, so3_vec_tr in * by (apply qrot_so3; unfold qn2, q1; cbn; ring).
  assert (G : vsub gravity gravity = v0) by (clear; generalize gravity; intros; c3). rewrite G in *.
  assert (Z0 : forall k, vscal k v0 = v0) by (clear; intros; c3). rewrite !Z0, ?vadd_0_r, ?rv_quat_v0, ?qmul_1_l in *.
  destruct (K 0%Z) as (ct & qq & Ec & _ & _ & Hqq & Kf & Kt); [rewrite EL; left; reflexivity|]. rewrite <- Es2 in Ec. vm_compute in Ec. injection Ec as <-. specialize (Hqq q1 eq_refl). subst qq. rewrite P, V in Kf. rewrite W in Kt.
  assert (Kf0 : vat Debug s2 y (CCForce 0) = v0) by (rewrite Kf; clear; cbn [fr xframes c_stiff]; unfold qrot, q1, wforce; c3).
  assert (Kt0 : vat Debug s2 y (CCTorque 0) = v0) by (rewrite Kt; clear; cbn [fr xframes c_stiff]; unfold qrot, q1, wtorque; c3).
  clear K Kf Kt. rewrite <- Es2 in Kf0, Kt0.
  destruct (state_kine_ok Debug 1 1 s2 y xframes 1 v0 v0 v0 v0 v0 m1 mz (mvec (mtr (qrot q1)) gravity) v0 dt Hi2 Hm (eq_trans Ly Lx) Hc) as (o & Eo & _); [rewrite Q; exact U'|].
  rewrite Lx in Ly. pose proof (seg_eq y 29 v0) as S1. pose proof (seg_eq y 32 v0) as S2. specialize (S1 ltac:(lia) Kf0). specialize (S2 ltac:(lia) Kt0).
  assert (S3 : firstn 6 (skipn 29 y) = repeat 0 6).
  { clear - S1 S2 Ly. do 35 (destruct y as [|? y]; [discriminate|]). cbn in S1, S2 |- *. injection S1 as -> -> ->. injection S2 as -> -> ->. reflexivity. }
  exists s, s1, s2, y. split; [reflexivity|]. split; [assumption|]. split; [rewrite <- Es1; discriminate|]. split; [rewrite <- Es1; discriminate|]. split; [assumption|]. split; [rewrite Ex; exact E|]. split; [|split; [rewrite <- Es2|]; reflexivity].
  unfold ko_measure. change (state_kine Debug b s2 y) with (state_kine Debug (bodyv 1 v0 v0 v0 v0 v0 m1 mz (mvec (mtr (qrot q1)) gravity) v0 dt) s2 y). rewrite Eo. clear Eo. cbn [obind].
  assert (Er : seg_rd Debug 29 6 y = Ok (repeat 0 6)) by (unfold seg_rd; rewrite Ly; cbn; f_equal; exact S3).
  clear - Er Es1 Es2. rewrite <- Es1, <- Es2. clear Es1 Es2. cbv - [seg_rd obind] in *. rewrite Er. reflexivity.
Qed.
Example C157_case dt : exists s s1 s2 xbar, xinit Debug 1 1 = Ok s /\ xrun Debug whist s = Ok s1 /\ o_kest s1 <> o_kdata s1 /\ p_time (o_pose s1) <> o_kdata s1 /\
  ko_prepare Debug s1 = Ok s2 /\ ko_stateDynamics Debug (xbody q1 dt) None s2 (o_ekf s1) = Ok xbar /\
  ko_measure Debug (xbody q1 dt) None s2 xbar (o_kdata s1) = Ok (map Some (repeat 0 6)) /\ o_meas s2 = map Some (repeat 0 6) /\
  wgain (repeat 0 6) = repeat 0 (Z.to_nat (stateTangentSize 1 1)).
Proof. exact (w_case dt 0). Qed.

(** C158: the same calls and an update with this gain, which moves the state when the sensor reports something else. Before the state is set, its
    quaternion is null. *)
Example C158_case dt : exists s s3, xinit Debug 1 1 = Ok s /\ qn2 (quat_of (firstn 4 (skipn 3 (o_state s)))) = 0 /\
  let h := map ECall whist ++ [EUpdate (xbody q1 dt) None None wgain (repeat 0 6)] in
  Forall (est_ok 1 1) h /\ Forall unit_op h /\ est_run (fun _ k => Ok k) (fun _ _ _ k => Ok k) (fun _ => false) Debug h s = Ok s3 /\ o_kest s3 = 1%Z.
Proof.
  destruct (C157_case dt) as (s & s1 & s2 & xbar & E0 & E1 & K1 & K2 & Ep & Ex & Ey & Em & Eg).
  assert (Hn : forallb no_clear whist = true) by reflexivity.
  assert (Hw : Forall (wf_op (Z.to_nat (stateSize 1 1))) whist) by (unfold whist; repeat (apply Forall_cons; [exact eq_refl || exact I|]); apply Forall_nil).
  destruct (C157_perfect_measurements k_empty (fun _ k => Ok k) (fun _ _ _ k => Ok k) (fun _ => false) Debug 1 1 _ _ _ _ s whist s1 s2 (xbody q1 dt) None None wgain (repeat 0 6) xbar (repeat 0 6)
    E0 Hn Hw E1 K1 Ep K2 Ex Ey Em eq_refl Eg) as (s3 & E & _ & _ & K).
  assert (Z : o_kest s1 = 0%Z) by (clear - E0 E1; vm_compute in E0; injection E0 as <-; vm_compute in E1; injection E1 as <-; reflexivity).
  exists s, s3. split; [exact E0|]. split; [clear - E0; vm_compute in E0; injection E0 as <-; cbn; unfold qn2; cbn; ring|]. cbv zeta. split; [|split; [|split; [|rewrite K, Z; reflexivity]]].
  - cbn [map whist app]. repeat (apply Forall_cons; [first [intros d; reflexivity|split; (reflexivity || exact I)]|]). apply Forall_nil.
  - cbn [map whist app]. repeat (apply Forall_cons; [exact I || (cbn; unfold qn2; cbn; ring)|]). apply Forall_nil.
  - unfold est_run. rewrite orun_app. assert (R1 : orun (est_step (fun _ k => Ok k) (fun _ _ _ k => Ok k) (fun _ => false) Debug) (map ECall whist) s = Ok s1) by exact E1.
    rewrite R1. cbn [obind orun est_step]. rewrite E. reflexivity.
Qed.

Print Assumptions C156_updates_without_pose.
Print Assumptions C156_pose_never_used.
Print Assumptions C156_pose_refuted.
Print Assumptions C157_perfect_measurements.
Print Assumptions C158_unit_quaternion.
