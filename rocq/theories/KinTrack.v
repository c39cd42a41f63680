(** The kinetics observer fed, cycle after cycle, with the signals of a trajectory of its own model. *)
From Coq Require Import Reals ZArith List Bool Lia Lra.
From Verif Require Import Base Vec3 Rot SpecRot RotProofs Orient SpecOrient OrientProofs Kine KinObs SpecKin KSize KinSum SpecKinSum KinProofs KinInv KinInputProofs KinDyn SpecKinDyn
  KinDynProofs KinDynProofs2 KinDynThms KinDynMeas KinSumThms KinNanProofs KinEkf KinEkfProofs KinEkfThms PropKinSum PropKinDyn.
Import ListNotations.
Open Scope Z_scope.

Section Track.
Context (kfirst : mode -> Kin -> outcome Kin) (kupd : mode -> Z -> Kin -> Kin -> outcome Kin) (mzero : M3 -> bool) {C : Type}.
Notation obs := (obs R Kin M3 C).
Notation run := (ko_run 0%R kfirst kupd mzero).
Notation erun := (est_run kfirst kupd mzero).
Notation N maxC maxI := (Z.to_nat (stateSize (Z.of_nat maxC) (Z.of_nat maxI))).
Notation Nt maxC maxI := (Z.to_nat (stateTangentSize (Z.of_nat maxC) (Z.of_nat maxI))).
Implicit Types s : obs.

(** The calls made between two updates of a run: the signals of the IMUs and of the contacts (kinetics-observer.cpp:503-720). *)
Definition sensor_call (o : ko_op R Kin M3 C) : bool := match o with KIMU _ _ _ _ | KWrench _ _ _ _ | KNoSensor _ _ => true | _ => false end.
Lemma start_ekf s : o_ekf (ko_start s) = o_ekf s /\ o_kest (ko_start s) = o_kest s.
Proof. unfold ko_start. destruct (_ =? _); split; reflexivity. Qed.
Lemma sensor_ekf md o s s' : sensor_call o = true -> ko_step 0%R kfirst kupd mzero md o s = Ok s' -> o_ekf s' = o_ekf s /\ o_kest s' = o_kest s.
Proof.
  intros H E. pose proof (start_ekf s) as HS. destruct o; try discriminate H; cbn [ko_step] in E.
  - apply obind_Ok_inv in E. destruct E as ([z o] & E & E'). injection E' as <-. unfold ko_setIMU in E. cbv zeta in E. set (t := ko_start s) in *. clearbody t.
    do 5 (apply obind_Ok_inv in E; destruct E as (? & _ & E)). injection E as _ <-. cbn. exact HS.
  - unfold ko_updateWrench in E. cbv zeta in E. set (t := ko_start s) in *. clearbody t. do 4 (apply obind_Ok_inv in E; destruct E as (? & _ & E)). injection E as <-. cbn. exact HS.
  - unfold ko_updateNoSensor in E. cbv zeta in E. set (t := ko_start s) in *. clearbody t. do 4 (apply obind_Ok_inv in E; destruct E as (? & _ & E)). injection E as <-. cbn. exact HS.
Qed.
Lemma sensors_ekf md h : forall s s', forallb sensor_call h = true -> run md h s = Ok s' -> o_ekf s' = o_ekf s /\ o_kest s' = o_kest s.
Proof.
  unfold ko_run. induction h as [|o h IH]; intros s s' H E; cbn [orun forallb] in *; [injection E as <-; auto|]. apply andb_prop in H. destruct H as [H1 H2].
  apply obind_Ok_inv in E. destruct E as (s1 & E1 & E). destruct (IH _ _ H2 E) as [-> ->]. eapply sensor_ekf; eauto.
Qed.
Lemma calls_run md h s : erun md (map ECall h) s = run md h s.
Proof.
  revert s. unfold est_run, ko_run. induction h as [|o h IH]; intros s; cbn [map orun]; [reflexivity|]. cbn [est_step].
  destruct (ko_step 0%R kfirst kupd mzero md o s); cbn [obind]; auto.
Qed.

(** [exact_run md maxC maxI s x ops x']: from the observer [s], the operations [ops] are cycles of sensor calls followed by an update
    (kinetics-observer.cpp:229-337); [x] is the true state before them and [x'] after them: each cycle, the true state moves as stateDynamics
    says with the contacts and inputs of the observer, and the measurement vector is the one that measureDynamics gives for the new true state.
    The gain of each update is any function that gives no correction for no difference. *)
Inductive exact_run (md : mode) (maxC maxI : nat) : obs -> list R -> list (est_op C) -> list R -> Prop :=
| exact_stop s x : exact_run md maxC maxI s x [] x
| exact_cycle s x h s1 s2 b noise noise' gain d0 x1 y ops x2 :
    forallb sensor_call h = true -> Forall (wf_op (N maxC maxI)) h -> run md h s = Ok s1 -> o_kest s1 <> o_kdata s1 -> p_time (o_pose s1) <> o_kdata s1 -> ko_prepare md s1 = Ok s2 ->
    ko_stateDynamics md b noise s2 x = Ok x1 -> ko_measure md b noise' s2 x1 (o_kdata s1) = Ok (map Some y) -> o_meas s2 = map Some y ->
    length d0 = length y -> gain (repeat 0%R (length y)) = repeat 0%R (Nt maxC maxI) -> (forall d, length (gain d) = Nt maxC maxI) ->
    (forall s3, ko_update_est md b noise noise' gain d0 s1 = Ok s3 -> exact_run md maxC maxI s3 x1 ops x2) ->
    exact_run md maxC maxI s x (map ECall h ++ EUpdate b noise noise' gain d0 :: ops) x2.

Lemma exact_update md maxC maxI s1 s2 b noise noise' gain d0 xbar y :
  inv maxC maxI s1 -> (md = Debug -> (0 < maxI)%nat) ->
  o_kest s1 <> o_kdata s1 -> ko_prepare md s1 = Ok s2 -> p_time (o_pose s1) <> o_kdata s1 ->
  ko_stateDynamics md b noise s2 (o_ekf s1) = Ok xbar -> ko_measure md b noise' s2 xbar (o_kdata s1) = Ok (map Some y) -> o_meas s2 = map Some y ->
  length d0 = length y -> gain (repeat 0%R (length y)) = repeat 0%R (Nt maxC maxI) ->
  exists s3, ko_update_est md b noise noise' gain d0 s1 = Ok s3 /\ o_state s3 = xbar /\ o_ekf s3 = xbar /\ o_kest s3 = o_kest s1 + 1.
Proof.
  intros Hi Hm Hk Ep Hp Ex Ey Em Ld Hg.
  pose proof (prepare_keep _ _ _ _ _ Hi Ep) as Hi2. pose proof (prepare_ekf _ _ _ Ep) as Ek. destruct (prepare_iter md s1 s2 Ep) as (K1 & K2 & K3 & _).
  assert (Lx : length xbar = nx maxC maxI).
  { destruct (dyn_unit md b noise s2 (o_ekf s1) xbar (inv_placed _ _ _ Hi2)) as [L _]; [rewrite (v_e _ _ _ Hi); apply nx_13|exact Ex|]. rewrite L. apply (v_e _ _ _ Hi). }
  assert (Ly : length y = length (o_meas s2)) by (rewrite Em, map_length; reflexivity).
  assert (P : (p_time (o_pose s2) =? o_kdata s2)%Z = false) by (apply Z.eqb_neq; congruence).
  destruct (C81_measurement_difference md s1 s2 y y d0 Ep Ly Ly) as (d & Ed & _ & _ & _ & Dz).
  { rewrite P. lia. } { rewrite P. discriminate. }
  specialize (Dz eq_refl). rewrite Ld in Dz. subst d.
  unfold ko_update_est. destruct (Z.eqb_spec (o_kest s1) (o_kdata s1)); [contradiction|]. rewrite Ep. cbn [obind]. unfold ko_estimate. rewrite Ek, Ex. cbn [obind].
  rewrite K2, Ey. cbn [obind]. rewrite Em, known_some. cbn [obind]. rewrite Ed. cbn [obind]. rewrite Hg.
  rewrite (sum_zero md maxC maxI s2 xbar (Nt maxC maxI) Hi2 Hm Lx).
  - cbn [obind]. eexists. split; [reflexivity|]. cbn. rewrite K1. auto.
  - rewrite Z2Nat.id; [reflexivity|]. unfold stateTangentSize. change sizeStateTangentBase with 18. change sizeGyroBias with 3. change sizeContactTangent with 12. lia.
Qed.

Lemma sensors_inv md maxC maxI h : forall s s', forallb sensor_call h = true -> Forall (wf_op (N maxC maxI)) h -> inv maxC maxI s -> run md h s = Ok s' -> inv maxC maxI s'.
Proof.
  unfold ko_run. induction h as [|o h IH]; intros s s' H Hw Hi E; cbn [orun forallb] in *; [congruence|]. apply andb_prop in H. destruct H as [H1 H2]. inversion Hw; subst.
  apply obind_Ok_inv in E. destruct E as (s1 & E1 & E). apply (IH s1 s' H2); auto. eapply step_inv; [|eassumption|exact Hi|exact E1]. destruct o; try discriminate H1; reflexivity.
Qed.
Definition updates (ops : list (est_op C)) : Z := Z.of_nat (length (filter (fun o => match o with EUpdate _ _ _ _ _ => true | _ => false end) ops)).
Lemma updates_app h ops : updates (map ECall h ++ ops) = updates ops.
Proof. unfold updates. f_equal. f_equal. induction h; cbn; auto. Qed.

Lemma exact_run_ok md maxC maxI s x ops x' : exact_run md maxC maxI s x ops x' -> (md = Debug -> (0 < maxI)%nat) -> inv maxC maxI s -> o_ekf s = x ->
  exists s', erun md ops s = Ok s' /\ o_ekf s' = x' /\ o_kest s' = o_kest s + updates ops /\ (0 < updates ops -> o_state s' = x').
Proof.
  intros H Hm. induction H as [s x|s x h s1 s2 b noise noise' gain d0 x1 y ops x2 Hs Hw Er Hk Hp Ep Ex Ey Em Ld Hg Hl Hr IH]; intros Hi E.
  - exists s. cbn. repeat split; auto; [unfold updates; cbn; lia|unfold updates; cbn; lia].
  - destruct (sensors_ekf md h s s1 Hs Er) as [Ee Ek]. pose proof (sensors_inv md maxC maxI h s s1 Hs Hw Hi Er) as Hi1.
    rewrite <- E, <- Ee in Ex. destruct (exact_update md maxC maxI s1 s2 b noise noise' gain d0 x1 y Hi1 Hm Hk Ep Hp Ex Ey Em Ld Hg) as (s3 & Eu & S3 & F3 & K3).
    assert (Hi3 : inv maxC maxI s3).
    { apply (est_step_inv kfirst kupd mzero md maxC maxI (EUpdate b noise noise' gain d0) s1 s3); auto. cbn. intros d. rewrite Hl, Z2Nat.id; [reflexivity|].
      unfold stateTangentSize. change sizeStateTangentBase with 18. change sizeGyroBias with 3. change sizeContactTangent with 12. lia. }
    destruct (IH s3 Eu Hi3 F3) as (s' & E' & F' & K' & S').
    exists s'. rewrite updates_app. assert (U : updates (EUpdate b noise noise' gain d0 :: ops) = updates ops + 1) by (unfold updates; cbn [filter length]; lia). rewrite U.
    split; [|split; [exact F'|split; [rewrite K', K3, Ek; lia|]]].
    + unfold est_run. rewrite orun_app. fold (erun md (map ECall h) s). rewrite calls_run, Er. cbn [obind orun est_step]. rewrite Eu. exact E'.
    + intros _. destruct (Z.eq_dec (updates ops) 0) as [Z0|Z0]; [|apply S'; unfold updates in *; lia].
      assert (O : ops = []).
      { destruct (Hr s3 Eu) as [|]; [reflexivity|]. rewrite updates_app in Z0. unfold updates in Z0. cbn [filter length] in Z0. lia. }
      subst ops. cbn in E'. injection E' as <-. congruence.
Qed.
(** An update with any measurement. *)
Lemma any_update md maxC maxI s1 s2 b noise noise' gain d0 xbar y yb :
  inv maxC maxI s1 -> (md = Debug -> (0 < maxI)%nat) ->
  o_kest s1 <> o_kdata s1 -> ko_prepare md s1 = Ok s2 -> p_time (o_pose s1) <> o_kdata s1 ->
  ko_stateDynamics md b noise s2 (o_ekf s1) = Ok xbar -> ko_measure md b noise' s2 xbar (o_kdata s1) = Ok (map Some yb) -> o_meas s2 = map Some y ->
  length yb = length y -> length d0 = length y -> (forall d, length (gain d) = Nt maxC maxI) ->
  exists d s3, length d = length y /\ (forall k a c, nth_error y k = Some a -> nth_error yb k = Some c -> nth_error d k = Some (a - c)%R) /\
    inv maxC maxI s2 /\ length xbar = N maxC maxI /\ ko_stateSum md s2 xbar (gain d) = Ok (o_state s3) /\
    ko_update_est md b noise noise' gain d0 s1 = Ok s3 /\ o_ekf s3 = o_state s3 /\ o_kest s3 = o_kest s1 + 1.
Proof.
  intros Hi Hm Hk Ep Hp Ex Ey Em Lb Ld Hg.
  pose proof (prepare_keep _ _ _ _ _ Hi Ep) as Hi2. pose proof (prepare_ekf _ _ _ Ep) as Ek. destruct (prepare_iter md s1 s2 Ep) as (K1 & K2 & K3 & _).
  assert (Lx : length xbar = nx maxC maxI).
  { destruct (dyn_unit md b noise s2 (o_ekf s1) xbar (inv_placed _ _ _ Hi2)) as [L _]; [rewrite (v_e _ _ _ Hi); apply nx_13|exact Ex|]. rewrite L. apply (v_e _ _ _ Hi). }
  assert (Ly : length y = length (o_meas s2)) by (rewrite Em, map_length; reflexivity).
  assert (P : (p_time (o_pose s2) =? o_kdata s2)%Z = false) by (apply Z.eqb_neq; congruence).
  destruct (C81_measurement_difference md s1 s2 y yb d0 Ep Ly (eq_trans Lb Ly)) as (d & Ed & Dl & Dn & _).
  { rewrite P. lia. } { rewrite P. discriminate. }
  rewrite P in Dn.
  destruct (sum_unit md maxC maxI s2 xbar (gain d) Hi2 Hm Lx) as (x3 & Es & _).
  { rewrite Hg, Z2Nat.id; [reflexivity|]. unfold stateTangentSize. change sizeStateTangentBase with 18. change sizeGyroBias with 3. change sizeContactTangent with 12. lia. }
  exists d, (ko_finish (fun _ _ => x3) s2). split; [congruence|]. split.
  { intros k a c Ha Hc. apply Dn; auto. assert (k < length y)%nat by (apply nth_error_Some; congruence). lia. }
  split; [exact Hi2|]. split; [exact Lx|]. split; [exact Es|]. split; [|cbn; rewrite K1; auto].
  unfold ko_update_est. destruct (Z.eqb_spec (o_kest s1) (o_kdata s1)); [contradiction|]. rewrite Ep. cbn [obind]. unfold ko_estimate. rewrite Ek, Ex. cbn [obind].
  rewrite K2, Ey. cbn [obind]. rewrite Em, !known_some. cbn [obind]. rewrite Ed. cbn [obind]. rewrite Es. reflexivity.
Qed.
End Track.
