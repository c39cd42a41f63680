(** Histories of the kinetics observer: one iteration, successive iterations. *)
From Coq Require Import ZArith List Lia Bool.
From Verif Require Import Base KinObs SpecKin KinProofs KinInv KinMeas.
Import ListNotations.
Open Scope Z_scope.

(** ** Debug implies Release *)
Definition ole {A} (a b : outcome A) : Prop := forall x, a = Ok x -> b = Ok x.
Lemma ole_refl {A} (a : outcome A) : ole a a.
Proof. intros x E. exact E. Qed.
Lemma ole_bind {A B} (a b : outcome A) (f g : A -> outcome B) : ole a b -> (forall x, ole (f x) (g x)) -> ole (obind a f) (obind b g).
Proof. intros H1 H2 y E. apply obind_Ok_inv in E. destruct E as (x & E1 & E2). rewrite (H1 _ E1). cbn. apply H2. exact E2. Qed.
Lemma ole_assert b : ole (boost_assert Debug b) (boost_assert Release b).
Proof. intros x. apply assert_mode. Qed.
Lemma ole_seg {A} i (w v : list A) : ole (seg_set Debug i w v) (seg_set Release i w v).
Proof. intros x. apply seg_set_mode. Qed.
Create HintDb ole.
#[global] Hint Resolve ole_refl ole_assert ole_seg : ole.
Ltac olebind := repeat (apply ole_bind; [auto with ole|]; let x := fresh in intros x; cbv beta; try (destruct x)).

Set Default Proof Using "Type".
Section P.
Context {S : Type} (s0 : S) {Kn : Type} (kfirst : mode -> Kn -> outcome Kn) (kupd : mode -> Z -> Kn -> Kn -> outcome Kn).
Context {M : Type} (mzero : M -> bool) {C : Type}.
Notation obs := (obs S Kn M C).
Notation op := (ko_op S Kn M C).
Notation contact := (contact S Kn M C).
Notation imu := (imu S Kn C).
Notation step := (ko_step s0 kfirst kupd mzero).
Notation run := (ko_run s0 kfirst kupd mzero).
Implicit Types s : obs.

(** The functions on kinematics do not behave differently in Release when they succeed in Debug. *)
Definition kmono : Prop := (forall k, ole (kfirst Debug k) (kfirst Release k)) /\ (forall n a b, ole (kupd Debug n a b) (kupd Release n a b)).

Lemma ole_gyro maxI i : ole (gyroBiasIndex Debug maxI i) (gyroBiasIndex Release maxI i).
Proof. unfold gyroBiasIndex. apply ole_bind; auto with ole. Qed.
Lemma ole_gyroT maxI i : ole (gyroBiasIndexTangent Debug maxI i) (gyroBiasIndexTangent Release maxI i).
Proof. unfold gyroBiasIndexTangent. apply ole_bind; auto with ole. Qed.
Lemma ole_unm maxI : ole (unmodeledWrenchIndex Debug maxI) (unmodeledWrenchIndex Release maxI).
Proof. apply ole_bind; [apply ole_gyro|auto with ole]. Qed.
Lemma ole_ci maxI : ole (contactsIndex Debug maxI) (contactsIndex Release maxI).
Proof. apply ole_bind; [apply ole_unm|auto with ole]. Qed.
Lemma ole_ct maxI : ole (contactsIndexTangent Debug maxI) (contactsIndexTangent Release maxI).
Proof. apply ole_bind; [apply ole_bind; [apply ole_gyroT|auto with ole]|auto with ole]. Qed.
Lemma ole_zero (cs : list contact) : forall x, ole (zero_wrenches s0 Debug cs x) (zero_wrenches s0 Release cs x).
Proof.
  induction cs as [|c cs IH]; intros x; cbn [zero_wrenches]; [auto with ole|]. apply ole_bind; [|auto].
  destruct (c_set c); [|auto with ole]. apply ole_bind; auto with ole.
Qed.
Lemma ole_drop kd (cs : list contact) : forall nr, ole (drop_lost Debug kd cs nr) (drop_lost Release kd cs nr).
Proof.
  induction cs as [|c cs IH]; intros nr; cbn [drop_lost]; [auto with ole|]. apply ole_bind.
  - destruct (c_set c); [|auto with ole]. apply ole_bind; auto with ole.
  - intros [c' nr']. apply ole_bind; [auto|]. intros [? ?]. auto with ole.
Qed.
Lemma ole_imus kd (is : list imu) : forall y r n, ole (write_imus Debug kd is y r n) (write_imus Release kd is y r n).
Proof.
  induction is as [|i is IH]; intros y r n; cbn [write_imus]; [auto with ole|]. destruct (i_time i =? kd).
  - apply ole_bind; [auto with ole|]. intros y'. apply ole_bind; [auto|]. intros [[[? ?] ?] ?]. auto with ole.
  - apply ole_bind; [auto|]. intros [[[? ?] ?] ?]. auto with ole.
Qed.
Lemma ole_cov (c : option C) : ole (match c with Some v => Ok v | None => AssertFail end) (match c with Some v => Ok v | None => UB end).
Proof. destruct c; [auto with ole|]. intros x. discriminate. Qed.
Lemma ole_contacts (cs : list contact) : forall y r n, ole (write_contacts Debug cs y r n) (write_contacts Release cs y r n).
Proof.
  induction cs as [|c cs IH]; intros y r n; cbn [write_contacts]; [auto with ole|]. destruct (c_real c).
  - apply ole_bind; [auto with ole|]. intros y'. apply ole_bind; [apply ole_cov|]. intros v. apply ole_bind; [auto|]. intros [[[? ?] ?] ?]. auto with ole.
  - apply ole_bind; [auto|]. intros [[[? ?] ?] ?]. auto with ole.
Qed.
Lemma ole_prepare s : ole (ko_prepare Debug s) (ko_prepare Release s).
Proof.
  unfold ko_prepare. apply ole_bind; [apply ole_drop|]. intros [cs nr]. cbv zeta. destruct (_ <? 0); [auto with ole|].
  apply ole_bind; [apply ole_imus|]. intros [[[? ?] ?] ?]. apply ole_bind; [apply ole_contacts|]. intros [[[? ?] ?] ?].
  apply ole_bind; [|intros [[? ?] ?]; auto with ole]. destruct (_ =? _); [|auto with ole].
  apply ole_bind; [auto with ole|]. intros ?. apply ole_bind; [apply ole_cov|auto with ole].
Qed.
Lemma ole_step o s : kmono -> ole (step Debug o s) (step Release o s).
Proof.
  intros [K1 K2].
  destruct o as [pv num st|n| |sig cov k num|w cov k n|k n|sig cov| |kv rf|b i|w|v|b|b|b| |e]; cbn [ko_step]; auto with ole.
  - apply ole_bind; [|intros [? ?]; auto with ole]. unfold ko_addContact. apply ole_bind; [auto with ole|]. intros n.
    apply ole_bind; [auto with ole|]. intros _. cbv zeta. apply ole_bind; [auto with ole|]. intros c. apply ole_bind; [auto with ole|]. intros _.
    apply ole_bind; [apply ole_ci|]. intros ci. apply ole_bind; [apply ole_ct|]. intros ct. destruct st as [[[? ?] ?] ?]. destruct (o_dstiff s) as [[[? ?] ?] ?].
    apply ole_bind; auto with ole.
  - unfold ko_removeContact. apply ole_bind; [auto with ole|]. intros c. apply ole_bind; auto with ole.
  - apply ole_bind; [|intros [? ?]; auto with ole]. unfold ko_setIMU. cbv zeta. apply ole_bind; [auto with ole|]. intros n. apply ole_bind; [auto with ole|]. intros _.
    apply ole_bind; [auto with ole|]. intros i. apply ole_bind; [auto with ole|]. intros _. apply ole_bind; [destruct (_ =? 0); auto|auto with ole].
  - unfold ko_updateWrench. cbv zeta. apply ole_bind; [auto with ole|]. intros _. apply ole_bind; [auto with ole|]. intros c. apply ole_bind; [auto with ole|]. intros _.
    apply ole_bind; [unfold ko_contactKine; destruct (_ =? _); auto with ole|auto with ole].
  - unfold ko_updateNoSensor. cbv zeta. apply ole_bind; [auto with ole|]. intros _. apply ole_bind; [auto with ole|]. intros c. apply ole_bind; [auto with ole|]. intros _.
    apply ole_bind; [unfold ko_contactKine; destruct (_ =? _); auto with ole|auto with ole].
  - unfold ko_setStateKinematics. apply ole_bind; [auto with ole|]. intros x. apply ole_bind; [destruct rf; [apply ole_zero|auto with ole]|auto with ole].
  - unfold ko_setGyroBias. apply ole_bind; [apply ole_gyro|]. intros g. apply ole_bind; auto with ole.
  - unfold ko_setStateUnmodeledWrench. apply ole_bind; [apply ole_unm|]. intros g. apply ole_bind; auto with ole.
  - unfold ko_update. destruct (_ =? _); [auto with ole|]. apply ole_bind; [apply ole_prepare|auto with ole].
Qed.
Lemma ole_run h : kmono -> forall s, ole (run Debug h s) (run Release h s).
Proof.
  intros K. unfold ko_run. induction h as [|o h IH]; intros s; cbn [orun]; [auto with ole|]. apply ole_bind; [apply ole_step; exact K|exact IH].
Qed.
Lemma debug_any md h s s' : kmono -> run Debug h s = Ok s' -> run md h s = Ok s'.
Proof. intros K E. destruct md; [exact E|]. apply ole_run; auto. Qed.

(** ** One iteration *)
(** No contact is flagged as having a sensor. *)
Definition noreal s : Prop := Forall (fun c => c_real c = false) (o_contacts s).
Lemma noreal_step md o s s' : no_wrench o = true -> noreal s -> step md o s = Ok s' -> noreal s'.
Proof.
  intros Hw Hn E.
  assert (Hst : noreal (ko_start s)) by (unfold ko_start, noreal in *; destruct (_ =? _); exact Hn).
  destruct o as [pv num st|n| |sig cov k num|w cov k n|k n|sig cov| |kv rf|b i|w|v|b|b|b| |e]; cbn [ko_step] in E; try discriminate.
  - apply obind_Ok_inv in E. destruct E as ([n s1] & E & Es). injection Es as <-. apply add_inv in E.
    destruct E as (n0 & c & x & _ & _ & _ & Hn0 & Hc & _ & Ex & ->). unfold noreal. cbn. apply vec_set_Forall; [|exact Hn].
    unfold added. destruct st as [[[? ?] ?] ?]. destruct (o_dstiff s) as [[[? ?] ?] ?]. cbn. exact (Forall_nth _ _ _ _ Hn Hc).
  - apply remove_inv in E. destruct E as (c & _ & _ & _ & ->). unfold noreal. cbn. apply vec_set_Forall; [reflexivity|exact Hn].
  - injection E as <-. constructor.
  - apply obind_Ok_inv in E. destruct E as ([n s1] & E & Es). injection Es as <-. apply setIMU_inv in E. destruct E as (i & k' & _ & _ & _ & _ & _ & ->). exact Hst.
  - apply nosensor_inv in E. destruct E as (c & k' & _ & _ & _ & _ & ->). unfold noreal. cbn. apply vec_set_Forall; [reflexivity|exact Hst].
  - injection E as <-. exact Hst.
  - injection E as <-. exact Hst.
  - unfold ko_setStateKinematics in E. apply obind_Ok_inv in E. destruct E as (x & E1 & E). apply obind_Ok_inv in E. destruct E as (x' & E2 & E). injection E as <-. exact Hn.
  - unfold ko_setGyroBias in E. apply obind_Ok_inv in E. destruct E as (g & _ & E). apply obind_Ok_inv in E. destruct E as (x & E1 & E). injection E as <-. exact Hn.
  - unfold ko_setStateUnmodeledWrench in E. apply obind_Ok_inv in E. destruct E as (g & _ & E). apply obind_Ok_inv in E. destruct E as (x & E1 & E). injection E as <-. exact Hn.
  - injection E as <-. exact Hn.
  - injection E as <-. exact Hn.
  - injection E as <-. exact Hn.
  - injection E as <-. exact Hn.
  - injection E as <-. unfold noreal. cbn. apply Forall_map. exact Hn.
  - unfold ko_update in E. destruct (_ =? _); [injection E as <-; exact Hn|]. apply obind_Ok_inv in E. destruct E as (s1 & E1 & E). injection E as <-.
    apply prepare_shape in E1. destruct E1 as (_ & FC & _). unfold noreal. cbn. eapply Forall2_Forall; [|exact FC|exact Hn]. cbn. intros c c' -> Hc. cbn.
    destruct (c_real (lost (o_kdata s) c)) eqn:E; [|reflexivity]. apply lost_props in E. congruence.
Qed.
Lemma noreal_run md h : forall s s', forallb no_wrench h = true -> noreal s -> run md h s = Ok s' -> noreal s'.
Proof.
  unfold ko_run. induction h as [|o h IH]; intros s s' Hw Hn E; cbn [orun forallb] in *; [injection E as <-; exact Hn|].
  apply andb_prop in Hw. destruct Hw as [H1 H2]. apply obind_Ok_inv in E. destruct E as (s1 & E1 & E). eapply IH; [exact H2| |exact E]. eapply noreal_step; eauto.
Qed.
Lemma init_noreal (k0 : Kn) md maxC maxI ds di dw dp s : ko_init s0 k0 md maxC maxI ds di dw dp = Ok s -> noreal s.
Proof. unfold ko_init. intros E. apply obind_Ok_inv in E. destruct E as (u & _ & E). injection E as <-. apply Forall_repeat. reflexivity. Qed.

(** What the observer holds after the calls [h] of an iteration, in Debug. *)
Record iter maxC maxI (h : list op) s : Prop := {
  t_inv : inv maxC maxI s;
  t_new : existsb reports h = false -> o_kest s = o_kdata s /\ noreal s;
  t_cur : existsb reports h = true -> o_kest s <> o_kdata s;
  t_imu : existsb reports h = true -> forall j i, nth_error (o_imus s) j = Some i -> (if i_time i =? o_kdata s then Some (i_sig i) else None) = imu_signal h (Z.of_nat j);
  t_con : existsb reports h = true -> forall j c, nth_error (o_contacts s) j = Some c ->
     (if c_real c then Some (c_wrench c) else None) = contact_signal h (Z.of_nat j) /\ (c_time c =? o_kdata s) = existsb (updates_contact (Z.of_nat j)) h /\ (c_set c = false -> c_real c = false);
  t_pose : existsb reports h = true -> (if p_time (o_pose s) =? o_kdata s then Some (p_sig (o_pose s)) else None) = pose_signal h;
  t_nimu : existsb reports h = true -> o_nimu s = count (is_cur (o_kdata s)) (o_imus s);
  t_nreal : existsb reports h = true -> o_nreal s = count c_real (o_contacts s) }.
Lemma quiet_signals (h : list op) : existsb reports h = false -> (forall i, imu_signal h i = None) /\ (forall j, contact_signal h j = None) /\ pose_signal h = None /\ forall j, existsb (updates_contact j) h = false.
Proof.
  induction h as [|o h IH] using rev_ind; intros H; [repeat split; reflexivity|].
  rewrite existsb_app in H. apply orb_false_iff in H. destruct H as [H1 H2]. cbn [existsb] in H2. rewrite orb_false_r in H2. destruct (IH H1) as (A & B & D & F).
  split; [|split; [|split]].
  - intros i. unfold imu_signal in *. rewrite last_some_snoc. rewrite A. destruct o; try reflexivity; discriminate.
  - intros j. specialize (B j). unfold contact_signal in *. rewrite last_some_snoc. destruct o; try exact B; discriminate.
  - unfold pose_signal in *. rewrite last_some_snoc, D. destruct o; try reflexivity; discriminate.
  - intros j. rewrite existsb_app, F. cbn. destruct o; try reflexivity; discriminate.
Qed.
(** The state when the data of an iteration begin to be reported. *)
Lemma iter_start maxC maxI h s : iter maxC maxI h s -> let s := ko_start s in
  inv maxC maxI s /\ o_kest s <> o_kdata s /\
  (forall j i, nth_error (o_imus s) j = Some i -> (if i_time i =? o_kdata s then Some (i_sig i) else None) = imu_signal h (Z.of_nat j)) /\
  (forall j c, nth_error (o_contacts s) j = Some c ->
     (if c_real c then Some (c_wrench c) else None) = contact_signal h (Z.of_nat j) /\ (c_time c =? o_kdata s) = existsb (updates_contact (Z.of_nat j)) h /\ (c_set c = false -> c_real c = false)) /\
  (if p_time (o_pose s) =? o_kdata s then Some (p_sig (o_pose s)) else None) = pose_signal h /\
  o_nimu s = count (is_cur (o_kdata s)) (o_imus s) /\ o_nreal s = count c_real (o_contacts s).
Proof.
  intros [Hi T1 T2 T3 T4 T5 T6 T7]. cbv zeta. split; [apply start_inv; exact Hi|]. destruct (existsb reports h) eqn:Eh.
  - specialize (T2 eq_refl). unfold ko_start. destruct (Z.eqb_spec (o_kest s) (o_kdata s)); [contradiction|]. auto 10.
  - destruct (T1 eq_refl) as [K N]. destruct (quiet_signals h Eh) as (Q1 & Q2 & Q3 & Q4). unfold ko_start. rewrite K, Z.eqb_refl. cbn [set_iter o_kest o_kdata o_imus o_contacts o_pose o_nimu o_nreal].
    split; [lia|]. pose proof (v_imu _ _ _ Hi) as VI. pose proof (v_ct _ _ _ Hi) as VC. pose proof (v_pose _ _ _ Hi) as [VP _]. unfold time_ok in *.
    split; [|split; [|split; [|split]]].
    + intros j i E. rewrite Q1. pose proof (Forall_nth _ _ _ _ VI E) as [? _]. destruct (Z.eqb_spec (i_time i) (o_kdata s + 1)); [lia|reflexivity].
    + intros j c E. rewrite Q2, Q4. pose proof (Forall_nth _ _ _ _ VC E) as [? _]. rewrite (Forall_nth _ _ _ _ N E). split; [reflexivity|]. split; [apply Z.eqb_neq; lia|reflexivity].
    + rewrite Q3. destruct (Z.eqb_spec (p_time (o_pose s)) (o_kdata s + 1)); [lia|reflexivity].
    + symmetry. apply count_zero. eapply Forall_impl; [|exact VI]. intros i [? _]. unfold is_cur. apply Z.eqb_neq. lia.
    + symmetry. apply count_zero. exact N.
Qed.
Lemma existsb_snoc {A} (f : A -> bool) l a : existsb f (l ++ [a]) = existsb f l || f a.
Proof. rewrite existsb_app. cbn. rewrite orb_false_r. reflexivity. Qed.

Lemma contact_signal_snoc (h : list op) o j : contact_signal (h ++ [o]) j =
  match o with KWrench w _ _ n => if n =? j then Some w else contact_signal h j | KNoSensor _ n => if n =? j then None else contact_signal h j | _ => contact_signal h j end.
Proof. unfold contact_signal. rewrite last_some_snoc. destruct o; try reflexivity; destruct (_ =? _); reflexivity. Qed.
Lemma imu_signal_snoc (h : list op) o j : imu_signal (h ++ [o]) j =
  match o with KIMU sig _ _ n => if n =? j then Some sig else imu_signal h j | _ => imu_signal h j end.
Proof. unfold imu_signal. rewrite last_some_snoc. destruct o; try reflexivity; destruct (_ =? _); reflexivity. Qed.
Lemma pose_signal_snoc (h : list op) o : pose_signal (h ++ [o]) = match o with KPose sig _ => Some sig | _ => pose_signal h end.
Proof. unfold pose_signal. rewrite last_some_snoc. destruct o; reflexivity. Qed.

(** Calls that do not report: the sensors are unchanged. *)
Lemma iter_quiet maxC maxI h o s s' : iter maxC maxI h s -> reports o = false -> inv maxC maxI s' ->
  o_kest s' = o_kest s -> o_kdata s' = o_kdata s -> o_imus s' = o_imus s -> o_pose s' = o_pose s -> o_nimu s' = o_nimu s -> o_nreal s' = o_nreal s ->
  (forall j c', nth_error (o_contacts s') j = Some c' -> exists c, nth_error (o_contacts s) j = Some c /\ c_real c' = c_real c /\ c_wrench c' = c_wrench c /\ c_time c' = c_time c /\ (c_set c' = false -> c_set c = false)) ->
  count c_real (o_contacts s') = count c_real (o_contacts s) -> iter maxC maxI (h ++ [o]) s'.
Proof.
  intros [Hi T1 T2 T3 T4 T5 T6 T7] Hr Hi' E1 E2 E3 E4 E5 E6 E7 E8.
  assert (Hx : existsb reports (h ++ [o]) = existsb reports h) by (rewrite existsb_snoc, Hr, orb_false_r; reflexivity).
  constructor; rewrite ?Hx, ?E1, ?E2, ?E3, ?E4, ?E5, ?E6, ?E8; auto.
  - intros H. destruct (T1 H) as [A B]. split; [exact A|]. apply Forall_forall. intros c' Hc. apply In_nth_error in Hc. destruct Hc as [j Hc]. destruct (E7 _ _ Hc) as (c & F1 & F2 & _). rewrite F2. exact (Forall_nth _ _ _ _ B F1).
  - intros H j i Hj. rewrite imu_signal_snoc. rewrite (T3 H _ _ Hj). destruct o; try reflexivity; discriminate.
  - intros H j c' Hj. destruct (E7 _ _ Hj) as (c & F1 & F2 & F3 & F4 & F5). rewrite F2, F3, F4. destruct (T4 H _ _ F1) as (A & B & D). rewrite contact_signal_snoc, existsb_snoc, A, B.
    split; [destruct o; try reflexivity; discriminate|]. split; [|auto]. destruct o; try (cbn [updates_contact]; rewrite orb_false_r; reflexivity); discriminate.
  - intros H. rewrite pose_signal_snoc, (T5 H). destruct o; try reflexivity; discriminate.
Qed.
Lemma same_contacts s s' : o_contacts s' = o_contacts s ->
  (forall j c', nth_error (o_contacts s') j = Some c' -> exists c, nth_error (o_contacts s) j = Some c /\ c_real c' = c_real c /\ c_wrench c' = c_wrench c /\ c_time c' = c_time c /\ (c_set c' = false -> c_set c = false)).
Proof. intros -> j c E. exists c. auto. Qed.
Lemma iter_step maxC maxI h o s s' : in_iteration o = true -> wf_op (nx maxC maxI) o -> iter maxC maxI h s -> step Debug o s = Ok s' -> iter maxC maxI (h ++ [o]) s'.
Proof.
  intros Ho Hwf Ht E.
  assert (Hi' : inv maxC maxI s') by (eapply step_inv; eauto; [destruct o; try reflexivity; discriminate|apply (t_inv _ _ _ _ Ht)]).
  destruct (iter_start _ _ _ _ Ht) as (Si & Sk & S1 & S2 & S3 & S4 & S5).
  assert (Q : reports o = false -> o_kest s' = o_kest s -> o_kdata s' = o_kdata s -> o_imus s' = o_imus s -> o_pose s' = o_pose s -> o_nimu s' = o_nimu s -> o_nreal s' = o_nreal s -> o_contacts s' = o_contacts s -> iter maxC maxI (h ++ [o]) s').
  { intros. eapply iter_quiet; eauto; [apply same_contacts; auto|congruence]. }
  destruct o as [pv num st|n| |sig cov k num|w cov k n|k n|sig cov| |kv rf|b i|w|v|b|b|b| |e]; cbn [ko_step] in E; try discriminate.
  - apply obind_Ok_inv in E. destruct E as ([n s1] & E & Es). injection Es as <-. apply add_inv in E.
    destruct E as (n0 & c & x & _ & _ & _ & Hn0 & Hc & _ & Ex & ->).
    assert (Hadd : c_real (added mzero (o_maxI s) n c pv st (o_dstiff s)) = c_real c /\ c_wrench (added mzero (o_maxI s) n c pv st (o_dstiff s)) = c_wrench c /\ c_time (added mzero (o_maxI s) n c pv st (o_dstiff s)) = c_time c /\ c_set (added mzero (o_maxI s) n c pv st (o_dstiff s)) = true)
      by (unfold added; destruct st as [[[? ?] ?] ?]; destruct (o_dstiff s) as [[[? ?] ?] ?]; cbn; auto). destruct Hadd as (A1 & A2 & A3 & A4).
    eapply iter_quiet; eauto.
    + cbn. intros j c'. rewrite vec_set_nth. destruct (Nat.eqb_spec j (Z.to_nat n)) as [->|]; [|eauto 8]. rewrite Hc. intros F. injection F as <-. exists c. rewrite A1, A2, A3, A4. repeat split; auto; discriminate.
    + cbn. erewrite count_set by eauto. rewrite A1. lia.
  - apply remove_inv in E. destruct E as (c & Hn & Hc & Hu & ->). specialize (Hu eq_refl).
    assert (Hr : c_real c = false).
    { destruct (existsb reports h) eqn:Eh; [apply (t_con _ _ _ _ Ht Eh _ _ Hc); exact Hu|]. destruct (t_new _ _ _ _ Ht Eh) as [_ N]. exact (Forall_nth _ _ _ _ N Hc). }
    rewrite Hr in *. eapply iter_quiet; eauto.
    + cbn. intros j c'. rewrite vec_set_nth. destruct (Nat.eqb_spec j (Z.to_nat n)) as [->|]; [|eauto 8]. rewrite Hc. intros F. injection F as <-. exists c. cbn. rewrite Hr. repeat split; auto.
    + cbn. erewrite count_set by eauto. cbn. rewrite Hr. lia.
  - apply obind_Ok_inv in E. destruct E as ([n s1] & E & Es). injection Es as <-. apply setIMU_inv in E.
    destruct E as (i & k' & E1 & Hn & Hc & Hd & _ & ->). destruct (Hd eq_refl) as [_ Hlt].
    assert (n = num). { destruct (Z.ltb_spec num 0) as [L|]; [|exact E1]. exfalso.
      clear - E1 Hc Hlt. revert E1 Hc. generalize (o_imus (ko_start s)) as l. intros l E1 Hc.
      assert (G : forall l n m, imu_search (o_kdata (ko_start s)) (l : list imu) n = Ok m -> n <= m /\ exists i, nth_error l (Z.to_nat (m - n)) = Some i /\ i_time i = o_kdata (ko_start s)).
      { clear. intros l. induction l as [|i l IH]; intros n m E; cbn [imu_search] in E; [discriminate|]. destruct (Z.eqb_spec (i_time i) (o_kdata (ko_start s))) as [Et|Et].
        - injection E as <-. rewrite Z.sub_diag. cbn. split; [lia|]. eauto.
        - apply IH in E. destruct E as (H & i' & E & E'). split; [lia|]. exists i'. split; [|exact E'].
          replace (Z.to_nat (m - n)) with (Datatypes.S (Z.to_nat (m - (n + 1)))) by lia. exact E. }
      apply G in E1. destruct E1 as (_ & i' & Ei & Et). rewrite Z.sub_0_r in Ei. rewrite Hc in Ei. injection Ei as ->. lia. }
    subst num. assert (Hx : existsb reports (h ++ [KIMU sig cov k n]) = true) by (rewrite existsb_snoc; apply orb_true_r).
    constructor; rewrite ?Hx; cbn [set_iter set_imus o_kest o_kdata o_imus o_contacts o_pose o_nimu o_nreal]; auto; try discriminate; intros _.
    + intros j i0. rewrite vec_set_nth, imu_signal_snoc. destruct (Nat.eqb_spec j (Z.to_nat n)) as [->|Hne].
      * rewrite Hc. intros F. injection F as <-. cbn. rewrite Z.eqb_refl, Z2Nat.id, Z.eqb_refl by lia. reflexivity.
      * intros F. destruct (Z.eqb_spec n (Z.of_nat j)); [lia|]. auto.
    + intros j c F. rewrite contact_signal_snoc, existsb_snoc. destruct (S2 _ _ F) as (A & B & D). rewrite A, B. cbn [updates_contact]. rewrite orb_false_r. auto.
    + rewrite pose_signal_snoc. exact S3.
    + erewrite count_set by eauto. unfold is_cur at 2 3. cbn. rewrite Z.eqb_refl, <- S4. destruct (Z.eqb_spec (i_time i) (o_kdata (ko_start s))); lia.
  - apply wrench_inv in E. destruct E as (c & k' & Hn & Hc & Hu & _ & ->). specialize (Hu eq_refl).
    assert (Hx : existsb reports (h ++ [KWrench w cov k n]) = true) by (rewrite existsb_snoc; apply orb_true_r).
    constructor; rewrite ?Hx; cbn [set_nreal set_iter set_contacts o_kest o_kdata o_imus o_contacts o_pose o_nimu o_nreal]; auto; try discriminate; intros _.
    + intros j i F. rewrite imu_signal_snoc. auto.
    + intros j c'. rewrite vec_set_nth, contact_signal_snoc, existsb_snoc. cbn [updates_contact]. destruct (Nat.eqb_spec j (Z.to_nat n)) as [->|Hne].
      * rewrite Hc. intros F. injection F as <-. cbn. rewrite Z.eqb_refl, Z2Nat.id, Z.eqb_refl, orb_true_r by lia. rewrite Hu. repeat split; auto; discriminate.
      * intros F. destruct (Z.eqb_spec n (Z.of_nat j)); [lia|]. rewrite orb_false_r. auto.
    + rewrite pose_signal_snoc. exact S3.
    + erewrite count_set by eauto. cbn [c_real]. rewrite <- S5. destruct (c_real c); lia.
  - apply nosensor_inv in E. destruct E as (c & k' & Hn & Hc & Hu & _ & ->). specialize (Hu eq_refl).
    assert (Hx : existsb reports (h ++ [KNoSensor k n]) = true) by (rewrite existsb_snoc; apply orb_true_r).
    constructor; rewrite ?Hx; cbn [set_nreal set_iter set_contacts o_kest o_kdata o_imus o_contacts o_pose o_nimu o_nreal]; auto; try discriminate; intros _.
    + intros j i F. rewrite imu_signal_snoc. auto.
    + intros j c'. rewrite vec_set_nth, contact_signal_snoc, existsb_snoc. cbn [updates_contact]. destruct (Nat.eqb_spec j (Z.to_nat n)) as [->|Hne].
      * rewrite Hc. intros F. injection F as <-. cbn. rewrite Z.eqb_refl, Z2Nat.id, Z.eqb_refl, orb_true_r by lia. rewrite Hu. repeat split; auto.
      * intros F. destruct (Z.eqb_spec n (Z.of_nat j)); [lia|]. rewrite orb_false_r. auto.
    + rewrite pose_signal_snoc. exact S3.
    + erewrite count_set by eauto. cbn [c_real]. rewrite <- S5. destruct (c_real c); lia.
  - injection E as <-. assert (Hx : existsb reports (h ++ [KPose sig cov]) = true) by (rewrite existsb_snoc; apply orb_true_r).
    unfold ko_setPose. constructor; rewrite ?Hx; cbn [set_pose o_kest o_kdata o_imus o_contacts o_pose o_nimu o_nreal p_time p_sig]; auto; try discriminate; intros _.
    + intros j i F. rewrite imu_signal_snoc. auto.
    + intros j c F. rewrite contact_signal_snoc, existsb_snoc. destruct (S2 _ _ F) as (A & B & D). rewrite A, B. cbn [updates_contact]. rewrite orb_false_r. auto.
    + rewrite Z.eqb_refl, pose_signal_snoc. reflexivity.
  - injection E as <-. assert (Hx : existsb reports (h ++ [KInput]) = true) by (rewrite existsb_snoc; apply orb_true_r).
    unfold ko_input. constructor; rewrite ?Hx; auto; try discriminate; intros _.
    + intros j i F. rewrite imu_signal_snoc. auto.
    + intros j c F. rewrite contact_signal_snoc, existsb_snoc. destruct (S2 _ _ F) as (A & B & D). rewrite A, B. cbn [updates_contact]. rewrite orb_false_r. auto.
    + rewrite pose_signal_snoc. exact S3.
  - unfold ko_setStateKinematics in E. apply obind_Ok_inv in E. destruct E as (x & E1 & E). apply obind_Ok_inv in E. destruct E as (x' & E2 & E). injection E as <-. apply Q; reflexivity.
  - unfold ko_setGyroBias in E. apply obind_Ok_inv in E. destruct E as (g & _ & E). apply obind_Ok_inv in E. destruct E as (x & E1 & E). injection E as <-. apply Q; reflexivity.
  - unfold ko_setStateUnmodeledWrench in E. apply obind_Ok_inv in E. destruct E as (g & _ & E). apply obind_Ok_inv in E. destruct E as (x & E1 & E). injection E as <-. apply Q; reflexivity.
  - injection E as <-. apply Q; reflexivity.
  - injection E as <-. apply Q; reflexivity.
  - injection E as <-. apply Q; reflexivity.
  - injection E as <-. apply Q; reflexivity.
Qed.
Lemma iter_run maxC maxI h : forall s s', forallb in_iteration h = true -> Forall (wf_op (nx maxC maxI)) h -> inv maxC maxI s -> o_kest s = o_kdata s -> noreal s ->
  run Debug h s = Ok s' -> iter maxC maxI h s'.
Proof.
  unfold ko_run. induction h as [|o h IH] using rev_ind; intros s s' Hf Hw Hi Hk Hn E.
  - injection E as <-. constructor; try discriminate; auto.
  - rewrite orun_app in E. apply obind_Ok_inv in E. destruct E as (s1 & E1 & E). cbn [orun] in E. apply obind_Ok_inv in E. destruct E as (s2 & E2 & E). injection E as <-.
    rewrite forallb_app in Hf. apply andb_prop in Hf. destruct Hf as [Hf Ho]. cbn in Ho. rewrite andb_true_r in Ho. apply Forall_app in Hw. destruct Hw as [Hw Hwo]. inversion Hwo; subst.
    eapply iter_step; eauto.
Qed.
Lemma iter_ready maxC maxI h s : iter maxC maxI h s -> existsb reports h = true -> (forall j, In j (ko_getListOfContacts s) -> existsb (updates_contact j) h = true) ->
  ready maxC maxI s /\ meas_state s = meas_of maxI maxC (imu_signal h) (contact_signal h) (pose_signal h).
Proof.
  intros [Hi T1 T2 T3 T4 T5 T6 T7] Hx Hall. split.
  - constructor; auto; apply Forall_forall; intros c Hc; apply In_nth_error in Hc; destruct Hc as [j Hc]; destruct (T4 Hx _ _ Hc) as (A & B & D).
    + intros Hs. apply Z.eqb_eq. rewrite B. apply Hall. apply list_iff. split; [lia|]. exists c. rewrite Nat2Z.id. auto.
    + intros Hr. destruct (c_set c); [reflexivity|]. rewrite D in Hr by reflexivity. discriminate.
  - unfold meas_state, meas_of. f_equal; [|f_equal].
    + f_equal. rewrite <- (v_lI _ _ _ Hi). apply map_zseq. intros j i E. rewrite <- (T3 Hx _ _ E). unfold sig_of. destruct (i_time i =? _); reflexivity.
    + f_equal. rewrite <- (v_lC _ _ _ Hi). apply map_zseq. intros j c E. destruct (T4 Hx _ _ E) as (<- & _). unfold wrench_of. destruct (c_real c); reflexivity.
    + rewrite <- (T5 Hx). destruct (_ =? _); reflexivity.
Qed.

(** ** Room for the sensors *)
Lemma write_imus_room md kd (is : list imu) : Forall (fun i => i_time i = kd -> length (i_sig i) = 6%nat) is -> forall y r n is' y' r' n', write_imus md kd is y r n = Ok (is', y', r', n') -> n <= Z.of_nat (length y) -> n' <= Z.of_nat (length y').
Proof.
  intros H. induction H as [|i is Hi H IH]; intros y r n is' y' r' n' E L; cbn [write_imus] in E; [injection E as _ <- _ <-; exact L|].
  destruct (Z.eqb_spec (i_time i) kd) as [Et|Et].
  - apply obind_Ok_inv in E. destruct E as (y1 & E1 & E). apply obind_Ok_inv in E. destruct E as ([[[is1 y2] r1] n1] & E2 & E). injection E as <- <- <- <-.
    eapply IH; [exact E2|]. rewrite (seg_set_length _ _ _ _ _ E1). unfold seg_set in E1. rewrite map_length, (Hi Et) in E1.
    destruct (Z.leb_spec (n + Z.of_nat 6) (Z.of_nat (length y))); [lia|]. rewrite andb_false_r in E1. destruct md; discriminate.
  - apply obind_Ok_inv in E. destruct E as ([[[is1 y2] r1] n1] & E2 & E). injection E as <- <- <- <-. eapply IH; eauto.
Qed.
Lemma write_contacts_room md (cs : list contact) : Forall (fun c => c_real c = true -> length (c_wrench c) = 6%nat) cs -> forall y r n cs' y' r' n', write_contacts md cs y r n = Ok (cs', y', r', n') -> n <= Z.of_nat (length y) -> n' <= Z.of_nat (length y').
Proof.
  intros H. induction H as [|c cs Hc H IH]; intros y r n cs' y' r' n' E L; cbn [write_contacts] in E; [injection E as _ <- _ <-; exact L|].
  destruct (c_real c).
  - apply obind_Ok_inv in E. destruct E as (y1 & E1 & E). apply obind_Ok_inv in E. destruct E as (v & _ & E). apply obind_Ok_inv in E. destruct E as ([[[is1 y2] r1] n1] & E2 & E). injection E as <- <- <- <-.
    eapply IH; [exact E2|]. rewrite (seg_set_length _ _ _ _ _ E1). unfold seg_set in E1. rewrite map_length, (Hc eq_refl) in E1.
    destruct (Z.leb_spec (n + Z.of_nat 6) (Z.of_nat (length y))); [unfold sizeWrench, sizeForce, sizeTorque; lia|]. rewrite andb_false_r in E1. destruct md; discriminate.
  - apply obind_Ok_inv in E. destruct E as ([[[is1 y2] r1] n1] & E2 & E). injection E as <- <- <- <-. eapply IH; eauto.
Qed.
Lemma prepare_room maxC maxI s s' : inv maxC maxI s -> o_kest s <> o_kdata s -> ko_prepare Debug s = Ok s' ->
  count (is_cur (o_kdata s)) (o_imus s) + count c_real (o_contacts s) <= o_nimu s + o_nreal s.
Proof.
  intros Hi Hk E. apply prepare_inv in E. destruct E as (cs1 & is' & y1 & r1 & n1 & cs' & y2 & r2 & n2 & p' & y & r & E1 & H0 & E2 & E3 & E4 & _).
  destruct (drop_lost_inv _ _ _ _ _ _ E1) as (_ & _ & HD). destruct (HD eq_refl) as [-> Hnr]. rewrite Hnr in *.
  assert (HI : Forall (fun i => i_time i = o_kdata s -> length (i_sig i) = 6%nat) (o_imus s)).
  { eapply Forall_impl; [|apply (v_imu _ _ _ Hi)]. cbn. intros i [_ H] Ei. apply H. split; assumption. }
  assert (HC : Forall (fun c => c_real c = true -> length (c_wrench c) = 6%nat) (o_contacts s)).
  { eapply Forall_impl; [|apply (v_ct _ _ _ Hi)]. cbn. intros c [_ H] Ec. apply H, Ec. }
  pose proof (write_imus_room _ _ _ HI _ _ _ _ _ _ _ E2 ltac:(lia)) as L1. pose proof (write_contacts_room _ _ HC _ _ _ _ _ _ _ E3 L1) as L2.
  apply write_imus_inv in E2. destruct E2 as (_ & Y1 & _ & N1). apply write_contacts_inv in E3. destruct E3 as (_ & Y2 & _ & N2).
  unfold count. unfold nreals in N2. rewrite repeat_length in Y1.
  destruct (Z.eqb_spec (p_time (o_pose s)) (o_kdata s)) as [Ep|Ep].
  - destruct E4 as (E4 & _). destruct (v_pose _ _ _ Hi) as [_ HP]. destruct HP as [HP _]; [split; assumption|].
    unfold seg_set in E4. rewrite map_length, HP in E4. destruct (Z.leb_spec (n2 + Z.of_nat 7) (Z.of_nat (length y2))); [lia|]. rewrite andb_false_r in E4. discriminate.
  - lia.
Qed.

(** ** A contact with a sensor cannot be used in two iterations (Debug) *)
(** The counter of IMUs is right, removed contacts have no sensor flag, and the counter of contact
    sensors is below the number of flags. *)
Record lag s : Prop := {
  l_nimu : o_kest s <> o_kdata s -> o_nimu s = count (is_cur (o_kdata s)) (o_imus s);
  l_real : Forall (fun c => c_set c = false -> c_real c = false) (o_contacts s);
  l_lag : if o_kest s =? o_kdata s then 1 <= count c_real (o_contacts s) else 1 <= count c_real (o_contacts s) - o_nreal s }.
Definition keeps (o : op) : bool := match o with KClear | KResetInputs => false | _ => true end.
Lemma start_nimu maxC maxI s : inv maxC maxI s -> (o_kest s <> o_kdata s -> o_nimu s = count (is_cur (o_kdata s)) (o_imus s)) ->
  o_nimu (ko_start s) = count (is_cur (o_kdata (ko_start s))) (o_imus (ko_start s)).
Proof.
  intros Hi H. unfold ko_start. destruct (Z.eqb_spec (o_kest s) (o_kdata s)); [|auto]. cbn. symmetry. apply count_zero.
  eapply Forall_impl; [|apply (v_imu _ _ _ Hi)]. unfold time_ok, is_cur. cbn. intros i [? _]. apply Z.eqb_neq. lia.
Qed.
Lemma start_lag s : lag s -> 1 <= count c_real (o_contacts (ko_start s)) - o_nreal (ko_start s).
Proof. intros [_ _ H]. unfold ko_start. destruct (o_kest s =? o_kdata s); cbn in *; lia. Qed.
Lemma start_diff maxC maxI s : inv maxC maxI s -> o_kest (ko_start s) <> o_kdata (ko_start s).
Proof. intros Hi. pose proof (v_k _ _ _ Hi). unfold ko_start. destruct (Z.eqb_spec (o_kest s) (o_kdata s)); cbn; lia. Qed.
(** The first two fields alone are kept by all those calls. *)
Record sane s : Prop := {
  n_nimu : o_kest s <> o_kdata s -> o_nimu s = count (is_cur (o_kdata s)) (o_imus s);
  n_real : Forall (fun c => c_set c = false -> c_real c = false) (o_contacts s) }.
Lemma imu_num sig cov k num s n s' : ko_setIMU kfirst kupd Debug sig cov k num s = Ok (n, s') -> exists i, 0 <= n /\ nth_error (o_imus (ko_start s)) (Z.to_nat n) = Some i /\ i_time i < o_kdata (ko_start s).
Proof. intros E. apply setIMU_inv in E. destruct E as (i & k' & _ & Hn & Hc & Hd & _). exists i. destruct (Hd eq_refl). auto. Qed.
Lemma sane_step maxC maxI o s s' : keeps o = true -> inv maxC maxI s -> sane s -> step Debug o s = Ok s' -> sane s'.
Proof.
  intros Ho Hi [L1 L2] E. pose proof (start_nimu _ _ _ Hi L1) as SN.
  assert (SR : Forall (fun c => c_set c = false -> c_real c = false) (o_contacts (ko_start s))) by (unfold ko_start; destruct (_ =? _); exact L2).
  destruct o as [pv num st|n| |sig cov k num|w cov k n|k n|sig cov| |kv rf|b i|w|v|b|b|b| |e]; cbn [ko_step] in E; try discriminate.
  - apply obind_Ok_inv in E. destruct E as ([n s1] & E & Es). injection Es as <-. apply add_inv in E.
    destruct E as (n0 & c & x & _ & _ & _ & Hn0 & Hc & _ & Ex & ->). constructor; cbn; auto. apply vec_set_Forall; [|exact L2].
    unfold added. destruct st as [[[? ?] ?] ?]. destruct (o_dstiff s) as [[[? ?] ?] ?]. cbn. discriminate.
  - apply remove_inv in E. destruct E as (c & Hn & Hc & Hu & ->). constructor; cbn; auto. apply vec_set_Forall; auto.
  - apply obind_Ok_inv in E. destruct E as ([n s1] & E & Es). injection Es as <-. destruct (imu_num _ _ _ _ _ _ _ E) as (i & Hn & Hc & Hlt). apply setIMU_inv in E.
    destruct E as (i' & k' & E1 & _ & Hc' & _ & _ & ->). rewrite Hc in Hc'. injection Hc' as <-. constructor; cbn; auto. intros _. erewrite count_set by eauto. unfold is_cur at 2 3. cbn. rewrite Z.eqb_refl, <- SN.
    destruct (Z.eqb_spec (i_time i) (o_kdata (ko_start s))); lia.
  - apply wrench_inv in E. destruct E as (c & k' & Hn & Hc & Hu & _ & ->). specialize (Hu eq_refl). constructor; cbn; auto. apply vec_set_Forall; [|exact SR]. cbn. congruence.
  - apply nosensor_inv in E. destruct E as (c & k' & Hn & Hc & Hu & _ & ->). constructor; cbn; auto. apply vec_set_Forall; [|exact SR]. cbn. reflexivity.
  - injection E as <-. constructor; cbn; auto.
  - injection E as <-. constructor; auto.
  - unfold ko_setStateKinematics in E. apply obind_Ok_inv in E. destruct E as (x & E1 & E). apply obind_Ok_inv in E. destruct E as (x' & E2 & E). injection E as <-. constructor; auto.
  - unfold ko_setGyroBias in E. apply obind_Ok_inv in E. destruct E as (g & _ & E). apply obind_Ok_inv in E. destruct E as (x & E1 & E). injection E as <-. constructor; auto.
  - unfold ko_setStateUnmodeledWrench in E. apply obind_Ok_inv in E. destruct E as (g & _ & E). apply obind_Ok_inv in E. destruct E as (x & E1 & E). injection E as <-. constructor; auto.
  - injection E as <-. constructor; auto.
  - injection E as <-. constructor; auto.
  - injection E as <-. constructor; auto.
  - injection E as <-. constructor; auto.
  - unfold ko_update in E. destruct (Z.eqb_spec (o_kest s) (o_kdata s)) as [|Hne]; [injection E as <-; constructor; auto|].
    apply obind_Ok_inv in E. destruct E as (s1 & E1 & E). injection E as <-. pose proof (v_k _ _ _ Hi) as Hk.
    apply prepare_shape in E1. destruct E1 as ((y & r & p & E1 & _) & FC & _).
    assert (K : o_kest s1 = o_kest s /\ o_kdata s1 = o_kdata s) by (rewrite E1; cbn; auto). destruct K as [K1 K2].
    constructor; cbn; [rewrite K1, K2; lia|].
    eapply Forall2_Forall; [|exact FC|exact L2]. cbn. intros c c' -> Hc. cbn. unfold lost, unset. destruct (c_set c && negb (c_time c =? o_kdata s)); cbn; auto.
Qed.
Lemma sane_run maxC maxI h : forall s s', forallb keeps h = true -> Forall (wf_op (nx maxC maxI)) h -> inv maxC maxI s -> sane s -> run Debug h s = Ok s' -> sane s' /\ inv maxC maxI s'.
Proof.
  unfold ko_run. induction h as [|o h IH]; intros s s' Hf Hw Hi Hs E; cbn [orun forallb] in *; [injection E as <-; auto|].
  apply andb_prop in Hf. destruct Hf as [H1 H2]. inversion Hw; subst. apply obind_Ok_inv in E. destruct E as (s1 & E1 & E).
  eapply IH; [exact H2| | | |exact E]; auto; [|eapply sane_step; eauto]. eapply step_inv; eauto. destruct o; try reflexivity; discriminate.
Qed.
Lemma lag_step maxC maxI o s s' : keeps o = true -> inv maxC maxI s -> lag s -> step Debug o s = Ok s' ->
  lag s' /\ (o_kest s <> o_kdata s -> o_kest s' <> o_kdata s' /\ match o with KUpdate _ => False | _ => True end) /\ (reports o = true -> o_kest s' <> o_kdata s').
Proof.
  intros Ho Hi [L1 L2 L3] E. pose proof (sane_step _ _ _ _ _ Ho Hi (Build_sane _ L1 L2) E) as [N1 N2]. pose proof (start_lag s (Build_lag _ L1 L2 L3)) as SL. pose proof (start_diff _ _ _ Hi) as SD.
  assert (SB : (o_kest (ko_start s) =? o_kdata (ko_start s)) = false) by (apply Z.eqb_neq; exact SD).
  assert (Q : o_kest s' = o_kest s -> o_kdata s' = o_kdata s -> o_nreal s' = o_nreal s -> count c_real (o_contacts s') = count c_real (o_contacts s) -> match o with KUpdate _ => False | _ => True end -> reports o = false ->
     lag s' /\ (o_kest s <> o_kdata s -> o_kest s' <> o_kdata s' /\ match o with KUpdate _ => False | _ => True end) /\ (reports o = true -> o_kest s' <> o_kdata s')).
  { intros A B D F G R. split; [constructor; auto; rewrite A, B, D, F; exact L3|]. rewrite A, B. split; [auto|congruence]. }
  assert (W : o_kest s' = o_kest (ko_start s) -> o_kdata s' = o_kdata (ko_start s) -> 1 <= count c_real (o_contacts s') - o_nreal s' -> match o with KUpdate _ => False | _ => True end ->
     lag s' /\ (o_kest s <> o_kdata s -> o_kest s' <> o_kdata s' /\ match o with KUpdate _ => False | _ => True end) /\ (reports o = true -> o_kest s' <> o_kdata s')).
  { intros A B D G. split; [constructor; auto; rewrite A, B, SB; exact D|]. rewrite A, B. split; auto. }
  destruct o as [pv num st|n| |sig cov k num|w cov k n|k n|sig cov| |kv rf|b i|w|v|b|b|b| |e]; cbn [ko_step] in E; try discriminate.
  - apply obind_Ok_inv in E. destruct E as ([n s1] & E & Es). injection Es as <-. apply add_inv in E.
    destruct E as (n0 & c & x & _ & _ & _ & Hn0 & Hc & _ & Ex & ->). apply Q; auto. cbn. erewrite count_set by eauto.
    unfold added. destruct st as [[[? ?] ?] ?]. destruct (o_dstiff s) as [[[? ?] ?] ?]. cbn. lia.
  - apply remove_inv in E. destruct E as (c & Hn & Hc & Hu & ->). specialize (Hu eq_refl). pose proof (Forall_nth _ _ _ _ L2 Hc Hu) as Hr. cbv beta in Hr. apply Q; auto.
    + cbn. rewrite Hr. reflexivity.
    + cbn. erewrite count_set by eauto. cbn. rewrite Hr. lia.
  - apply obind_Ok_inv in E. destruct E as ([n s1] & E & Es). injection Es as <-. apply setIMU_inv in E. destruct E as (i & k' & _ & _ & _ & _ & _ & ->). apply W; auto.
  - apply wrench_inv in E. destruct E as (c & k' & Hn & Hc & Hu & _ & ->). apply W; auto. cbn. erewrite count_set by eauto. cbn. destruct (c_real c); lia.
  - apply nosensor_inv in E. destruct E as (c & k' & Hn & Hc & Hu & _ & ->). apply W; auto. cbn. erewrite count_set by eauto. cbn. destruct (c_real c); lia.
  - injection E as <-. apply W; auto.
  - injection E as <-. apply W; auto.
  - unfold ko_setStateKinematics in E. apply obind_Ok_inv in E. destruct E as (x & E1 & E). apply obind_Ok_inv in E. destruct E as (x' & E2 & E). injection E as <-. apply Q; auto.
  - unfold ko_setGyroBias in E. apply obind_Ok_inv in E. destruct E as (g & _ & E). apply obind_Ok_inv in E. destruct E as (x & E1 & E). injection E as <-. apply Q; auto.
  - unfold ko_setStateUnmodeledWrench in E. apply obind_Ok_inv in E. destruct E as (g & _ & E). apply obind_Ok_inv in E. destruct E as (x & E1 & E). injection E as <-. apply Q; auto.
  - injection E as <-. apply Q; auto.
  - injection E as <-. apply Q; auto.
  - injection E as <-. apply Q; auto.
  - injection E as <-. apply Q; auto.
  - unfold ko_update in E. destruct (Z.eqb_spec (o_kest s) (o_kdata s)) as [He|Hne].
    + injection E as <-. split; [constructor; auto; rewrite He, Z.eqb_refl in *; exact L3|]. split; [contradiction|discriminate].
    + exfalso. apply obind_Ok_inv in E. destruct E as (s1 & E1 & E). pose proof (prepare_room _ _ _ _ Hi Hne E1) as PR. rewrite <- (L1 Hne) in PR.
      apply Z.eqb_neq in Hne. rewrite ?Hne in L3. lia.
Qed.
(** From a lagging state, no history in which data are reported ends with an update. *)
Lemma lag_run maxC maxI h : forall s s', forallb keeps h = true -> Forall (wf_op (nx maxC maxI)) h -> inv maxC maxI s -> lag s -> run Debug h s = Ok s' ->
  lag s' /\ inv maxC maxI s' /\ (existsb reports h = true \/ o_kest s <> o_kdata s -> o_kest s' <> o_kdata s').
Proof.
  unfold ko_run. induction h as [|o h IH]; intros s s' Hf Hw Hi Hs E; cbn [orun forallb existsb] in *; [injection E as <-; split; [auto|split; [auto|intros [?|?]; [discriminate|auto]]]|].
  apply andb_prop in Hf. destruct Hf as [H1 H2]. inversion Hw; subst. apply obind_Ok_inv in E. destruct E as (s1 & E1 & E).
  destruct (lag_step _ _ _ _ _ H1 Hi Hs E1) as (A & B & D).
  assert (Hi1 : inv maxC maxI s1) by (eapply step_inv; eauto; destruct o; try reflexivity; discriminate).
  destruct (IH _ _ H2 H4 Hi1 A E) as (F & G & H). split; [exact F|]. split; [exact G|]. intros [X|X].
  - apply orb_prop in X. destruct X as [X|X]; [apply H; right; auto|apply H; auto].
  - apply H. right. apply B. exact X.
Qed.
End P.
