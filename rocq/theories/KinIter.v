(** Updates of the kinetics observer. *)
From Coq Require Import ZArith List Lia Bool.
From Verif Require Import Base KinObs SpecKin KinProofs KinInv KinMeas KinHist.
Import ListNotations.
Open Scope Z_scope.

Set Default Proof Using "Type".
Section P.
Context {S : Type} (s0 : S) {Kn : Type} (kfirst : mode -> Kn -> outcome Kn) (kupd : mode -> Z -> Kn -> Kn -> outcome Kn).
Context {M : Type} (mzero : M -> bool) {C : Type}.
Notation obs := (obs S Kn M C).
Notation op := (ko_op S Kn M C).
Notation contact := (contact S Kn M C).
Notation imu := (imu S Kn C).
Notation step := (ko_step s0 kfirst kupd mzero).
Notation run := (ko_run s0 kfirst kupd mzero).
Implicit Types s : obs.

Lemma count_assignI kd (is : list imu) : forall n, count (is_cur kd) (assignI kd n is) = count (is_cur kd) is.
Proof. induction is as [|i is IH]; intros n; cbn [assignI]; [reflexivity|]. destruct (i_time i =? kd) eqn:E; rewrite !count_cons, IH; reflexivity. Qed.
Lemma combine_zseq {A B} (f : A -> bool) (h : Z -> list B) (g : Z -> bool) (l : list A) : (forall j x, nth_error l j = Some x -> f x = g (Z.of_nat j)) ->
  map (fun p => if f (snd p) then h (fst p) else []) (combine (map (fun m => 0 + Z.of_nat m) (seq 0 (length l))) l) = map (fun j => if g j then h j else []) (zseq (length l)).
Proof.
  unfold zseq. rewrite map_map. cbn [Z.add].
  assert (G : forall l k, (forall j x, nth_error l j = Some x -> f x = g (Z.of_nat (k + j))) ->
    map (fun p => if f (snd p) then h (fst p) else []) (combine (map Z.of_nat (seq k (length l))) l) = map (fun m => if g (Z.of_nat m) then h (Z.of_nat m) else []) (seq k (length l))).
  { clear l. intros l. induction l as [|x l IH]; intros k H; cbn; [reflexivity|]. f_equal.
    - rewrite (H 0%nat x eq_refl), Nat.add_0_r. reflexivity.
    - apply IH. intros j y E. rewrite (H (Datatypes.S j) y E). f_equal. f_equal. lia. }
  intros H. exact (G l 0%nat H).
Qed.
(** The measurement predicted for the state given to the filter. *)
Lemma predict_ok md maxC maxI h s s' hI hC hP : iter maxC maxI h s -> existsb reports h = true -> (forall j, In j (ko_getListOfContacts s) -> existsb (updates_contact j) h = true) ->
  (forall i, length (hI i) = 6%nat) -> (forall j, length (hC j) = 6%nat) -> length hP = 7%nat -> ko_prepare Debug s = Ok s' ->
  ko_measureDynamics md hI hC hP s' = Ok (map Some (meas_of maxI maxC (fun i => option_map (fun _ => hI i) (imu_signal h i)) (fun j => option_map (fun _ => hC j) (contact_signal h j)) (option_map (fun _ => hP) (pose_signal h)))).
Proof.
  intros Ht Hx Hall LI LC LP E. destruct (iter_ready _ _ _ _ Ht Hx Hall) as [Hr _]. destruct (ready_sig _ _ _ Hr) as [HI HC].
  destruct (prepare_ok Debug _ _ _ Hr) as (p & r & E' & P1 & P2 & P3 & _). rewrite E' in E. injection E as <-.
  destruct Ht as [Hi T1 T2 T3 T4 T5 T6 T7]. specialize (T2 Hx).
  unfold ko_measureDynamics, ko_getMeasurementSize. cbn [set_meas set_nreal set_iter set_pose set_imus set_contacts o_kest o_kdata o_imus o_contacts o_pose o_nreal].
  apply Z.eqb_neq in T2. rewrite T2. change sizeIMUSignal with 6. change sizeWrench with 6. change sizePose with 7. rewrite P1.
  assert (HN : Z.of_nat (length (filter (fun i : imu => i_time i =? o_kdata s) (assignI (o_kdata s) 0 (o_imus s)))) = count (is_cur (o_kdata s)) (o_imus s)) by exact (count_assignI (o_kdata s) (o_imus s) 0).
  rewrite HN, (T7 Hx).
  set (a := count (is_cur (o_kdata s)) (o_imus s)). set (b := count c_real (o_contacts s)).
  pose proof (count_nonneg (is_cur (o_kdata s)) (o_imus s)) as Ha. fold a in Ha. pose proof (count_nonneg c_real (o_contacts s)) as Hb. fold b in Hb.
  set (k := Z.to_nat (6 * a + b * 6 + (if p_time (o_pose s) =? o_kdata s then 7 else 0))).
  assert (Hk : Z.of_nat k = 6 * a + 6 * b + (if p_time (o_pose s) =? o_kdata s then 7 else 0)) by (unfold k; destruct (p_time (o_pose s) =? o_kdata s); lia).
  pose proof (predict_imus_ok md (o_kdata s) hI (o_imus s) LI [] k 0) as W. cbn [app length] in W. change (Z.of_nat 0) with 0 in W. fold a in W.
  rewrite W by (destruct (p_time (o_pose s) =? o_kdata s); lia). cbn [obind]. clear W.
  rewrite (combine_zseq (is_cur (o_kdata s)) hI (fun j => match imu_signal h j with Some _ => true | None => false end)).
  2:{ intros j i Ej. rewrite <- (T3 Hx _ _ Ej). unfold is_cur. destruct (i_time i =? o_kdata s); reflexivity. }
  rewrite (v_lI _ _ _ Hi).
  set (y1 := concat (map (fun j => if match imu_signal h j with Some _ => true | None => false end then hI j else []) (zseq maxI))).
  assert (Ly1 : Z.of_nat (length y1) = 6 * a).
  { unfold y1, a. rewrite <- (v_lI _ _ _ Hi). clear - T3 Hx LI.
    assert (G : forall (l : list imu) k, (forall j i, nth_error l j = Some i -> (if i_time i =? o_kdata s then Some (i_sig i) else None) = imu_signal h (Z.of_nat (k + j))) ->
      Z.of_nat (length (concat (map (fun j => if match imu_signal h j with Some _ => true | None => false end then hI j else []) (map Z.of_nat (seq k (length l)))))) = 6 * count (is_cur (o_kdata s)) l).
    { intros l. induction l as [|i l IH]; intros k H; cbn [map concat length seq]; [reflexivity|]. rewrite app_length, Nat2Z.inj_add, IH, count_cons.
      - pose proof (H 0%nat i eq_refl) as E. rewrite Nat.add_0_r in E. rewrite <- E. unfold is_cur at 2. destruct (i_time i =? o_kdata s); [rewrite LI|cbn [length]]; lia.
      - intros j i' Ej. rewrite (H (Datatypes.S j) i' Ej). f_equal. f_equal. lia. }
    apply (G _ 0%nat). exact (T3 Hx). }
  set (k1 := Z.to_nat (Z.of_nat k - 6 * a)). assert (Hk1 : Z.of_nat k1 = Z.of_nat k - 6 * a) by (unfold k1; destruct (p_time (o_pose s) =? o_kdata s); lia).
  replace (6 * a) with (Z.of_nat (length (map (@Some S) y1))) at 1 by (rewrite map_length; lia).
  rewrite predict_contacts_ok; [|exact LC| |fold b; destruct (p_time (o_pose s) =? o_kdata s); lia].
  2:{ apply Forall_forall. intros c Hc Hreal. pose proof (r_real _ _ _ Hr) as R1. pose proof (r_set _ _ _ Hr) as R2. rewrite Forall_forall in R1, R2. split; [auto|]. apply R2; auto. }
  cbn [obind]. fold b.
  rewrite (combine_zseq c_real hC (fun j => match contact_signal h j with Some _ => true | None => false end)).
  2:{ intros j c Ej. destruct (T4 Hx _ _ Ej) as (<- & _). destruct (c_real c); reflexivity. }
  rewrite (v_lC _ _ _ Hi).
  set (y2 := concat (map (fun j => if match contact_signal h j with Some _ => true | None => false end then hC j else []) (zseq maxC))).
  assert (Ly2 : Z.of_nat (length y2) = 6 * b).
  { unfold y2, b. rewrite <- (v_lC _ _ _ Hi). clear - T4 Hx LC.
    assert (G : forall (l : list contact) k, (forall j c, nth_error l j = Some c -> (if c_real c then Some (c_wrench c) else None) = contact_signal h (Z.of_nat (k + j))) ->
      Z.of_nat (length (concat (map (fun j => if match contact_signal h j with Some _ => true | None => false end then hC j else []) (map Z.of_nat (seq k (length l)))))) = 6 * count c_real l).
    { intros l. induction l as [|i l IH]; intros k H; cbn [map concat length seq]; [reflexivity|]. rewrite app_length, Nat2Z.inj_add, IH, count_cons.
      - pose proof (H 0%nat i eq_refl) as E. rewrite Nat.add_0_r in E. rewrite <- E. destruct (c_real i); [rewrite LC|cbn [length]]; lia.
      - intros j i' Ej. rewrite (H (Datatypes.S j) i' Ej). f_equal. f_equal. lia. }
    apply (G _ 0%nat). intros j c Ej. apply (T4 Hx _ _ Ej). }
  set (k2 := Z.to_nat (Z.of_nat k1 - 6 * b)). assert (Hk2 : Z.of_nat k2 = Z.of_nat k1 - 6 * b) by (unfold k2; destruct (p_time (o_pose s) =? o_kdata s); lia).
  rewrite app_assoc, <- map_app.
  assert (F1 : concat (map (fun i => opt_list (option_map (fun _ : list S => hI i) (imu_signal h i))) (zseq maxI)) = y1) by (unfold y1; f_equal; apply map_ext; intros i; destruct (imu_signal h i); reflexivity).
  assert (F2 : concat (map (fun i => opt_list (option_map (fun _ : list S => hC i) (contact_signal h i))) (zseq maxC)) = y2) by (unfold y2; f_equal; apply map_ext; intros i; destruct (contact_signal h i); reflexivity).
  unfold meas_of. rewrite F1, F2. rewrite <- (T5 Hx).
  destruct (Z.eqb_spec (p_time (o_pose s)) (o_kdata s)) as [Ep|Ep]; cbn [option_map opt_list].
  - rewrite P3 by congruence. fold a. fold b. replace (6 * a + 6 * b) with (Z.of_nat (length (map (@Some S) (y1 ++ y2)))) by (rewrite map_length, app_length; lia).
    rewrite seg_tail by (rewrite map_length; lia). rewrite map_length. replace (k2 - length hP)%nat with 0%nat by lia. cbn [repeat]. rewrite app_nil_r, <- map_app, <- app_assoc. reflexivity.
  - replace k2 with 0%nat by lia. cbn [repeat]. rewrite !app_nil_r. reflexivity.
Qed.

(** The segment and the covariance blocks of each sensor. *)
Lemma assignI_located kd (is : list imu) : Forall (fun i => i_time i = kd -> length (i_sig i) = 6%nat) is -> forall (pre post : list (option S)) j i, nth_error (assignI kd (Z.of_nat (length pre)) is) j = Some i -> i_time i = kd ->
  seg_get (Z.to_nat (i_midx i)) 6 (pre ++ map Some (concat (map (sig_of kd) is)) ++ post) = map Some (i_sig i) /\
  In (i_midx i, fst (i_cov i)) (blocksI kd (Z.of_nat (length pre)) is) /\ In (i_midx i + 3, snd (i_cov i)) (blocksI kd (Z.of_nat (length pre)) is).
Proof.
  intros H. induction H as [|i0 is Hi H IH]; intros pre post j i E Et; cbn [assignI blocksI map concat] in *; [destruct j; discriminate|].
  unfold sig_of at 1. destruct (Z.eqb_spec (i_time i0) kd) as [E0|E0].
  - specialize (Hi E0). destruct j as [|j].
    + cbn in E. injection E as <-. cbn [i_midx i_sig i_cov]. rewrite Nat2Z.id. split; [|cbn; auto]. rewrite map_app, <- app_assoc.
      replace 6%nat with (length (map Some (i_sig i0))) by (rewrite map_length; exact Hi). apply located_mid.
    + cbn in E. replace (Z.of_nat (length pre) + 6) with (Z.of_nat (length (pre ++ map Some (i_sig i0)))) in * by (rewrite app_length, map_length; lia).
      destruct (IH _ post _ _ E Et) as (A & B & D). rewrite map_app, <- !app_assoc in *. split; [exact A|]. cbn [In]. auto.
  - destruct j as [|j].
    + cbn in E. injection E as <-. contradiction.
    + cbn in E. destruct (IH _ post _ _ E Et) as (A & B & D). cbn [app]. auto.
Qed.
Lemma assignC_located (cs : list contact) : Forall (fun c => c_real c = true -> length (c_wrench c) = 6%nat /\ c_cov c <> None) cs -> forall (pre post : list (option S)) j c, nth_error (assignC (Z.of_nat (length pre)) cs) j = Some c -> c_real c = true ->
  seg_get (Z.to_nat (c_midx c)) 6 (pre ++ map Some (concat (map wrench_of cs)) ++ post) = map Some (c_wrench c) /\
  exists v, c_cov c = Some v /\ In (c_midx c, v) (blocksC (Z.of_nat (length pre)) cs).
Proof.
  intros H. induction H as [|c0 cs Hc H IH]; intros pre post j c E Et; cbn [assignC blocksC map concat] in *; [destruct j; discriminate|].
  unfold wrench_of at 1. destruct (c_real c0) eqn:E0.
  - destruct (Hc eq_refl) as [HL HV]. destruct (c_cov c0) as [v|] eqn:Ev; [|congruence]. destruct j as [|j].
    + cbn in E. injection E as <-. cbn [c_midx c_wrench c_cov]. rewrite Nat2Z.id. split; [|exists v; cbn; auto]. rewrite map_app, <- app_assoc.
      replace 6%nat with (length (map Some (c_wrench c0))) by (rewrite map_length; exact HL). apply located_mid.
    + cbn in E. replace (Z.of_nat (length pre) + 6) with (Z.of_nat (length (pre ++ map Some (c_wrench c0)))) in * by (rewrite app_length, map_length; lia).
      destruct (IH _ post _ _ E Et) as (A & v' & B & D). rewrite map_app, <- !app_assoc in *. split; [exact A|]. exists v'. cbn [app In]. auto.
  - destruct j as [|j].
    + cbn in E. injection E as <-. congruence.
    + cbn in E. destruct (IH _ post _ _ E Et) as (A & B). cbn [app]. auto.
Qed.

(** ** The flag of a contact with a sensor *)
Definition keeps_sensor (n : Z) (o : op) : bool := match o with KClear | KResetInputs => false | KNoSensor _ m => negb (m =? n) | _ => true end.
Definition flagged (n : Z) s : Prop := exists c, nth_error (o_contacts s) (Z.to_nat n) = Some c /\ c_real c = true.
Lemma flag_start n s : flagged n s -> flagged n (ko_start s).
Proof. unfold flagged, ko_start. destruct (_ =? _); auto. Qed.
Lemma flag_set n s s' m c c' : nth_error (o_contacts s) (Z.to_nat m) = Some c -> o_contacts s' = vec_set m c' (o_contacts s) -> flagged n s ->
  (Z.to_nat m = Z.to_nat n -> c_real c = true -> c_real c' = true) -> flagged n s'.
Proof.
  intros Hc E (c0 & H0 & Hr) H. unfold flagged. rewrite E, vec_set_nth. destruct (Nat.eqb_spec (Z.to_nat n) (Z.to_nat m)) as [En|En]; [|eauto].
  rewrite H0. exists c'. split; [reflexivity|]. apply H; [auto|]. rewrite <- En in Hc. congruence.
Qed.
Lemma flag_step n o s s' : 0 <= n -> keeps_sensor n o = true -> sane s -> flagged n s -> step Debug o s = Ok s' -> flagged n s'.
Proof.
  intros Hn0 Ho [N1 N2] Hf E. pose proof (flag_start _ _ Hf) as Hs.
  destruct o as [pv num st|m| |sig cov k num|w cov k m|k m|sig cov| |kv rf|b i|w|v|b|b|b| |e]; cbn [ko_step] in E; try discriminate.
  - apply obind_Ok_inv in E. destruct E as ([m s1] & E & Es). injection Es as <-. apply add_inv in E.
    destruct E as (n0 & c & x & _ & _ & _ & Hn & Hc & _ & Ex & ->). eapply flag_set; [exact Hc|reflexivity|exact Hf|].
    unfold added. destruct st as [[[? ?] ?] ?]. destruct (o_dstiff s) as [[[? ?] ?] ?]. cbn. auto.
  - apply remove_inv in E. destruct E as (c & Hn & Hc & Hu & ->). eapply flag_set; [exact Hc|reflexivity|exact Hf|]. intros _ Hr.
    pose proof (Forall_nth _ _ _ _ N2 Hc (Hu eq_refl)). cbv beta in *. congruence.
  - apply obind_Ok_inv in E. destruct E as ([m s1] & E & Es). injection Es as <-. apply setIMU_inv in E. destruct E as (i & k' & _ & _ & _ & _ & _ & ->). exact Hs.
  - apply wrench_inv in E. destruct E as (c & k' & Hn & Hc & Hu & _ & ->). eapply flag_set; [exact Hc|reflexivity|exact Hs|]. auto.
  - apply nosensor_inv in E. destruct E as (c & k' & Hn & Hc & Hu & _ & ->). eapply flag_set; [exact Hc|reflexivity|exact Hs|]. intros En. cbn in Ho. destruct (Z.eqb_spec m n); [discriminate|lia].
  - injection E as <-. exact Hs.
  - injection E as <-. exact Hs.
  - unfold ko_setStateKinematics in E. apply obind_Ok_inv in E. destruct E as (x & E1 & E). apply obind_Ok_inv in E. destruct E as (x' & E2 & E). injection E as <-. exact Hf.
  - unfold ko_setGyroBias in E. apply obind_Ok_inv in E. destruct E as (g & _ & E). apply obind_Ok_inv in E. destruct E as (x & E1 & E). injection E as <-. exact Hf.
  - unfold ko_setStateUnmodeledWrench in E. apply obind_Ok_inv in E. destruct E as (g & _ & E). apply obind_Ok_inv in E. destruct E as (x & E1 & E). injection E as <-. exact Hf.
  - injection E as <-. exact Hf.
  - injection E as <-. exact Hf.
  - injection E as <-. exact Hf.
  - injection E as <-. exact Hf.
  - unfold ko_update in E. destruct (_ =? _); [injection E as <-; exact Hf|]. apply obind_Ok_inv in E. destruct E as (s1 & E1 & E). injection E as <-.
    apply prepare_inv in E1. destruct E1 as (cs1 & is' & y1 & r1 & n1 & cs' & y2 & r2 & n2 & p' & y & r & E1 & _ & _ & E3 & _ & E).
    destruct (drop_lost_inv _ _ _ _ _ _ E1) as (_ & _ & HD). destruct (HD eq_refl) as [-> _]. apply write_contacts_inv in E3. destruct E3 as (_ & _ & F & _).
    destruct Hf as (c & Hc & Hr). unfold flagged. cbn. rewrite E. cbn. clear - F Hc Hr. revert Hc. generalize (Z.to_nat n). induction F as [|a b l l' A F IH]; intros [|m] Hc; cbn in *; try discriminate; [|auto].
    injection Hc as ->. exists b. split; [reflexivity|]. rewrite A. exact Hr.
Qed.
Lemma run_app md h1 h2 s s' : run md (h1 ++ h2) s = Ok s' -> exists s1, run md h1 s = Ok s1 /\ run md h2 s1 = Ok s'.
Proof. unfold ko_run. rewrite orun_app. intros E. apply obind_Ok_inv in E. exact E. Qed.
Lemma run_cons md o h s s' : run md (o :: h) s = Ok s' -> exists s1, step md o s = Ok s1 /\ run md h s1 = Ok s'.
Proof. unfold ko_run. cbn [orun]. intros E. apply obind_Ok_inv in E. exact E. Qed.
Lemma flag_run n h : 0 <= n -> forall maxC maxI s s', forallb (keeps_sensor n) h = true -> Forall (wf_op (nx maxC maxI)) h -> inv maxC maxI s -> sane s -> flagged n s -> run Debug h s = Ok s' -> flagged n s' /\ sane s' /\ inv maxC maxI s'.
Proof.
  intros Hn maxC maxI. induction h as [|o h IH]; intros s s' Hk Hw Hi Hs Hf E; [injection E as <-; auto|].
  apply run_cons in E. destruct E as (s1 & E1 & E). cbn [forallb] in Hk. apply andb_prop in Hk. destruct Hk as [H1 H2]. inversion Hw; subst.
  assert (Hko : keeps o = true) by (destruct o; try reflexivity; discriminate).
  eapply IH; [exact H2|assumption| | | |exact E].
  - eapply step_inv; eauto. destruct o; try reflexivity; discriminate.
  - eapply sane_step; eauto.
  - eapply flag_step; eauto.
Qed.
Lemma init_sane (k0 : Kn) md maxC maxI ds di dw dp s : ko_init s0 k0 md maxC maxI ds di dw dp = Ok s -> sane s.
Proof.
  unfold ko_init. intros E. apply obind_Ok_inv in E. destruct E as (u & _ & E). injection E as <-. constructor; cbn; [lia|]. apply Forall_repeat. reflexivity.
Qed.
Lemma two_iterations (k0 : Kn) maxC maxI ds di dw dp s h1 h2 h3 w cov k n e e' s' : ko_init s0 k0 Debug maxC maxI ds di dw dp = Ok s ->
  forallb keeps h1 = true -> forallb (keeps_sensor n) h2 = true -> forallb keeps h3 = true -> existsb reports h3 = true ->
  Forall (wf_op (nx maxC maxI)) (h1 ++ KWrench w cov k n :: h2 ++ KUpdate e :: h3 ++ [KUpdate e']) ->
  run Debug (h1 ++ KWrench w cov k n :: h2 ++ KUpdate e :: h3 ++ [KUpdate e']) s <> Ok s'.
Proof.
  intros E0 K1 K2 K3 R3 Hw E. pose proof (init_inv _ _ _ _ _ _ _ _ _ _ E0) as Hi. pose proof (init_sane _ _ _ _ _ _ _ _ _ E0) as Hs.
  apply Forall_app in Hw. destruct Hw as [W1 Hw]. inversion Hw as [|? ? Ww Hw']; subst. apply Forall_app in Hw'. destruct Hw' as [W2 Hw']. inversion Hw' as [|? ? We Hw'']; subst. apply Forall_app in Hw''. destruct Hw'' as [W3 _].
  apply run_app in E. destruct E as (s1 & E1 & E). destruct (sane_run _ _ _ _ _ _ _ _ _ K1 W1 Hi Hs E1) as [S1 I1].
  apply run_cons in E. destruct E as (s2 & E2 & E).
  assert (I2 : inv maxC maxI s2) by exact (step_inv _ _ _ _ _ _ _ (KWrench w cov k n) _ _ eq_refl Ww I1 E2). assert (S2 : sane s2) by exact (sane_step _ _ _ _ _ _ (KWrench w cov k n) _ _ eq_refl I1 S1 E2).
  assert (F2 : flagged n s2 /\ 0 <= n).
  { cbn [ko_step] in E2. apply wrench_inv in E2. destruct E2 as (c & k' & Hn & Hc & _ & _ & ->). split; [|exact Hn]. unfold flagged. cbn. rewrite vec_set_nth, Nat.eqb_refl, Hc. eexists. split; reflexivity. }
  destruct F2 as [F2 Hn]. apply run_app in E. destruct E as (s3 & E3 & E). destruct (flag_run _ _ Hn _ _ _ _ K2 W2 I2 S2 F2 E3) as (F3 & S3 & I3).
  apply run_cons in E. destruct E as (s4 & E4 & E).
  assert (I4 : inv maxC maxI s4) by exact (step_inv _ _ _ _ _ _ _ (KUpdate e) _ _ eq_refl We I3 E4). assert (S4 : sane s4) by exact (sane_step _ _ _ _ _ _ (KUpdate e) _ _ eq_refl I3 S3 E4).
  assert (F4 : flagged n s4) by exact (flag_step n (KUpdate e) _ _ Hn eq_refl S3 F3 E4).
  assert (B4 : o_kest s4 = o_kdata s4).
  { cbn [ko_step] in E4. unfold ko_update in E4. destruct (Z.eqb_spec (o_kest s3) (o_kdata s3)); [injection E4 as <-; assumption|]. apply obind_Ok_inv in E4. destruct E4 as (s5 & E5 & E4). injection E4 as <-.
    apply prepare_shape in E5. destruct E5 as ((y & r & p & E5 & _) & _). assert (K : o_kest s5 = o_kest s3 /\ o_kdata s5 = o_kdata s3) by (rewrite E5; cbn; auto). destruct K as [Ka Kb].
    cbn. rewrite Ka, Kb. pose proof (v_k _ _ _ I3). lia. }
  assert (L4 : lag s4).
  { destruct S4 as [A B]. constructor; auto. rewrite B4, Z.eqb_refl. destruct F4 as (c & Hc & Hr). eapply count_pos; eauto. }
  apply run_app in E. destruct E as (s5 & E5 & E). destruct (lag_run _ _ _ _ _ _ _ _ _ K3 W3 I4 L4 E5) as (L5 & I5 & B5). specialize (B5 (or_introl R3)).
  apply run_cons in E. destruct E as (s6 & E6 & E). destruct (lag_step _ _ _ _ _ _ (KUpdate e') _ _ eq_refl I5 L5 E6) as (_ & X & _). destruct (X B5) as [_ []].
Qed.

(** ** The pose given to addContact *)
(** A state without the current estimate and without the poses given to addContact. *)
Definition eraseC (c : contact) : contact := mkContact (c_set c) (c_real c) (c_time c) (c_sidx c) (c_tidx c) (c_midx c) (c_wrench c) (c_cov c) (c_kine c) [] (c_stiff c).
Definition erase s : obs := set_state [] (o_ekf s) (set_contacts (map eraseC (o_contacts s)) s).
Lemma vec_at_map {A B} (f : A -> B) n l : vec_at n (map f l) = omap f (vec_at n l).
Proof. unfold vec_at. destruct (n <? 0); [reflexivity|]. rewrite nth_error_map. destruct (nth_error l (Z.to_nat n)); reflexivity. Qed.
Lemma vec_set_map {A B} (f : A -> B) n x l : vec_set n (f x) (map f l) = map f (vec_set n x l).
Proof. unfold vec_set. generalize (Z.to_nat n). induction l as [|y l IH]; intros [|m]; cbn; congruence. Qed.
Lemma erase_start s : ko_start (erase s) = erase (ko_start s).
Proof. unfold ko_start, erase. cbn. destruct (_ =? _); reflexivity. Qed.
Definition sensor (o : op) : bool := reports o || match o with KFlagGyro _ | KFlagUnm _ | KFlagAcc _ => true | _ => false end.
Lemma obind_omap {A A' B} (f : A -> A') (a : outcome A) (g : A' -> outcome B) : obind (omap f a) g = obind a (fun x => g (f x)).
Proof. destruct a; reflexivity. Qed.
Lemma omap_obind {A B B'} (f : B -> B') (a : outcome A) (g : A -> outcome B) : omap f (obind a g) = obind a (fun x => omap f (g x)).
Proof. destruct a; reflexivity. Qed.
Lemma obind_ext {A B} (a : outcome A) (f g : A -> outcome B) : (forall x, f x = g x) -> obind a f = obind a g.
Proof. intros H. destruct a; cbn; auto. Qed.
Lemma erase_step md o s : sensor o = true -> step md o (erase s) = omap erase (step md o s).
Proof.
  intros Ho. destruct o as [pv num st|m| |sig cov k num|w cov k m|k m|sig cov| |kv rf|b i|w|v|b|b|b| |e]; try discriminate; cbn [ko_step].
  - unfold ko_setIMU. rewrite erase_start. cbv zeta. cbn [erase set_state set_contacts o_kest o_kdata o_imus o_maxI o_nreal o_nimu o_dimu].
    destruct (if num <? 0 then _ else _) as [n| | |]; cbn [obind]; try reflexivity. destruct (boost_assert md (n <? o_maxI (ko_start s))); cbn [obind]; try reflexivity.
    destruct (vec_at n (o_imus (ko_start s))) as [i| | |]; cbn [obind]; try reflexivity. destruct (boost_assert md (i_time i <? _)); cbn [obind]; try reflexivity.
    destruct (if i_time i =? 0 then _ else _); reflexivity.
  - unfold ko_updateWrench. rewrite erase_start. cbv zeta. cbn [erase set_state set_contacts o_kest o_kdata o_maxC o_contacts].
    destruct (boost_assert md _); cbn [obind]; try reflexivity. rewrite vec_at_map. destruct (vec_at m _) as [c| | |]; cbn [obind omap]; try reflexivity.
    cbn [eraseC c_set c_real c_time c_kine c_cov c_sidx c_tidx c_midx c_pose c_stiff]. destruct (boost_assert md (c_set c)); cbn [obind]; try reflexivity.
    change (ko_contactKine kupd md k (eraseC c) _) with (ko_contactKine kupd md k c (ko_start s)). destruct (ko_contactKine kupd md k c (ko_start s)); cbn [obind omap]; try reflexivity.
    f_equal. unfold erase. cbn. rewrite <- vec_set_map. reflexivity.
  - unfold ko_updateNoSensor. rewrite erase_start. cbv zeta. cbn [erase set_state set_contacts o_kest o_kdata o_maxC o_contacts].
    destruct (boost_assert md _); cbn [obind]; try reflexivity. rewrite vec_at_map. destruct (vec_at m _) as [c| | |]; cbn [obind omap]; try reflexivity.
    cbn [eraseC c_set c_real c_time c_kine c_cov c_sidx c_tidx c_midx c_pose c_stiff]. destruct (boost_assert md (c_set c)); cbn [obind]; try reflexivity.
    change (ko_contactKine kupd md k (eraseC c) _) with (ko_contactKine kupd md k c (ko_start s)). destruct (ko_contactKine kupd md k c (ko_start s)); cbn [obind omap]; try reflexivity.
    f_equal. unfold erase. cbn. rewrite <- vec_set_map. reflexivity.
  - unfold ko_setPose. rewrite erase_start. reflexivity.
  - unfold ko_input. rewrite erase_start. reflexivity.
  - reflexivity.
  - reflexivity.
  - reflexivity.
Qed.
Lemma erase_run md h : forallb sensor h = true -> forall s, run md h (erase s) = omap erase (run md h s).
Proof.
  unfold ko_run. induction h as [|o h IH]; intros Hs s; cbn [orun forallb] in *; [reflexivity|]. apply andb_prop in Hs. destruct Hs as [H1 H2].
  rewrite erase_step by exact H1. rewrite obind_omap, omap_obind. apply obind_ext. intros x. apply IH, H2.
Qed.
Lemma erase_drop md kd (cs : list contact) : forall nr, drop_lost md kd (map eraseC cs) nr = omap (fun p => (map eraseC (fst p), snd p)) (drop_lost md kd cs nr).
Proof.
  induction cs as [|c cs IH]; intros nr; cbn [drop_lost map]; [reflexivity|]. cbn [eraseC c_set c_time c_real].
  destruct (c_set c) eqn:Es.
  - destruct (boost_assert md (c_time c =? kd)); cbn [obind omap]; try reflexivity. destruct (c_time c =? kd); cbn [obind]; rewrite IH, obind_omap, omap_obind; apply obind_ext; intros [? ?]; reflexivity.
  - cbn [obind]. rewrite IH, obind_omap, omap_obind. apply obind_ext. intros [? ?]. reflexivity.
Qed.
Lemma erase_write md (cs : list contact) : forall y r n, write_contacts md (map eraseC cs) y r n = omap (fun '(cs, y, r, n) => (map eraseC cs, y, r, n)) (write_contacts md cs y r n).
Proof.
  induction cs as [|c cs IH]; intros y r n; cbn [write_contacts map]; [reflexivity|]. cbn [eraseC c_real c_wrench c_cov].
  destruct (c_real c).
  - destruct (seg_set md n _ y); cbn [obind omap]; try reflexivity. destruct (match c_cov c with Some _ => _ | None => _ end); cbn [obind omap]; try reflexivity.
    rewrite IH, obind_omap, omap_obind. apply obind_ext. intros [[[? ?] ?] ?]. reflexivity.
  - rewrite IH, obind_omap, omap_obind. apply obind_ext. intros [[[? ?] ?] ?]. reflexivity.
Qed.
Lemma erase_prepare md s : ko_prepare md (erase s) = omap erase (ko_prepare md s).
Proof.
  unfold ko_prepare. cbn [erase set_state set_contacts o_kdata o_contacts o_nreal o_pose o_nimu o_imus]. rewrite erase_drop, obind_omap, omap_obind.
  apply obind_ext. intros [cs nr]. cbn [fst snd]. cbv zeta. destruct (_ <? 0); [reflexivity|].
  destruct (write_imus md _ _ _ _ _) as [[[[is y] r] n]| | |]; cbn [obind omap]; try reflexivity.
  rewrite erase_write, obind_omap, omap_obind. apply obind_ext. intros [[[cs' y'] r'] n']. rewrite omap_obind. apply obind_ext. intros [[? ?] ?]. reflexivity.
Qed.
Lemma erase_update md e s : o_kest s <> o_kdata s -> omap o_state (ko_update md e s) = omap o_state (ko_update md e (erase s)).
Proof.
  intros H. unfold ko_update. cbn [erase set_state set_contacts o_kest o_kdata]. apply Z.eqb_neq in H. rewrite H. rewrite erase_prepare, obind_omap, !omap_obind. reflexivity.
Qed.
Lemma erase_add md pv pv' num st s : length pv = length pv' -> omap erase (step md (KAdd pv num st) s) = omap erase (step md (KAdd pv' num st) s).
Proof.
  intros HL. cbn [ko_step]. unfold ko_addContact. destruct (if num <? 0 then _ else _) as [n| | |]; cbn [obind]; try reflexivity.
  destruct (boost_assert md (n <? _)); cbn [obind]; try reflexivity. cbv zeta. destruct (vec_at _ _) as [c| | |]; cbn [obind]; try reflexivity.
  destruct (boost_assert md (negb (c_set c))); cbn [obind]; try reflexivity. destruct (contactsIndex md (o_maxI s)); cbn [obind]; try reflexivity.
  destruct (contactsIndexTangent md (o_maxI s)); cbn [obind]; try reflexivity. destruct st as [[[? ?] ?] ?]. destruct (o_dstiff s) as [[[? ?] ?] ?].
  unfold seg_set. rewrite !app_length, HL. destruct (_ && _); cbn [obind]; [|destruct md; reflexivity]. cbn [obind omap]. f_equal. unfold erase. cbn. rewrite <- !vec_set_map. reflexivity.
Qed.
Lemma sensor_iter md maxC maxI h : forallb sensor h = true -> forall s s', inv maxC maxI s -> Forall (wf_op (nx maxC maxI)) h -> run md h s = Ok s' -> existsb reports h = true \/ o_kest s <> o_kdata s -> o_kest s' <> o_kdata s'.
Proof.
  induction h as [|o h IH]; intros Hs s s' Hi Hw E Hor; [injection E as <-; destruct Hor; [discriminate|auto]|].
  apply run_cons in E. destruct E as (s1 & E1 & E). cbn [forallb existsb] in *. apply andb_prop in Hs. destruct Hs as [H1 H2]. inversion Hw; subst.
  assert (Hi1 : inv maxC maxI s1) by (eapply step_inv; eauto; destruct o; try reflexivity; discriminate).
  apply (IH H2 _ _ Hi1 H4 E). destruct (reports o) eqn:Er.
  - right. pose proof (start_diff _ _ _ Hi) as SD. destruct o; try discriminate; cbn [ko_step] in E1.
    + apply obind_Ok_inv in E1. destruct E1 as ([n s2] & E1 & Es). injection Es as <-. apply setIMU_inv in E1. destruct E1 as (i & k' & _ & _ & _ & _ & _ & ->). exact SD.
    + apply wrench_inv in E1. destruct E1 as (c & k' & _ & _ & _ & _ & ->). exact SD.
    + apply nosensor_inv in E1. destruct E1 as (c & k' & _ & _ & _ & _ & ->). exact SD.
    + injection E1 as <-. exact SD.
    + injection E1 as <-. exact SD.
  - destruct Hor as [Hor|Hor]; [left; exact Hor|right]. unfold sensor in H1. rewrite Er in H1. destruct o; try discriminate; injection E1 as <-; exact Hor.
Qed.
Lemma pose_unused md maxC maxI s pv pv' num st h e : inv maxC maxI s -> length pv = 7%nat -> length pv' = 7%nat -> forallb sensor h = true -> existsb reports h = true -> Forall (wf_op (nx maxC maxI)) h ->
  omap o_state (run md (KAdd pv num st :: h ++ [KUpdate e]) s) = omap o_state (run md (KAdd pv' num st :: h ++ [KUpdate e]) s).
Proof.
  intros Hi L1 L2 Hs Hr Hw. assert (HL : length pv = length pv') by congruence. pose proof (erase_add md pv pv' num st s HL) as EA.
  assert (G : forall q, length q = 7%nat -> omap o_state (run md (KAdd q num st :: h ++ [KUpdate e]) s) = obind (omap erase (step md (KAdd q num st) s)) (fun x => obind (run md h x) (fun y => omap o_state (ko_update md e y)))).
  { intros q Lq. unfold ko_run. cbn [orun]. rewrite obind_omap, omap_obind. destruct (step md (KAdd q num st) s) as [s1| | |] eqn:E1; cbn [obind]; try reflexivity.
    rewrite orun_app, omap_obind. fold (run md h s1). fold (run md h (erase s1)). rewrite erase_run, obind_omap by exact Hs.
    assert (Hi1 : inv maxC maxI s1) by (eapply (step_inv _ _ _ _ md maxC maxI (KAdd q num st)); eauto).
    destruct (run md h s1) as [s2| | |] eqn:E2; cbn [obind]; try reflexivity. cbn [orun ko_step].
    pose proof (sensor_iter md maxC maxI h Hs _ _ Hi1 Hw E2 (or_introl Hr)) as HD. rewrite <- erase_update by exact HD. destruct (ko_update md e s2); reflexivity. }
  rewrite !G, EA by assumption. reflexivity.
Qed.
(** ** Setting parts of the state *)
Lemma seg_set_spec {A} md i (w v v' : list A) : seg_set md i w v = Ok v' ->
  0 <= i /\ seg_get (Z.to_nat i) (length w) v' = w /\ forall j, ~ (Z.to_nat i <= j < Z.to_nat i + length w)%nat -> nth_error v' j = nth_error v j.
Proof.
  unfold seg_set. destruct (Z.leb_spec 0 i); [|destruct md; discriminate]. destruct (Z.leb_spec (i + Z.of_nat (length w)) (Z.of_nat (length v))); [|destruct md; discriminate].
  cbn [andb]. intros E. apply Ok_inj in E. subst v'. split; [assumption|]. assert (LF : length (firstn (Z.to_nat i) v) = Z.to_nat i) by (rewrite firstn_length; lia). split.
  - rewrite <- LF at 1. apply located_mid.
  - intros j Hj. destruct (Nat.lt_ge_cases j (Z.to_nat i)).
    + rewrite nth_error_app1 by lia. rewrite <- (firstn_skipn (Z.to_nat i) v) at 2. rewrite nth_error_app1 by lia. reflexivity.
    + rewrite nth_error_app2 by lia. rewrite nth_error_app2 by lia. rewrite LF.
      rewrite <- (firstn_skipn (Z.to_nat i + length w) v) at 2. rewrite nth_error_app2 by (rewrite firstn_length; lia). rewrite firstn_length. f_equal. lia.
Qed.
End P.
