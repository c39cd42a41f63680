(** Proofs about KinQuery.v. *)
From Coq Require Import Reals ZArith List Bool Lia.
From Verif Require Import Base Vec3 Rot Orient SpecOrient OrientProofs Kine KinObs KinSum SegProofs KinDyn KinQuery SpecKin KinProofs KinInv KinThms KinMeas KinHist KinIter.
Import ListNotations.
Open Scope Z_scope.

Section Get.
Context {S : Type} (s0 : S) {Kn : Type} (kfirst : mode -> Kn -> outcome Kn) (kupd : mode -> Z -> Kn -> Kn -> outcome Kn).
Context {M : Type} (mzero : M -> bool) {C : Type}.
Notation obs := (obs S Kn M C).
Notation contact := (contact S Kn M C).
Notation imu := (imu S Kn C).
Notation N maxC maxI := (Z.to_nat (stateSize (Z.of_nat maxC) (Z.of_nat maxI))).
Implicit Types s : obs.

Ltac inv1 := match goal with
  | E : obind _ _ = Ok _ |- _ => let a := fresh "a" in let E1 := fresh "E" in apply obind_Ok_inv in E; destruct E as (a & E1 & E)
  | E : Ok _ = Ok _ |- _ => apply Ok_inj in E
  | E : (_, _) = (_, _) |- _ => injection E as ? ?
  | x : _ * _ |- _ => destruct x
  end.
Lemma get_imus_write md kd (is : list imu) : forall y r cur is' y' r' cur', write_imus md kd is y r cur = Ok (is', y', r', cur') -> get_imus md kd is y cur = Ok (y', cur').
Proof.
  induction is as [|i is IH]; intros y r cur is' y' r' cur' E; cbn [write_imus get_imus] in *.
  - apply Ok_inj in E. injection E as <- <- <- <-. reflexivity.
  - destruct (i_time i =? kd).
    + apply obind_Ok_inv in E. destruct E as (y1 & E1 & E). apply obind_Ok_inv in E. destruct E as ([[[a b] c] d] & E2 & E). apply Ok_inj in E. injection E as <- <- <- <-.
      rewrite E1. cbn [obind]. apply IH in E2. change sizeIMUSignal with 6. replace (cur + 6) with (cur + 3 + 3) by lia. exact E2.
    + apply obind_Ok_inv in E. destruct E as ([[[a b] c] d] & E2 & E). apply Ok_inj in E. injection E as <- <- <- <-. eapply IH; eauto.
Qed.
Lemma get_contacts_write md kd (cs : list contact) : Forall (cfresh kd) cs ->
  forall y r cur cs' y' r' cur', write_contacts md cs y r cur = Ok (cs', y', r', cur') -> get_contacts md kd cs y cur = Ok (y', cur').
Proof.
  intros H. induction H as [|c cs Hc H IH]; intros y r cur cs' y' r' cur' E; cbn [write_contacts get_contacts] in *.
  - apply Ok_inj in E. injection E as <- <- <- <-. reflexivity.
  - destruct (c_real c) eqn:Er.
    + destruct (Hc Er) as [A B]. rewrite A, B, Z.eqb_refl. cbn [andb].
      apply obind_Ok_inv in E. destruct E as (y1 & E1 & E). apply obind_Ok_inv in E. destruct E as (v & _ & E). apply obind_Ok_inv in E. destruct E as ([[[a b] c1] d] & E2 & E). apply Ok_inj in E. injection E as <- <- <- <-.
      rewrite E1. cbn [obind]. eapply IH; eauto.
    + rewrite !andb_false_r. apply obind_Ok_inv in E. destruct E as ([[[a b] c1] d] & E2 & E). apply Ok_inj in E. injection E as <- <- <- <-. eapply IH; eauto.
Qed.
Lemma get_measurement md maxC maxI s s3 : ready maxC maxI s -> ko_prepare md s = Ok s3 -> ko_getMeasurementVector md s = Ok (o_meas s3).
Proof.
  intros Hr E. unfold ko_prepare in E. rewrite drop_lost_ok in E by apply (r_set _ _ _ Hr). cbn [obind] in E. cbv zeta in E.
  unfold ko_getMeasurementVector, ko_getMeasurementSize. pose proof (r_iter _ _ _ Hr) as X. apply Z.eqb_neq in X. rewrite X.
  replace (Z.of_nat (length (filter (fun i => i_time i =? o_kdata s) (o_imus s)))) with (o_nimu s) by (rewrite (r_nimu _ _ _ Hr); reflexivity).
  assert (F : Forall (cfresh (o_kdata s)) (o_contacts s)).
  { apply Forall_forall. intros c Hc R. pose proof (proj1 (Forall_forall _ _) (r_set _ _ _ Hr) _ Hc). pose proof (proj1 (Forall_forall _ _) (r_real _ _ _ Hr) _ Hc R). cbn in *. auto. }
  destruct (Z.ltb_spec (sizeIMUSignal * o_nimu s + sizeWrench * o_nreal s) 0) as [L|L]; [discriminate|].
  replace (o_nreal s * sizeWrench) with (sizeWrench * o_nreal s) by lia.
  set (a := sizeIMUSignal * o_nimu s + sizeWrench * o_nreal s) in *.
  destruct (Z.ltb_spec (a + (if p_time (o_pose s) =? o_kdata s then sizePose else 0)) 0) as [L'|L']; [destruct (p_time (o_pose s) =? o_kdata s); change sizePose with 7 in L'; lia|].
  replace (if p_time (o_pose s) =? o_kdata s then a + sizePose else a) with (a + (if p_time (o_pose s) =? o_kdata s then sizePose else 0)) in E by (destruct (p_time (o_pose s) =? o_kdata s); lia).
  cbv zeta.
  apply obind_Ok_inv in E. destruct E as ([[[is y] r] cur] & E1 & E). apply get_imus_write in E1. rewrite E1. cbn [obind].
  apply obind_Ok_inv in E. destruct E as ([[[cs y1] r1] cur1] & E2 & E). apply (get_contacts_write _ _ _ F) in E2. rewrite E2. cbn [obind].
  apply obind_Ok_inv in E. destruct E as ([[p y2] r2] & E3 & E). apply Ok_inj in E. subst s3. cbn [set_meas o_meas].
  destruct (p_time (o_pose s) =? o_kdata s).
  - apply obind_Ok_inv in E3. destruct E3 as (y3 & E4 & E3). apply obind_Ok_inv in E3. destruct E3 as (v & _ & E3). apply Ok_inj in E3. injection E3 as _ <- _. exact E4.
  - apply Ok_inj in E3. injection E3 as _ <- _. reflexivity.
Qed.

(** ** Reading the state *)
Lemma nx_pos maxC maxI : stateSize (Z.of_nat maxC) (Z.of_nat maxI) = 19 + 3 * Z.of_nat maxI + 13 * Z.of_nat maxC.
Proof. unfold stateSize. change sizeStateBase with 19. change sizeGyroBias with 3. change sizeContact with 13. lia. Qed.
Lemma cidx_eq maxI j : cidx maxI j = 19 + 3 * maxI + 13 * j.
Proof. unfold cidx. lia. Qed.
Lemma get_wrench_ok md maxC maxI s j : inv maxC maxI s -> In j (ko_getListOfContacts s) ->
  ko_getContactWrench md j s = Ok (seg_get (Z.to_nat (19 + 3 * Z.of_nat maxI + 13 * j + 7)) 6 (o_state s)).
Proof.
  intros Hi Hj. destruct (contact_index_ok md _ _ _ _ Hi Hj) as (B & E & _). unfold ko_getContactWrench, ko_contactForceIndex. rewrite E. cbn [obind].
  change sizeContactKine with 7. rewrite cidx_eq. apply seg_rd_ok; [lia|]. rewrite (v_x _ _ _ Hi). unfold nx. rewrite Z2Nat.id; rewrite nx_pos; change (Z.of_nat (Z.to_nat sizeWrench)) with 6; lia.
Qed.
Lemma get_unmodeled_ok md maxC maxI s : inv maxC maxI s -> (md = Debug -> (0 < maxI)%nat) ->
  ko_getUnmodeledWrench md s = Ok (seg_get (Z.to_nat (13 + 3 * Z.of_nat maxI)) 6 (o_state s)).
Proof.
  intros Hi Hm. pose proof (comp_start_ok md false _ _ _ CUForce Hi Hm I) as E. cbn [comp_start] in E.
  change (unmodeledWrenchIndex md (o_maxI s) = Ok (13 + 3 * Z.of_nat maxI)) in E. unfold ko_getUnmodeledWrench. rewrite E. cbn [obind].
  apply seg_rd_ok; [lia|]. rewrite (v_x _ _ _ Hi). unfold nx. rewrite Z2Nat.id; rewrite nx_pos; change (Z.of_nat (Z.to_nat sizeWrench)) with 6; lia.
Qed.
End Get.

(** ** What each call does to the state and to the places of the contacts *)
Section Low.
Context {S : Type} (s0 : S) {Kn : Type} (kfirst : mode -> Kn -> outcome Kn) (kupd : mode -> Z -> Kn -> Kn -> outcome Kn).
Context {M : Type} (mzero : M -> bool) {C : Type}.
Notation obs := (obs S Kn M C).
Notation contact := (contact S Kn M C).
Implicit Types s : obs.
Definition cplaced s : Prop := 0 <= o_maxI s /\ Forall (fun c => c_set c = true -> 19 <= c_sidx c) (o_contacts s).
Lemma low_seg {A} md i (w v v' : list A) n : seg_set md i w v = Ok v' -> Z.of_nat n <= i -> firstn n v' = firstn n v /\ length v' = length v.
Proof.
  intros E H. split; [|eapply seg_set_length; eauto]. apply nth_error_ext. intros k. rewrite !nth_error_firstn. destruct (Nat.ltb_spec k n); [|reflexivity].
  rewrite (seg_set_nth _ _ _ _ _ _ E). destruct (Nat.leb_spec (Z.to_nat i) k); [lia|]. reflexivity.
Qed.
Lemma low_zero md (cs : list contact) n : Z.of_nat n <= 19 -> Forall (fun c => c_set c = true -> 19 <= c_sidx c) cs ->
  forall x x', zero_wrenches s0 md cs x = Ok x' -> firstn n x' = firstn n x /\ length x' = length x.
Proof.
  intros Hn H. induction H as [|c cs Hc H IH]; intros x x' E; cbn [zero_wrenches] in E.
  - apply Ok_inj in E. subst. auto.
  - apply obind_Ok_inv in E. destruct E as (x1 & E1 & E). destruct (IH _ _ E) as [A B]. rewrite A, B. destruct (c_set c).
    + apply obind_Ok_inv in E1. destruct E1 as (u & _ & E1). specialize (Hc eq_refl). eapply low_seg; eauto. change sizeContactKine with 7. lia.
    + apply Ok_inj in E1. subst. auto.
Qed.
Lemma other_low md nx o s s' : kq_other o = true -> wf_op nx o -> cplaced s -> ko_step s0 kfirst kupd mzero md o s = Ok s' ->
  firstn 13 (o_state s') = firstn 13 (o_state s) /\ length (o_state s') = length (o_state s) /\ cplaced s'.
Proof.
  intros Ho Hw [Hm Hc] E.
  assert (St : o_maxI (ko_start s) = o_maxI s /\ o_contacts (ko_start s) = o_contacts s /\ o_state (ko_start s) = o_state s) by (unfold ko_start; destruct (_ =? _); cbn; auto).
  destruct St as (St1 & St2 & St3).
  destruct o as [pv num st|n| |sig cov k num|w cov k n|k n|sig cov| |kv rf|b i|w|v|b|b|b| |e]; cbn [ko_step wf_op kq_other] in *; try discriminate; unfold cplaced.
  - apply obind_Ok_inv in E. destruct E as ([n s1] & E & Es). injection Es as <-. apply add_inv in E.
    destruct E as (n0 & c & x & _ & _ & _ & Hn & Hcn & _ & Ex & ->). cbn.
    apply (low_seg _ _ _ _ _ 13) in Ex; [|unfold cidx; lia]. split; [apply Ex|]. split; [apply Ex|]. split; [exact Hm|].
    apply vec_set_Forall; [|exact Hc]. unfold added. destruct st as [[[? ?] ?] ?]. destruct (o_dstiff s) as [[[? ?] ?] ?]. cbn. unfold cidx. lia.
  - apply remove_inv in E. destruct E as (c & Hn & Hcn & _ & ->). cbn. repeat split; auto. apply vec_set_Forall; [|exact Hc]. cbn. discriminate.
  - injection E as <-. cbn. auto.
  - apply obind_Ok_inv in E. destruct E as ([n s1] & E & Es). injection Es as <-. apply setIMU_inv in E.
    destruct E as (i & k' & _ & Hn & Hcn & _ & _ & ->). cbn. rewrite St1, St2, St3. auto.
  - apply wrench_inv in E. destruct E as (c & k' & Hn & Hcn & _ & _ & ->). cbn. rewrite St1, St2, St3. repeat split; auto.
    apply vec_set_Forall; [|exact Hc]. cbn. rewrite St2 in Hcn. exact (Forall_nth _ _ _ _ Hc Hcn).
  - apply nosensor_inv in E. destruct E as (c & k' & Hn & Hcn & _ & _ & ->). cbn. rewrite St1, St2, St3. repeat split; auto.
    apply vec_set_Forall; [|exact Hc]. cbn. rewrite St2 in Hcn. exact (Forall_nth _ _ _ _ Hc Hcn).
  - injection E as <-. unfold ko_setPose. cbn. rewrite St1, St2, St3. auto.
  - injection E as <-. unfold ko_input. rewrite St1, St2, St3. auto.
  - unfold ko_setGyroBias in E. apply obind_Ok_inv in E. destruct E as (g & Eg & E). apply obind_Ok_inv in E. destruct E as (x & E1 & E). injection E as <-.
    apply gyro_idx_inv in Eg. subst g. cbn. apply (low_seg _ _ _ _ _ 13) in E1; [|lia]. destruct E1. auto.
  - unfold ko_setStateUnmodeledWrench in E. apply obind_Ok_inv in E. destruct E as (g & Eg & E). apply obind_Ok_inv in E. destruct E as (x & E1 & E). injection E as <-.
    unfold unmodeledWrenchIndex in Eg. apply obind_Ok_inv in Eg. destruct Eg as (g0 & Eg & E0). apply gyro_idx_inv in Eg. apply Ok_inj in E0. subst g g0. change sizeGyroBias with 3 in E1.
    cbn. apply (low_seg _ _ _ _ _ 13) in E1; [|lia]. destruct E1. auto.
  - injection E as <-. cbn. auto.
  - injection E as <-. cbn. auto.
  - injection E as <-. cbn. auto.
  - injection E as <-. cbn. repeat split; auto. apply Forall_map. eapply Forall_impl; [|exact Hc]. cbn. auto.
Qed.
Lemma update_placed md e s s' : cplaced s -> ko_update md e s = Ok s' -> cplaced s' /\ (o_state s' = o_state s \/ exists x y, length x = length (o_ekf s) /\ o_state s' = e x y /\ o_ekf s' = e x y).
Proof.
  intros [Hm Hc] E. unfold ko_update in E. destruct (o_kest s =? o_kdata s); [injection E as <-; split; [split; auto|auto]|].
  apply obind_Ok_inv in E. destruct E as (s1 & E1 & E). injection E as <-. apply prepare_shape in E1.
  destruct E1 as ((y & r & p & E1 & _) & FC & _). unfold ko_finish, cplaced. cbn.
  assert (K : o_maxI s1 = o_maxI s /\ o_ekf s1 = o_ekf s) by (rewrite E1; cbn; auto). destruct K as [-> K]. split; [split; [auto|]|right].
  - clear -FC Hc. induction FC; inversion Hc; subst; constructor; auto. rewrite H. cbn. unfold lost. destruct (c_set x && negb (c_time x =? o_kdata s)) eqn:E; cbn; [discriminate|auto].
  - exists (o_ekf s1), (o_meas s1). rewrite K. auto.
Qed.
Lemma low_setKine md kv rf s s' : length kv = 13%nat -> cplaced s -> ko_setStateKinematics s0 md kv rf s = Ok s' ->
  firstn 13 (o_state s') = kv /\ length (o_state s') = length (o_state s) /\ cplaced s'.
Proof.
  intros L [Hm Hc] E. unfold ko_setStateKinematics in E. apply obind_Ok_inv in E. destruct E as (x & E1 & E). apply obind_Ok_inv in E. destruct E as (x' & E2 & E). injection E as <-.
  cbn [set_state o_state]. assert (A : firstn 13 x = kv) by (apply seg_set_get in E1; rewrite L in E1; exact E1). apply seg_set_length in E1.
  destruct rf.
  - destruct (low_zero _ _ 13 ltac:(lia) Hc _ _ E2) as [B D]. rewrite B, D, E1. repeat split; auto.
  - apply Ok_inj in E2. subst x'. rewrite A, E1. repeat split; auto.
Qed.
End Low.

(** ** The kinematics of the state *)
Section Kin.
Context {C : Type} (kfirst : mode -> Kin -> outcome Kin) (kupd : mode -> Z -> Kin -> Kin -> outcome Kin) (mzero : M3 -> bool).
Notation obs := (obs R Kin M3 C).
Notation kq := (@kq C).
Notation step := (kq_step kfirst kupd mzero).
Notation run := (kq_run kfirst kupd mzero).

Definition agrees (k : Kin) (x : list R) : Prop :=
  exists p q v w, kp k = Some p /\ oq (ko k) = Some q /\ kv k = Some v /\ kw k = Some w /\ firstn 13 x = l3 p ++ l4 q ++ l3 v ++ l3 w.
Lemma agrees_toVec md k x : agrees k x -> k_toVec md fState k = Ok (firstn 13 x, k).
Proof.
  intros (p & q & v & w & A & B & D & E & ->). unfold k_toVec. cbn [fP fO fV fW fA fAl fState]. rewrite A, D, E. cbn [oget obind].
  unfold o_toQuat, o_check. rewrite B. cbn [isSome orb boost_assert obind]. destruct k as [? [? ?] ? ? ? ?]. cbn. reflexivity.
Qed.
Lemma toVec_agrees md k l k' : k_toVec md fState k = Ok (l, k') -> length l = 13%nat /\ agrees k' l /\ ka k' = ka k /\ kal k' = kal k.
Proof.
  unfold k_toVec. cbn [fP fO fV fW fA fAl fState]. intros E.
  apply obind_Ok_inv in E. destruct E as (a & E1 & E). apply obind_Ok_inv in E1. destruct E1 as (p & Ep & E1). apply Ok_inj in E1. subst a.
  apply obind_Ok_inv in E. destruct E as ([a o] & E1 & E). apply obind_Ok_inv in E1. destruct E1 as ([q o'] & Eq & E1). apply Ok_inj in E1. injection E1 as <- ->.
  apply obind_Ok_inv in E. destruct E as (a & E1 & E). apply obind_Ok_inv in E1. destruct E1 as (v & Ev & E1). apply Ok_inj in E1. subst a.
  apply obind_Ok_inv in E. destruct E as (a & E1 & E). apply obind_Ok_inv in E1. destruct E1 as (w & Ew & E1). apply Ok_inj in E1. subst a.
  cbn [obind] in E. apply Ok_inj in E. injection E as <- <-.
  assert (G : forall A (x : option A) a, oget md x = Ok a -> x = Some a) by (intros A [x|] a; cbn; [intros H; apply Ok_inj in H; congruence|destruct md; discriminate]).
  apply G in Ep, Ev, Ew.
  assert (Q : oq o = Some q).
  { unfold o_toQuat in Eq. apply obind_Ok_inv in Eq. destruct Eq as (u & _ & Eq). destruct (oq (ko k)) eqn:F; [apply Ok_inj in Eq; injection Eq as <- <-; exact F|].
    unfold o_m2q in Eq. apply obind_Ok_inv in Eq. destruct Eq as (m & _ & Eq). apply Ok_inj in Eq. injection Eq as <- <-. reflexivity. }
  split; [reflexivity|]. split; [|auto]. exists p, q, v, w. cbn [kp ko kv kw with_ori]. repeat split; auto.
Qed.
Lemma fromVec_agrees md l k : length l = 13%nat -> exists k', k_fromVec md l fState k = Ok k' /\ agrees k' l /\ ka k' = ka k /\ kal k' = kal k /\ om (ko k') = None.
Proof.
  intros L. do 13 (destruct l as [|? l]; [discriminate|]). destruct l; [|discriminate].
  eexists. split; [reflexivity|]. cbn. split; [|auto]. unfold agrees. cbn. do 4 eexists. repeat split; reflexivity.
Qed.
Lemma agrees_eq k x y : firstn 13 y = firstn 13 x -> agrees k x -> agrees k y.
Proof. intros E (p & q & v & w & H). exists p, q, v, w. rewrite E. exact H. Qed.
Lemma agrees_firstn k x : agrees k (firstn 13 x) -> agrees k x.
Proof. apply agrees_eq. rewrite firstn_firstn. reflexivity. Qed.
Lemma updateKine_ok md (s : obs) k : (13 <= length (o_state s))%nat -> exists k', kq_updateKine md s k = Ok k' /\ agrees k' (o_state s) /\ ka k' = ka k /\ kal k' = kal k /\ om (ko k') = None.
Proof.
  intros L. unfold kq_updateKine. rewrite seg_rd_ok; [|change kineIndex with 0; lia|change (Z.of_nat (Z.to_nat sizeStateKine)) with 13; change kineIndex with 0; lia]. cbn [obind].
  change (seg_get (Z.to_nat kineIndex) (Z.to_nat sizeStateKine) (o_state s)) with (firstn 13 (o_state s)).
  destruct (fromVec_agrees md (firstn 13 (o_state s)) k) as (k' & E & A & B); [rewrite firstn_length; lia|]. exists k'. split; [exact E|]. split; [apply agrees_firstn; exact A|exact B].
Qed.
Lemma accelerations_ori md b k F T la al o : accelerations md b k F T = Ok (la, al, o) -> forall q, oq (ko k) = Some q -> oq o = Some q.
Proof.
  assert (TM : forall o m o', o_toMat md o = Ok (m, o') -> forall q, oq o = Some q -> oq o' = Some q).
  { intros o1 m o' E q Hq. unfold o_toMat in E. apply obind_Ok_inv in E. destruct E as (u & _ & E). destruct (om o1); [apply Ok_inj in E; congruence|].
    unfold o_q2m in E. apply obind_Ok_inv in E. destruct E as (q' & _ & E). apply Ok_inj in E. injection E as _ <-. exact Hq. }
  assert (RT : forall o v m o', o_rot md o v = Ok (m, o') -> forall q, oq o = Some q -> oq o' = Some q).
  { intros o1 v m o' E q Hq. unfold o_rot in E. apply obind_Ok_inv in E. destruct E as ([m1 o2] & E1 & E). apply Ok_inj in E. injection E as _ <-. eapply TM; eauto. }
  unfold accelerations. intros E q Hq. apply obind_Ok_inv in E. destruct E as ([r o1] & E1 & E). pose proof (TM _ _ _ E1 _ Hq) as H1.
  do 8 (apply obind_Ok_inv in E; destruct E as (? & _ & E)). cbv zeta in E.
  apply obind_Ok_inv in E. destruct E as ([al' o2] & E2 & E). pose proof (RT _ _ _ _ E2 _ H1) as H2.
  apply obind_Ok_inv in E. destruct E as ([la' o3] & E3 & E). pose proof (RT _ _ _ _ E3 _ H2) as H3.
  apply Ok_inj in E. injection E as _ _ <-. exact H3.
Qed.
Lemma estimate_agrees md b (q q' : kq) : agrees (q_kin q) (o_state (q_obs q)) -> kq_estimate md b q = Ok q' -> q_obs q' = q_obs q /\ agrees (q_kin q') (o_state (q_obs q')).
Proof.
  intros (p & qq & v & w & A & B & D & E & F) H. unfold kq_estimate in H. apply obind_Ok_inv in H. destruct H as ([f t] & _ & H).
  apply obind_Ok_inv in H. destruct H as ([[la al] o] & Ha & H). apply Ok_inj in H. subst q'. cbn. split; [reflexivity|].
  exists p, qq, v, w. cbn [kp ko kv kw]. pose proof (accelerations_ori _ _ _ _ _ _ _ _ Ha _ B). repeat split; auto.
Qed.
Record kinv (nx : nat) (q : kq) : Prop := { ki_len : length (o_state (q_obs q)) = nx; ki_ekf : length (o_ekf (q_obs q)) = nx; ki_place : cplaced (q_obs q); ki_kin : agrees (q_kin q) (o_state (q_obs q)) }.
Definition wf_qop (nx : nat) (o : @kq_op C) : Prop :=
  match o with
  | QSetVector v => length v = nx
  | QUpdate _ e => forall x y, length x = nx -> length (e x y) = nx
  | QOther o => kq_other o = true /\ wf_op nx o
  | _ => True
  end.
Lemma other_ekf md nx (o : ko_op R Kin M3 C) s s' : kq_other o = true -> wf_op nx o -> length (o_state s) = nx -> length (o_ekf s) = nx ->
  ko_step 0%R kfirst kupd mzero md o s = Ok s' -> length (o_ekf s') = nx.
Proof.
  intros Ho Hw L1 L2 E.
  assert (St : o_ekf (ko_start s) = o_ekf s) by (unfold ko_start; destruct (_ =? _); cbn; auto).
  destruct o as [pv num st|n| |sig cov k num|w cov k n|k n|sig cov| |kv rf|b i|w|v|b|b|b| |e]; cbn [ko_step wf_op kq_other] in *; try discriminate.
  - apply obind_Ok_inv in E. destruct E as ([n s1] & E & Es). injection Es as <-. apply add_inv in E.
    destruct E as (n0 & c & x & _ & _ & _ & Hn & Hcn & _ & Ex & ->). exact L2.
  - apply remove_inv in E. destruct E as (c & Hn & Hcn & _ & ->). exact L2.
  - injection E as <-. exact L2.
  - apply obind_Ok_inv in E. destruct E as ([n s1] & E & Es). injection Es as <-. apply setIMU_inv in E.
    destruct E as (i & k' & _ & Hn & Hcn & _ & _ & ->). cbn. congruence.
  - apply wrench_inv in E. destruct E as (c & k' & Hn & Hcn & _ & _ & ->). cbn. congruence.
  - apply nosensor_inv in E. destruct E as (c & k' & Hn & Hcn & _ & _ & ->). cbn. congruence.
  - injection E as <-. unfold ko_setPose. cbn. congruence.
  - injection E as <-. unfold ko_input. congruence.
  - unfold ko_setGyroBias in E. apply obind_Ok_inv in E. destruct E as (g & Eg & E). apply obind_Ok_inv in E. destruct E as (x & E1 & E). injection E as <-. apply seg_set_length in E1. cbn. congruence.
  - unfold ko_setStateUnmodeledWrench in E. apply obind_Ok_inv in E. destruct E as (g & Eg & E). apply obind_Ok_inv in E. destruct E as (x & E1 & E). injection E as <-. apply seg_set_length in E1. cbn. congruence.
  - injection E as <-. exact L2.
  - injection E as <-. exact L2.
  - injection E as <-. exact L2.
  - injection E as <-. exact L2.
Qed.
Lemma update_ekf_len md nx e (s s' : obs) : (forall x y, length x = nx -> length (e x y) = nx) -> cplaced s -> length (o_state s) = nx -> length (o_ekf s) = nx -> o_kest s <> o_kdata s ->
  ko_update md e s = Ok s' -> length (o_state s') = nx /\ length (o_ekf s') = nx /\ cplaced s'.
Proof.
  intros He Hp L1 L2 Hk E. destruct (update_placed _ _ _ _ Hp E) as [Hp' _]. unfold ko_update in E. apply Z.eqb_neq in Hk. rewrite Hk in E.
  apply obind_Ok_inv in E. destruct E as (s1 & E1 & E). injection E as <-. apply prepare_shape in E1. destruct E1 as ((y & r & p & E1 & _) & _).
  assert (K : o_ekf s1 = o_ekf s) by (rewrite E1; reflexivity). cbn. rewrite K, He by exact L2. auto.
Qed.
Lemma step_kinv md nx o q q' : (13 <= nx)%nat -> wf_qop nx o -> kinv nx q -> step md o q = Ok q' -> kinv nx q'.
Proof.
  intros H13 Hw [L1 L2 P A] E. destruct o as [k rf|v|b e|b|o]; cbn [kq_step wf_qop] in *.
  - unfold kq_setStateKinematics in E. apply obind_Ok_inv in E. destruct E as (u & _ & E). apply obind_Ok_inv in E. destruct E as ([l k'] & Ek & E). apply obind_Ok_inv in E. destruct E as (s & Es & E). apply Ok_inj in E. subst q'.
    apply toVec_agrees in Ek. destruct Ek as (Ll & Ak & _). pose proof Es as Es'. apply low_setKine in Es; [|exact Ll|exact P]. destruct Es as (B & D & F).
    constructor; cbn; auto; [congruence| |].
    + unfold ko_setStateKinematics in Es'. apply obind_Ok_inv in Es'. destruct Es' as (x & _ & Es'). apply obind_Ok_inv in Es'. destruct Es' as (x' & _ & Es'). injection Es' as <-. cbn in *. congruence.
    + rewrite <- B in Ak. apply agrees_firstn. exact Ak.
  - unfold kq_setStateVector in E. apply obind_Ok_inv in E. destruct E as (k & Ek & E). apply Ok_inj in E. subst q'.
    destruct (updateKine_ok md (ko_setStateVector v (q_obs q)) (q_kin q)) as (k' & Ek' & Ak & _); [cbn; lia|]. rewrite Ek' in Ek. apply Ok_inj in Ek. subst k'.
    constructor; cbn; auto.
  - unfold kq_update in E. destruct (Z.eqb_spec (o_kest (q_obs q)) (o_kdata (q_obs q))) as [|Hk]; [apply Ok_inj in E; subst; constructor; auto|].
    apply obind_Ok_inv in E. destruct E as (s & Es & E). destruct (update_ekf_len _ _ _ _ _ Hw P L1 L2 Hk Es) as (M1 & M2 & M3).
    apply obind_Ok_inv in E. destruct E as (k & Ek & E). destruct (updateKine_ok md s k_empty) as (k' & Ek' & Ak & _); [lia|]. rewrite Ek' in Ek. apply Ok_inj in Ek. subst k'.
    destruct (o_withAcc s); [|apply Ok_inj in E; subst q'; constructor; auto].
    apply estimate_agrees in E; [|exact Ak]. destruct E as [E1 E2]. constructor; rewrite ?E1; auto. rewrite <- E1. exact E2.
  - apply estimate_agrees in E; [|exact A]. destruct E as [E1 E2]. constructor; rewrite ?E1; auto. rewrite <- E1. exact E2.
  - destruct Hw as [Ho Hw]. apply obind_Ok_inv in E. destruct E as (s & Es & E). apply Ok_inj in E. subst q'.
    pose proof (other_ekf _ _ _ _ _ Ho Hw L1 L2 Es) as M2. apply (other_low _ _ _ _ _ nx) in Es; auto. destruct Es as (B & D & F).
    constructor; cbn [q_obs q_kin]; auto; [congruence|]. eapply agrees_eq; eauto.
Qed.
Lemma run_kinv md nx h : (13 <= nx)%nat -> Forall (wf_qop nx) h -> forall q q', kinv nx q -> run md h q = Ok q' -> kinv nx q'.
Proof.
  intros H13 H. induction H as [|o h Ho H IH]; intros q q' K E.
  - apply Ok_inj in E. subst. exact K.
  - unfold kq_run in E. cbn [orun] in E. apply obind_Ok_inv in E. destruct E as (q1 & E1 & E). eapply IH; [|exact E]. eapply step_kinv; eauto.
Qed.
Lemma nx_13 maxC maxI : (13 <= Z.to_nat (stateSize (Z.of_nat maxC) (Z.of_nat maxI)))%nat.
Proof. rewrite nx_pos. lia. Qed.
Lemma init_kinv md maxC maxI ds di dw dp q : kq_init md maxC maxI ds di dw dp = Ok q -> kinv (Z.to_nat (stateSize (Z.of_nat maxC) (Z.of_nat maxI))) q.
Proof.
  intros E. unfold kq_init in E. apply obind_Ok_inv in E. destruct E as (s & Es & E). apply obind_Ok_inv in E. destruct E as (k & Ek & E). apply Ok_inj in E. subst q.
  assert (L : length (o_state s) = Z.to_nat (stateSize (Z.of_nat maxC) (Z.of_nat maxI)) /\ length (o_ekf s) = Z.to_nat (stateSize (Z.of_nat maxC) (Z.of_nat maxI)) /\ cplaced s).
  { unfold ko_init in Es. apply obind_Ok_inv in Es. destruct Es as (u & _ & Es). apply Ok_inj in Es. subst s. cbn [o_state o_ekf]. rewrite !repeat_length. split; [auto|]. split; [auto|].
    split; cbn; [lia|]. apply Forall_forall. intros c Hc. apply repeat_spec in Hc. subst c. cbn. discriminate. }
  destruct L as (L1 & L2 & L3). destruct (updateKine_ok md s k_empty) as (k' & Ek' & Ak & _); [rewrite L1; apply nx_13|]. rewrite Ek' in Ek. apply Ok_inj in Ek. subst k'.
  constructor; cbn; auto.
Qed.
(** ** The matrix kept with the quaternion *)
Definition full (o : Ori) : Prop := exists q, oq o = Some q /\ (om o = None \/ om o = Some (qrot q)).
Lemma full_toMat md o q : oq o = Some q -> full o -> o_toMat md o = Ok (qrot q, mkO (Some q) (Some (qrot q))).
Proof.
  intros Hq (q' & Hq' & Hm). rewrite Hq in Hq'. injection Hq' as <-. destruct o as [a m]. cbn in *. subst a. unfold o_toMat, o_check, o_q2m. cbn. destruct Hm as [-> | ->]; reflexivity.
Qed.
Lemma accelerations_full md b k F T q : oq (ko k) = Some q -> full (ko k) ->
  accelerations md b k F T = accelerations md b (mkK (kp k) (o_quat q) (kv k) (kw k) None None) F T /\
  forall la al o, accelerations md b k F T = Ok (la, al, o) -> o = mkO (Some q) (Some (qrot q)).
Proof.
  intros Hq Hf. split.
  - unfold accelerations. cbn [ko kw]. rewrite (full_toMat md _ _ Hq Hf). rewrite (full_toMat md (o_quat q) q); [reflexivity|reflexivity|exists q; auto].
  - intros la al o E. unfold accelerations in E. rewrite (full_toMat md _ _ Hq Hf) in E. cbn [obind] in E.
    assert (G : forall v, o_rot md (mkO (Some q) (Some (qrot q))) v = Ok (mvec (qrot q) v, mkO (Some q) (Some (qrot q)))) by reflexivity.
    do 8 (apply obind_Ok_inv in E; destruct E as (? & _ & E)). cbv zeta in E. rewrite G in E. cbn [obind] in E. rewrite G in E. cbn [obind] in E. apply Ok_inj in E. injection E as _ _ <-. reflexivity.
Qed.
Lemma state_kine_read md b (s : obs) k : (13 <= length (o_state s))%nat -> agrees k (o_state s) -> full (ko k) ->
  kq_estimate md b (mkKq s k) = (do k' <- state_kine md b s (o_state s); Ok (mkKq s k')) /\
  (forall k', state_kine md b s (o_state s) = Ok k' -> full (ko k')).
Proof.
  intros L Ak Hf. pose proof Ak as Ak'. destruct Ak' as (p & q & v & w & A & B & D & E & F).
  assert (Rd : seg_rd md kineIndex (Z.to_nat sizeStateKine) (o_state s) = Ok (l3 p ++ l4 q ++ l3 v ++ l3 w)).
  { rewrite seg_rd_ok; [|change kineIndex with 0; lia|change (Z.of_nat (Z.to_nat sizeStateKine)) with 13; change kineIndex with 0; lia].
    change (seg_get (Z.to_nat kineIndex) (Z.to_nat sizeStateKine) (o_state s)) with (firstn 13 (o_state s)). rewrite F. reflexivity. }
  assert (Fv : k_fromVec md (l3 p ++ l4 q ++ l3 v ++ l3 w) fState k_empty = Ok (mkK (Some p) (o_quat q) (Some v) (Some w) None None)) by (destruct p, q, v, w; reflexivity).
  unfold kq_estimate, state_kine. cbn [q_obs q_kin].
  assert (H : forall f t, accelerations md b k f t = accelerations md b (mkK (Some p) (o_quat q) (Some v) (Some w) None None) f t /\ forall la al o, accelerations md b k f t = Ok (la, al, o) -> o = mkO (Some q) (Some (qrot q))).
  { intros f t. destruct (accelerations_full md b k f t q B Hf) as [H1 H2]. rewrite A, D, E in H1. auto. }
  split.
  - destruct (add_wrench md s (o_state s) (b_addF b) (b_addT b)) as [[f t]| | |]; cbn [obind]; try reflexivity. rewrite Rd. cbn [obind]. rewrite Fv. cbn [obind].
    destruct (H f t) as [H1 _]. rewrite <- H1. destruct (accelerations md b k f t) as [[[la al] o]| | |]; cbn [obind]; try reflexivity. cbn [kp kv kw]. rewrite A, D, E. reflexivity.
  - intros k' Ek. apply obind_Ok_inv in Ek. destruct Ek as ([f t] & _ & Ek). rewrite Rd in Ek. cbn [obind] in Ek. rewrite Fv in Ek. cbn [obind] in Ek. destruct (H f t) as [H1 H2]. rewrite <- H1 in Ek.
    apply obind_Ok_inv in Ek. destruct Ek as ([[la al] o] & Ea & Ek). apply H2 in Ea. apply Ok_inj in Ek. subst k' o. cbn. exists q. cbn. auto.
Qed.
Lemma estimate_full md b (q q' : kq) : (13 <= length (o_state (q_obs q)))%nat -> agrees (q_kin q) (o_state (q_obs q)) -> full (ko (q_kin q)) -> kq_estimate md b q = Ok q' -> full (ko (q_kin q')).
Proof.
  intros L A Hf E. destruct q as [s k]. cbn in *. destruct (state_kine_read md b s k L A Hf) as [H1 H2]. rewrite H1 in E. apply obind_Ok_inv in E. destruct E as (k' & Ek & E). apply Ok_inj in E. subst q'. cbn. apply H2. exact Ek.
Qed.
Definition coh_qop (o : @kq_op C) : Prop := match o with QSetKine k _ => coh (ko k) | _ => True end.
Lemma step_full md nx o q q' : (13 <= nx)%nat -> wf_qop nx o -> coh_qop o -> kinv nx q -> full (ko (q_kin q)) -> step md o q = Ok q' -> full (ko (q_kin q')).
Proof.
  intros H13 Hw Hc K Hf E. pose proof K as [L1 L2 P A]. destruct o as [k rf|v|b e|b|o]; cbn [kq_step wf_qop coh_qop] in *.
  - unfold kq_setStateKinematics in E. apply obind_Ok_inv in E. destruct E as (u & _ & E). apply obind_Ok_inv in E. destruct E as ([l k'] & Ek & E). apply obind_Ok_inv in E. destruct E as (s & Es & E). apply Ok_inj in E. subst q'. cbn.
    assert (Q : rot (ko k) <> None).
    { intros Z. unfold k_toVec in Ek. cbn [fP fO fV fW fA fAl fState] in Ek. apply obind_Ok_inv in Ek. destruct Ek as (? & _ & Ek). apply obind_Ok_inv in Ek. destruct Ek as ([? ?] & Ek & _).
      apply obind_Ok_inv in Ek. destruct Ek as ([? ?] & Ek & _). unfold rot in Z. destruct (ko k) as [[?|] [?|]]; cbn in Z; try discriminate. destruct md; cbn in Ek; discriminate. }
    destruct (rot (ko k)) as [m|] eqn:Er; [|congruence]. destruct (toQuat_ok md _ _ Hc Er) as (qq & o' & E1 & C1 & R1 & U1 & Q1).
    assert (ko k' = o').
    { unfold k_toVec in Ek. cbn [fP fO fV fW fA fAl fState] in Ek. apply obind_Ok_inv in Ek. destruct Ek as (? & _ & Ek). rewrite E1 in Ek. cbn [obind] in Ek.
      do 2 (apply obind_Ok_inv in Ek; destruct Ek as (? & _ & Ek)). cbn [obind] in Ek. apply Ok_inj in Ek. injection Ek as _ <-. reflexivity. }
    subst o'. apply toVec_agrees in Ek. destruct Ek as (_ & Ak & _). destruct Ak as (p & q0 & v & w & _ & B & _). exists q0. split; [exact B|].
    destruct (om (ko k')) as [m'|] eqn:Em; [right|auto]. f_equal. symmetry. apply (proj2 (proj2 C1)); auto.
  - unfold kq_setStateVector in E. apply obind_Ok_inv in E. destruct E as (k & Ek & E). apply Ok_inj in E. subst q'. cbn.
    destruct (updateKine_ok md (ko_setStateVector v (q_obs q)) (q_kin q)) as (k' & Ek' & Ak & _ & _ & Em); [cbn; lia|]. rewrite Ek' in Ek. apply Ok_inj in Ek. subst k'.
    destruct Ak as (? & qq & ? & ? & ? & B & _). exists qq. auto.
  - unfold kq_update in E. destruct (Z.eqb_spec (o_kest (q_obs q)) (o_kdata (q_obs q))) as [|Hk]; [apply Ok_inj in E; subst; auto|].
    apply obind_Ok_inv in E. destruct E as (s & Es & E). destruct (update_ekf_len _ _ _ _ _ Hw P L1 L2 Hk Es) as (M1 & M2 & M3').
    apply obind_Ok_inv in E. destruct E as (k & Ek & E). destruct (updateKine_ok md s k_empty) as (k' & Ek' & Ak & _ & _ & Em); [lia|]. rewrite Ek' in Ek. apply Ok_inj in Ek. subst k'.
    assert (Fk : full (ko k)) by (destruct Ak as (? & qq & ? & ? & ? & B & _); exists qq; auto).
    destruct (o_withAcc s); [|apply Ok_inj in E; subst q'; exact Fk].
    eapply estimate_full in E; auto. cbn. lia.
  - eapply estimate_full in E; auto. lia.
  - apply obind_Ok_inv in E. destruct E as (s & Es & E). apply Ok_inj in E. subst q'. exact Hf.
Qed.
Lemma run_full md nx h : (13 <= nx)%nat -> Forall (wf_qop nx) h -> Forall coh_qop h -> forall q q', kinv nx q -> full (ko (q_kin q)) -> run md h q = Ok q' -> full (ko (q_kin q')).
Proof.
  intros H13 H. induction H as [|o h Ho H IH]; intros Hc q q' K F E.
  - apply Ok_inj in E. subst. exact F.
  - inversion Hc; subst. unfold kq_run in E. cbn [orun] in E. apply obind_Ok_inv in E. destruct E as (q1 & E1 & E). eapply IH; [assumption| | |exact E]; [eapply step_kinv; eauto|eapply step_full; eauto].
Qed.
Lemma init_full md maxC maxI ds di dw dp q : kq_init (C := C) md maxC maxI ds di dw dp = Ok q -> full (ko (q_kin q)) /\ oq (ko (q_kin q)) = Some (mkQ 0 0 0 0) /\ om (ko (q_kin q)) = None.
Proof.
  intros E. unfold kq_init in E. apply obind_Ok_inv in E. destruct E as (s & Es & E). apply obind_Ok_inv in E. destruct E as (k & Ek & E). apply Ok_inj in E. subst q. cbn.
  assert (L : exists n, o_state s = repeat 0%R (13 + n)).
  { unfold ko_init in Es. apply obind_Ok_inv in Es. destruct Es as (u & _ & Es). apply Ok_inj in Es. subst s. cbn [o_state]. pose proof (nx_13 maxC maxI). exists (Z.to_nat (stateSize (Z.of_nat maxC) (Z.of_nat maxI)) - 13)%nat. f_equal. lia. }
  destruct L as [n L]. destruct (updateKine_ok md s k_empty) as (k' & Ek' & Ak & _ & _ & Em); [rewrite L, repeat_length; lia|]. rewrite Ek' in Ek. apply Ok_inj in Ek. subst k'.
  destruct Ak as (p & q & v & w & _ & B & _ & _ & F). split; [exists q; auto|]. split; [|exact Em]. rewrite L in F. cbn in F. destruct p, q. cbn in F. injection F as <- <- <- <- <- <- <- _. exact B.
Qed.
End Kin.

(** ** Contacts *)
Section Contacts.
Context {C : Type}.
Notation obs := (obs R Kin M3 C).
Implicit Types s : obs.
Lemma get_position_ok md maxC maxI s j : inv maxC maxI s -> In j (ko_getListOfContacts s) ->
  exists p q, seg_get (Z.to_nat (19 + 3 * Z.of_nat maxI + 13 * j)) 7 (o_state s) = l3 p ++ l4 q /\
    ko_getContactPosition md j s = Ok (mkK (Some p) (o_quat q) None None None None).
Proof.
  intros Hi Hj. destruct (contact_index_ok md _ _ _ _ Hi Hj) as (B & E & _). unfold ko_getContactPosition, ko_contactPosIndex. rewrite E. cbn [obind]. rewrite cidx_eq.
  assert (L : 19 + 3 * Z.of_nat maxI + 13 * j + 13 <= Z.of_nat (length (o_state s))) by (rewrite (v_x _ _ _ Hi); unfold nx; rewrite Z2Nat.id; rewrite nx_pos; lia).
  set (a := 19 + 3 * Z.of_nat maxI + 13 * j) in *.
  rewrite seg_rd_ok; [|lia|change (Z.of_nat (Z.to_nat sizeStateKine)) with 13; lia]. cbn [obind]. change (Z.to_nat sizeStateKine) with 13%nat.
  assert (L2 : length (seg_get (Z.to_nat a) 13 (o_state s)) = 13%nat) by (apply seg_get_length; lia).
  replace (seg_get (Z.to_nat a) 7 (o_state s)) with (firstn 7 (seg_get (Z.to_nat a) 13 (o_state s))) by (unfold seg_get; rewrite firstn_firstn; reflexivity).
  destruct (seg_get (Z.to_nat a) 13 (o_state s)) as [|a0 [|a1 [|a2 [|a3 [|a4 [|a5 [|a6 l]]]]]]]; try discriminate.
  exists (mkV a0 a1 a2), (mkQ a6 a3 a4 a5). split; reflexivity.
Qed.
(** The answers depend on the segments that are read. *)
Lemma position_eq md md' maxC maxI s s' j j' : inv maxC maxI s -> inv maxC maxI s' -> In j (ko_getListOfContacts s) -> In j' (ko_getListOfContacts s') ->
  seg_get (Z.to_nat (19 + 3 * Z.of_nat maxI + 13 * j)) 7 (o_state s) = seg_get (Z.to_nat (19 + 3 * Z.of_nat maxI + 13 * j')) 7 (o_state s') ->
  ko_getContactPosition md' j' s' = ko_getContactPosition md j s.
Proof.
  intros Hi Hi' Hj Hj' E. destruct (get_position_ok md _ _ _ _ Hi Hj) as (p & q & A & ->). destruct (get_position_ok md' _ _ _ _ Hi' Hj') as (p' & q' & A' & ->).
  rewrite A, A' in E. destruct p, q, p', q'. cbn in E. injection E as <- <- <- <- <- <- <-. reflexivity.
Qed.
Lemma seg_other {A} md i (w v v' : list A) a n : seg_set md i w v = Ok v' -> (Z.of_nat a + Z.of_nat n <= i \/ i + Z.of_nat (length w) <= Z.of_nat a) -> seg_get a n v' = seg_get a n v.
Proof.
  intros E H. apply seg_get_eq. intros k Hk. pose proof E as E'. apply KinIter.seg_set_spec in E'. destruct E' as (H0 & _). rewrite (seg_set_nth _ _ _ _ _ _ E).
  destruct (Nat.leb_spec (Z.to_nat i) k); cbn [andb]; [|reflexivity]. destruct (Nat.ltb_spec k (Z.to_nat i + length w)); [lia|reflexivity].
Qed.
Lemma zero_other md (cs : list (contact R Kin M3 C)) a n : Forall (fun c => c_set c = true -> Z.of_nat a + Z.of_nat n <= c_sidx c + 7 \/ c_sidx c + 13 <= Z.of_nat a) cs ->
  forall x x', zero_wrenches 0%R md cs x = Ok x' -> seg_get a n x' = seg_get a n x.
Proof.
  intros H. induction H as [|c cs Hc H IH]; intros x x' E; cbn [zero_wrenches] in E.
  - apply Ok_inj in E. subst. auto.
  - apply obind_Ok_inv in E. destruct E as (x1 & E1 & E). rewrite (IH _ _ E). destruct (c_set c).
    + apply obind_Ok_inv in E1. destruct E1 as (u & _ & E1). specialize (Hc eq_refl). eapply seg_other; eauto. change sizeContactKine with 7. rewrite repeat_length. lia.
    + apply Ok_inj in E1. subst. auto.
Qed.
Lemma zero_in md (cs : list (contact R Kin M3 C)) a : 0 <= a -> (forall i j c d, nth_error cs i = Some c -> nth_error cs j = Some d -> c_set c = true -> c_set d = true -> i <> j -> c_sidx c + 13 <= c_sidx d \/ c_sidx d + 13 <= c_sidx c) ->
  (exists c, In c cs /\ c_set c = true /\ c_sidx c = a) ->
  forall x x', zero_wrenches 0%R md cs x = Ok x' -> seg_get (Z.to_nat (a + 7)) 6 x' = repeat 0%R 6.
Proof.
  intros Ha. induction cs as [|c cs IH]; intros HD (c0 & Hin & Hs & Hx) x x' E; cbn [zero_wrenches] in E; [destruct Hin|].
  apply obind_Ok_inv in E. destruct E as (x1 & E1 & E). destruct Hin as [->|Hin].
  - rewrite Hs in E1. apply obind_Ok_inv in E1. destruct E1 as (u & _ & E1). rewrite Hx in E1. change sizeContactKine with 7 in E1.
    assert (F : Forall (fun d => c_set d = true -> Z.of_nat (Z.to_nat (a + 7)) + Z.of_nat 6 <= c_sidx d + 7 \/ c_sidx d + 13 <= Z.of_nat (Z.to_nat (a + 7))) cs); [|rewrite (zero_other _ _ _ _ F _ _ E); apply seg_set_get in E1; exact E1].
    apply Forall_forall. intros d Hd Hds. apply In_nth_error in Hd. destruct Hd as [j Hd]. specialize (HD 0%nat (Datatypes.S j) c0 d eq_refl Hd Hs Hds ltac:(discriminate)). rewrite Hx in HD. lia.
  - eapply IH; [|exists c0; auto|exact E]. intros i j c1 d1 H1 H2 S1 S2 Hne. apply (HD (Datatypes.S i) (Datatypes.S j)); auto.
Qed.
End Contacts.
