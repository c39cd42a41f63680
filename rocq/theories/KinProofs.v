(** Proofs about the bookkeeping of the kinetics observer. *)
From Coq Require Import ZArith List Lia Bool.
From Verif Require Import Base KinObs SpecKin.
Import ListNotations.
Open Scope Z_scope.

(** ** Vectors *)
Lemma vec_at_inv {A} i (v : list A) x : vec_at i v = Ok x -> 0 <= i /\ nth_error v (Z.to_nat i) = Some x.
Proof. unfold vec_at. destruct (Z.ltb_spec i 0); [discriminate|]. destruct (nth_error v (Z.to_nat i)); [|discriminate]. intros E; inversion E; auto. Qed.
Lemma vec_at_ok {A} i (v : list A) x : 0 <= i -> nth_error v (Z.to_nat i) = Some x -> vec_at i v = Ok x.
Proof. intros H E. unfold vec_at. destruct (Z.ltb_spec i 0); [lia|]. rewrite E. reflexivity. Qed.
Lemma vec_at_in {A} i (v : list A) : 0 <= i < Z.of_nat (length v) -> exists x, vec_at i v = Ok x.
Proof.
  intros H. destruct (nth_error v (Z.to_nat i)) as [x|] eqn:E; [exists x; apply vec_at_ok; auto; lia|].
  apply nth_error_None in E. lia.
Qed.
Lemma vec_set_length {A} i (x : A) v : length (vec_set i x v) = length v.
Proof. apply list_set_length. Qed.
Lemma vec_set_nth {A} i (x : A) v j : nth_error (vec_set i x v) j =
  if Nat.eqb j (Z.to_nat i) then (match nth_error v j with Some _ => Some x | None => None end) else nth_error v j.
Proof. apply list_set_nth_error. Qed.
Lemma vec_set_Forall {A} (P : A -> Prop) i x v : P x -> Forall P v -> Forall P (vec_set i x v).
Proof.
  intros Hx H. unfold vec_set. generalize (Z.to_nat i). induction H as [|y v Hy Hv IH]; intros [|n]; cbn; constructor; auto.
Qed.
Lemma seg_set_length {A} md i (w v v' : list A) : seg_set md i w v = Ok v' -> length v' = length v.
Proof.
  unfold seg_set. destruct (Z.leb_spec 0 i); [|destruct md; discriminate].
  destruct (Z.leb_spec (i + Z.of_nat (length w)) (Z.of_nat (length v))); [|destruct md; discriminate].
  cbn [andb]. intros E. inversion E. rewrite !app_length, firstn_length, skipn_length. lia.
Qed.
Lemma seg_set_ok {A} md i (w v : list A) : 0 <= i -> i + Z.of_nat (length w) <= Z.of_nat (length v) ->
  seg_set md i w v = Ok (firstn (Z.to_nat i) v ++ w ++ skipn (Z.to_nat i + length w) v).
Proof. intros H1 H2. unfold seg_set. destruct (Z.leb_spec 0 i); [|lia]. destruct (Z.leb_spec (i + Z.of_nat (length w)) (Z.of_nat (length v))); [|lia]. reflexivity. Qed.
Lemma seg_set_mode {A} md i (w v v' : list A) : seg_set Debug i w v = Ok v' -> seg_set md i w v = Ok v'.
Proof. unfold seg_set. destruct (_ && _); [auto|discriminate]. Qed.
Lemma assert_mode md b u : boost_assert Debug b = Ok u -> boost_assert md b = Ok u.
Proof. unfold boost_assert. destruct b; [auto|discriminate]. Qed.
Lemma assert_debug b u : boost_assert Debug b = Ok u -> b = true.
Proof. destruct b; [reflexivity|discriminate]. Qed.
Lemma assert_true md : boost_assert md true = Ok tt.
Proof. reflexivity. Qed.

Lemma Ok_inj {A} (x y : A) : Ok x = Ok y -> x = y.
Proof. congruence. Qed.

Set Default Proof Using "Type".
Section P.
Context {S : Type} (s0 : S) {Kn : Type} (k0 : Kn) (kfirst : mode -> Kn -> outcome Kn) (kupd : mode -> Z -> Kn -> Kn -> outcome Kn).
Context {M : Type} (mzero : M -> bool) {C : Type}.
Notation obs := (obs S Kn M C).
Notation op := (ko_op S Kn M C).
Notation contact := (contact S Kn M C).
Notation imu := (imu S Kn C).
Notation step := (ko_step s0 kfirst kupd mzero).
Notation run := (ko_run s0 kfirst kupd mzero).
Implicit Types s : obs.

(** ** Invariant *)
Definition cidx (maxI j : Z) : Z := 19 + 3 * maxI + 13 * j.
Definition cidxT (maxI j : Z) : Z := 18 + 3 * maxI + 12 * j.
Definition nx (maxC maxI : nat) : nat := Z.to_nat (stateSize (Z.of_nat maxC) (Z.of_nat maxI)).
Definition time_ok s (t : Z) : Prop := 0 <= t <= o_kdata s.
(** The IMU has reported in this iteration. *)
Definition cur s (t : Z) : Prop := t = o_kdata s /\ o_kest s <> o_kdata s.
Record inv (maxC maxI : nat) s : Prop := {
  v_maxC : o_maxC s = Z.of_nat maxC; v_maxI : o_maxI s = Z.of_nat maxI;
  v_lC : length (o_contacts s) = maxC; v_lI : length (o_imus s) = maxI;
  v_k : 0 <= o_kest s /\ (o_kdata s = o_kest s \/ o_kdata s = o_kest s + 1);
  v_x : length (o_state s) = nx maxC maxI; v_e : length (o_ekf s) = nx maxC maxI;
  v_imu : Forall (fun i => time_ok s (i_time i) /\ (cur s (i_time i) -> length (i_sig i) = 6%nat)) (o_imus s);
  v_pose : time_ok s (p_time (o_pose s)) /\ (cur s (p_time (o_pose s)) -> length (p_sig (o_pose s)) = 7%nat /\ p_cov (o_pose s) <> None);
  v_ct : Forall (fun c => time_ok s (c_time c) /\ (c_real c = true -> length (c_wrench c) = 6%nat /\ c_cov c <> None)) (o_contacts s);
  v_ci : forall j c, nth_error (o_contacts s) j = Some c -> c_set c = true ->
         c_sidx c = cidx (Z.of_nat maxI) (Z.of_nat j) /\ c_tidx c = cidxT (Z.of_nat maxI) (Z.of_nat j) }.

Lemma gyro_idx md maxI i : i < maxI -> gyroBiasIndex md maxI i = Ok (13 + 3 * i) /\ gyroBiasIndexTangent md maxI i = Ok (12 + 3 * i).
Proof. intros H. unfold gyroBiasIndex, gyroBiasIndexTangent. apply Z.ltb_lt in H. rewrite H. split; reflexivity. Qed.
Lemma gyro_idx_inv md maxI i g : gyroBiasIndex md maxI i = Ok g -> g = 13 + 3 * i.
Proof. unfold gyroBiasIndex. intros E. apply obind_Ok_inv in E. destruct E as ([] & _ & E). inversion E. reflexivity. Qed.
Lemma gyro_idxT_inv md maxI i g : gyroBiasIndexTangent md maxI i = Ok g -> g = 12 + 3 * i.
Proof. unfold gyroBiasIndexTangent. intros E. apply obind_Ok_inv in E. destruct E as ([] & _ & E). inversion E. reflexivity. Qed.
Lemma contacts_idx_inv md maxI g : contactsIndex md maxI = Ok g -> g = cidx maxI 0.
Proof.
  unfold contactsIndex, unmodeledWrenchIndex. intros E. apply obind_Ok_inv in E. destruct E as (u & E1 & E).
  apply obind_Ok_inv in E1. destruct E1 as (g0 & E1 & E2). apply gyro_idx_inv in E1. apply Ok_inj in E. apply Ok_inj in E2. subst. unfold cidx, sizeGyroBias, sizeWrench, sizeForce, sizeTorque. lia.
Qed.
Lemma contacts_idxT_inv md maxI g : contactsIndexTangent md maxI = Ok g -> g = cidxT maxI 0.
Proof.
  unfold contactsIndexTangent, unmodeledWrenchIndexTangent. intros E. apply obind_Ok_inv in E. destruct E as (u & E1 & E).
  apply obind_Ok_inv in E1. destruct E1 as (g0 & E1 & E2). apply gyro_idxT_inv in E1. apply Ok_inj in E. apply Ok_inj in E2. subst. unfold cidxT, sizeGyroBias, sizeWrench, sizeForce, sizeTorque. lia.
Qed.
Lemma contacts_idx_ok md maxI : (md = Debug -> 0 < maxI) -> contactsIndex md maxI = Ok (cidx maxI 0) /\ contactsIndexTangent md maxI = Ok (cidxT maxI 0).
Proof.
  intros H. unfold contactsIndex, contactsIndexTangent, unmodeledWrenchIndex, unmodeledWrenchIndexTangent, gyroBiasIndex, gyroBiasIndexTangent, boost_assert.
  destruct (Z.ltb_spec 0 maxI).
  - cbn [obind]. split; f_equal; unfold cidx, cidxT, sizeGyroBias, sizeWrench, sizeForce, sizeTorque, angVelIndex, angVelIndexTangent, linVelIndex, linVelIndexTangent, oriIndex, oriIndexTangent, posIndex, posIndexTangent, sizeAngVel, sizeLinVel, sizeOri, sizeOriTangent, sizePos; lia.
  - destruct md; [specialize (H eq_refl); lia|]. cbn [obind].
    split; f_equal; unfold cidx, cidxT, sizeGyroBias, sizeWrench, sizeForce, sizeTorque, angVelIndex, angVelIndexTangent, linVelIndex, linVelIndexTangent, oriIndex, oriIndexTangent, posIndex, posIndexTangent, sizeAngVel, sizeLinVel, sizeOri, sizeOriTangent, sizePos; lia.
Qed.
Lemma nx_eq maxC maxI : Z.of_nat (nx maxC maxI) = cidx (Z.of_nat maxI) (Z.of_nat maxC).
Proof. unfold nx, stateSize, cidx, sizeStateBase, sizeStateKine, sizeGyroBias, sizeContact, sizeContactKine, sizePose, sizeWrench, sizeForce, sizeTorque, sizeLinVel, sizeAngVel, sizeOri, sizeOriTangent, sizePos. lia. Qed.
Lemma tangent_eq maxC maxI : stateTangentSize maxC maxI = cidxT maxI maxC.
Proof. unfold stateTangentSize, cidxT, sizeStateTangentBase, sizeStateKineTangent, sizeGyroBias, sizeContactTangent, sizeContactKineTangent, sizePoseTangent, sizeWrench, sizeForce, sizeTorque, sizeLinVel, sizeAngVel, sizeOri, sizeOriTangent, sizePos. lia. Qed.

Lemma Forall_repeat {A} (P : A -> Prop) x n : P x -> Forall P (repeat x n).
Proof. intros H. induction n; cbn; constructor; auto. Qed.
Lemma nth_repeat {A} (x y : A) n j : nth_error (repeat x n) j = Some y -> y = x.
Proof. intros H. apply nth_error_In in H. apply repeat_spec in H. auto. Qed.

Lemma init_inv md maxC maxI ds di dw dp s : ko_init s0 k0 md maxC maxI ds di dw dp = Ok s -> inv maxC maxI s.
Proof.
  unfold ko_init. intros E. apply obind_Ok_inv in E. destruct E as (u & _ & E). inversion E; subst; clear E.
  constructor; cbn; auto; try apply repeat_length; try lia.
  - apply Forall_repeat. unfold time_ok, cur. cbn. split; [lia|]. lia.
  - unfold time_ok, cur. cbn. split; [lia|]. lia.
  - apply Forall_repeat. unfold time_ok. cbn. split; [lia|]. discriminate.
  - intros j c H. apply nth_repeat in H. subst. discriminate.
Qed.
(** In Debug the constructor succeeds only with at least one IMU. *)
Lemma init_debug maxC maxI ds di dw dp s : ko_init s0 k0 Debug maxC maxI ds di dw dp = Ok s -> (0 < maxI)%nat.
Proof.
  unfold ko_init, unmodeledForceIndexTangent, unmodeledWrenchIndexTangent, gyroBiasIndexTangent. intros E.
  apply obind_Ok_inv in E. destruct E as (u & E & _). apply obind_Ok_inv in E. destruct E as (g & E & _).
  apply obind_Ok_inv in E. destruct E as ([] & E & _). apply assert_debug in E. apply Z.ltb_lt in E. lia.
Qed.

Lemma start_inv maxC maxI s : inv maxC maxI s -> inv maxC maxI (ko_start s).
Proof.
  intros [H1 H2 H3 H4 H5 H6 H7 H8 H9 H10 H11]. unfold ko_start. destruct (Z.eqb_spec (o_kest s) (o_kdata s)) as [E|E]; [|constructor; auto].
  constructor; cbn; auto; try lia.
  - eapply Forall_impl; [|exact H8]. intros i [A B]. unfold time_ok, cur in *. cbn. split; [lia|]. lia.
  - destruct H9 as [A B]. unfold time_ok, cur in *. cbn. split; [lia|]. lia.
  - eapply Forall_impl; [|exact H10]. intros c [A B]. unfold time_ok in *. cbn. split; [lia|auto].
Qed.
Lemma start_iter s : o_kest (ko_start s) = o_kest s /\ (0 <= o_kest s /\ (o_kdata s = o_kest s \/ o_kdata s = o_kest s + 1) -> o_kdata (ko_start s) = o_kest s + 1).
Proof. unfold ko_start. destruct (Z.eqb_spec (o_kest s) (o_kdata s)); cbn; split; auto; lia. Qed.

(** ** Step lemmas *)
Lemma setIMU_inv md sig cov k num s n s' : ko_setIMU kfirst kupd md sig cov k num s = Ok (n, s') ->
  exists i k', (if num <? 0 then imu_search (o_kdata (ko_start s)) (o_imus (ko_start s)) 0 = Ok n else n = num) /\
    0 <= n /\ nth_error (o_imus (ko_start s)) (Z.to_nat n) = Some i /\
    (md = Debug -> n < o_maxI (ko_start s) /\ i_time i < o_kdata (ko_start s)) /\
    (if i_time i =? 0 then kfirst md k else kupd md 0 (i_kine i) k) = Ok k' /\
    s' = set_iter (o_kest (ko_start s)) (o_kdata (ko_start s)) (o_nreal (ko_start s)) (o_nimu (ko_start s) + 1)
           (set_imus (vec_set n (mkImu (o_kdata (ko_start s)) sig (match cov with Some c => c | None => if i_time i =? 0 then o_dimu (ko_start s) else i_cov i end) k' (i_midx i)) (o_imus (ko_start s))) (ko_start s)).
Proof.
  unfold ko_setIMU. cbv zeta. intros E. apply obind_Ok_inv in E. destruct E as (n' & E1 & E). apply obind_Ok_inv in E. destruct E as ([] & E2 & E).
  apply obind_Ok_inv in E. destruct E as (i & E3 & E). apply obind_Ok_inv in E. destruct E as ([] & E4 & E).
  apply obind_Ok_inv in E. destruct E as (k' & E5 & E). injection E as <- <-. apply vec_at_inv in E3. exists i, k'.
  split; [destruct (num <? 0); [auto|inversion E1; auto]|]. split; [tauto|]. split; [tauto|]. split.
  { intros ->. apply assert_debug in E2, E4. apply Z.ltb_lt in E2, E4. auto. }
  split; [|reflexivity]. rewrite Z.sub_diag in E5. exact E5.
Qed.
Lemma wrench_inv md w cov k n s s' : ko_updateWrench kupd md w cov k n s = Ok s' ->
  exists c k', 0 <= n /\ nth_error (o_contacts (ko_start s)) (Z.to_nat n) = Some c /\
    (md = Debug -> c_set c = true) /\ ko_contactKine kupd md k c (ko_start s) = Ok k' /\
    s' = set_nreal (if c_real c then o_nreal (ko_start s) else o_nreal (ko_start s) + 1)
        (set_contacts (vec_set n (mkContact (c_set c) true (o_kdata (ko_start s)) (c_sidx c) (c_tidx c) (c_midx c) w
           (match cov with Some x => Some x | None => match c_cov c with Some x => Some x | None => Some (o_dwrench (ko_start s)) end end) k' (c_pose c) (c_stiff c)) (o_contacts (ko_start s))) (ko_start s)).
Proof.
  unfold ko_updateWrench. cbv zeta. intros E. apply obind_Ok_inv in E. destruct E as ([] & E1 & E). apply obind_Ok_inv in E. destruct E as (c & E2 & E).
  apply obind_Ok_inv in E. destruct E as ([] & E3 & E). apply obind_Ok_inv in E. destruct E as (k' & E4 & E). injection E as <-.
  apply vec_at_inv in E2. exists c, k'. split; [apply E2|]. split; [apply E2|]. split; [|auto]. intros ->. apply assert_debug in E3. exact E3.
Qed.
Lemma nosensor_inv md k n s s' : ko_updateNoSensor kupd md k n s = Ok s' ->
  exists c k', 0 <= n /\ nth_error (o_contacts (ko_start s)) (Z.to_nat n) = Some c /\
    (md = Debug -> c_set c = true) /\ ko_contactKine kupd md k c (ko_start s) = Ok k' /\
    s' = set_nreal (if c_real c then o_nreal (ko_start s) - 1 else o_nreal (ko_start s))
        (set_contacts (vec_set n (mkContact (c_set c) false (o_kdata (ko_start s)) (c_sidx c) (c_tidx c) (c_midx c) (c_wrench c) (c_cov c) k' (c_pose c) (c_stiff c)) (o_contacts (ko_start s))) (ko_start s)).
Proof.
  unfold ko_updateNoSensor. cbv zeta. intros E. apply obind_Ok_inv in E. destruct E as ([] & E1 & E). apply obind_Ok_inv in E. destruct E as (c & E2 & E).
  apply obind_Ok_inv in E. destruct E as ([] & E3 & E). apply obind_Ok_inv in E. destruct E as (k' & E4 & E). injection E as <-.
  apply vec_at_inv in E2. exists c, k'. split; [apply E2|]. split; [apply E2|]. split; [|auto]. intros ->. apply assert_debug in E3. exact E3.
Qed.
Lemma remove_inv md n s s' : ko_removeContact md n s = Ok s' ->
  exists c, 0 <= n /\ nth_error (o_contacts s) (Z.to_nat n) = Some c /\ (md = Debug -> c_set c = false) /\
    s' = set_nreal (if c_real c then o_nreal s - 1 else o_nreal s)
        (set_contacts (vec_set n (mkContact false false (c_time c) (c_sidx c) (c_tidx c) (c_midx c) (c_wrench c) (c_cov c) (c_kine c) (c_pose c) (c_stiff c)) (o_contacts s)) s).
Proof.
  unfold ko_removeContact. intros E. apply obind_Ok_inv in E. destruct E as (c & E2 & E). apply obind_Ok_inv in E. destruct E as ([] & E3 & E). injection E as <-.
  apply vec_at_inv in E2. exists c. split; [apply E2|]. split; [apply E2|]. split; [|reflexivity]. intros ->. apply assert_debug in E3. destruct (c_set c); [discriminate|reflexivity].
Qed.
Definition added (maxI : Z) (n : Z) (c : contact) (pv : list S) (st ds : M * M * M * M) : contact :=
  let '(lk, ld, ak, ad) := st in let '(dlk, dld, dak, dad) := ds in
  mkContact true (c_real c) (c_time c) (cidx maxI n) (cidxT maxI n) (c_midx c) (c_wrench c) (c_cov c) (c_kine c) pv
    (if mzero ld then dlk else lk, pick mzero ld dld, pick mzero ak dak, pick mzero ad dad).
Lemma add_inv md pv num st s n s' : ko_addContact s0 mzero md pv num st s = Ok (n, s') ->
  exists n0 c x, (if num <? 0 then contact_search (Z.to_nat (o_maxC s)) (o_maxC s) (o_contacts s) 0 = Ok n0 else n0 = num) /\
    (md = Debug -> n0 < o_maxC s) /\ n = (if o_maxC s <=? n0 then o_maxC s - 1 else n0) /\
    0 <= n /\ nth_error (o_contacts s) (Z.to_nat n) = Some c /\ (md = Debug -> c_set c = false) /\
    seg_set md (cidx (o_maxI s) n) (pv ++ repeat s0 6) (o_state s) = Ok x /\
    s' = set_state x (o_ekf s) (set_contacts (vec_set n (added (o_maxI s) n c pv st (o_dstiff s)) (o_contacts s)) s).
Proof.
  unfold ko_addContact. intros E. apply obind_Ok_inv in E. destruct E as (n0 & E1 & E). apply obind_Ok_inv in E. destruct E as ([] & E2 & E).
  apply obind_Ok_inv in E. destruct E as (c & E3 & E). apply obind_Ok_inv in E. destruct E as ([] & E4 & E).
  apply obind_Ok_inv in E. destruct E as (ci & E5 & E). apply obind_Ok_inv in E. destruct E as (ct & E6 & E).
  apply contacts_idx_inv in E5. apply contacts_idxT_inv in E6. subst ci ct.
  destruct st as [[[lk ld] ak] ad]. destruct (o_dstiff s) as [[[dlk dld] dak] dad] eqn:Ed. cbv zeta in E.
  apply obind_Ok_inv in E. destruct E as (x & E7 & E). injection E as <- <-.
  remember (if o_maxC s <=? n0 then o_maxC s - 1 else n0) as n. apply vec_at_inv in E3.
  replace (cidx (o_maxI s) 0 + n * sizeContact) with (cidx (o_maxI s) n) in * by (unfold cidx, sizeContact, sizeContactKine, sizePose, sizePos, sizeOri, sizeWrench, sizeForce, sizeTorque; lia).
  replace (cidxT (o_maxI s) 0 + n * sizeContactTangent) with (cidxT (o_maxI s) n) in * by (unfold cidxT, sizeContactTangent, sizeContactKineTangent, sizePoseTangent, sizePos, sizeOriTangent, sizeWrench, sizeForce, sizeTorque; lia).
  exists n0, c, x. split; [destruct (num <? 0); [auto|inversion E1; auto]|].
  split; [intros ->; apply assert_debug in E2; apply Z.ltb_lt; auto|]. split; [auto|]. split; [apply E3|]. split; [apply E3|].
  split; [intros ->; apply assert_debug in E4; destruct (c_set c); [discriminate|reflexivity]|]. split; [auto|]. reflexivity.
Qed.

(** ** drop_lost, write_imus, write_contacts *)
Definition unset (c : contact) : contact :=
  mkContact false false (c_time c) (c_sidx c) (c_tidx c) (c_midx c) (c_wrench c) (c_cov c) (c_kine c) (c_pose c) (c_stiff c).
Definition lost (kd : Z) (c : contact) : contact := if c_set c && negb (c_time c =? kd) then unset c else c.
Definition nreals (cs : list contact) : Z := Z.of_nat (length (filter c_real cs)).
Lemma drop_lost_inv md kd (cs : list contact) : forall nr cs' nr', drop_lost md kd cs nr = Ok (cs', nr') ->
  cs' = map (lost kd) cs /\ nr' = nr - (nreals cs - nreals cs') /\ (md = Debug -> cs' = cs /\ nr' = nr).
Proof.
  induction cs as [|c cs IH]; intros nr cs' nr' E; cbn [drop_lost] in E.
  - inversion E; subst. unfold nreals. cbn. split; [reflexivity|]. split; [lia|auto].
  - apply obind_Ok_inv in E. destruct E as ([c' nr1] & E1 & E). apply obind_Ok_inv in E. destruct E as ([cs1 nr2] & E2 & E). injection E as <- <-.
    destruct (IH _ _ _ E2) as (-> & -> & HD). cbn [map].
    assert (H : c' = lost kd c /\ nr1 = nr - ((if c_real c then 1 else 0) - (if c_real c' then 1 else 0)) /\ (md = Debug -> c' = c /\ nr1 = nr)).
    { unfold lost. destruct (c_set c); cbn [andb].
      - apply obind_Ok_inv in E1. destruct E1 as ([] & Ea & E1). destruct (c_time c =? kd) eqn:Et; cbn [negb].
        + injection E1 as <- <-. split; [reflexivity|]. split; [destruct (c_real c); lia|auto].
        + injection E1 as <- <-. split; [reflexivity|]. split; [destruct (c_real c); cbn; lia|]. intros ->. discriminate.
      - injection E1 as <- <-. split; [reflexivity|]. split; [destruct (c_real c); lia|auto]. }
    destruct H as (-> & -> & HD1). split; [reflexivity|]. split.
    + unfold nreals. cbn [filter]. destruct (c_real c), (c_real (lost kd c)); cbn [length]; lia.
    + intros Hm. destruct (HD1 Hm) as [A1 A2]. destruct (HD Hm) as [B1 B2]. split; [congruence|lia].
Qed.
Lemma drop_lost_ok md kd (cs : list contact) nr : Forall (fun c => c_set c = true -> c_time c = kd) cs -> drop_lost md kd cs nr = Ok (cs, nr).
Proof.
  intros H. revert nr. induction H as [|c cs Hc H IH]; intros nr; cbn [drop_lost]; [reflexivity|].
  assert (E : (if c_set c then do _ <- boost_assert md (c_time c =? kd); if c_time c =? kd then Ok (c, nr) else Ok (unset c, if c_real c then nr - 1 else nr) else Ok (c, nr)) = Ok (c, nr)).
  { destruct (c_set c); [|reflexivity]. rewrite (Hc eq_refl), Z.eqb_refl. reflexivity. }
  unfold unset in E. rewrite E. cbn [obind]. rewrite IH. reflexivity.
Qed.
Definition is_cur (kd : Z) (i : imu) : bool := i_time i =? kd.
Lemma write_imus_inv md kd (is : list imu) : forall y r n is' y' r' n', write_imus md kd is y r n = Ok (is', y', r', n') ->
  length is' = length is /\ length y' = length y /\
  Forall2 (fun i i' => i_time i' = i_time i /\ i_sig i' = i_sig i /\ i_cov i' = i_cov i /\ i_kine i' = i_kine i) is is' /\
  n' = n + 6 * Z.of_nat (length (filter (is_cur kd) is)).
Proof.
  induction is as [|i is IH]; intros y r n is' y' r' n' E; cbn [write_imus] in E.
  - inversion E; subst. cbn. split; [auto|]. split; [auto|]. split; [constructor|lia].
  - unfold is_cur in *. cbn [filter]. destruct (i_time i =? kd) eqn:Et.
    + apply obind_Ok_inv in E. destruct E as (y1 & E1 & E). apply obind_Ok_inv in E. destruct E as ([[[is1 y2] r1] n1] & E2 & E). injection E as <- <- <- <-.
      destruct (IH _ _ _ _ _ _ _ E2) as (A & B & D & F). apply seg_set_length in E1. cbn [length]. split; [lia|]. split; [congruence|]. split; [constructor; cbn; auto|lia].
    + apply obind_Ok_inv in E. destruct E as ([[[is1 y2] r1] n1] & E2 & E). injection E as <- <- <- <-.
      destruct (IH _ _ _ _ _ _ _ E2) as (A & B & D & F). cbn [length]. split; [lia|]. split; [congruence|]. split; [constructor; cbn; auto|lia].
Qed.
Lemma write_contacts_inv md (cs : list contact) : forall y r n cs' y' r' n', write_contacts md cs y r n = Ok (cs', y', r', n') ->
  length cs' = length cs /\ length y' = length y /\
  Forall2 (fun c c' => c' = mkContact (c_set c) (c_real c) (c_time c) (c_sidx c) (c_tidx c) (c_midx c') (c_wrench c) (c_cov c) (c_kine c) (c_pose c) (c_stiff c)) cs cs' /\
  n' = n + 6 * nreals cs.
Proof.
  unfold nreals. induction cs as [|c cs IH]; intros y r n cs' y' r' n' E; cbn [write_contacts] in E.
  - inversion E; subst. cbn. split; [auto|]. split; [auto|]. split; [constructor|lia].
  - cbn [filter]. destruct (c_real c) eqn:Er.
    + apply obind_Ok_inv in E. destruct E as (y1 & E1 & E). apply obind_Ok_inv in E. destruct E as (cv & _ & E).
      apply obind_Ok_inv in E. destruct E as ([[[cs1 y2] r1] n1] & E2 & E). injection E as <- <- <- <-.
      destruct (IH _ _ _ _ _ _ _ E2) as (A & B & D & F). apply seg_set_length in E1. cbn [length]. split; [lia|]. split; [congruence|]. split; [constructor; cbn; rewrite ?Er; auto|].
      unfold sizeWrench, sizeForce, sizeTorque in F. lia.
    + apply obind_Ok_inv in E. destruct E as ([[[cs1 y2] r1] n1] & E2 & E). injection E as <- <- <- <-.
      destruct (IH _ _ _ _ _ _ _ E2) as (A & B & D & F). cbn [length]. split; [lia|]. split; [congruence|]. split; [constructor; auto; destruct c; cbn in *; subst; reflexivity|lia].
Qed.
Lemma prepare_inv md s s' : ko_prepare md s = Ok s' ->
  exists cs1 is' y1 r1 n1 cs' y2 r2 n2 p' y r, let kd := o_kdata s in
    drop_lost md kd (o_contacts s) (o_nreal s) = Ok (cs1, o_nreal s') /\
    let n := 6 * o_nimu s + 6 * o_nreal s' in let size := if p_time (o_pose s) =? kd then n + 7 else n in
    0 <= n /\ write_imus md kd (o_imus s) (repeat None (Z.to_nat size)) [] 0 = Ok (is', y1, r1, n1) /\
    write_contacts md cs1 y1 r1 n1 = Ok (cs', y2, r2, n2) /\
    (if p_time (o_pose s) =? kd then seg_set md n2 (map Some (p_sig (o_pose s))) y2 = Ok y /\ p_cov (o_pose s) <> None /\
        p' = mkPose (p_time (o_pose s)) (p_sig (o_pose s)) (p_cov (o_pose s)) n2
     else y = y2 /\ p' = o_pose s /\ r = r2) /\
    s' = set_meas y r (set_nreal (o_nreal s') (set_pose p' (set_imus is' (set_contacts cs' s)))).
Proof.
  unfold ko_prepare. intros E. apply obind_Ok_inv in E. destruct E as ([cs1 nr] & E1 & E). cbv zeta in E.
  change (sizeIMUSignal * o_nimu s + sizeWrench * nr) with (6 * o_nimu s + 6 * nr) in E. change sizePose with 7 in E.
  destruct (Z.ltb_spec (6 * o_nimu s + 6 * nr) 0); [discriminate|].
  apply obind_Ok_inv in E. destruct E as ([[[is' y1] r1] n1] & E2 & E). apply obind_Ok_inv in E. destruct E as ([[[cs' y2] r2] n2] & E3 & E).
  apply obind_Ok_inv in E. destruct E as ([[p' y] r] & E4 & E). injection E as <-.
  exists cs1, is', y1, r1, n1, cs', y2, r2, n2, p', y, r. cbv zeta. cbn [o_nreal set_meas set_nreal set_iter].
  split; [exact E1|]. split; [lia|]. split; [exact E2|]. split; [exact E3|]. split; [|reflexivity].
  destruct (p_time (o_pose s) =? o_kdata s).
  - apply obind_Ok_inv in E4. destruct E4 as (y3 & E5 & E4). apply obind_Ok_inv in E4. destruct E4 as (cv & E6 & E4). injection E4 as <- <- <-.
    split; [auto|]. split; [destruct (p_cov (o_pose s)); [discriminate|destruct md; discriminate]|reflexivity].
  - injection E4 as <- <- <-. auto.
Qed.
End P.
