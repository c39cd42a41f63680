(** Proofs of the statements of PropKin.v. *)
From Coq Require Import ZArith List Lia Bool.
From Verif Require Import Base KinObs SpecKin KinProofs KinInv.
Import ListNotations.
Open Scope Z_scope.

Set Default Proof Using "Type".
Section P.
Context {S : Type} (s0 : S) {Kn : Type} (kfirst : mode -> Kn -> outcome Kn) (kupd : mode -> Z -> Kn -> Kn -> outcome Kn).
Context {M : Type} (mzero : M -> bool) {C : Type}.
Notation obs := (obs S Kn M C).
Notation op := (ko_op S Kn M C).
Notation contact := (contact S Kn M C).
Notation imu := (imu S Kn C).
Notation step := (ko_step s0 kfirst kupd mzero).
Notation run := (ko_run s0 kfirst kupd mzero).
Implicit Types s : obs.

(** ** Layout *)
Definition cval (t : bool) (maxI : Z) (c : comp) : Z :=
  match c with
  | CPos => 0 | COri => 3 | CLinVel => if t then 6 else 7 | CAngVel => if t then 9 else 10
  | CGyro i => (if t then 12 else 13) + 3 * i
  | CUForce => (if t then 12 else 13) + 3 * maxI | CUTorque => (if t then 15 else 16) + 3 * maxI
  | CCPos j => if t then cidxT maxI j else cidx maxI j
  | CCOri j => (if t then cidxT maxI j else cidx maxI j) + 3
  | CCForce j => if t then cidxT maxI j + 6 else cidx maxI j + 7
  | CCTorque j => if t then cidxT maxI j + 9 else cidx maxI j + 10
  end.
Lemma contact_index_ok md maxC maxI s j : inv maxC maxI s -> In j (ko_getListOfContacts s) ->
  0 <= j < Z.of_nat maxC /\ ko_contactIndex md j s = Ok (cidx (Z.of_nat maxI) j) /\ ko_contactIndexTangent md j s = Ok (cidxT (Z.of_nat maxI) j).
Proof.
  intros Hi Hj. apply list_iff in Hj. destruct Hj as (H0 & c & Hc & Hs).
  assert (Z.to_nat j < length (o_contacts s))%nat by (apply nth_error_Some; congruence). rewrite (v_lC _ _ _ Hi) in H.
  split; [lia|]. unfold ko_contactIndex, ko_contactIndexTangent. rewrite (v_maxC _ _ _ Hi).
  destruct (Z.ltb_spec j (Z.of_nat maxC)); [|lia]. cbn [boost_assert obind]. rewrite (vec_at_ok _ _ _ H0 Hc). cbn [obind]. rewrite Hs. cbn [boost_assert obind].
  destruct (v_ci _ _ _ Hi _ _ Hc Hs) as [A B]. rewrite Z2Nat.id in * by lia. split; f_equal; assumption.
Qed.
Lemma comp_start_ok md t maxC maxI s c : inv maxC maxI s -> (md = Debug -> (0 < maxI)%nat) -> comp_exists s c ->
  comp_start md t s c = Ok (cval t (Z.of_nat maxI) c).
Proof.
  intros Hi Hm He.
  assert (G : forall i, 0 <= i -> (i < Z.of_nat maxI \/ (i = 0 /\ (md = Debug -> (0 < maxI)%nat))) -> gyroBiasIndex md (Z.of_nat maxI) i = Ok (13 + 3 * i) /\ gyroBiasIndexTangent md (Z.of_nat maxI) i = Ok (12 + 3 * i)).
  { intros i H0 [H|[-> H]]; [apply gyro_idx; auto|]. destruct md; [apply gyro_idx; specialize (H eq_refl); lia|].
    unfold gyroBiasIndex, gyroBiasIndexTangent, boost_assert. split; destruct (0 <? Z.of_nat maxI); reflexivity. }
  destruct c as [| | | |i| | |j|j|j|j]; cbn [comp_start cval comp_exists] in *; rewrite ?(v_maxI _ _ _ Hi) in *; try (destruct t; reflexivity).
  - destruct (G i) as [A B]; [lia|lia|]. destruct t; assumption.
  - destruct (G 0) as [A B]; [lia|right; auto|]. unfold unmodeledForceIndex, unmodeledForceIndexTangent, unmodeledWrenchIndex, unmodeledWrenchIndexTangent.
    destruct t; rewrite ?A, ?B; cbn [obind]; f_equal; unfold sizeGyroBias; lia.
  - destruct (G 0) as [A B]; [lia|right; auto|]. unfold unmodeledTorqueIndex, unmodeledTorqueIndexTangent, unmodeledForceIndex, unmodeledForceIndexTangent, unmodeledWrenchIndex, unmodeledWrenchIndexTangent.
    destruct t; rewrite ?A, ?B; cbn [obind]; f_equal; unfold sizeGyroBias, sizeForce; lia.
  - destruct (contact_index_ok md _ _ _ _ Hi He) as (_ & A & B). destruct t; assumption.
  - destruct (contact_index_ok md _ _ _ _ Hi He) as (_ & A & B). unfold ko_contactOriIndexTangent, ko_contactPosIndexTangent, ko_contactOriIndex, ko_contactPosIndex.
    destruct t; rewrite ?A, ?B; reflexivity.
  - destruct (contact_index_ok md _ _ _ _ Hi He) as (_ & A & B). unfold ko_contactForceIndexTangent, ko_contactForceIndex.
    destruct t; rewrite ?A, ?B; reflexivity.
  - destruct (contact_index_ok md _ _ _ _ Hi He) as (_ & A & B). unfold ko_contactTorqueIndexTangent, ko_contactTorqueIndex, ko_contactForceIndexTangent, ko_contactForceIndex.
    destruct t; rewrite ?A, ?B; cbn [obind]; f_equal; unfold sizeContactKine, sizeContactKineTangent, sizePose, sizePoseTangent, sizePos, sizeOri, sizeOriTangent, sizeForce; lia.
Qed.
Definition vsize (t : bool) (maxC maxI : nat) : Z := (if t then stateTangentSize else stateSize) (Z.of_nat maxC) (Z.of_nat maxI).
Lemma vsize_eq t maxC maxI : vsize t maxC maxI = (if t then cidxT else cidx) (Z.of_nat maxI) (Z.of_nat maxC).
Proof. unfold vsize. destruct t; [apply tangent_eq|]. rewrite <- nx_eq. unfold nx. rewrite Z2Nat.id; [reflexivity|]. unfold stateSize, sizeStateBase, sizeStateKine, sizeGyroBias, sizeContact, sizeContactKine, sizePose, sizeWrench, sizeForce, sizeTorque, sizeLinVel, sizeAngVel, sizeOri, sizeOriTangent, sizePos. lia. Qed.
Lemma comp_range s c maxC maxI : inv maxC maxI s -> comp_exists s c ->
  match c with CGyro i => 0 <= i < Z.of_nat maxI | CCPos j | CCOri j | CCForce j | CCTorque j => 0 <= j < Z.of_nat maxC | _ => True end.
Proof.
  intros Hi He. destruct c; cbn [comp_exists] in *; auto; try (eapply (contact_index_ok Release); eassumption).
  rewrite (v_maxI _ _ _ Hi) in He. exact He.
Qed.
Lemma layout_in t s c maxC maxI : inv maxC maxI s -> comp_exists s c ->
  0 <= cval t (Z.of_nat maxI) c /\ cval t (Z.of_nat maxI) c + comp_size t c <= vsize t maxC maxI.
Proof.
  intros Hi He. apply (comp_range _ _ _ _ Hi) in He. rewrite vsize_eq. unfold cidx, cidxT in *.
  destruct c, t; cbn [cval comp_size]; unfold cidx, cidxT; lia.
Qed.
Lemma layout_disj t s c c' maxC maxI : inv maxC maxI s -> comp_exists s c -> comp_exists s c' -> c <> c' ->
  cval t (Z.of_nat maxI) c + comp_size t c <= cval t (Z.of_nat maxI) c' \/ cval t (Z.of_nat maxI) c' + comp_size t c' <= cval t (Z.of_nat maxI) c.
Proof.
  intros Hi He He' Hne. apply (comp_range _ _ _ _ Hi) in He, He'.
  destruct c as [| | | |i| | |j|j|j|j], c' as [| | | |i'| | |j'|j'|j'|j'], t; cbn [cval comp_size]; unfold cidx, cidxT; try congruence; try lia.
  1-2: assert (i <> i') by congruence; lia.
  all: assert (j <> j') by congruence; lia.
Qed.
Lemma layout_cover t s maxC maxI z : inv maxC maxI s -> 0 <= z < vsize t maxC maxI ->
  (exists c, comp_exists s c /\ cval t (Z.of_nat maxI) c <= z < cval t (Z.of_nat maxI) c + comp_size t c) \/
  (exists j, 0 <= j < Z.of_nat maxC /\ ~ In j (ko_getListOfContacts s) /\ cval t (Z.of_nat maxI) (CCPos j) <= z < cval t (Z.of_nat maxI) (CCPos j) + (if t then 12 else 13)).
Proof.
  intros Hi Hz. rewrite vsize_eq in Hz.
  set (b := if t then 12 else 13).
  destruct (Z_lt_le_dec z 3); [left; exists CPos; cbn [comp_exists cval comp_size]; split; [exact I|lia]|].
  destruct (Z_lt_le_dec z (if t then 6 else 7)); [left; exists COri; cbn [comp_exists cval comp_size]; split; [exact I|]; destruct t; lia|].
  destruct (Z_lt_le_dec z (if t then 9 else 10)); [left; exists CLinVel; cbn [comp_exists cval comp_size]; split; [exact I|]; destruct t; lia|].
  destruct (Z_lt_le_dec z b); [left; exists CAngVel; cbn [comp_exists cval comp_size]; split; [exact I|]; unfold b in *; destruct t; lia|].
  destruct (Z_lt_le_dec z (b + 3 * Z.of_nat maxI)).
  { left. pose proof (Z.div_mod (z - b) 3 ltac:(lia)) as D. pose proof (Z.mod_pos_bound (z - b) 3 ltac:(lia)) as D'. set (q := (z - b) / 3) in *.
    exists (CGyro q). cbn [comp_exists cval comp_size]. rewrite (v_maxI _ _ _ Hi). change (if t then 12 else 13) with b. lia. }
  destruct (Z_lt_le_dec z (b + 3 + 3 * Z.of_nat maxI)); [left; exists CUForce; cbn [comp_exists cval comp_size]; split; [exact I|]; unfold b in *; destruct t; lia|].
  destruct (Z_lt_le_dec z (b + 6 + 3 * Z.of_nat maxI)); [left; exists CUTorque; cbn [comp_exists cval comp_size]; split; [exact I|]; unfold b in *; destruct t; lia|].
  set (j := (z - (b + 6 + 3 * Z.of_nat maxI)) / b). set (r := (z - (b + 6 + 3 * Z.of_nat maxI)) mod b).
  assert (Hb : 0 < b) by (unfold b; destruct t; lia).
  assert (Hjr : z - (b + 6 + 3 * Z.of_nat maxI) = b * j + r /\ 0 <= r < b) by (split; [apply Z.div_mod; lia|apply Z.mod_pos_bound; lia]).
  assert (Hj : 0 <= j < Z.of_nat maxC).
  { split; [apply Z.div_pos; lia|]. apply Z.div_lt_upper_bound; [lia|]. unfold cidx, cidxT, b in *. destruct t; lia. }
  destruct (in_dec Z.eq_dec j (ko_getListOfContacts s)) as [Hin|Hout].
  - left. destruct (Z_lt_le_dec r 3); [exists (CCPos j)|destruct (Z_lt_le_dec r (if t then 6 else 7)); [exists (CCOri j)|destruct (Z_lt_le_dec r (if t then 9 else 10)); [exists (CCForce j)|exists (CCTorque j)]]];
      cbn [comp_exists cval comp_size]; (split; [exact Hin|]); unfold cidx, cidxT, b in *; destruct t; lia.
  - right. exists j. split; [exact Hj|]. split; [exact Hout|]. cbn [cval]. unfold cidx, cidxT, b in *. destruct t; lia.
Qed.

(** ** Contacts *)
Lemma list_after maxC maxI s a : inv maxC maxI s -> sim maxC s a -> forall j, In j (ko_getListOfContacts s) <-> cs_present a j = true.
Proof.
  intros Hi Hs j. rewrite list_iff. split.
  - intros (H0 & c & Hc & E). rewrite <- E. rewrite (m_pres _ _ _ Hs _ _ Hc), Z2Nat.id by lia. reflexivity.
  - intros E. destruct (Z_lt_le_dec j 0); [rewrite (m_out _ _ _ Hs) in E by lia; discriminate|].
    destruct (Z_lt_le_dec j (Z.of_nat maxC)); [|rewrite (m_out _ _ _ Hs) in E by lia; discriminate].
    split; [lia|]. destruct (nth_error (o_contacts s) (Z.to_nat j)) as [c|] eqn:Hc.
    + exists c. split; [reflexivity|]. rewrite (m_pres _ _ _ Hs _ _ Hc), Z2Nat.id by lia. exact E.
    + apply nth_error_None in Hc. rewrite (v_lC _ _ _ Hi) in Hc. lia.
Qed.
Lemma list_bound maxC maxI s j : inv maxC maxI s -> In j (ko_getListOfContacts s) -> 0 <= j < Z.of_nat maxC.
Proof. intros Hi Hj. eapply (contact_index_ok Release); eassumption. Qed.
(** contact_search finds the first free contact. *)
Lemma search_spec s maxC maxI : inv maxC maxI s -> forall fuel n, 0 <= n -> n + Z.of_nat fuel = Z.of_nat maxC ->
  exists m, contact_search fuel (o_maxC s) (o_contacts s) n = Ok m /\ n <= m <= Z.of_nat maxC /\
    (forall j, n <= j < m -> In j (ko_getListOfContacts s)) /\ (m < Z.of_nat maxC -> ~ In m (ko_getListOfContacts s)).
Proof.
  intros Hi fuel. induction fuel as [|fuel IH]; intros n Hn Hf; cbn [contact_search].
  - exists n. split; [reflexivity|]. split; [lia|]. split; [lia|]. lia.
  - rewrite (v_maxC _ _ _ Hi). destruct (Z.ltb_spec n (Z.of_nat maxC)); [|lia]. destruct (vec_at_in n (o_contacts s)) as [c Hc]; [rewrite (v_lC _ _ _ Hi); lia|].
    rewrite Hc. cbn [obind]. apply vec_at_inv in Hc. destruct Hc as [_ Hc]. destruct (c_set c) eqn:Es.
    + destruct (IH (n + 1)) as (m & A & B & D & F); try lia. rewrite (v_maxC _ _ _ Hi) in A. exists m. split; [exact A|]. split; [lia|]. split; [|exact F].
      intros j Hj. destruct (Z.eq_dec j n) as [->|]; [|apply D; lia]. apply list_iff. split; [lia|]. eauto.
    + exists n. split; [reflexivity|]. split; [lia|]. split; [lia|]. intros _ Hin. apply list_iff in Hin. destruct Hin as (_ & c' & Hc' & E). congruence.
Qed.
Lemma list_set_iff s s' n c : 0 <= n -> nth_error (o_contacts s) (Z.to_nat n) <> None -> o_contacts s' = vec_set n c (o_contacts s) -> forall j,
  In j (ko_getListOfContacts s') <-> (if j =? n then c_set c = true else In j (ko_getListOfContacts s)).
Proof.
  intros Hn He E j. rewrite list_iff, E. destruct (Z.eqb_spec j n) as [->|Hne].
  - rewrite vec_set_nth, Nat.eqb_refl. destruct (nth_error (o_contacts s) (Z.to_nat n)); [|congruence]. split; [intros (_ & c1 & E1 & E2); congruence|eauto].
  - rewrite list_iff. split; intros (H0 & c1 & E1 & E2); (split; [exact H0|]); exists c1; (split; [|exact E2]).
    + rewrite vec_set_nth in E1. destruct (Nat.eqb_spec (Z.to_nat j) (Z.to_nat n)); [lia|exact E1].
    + rewrite vec_set_nth. destruct (Nat.eqb_spec (Z.to_nat j) (Z.to_nat n)); [lia|exact E1].
Qed.
Lemma add_ok md maxC maxI s pv num st : inv maxC maxI s -> (md = Debug -> (0 < maxI)%nat) -> length pv = 7%nat ->
  forall n, 0 <= n < Z.of_nat maxC -> ~ In n (ko_getListOfContacts s) ->
  (num = n \/ (num < 0 /\ forall j, 0 <= j < n -> In j (ko_getListOfContacts s))) ->
  exists s', ko_addContact s0 mzero md pv num st s = Ok (n, s') /\ forall j, In j (ko_getListOfContacts s') <-> j = n \/ In j (ko_getListOfContacts s).
Proof.
  intros Hi Hm Hp n Hn Hfree Hnum.
  assert (E1 : (if num <? 0 then contact_search (Z.to_nat (o_maxC s)) (o_maxC s) (o_contacts s) 0 else Ok num) = Ok n).
  { destruct Hnum as [->|[Hneg Hall]]; [destruct (Z.ltb_spec n 0); [lia|reflexivity]|].
    destruct (Z.ltb_spec num 0); [|lia]. destruct (search_spec s maxC maxI Hi maxC 0) as (m & A & B & D & F); [lia|lia|].
    rewrite (v_maxC _ _ _ Hi) in *. rewrite Nat2Z.id, A. f_equal. destruct (Z.lt_trichotomy m n) as [L|[L|L]]; [|exact L|].
    - exfalso. apply F; [lia|]. apply Hall. lia.
    - exfalso. apply Hfree, D. lia. }
  unfold ko_addContact. rewrite E1. cbn [obind]. rewrite (v_maxC _ _ _ Hi). destruct (Z.ltb_spec n (Z.of_nat maxC)); [|lia]. cbn [boost_assert obind].
  destruct (Z.leb_spec (Z.of_nat maxC) n); [lia|]. destruct (vec_at_in n (o_contacts s)) as [c Hc]; [rewrite (v_lC _ _ _ Hi); lia|]. rewrite Hc. cbn [obind].
  apply vec_at_inv in Hc. destruct Hc as [_ Hc].
  assert (Hs : c_set c = false) by (destruct (c_set c) eqn:Es; [exfalso; apply Hfree, list_iff; split; [lia|eauto]|reflexivity]).
  rewrite Hs. cbn [negb boost_assert obind]. destruct (contacts_idx_ok md (o_maxI s)) as [A B]; [intros Hd; rewrite (v_maxI _ _ _ Hi); specialize (Hm Hd); lia|].
  rewrite A, B. cbn [obind]. destruct st as [[[lk ld] ak] ad]. destruct (o_dstiff s) as [[[dlk dld] dak] dad] eqn:Ed.
  rewrite seg_set_ok.
  - cbn [obind]. eexists. split; [reflexivity|]. intros j.
    match goal with |- In j (ko_getListOfContacts ?s') <-> _ => rewrite (list_set_iff s s' n _ (proj1 Hn) ltac:(congruence) eq_refl) end. cbn [c_set]. destruct (Z.eqb_spec j n) as [->|Hne]; [split; auto|]. split; [auto|]. intros [?|?]; [contradiction|auto].
  - unfold cidx, sizeContact, sizeContactKine, sizePose, sizeWrench, sizeForce, sizeTorque, sizeOri, sizePos. rewrite (v_maxI _ _ _ Hi). lia.
  - rewrite app_length, repeat_length, Hp, (v_x _ _ _ Hi), nx_eq. unfold cidx, sizeContact, sizeContactKine, sizePose, sizeWrench, sizeForce, sizeTorque, sizeOri, sizePos. rewrite (v_maxI _ _ _ Hi). lia.
Qed.
Lemma remove_release s n : In n (ko_getListOfContacts s) ->
  exists s', ko_removeContact Release n s = Ok s' /\ forall j, In j (ko_getListOfContacts s') <-> j <> n /\ In j (ko_getListOfContacts s).
Proof.
  intros Hn. apply list_iff in Hn. destruct Hn as (H0 & c & Hc & Hs). unfold ko_removeContact. rewrite (vec_at_ok _ _ _ H0 Hc). cbn [obind]. rewrite Hs. cbn [negb boost_assert obind].
  eexists. split; [reflexivity|]. intros j. match goal with |- In j (ko_getListOfContacts ?s') <-> _ => rewrite (list_set_iff s s' n _ H0 ltac:(congruence) eq_refl) end. cbn [c_set].
  destruct (Z.eqb_spec j n) as [->|Hne]; [split; [discriminate|intros [? ?]; congruence]|split; [auto|intros [_ ?]; auto]].
Qed.
Lemma remove_debug s n : In n (ko_getListOfContacts s) -> ko_removeContact Debug n s = AssertFail.
Proof. intros Hn. apply list_iff in Hn. destruct Hn as (H0 & c & Hc & Hs). unfold ko_removeContact. rewrite (vec_at_ok _ _ _ H0 Hc). cbn [obind]. rewrite Hs. reflexivity. Qed.
Lemma add_after_clear md pv num st s r : ko_addContact s0 mzero md pv num st (ko_clearContacts s) <> Ok r.
Proof.
  intros E. destruct r as [n s']. apply add_inv in E. destruct E as (n0 & c & x & _ & _ & _ & _ & Hc & _). cbn in Hc.
  destruct (Z.to_nat n); discriminate.
Qed.

(** ** IMU numbers *)
Lemma imu_search_inv kd (l : list imu) : forall n m, imu_search kd l n = Ok m -> n <= m /\ exists i, nth_error l (Z.to_nat (m - n)) = Some i /\ i_time i = kd.
Proof.
  induction l as [|i l IH]; intros n m E; cbn [imu_search] in E; [discriminate|]. destruct (Z.eqb_spec (i_time i) kd) as [Et|Et].
  - injection E as <-. rewrite Z.sub_diag. cbn. split; [lia|]. eauto.
  - apply IH in E. destruct E as (H & i' & E & E'). split; [lia|]. exists i'. split; [|exact E'].
    replace (Z.to_nat (m - n)) with (Datatypes.S (Z.to_nat (m - (n + 1)))) by lia. exact E.
Qed.
Lemma imu_auto_debug sig cov k num s r : num < 0 -> ko_setIMU kfirst kupd Debug sig cov k num s <> Ok r.
Proof.
  intros Hn E. destruct r as [n s']. apply setIMU_inv in E. destruct E as (i & k' & E1 & H0 & Hi & Hd & _). destruct (Z.ltb_spec num 0); [|lia].
  apply imu_search_inv in E1. destruct E1 as (_ & i' & Ei & Et). rewrite Z.sub_0_r in Ei. destruct (Hd eq_refl) as [_ Hlt]. rewrite Hi in Ei. injection Ei as ->. lia.
Qed.
Lemma imu_search_none kd (l : list imu) : Forall (fun i => i_time i < kd) l -> forall n, imu_search kd l n = UB.
Proof. intros H. induction H as [|i l Hi H IH]; intros n; cbn [imu_search]; [reflexivity|]. destruct (Z.eqb_spec (i_time i) kd); [lia|auto]. Qed.
Lemma imu_auto_fresh md maxC maxI sig cov k num s : inv maxC maxI s -> o_kest s = o_kdata s -> num < 0 -> ko_setIMU kfirst kupd md sig cov k num s = UB.
Proof.
  intros Hi Hk Hn. unfold ko_setIMU. cbv zeta. destruct (Z.ltb_spec num 0); [|lia]. rewrite imu_search_none; [reflexivity|].
  unfold ko_start. rewrite Hk, Z.eqb_refl. cbn. eapply Forall_impl; [|apply (v_imu _ _ _ Hi)]. cbn. unfold time_ok. intros i [? _]. lia.
Qed.
End P.
