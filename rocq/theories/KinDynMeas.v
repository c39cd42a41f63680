(** The predicted measurements and the balances of the kinetics observer. *)
From Coq Require Import Reals ZArith List Bool Lia Lra.
From Verif Require Import Base Vec3 Rot SpecRot RotProofs Orient SpecOrient OrientProofs Kine SpecKine KineProofs KineProofs2
  KinObs SpecKin KinSum SpecKinSum KinProofs KinInv KinThms SegProofs KinSumProofs KinSumProofs2 KinDyn SpecKinDyn KinDynProofs KinDynProofs2 KinDynThms.
Import ListNotations.
Open Scope R_scope.

(** ** States of the observer during an update *)
Lemma prepare_keep {S Kn M C : Type} md maxC maxI (s s' : obs S Kn M C) : inv maxC maxI s -> ko_prepare md s = Ok s' -> inv maxC maxI s'.
Proof.
  intros Hi E1. apply prepare_shape in E1. destruct E1 as ((y & r & p & E1 & P1 & P2 & P3) & FC & FI).
  destruct Hi as [H1 H2 H3 H4 H5 H6 H7 H8 H9 H10 H11].
  assert (Hk : o_kest s' = o_kest s /\ o_kdata s' = o_kdata s /\ o_ekf s' = o_ekf s /\ o_maxC s' = o_maxC s /\ o_maxI s' = o_maxI s /\ o_pose s' = p /\ o_state s' = o_state s) by (rewrite E1; cbn; repeat split).
  destruct Hk as (K1 & K2 & K3 & K4 & K5 & K6 & K7).
  constructor; rewrite ?K1, ?K2, ?K3, ?K4, ?K5, ?K6, ?K7; auto.
  + rewrite <- (Forall2_len _ _ _ FC). auto.
  + rewrite <- (Forall2_len _ _ _ FI). auto.
  + eapply Forall2_Forall; [|exact FI|exact H8]. cbn. intros i i' (A & B & _) [D F]. unfold time_ok, cur in *. rewrite A, B, ?K1, ?K2. auto.
  + rewrite P1, P2, P3. unfold time_ok, cur in *. rewrite ?K1, ?K2. auto.
  + eapply Forall2_Forall; [|exact FC|exact H10]. cbn. intros c c' A [D F]. rewrite A. cbn. unfold time_ok in *. rewrite ?K2. split; [auto|].
    intros R. apply lost_props in R. auto.
  + intros j c' Ej Hs. destruct (Forall2_nth _ _ _ FC _ _ Ej) as (c & Ec & A). rewrite A in Hs |- *. cbn in *. apply lost_props in Hs. eauto.
Qed.

Lemma use_inv {S Kn M C : Type} (s0 : S) (k0 : Kn) kfirst kupd (mzero : M -> bool) md maxC maxI ds di dw dp (s : obs S Kn M C) h s' :
  ko_init s0 k0 md maxC maxI ds di dw dp = Ok s -> forallb no_clear h = true -> Forall (wf_op (nx maxC maxI)) h -> in_use s0 kfirst kupd mzero md h s s' ->
  inv maxC maxI s' /\ (md = Debug -> (0 < maxI)%nat).
Proof.
  intros E0 Hn Hw Hu. split; [|intros ->; eapply init_debug; exact E0]. pose proof (init_inv _ _ _ _ _ _ _ _ _ _ E0) as Hi0.
  destruct Hu as [E|(s1 & E & E1)]; [|eapply prepare_keep; [|exact E1]]; eapply run_inv; eauto.
Qed.

Set Default Proof Using "Type".
Section P.
Context {C : Type}.
Notation obs := (obs R Kin M3 C).
Notation contact := (contact R Kin M3 C).
Notation imu := (imu R Kin C).
Implicit Types s : obs.

(** ** Measurements *)
Lemma measure_imus_eq md kd k h : forall (is : list imu) z y,
  (forall j i, nth_error is j = Some i -> i_time i = kd -> imu_predict md k i = Ok (h (z + Z.of_nat j)%Z)) ->
  measure_imus md kd k is y = predict_imus md kd h is z y.
Proof.
  induction is as [|i is IH]; intros z y H; cbn [measure_imus predict_imus]; [reflexivity|].
  assert (H' : forall j i', nth_error is j = Some i' -> i_time i' = kd -> imu_predict md k i' = Ok (h (z + 1 + Z.of_nat j)%Z)).
  { intros j i' E T. replace (z + 1 + Z.of_nat j)%Z with (z + Z.of_nat (S j))%Z by lia. apply H; assumption. }
  destruct (Z.eqb_spec (i_time i) kd) as [T|T].
  - rewrite (H 0%nat i eq_refl T). rewrite Z.add_0_r. cbn [obind]. destruct (seg_set md (i_midx i) (map Some (h z)) y); cbn [obind]; auto.
  - cbn [obind]. auto.
Qed.
Lemma measure_contacts_eq md kd x h : forall (cs : list contact) z y,
  (forall j c, nth_error cs j = Some c -> c_set c = true -> (0 < c_sidx c)%Z /\ seg_rd md (c_sidx c + sizeContactKine) 6 x = Ok (h (z + Z.of_nat j)%Z)) ->
  measure_contacts md kd x cs y = predict_contacts md kd h cs z y.
Proof.
  induction cs as [|c cs IH]; intros z y H; cbn [measure_contacts predict_contacts]; [reflexivity|].
  assert (H' : forall j c', nth_error cs j = Some c' -> c_set c' = true -> (0 < c_sidx c')%Z /\ seg_rd md (c_sidx c' + sizeContactKine) 6 x = Ok (h (z + 1 + Z.of_nat j)%Z)).
  { intros j c' E T. replace (z + 1 + Z.of_nat j)%Z with (z + Z.of_nat (S j))%Z by lia. apply H; assumption. }
  destruct (c_set c) eqn:Es; cbn [andb]; [|cbn [obind]; auto]. destruct (H 0%nat c eq_refl Es) as [H1 H2]. rewrite Z.add_0_r in H2.
  destruct ((c_time c =? kd)%Z && c_real c); [|cbn [obind]; auto].
  assert (P : (0 <? c_sidx c)%Z = true) by (apply Z.ltb_lt; exact H1). rewrite P, assert_true. cbn [obind]. rewrite H2. cbn [obind].
  destruct (seg_set md (c_midx c) (map Some (h z)) y); cbn [obind]; auto.
Qed.
(** What an ideal IMU carried by a frame with motion [mo] measures. *)
Definition ideal_imu (mo : motion) (t : R) : list R :=
  l3 (mvec (mtr (mr mo t)) (vadd (ma mo t) gravity)) ++ l3 (mvec (mtr (mr mo t)) (mw mo t)).
Lemma imu_predict_ok md k (i : imu) mo mi t : holds k mo t -> holds (i_kine i) mi t -> imu_predict md k i = Ok (ideal_imu (mo_mul mo mi) t).
Proof.
  intros (P1 & C1 & R1 & V1 & W1 & A1 & L1) (P2 & C2 & R2 & V2 & W2 & A2 & L2). unfold imu_predict.
  destruct (k_mul_ok md k (i_kine i) _ C1 C2 R1) as (g & a' & l & E1 & Hg & Pg & Og & Vg & Wg & Ag & _); [left; congruence|].
  rewrite E1. cbn [obind]. rewrite R2 in Og. cbn [c_o] in Og. destruct (toMat_ok md _ _ Hg Og) as (o & E2 & _). rewrite E2. cbn [obind].
  rewrite P1, P2, V1, V2, W1, A1, L1, A2 in Ag. cbn [c_a] in Ag. rewrite R2, W1, W2 in Wg. cbn [c_w] in Wg. rewrite Ag, Wg. cbn [oget obind]. reflexivity.
Qed.
Lemma measure_eq md maxC maxI s x a noise m c cd cdd sg sgd In' Id aF aT dt mo mi hI t : inv maxC maxI s -> (md = Debug -> (0 < maxI)%nat) -> length x = nx maxC maxI -> contacts_at s a ->
  qn2 (qat md s x) = 1 ->
  let b := bodyv m c cd cdd sg sgd In' Id aF aT dt in
  let r := qrot (qat md s x) in let wl := mvec (mtr r) (vat md s x CAngVel) in
  let F := total_force md b s a x in let T := total_torque md b s a x in let al := al_loc m c cd cdd sg sgd In' Id wl F T in
  mp mo t = vat md s x CPos -> mr mo t = r -> mv mo t = vat md s x CLinVel -> mw mo t = vat md s x CAngVel ->
  ma mo t = vsub (mvec r (la_loc m c cd cdd wl F al)) gravity -> mal mo t = mvec r al ->
  (forall j i, nth_error (o_imus s) j = Some i -> i_time i = o_kdata s -> holds (i_kine i) (mi (Z.of_nat j)) t /\ ideal_imu (mo_mul mo (mi (Z.of_nat j))) t = hI (Z.of_nat j)) ->
  ko_measure md b noise s x (o_kdata s) = ko_measureDynamics md hI
    (fun j => l3 (vat md s x (CCForce j)) ++ l3 (vat md s x (CCTorque j))) (part md false s CPos x ++ part md false s COri x) s.
Proof.
  intros Hi Hm Lx Ha Hq b r wl F T al M1 M2 M3' M4 M5 M6 HH. unfold ko_measure, ko_measureDynamics.
  destruct (state_kine_ok md maxC maxI s x a m c cd cdd sg sgd In' Id aF aT dt Hi Hm Lx Ha Hq) as (o & E & Ho & Ro & Qo). fold b in E. rewrite E. cbn [obind]. clear E.
  fold r wl in Ro |- *. fold F T. fold al. rewrite <- M1, <- M3', <- M4, <- M5, <- M6.
  set (k := mkK _ o _ _ _ _).
  assert (Hk : holds k mo t) by (unfold holds, k; cbn; rewrite M2; auto 10).
  pose proof (nx_eq maxC maxI) as NE. unfold cidx in NE.
  rewrite (measure_imus_eq md (o_kdata s) k hI (o_imus s) 0%Z).
  2:{ intros j i Ej Ti. destruct (HH _ _ Ej Ti) as [H1 H2]. cbn [Z.add]. rewrite <- H2. apply imu_predict_ok; assumption. }
  destruct (predict_imus md (o_kdata s) _ (o_imus s) 0 _) as [y1| | |]; try reflexivity. cbn [obind].
  rewrite (measure_contacts_eq md (o_kdata s) x (fun j => l3 (vat md s x (CCForce j)) ++ l3 (vat md s x (CCTorque j))) (o_contacts s) 0%Z).
  2:{ intros j ct Ej Es. cbn [Z.add]. destruct (v_ci _ _ _ Hi _ _ Ej Es) as [A _]. rewrite A.
      assert (Hj : (j < maxC)%nat) by (rewrite <- (v_lC _ _ _ Hi); apply nth_error_Some; congruence).
      assert (HL : In (Z.of_nat j) (ko_getListOfContacts s)) by (apply list_iff; split; [lia|]; exists ct; rewrite Nat2Z.id; auto).
      split; [unfold cidx; lia|]. change sizeContactKine with 7%Z. rewrite seg_rd_ok by (unfold cidx; lia). f_equal.
      unfold vat. rewrite !(part_eq md maxC maxI s _ x Hi Hm) by exact HL. cbn [cval comp_size]. change (Z.to_nat 3) with 3%nat.
      set (i7 := Z.to_nat (cidx (Z.of_nat maxI) (Z.of_nat j) + 7)). replace (Z.to_nat (cidx (Z.of_nat maxI) (Z.of_nat j) + 10)) with (i7 + 3)%nat by (unfold i7, cidx; lia).
      assert (B : (i7 + 6 <= length x)%nat) by (unfold i7, cidx; lia).
      rewrite !l3_vec by (apply seg_get_length; lia).
      apply nth_error_ext. intros n. rewrite nth_error_seg. destruct (Nat.ltb_spec n 6).
      - destruct (Nat.ltb_spec n 3).
        + rewrite nth_error_app1 by (rewrite seg_get_length by lia; lia). rewrite nth_error_seg. destruct (Nat.ltb_spec n 3); [reflexivity|lia].
        + rewrite nth_error_app2 by (rewrite seg_get_length by lia; lia). rewrite seg_get_length by lia. rewrite nth_error_seg. destruct (Nat.ltb_spec (n - 3) 3); [|lia]. f_equal. lia.
      - symmetry. apply nth_error_None. rewrite app_length, !seg_get_length by lia. lia. }
  destruct (predict_contacts md (o_kdata s) _ (o_contacts s) 0 y1) as [y2| | |]; try reflexivity. cbn [obind].
  destruct (p_time (o_pose s) =? o_kdata s)%Z; [|reflexivity]. unfold k. rewrite (to_vec_pose md _ _ _ _ _ _ (qat md s x) Qo). cbn [obind].
  assert (X : l3 (mp mo t) ++ l4 (qat md s x) = part md false s CPos x ++ part md false s COri x).
  { rewrite M1. unfold vat, qat. rewrite !(part_eq md maxC maxI s _ x Hi Hm) by exact I. cbn [cval comp_size]. change (Z.to_nat 0) with 0%nat. change (Z.to_nat 3) with 3%nat. change (Z.to_nat 4) with 4%nat.
    rewrite l3_vec, l4_quat by (apply seg_get_length; lia). reflexivity. }
  rewrite X. destruct (seg_set md _ _ y2); reflexivity.
Qed.

(** ** Balances *)
Lemma newton_loc r m c cd cdd (w F al : V3) : so3 r -> m <> 0 -> let wl := mvec (mtr r) w in let A := vsub (mvec r (la_loc m c cd cdd wl F al)) gravity in
  vscal m (vadd (vadd (vadd (vadd (mvec r cdd) (vcross (mvec r al) (mvec r c))) (vcross w (vadd (vadd (vcross w (mvec r c)) (mvec r cd)) (mvec r cd)))) A) gravity) =
  mvec r (vsub F (vscal m (vcross wl (vcross wl c)))).
Proof.
  intros S Hm wl A. assert (W : w = mvec r wl) by (unfold wl; symmetry; apply so3_vec_tr; exact S).
  unfold A. rewrite W at 1 2. rewrite <- !(so3_cross r) by exact S. rewrite <- !mvec_add, <- !(so3_cross r), <- !mvec_add by exact S. clearbody wl. clear A W w.
  unfold la_loc, corio. revert S. clear - Hm. intros _.
  assert (X : forall u v : V3, vscal m (vadd (vadd (mvec r u) (vsub (mvec r v) gravity)) gravity) = mvec r (vscal m (vadd u v))).
  { clear. intros. d3; u3. f_equal; ring. }
  rewrite X. f_equal. clear X r. d3; u3. f_equal; field; exact Hm.
Qed.
End P.
