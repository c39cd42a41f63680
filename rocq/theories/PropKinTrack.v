(** C168: the kinetics observer follows the trajectories of its own model. *)
From Coq Require Import Reals ZArith List Bool Lia Lra.
From Verif Require Import Base Vec3 Rot SpecRot RotProofs Orient SpecOrient OrientProofs Kine KinObs SpecKin KSize KinSum SpecKinSum KinProofs KinInv KinInputProofs KinDyn SpecKinDyn
  KinThms SegProofs KinSumProofs KinSumProofs2 RotProofs2 RotProofs3 KinDynProofs KinDynProofs2 KinDynThms KinDynMeas KinSumThms KinNanProofs KinEkf KinEkfProofs KinEkfThms KinTrack PropKinSum PropKinDyn PropKinEkf.
Import ListNotations.
Open Scope Z_scope.

Section KineticsTrack.
Context (k0 : Kin) (kfirst : mode -> Kin -> outcome Kin) (kupd : mode -> Z -> Kin -> Kin -> outcome Kin) (mzero : M3 -> bool) {C : Type}.
Notation obs := (obs R Kin M3 C).
Notation init := (ko_init 0%R k0).
Notation erun := (est_run kfirst kupd mzero).
Implicit Types s : obs.

(** ** C168 *)
(** After any history of calls and updates [h], the filter holds the state x. Then any number of cycles follow, in which the true state, x at first, moves as
    the model says and the sensors report what the model says. All updates succeed and the estimate is the true state after the last, whatever
    the gains. *)
Theorem C168_follows_its_model md maxC maxI ds di dw dp s (h : list (est_op C)) t x ops x' :
  init md maxC maxI ds di dw dp = Ok s -> (md = Debug -> (0 < maxI)%nat) -> Forall (est_ok maxC maxI) h -> erun md h s = Ok t ->
  o_ekf t = x -> exact_run kfirst kupd mzero md maxC maxI t x ops x' ->
  exists t', erun md (h ++ ops) s = Ok t' /\ o_ekf t' = x' /\ o_kest t' = o_kest t + updates ops /\ (ops <> [] -> o_state t' = x').
Proof.
  intros E0 Hm Ho E Ex H. pose proof (init_inv _ _ _ _ _ _ _ _ _ _ E0) as Hi. pose proof (est_run_inv kfirst kupd mzero md maxC maxI h s t Ho Hm Hi E) as Hi'.
  destruct (exact_run_ok kfirst kupd mzero md maxC maxI t x ops x' H Hm Hi' Ex) as (t' & E' & F & K & S).
  exists t'. unfold est_run in *. rewrite orun_app, E. cbn [obind]. split; [exact E'|]. split; [exact F|]. split; [exact K|]. intros Hne. apply S.
  destruct H; [contradiction|]. rewrite updates_app. unfold updates. cbn [filter length]. lia.
Qed.
(** ** C169 *)
(** After any history of calls and updates, an update with new signals and no absolute pose succeeds. The gain is given the difference between the
    measurements and the ones predicted from the predicted state, entry by entry. Every component of the estimate that is in use is the predicted one plus
    its part of the correction; the orientations are turned by the rotation vector of their part, in the world frame; other entries are the predicted ones. *)
Theorem C169_correction md maxC maxI ds di dw dp s (h : list (est_op C)) s1 s2 b noise noise' gain d0 xbar y yb :
  init md maxC maxI ds di dw dp = Ok s -> (md = Debug -> (0 < maxI)%nat) -> Forall (est_ok maxC maxI) h -> erun md h s = Ok s1 ->
  o_kest s1 <> o_kdata s1 -> p_time (o_pose s1) <> o_kdata s1 -> ko_prepare md s1 = Ok s2 ->
  ko_stateDynamics md b noise s2 (o_ekf s1) = Ok xbar -> ko_measure md b noise' s2 xbar (o_kdata s1) = Ok (map Some yb) -> o_meas s2 = map Some y ->
  length yb = length y -> length d0 = length y -> (forall d, length (gain d) = Z.to_nat (stateTangentSize (Z.of_nat maxC) (Z.of_nat maxI))) ->
  exists d s3, length d = length y /\ (forall k a c, nth_error y k = Some a -> nth_error yb k = Some c -> nth_error d k = Some (a - c)%R) /\
    erun md (h ++ [EUpdate b noise noise' gain d0]) s = Ok s3 /\ o_ekf s3 = o_state s3 /\ o_kest s3 = o_kest s1 + 1 /\
    (forall c, active s2 c -> is_ori c = false -> vec_of (part md false s2 c (o_state s3)) = vadd (vec_of (part md false s2 c xbar)) (vec_of (part md true s2 c (gain d)))) /\
    (forall c, active s2 c -> is_ori c = true -> let v := vec_of (part md true s2 c (gain d)) in let q := quat_of (part md false s2 c xbar) in
       (qn2 q = 1 -> v = v0 \/ / 10000000000000000 < vnorm v ->
        qn2 (quat_of (part md false s2 c (o_state s3))) = 1 /\ qrot (quat_of (part md false s2 c (o_state s3))) = mmul (rodrigues v) (qrot q))%R) /\
    (forall k, outside md false s2 k -> nth_error (o_state s3) k = nth_error xbar k).
Proof.
  intros E0 Hm Ho E Hk Hp Ep Ex Ey Em Lb Ld Hg. pose proof (init_inv _ _ _ _ _ _ _ _ _ _ E0) as Hi0. pose proof (est_run_inv kfirst kupd mzero md maxC maxI h s s1 Ho Hm Hi0 E) as Hi.
  destruct (any_update md maxC maxI s1 s2 b noise noise' gain d0 xbar y yb Hi Hm Hk Ep Hp Ex Ey Em Lb Ld Hg) as (d & s3 & Dl & Dn & Hi2 & Lx & Es & Eu & Ee & Ek).
  exists d, s3. split; [exact Dl|]. split; [exact Dn|]. split; [unfold est_run in *; rewrite orun_app, E; cbn [obind orun est_step]; rewrite Eu; reflexivity|].
  split; [exact Ee|]. split; [exact Ek|].
  assert (Lg : Z.of_nat (length (gain d)) = stateTangentSize (Z.of_nat maxC) (Z.of_nat maxI)).
  { rewrite Hg, Z2Nat.id; [reflexivity|]. unfold stateTangentSize. change sizeStateTangentBase with 18. change sizeGyroBias with 3. change sizeContactTangent with 12. lia. }
  destruct (sum_ok md maxC maxI s2 xbar (gain d) Hi2 Hm Lx Lg) as (x3 & Es' & _ & S1 & S2 & S3). rewrite Es in Es'. injection Es' as <-.
  assert (V1 : Z.of_nat (length xbar) = vsize false maxC maxI) by (unfold nx in *; rewrite Lx, vsize_eq, <- nx_eq; reflexivity).
  split; [|split].
  - intros c Ha Hc. rewrite !(part_ok md maxC maxI) by assumption. rewrite (S1 c Ha Hc).
    pose proof (sg_length maxC maxI s2 true c (gain d) Hi2 Ha Lg) as L1. pose proof (sg_length maxC maxI s2 false c xbar Hi2 Ha V1) as L2.
    assert (Z3 : forall t, Z.to_nat (comp_size t c) = 3%nat) by (intros []; destruct c; try discriminate; reflexivity). rewrite Z3 in L1, L2. rewrite !Z3.
    match goal with |- vec_of (zip _ ?u ?v) = _ => destruct u as [|? [|? [|? [|]]]]; try discriminate; destruct v as [|? [|? [|? [|]]]]; try discriminate end. reflexivity.
  - intros c Ha Hc v q Hq Hv. rewrite (part_ok md maxC maxI s2 false c (o_state s3)) by assumption. rewrite (S2 c Ha Hc), quat_l4.
    rewrite <- (part_ok md maxC maxI s2 true c (gain d) Hi2 Hm Ha), <- (part_ok md maxC maxI s2 false c xbar Hi2 Hm Ha). fold v q.
    split; [rewrite qn2_mul, rv_quat_unit, Hq; ring|]. rewrite qrot_mul; [|apply rv_quat_unit|exact Hq]. rewrite <- rv_mat_quat, rv_rodrigues; [reflexivity|].
    destruct Hv as [Hv|Hv]; [right; exact Hv|left]. unfold tiny. rewrite <- vnorm_sq. change (/ 10000000000000000)%R with epsA in Hv. pose proof epsA_pos. nra.
  - intros k Hout. apply S3. eapply outside_ok; eassumption.
Qed.
End KineticsTrack.

(** A case: that of C157, with the calls that set up the robot as history and the report of the force sensor as first cycle. *)
Example C168_case dt : exists s t x', xinit Debug 1 1 = Ok s /\ (Debug = Debug -> (0 < 1)%nat) /\
  let h := map ECall (firstn 2 whist) in let ops := map ECall (skipn 2 whist) ++ [EUpdate (xbody q1 dt) None None wgain (repeat 0%R 6)] in
  Forall (est_ok 1 1) h /\ est_run (fun _ k => Ok k) (fun _ _ _ k => Ok k) (fun _ => false) Debug h s = Ok t /\
  exact_run (fun _ k => Ok k) (fun _ _ _ k => Ok k) (fun _ => false) Debug 1 1 t (o_ekf t) ops x' /\ updates ops = 1.
Proof.
  destruct (C157_case dt) as (s & s1 & s2 & xbar & E0 & E1 & K1 & K2 & Ep & Ex & Ey & Em & Eg).
  destruct (xrun Debug (firstn 2 whist) s) as [t| | |] eqn:Et; try (clear - E0 Et; vm_compute in E0; injection E0 as <-; vm_compute in Et; discriminate).
  assert (E2 : xrun Debug (skipn 2 whist) t = Ok s1).
  { unfold xrun, ko_run in *. change whist with (firstn 2 whist ++ skipn 2 whist) in E1. rewrite orun_app, Et in E1. exact E1. }
  exists s, t, xbar. split; [exact E0|]. split; [lia|]. cbv zeta. split; [|split; [|split; [|reflexivity]]].
  - cbn [map whist firstn]. repeat (apply Forall_cons; [split; (reflexivity || exact I)|]). apply Forall_nil.
  - rewrite calls_run. exact Et.
  - assert (Fe : o_ekf s1 = o_ekf t) by (apply (sensors_ekf (fun _ k => Ok k) (fun _ _ _ k => Ok k) (fun _ => false) Debug (skipn 2 whist) t s1); [reflexivity|exact E2]).
    rewrite Fe in Ex. eapply exact_cycle with (y := repeat 0%R 6); eauto.
    + cbn [whist skipn]. apply Forall_cons; [reflexivity|apply Forall_nil].
    + intros s3 _. apply exact_stop.
Qed.

(** A case: the same robot, whose sensor reports 1 N more than predicted, with a gain that gives this difference to all entries. The position moves by 1 m along
    each axis. *)
Example C169_case dt : exists s s1 s2 xbar s3, xinit Debug 1 1 = Ok s /\ est_run (fun _ k => Ok k) (fun _ _ _ k => Ok k) (fun _ => false) Debug (map ECall (whist_w 1)) s = Ok s1 /\
  ko_prepare Debug s1 = Ok s2 /\ ko_stateDynamics Debug (xbody q1 dt) None s2 (o_ekf s1) = Ok xbar /\
  est_run (fun _ k => Ok k) (fun _ _ _ k => Ok k) (fun _ => false) Debug (map ECall (whist_w 1) ++ [EUpdate (xbody q1 dt) None None wgain (repeat 0%R 6)]) s = Ok s3 /\
  vec_of (part Debug false s2 CPos (o_state s3)) = vadd (vec_of (part Debug false s2 CPos xbar)) (mkV 1 1 1)%R.
Proof.
  destruct (w_case dt 1) as (s & s1 & s2 & xbar & E0 & E1 & K1 & K2 & Ep & Ex & Ey & Em & _).
  assert (R1 : est_run (fun _ k => Ok k) (fun _ _ _ k => Ok k) (fun _ => false) Debug (map ECall (whist_w 1)) s = Ok s1) by (rewrite calls_run; exact E1).
  destruct (C169_correction k_empty (fun _ k => Ok k) (fun _ _ _ k => Ok k) (fun _ => false) Debug 1 1 _ _ _ _ s (map ECall (whist_w 1)) s1 s2 (xbody q1 dt) None None wgain (repeat 0%R 6) xbar
    [1; 0; 0; 0; 0; 0]%R (repeat 0%R 6) E0) as (d & s3 & Dl & Dn & E3 & _ & _ & P & _); auto.
  - cbn [map whist_w]. repeat (apply Forall_cons; [split; (reflexivity || exact I)|]). apply Forall_nil.
  - exists s, s1, s2, xbar, s3. split; [exact E0|]. split; [exact R1|]. split; [exact Ep|]. split; [exact Ex|]. split; [exact E3|].
    rewrite (P CPos) by (split || reflexivity; exact I). f_equal. specialize (Dn 0%nat 1%R 0%R eq_refl eq_refl). destruct d as [|a d]; [discriminate|]. injection Dn as ->.
    unfold part. cbn. change (Pos.to_nat 33) with (3 + 30)%nat. change (Pos.to_nat 3) with 3%nat. cbn [repeat Nat.add firstn]. unfold vec_of. cbn [nth]. f_equal; ring.
Qed.

Print Assumptions C168_follows_its_model.
Print Assumptions C169_correction.
Print Assumptions C169_case.
Print Assumptions C168_case.
