(** Properties C141-C146: finite differences and reconstruction of trajectories, fixed point constraint,
    test and projection of rotation matrices. *)
From Coq Require Import Reals Lra Psatz List Bool ZArith Lia.
From Verif Require Import Base Vec3 Rot SpecRot RotProofs RotProofs2 RotProofs3 Orient Kine SpecKine KineProofs2 KinInput KinInputThms Approx Defs Traj TrajProofs.
Import ListNotations.
Open Scope R_scope.

(** C141: a rotation of less than half a turn between two samples gives exactly the angular velocity that
    produces it, whatever the representation and whatever the signs of the quaternions. *)
Theorem C141_finite_difference_of_a_turn : forall (v w : V3) (dt : R), dt <> 0 ->
  / 10000000000000000 < vnorm (vscal dt w) < PI ->
  (forall a b, qn2 a = 1 -> qn2 b = 1 -> qrot b = mmul (rodrigues (vscal dt w)) (qrot a) -> fd_quat a b dt = w) /\
  (forall o1 o2, rv_mat o2 = mmul (rodrigues (vscal dt w)) (rv_mat o1) -> fd_rv o1 o2 dt = w /\
    forall p, fd_pose (p, o1) (vadd p (vscal dt v), o2) dt = (v, w)) /\
  (forall r p, so3 r -> fd_homo (r, p) (mmul (rodrigues (vscal dt w)) r, vadd p (vscal dt v)) dt = (v, w)) /\
  (forall q, qn2 q = 1 -> fd_quat q (int_q dt q w) dt = w).
Proof.
  intros v w dt D H. fold epsA in H. repeat split.
  - intros a b Ua Ub E. now apply fd_quat_exact.
  - now apply fd_rv_exact.
  - intros p. unfold fd_pose; cbn [fst snd]. f_equal; [|now apply fd_rv_exact].
    replace (vsub (vadd p (vscal dt v)) p) with (vscal dt v) by c3. now apply vscal_inv'.
  - intros r p R. now apply fd_homo_exact.
  - intros q U. now apply fd_int.
Qed.
Print Assumptions C141_finite_difference_of_a_turn.
(** A quarter turn around x in half a second. *)
Example C141_case : fd_rv v0 (mkV (PI / 2) 0 0) (/ 2) = mkV PI 0 0.
Proof.
  pose proof PI_RGT_0. pose proof PI2_3_2.
  assert (E : vscal (/ 2) (mkV PI 0 0) = mkV (PI / 2) 0 0) by (u3; f_equal; field).
  assert (N : vnorm (mkV (PI / 2) 0 0) = PI / 2).
  { unfold vnorm. replace (vsq (mkV (PI / 2) 0 0)) with (Rsqr (PI / 2)) by (u3; unfold Rsqr; ring). apply sqrt_Rsqr. lra. }
  apply (C141_finite_difference_of_a_turn v0 (mkV PI 0 0) (/ 2)); rewrite ?E, ?N; [lra|lra|].
  rewrite <- (rv_rodrigues (mkV (PI / 2) 0 0)).
  - replace (rv_mat v0) with m1 by (symmetry; apply rv_small; replace (vsq v0) with 0 by (u3; ring); pose proof epsA2_pos; lra).
    symmetry. apply mmul_1_r.
  - left. apply not_tiny. rewrite N. unfold epsA. lra.
Qed.

(** C141, the converse: for any two orientations, the velocity found turns the first into the second in dt
    (when that turn is not below the code's 1e-16 radian), by at most half a turn, and no smaller velocity does. *)
Theorem C141_finite_difference_reaches_by_the_shortest_turn : forall (a b : Q4) (dt : R), qn2 a = 1 -> qn2 b = 1 -> dt <> 0 ->
  let w := fd_quat a b dt in
  vnorm (vscal dt w) <= PI /\
  (w = v0 \/ / 10000000000000000 < vnorm (vscal dt w) -> qrot (int_q dt a w) = qrot b /\ mmul (rodrigues (vscal dt w)) (qrot a) = qrot b) /\
  (forall w', / 10000000000000000 < vnorm (vscal dt w') -> mmul (rodrigues (vscal dt w')) (qrot a) = qrot b -> vnorm w <= vnorm w').
Proof.
  intros a b dt Ua Ub D w. destruct (int_fd a b dt Ua Ub D) as [A B]. fold w in A, B. split; [exact A|]. split.
  - intros H. specialize (B H). split; [exact B|]. rewrite <- B. unfold int_q. rewrite qrot_mul by auto using rv_quat_unit.
    rewrite <- rv_mat_quat, rv_rodrigues; [reflexivity|]. destruct H as [H|H]; [right; rewrite H; apply vscal_v0|left; now apply not_tiny].
  - intros w' H E. fold epsA in H.
    assert (U : qn2 (qmul b (qconj a)) = 1) by (rewrite qn2_mul, qn2_conj, Ua, Ub; ring).
    assert (S : vnorm (quat_rv (qmul b (qconj a))) <= vnorm (vscal dt w')).
    { apply quat_rv_short; auto. rewrite <- rv_mat_quat, rv_rodrigues by (left; now apply not_tiny).
      rewrite qrot_mul by (auto; now rewrite qn2_conj). rewrite qrot_conj, <- E, <- mmul_assoc.
      destruct (qrot_so3 a Ua) as [-> _]. symmetry. apply mmul_1_r. }
    unfold w. rewrite fd_quat_rv, vnorm_scal. rewrite vnorm_scal in S. rewrite Rabs_inv.
    pose proof (Rabs_pos_lt dt D). apply (Rmult_le_reg_l (Rabs dt)); [lra|]. rewrite <- Rmult_assoc, Rinv_r, Rmult_1_l by lra. exact S.
Qed.
Print Assumptions C141_finite_difference_reaches_by_the_shortest_turn.

(** C141 is false without the bound: a full turn per sample is seen as rest. *)
Theorem C141_fast_turn_refuted : exists (q : Q4) (w : V3) (dt : R), qn2 q = 1 /\ 0 < dt /\ w <> v0 /\
  fd_quat q (int_q dt q w) dt = v0.
Proof.
  exists q1, (mkV (2 * PI) 0 0), 1. pose proof PI_RGT_0. pose proof PI2_3_2.
  split; [c3|]. split; [lra|]. split; [intros E; injection E as E; lra|].
  rewrite fd_quat_rv. unfold int_q. rewrite vscal_1, qmul_cancel by c3.
  replace (rv_quat (mkV (2 * PI) 0 0)) with (qneg q1); [rewrite quat_rv_neg by (cbn; lra); now rewrite quat_rv_q1, vscal_v0|].
  unfold rv_quat, rv_aa. assert (Q : vsq (mkV (2 * PI) 0 0) = Rsqr (2 * PI)) by (u3; unfold Rsqr; ring). rewrite Q.
  rewrite sqrt_Rsqr by lra. destruct (Rlt_dec _ _) as [L|L].
  - unfold aa_quat. replace (2 * PI / 2) with PI by field. rewrite cos_PI, sin_PI. u3. f_equal; ring.
  - exfalso. apply L. unfold Rsqr, epsA. nra.
Qed.
Print Assumptions C141_fast_turn_refuted.

(** C142: reconstructStateTrajectory keeps the times, the positions and the orientations; the velocity of each
    sample but the last leads to the next sample, the acceleration of each sample but the last two leads to the
    next velocity, and these last velocities and accelerations are zero. *)
Theorem C142_reconstructed_trajectory : forall (md : mode) (k : Z) (pts : list (V3 * V3)) (dt : R), dt <> 0 ->
  exists l, reconstruct md (mkIarr k (map pose6 pts)) dt = Ok (mkIarr k l) /\ length l = length pts /\
  forall j p o, nth_error pts j = Some (p, o) -> exists s, nth_error l j = Some s /\ sp s = p /\ so s = o /\
    match nth_error pts (S j) with
    | Some (p', o') => vadd p (vscal dt (sv s)) = p' /\ vnorm (vscal dt (sw s)) <= PI /\
        (sw s = v0 \/ / 10000000000000000 < vnorm (vscal dt (sw s)) -> mmul (rodrigues (vscal dt (sw s))) (rv_mat o) = rv_mat o')
    | None => sv s = v0 /\ sw s = v0
    end /\
    match nth_error l (S j), nth_error pts (S (S j)) with
    | Some s', Some _ => vadd (sv s) (vscal dt (sa s)) = sv s' /\ vadd (sw s) (vscal dt (sal s)) = sw s'
    | _, _ => sa s = v0 /\ sal s = v0
    end.
Proof.
  intros md k pts dt D. destruct (reconstruct_ok md k pts dt) as (l & R & L & E). exists l. split; [exact R|]. split; [exact L|].
  intros j p o H. assert (J : (j < length pts)%nat) by (apply nth_error_Some; now rewrite H).
  eexists. split; [apply E, J|]. rewrite (nth_error_nth _ _ (v0, v0) H). cbn [sp so sv sw sa sal fst snd].
  split; [reflexivity|]. split; [reflexivity|]. split.
  - unfold rec_vel, rec_ang. destruct (nth_error pts (S j)) as [[p' o']|] eqn:H1.
    + assert (J1 : (S j < length pts)%nat) by (apply nth_error_Some; now rewrite H1).
      destruct (Nat.ltb_spec (S j) (length pts)); [|lia].
      rewrite (nth_error_nth _ _ (v0, v0) H), (nth_error_nth _ _ (v0, v0) H1). cbn [fst snd].
      split; [symmetry; now apply derivate_v_eq|]. unfold fd_rv.
      destruct (C141_finite_difference_reaches_by_the_shortest_turn _ _ dt (rv_quat_unit o) (rv_quat_unit o') D) as (A & B & _).
      split; [exact A|]. intros X. destruct (B X) as [_ Y]. now rewrite !rv_mat_quat.
    + apply nth_error_None in H1. destruct (Nat.ltb_spec (S j) (length pts)); [lia|]. now split.
  - unfold rec_acc, rec_aac. destruct (nth_error pts (S (S j))) as [[p' o']|] eqn:H2.
    + assert (J2 : (S (S j) < length pts)%nat) by (apply nth_error_Some; now rewrite H2).
      destruct (Nat.ltb_spec (S (S j)) (length pts)); [|lia]. rewrite E by lia. cbn [sv sw].
      unfold rec_vel, rec_ang. destruct (Nat.ltb_spec (S j) (length pts)); [|lia]. destruct (Nat.ltb_spec (S (S j)) (length pts)); [|lia].
      split; symmetry; now apply derivate_v_eq.
    + apply nth_error_None in H2. destruct (Nat.ltb_spec (S (S j)) (length pts)); [lia|]. destruct (nth_error l (S j)); now split.
Qed.
Print Assumptions C142_reconstructed_trajectory.
(** A point leaving along x and stopping, sampled at 0, 1 and 2 seconds from time 5. *)
Example C142_case : forall md, reconstruct md (mkIarr 5 (map pose6 [(v0, v0); (mkV 1 0 0, v0); (mkV 1 0 0, v0)])) 1 =
  Ok (mkIarr 5 [mkKS v0 v0 (mkV 1 0 0) v0 (mkV (-1) 0 0) v0; mkKS (mkV 1 0 0) v0 v0 v0 v0 v0; mkKS (mkV 1 0 0) v0 v0 v0 v0 v0]).
Proof.
  intros md. destruct (reconstruct_ok md 5 [(v0, v0); (mkV 1 0 0, v0); (mkV 1 0 0, v0)] 1) as (l & -> & L & E). do 2 f_equal.
  destruct l as [|a [|b [|c [|? ?]]]]; try discriminate L.
  assert (A := E 0%nat ltac:(cbn; lia)). assert (B := E 1%nat ltac:(cbn; lia)). assert (C := E 2%nat ltac:(cbn; lia)).
  injection A as ->. injection B as ->. injection C as ->.
  unfold rec_vel, rec_ang, rec_acc, rec_aac; cbn [length Nat.ltb Nat.leb nth fst snd].
  rewrite !(fd_rv_same v0 v0 1 eq_refl). repeat f_equal; unfold derivate_v; u3; repeat f_equal; field.
Qed.

(** C142 does not extend to the last sample: of a point in uniform motion, the last reconstructed velocity is zero. *)
Theorem C142_last_velocity_refuted : exists (v : V3) (n : nat), v <> v0 /\ forall md l,
  reconstruct md (mkIarr 0 (map pose6 (map (fun j => (vscal (INR j) v, v0)) (seq 0 n)))) 1 = Ok l ->
  exists s s', nth_error (ia_v l) 0 = Some s' /\ sv s' = v /\ nth_error (ia_v l) (n - 1) = Some s /\ sv s = v0.
Proof.
  exists ux, 3%nat. split; [intros E; injection E; lra|]. intros md l.
  change (map (fun j => (vscal (INR j) ux, v0)) (seq 0 3)) with [(vscal (INR 0) ux, v0); (vscal (INR 1) ux, v0); (vscal (INR 2) ux, v0)].
  destruct (reconstruct_ok md 0 [(vscal (INR 0) ux, v0); (vscal (INR 1) ux, v0); (vscal (INR 2) ux, v0)] 1) as (l' & -> & L & E).
  intros H. injection H as <-. cbn [ia_v]. do 2 eexists. split; [apply (E 0%nat); cbn; lia|]. split.
  - cbn. unfold derivate_v. u3. f_equal; field.
  - split; [apply (E 2%nat); cbn; lia|]. reflexivity.
Qed.
Print Assumptions C142_last_velocity_refuted.

(** C143: the reconstructed velocities and accelerations are those of the first order scheme. For samples of a
    uniformly accelerated motion p0 + v t + a t^2 / 2 the accelerations are exact and each velocity is the one
    half a sample later, so that integrateKinematics with the acceleration overshoots the next sample by
    a dt^2 / 2 and without the acceleration reaches it. *)
Theorem C143_uniformly_accelerated_samples : forall (md : mode) (k : Z) (p0 v a : V3) (n : nat) (dt : R), dt <> 0 ->
  let pos j := vadd p0 (vadd (vscal (INR j * dt) v) (vscal ((INR j * dt) * (INR j * dt) / 2) a)) in
  exists l, reconstruct md (mkIarr k (map pose6 (map (fun j => (pos j, v0)) (seq 0 n)))) dt = Ok (mkIarr k l) /\
  forall j s, nth_error l j = Some s -> (S (S j) < n)%nat ->
    sv s = vadd v (vscal ((INR j + / 2) * dt) a) /\ sa s = a /\ sw s = v0 /\ sal s = v0 /\
    int_p dt (sp s) (sv s) = pos (S j) /\ fst (int_pv dt (sa s) (sp s) (sv s)) = vadd (pos (S j)) (vscal (dt * dt / 2) a).
Proof.
  intros md k p0 v a n dt D pos. set (pts := map (fun j => (pos j, v0)) (seq 0 n)).
  destruct (reconstruct_ok md k pts dt) as (l & R & L & E). exists l. split; [exact R|].
  assert (LP : length pts = n) by (unfold pts; now rewrite map_length, seq_length).
  assert (P : forall j, (j < n)%nat -> nth j pts (v0, v0) = (pos j, v0)).
  { intros j J. apply nth_error_nth. unfold pts. rewrite nth_error_map.
    rewrite (nth_error_nth' (seq 0 n) 0%nat) by now rewrite seq_length. rewrite seq_nth by auto. reflexivity. }
  intros j s H J. rewrite E in H by lia. injection H as <-. cbn [sp so sv sw sa sal].
  unfold rec_vel, rec_ang, rec_acc, rec_aac. rewrite LP.
  destruct (Nat.ltb_spec (S j) n); [|lia]. destruct (Nat.ltb_spec (S (S j)) n); [|lia].
  rewrite !P by lia. cbn [fst snd]. rewrite !(fd_rv_same v0 v0 dt eq_refl).
  assert (V : forall i, derivate_v (pos i) (pos (S i)) dt = vadd v (vscal ((INR i + / 2) * dt) a)).
  { intros i. unfold pos, derivate_v. rewrite S_INR. u3. f_equal; field; auto. }
  assert (A : derivate_v (derivate_v (pos j) (pos (S j)) dt) (derivate_v (pos (S j)) (pos (S (S j))) dt) dt = a).
  { rewrite !V, S_INR. unfold derivate_v. d3. u3. f_equal; field; auto. }
  split; [apply V|]. split; [exact A|]. split; [reflexivity|]. split; [unfold derivate_v; u3; f_equal; ring|].
  rewrite A. split.
  - unfold int_p. symmetry. now apply derivate_v_eq.
  - unfold int_pv; cbn [fst]. rewrite vadd_assoc, <- (derivate_v_eq _ _ dt D). f_equal. f_equal. field.
Qed.
Print Assumptions C143_uniformly_accelerated_samples.
(** A fall sampled at five instants: the velocity of the second sample is -9.81 * (1 + 1/2) / 10. *)
Example C143_case : exists l s, reconstruct Debug (mkIarr 0 (map pose6 (map (fun j =>
    (vadd v0 (vadd (vscal (INR j * / 10) v0) (vscal ((INR j * / 10) * (INR j * / 10) / 2) (mkV 0 0 (- (981 / 100))))), v0)) (seq 0 5)))) (/ 10) = Ok (mkIarr 0 l) /\
  nth_error l 1 = Some s /\ vz (sv s) = - (981 / 100) * (3 / 2) * / 10.
Proof.
  destruct (C143_uniformly_accelerated_samples Debug 0 v0 v0 (mkV 0 0 (- (981 / 100))) 5 (/ 10) ltac:(lra)) as (l & E & H). exists l.
  destruct (C142_reconstructed_trajectory Debug 0 (map (fun j =>
    (vadd v0 (vadd (vscal (INR j * / 10) v0) (vscal ((INR j * / 10) * (INR j * / 10) / 2) (mkV 0 0 (- (981 / 100))))), v0)) (seq 0 5)) (/ 10) ltac:(lra)) as (l' & E' & L & _).
  rewrite E in E'. injection E' as <-. rewrite map_length, seq_length in L.
  destruct (nth_error l 1) as [s|] eqn:N; [|apply nth_error_None in N; lia]. exists s. split; [exact E|]. split; [reflexivity|].
  destruct (H 1%nat s N ltac:(lia)) as (-> & _). cbn. field.
Qed.

(** C144: along every rotation, fixedPointRotationToTranslation gives the translation that keeps the point where
    it is, its velocity and its acceleration. *)
Theorem C144_fixed_point_motion : forall (r : R -> M3) (w al : R -> V3) (f : V3),
  (forall t, so3 (r t)) -> (forall t, mderiv r t (mmul (skew (w t)) (r t))) -> (forall t, vderiv w t (al t)) ->
  let out t := fixed_point (r t) (w t) (al t) f in
  forall t, vadd (mvec (r t) f) (fst (fst (out t))) = f /\
    vderiv (fun s => fst (fst (out s))) t (snd (fst (out t))) /\ vderiv (fun s => snd (fst (out s))) t (snd (out t)).
Proof.
  intros r w al f HR HM HV out t.
  assert (L : vderiv (fun s => mvec (r s) f) t (vcross (w t) (mvec (r t) f))).
  { eapply vd_eq; [apply (vd_mvec r (fun _ => f) t); [apply HM|apply vd_const]|]. rewrite mvec_mul, skew_cross, mvec_0. apply vadd_0_r. }
  unfold out, fixed_point; cbn [fst snd]. split; [c3|]. split.
  - eapply vd_eq; [apply (vd_sub (fun _ => f) (fun s => mvec (r s) f) t); [apply vd_const|exact L]|]. c3.
  - eapply vd_eq; [apply (vd_neg (fun s => vcross (w s) (mvec (r s) f)) t), (vd_cross w (fun s => mvec (r s) f) t); [apply HV|exact L]|]. cbn. c3.
Qed.
Print Assumptions C144_fixed_point_motion.
(** A rotation around the vertical at one radian per second about the point (1,0,0). *)
Example C144_case : (forall t, so3 (rot_z t)) /\ (forall t, mderiv rot_z t (mmul (skew uz) (rot_z t))) /\ (forall t, vderiv (fun _ => uz) t v0) /\
  fixed_point (rot_z PI) uz v0 ux = (mkV 2 0 0, mkV 0 1 0, mkV (-1) 0 0).
Proof.
  split; [intros t; split; [unfold rot_z; u3; pose proof (sc1 t); f_equal; lra|unfold rot_z, mdet; cbn; pose proof (sc1 t); lra]|].
  split; [|split; [intros; apply vd_const|unfold fixed_point, rot_z; rewrite cos_PI, sin_PI; u3; repeat f_equal; ring]].
  intros t. unfold rot_z. pose proof (derivable_pt_lim_sin t). pose proof (derivable_pt_lim_cos t). vd.
Qed.

(** C145: isRotationMatrix accepts every rotation matrix at every positive precision, and among the reflections
    (orthogonal matrices of determinant -1) exactly those whose last column is along y within half the precision. *)
Theorem C145_is_rotation_matrix_exactly : forall (m : M3) (p : R), mmul m (mtr m) = m1 ->
  (mdet m = 1 -> 0 < p -> isRotationMatrix m p) /\
  (mdet m <> 1 -> (isRotationMatrix m p <-> 2 * Rabs (m22 m) < p /\ 2 * Rabs (m02 m) < p)).
Proof.
  intros m p A. split; intros D; [intros P; apply isRot_so3; [now split|exact P]|].
  apply isRot_reflection; [exact A|]. destruct (orth_det m A); [contradiction|auto].
Qed.
Print Assumptions C145_is_rotation_matrix_exactly.
(** The exchange of x and y is refused at the default precision 2 * epsilon1. *)
Example C145_case : mmul (mkM 0 1 0 1 0 0 0 0 1) (mtr (mkM 0 1 0 1 0 0 0 0 1)) = m1 /\ ~ isRotationMatrix (mkM 0 1 0 1 0 0 0 0 1) (2 * eps1).
Proof.
  assert (A : mmul (mkM 0 1 0 1 0 0 0 0 1) (mtr (mkM 0 1 0 1 0 0 0 0 1)) = m1) by (u3; f_equal; ring).
  split; [exact A|]. intros H.
  apply (C145_is_rotation_matrix_exactly _ (2 * eps1) A) in H; [|unfold mdet; cbn; lra].
  cbn in H. rewrite Rabs_R1 in H. unfold eps1 in H. lra.
Qed.
(** The exchange of y and z is a reflection and is accepted: the middle component of the last column is not checked. *)
Theorem C145_reflection_accepted_refuted : exists m : M3, mmul m (mtr m) = m1 /\ mdet m = -1 /\ isRotationMatrix m (2 * eps1) /\
  forall p, 0 < p -> isRotationMatrix m p.
Proof.
  exists (mkM 1 0 0 0 0 1 0 1 0).
  assert (A : mmul (mkM 1 0 0 0 0 1 0 1 0) (mtr (mkM 1 0 0 0 0 1 0 1 0)) = m1) by (u3; f_equal; ring).
  assert (D : mdet (mkM 1 0 0 0 0 1 0 1 0) = -1) by (unfold mdet; cbn; ring).
  assert (H : forall p, 0 < p -> isRotationMatrix (mkM 1 0 0 0 0 1 0 1 0) p).
  { intros p P. apply isRot_reflection; auto. cbn. rewrite Rabs_R0. lra. }
  split; [exact A|]. split; [exact D|]. split; [apply H; unfold eps1; lra|exact H].
Qed.
Print Assumptions C145_reflection_accepted_refuted.

(** C145: whatever the precision given, the columns of an accepted matrix have a squared norm within 1e-12 of one and
    products within 1e-12 of zero. *)
Theorem C145_accepted_columns : forall (m : M3) (p : R), isRotationMatrix m p ->
  let g := mmul (mtr m) m in let near x y := Rabs (x - y) <= / 1000000000000 in
  (near (m00 g) 1 /\ near (m11 g) 1 /\ near (m22 g) 1) /\
  (near (m01 g) 0 /\ near (m02 g) 0 /\ near (m12 g) 0) /\ (near (m10 g) 0 /\ near (m20 g) 0 /\ near (m21 g) 0).
Proof.
  intros m p [(A & (B & C) & (D & E & F)) _] g near.
  assert (N : forall x y, eigen_isApprox x 1 -> y = x -> near y 1).
  { intros x y H ->. unfold near. unfold eigen_isApprox in H. rewrite Rabs_R1 in H. pose proof (Rmin_r (Rabs x) 1).
    assert (0 < dummy_precision) by (unfold dummy_precision; lra). change (/ 1000000000000) with dummy_precision. nra. }
  assert (Z : forall x y, eigen_isSmall x 1 -> y = x -> near y 0).
  { intros x y H ->. unfold near. unfold eigen_isSmall in H. rewrite Rabs_R1, Rmult_1_l in H. now rewrite Rminus_0_r. }
  repeat split; [apply (N _ _ A)|apply (N _ _ B)|apply (N _ _ D)|apply (Z _ _ C)|apply (Z _ _ E)|apply (Z _ _ F)|apply (Z _ _ C)|apply (Z _ _ E)|apply (Z _ _ F)];
    unfold g, mcol0, mcol1, mcol2; destruct m; u3; ring.
Qed.
Print Assumptions C145_accepted_columns.
(** A last column too long is refused at any precision. *)
Example C145_case_columns : forall p, ~ isRotationMatrix (mkM 1 0 0 0 1 0 0 0 (1 + / 1000)) p.
Proof.
  intros p H. apply C145_accepted_columns in H. destruct H as ((_ & _ & H) & _). revert H. u3. unfold Rabs. destruct (Rcase_abs _); lra.
Qed.

(** C146: whatever singular value decomposition Eigen returns, orthogonalizeRotationMatrix gives an orthogonal
    matrix, none is closer to the argument, a rotation matrix is returned as it is, and the result is a rotation
    when the determinant is positive and never when it is negative. *)
Theorem C146_orthogonalize : forall (svd : M3 -> M3 * M3) (m : M3),
  (exists a b c, 0 <= a /\ 0 <= b /\ 0 <= c /\ m = mmul (fst (svd m)) (mmul (mdiag a b c) (mtr (snd (svd m)))) /\
     mmul (fst (svd m)) (mtr (fst (svd m))) = m1 /\ mmul (snd (svd m)) (mtr (snd (svd m))) = m1) ->
  let q := orthogonalize svd m in let dist o := mtrace (mmul (msub m o) (mtr (msub m o))) in
  mmul q (mtr q) = m1 /\ (forall o, mmul o (mtr o) = m1 -> dist q <= dist o) /\
  (0 < mdet m -> so3 q) /\ (mdet m < 0 -> mdet q = -1) /\ (mmul m (mtr m) = m1 -> q = m).
Proof.
  intros svd m (a & b & c & A & B & C & E & U & V) q dist.
  assert (Q : mmul q (mtr q) = m1) by (apply orth_mul; [exact U|rewrite mtr_tr; now apply orth_tr]).
  assert (M : forall o, mmul o (mtr o) = m1 -> dist q <= dist o).
  { intros o O. unfold dist. rewrite E. apply polar_closest; auto. }
  assert (D : mdet m = mdet q * (a * b * c)).
  { rewrite E at 1. unfold q, orthogonalize. rewrite !mdet_mul. replace (mdet (mdiag a b c)) with (a * b * c) by (unfold mdet; cbn; ring). ring. }
  assert (P : 0 <= a * b * c) by (apply Rmult_le_pos; [now apply Rmult_le_pos|exact C]).
  split; [exact Q|]. split; [exact M|]. destruct (orth_det q Q) as [X|X].
  - split; [now split|]. split; [rewrite D, X; lra|]. intros O. specialize (M m O). unfold dist in M.
    replace (mtrace (mmul (msub m m) (mtr (msub m m)))) with 0 in M by c3. apply frob_0 in M.
    destruct m, q. injection M. intros. f_equal; lra.
  - split; [rewrite D, X; lra|]. split; [auto|]. intros O. specialize (M m O). unfold dist in M.
    replace (mtrace (mmul (msub m m) (mtr (msub m m)))) with 0 in M by c3. apply frob_0 in M.
    destruct m, q. injection M. intros. f_equal; lra.
Qed.
Print Assumptions C146_orthogonalize.
(** A decomposition of diag(2,3,1/2). *)
Example C146_case : let svd := fun _ : M3 => (m1, m1) in
  (exists a b c, 0 <= a /\ 0 <= b /\ 0 <= c /\ mdiag 2 3 (/ 2) = mmul m1 (mmul (mdiag a b c) (mtr m1)) /\ mmul m1 (mtr m1) = m1) /\
  orthogonalize svd (mdiag 2 3 (/ 2)) = m1.
Proof. split; [exists 2, 3, (/ 2); repeat split; try lra; c3|unfold orthogonalize; cbn [fst snd]; c3]. Qed.
(** It does not always project on the rotations: minus the identity stays minus the identity whatever the
    decomposition, and for the singular diag(1,1,0) one decomposition gives a rotation and another a reflection. *)
Theorem C146_not_a_rotation_refuted :
  (exists m : M3, forall svd : M3 -> M3 * M3,
    (exists a b c, 0 <= a /\ 0 <= b /\ 0 <= c /\ m = mmul (fst (svd m)) (mmul (mdiag a b c) (mtr (snd (svd m)))) /\
       mmul (fst (svd m)) (mtr (fst (svd m))) = m1 /\ mmul (snd (svd m)) (mtr (snd (svd m))) = m1) ->
    orthogonalize svd m = m /\ ~ so3 m) /\
  (exists (m : M3) (s1 s2 : M3 -> M3 * M3),
    (forall s, s = s1 \/ s = s2 -> exists a b c, 0 <= a /\ 0 <= b /\ 0 <= c /\ m = mmul (fst (s m)) (mmul (mdiag a b c) (mtr (snd (s m)))) /\
       mmul (fst (s m)) (mtr (fst (s m))) = m1 /\ mmul (snd (s m)) (mtr (snd (s m))) = m1) /\
    so3 (orthogonalize s1 m) /\ mdet (orthogonalize s2 m) = -1).
Proof.
  split.
  - exists (mdiag (-1) (-1) (-1)). intros svd H. split.
    + apply C146_orthogonalize; [exact H|]. u3. f_equal; ring.
    + intros [_ D]. unfold mdet in D; cbn in D. lra.
  - exists (mdiag 1 1 0), (fun _ => (m1, m1)), (fun _ => (mdiag 1 1 (-1), m1)). split; [|split].
    + intros s [-> | ->]; exists 1, 1, 0; cbn [fst snd]; repeat split; try lra; u3; f_equal; ring.
    + unfold orthogonalize; cbn [fst snd]. split; u3; [f_equal; ring|ring].
    + unfold orthogonalize; cbn [fst snd]; u3; ring.
Qed.
Print Assumptions C146_not_a_rotation_refuted.
