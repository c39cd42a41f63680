(** Properties C31-C34, C39, C68-C70: rotations. *)
From Coq Require Import Reals Lra Psatz ZArith.
From Verif Require Import Base Vec3 Rot SpecRot RotProofs RotProofs2 RotProofs3.
Open Scope R_scope.

(** C31. *)
Theorem C31_rotation_vector_gives_rotation : forall v,
  mmul (rv_mat v) (mtr (rv_mat v)) = m1 /\ mdet (rv_mat v) = 1 /\
  rv_mat v0 = m1 /\ rv_mat (vneg v) = mtr (rv_mat v) /\
  qn2 (rv_quat v) = 1 /\ qrot (rv_quat v) = rv_mat v /\
  (/ 10000000000000000 < vnorm v -> rv_mat v = rodrigues v) /\
  (vnorm v <= / 10000000000000000 -> rv_mat v = m1).
Proof.
  intros v. destruct (rv_mat_so3 v) as [A B]. pose proof (vnorm_sq v) as E. pose proof (vnorm_pos v) as P.
  fold epsA. pose proof epsA_pos as Q.
  split; [exact A|]. split; [exact B|].
  split; [rewrite (rv_rodrigues v0 (or_intror eq_refl)); unfold rodrigues; rewrite vnorm_v0; now destruct (Req_EM_T 0 0)|].
  split; [apply rv_mat_neg|]. split; [apply rv_quat_unit|]. split; [symmetry; apply rv_mat_quat|].
  split; intros H.
  - apply rv_rodrigues. left. unfold tiny. nra.
  - apply rv_small. nra.
Qed.
Print Assumptions C31_rotation_vector_gives_rotation.
(** A quarter turn around x. *)
Example C31_case : rv_mat (mkV (PI / 2) 0 0) = mkM 1 0 0 0 0 (-1) 0 1 0.
Proof.
  pose proof PI_RGT_0. pose proof PI2_3_2. pose proof epsA_small. pose proof epsA_pos.
  replace (mkV (PI / 2) 0 0) with (vscal (PI / 2) ux) by (u3; f_equal; ring).
  rewrite rv_mat_scal; [|apply vsq_ux|rewrite Rabs_pos_eq; lra].
  unfold aa_mat. rewrite cos_PI2, sin_PI2. u3; f_equal; ring.
Qed.

(** C32. *)
Theorem C32_regulate_same_rotation : forall v,
  rodrigues (regulate v) = rodrigues v /\
  (vnorm v <= 3 / 2 * PI -> regulate v = v) /\ (3 / 2 * PI < vnorm v -> vnorm (regulate v) <= PI) /\
  (regulate v = v0 \/ / 10000000000000000 < vnorm (regulate v) -> rv_mat (regulate v) = rv_mat v).
Proof.
  intros v. split; [apply regulate_rodrigues|]. split; [apply regulate_unchanged|]. split; [apply regulate_bound|].
  intros H. destruct (Rle_dec (vnorm v) (3 / 2 * PI)) as [L|L]; [now rewrite regulate_unchanged|].
  rewrite !rv_rodrigues; [apply regulate_rodrigues| |].
  - left. unfold tiny. rewrite <- vnorm_sq. pose proof epsA_small. pose proof epsA_pos. pose proof PI2_3_2. nra.
  - destruct H as [-> | H]; [now right|left]. unfold tiny. rewrite <- vnorm_sq. fold epsA in H. pose proof epsA_pos. nra.
Qed.
Print Assumptions C32_regulate_same_rotation.
Example C32_case : regulate (mkV 7 0 0) = mkV (7 - 2 * PI) 0 0.
Proof.
  pose proof PI_RGT_0. pose proof PI2_3_2. pose proof PI_4.
  unfold regulate. replace (vsq (mkV 7 0 0)) with (7 * 7) by (u3; ring). rewrite sqrt_square by lra.
  destruct (Rlt_dec _ _) as [L|L]; [|exfalso; apply L; nra].
  assert (E : Zceil ((7 - PI) / (2 * PI)) = 1%Z).
  { pose proof (Zceil_spec ((7 - PI) / (2 * PI))) as [A B].
    assert (Q : (7 - PI) / (2 * PI) * (2 * PI) = 7 - PI) by (field; lra).
    assert (C : 0 < (7 - PI) / (2 * PI)) by (apply Rdiv_lt_0_compat; lra).
    assert (D : (7 - PI) / (2 * PI) < 1) by nra.
    assert (0 < Zceil ((7 - PI) / (2 * PI)))%Z by (apply lt_IZR; lra).
    assert (Zceil ((7 - PI) / (2 * PI)) < 2)%Z by (apply lt_IZR; lra). lia. }
  rewrite E. u3. f_equal; field.
Qed.

(** C33: outside the two thresholds (alignment or opposition within 2^-52 on the cosine), the
    result is the rotation of minimal angle: it maps the first vector onto the second and leaves
    their normal in place. Exactly opposite vectors are rejected. *)
Theorem C33_two_vectors_rotation : forall md v1 v2, vsq v1 = 1 -> vsq v2 = 1 ->
  (/ 4503599627370496 <= 1 - vdot v1 v2 -> / 4503599627370496 <= 1 + vdot v1 v2 ->
   exists r, two_vectors md v1 v2 = Ok r /\ mmul r (mtr r) = m1 /\ mdet r = 1 /\ mvec r v1 = v2 /\
             mvec r (vcross v1 v2) = vcross v1 v2) /\
  (v2 = v1 -> two_vectors md v1 v2 = Ok m1) /\ (v2 = vneg v1 -> two_vectors md v1 v2 = Throw).
Proof.
  intros md v1 v2 U1 U2. fold eps1. pose proof eps1_pos. split; [|split].
  - intros A B. destruct (two_vectors_spec md v1 v2 U1 U2 A B) as (r & E & [S1 S2] & M & N). now exists r.
  - intros ->. unfold two_vectors. rewrite !unitary_1 by (auto; lra).
    assert (boost_assert md (true && true) = Ok tt) as -> by now destruct md. cbn [obind].
    fold (vsq v1). rewrite U1. destruct (Rlt_dec _ _); [reflexivity|lra].
  - intros ->. unfold two_vectors. rewrite !unitary_1 by (rewrite ?vsq_neg; auto; lra).
    assert (boost_assert md (true && true) = Ok tt) as -> by now destruct md. cbn [obind].
    replace (vdot v1 (vneg v1)) with (-1) by (transitivity (- vsq v1); [rewrite U1; ring|clear; c3]).
    assert (eps1 < 1) by (unfold eps1; lra).
    destruct (Rlt_dec (1 - -1) eps1); [lra|]. destruct (Rlt_dec _ _); [reflexivity|lra].
Qed.
Print Assumptions C33_two_vectors_rotation.
Example C33_case : two_vectors Debug ux uy = Ok (mkM 0 (-1) 0 1 0 0 0 0 1).
Proof.
  pose proof eps1_pos. unfold two_vectors. rewrite !unitary_1 by (apply vsq_ux || apply vsq_uy || lra). cbn [obind boost_assert andb].
  assert (eps1 < 1) by (unfold eps1; lra).
  replace (vdot ux uy) with 0 by (u3; ring). destruct (Rlt_dec _ _); [lra|]. destruct (Rlt_dec _ _); [lra|].
  f_equal. u3. f_equal; field.
Qed.

(** C33, exact mapping for all non-opposite unit vectors: false. Vectors 2e-9 rad apart are
    treated as equal, and vectors that close to opposite as opposite. *)
Theorem C33_near_aligned_refuted : exists v1 v2, vsq v1 = 1 /\ vsq v2 = 1 /\ v2 <> vneg v1 /\
  exists r, two_vectors Debug v1 v2 = Ok r /\ mvec r v1 <> v2.
Proof.
  set (t := / 1000000000). set (d := 1 + t * t).
  assert (T : 0 < t) by (unfold t; lra). assert (D : 0 < d) by (unfold d; nra).
  exists ux, (mkV ((1 - t * t) / d) (2 * t / d) 0).
  assert (U : vsq (mkV ((1 - t * t) / d) (2 * t / d) 0) = 1) by (u3; unfold d; field; unfold d in D; lra).
  split; [apply vsq_ux|]. split; [exact U|].
  assert (Y : 0 < 2 * t / d) by (apply Rdiv_lt_0_compat; lra).
  split; [intros E; injection E; lra|]. exists m1. split.
  - pose proof eps1_pos. unfold two_vectors. rewrite !unitary_1 by (auto using vsq_ux; lra). cbn [obind boost_assert andb].
    replace (1 - vdot ux (mkV ((1 - t * t) / d) (2 * t / d) 0)) with (2 * (t * t) * / d) by (u3; unfold d; field; unfold d in D; lra).
    destruct (Rlt_dec _ _) as [L|L]; [reflexivity|exfalso; apply L].
    assert (I : / d <= 1) by (rewrite <- Rinv_1; apply Rinv_le_contravar; unfold d; nra).
    assert (2 * (t * t) < eps1) by (unfold t, eps1; lra).
    assert (0 < / d) by now apply Rinv_0_lt_compat. nra.
  - rewrite mvec_1. unfold ux. intros E; injection E; lra.
Qed.
Print Assumptions C33_near_aligned_refuted.

(** C34, with a reference axis as documented (horizontal and normalised): the result is a
    rotation with the given tilt, and it maps the component of R2^T m orthogonal to the tilt
    onto the direction of m (the yaw of R2). The call only fails near the singularity. *)
Theorem C34_merge_tilt_with_yaw : forall t r2 m, vsq t = 1 -> vsq m = 1 -> vz m = 0 ->
  (forall r, merge_tilt t r2 m = Ok r ->
    mmul r (mtr r) = m1 /\ mdet r = 1 /\ mvec (mtr r) uz = t /\
    exists k, 0 < k /\ mvec r (vsub (mvec (mtr r2) m) (vscal (vdot (mvec (mtr r2) m) t) t)) = vscal k m) /\
  (/ 10000000000000000 < vnorm (vcross (mvec (mtr r2) m) t) -> exists r, merge_tilt t r2 m = Ok r) /\
  (vnorm (vcross (mvec (mtr r2) m) t) <= / 10000000000000000 -> merge_tilt t r2 m = Throw).
Proof.
  intros t r2 m T M Z. split; [|split].
  - intros r E. destruct (merge_tilt_spec t r2 m r T M Z E) as ([A B] & C & D). auto.
  - fold epsA. intros H. unfold merge_tilt. destruct (Rlt_dec _ _) as [L|L]; [eexists; reflexivity|exfalso; apply L].
    rewrite <- vnorm_sq. pose proof epsA_pos. nra.
  - fold epsA. intros H. unfold merge_tilt. destruct (Rlt_dec _ _) as [L|L]; [exfalso|reflexivity].
    rewrite <- vnorm_sq in L. pose proof (vnorm_pos (vcross (mvec (mtr r2) m) t)). pose proof epsA_pos. nra.
Qed.
Print Assumptions C34_merge_tilt_with_yaw.

(** C34, axis-agnostic version: the tilt is always respected; the result is a rotation and keeps
    one horizontal direction exactly as R2 maps it, unless R2 maps the tilt within 2^-52 of the
    vertical without being exactly in the plane of the fallback axis. *)
Theorem C34_merge_tilt_axis_agnostic : forall t r2, so3 r2 -> vsq t = 1 ->
  let p := mvec r2 t in let r := merge_tilt_agn t r2 in
  mvec (mtr r) uz = t /\
  (/ 4503599627370496 < Rabs (vx p) \/ / 4503599627370496 < Rabs (vy p) \/ vx p = 0 ->
   mmul r (mtr r) = m1 /\ mdet r = 1 /\ exists m, vsq m = 1 /\ vz m = 0 /\ mvec r (mvec (mtr r2) m) = m).
Proof.
  intros t r2 H T p r. destruct (merge_agn_spec t r2 H T) as [A B]. fold p r in A, B. split; [exact A|].
  intros C. destruct B as ([B1 B2] & B3); [|auto].
  fold eps1 in C. intros Q. unfold is_zero2 in Q. destruct (Rle_dec _ _); [|discriminate].
  destruct (Rle_dec _ _); [|discriminate]. destruct C as [C|[C|C]]; [lra|lra|exact C].
Qed.
Print Assumptions C34_merge_tilt_axis_agnostic.
(** A tilted vertical merged with the yaw of a quarter turn. *)
Example C34_case : let t := mkV (3 / 5) 0 (4 / 5) in let r2 := mkM 0 (-1) 0 1 0 0 0 0 1 in
  vsq t = 1 /\ so3 r2 /\ / 4503599627370496 < Rabs (vy (mvec r2 t)) /\
  merge_tilt t r2 ux = Ok (mkM 0 (-1) 0 (4 / 5) 0 (- (3 / 5)) (3 / 5) 0 (4 / 5)) /\
  merge_tilt_agn t r2 = mkM 0 (-1) 0 (4 / 5) 0 (- (3 / 5)) (3 / 5) 0 (4 / 5).
Proof.
  intros t r2. split; [unfold t; u3; field|]. split; [unfold r2; split; u3; [f_equal; ring|ring]|].
  split; [unfold t, r2; u3; rewrite Rabs_pos_eq; lra|]. split.
  - unfold merge_tilt. replace (vcross (mvec (mtr r2) ux) t) with (mkV (-4 / 5) 0 (3 / 5)) by (unfold t, r2; u3; f_equal; field).
    replace (vsq (mkV (-4 / 5) 0 (3 / 5))) with 1 by (u3; field). rewrite sqrt_1.
    destruct (Rlt_dec _ _) as [L|L]; [|exfalso; apply L; pose proof epsA_small; pose proof epsA_pos; nra].
    f_equal. unfold t, r2; u3; f_equal; field.
  - unfold merge_tilt_agn, inv_orthogonal.
    replace (mvec r2 t) with (mkV 0 (3 / 5) (4 / 5)) by (unfold t, r2; u3; f_equal; field). cbn [vx vy].
    assert (is_zero2 0 (3 / 5) = false) as ->.
    { unfold is_zero2. rewrite Rabs_R0. pose proof eps1_pos. destruct (Rle_dec _ _); [|reflexivity].
      destruct (Rle_dec _ _) as [L|L]; [exfalso|reflexivity]. rewrite Rabs_pos_eq in L by lra. unfold eps1 in L; lra. }
    assert (normalized (mkV (3 / 5) (- 0) 0) = ux) as ->.
    { unfold normalized. replace (vsq (mkV (3 / 5) (- 0) 0)) with (3 / 5 * (3 / 5)) by (u3; ring).
      destruct (Rlt_dec _ _) as [L|L]; [|exfalso; apply L; lra]. rewrite sqrt_square by lra. u3; f_equal; field. }
    unfold t, r2; u3; f_equal; field.
Qed.

(** C39. *)
Theorem C39_homogeneous_inverse : forall r p, so3 r ->
  let h := (r, p) in homo_mul h (homo_inv h) = homo_1 /\ homo_mul (homo_inv h) h = homo_1 /\ homo_inv (homo_inv h) = h.
Proof.
  intros r p H h. unfold homo_mul, homo_inv, homo_1, h; cbn [fst snd].
  rewrite mvec_neg, so3_vec_tr, mtr_tr, mvec_neg, so3_vec_tr, vneg_neg, so3_tr_mul, vadd_neg, vadd_neg_l by exact H.
  destruct H as [-> _]. auto.
Qed.
Print Assumptions C39_homogeneous_inverse.
Example C39_case : so3 (mkM 0 (-1) 0 1 0 0 0 0 1) /\ homo_inv (mkM 0 (-1) 0 1 0 0 0 0 1, mkV 1 2 3) = (mkM 0 1 0 (-1) 0 0 0 0 1, mkV (-2) 1 (-3)).
Proof. split; [split; u3; [f_equal; ring|ring]|]. unfold homo_inv; cbn [fst snd]; u3; f_equal; f_equal; ring. Qed.

(** C68. *)
Theorem C68_roll_pitch_yaw_round_trip :
  (forall r p y, - PI < r <= PI -> - PI / 2 < p < PI / 2 -> - PI < y <= PI -> mat_rpy (rpy_mat r p y) = mkV r p y) /\
  (forall m, so3 m -> m20 m * m20 m < 1 -> let e := mat_rpy m in rpy_mat (vx e) (vy e) (vz e) = m) /\
  (forall r p y, qn2 (rpy_quat r p y) = 1 /\ rpy_mat r p y = mmul (mmul (rodrigues (mkV 0 0 y)) (rodrigues (mkV 0 p 0))) (rodrigues (mkV r 0 0))).
Proof.
  split; [exact mat_rpy_exp|]. split; [exact rpy_mat_log|]. intros r p y. split; [apply rpy_quat_unit|].
  rewrite rpy_mat_eq, !aa_rodrigues by (apply vsq_ux || apply vsq_uy || apply vsq_uz). f_equal; [f_equal|]; f_equal; u3; f_equal; ring.
Qed.
Print Assumptions C68_roll_pitch_yaw_round_trip.
Example C68_case : m20 (mkM 0 (-1) 0 (4 / 5) 0 (- (3 / 5)) (3 / 5) 0 (4 / 5)) * (3 / 5) < 1 /\
  mat_rpy (rpy_mat (PI / 4) (- (PI / 6)) (PI / 3)) = mkV (PI / 4) (- (PI / 6)) (PI / 3).
Proof. pose proof PI_RGT_0. split; [u3; lra|]. apply mat_rpy_exp; lra. Qed.

(** C69. *)
Theorem C69_yaw_extraction :
  (forall t, - PI < t <= PI -> mat_yaw_agn (rot_z t) = t /\ mat_yaw (rot_z t) = t) /\
  (forall t x y, 0 < x * x + y * y -> - PI < t <= PI -> mat_yaw_v (rot_z t) x y = t) /\
  (forall m t, so3 m -> exists k, mat_yaw_agn (mmul (rot_z t) m) = mat_yaw_agn m + t + 2 * IZR k * PI) /\
  (forall m x y, mat_angle m uz (mkV x y 0) = mat_yaw_v m x y) /\
  (forall m, so3 m -> is_pure_yaw m = false -> inv_horizontal m <> v0 /\ vz (inv_horizontal m) = 0 /\ vz (mvec m (inv_horizontal m)) = 0).
Proof.
  split; [|split; [|split; [|split]]].
  - intros t T. split; [now apply mat_yaw_agn_z|]. unfold mat_yaw, rot_z; cbn [m10 m00].
    rewrite <- (Rmult_1_l (sin t)), <- (Rmult_1_l (cos t)). apply atan2_angle; lra.
  - intros; now apply mat_yaw_v_z.
  - intros m t H. apply same_angle_Z. now apply mat_yaw_agn_shift.
  - intros; apply mat_angle_yaw.
  - intros m H E. split; [|split; [unfold inv_horizontal; now rewrite E|apply inv_horizontal_fact; auto; congruence]].
    unfold inv_horizontal; rewrite E. intros A; injection A; intros B C. revert E.
    unfold is_pure_yaw, is_zero2. pose proof eps1_pos. rewrite C. replace (m20 m) with 0 by lra. rewrite Rabs_R0.
    destruct (Rle_dec _ _); [discriminate|lra].
Qed.
Print Assumptions C69_yaw_extraction.
Example C69_case : so3 (mkM 0 (-1) 0 (4 / 5) 0 (- (3 / 5)) (3 / 5) 0 (4 / 5)) /\
  is_pure_yaw (mkM 0 (-1) 0 (4 / 5) 0 (- (3 / 5)) (3 / 5) 0 (4 / 5)) = false.
Proof.
  split; [split; u3; [f_equal; field|field]|]. unfold is_pure_yaw, is_zero2; cbn [m20 m21].
  destruct (Rle_dec _ _) as [L|L]; [exfalso|reflexivity]. rewrite Rabs_pos_eq in L by lra. unfold eps1 in L; lra.
Qed.

(** C70. *)
Theorem C70_vector6_round_trip :
  (forall p v, / 10000000000000000 < vnorm v < PI -> homo_v6 (v6_homo (p, v)) = (p, v)) /\
  (forall p, homo_v6 (v6_homo (p, v0)) = (p, v0)) /\
  (forall r p, so3 r -> mat_rv r = v0 \/ / 10000000000000000 < vnorm (mat_rv r) -> v6_homo (homo_v6 (r, p)) = (r, p)) /\
  (forall r, so3 r -> vnorm (mat_rv r) <= PI /\ qn2 (mat_quat r) = 1 /\ qrot (mat_quat r) = r).
Proof.
  pose proof epsA_pos as P. fold epsA. split; [|split; [|split]].
  - intros p v [A B]. unfold homo_v6, v6_homo; cbn [fst snd]. f_equal. apply mat_rv_exp; auto.
    unfold tiny. rewrite <- vnorm_sq. nra.
  - intros p. unfold homo_v6, v6_homo; cbn [fst snd]. f_equal. apply mat_rv_small.
    unfold tiny. replace (vsq v0) with 0 by (u3; ring). nra.
  - intros r p H C. unfold homo_v6, v6_homo; cbn [fst snd]. f_equal. destruct C as [C|C].
    + rewrite C, (mat_rv_0 r H C). apply rv_small. replace (vsq v0) with 0 by (u3; ring). nra.
    + apply rv_mat_rv; auto. unfold tiny. rewrite <- vnorm_sq. nra.
  - intros r H. split; [now apply mat_rv_norm|now apply mat_quat_ok].
Qed.
Print Assumptions C70_vector6_round_trip.
Example C70_case : homo_v6 (v6_homo (mkV 1 2 3, mkV 1 0 0)) = (mkV 1 2 3, mkV 1 0 0).
Proof.
  apply C70_vector6_round_trip. unfold vnorm. replace (vsq (mkV 1 0 0)) with 1 by (u3; ring). rewrite sqrt_1.
  pose proof PI2_3_2. lra.
Qed.
