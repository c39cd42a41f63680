(** Rodrigues' formula and yaw angles. *)
From Coq Require Import Reals Lra Psatz ZArith.
From Verif Require Import Base Vec3 Rot SpecRot RotProofs RotProofs2.
Open Scope R_scope.

Lemma vnorm_v0 : vnorm v0 = 0.
Proof. unfold vnorm. replace (vsq v0) with 0 by (u3; ring). apply sqrt_0. Qed.
Lemma vnorm_0 v : vnorm v = 0 -> v = v0.
Proof. intros H. apply vsq_0. rewrite <- vnorm_sq, H. ring. Qed.

Lemma aa_rodrigues t u : vsq u = 1 -> aa_mat (t, u) = rodrigues (vscal t u).
Proof.
  intros U. unfold rodrigues. rewrite vnorm_scal. unfold vnorm. rewrite U, sqrt_1, Rmult_1_r.
  destruct (Req_EM_T _ _) as [Z|Z].
  - replace t with 0; [apply aa_mat_0|]. unfold Rabs in Z. destruct (Rcase_abs t); lra.
  - assert (sin (Rabs t) / Rabs t = sin t / t) as ->.
    { unfold Rabs in *. destruct (Rcase_abs t); [rewrite sin_neg; field; lra|reflexivity]. }
    assert ((1 - cos (Rabs t)) / (Rabs t * Rabs t) = (1 - cos t) / (t * t)) as ->.
    { unfold Rabs in *. destruct (Rcase_abs t); [rewrite cos_neg; field; lra|reflexivity]. }
    assert (T : t <> 0) by (intros ->; apply Z; now rewrite Rabs_R0).
    rewrite <- skew2_skew.
    transitivity (madd (madd m1 (mscal (sin t) (skew u))) (mscal (1 - cos t) (skew2 u))).
    + unfold aa_mat. generalize (sin t), (cos t); intros s c. destruct u as [x y z]; u3.
      assert (X : c * (x * x + y * y + z * z) = c) by (rewrite U; ring). f_equal; lra.
    + generalize (sin t), (cos t); intros s c. clear U Z. destruct u; u3; f_equal; field; lra.
Qed.
Lemma rv_rodrigues v : ~ tiny v \/ v = v0 -> rv_mat v = rodrigues v.
Proof.
  intros H. pose proof epsA2_pos.
  assert (Z : rv_mat v0 = rodrigues v0).
  { assert (T0 : vsq v0 <= epsA * epsA) by (replace (vsq v0) with 0 by (u3; ring); lra).
    rewrite (proj1 (rv_small v0 T0)).
    unfold rodrigues. rewrite vnorm_v0. now destruct (Req_EM_T 0 0). }
  destruct H as [H | ->]; [|exact Z].
  unfold tiny in H. unfold rv_mat, rv_aa. destruct (Rlt_dec _ _) as [L|L]; [|lra].
  rewrite aa_rodrigues by (apply vsq_normal; lra). f_equal. rewrite vscal_scal.
  assert (0 < sqrt (vsq v)) by (apply sqrt_lt_R0; lra).
  rewrite Rinv_r by lra. apply vscal_1.
Qed.
Lemma rodrigues_so3' v : so3 (rodrigues v).
Proof.
  destruct (Req_EM_T (vnorm v) 0) as [Z|Z].
  - unfold rodrigues. destruct (Req_EM_T _ _); [apply so3_1|lra].
  - pose proof (vnorm_pos v). assert (S : 0 < vsq v) by (rewrite <- vnorm_sq; nra).
    replace v with (vscal (vnorm v) (vscal (/ vnorm v) v)) by (rewrite vscal_scal, Rinv_r, vscal_1; auto).
    rewrite <- aa_rodrigues by now apply vsq_normal. apply aa_mat_so3. now apply vsq_normal.
Qed.
Lemma regulate_rodrigues v : rodrigues (regulate v) = rodrigues v.
Proof.
  pose proof PI_RGT_0. pose proof epsA_small. pose proof epsA_pos. pose proof PI2_3_2.
  destruct (Rle_dec (vnorm v) (3 / 2 * PI)) as [L|L]; [now rewrite regulate_unchanged|].
  destruct (regulate_big v) as (t & E & _ & U & _ & R); [lra|].
  rewrite E, <- aa_rodrigues, R by exact U. apply rv_rodrigues. left. unfold tiny. rewrite <- vnorm_sq. nra.
Qed.
Lemma regulate_bound v : 3 / 2 * PI < vnorm v -> vnorm (regulate v) <= PI.
Proof.
  intros H. destruct (regulate_big v H) as (t & _ & B & _ & -> & _). unfold Rabs. destruct (Rcase_abs t); lra.
Qed.

(** ** Yaw *)
Lemma same_angle_eq a b : same_angle a b -> - PI < a <= PI -> - PI < b <= PI -> a = b.
Proof. intros [C S] A B. now apply angle_unique. Qed.
Lemma same_angle_Z a b : same_angle a b <-> exists k, a = b + 2 * IZR k * PI.
Proof.
  split.
  - intros [C S].
    assert (E : sin (a - b) = 0) by (rewrite sin_minus, C, S; ring).
    assert (F : cos (a - b) = 1) by (rewrite cos_minus, C, S; pose proof (sc1 b); lra).
    destruct (sin_eq_0_0 _ E) as [k K].
    destruct (Z.Even_or_Odd k) as [[j J]|[j J]].
    + exists j. rewrite J, mult_IZR in K. lra.
    + exfalso. rewrite J, plus_IZR, mult_IZR in K.
      replace (a - b) with (PI + 2 * IZR j * PI) in F by lra.
      rewrite (proj1 (cos_Z PI j)), cos_PI in F. lra.
  - intros [k ->]. destruct (cos_Z b k); split; auto.
Qed.
(** Rotating the argument of atan2 shifts the angle. *)
Lemma atan2_shift x y t : 0 < x * x + y * y ->
  same_angle (atan2 (sin t * x + cos t * y) (cos t * x - sin t * y)) (atan2 y x + t).
Proof.
  intros H. destruct (atan2_sc y x H) as (R0 & C & S). pose proof (sc1 t) as E.
  assert (Q : (cos t * x - sin t * y) * (cos t * x - sin t * y) + (sin t * x + cos t * y) * (sin t * x + cos t * y) = x * x + y * y).
  { transitivity ((sin t * sin t + cos t * cos t) * (x * x + y * y)); [ring|rewrite E; ring]. }
  destruct (atan2_sc (sin t * x + cos t * y) (cos t * x - sin t * y)) as (_ & C' & S'); [rewrite Q; exact H|].
  rewrite Q in C', S'. split.
  - rewrite C', cos_plus, C, S. field; lra.
  - rewrite S', sin_plus, C, S. field; lra.
Qed.
Lemma inv_horizontal_fact m : so3 m -> (is_pure_yaw m = true -> m20 m = 0) -> vz (mvec m (inv_horizontal m)) = 0.
Proof.
  intros H P. unfold inv_horizontal. destruct (is_pure_yaw m); [specialize (P eq_refl)|clear P].
  - destruct m; u3. subst; ring.
  - destruct m; u3; ring.
Qed.
Lemma mat_yaw_agn_shift m t : so3 m -> same_angle (mat_yaw_agn (mmul (rot_z t) m)) (mat_yaw_agn m + t).
Proof.
  intros H. unfold mat_yaw_agn. pose proof eps1_pos as P.
  assert (E : m20 (mmul (rot_z t) m) = m20 m /\ m21 (mmul (rot_z t) m) = m21 m).
  { unfold rot_z; destruct m; u3; split; ring. }
  assert (E1 : is_pure_yaw (mmul (rot_z t) m) = is_pure_yaw m).
  { unfold is_pure_yaw. destruct E as [-> ->]; reflexivity. }
  assert (E2 : inv_horizontal (mmul (rot_z t) m) = inv_horizontal m).
  { unfold inv_horizontal. rewrite E1. destruct E as [-> ->]; reflexivity. }
  rewrite E1, E2. clear E1 E2 E. pose proof (so3_eqs m H) as Q. decompose [and] Q; clear Q.
  destruct (is_pure_yaw m) eqn:PY.
  - unfold mat_yaw.
    assert (m20 m * m20 m < 1).
    { revert PY. unfold is_pure_yaw, is_zero2. destruct (Rle_dec (Rabs (m20 m)) eps1) as [L|L]; [intros _|discriminate].
      assert (S : m20 m * m20 m = Rabs (m20 m) * Rabs (m20 m)) by (unfold Rabs; destruct (Rcase_abs _); ring).
      pose proof (Rabs_pos (m20 m)). assert (eps1 < 1) by (unfold eps1; lra). rewrite S. nra. }
    replace (m10 (mmul (rot_z t) m)) with (sin t * m00 m + cos t * m10 m) by (unfold rot_z; destruct m; u3; ring).
    replace (m00 (mmul (rot_z t) m)) with (cos t * m00 m - sin t * m10 m) by (unfold rot_z; destruct m; u3; ring).
    apply atan2_shift. lra.
  - unfold mat_yaw_v.
    assert (HV : vz (mvec m (inv_horizontal m)) = 0) by (apply inv_horizontal_fact; congruence).
    unfold inv_horizontal in *. rewrite PY in *. cbn [vx vy].
    assert (NZ : 0 < m21 m * m21 m + m20 m * m20 m).
    { revert PY. unfold is_pure_yaw, is_zero2.
      destruct (Req_EM_T (m20 m) 0) as [Z|Z]; [|intros _; nra].
      destruct (Req_EM_T (m21 m) 0) as [Z'|Z']; [|intros _; nra].
      rewrite Z, Z', Rabs_R0. destruct (Rle_dec 0 eps1); [discriminate|lra]. }
    set (x := m21 m) in *. set (y := - m20 m) in *.
    set (rx := m00 m * x + m01 m * y). set (ry := m10 m * x + m11 m * y).
    assert (N2 : rx * rx + ry * ry = x * x + y * y).
    { pose proof (so3_vsq m (mkV x y 0) H) as V.
      assert (HV' : m20 m * x + m21 m * y = 0) by (unfold x, y; ring).
      transitivity (vsq (mvec m (mkV x y 0))).
      - unfold rx, ry. clearbody x y. clear - HV'. destruct m; u3. rewrite !Rmult_0_r, !Rplus_0_r, HV'. ring.
      - rewrite V. u3. ring. }
    replace (m00 (mmul (rot_z t) m) * x + m01 (mmul (rot_z t) m) * y) with (cos t * rx - sin t * ry)
      by (unfold rx, ry, rot_z; clearbody x y; destruct m; u3; ring).
    replace (m10 (mmul (rot_z t) m) * x + m11 (mmul (rot_z t) m) * y) with (sin t * rx + cos t * ry)
      by (unfold rx, ry, rot_z; clearbody x y; destruct m; u3; ring).
    replace (x * (sin t * rx + cos t * ry) - y * (cos t * rx - sin t * ry))
      with (sin t * (x * rx + y * ry) + cos t * (x * ry - y * rx)) by ring.
    replace (x * (cos t * rx - sin t * ry) + y * (sin t * rx + cos t * ry))
      with (cos t * (x * rx + y * ry) - sin t * (x * ry - y * rx)) by ring.
    apply atan2_shift.
    replace ((x * rx + y * ry) * (x * rx + y * ry) + (x * ry - y * rx) * (x * ry - y * rx))
      with ((x * x + y * y) * (rx * rx + ry * ry)) by ring.
    rewrite N2. assert (0 < x * x + y * y) by (unfold x, y in *; lra). nra.
Qed.
Lemma rot_z_so3 t : so3 (rot_z t).
Proof. pose proof (sc1 t). unfold rot_z; split; u3; [f_equal|]; lra. Qed.
Lemma mat_yaw_agn_z t : - PI < t <= PI -> mat_yaw_agn (rot_z t) = t.
Proof.
  intros H. pose proof eps1_pos. unfold mat_yaw_agn, is_pure_yaw, is_zero2, rot_z; cbn [m20 m21].
  rewrite Rabs_R0. destruct (Rle_dec 0 eps1); [|lra]. unfold mat_yaw; cbn [m10 m00].
  rewrite <- (Rmult_1_l (sin t)), <- (Rmult_1_l (cos t)). apply atan2_angle; lra.
Qed.
Lemma mat_angle_yaw m x y : mat_angle m uz (mkV x y 0) = mat_yaw_v m x y.
Proof. unfold mat_angle, mat_yaw_v. destruct m; u3; f_equal; ring. Qed.
Lemma mat_yaw_v_z t x y : 0 < x * x + y * y -> - PI < t <= PI -> mat_yaw_v (rot_z t) x y = t.
Proof.
  intros H T. unfold mat_yaw_v, rot_z; cbn [m00 m01 m10 m11].
  replace (x * (sin t * x + cos t * y) - y * (cos t * x + - sin t * y)) with ((x * x + y * y) * sin t) by ring.
  replace (x * (cos t * x + - sin t * y) + y * (sin t * x + cos t * y)) with ((x * x + y * y) * cos t) by ring.
  now apply atan2_angle.
Qed.
