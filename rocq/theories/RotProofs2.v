(** More proofs about rotations: matrix logarithm, regulated vectors, rotation between two
    vectors, tilt and yaw merging, roll-pitch-yaw, homogeneous matrices. *)
From Coq Require Import Reals Lra Psatz ZArith.
From Verif Require Import Base Vec3 Rot RotProofs.
Open Scope R_scope.

(** ** Matrix form of the logarithm *)
Lemma rv_quat_w v : ~ tiny v -> vnorm v < PI -> qw (rv_quat v) <> 0.
Proof.
  intros Ht Hn. pose proof epsA2_pos. pose proof (vnorm_pos v). unfold rv_quat, rv_aa. destruct (Rlt_dec _ _) as [L|L]; [|contradiction (Ht); unfold tiny; lra].
  cbn [aa_quat qw]. fold (vnorm v). apply Rgt_not_eq, cos_gt_0; lra.
Qed.
Lemma mat_rv_exp v : ~ tiny v -> vnorm v < PI -> mat_rv (rv_mat v) = v.
Proof.
  intros Ht Hn. unfold mat_rv, mat_aa. fold (quat_rv (mat_quat (rv_mat v))).
  destruct (mat_quat_ok (rv_mat v) (rv_mat_so3 v)) as [U E].
  assert (E2 : qrot (mat_quat (rv_mat v)) = qrot (rv_quat v)) by now rewrite E, rv_mat_quat.
  destruct (qrot_inj _ _ U (rv_quat_unit v) E2) as [-> | ->].
  - now apply quat_rv_exp.
  - rewrite quat_rv_neg by now apply rv_quat_w. now apply quat_rv_exp.
Qed.
Lemma mat_quat_1 : mat_quat m1 = q1.
Proof.
  unfold mat_quat; u3. destruct (Rlt_dec _ _) as [L|L]; [|lra].
  replace (1 + 1 + 1 + 1) with (2 * 2) by ring. rewrite sqrt_square by lra. f_equal; field.
Qed.
Lemma quat_rv_q1 : quat_rv q1 = v0.
Proof.
  rewrite <- (quat_rv_small v0); [|unfold tiny; replace (vsq v0) with 0 by (u3; ring); pose proof epsA2_pos; lra].
  f_equal. symmetry; apply rv_small. replace (vsq v0) with 0 by (u3; ring); pose proof epsA2_pos; lra.
Qed.
Lemma mat_rv_small v : tiny v -> mat_rv (rv_mat v) = v0.
Proof.
  intros H. rewrite (proj1 (rv_small v H)). unfold mat_rv, mat_aa. rewrite mat_quat_1. apply quat_rv_q1.
Qed.
Lemma rv_mat_rv m : so3 m -> ~ tiny (mat_rv m) -> rv_mat (mat_rv m) = m.
Proof.
  intros H Ht. destruct (mat_quat_ok m H) as [U E].
  change (mat_rv m) with (quat_rv (mat_quat m)) in *. now rewrite rv_mat_log, E.
Qed.
Lemma mat_rv_0 m : so3 m -> mat_rv m = v0 -> m = m1.
Proof.
  intros H Z. destruct (mat_quat_ok m H) as [U E]. rewrite <- E. now apply quat_rv_0.
Qed.
Lemma mat_rv_norm m : so3 m -> vnorm (mat_rv m) <= PI.
Proof.
  intros H. destruct (mat_quat_ok m H) as [U _]. change (mat_rv m) with (quat_rv (mat_quat m)).
  destruct (quat_rv_norm _ U) as [-> ?]; lra.
Qed.

(** ** regulateOrientationVector *)
Lemma cos_Z x k : cos (x + 2 * IZR k * PI) = cos x /\ sin (x + 2 * IZR k * PI) = sin x.
Proof.
  destruct (Z_le_gt_dec 0 k) as [P|P].
  - rewrite <- (Z2Nat.id k P), <- INR_IZR_INZ. split; [apply cos_period|apply sin_period].
  - assert (E : IZR k = - INR (Z.to_nat (- k))).
    { rewrite INR_IZR_INZ, Z2Nat.id by lia. rewrite opp_IZR; ring. }
    rewrite E. set (j := Z.to_nat (- k)).
    pose proof (cos_period (x + 2 * - INR j * PI) j) as C. pose proof (sin_period (x + 2 * - INR j * PI) j) as S.
    replace (x + 2 * - INR j * PI + 2 * INR j * PI) with x in C, S by ring. auto.
Qed.
Lemma Zceil_spec x : x <= IZR (Zceil x) < x + 1.
Proof.
  unfold Zceil. rewrite opp_IZR. pose proof (base_Int_part (- x)) as [A B]. lra.
Qed.
Lemma aa_mat_neg t u : aa_mat (- t, vneg u) = aa_mat (t, u).
Proof. unfold aa_mat. rewrite cos_neg, sin_neg. destruct u; u3; f_equal; ring. Qed.
(** The exponential of an angle times a unit axis. *)
Lemma rv_mat_scal t u : vsq u = 1 -> epsA < Rabs t -> rv_mat (vscal t u) = aa_mat (t, u).
Proof.
  intros U T. pose proof epsA_pos. unfold rv_mat, rv_aa. rewrite vsq_scal, U, Rmult_1_r.
  assert (Q : t * t = Rabs t * Rabs t) by (unfold Rabs; destruct (Rcase_abs t); ring).
  destruct (Rlt_dec _ _) as [L|L]; [|exfalso; apply L; rewrite Q; nra].
  rewrite Q, sqrt_square by lra. rewrite vscal_scal. unfold Rabs in *. destruct (Rcase_abs t).
  - rewrite <- aa_mat_neg. rewrite Ropp_involutive. f_equal. f_equal. destruct u; u3; f_equal; field; lra.
  - f_equal. f_equal. destruct u; u3; f_equal; field; lra.
Qed.
Lemma rv_mat_scal_0 u : rv_mat (vscal 0 u) = aa_mat (0, u).
Proof.
  rewrite aa_mat_0, vscal_0. apply rv_small. replace (vsq v0) with 0 by (u3; ring). pose proof epsA2_pos; lra.
Qed.
Lemma regulate_unchanged v : vnorm v <= 3 / 2 * PI -> regulate v = v.
Proof.
  intros H. unfold regulate. destruct (Rlt_dec _ _) as [L|L]; [|reflexivity]. exfalso.
  pose proof (vnorm_sq v). pose proof (vnorm_pos v). pose proof PI_RGT_0. nra.
Qed.
Lemma regulate_big v : 3 / 2 * PI < vnorm v ->
  exists t, regulate v = vscal t (vscal (/ vnorm v) v) /\ - PI < t <= PI /\ vsq (vscal (/ vnorm v) v) = 1 /\
    vnorm (regulate v) = Rabs t /\
    aa_mat (t, vscal (/ vnorm v) v) = rv_mat v.
Proof.
  intros H. pose proof PI_RGT_0 as PP. pose proof PI_4. pose proof epsA_small as ES. pose proof epsA_pos.
  pose proof PI2_3_2 as P32.
  assert (N0 : 0 < vnorm v) by lra.
  assert (S0 : 0 < vsq v) by (rewrite <- vnorm_sq; nra).
  unfold regulate. destruct (Rlt_dec _ _) as [L|L]; [|exfalso; apply L; rewrite <- vnorm_sq; nra].
  fold (vnorm v). set (n := vnorm v) in *. set (k := Zceil ((n - PI) / (2 * PI))).
  pose proof (Zceil_spec ((n - PI) / (2 * PI))) as [K1 K2]. fold k in K1, K2.
  assert (U : vsq (vscal (/ n) v) = 1) by (apply vsq_normal; exact S0).
  assert (Q : (n - PI) / (2 * PI) * (2 * PI) = n - PI) by (field; lra).
  exists (n - IZR k * 2 * PI). split; [reflexivity|]. split; [split; nra|]. split; [exact U|]. split.
  - rewrite vnorm_scal. unfold vnorm at 1. rewrite U, sqrt_1. ring.
  - transitivity (aa_mat (n, vscal (/ n) v)).
    + destruct (cos_Z (n - IZR k * 2 * PI) k) as [C S].
      replace (n - IZR k * 2 * PI + 2 * IZR k * PI) with n in C, S by ring.
      unfold aa_mat. rewrite C, S. reflexivity.
    + unfold rv_mat, rv_aa. destruct (Rlt_dec _ _) as [L'|L']; [reflexivity|].
      exfalso; apply L'. rewrite <- vnorm_sq. fold n. nra.
Qed.

(** ** Rotation between two unit vectors *)
Lemma unitary_1 p v : 0 <= p -> vsq v = 1 -> unitary p v = true.
Proof.
  intros P H. unfold unitary. rewrite H. destruct (Rle_dec _ _) as [L|L]; [reflexivity|exfalso; apply L].
  rewrite Rabs_R1. replace (1 - 1) with 0 by ring. rewrite Rabs_R0, Rmin_left by lra. lra.
Qed.
Lemma rodrigues_so3 c k : k * k * vsq c - 2 * k + 1 = 0 -> so3 (madd (madd m1 (skew c)) (mscal k (skew2 c))).
Proof.
  intros H. split.
  - transitivity (madd m1 (mscal (2 * k - 1 - k * k * vsq c) (skew2 c))).
    + clear H; destruct c; u3; f_equal; ring.
    + replace (2 * k - 1 - k * k * vsq c) with 0 by lra. destruct c; u3; f_equal; ring.
  - transitivity (1 + vsq c * (k * k * vsq c - 2 * k + 1)); [clear H; destruct c; u3; ring|rewrite H; ring].
Qed.
Lemma two_vectors_spec md v1 v2 : vsq v1 = 1 -> vsq v2 = 1 ->
  eps1 <= 1 - vdot v1 v2 -> eps1 <= 1 + vdot v1 v2 ->
  exists m, two_vectors md v1 v2 = Ok m /\ so3 m /\ mvec m v1 = v2 /\ mvec m (vcross v1 v2) = vcross v1 v2.
Proof.
  intros U1 U2 D1 D2. pose proof eps1_pos as P.
  unfold two_vectors. rewrite !unitary_1 by (auto; lra).
  assert (boost_assert md (true && true) = Ok tt) as -> by (now destruct md). cbn [obind].
  destruct (Rlt_dec _ _); [lra|]. destruct (Rlt_dec _ _); [lra|].
  assert (L : vsq (vcross v1 v2) = (1 - vdot v1 v2) * (1 + vdot v1 v2)) by (rewrite lagrange, U1, U2; ring).
  assert (K : (1 - vdot v1 v2) / vsq (vcross v1 v2) = / (1 + vdot v1 v2)) by (rewrite L; field; lra).
  rewrite K. eexists; split; [reflexivity|].
  split; [|split].
  - apply rodrigues_so3. rewrite L. field; lra.
  - transitivity (vadd v1 (vadd (vcross (vcross v1 v2) v1) (vscal (/ (1 + vdot v1 v2)) (vcross (vcross v1 v2) (vcross (vcross v1 v2) v1))))).
    + clear; destruct v1, v2; u3; f_equal; ring.
    + assert (E1 : vcross (vcross v1 v2) v1 = vsub v2 (vscal (vdot v1 v2) v1)).
      { transitivity (vsub (vscal (vsq v1) v2) (vscal (vdot v1 v2) v1)); [clear; c3|rewrite U1, vscal_1; reflexivity]. }
      assert (E2 : vcross (vcross v1 v2) v2 = vsub (vscal (vdot v1 v2) v2) v1).
      { transitivity (vsub (vscal (vdot v1 v2) v2) (vscal (vsq v2) v1)); [clear; c3|rewrite U2, vscal_1; reflexivity]. }
      rewrite E1. rewrite vsub_def, vcross_add_r, vcross_neg_r, vcross_scal_r, E1, E2.
      generalize dependent (vdot v1 v2); intros d D1 D2 _ _ L K _ _. destruct v1, v2; u3; f_equal; field; lra.
  - clear. destruct v1, v2; u3; f_equal; ring.
Qed.

(** ** Merging a tilt and a yaw *)
Lemma mtr_rows a b c : mtr (rows a b c) = cols a b c. Proof. reflexivity. Qed.
Lemma rows_so3 a b : vsq a = 1 -> vsq b = 1 -> vdot a b = 0 -> so3 (rows a (vcross b a) b) .
Proof.
  intros A B D.
  assert (L : vsq (vcross b a) = 1) by (rewrite lagrange, A, B; replace (vdot b a) with (vdot a b) by (clear; c3); rewrite D; ring).
  split.
  - transitivity (mkM (vsq a) 0 (vdot a b) 0 (vsq (vcross b a)) 0 (vdot a b) 0 (vsq b)).
    + clear; destruct a, b; u3; f_equal; ring.
    + now rewrite A, B, D, L.
  - transitivity (vsq (vcross b a)); [clear; destruct a, b; u3; ring|exact L].
Qed.
Lemma rows_so3' a b : vsq a = 1 -> vsq b = 1 -> vdot a b = 0 -> so3 (rows (vcross a b) a b) .
Proof.
  intros A B D.
  assert (L : vsq (vcross a b) = 1) by (rewrite lagrange, A, B, D; ring).
  split.
  - transitivity (mkM (vsq (vcross a b)) 0 0 0 (vsq a) (vdot a b) 0 (vdot a b) (vsq b)).
    + clear; destruct a, b; u3; f_equal; ring.
    + now rewrite A, B, D, L.
  - transitivity (vsq (vcross a b)); [clear; destruct a, b; u3; ring|exact L].
Qed.
Lemma head_so3 m : vsq m = 1 -> vz m = 0 -> so3 (cols (vcross m uz) m uz).
Proof.
  intros M Z. unfold cols. apply so3_tr. apply rows_so3'; auto; [apply vsq_uz|]. destruct m; u3; subst; ring.
Qed.
Lemma tilt_of_merge m x y t : vz m = 0 -> mvec (mtr (mmul (cols (vcross m uz) m uz) (rows x y t))) uz = t.
Proof. intros Z. destruct m, x, y, t; u3; subst; f_equal; ring. Qed.

Lemma merge_tilt_spec t r2 m r : vsq t = 1 -> vsq m = 1 -> vz m = 0 -> merge_tilt t r2 m = Ok r ->
  so3 r /\ mvec (mtr r) uz = t /\
  exists k, 0 < k /\ mvec r (vsub (mvec (mtr r2) m) (vscal (vdot (mvec (mtr r2) m) t) t)) = vscal k m.
Proof.
  intros T M Z. unfold merge_tilt. set (ml := mvec (mtr r2) m). set (c := vcross ml t).
  destruct (Rlt_dec _ _) as [L|L]; [|discriminate]. intros E; injection E as <-.
  pose proof epsA2_pos as P. assert (C0 : 0 < vsq c) by lra.
  pose proof (vsq_normal c C0) as C1. destruct (sqrt_pos_mul _ C0) as [Q1 Q2].
  assert (D : vdot (vscal (/ sqrt (vsq c)) c) t = 0).
  { transitivity (/ sqrt (vsq c) * vdot c t); [clear; c3|]. replace (vdot c t) with 0; [ring|].
    unfold c; clear; c3. }
  split; [apply so3_mul; [now apply head_so3|now apply rows_so3]|]. split; [now apply tilt_of_merge|].
  exists (sqrt (vsq c)). split; [exact Q2|].
  rewrite mvec_mul. set (p := vsub ml (vscal (vdot ml t) t)).
  assert (Ep : vcross t c = p).
  { unfold p, c. transitivity (vsub (vscal (vsq t) ml) (vscal (vdot ml t) t)); [clear; c3|now rewrite T, vscal_1]. }
  assert (E2 : vdot p t = 0).
  { unfold p. transitivity (vdot ml t - vdot ml t * vsq t); [clear; c3|rewrite T; ring]. }
  assert (E3 : vsq p = vsq c).
  { rewrite <- Ep, lagrange, T. replace (vdot t c) with 0 by (unfold c; clear; c3). ring. }
  assert (E1 : vdot c p = 0) by (rewrite <- Ep; clear; c3).
  assert (E4 : mvec (rows (vscal (/ sqrt (vsq c)) c) (vcross t (vscal (/ sqrt (vsq c)) c)) t) p = mkV 0 (sqrt (vsq c)) 0).
  { rewrite vcross_scal_r, Ep.
    transitivity (mkV (/ sqrt (vsq c) * vdot c p) (/ sqrt (vsq c) * vsq p) (vdot p t)); [generalize (/ sqrt (vsq c)); clear; intros; c3|].
    rewrite E1, E2, E3. f_equal; [ring|]. rewrite <- Q1 at 2. field; lra. }
  rewrite E4. generalize (sqrt (vsq c)); intros s. destruct m; clear; u3; f_equal; ring.
Qed.

Lemma normalized_unit v : v <> v0 -> vsq (normalized v) = 1.
Proof.
  intros H. unfold normalized. pose proof (vsq_nonneg v). destruct (Rlt_dec _ _) as [L|L]; [now apply vsq_normal|].
  exfalso; apply H, vsq_0; lra.
Qed.
Lemma normalized_scal v : exists k, normalized v = vscal k v.
Proof. unfold normalized. destruct (Rlt_dec _ _); eexists; [reflexivity|symmetry; apply vscal_1]. Qed.
Lemma inv_orthogonal_facts r t : inv_orthogonal r t <> v0 /\ vz (inv_orthogonal r t) = 0 /\
  ((is_zero2 (vx (mvec r t)) (vy (mvec r t)) = true -> vx (mvec r t) = 0 ) -> vdot (inv_orthogonal r t) (mvec r t) = 0).
Proof.
  unfold inv_orthogonal. set (p := mvec r t). clearbody p.
  assert (E : is_zero2 (vx p) (vy p) = false -> mkV (vy p) (- vx p) 0 <> v0).
  { unfold is_zero2. intros H Z. injection Z; intros A B. pose proof eps1_pos.
    replace (vx p) with 0 in H by lra. rewrite B in H. rewrite Rabs_R0 in H.
    destruct (Rle_dec 0 eps1); [discriminate|lra]. }
  destruct (is_zero2 (vx p) (vy p)) eqn:Q.
  - split; [intros A; injection A; lra|]. split; [reflexivity|]. intros H. specialize (H eq_refl). u3. rewrite H. ring.
  - split; [auto|]. split; [reflexivity|]. intros _. u3; ring.
Qed.
Lemma merge_agn_spec t r2 : so3 r2 -> vsq t = 1 ->
  let p := mvec r2 t in
  let r := merge_tilt_agn t r2 in
  mvec (mtr r) uz = t /\
  ((is_zero2 (vx p) (vy p) = true -> vx p = 0) ->
   so3 r /\ (exists m, vsq m = 1 /\ vz m = 0 /\ mvec r (mvec (mtr r2) m) = m)).
Proof.
  intros H2 T p r. unfold r, merge_tilt_agn.
  destruct (inv_orthogonal_facts r2 t) as (NZ & HZ & HD). fold p in HD.
  pose proof (normalized_unit _ NZ) as MU. destruct (normalized_scal (inv_orthogonal r2 t)) as [k Ek].
  set (m := normalized (inv_orthogonal r2 t)) in *.
  assert (MZ : vz m = 0) by (rewrite Ek; unfold vscal; cbn; rewrite HZ; ring).
  split; [now apply tilt_of_merge|]. intros HP. specialize (HD HP).
  assert (D : vdot (mvec (mtr r2) m) t = 0).
  { rewrite mdot_tr, mtr_tr. fold p. rewrite Ek. transitivity (k * vdot (inv_orthogonal r2 t) p); [|rewrite HD; ring].
    generalize (inv_orthogonal r2 t); clear; intros; clearbody p; c3. }
  assert (MU' : vsq (mvec (mtr r2) m) = 1) by (rewrite so3_vsq; auto using so3_tr).
  split; [apply so3_mul; [now apply head_so3|now apply rows_so3']|].
  exists m. split; [exact MU|]. split; [exact MZ|]. rewrite mvec_mul.
  generalize dependent (mvec (mtr r2) m); intros ml Dl Ul.
  assert (E4 : mvec (rows (vcross ml t) ml t) ml = mkV 0 1 0).
  { transitivity (mkV 0 (vsq ml) (vdot ml t)); [clear; c3|now rewrite Ul, Dl]. }
  rewrite E4. clear. clearbody m. destruct m; u3; f_equal; ring.
Qed.

(** ** Roll, pitch, yaw *)
Lemma rpy_quat_unit r p y : qn2 (rpy_quat r p y) = 1.
Proof.
  unfold rpy_quat. rewrite !qn2_mul, !aa_quat_unit by (apply vsq_ux || apply vsq_uy || apply vsq_uz). ring.
Qed.
Lemma rpy_mat_eq r p y : rpy_mat r p y = mmul (mmul (aa_mat (y, uz)) (aa_mat (p, uy))) (aa_mat (r, ux)).
Proof.
  unfold rpy_mat, rpy_quat.
  assert (U : forall t u, vsq u = 1 -> qn2 (aa_quat (t, u)) = 1) by (intros; now apply aa_quat_unit).
  rewrite !qrot_mul, !aa_mat_quat; auto using vsq_ux, vsq_uy, vsq_uz.
  rewrite qn2_mul, !U by (apply vsq_uy || apply vsq_uz). ring.
Qed.
Lemma rpy_entries r p y : rpy_mat r p y =
  mkM (cos y * cos p) (cos y * sin p * sin r - sin y * cos r) (cos y * sin p * cos r + sin y * sin r)
      (sin y * cos p) (sin y * sin p * sin r + cos y * cos r) (sin y * sin p * cos r - cos y * sin r)
      (- sin p) (cos p * sin r) (cos p * cos r).
Proof. rewrite rpy_mat_eq. unfold aa_mat; u3; f_equal; ring. Qed.

Lemma mat_rpy_exp r p y : - PI < r <= PI -> - PI / 2 < p < PI / 2 -> - PI < y <= PI -> mat_rpy (rpy_mat r p y) = mkV r p y.
Proof.
  intros Hr Hp Hy. rewrite rpy_entries. unfold mat_rpy; cbn [m00 m10 m20 m21 m22].
  assert (C : 0 < cos p) by (apply cos_gt_0; lra). pose proof PI_RGT_0.
  assert (S : sqrt (cos p * sin r * (cos p * sin r) + cos p * cos r * (cos p * cos r)) = cos p).
  { replace (_ + _) with (cos p * cos p * (sin r * sin r + cos r * cos r)) by ring. rewrite sc1, Rmult_1_r. apply sqrt_square; lra. }
  rewrite S, Ropp_involutive. f_equal.
  - now apply atan2_angle.
  - rewrite <- (Rmult_1_l (sin p)), <- (Rmult_1_l (cos p)). apply atan2_angle; lra.
  - rewrite (Rmult_comm (sin y)), (Rmult_comm (cos y)). now apply atan2_angle.
Qed.
Lemma rpy_mat_log m : so3 m -> m20 m * m20 m < 1 ->
  let e := mat_rpy m in rpy_mat (vx e) (vy e) (vz e) = m.
Proof.
  intros H G e. rewrite rpy_entries. unfold e, mat_rpy; cbn [vx vy vz].
  pose proof (so3_eqs m H) as Q. pose proof (so3_cof m H) as C. clear H e.
  destruct m as [a b c d e f g h i]; cbn [m00 m01 m02 m10 m11 m12 m20 m21 m22] in *.
  decompose [and] Q; decompose [and] C; clear Q C.
  set (w := h * h + i * i). assert (W0 : 0 < w) by (unfold w; lra).
  destruct (sqrt_pos_mul w W0) as [S1 S2]. set (s := sqrt w) in *.
  destruct (atan2_sc h i) as (_ & C1 & T1); [lra|]. replace (i * i + h * h) with w in C1, T1 by (unfold w; ring). fold s in C1, T1.
  destruct (atan2_sc d a) as (_ & C2 & T2); [unfold w in *; lra|]. replace (a * a + d * d) with w in C2, T2 by (unfold w; lra). fold s in C2, T2.
  destruct (atan2_sc (- g) s) as (_ & C3 & T3); [nra|]. replace (s * s + - g * - g) with 1 in C3, T3 by (rewrite S1; unfold w; lra).
  rewrite sqrt_1 in C3, T3. unfold Rdiv in C3, T3. rewrite Rinv_1, Rmult_1_r in C3, T3.
  rewrite C1, C2, C3, T1, T2, T3.
  assert (X : forall u v, u = v * w -> u / (s * s) = v) by (intros u v ->; rewrite S1; field; lra).
  f_equal; try (field; lra).
  - transitivity ((- a * g * h - d * i) / (s * s)); [field; lra|]. apply X; unfold w.
    transitivity (h * (b * h + c * i) - d * i); [replace (- a * g * h) with (h * - (a * g)) by ring; f_equal; f_equal; lra|].
    replace d with (c * h - b * i) by assumption. ring.
  - transitivity ((- a * g * i + d * h) / (s * s)); [field; lra|]. apply X; unfold w.
    transitivity (i * (b * h + c * i) + d * h); [replace (- a * g * i) with (i * - (a * g)) by ring; f_equal; f_equal; lra|].
    replace d with (c * h - b * i) by assumption. ring.
  - transitivity ((- d * g * h + a * i) / (s * s)); [field; lra|]. apply X; unfold w.
    transitivity (h * (e * h + f * i) + a * i); [replace (- d * g * h) with (h * - (d * g)) by ring; f_equal; f_equal; lra|].
    replace a with (e * i - f * h) by assumption. ring.
  - transitivity ((- d * g * i - a * h) / (s * s)); [field; lra|]. apply X; unfold w.
    transitivity (i * (e * h + f * i) - a * h); [replace (- d * g * i) with (i * - (d * g)) by ring; f_equal; f_equal; lra|].
    replace a with (e * i - f * h) by assumption. ring.
Qed.
