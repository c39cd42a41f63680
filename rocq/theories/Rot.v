(** Rotations: angle-axis, rotation vectors, conversions and helpers of
    include/state-observation/tools/rigid-body-kinematics.hxx. *)
From Coq Require Import Reals Lra Psatz ZArith.
From Verif Require Import Base Vec3.
Open Scope R_scope.

(** definitions.hpp:554 epsilonAngle = 1e-16, 557 epsilon1 = 2^-52. *)
Definition epsA : R := / 10000000000000000.
Definition eps1 : R := / 4503599627370496.
Lemma epsA_pos : 0 < epsA. Proof. unfold epsA; lra. Qed.
Lemma eps1_pos : 0 < eps1. Proof. unfold eps1; lra. Qed.
Lemma epsA_small : epsA < 1. Proof. unfold epsA; lra. Qed.

(** C atan2 (zero signs ignored: atan2 0 0 is 0, atan2 0 x is PI for x < 0). *)
Definition atan2 (y x : R) : R :=
  if Rlt_dec 0 x then atan (y / x)
  else if Rlt_dec x 0 then (if Rle_dec 0 y then atan (y / x) + PI else atan (y / x) - PI)
  else if Rlt_dec 0 y then PI / 2 else if Rlt_dec y 0 then - (PI / 2) else 0.

(** Eigen AngleAxis: angle and axis. *)
Definition AA := (R * V3)%type.

(** Eigen AngleAxis::toRotationMatrix(). *)
Definition aa_mat (a : AA) : M3 :=
  let '(t, u) := a in
  let s := sin t in let c := cos t in
  mkM ((1 - c) * vx u * vx u + c) ((1 - c) * vx u * vy u - s * vz u) ((1 - c) * vx u * vz u + s * vy u)
      ((1 - c) * vx u * vy u + s * vz u) ((1 - c) * vy u * vy u + c) ((1 - c) * vy u * vz u - s * vx u)
      ((1 - c) * vx u * vz u - s * vy u) ((1 - c) * vy u * vz u + s * vx u) ((1 - c) * vz u * vz u + c).
(** Eigen Quaternion(AngleAxis). *)
Definition aa_quat (a : AA) : Q4 :=
  let '(t, u) := a in mkQ (cos (t / 2)) (sin (t / 2) * vx u) (sin (t / 2) * vy u) (sin (t / 2) * vz u).

(** rigid-body-kinematics.hxx:123-135 rotationVectorToAngleAxis. *)
Definition rv_aa (v : V3) : AA :=
  if Rlt_dec (epsA * epsA) (vsq v) then (sqrt (vsq v), vscal (/ sqrt (vsq v)) v) else (0, uz).
(** rigid-body-kinematics.hxx:138-141 rotationVectorToRotationMatrix, 144-147
    rotationVectorToQuaternion. *)
Definition rv_mat (v : V3) : M3 := aa_mat (rv_aa v).
Definition rv_quat (v : V3) : Q4 := aa_quat (rv_aa v).

(** Eigen Quaternion(Matrix3). *)
Definition mat_quat (m : M3) : Q4 :=
  let t := mtrace m in
  if Rlt_dec 0 t then
    let s := sqrt (t + 1) in let r := / 2 / s in
    mkQ (s / 2) ((m21 m - m12 m) * r) ((m02 m - m20 m) * r) ((m10 m - m01 m) * r)
  else if Rlt_dec (m00 m) (m11 m) then
    if Rlt_dec (m11 m) (m22 m) then
      let s := sqrt (m22 m - m00 m - m11 m + 1) in let r := / 2 / s in
      mkQ ((m10 m - m01 m) * r) ((m02 m + m20 m) * r) ((m12 m + m21 m) * r) (s / 2)
    else
      let s := sqrt (m11 m - m22 m - m00 m + 1) in let r := / 2 / s in
      mkQ ((m02 m - m20 m) * r) ((m01 m + m10 m) * r) (s / 2) ((m21 m + m12 m) * r)
  else
    if Rlt_dec (m00 m) (m22 m) then
      let s := sqrt (m22 m - m00 m - m11 m + 1) in let r := / 2 / s in
      mkQ ((m10 m - m01 m) * r) ((m02 m + m20 m) * r) ((m12 m + m21 m) * r) (s / 2)
    else
      let s := sqrt (m00 m - m11 m - m22 m + 1) in let r := / 2 / s in
      mkQ ((m21 m - m12 m) * r) (s / 2) ((m10 m + m01 m) * r) ((m20 m + m02 m) * r).

(** Eigen (3.3 and later) AngleAxis(Quaternion); AngleAxis(Matrix3) goes through the
    quaternion. *)
Definition quat_aa (q : Q4) : AA :=
  let n := vnorm (qvec q) in
  if Req_EM_T n 0 then (0, ux)
  else (2 * atan2 n (Rabs (qw q)), vscal (/ (if Rlt_dec (qw q) 0 then - n else n)) (qvec q)).
Definition mat_aa (m : M3) : AA := quat_aa (mat_quat m).

(** rigid-body-kinematics.hxx:150-156 rotationMatrixToRotationVector, 159-164
    quaternionToRotationVector. *)
Definition mat_rv (m : M3) : V3 := vscal (fst (mat_aa m)) (snd (mat_aa m)).
Definition quat_rv (q : Q4) : V3 := vscal (fst (quat_aa q)) (snd (quat_aa q)).

(** rigid-body-kinematics.hxx:203-224 rollPitchYawToQuaternion, rollPitchYawToRotationMatrix. *)
Definition rpy_quat (r p y : R) : Q4 := qmul (qmul (aa_quat (y, uz)) (aa_quat (p, uy))) (aa_quat (r, ux)).
Definition rpy_mat (r p y : R) : M3 := qrot (rpy_quat r p y).
(** rigid-body-kinematics.hxx:190-201 rotationMatrixToRollPitchYaw. *)
Definition mat_rpy (m : M3) : V3 :=
  mkV (atan2 (m21 m) (m22 m)) (atan2 (- m20 m) (sqrt (m21 m * m21 m + m22 m * m22 m))) (atan2 (m10 m) (m00 m)).

(** std::ceil as an integer. *)
Definition Zceil (x : R) : Z := (- Int_part (- x))%Z.
(** rigid-body-kinematics.hxx:107-120 regulateOrientationVector. The conversion of the ceiling
    to unsigned is exact because n > PI in that branch (no overflow considered). *)
Definition regulate (v : V3) : V3 :=
  let n2 := vsq v in
  if Rlt_dec ((3 / 2 * PI) ^ 2) n2 then
    let n := sqrt n2 in
    let k := IZR (Zceil ((n - PI) / (2 * PI))) in
    vscal (n - k * 2 * PI) (vscal (/ n) v)
  else v.

(** Eigen isUnitary(prec) for a vector: |v.v - 1| <= prec * min(|v.v|, 1); exact unit vectors
    satisfy it. *)
Definition unitary (prec : R) (v : V3) : bool :=
  if Rle_dec (Rabs (vsq v - 1)) (prec * Rmin (Rabs (vsq v)) 1) then true else false.

(** rigid-body-kinematics.hxx:311-335 twoVectorsToRotationMatrix. *)
Definition two_vectors (md : mode) (v1 v2 : V3) : outcome M3 :=
  do _ <- boost_assert md (unitary eps1 v1 && unitary eps1 v2);
  if Rlt_dec (1 - vdot v1 v2) eps1 then Ok m1
  else if Rlt_dec (1 + vdot v1 v2) eps1 then Throw
  else let c := vcross v1 v2 in
       Ok (madd (madd m1 (skew c)) (mscal ((1 - vdot v1 v2) / vsq c) (skew2 c))).

(** Eigen isZero(prec) on the first two components: each |x| <= prec. *)
Definition is_zero2 (a b : R) : bool :=
  if Rle_dec (Rabs a) eps1 then (if Rle_dec (Rabs b) eps1 then true else false) else false.

(** rigid-body-kinematics.hxx:337-340 isPureYaw, 342-352 getInvariantHorizontalVector, 354-365
    getInvariantOrthogonalVector. *)
Definition is_pure_yaw (m : M3) : bool := is_zero2 (m20 m) (m21 m).
Definition inv_horizontal (m : M3) : V3 := if is_pure_yaw m then ux else mkV (m21 m) (- m20 m) 0.
Definition inv_orthogonal (m : M3) (t : V3) : V3 :=
  let p := mvec m t in if is_zero2 (vx p) (vy p) then ux else mkV (vy p) (- vx p) 0.

(** Eigen normalized(): unchanged when the squared norm is 0. *)
Definition normalized (v : V3) : V3 := if Rlt_dec 0 (vsq v) then vscal (/ sqrt (vsq v)) v else v.

(** rigid-body-kinematics.hxx:367-408 mergeTiltWithYaw. *)
Definition merge_tilt (t : V3) (r2 : M3) (m : V3) : outcome M3 :=
  let c := vcross (mvec (mtr r2) m) t in
  if Rlt_dec (epsA * epsA) (vsq c) then
    let c' := vscal (/ sqrt (vsq c)) c in
    Ok (mmul (cols (vcross m uz) m uz) (rows c' (vcross t c') t))
  else Throw.
(** rigid-body-kinematics.hxx:410-413 mergeRoll1Pitch1WithYaw2. *)
Definition merge_rp_yaw (r1 r2 : M3) (m : V3) : outcome M3 := merge_tilt (mvec (mtr r1) uz) r2 m.
(** rigid-body-kinematics.hxx:415-442 mergeTiltWithYawAxisAgnostic, 444-447 mergeRoll1Pitch1WithYaw2AxisAgnostic. *)
Definition merge_tilt_agn (t : V3) (r2 : M3) : M3 :=
  let m := normalized (inv_orthogonal r2 t) in
  let ml := mvec (mtr r2) m in
  mmul (cols (vcross m uz) m uz) (rows (vcross ml t) ml t).
Definition merge_rp_yaw_agn (r1 r2 : M3) : M3 := merge_tilt_agn (mvec (mtr r1) uz) r2.

(** rigid-body-kinematics.hxx:461-464 rotationMatrixToYaw, 455-459 with a horizontal vector, 466-481
    rotationMatrixToYawAxisAgnostic, 449-453 rotationMatrixToAngle. *)
Definition mat_yaw (m : M3) : R := atan2 (m10 m) (m00 m).
Definition mat_yaw_v (m : M3) (x y : R) : R :=
  let rx := m00 m * x + m01 m * y in let ry := m10 m * x + m11 m * y in
  atan2 (x * ry - y * rx) (x * rx + y * ry).
Definition mat_yaw_agn (m : M3) : R :=
  if is_pure_yaw m then mat_yaw m else mat_yaw_v m (vx (inv_horizontal m)) (vy (inv_horizontal m)).
Definition mat_angle (m : M3) (axis v : V3) : R :=
  let p := vcross axis (vcross (mvec m v) axis) in atan2 (vdot (vcross v p) axis) (vdot v p).

(** rigid-body-kinematics.hxx:678-690 invertHomoMatrix: rotation block and translation. The
    last row (0 0 0 1) is implicit. *)
Definition homo := (M3 * V3)%type.
Definition homo_mul (a b : homo) : homo := (mmul (fst a) (fst b), vadd (mvec (fst a) (snd b)) (snd a)).
Definition homo_inv (a : homo) : homo := (mtr (fst a), vneg (mvec (mtr (fst a)) (snd a))).
Definition homo_1 : homo := (m1, v0).
(** rigid-body-kinematics.hxx:291-300 homogeneousMatrixToVector6 and 303-309
    vector6ToHomogeneousMatrix: position, then rotation vector. *)
Definition homo_v6 (a : homo) : V3 * V3 := (snd a, mat_rv (fst a)).
Definition v6_homo (v : V3 * V3) : homo := (rv_mat (snd v), fst v).
