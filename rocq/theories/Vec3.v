(** Fixed-size vectors, matrices and quaternions of Eigen as records over the reals, with the
    operations used by include/state-observation/tools/rigid-body-kinematics.hxx. Eigen itself
    is part of the trusted reading: the formulas below are its documented ones, in exact
    arithmetic. *)
From Coq Require Import Reals Lra Psatz.
Open Scope R_scope.

(** Vector3 (definitions.hpp:44). *)
Record V3 := mkV { vx : R; vy : R; vz : R }.
Definition v0 : V3 := mkV 0 0 0.
Definition ux : V3 := mkV 1 0 0.
Definition uy : V3 := mkV 0 1 0.
Definition uz : V3 := mkV 0 0 1.
Definition vadd a b := mkV (vx a + vx b) (vy a + vy b) (vz a + vz b).
Definition vsub a b := mkV (vx a - vx b) (vy a - vy b) (vz a - vz b).
Definition vneg a := mkV (- vx a) (- vy a) (- vz a).
Definition vscal k a := mkV (k * vx a) (k * vy a) (k * vz a).
Definition vdot a b := vx a * vx b + vy a * vy b + vz a * vz b.
Definition vcross a b := mkV (vy a * vz b - vz a * vy b) (vz a * vx b - vx a * vz b) (vx a * vy b - vy a * vx b).
(** squaredNorm() and norm(). *)
Definition vsq a := vdot a a.
Definition vnorm a := sqrt (vsq a).

(** Matrix3 (definitions.hpp:66), row by row. *)
Record M3 := mkM { m00 : R; m01 : R; m02 : R; m10 : R; m11 : R; m12 : R; m20 : R; m21 : R; m22 : R }.
Definition m1 : M3 := mkM 1 0 0 0 1 0 0 0 1.
Definition mz : M3 := mkM 0 0 0 0 0 0 0 0 0.
Definition mdiag a b c : M3 := mkM a 0 0 0 b 0 0 0 c.
Definition madd a b := mkM (m00 a + m00 b) (m01 a + m01 b) (m02 a + m02 b) (m10 a + m10 b) (m11 a + m11 b) (m12 a + m12 b)
  (m20 a + m20 b) (m21 a + m21 b) (m22 a + m22 b).
Definition mscal k a := mkM (k * m00 a) (k * m01 a) (k * m02 a) (k * m10 a) (k * m11 a) (k * m12 a) (k * m20 a) (k * m21 a) (k * m22 a).
Definition mtr a := mkM (m00 a) (m10 a) (m20 a) (m01 a) (m11 a) (m21 a) (m02 a) (m12 a) (m22 a).
Definition mmul a b := mkM
  (m00 a * m00 b + m01 a * m10 b + m02 a * m20 b) (m00 a * m01 b + m01 a * m11 b + m02 a * m21 b) (m00 a * m02 b + m01 a * m12 b + m02 a * m22 b)
  (m10 a * m00 b + m11 a * m10 b + m12 a * m20 b) (m10 a * m01 b + m11 a * m11 b + m12 a * m21 b) (m10 a * m02 b + m11 a * m12 b + m12 a * m22 b)
  (m20 a * m00 b + m21 a * m10 b + m22 a * m20 b) (m20 a * m01 b + m21 a * m11 b + m22 a * m21 b) (m20 a * m02 b + m21 a * m12 b + m22 a * m22 b).
Definition mvec a v := mkV (m00 a * vx v + m01 a * vy v + m02 a * vz v) (m10 a * vx v + m11 a * vy v + m12 a * vz v)
  (m20 a * vx v + m21 a * vy v + m22 a * vz v).
Definition mdet a := m00 a * (m11 a * m22 a - m12 a * m21 a) - m01 a * (m10 a * m22 a - m12 a * m20 a)
  + m02 a * (m10 a * m21 a - m11 a * m20 a).
Definition mtrace a := m00 a + m11 a + m22 a.
Definition mneg a := mscal (-1) a.
Definition msub a b := madd a (mneg b).
(** Adjugate, used in proofs only. *)
Definition madj a := mkM
  (m11 a * m22 a - m12 a * m21 a) (m02 a * m21 a - m01 a * m22 a) (m01 a * m12 a - m02 a * m11 a)
  (m12 a * m20 a - m10 a * m22 a) (m00 a * m22 a - m02 a * m20 a) (m02 a * m10 a - m00 a * m12 a)
  (m10 a * m21 a - m11 a * m20 a) (m01 a * m20 a - m00 a * m21 a) (m00 a * m11 a - m01 a * m10 a).
(** Rows and columns. *)
Definition rows a b c := mkM (vx a) (vy a) (vz a) (vx b) (vy b) (vz b) (vx c) (vy c) (vz c).
Definition cols a b c := mtr (rows a b c).

(** rigid-body-kinematics.hxx:246-266 skewSymmetric. *)
Definition skew v := mkM 0 (- vz v) (vy v) (vz v) 0 (- vx v) (- vy v) (vx v) 0.
(** rigid-body-kinematics.hxx:269-288 skewSymmetric2: v v^T minus its trace on the diagonal. *)
Definition skew2 v :=
  let n := vx v * vx v + vy v * vy v + vz v * vz v in
  mkM (vx v * vx v - n) (vx v * vy v) (vx v * vz v) (vy v * vx v) (vy v * vy v - n) (vy v * vz v)
      (vz v * vx v) (vz v * vy v) (vz v * vz v - n).

(** Quaternion (definitions.hpp:113): Eigen::Quaternion<double>. *)
Record Q4 := mkQ { qw : R; qx : R; qy : R; qz : R }.
Definition q1 : Q4 := mkQ 1 0 0 0.
Definition qmul a b := mkQ
  (qw a * qw b - qx a * qx b - qy a * qy b - qz a * qz b)
  (qw a * qx b + qx a * qw b + qy a * qz b - qz a * qy b)
  (qw a * qy b + qy a * qw b + qz a * qx b - qx a * qz b)
  (qw a * qz b + qz a * qw b + qx a * qy b - qy a * qx b).
Definition qconj a := mkQ (qw a) (- qx a) (- qy a) (- qz a).
Definition qneg a := mkQ (- qw a) (- qx a) (- qy a) (- qz a).
Definition qn2 a := qw a * qw a + qx a * qx a + qy a * qy a + qz a * qz a.
Definition qvec a := mkV (qx a) (qy a) (qz a).
(** Eigen Quaternion::inverse(): conjugate over the squared norm, zero for a zero quaternion. *)
Definition qinv a : Q4 :=
  if Rlt_dec 0 (qn2 a) then mkQ (qw a / qn2 a) (- qx a / qn2 a) (- qy a / qn2 a) (- qz a / qn2 a) else mkQ 0 0 0 0.
(** Eigen Quaternion::toRotationMatrix(). *)
Definition qrot a := mkM
  (1 - (2 * qy a * qy a + 2 * qz a * qz a)) (2 * qy a * qx a - 2 * qz a * qw a) (2 * qz a * qx a + 2 * qy a * qw a)
  (2 * qy a * qx a + 2 * qz a * qw a) (1 - (2 * qx a * qx a + 2 * qz a * qz a)) (2 * qz a * qy a - 2 * qx a * qw a)
  (2 * qz a * qx a - 2 * qy a * qw a) (2 * qz a * qy a + 2 * qx a * qw a) (1 - (2 * qx a * qx a + 2 * qy a * qy a)).
(** The homogeneous form, used in proofs. *)
Definition qrotH a := mkM
  (qw a * qw a + qx a * qx a - qy a * qy a - qz a * qz a) (2 * qy a * qx a - 2 * qz a * qw a) (2 * qz a * qx a + 2 * qy a * qw a)
  (2 * qy a * qx a + 2 * qz a * qw a) (qw a * qw a - qx a * qx a + qy a * qy a - qz a * qz a) (2 * qz a * qy a - 2 * qx a * qw a)
  (2 * qz a * qx a - 2 * qy a * qw a) (2 * qz a * qy a + 2 * qx a * qw a) (qw a * qw a - qx a * qx a - qy a * qy a + qz a * qz a).

Ltac d3 := repeat match goal with
  | v : V3 |- _ => destruct v | m : M3 |- _ => destruct m | q : Q4 |- _ => destruct q end.
Ltac u3 := cbv beta iota zeta delta [vsq msub mneg cols vadd vsub vneg vscal vdot vcross madd mscal mtr mmul mvec mdet mtrace madj
  rows skew skew2 qmul qconj qneg qn2 qvec qrot qrotH m1 mz mdiag v0 ux uy uz q1
  vx vy vz m00 m01 m02 m10 m11 m12 m20 m21 m22 qw qx qy qz] in *.
Ltac c3 := intros; d3; u3; lazymatch goal with |- @eq R _ _ => try ring | _ => try f_equal; try ring end.

(** ** Vector and matrix algebra *)
Lemma vadd_comm a b : vadd a b = vadd b a. Proof. c3. Qed.
Lemma vadd_assoc a b c : vadd a (vadd b c) = vadd (vadd a b) c. Proof. c3. Qed.
Lemma vadd_0_l a : vadd v0 a = a. Proof. c3. Qed.
Lemma vadd_0_r a : vadd a v0 = a. Proof. c3. Qed.
Lemma vneg_add a b : vneg (vadd a b) = vadd (vneg a) (vneg b). Proof. c3. Qed.
Lemma vadd_neg a : vadd a (vneg a) = v0. Proof. c3. Qed.
Lemma vadd_neg_l a : vadd (vneg a) a = v0. Proof. c3. Qed.
Lemma vneg_neg a : vneg (vneg a) = a. Proof. c3. Qed.
Lemma vsub_def a b : vsub a b = vadd a (vneg b). Proof. c3. Qed.
Lemma vscal_scal a b v : vscal a (vscal b v) = vscal (a * b) v. Proof. c3. Qed.
Lemma vscal_1 v : vscal 1 v = v. Proof. c3. Qed.
Lemma vscal_0 v : vscal 0 v = v0. Proof. c3. Qed.
Lemma vscal_v0 k : vscal k v0 = v0. Proof. c3. Qed.
Lemma vscal_add k a b : vscal k (vadd a b) = vadd (vscal k a) (vscal k b). Proof. c3. Qed.
Lemma vcross_self a : vcross a a = v0. Proof. c3. Qed.
Lemma vcross_anti a b : vcross a b = vneg (vcross b a). Proof. c3. Qed.
Lemma vcross_add_l a b c : vcross (vadd a b) c = vadd (vcross a c) (vcross b c). Proof. c3. Qed.
Lemma vcross_add_r a b c : vcross a (vadd b c) = vadd (vcross a b) (vcross a c). Proof. c3. Qed.
Lemma vcross_scal_l k a b : vcross (vscal k a) b = vscal k (vcross a b). Proof. c3. Qed.
Lemma vcross_scal_r k a b : vcross a (vscal k b) = vscal k (vcross a b). Proof. c3. Qed.
Lemma vcross_neg_l a b : vcross (vneg a) b = vneg (vcross a b). Proof. c3. Qed.
Lemma vcross_neg_r a b : vcross a (vneg b) = vneg (vcross a b). Proof. c3. Qed.
Lemma vsq_scal k v : vsq (vscal k v) = k * k * vsq v. Proof. c3. Qed.
Lemma vsq_neg v : vsq (vneg v) = vsq v. Proof. c3. Qed.
Lemma vsq_nonneg v : 0 <= vsq v. Proof. d3; u3; nra. Qed.
Lemma vsq_0 v : vsq v = 0 -> v = v0.
Proof. d3; u3; intros H. assert (vx0 = 0) by nra. assert (vy0 = 0) by nra. assert (vz0 = 0) by nra. now subst. Qed.
Lemma vnorm_sq v : vnorm v * vnorm v = vsq v.
Proof. apply sqrt_sqrt, vsq_nonneg. Qed.
Lemma vnorm_pos v : 0 <= vnorm v. Proof. apply sqrt_pos. Qed.
Lemma vnorm_scal k v : vnorm (vscal k v) = Rabs k * vnorm v.
Proof.
  unfold vnorm. rewrite vsq_scal, sqrt_mult; [|nra|apply vsq_nonneg]. f_equal.
  replace (k * k) with (Rsqr k) by reflexivity. apply sqrt_Rsqr_abs.
Qed.
Lemma lagrange a b : vsq (vcross a b) = vsq a * vsq b - vdot a b * vdot a b. Proof. c3. Qed.

Lemma mmul_assoc a b c : mmul a (mmul b c) = mmul (mmul a b) c. Proof. c3. Qed.
Lemma mmul_1_l a : mmul m1 a = a. Proof. c3. Qed.
Lemma mmul_1_r a : mmul a m1 = a. Proof. c3. Qed.
Lemma mtr_mul a b : mtr (mmul a b) = mmul (mtr b) (mtr a). Proof. c3. Qed.
Lemma mtr_tr a : mtr (mtr a) = a. Proof. c3. Qed.
Lemma mtr_1 : mtr m1 = m1. Proof. c3. Qed.
Lemma mvec_mul a b v : mvec (mmul a b) v = mvec a (mvec b v). Proof. c3. Qed.
Lemma mvec_1 v : mvec m1 v = v. Proof. c3. Qed.
Lemma mvec_add a v w : mvec a (vadd v w) = vadd (mvec a v) (mvec a w). Proof. c3. Qed.
Lemma mvec_neg a v : mvec a (vneg v) = vneg (mvec a v). Proof. c3. Qed.
Lemma mvec_scal a k v : mvec a (vscal k v) = vscal k (mvec a v). Proof. c3. Qed.
Lemma mvec_0 a : mvec a v0 = v0. Proof. c3. Qed.
Lemma mdet_mul a b : mdet (mmul a b) = mdet a * mdet b. Proof. c3. Qed.
Lemma mdet_tr a : mdet (mtr a) = mdet a. Proof. c3. Qed.
Lemma madj_mul a : mmul (madj a) a = mscal (mdet a) m1. Proof. c3. Qed.
Lemma skew_cross v w : mvec (skew v) w = vcross v w. Proof. c3. Qed.
Lemma skew2_skew v : skew2 v = mmul (skew v) (skew v). Proof. c3. Qed.
Lemma mdot_tr a v w : vdot (mvec a v) w = vdot v (mvec (mtr a) w). Proof. c3. Qed.

(** ** Rotation matrices *)
Definition so3 a : Prop := mmul a (mtr a) = m1 /\ mdet a = 1.

Lemma so3_adj a : so3 a -> madj a = mtr a.
Proof.
  intros [H D]. rewrite <- (mmul_1_r (madj a)), <- H, mmul_assoc, madj_mul, D.
  clear H D; c3.
Qed.
Lemma so3_tr_mul a : so3 a -> mmul (mtr a) a = m1.
Proof.
  intros Ha. rewrite <- (so3_adj a Ha), madj_mul. destruct Ha as [_ ->]. clear; c3.
Qed.
Lemma so3_1 : so3 m1. Proof. split; [c3|c3]. Qed.
Lemma so3_tr a : so3 a -> so3 (mtr a).
Proof. intros Ha. split; [rewrite mtr_tr; now apply so3_tr_mul|rewrite mdet_tr; apply Ha]. Qed.
Lemma so3_mul a b : so3 a -> so3 b -> so3 (mmul a b).
Proof.
  intros [Ha Da] [Hb Db]; split.
  - now rewrite mtr_mul, mmul_assoc, <- (mmul_assoc a b), Hb, mmul_1_r, Ha.
  - rewrite mdet_mul, Da, Db; ring.
Qed.
Lemma so3_cross a v w : so3 a -> mvec a (vcross v w) = vcross (mvec a v) (mvec a w).
Proof.
  intros Ha. pose proof (so3_adj a Ha) as E.
  assert (G : mvec (mtr (madj a)) (vcross v w) = vcross (mvec a v) (mvec a w)) by (clear; c3).
  now rewrite E, mtr_tr in G.
Qed.
Lemma so3_dot a v w : so3 a -> vdot (mvec a v) (mvec a w) = vdot v w.
Proof. intros Ha. now rewrite mdot_tr, <- mvec_mul, so3_tr_mul, mvec_1. Qed.
Lemma so3_vsq a v : so3 a -> vsq (mvec a v) = vsq v.
Proof. intros; now apply so3_dot. Qed.
Lemma so3_tr_vec a v : so3 a -> mvec (mtr a) (mvec a v) = v.
Proof. intros; now rewrite <- mvec_mul, so3_tr_mul, mvec_1. Qed.
Lemma so3_vec_tr a v : so3 a -> mvec a (mvec (mtr a) v) = v.
Proof. intros [H _]; now rewrite <- mvec_mul, H, mvec_1. Qed.

(** Scalar equations of a rotation matrix, for linear reasoning on monomials. *)
Lemma so3_eqs a : so3 a ->
  m00 a * m00 a + m01 a * m01 a + m02 a * m02 a = 1 /\ m10 a * m10 a + m11 a * m11 a + m12 a * m12 a = 1 /\
  m20 a * m20 a + m21 a * m21 a + m22 a * m22 a = 1 /\ m00 a * m00 a + m10 a * m10 a + m20 a * m20 a = 1 /\
  m01 a * m01 a + m11 a * m11 a + m21 a * m21 a = 1 /\ m02 a * m02 a + m12 a * m12 a + m22 a * m22 a = 1 /\
  m00 a * m10 a + m01 a * m11 a + m02 a * m12 a = 0 /\ m00 a * m20 a + m01 a * m21 a + m02 a * m22 a = 0 /\
  m10 a * m20 a + m11 a * m21 a + m12 a * m22 a = 0 /\ m00 a * m01 a + m10 a * m11 a + m20 a * m21 a = 0 /\
  m00 a * m02 a + m10 a * m12 a + m20 a * m22 a = 0 /\ m01 a * m02 a + m11 a * m12 a + m21 a * m22 a = 0.
Proof.
  intros Ha. pose proof (so3_tr_mul a Ha) as H2. destruct Ha as [H _]. destruct a; u3.
  injection H; injection H2; intros. repeat split; lra.
Qed.
Lemma so3_cof a : so3 a ->
  m11 a * m22 a - m12 a * m21 a = m00 a /\ m12 a * m20 a - m10 a * m22 a = m01 a /\ m10 a * m21 a - m11 a * m20 a = m02 a /\
  m02 a * m21 a - m01 a * m22 a = m10 a /\ m00 a * m22 a - m02 a * m20 a = m11 a /\ m01 a * m20 a - m00 a * m21 a = m12 a /\
  m01 a * m12 a - m02 a * m11 a = m20 a /\ m02 a * m10 a - m00 a * m12 a = m21 a /\ m00 a * m11 a - m01 a * m10 a = m22 a.
Proof.
  intros Ha. pose proof (so3_adj a Ha) as H. destruct a; u3. injection H; intros. repeat split; lra.
Qed.

(** ** Quaternions *)
Lemma qmul_assoc a b c : qmul a (qmul b c) = qmul (qmul a b) c. Proof. c3. Qed.
Lemma qmul_1_l a : qmul q1 a = a. Proof. c3. Qed.
Lemma qmul_1_r a : qmul a q1 = a. Proof. c3. Qed.
Lemma qn2_mul a b : qn2 (qmul a b) = qn2 a * qn2 b. Proof. c3. Qed.
Lemma qn2_conj a : qn2 (qconj a) = qn2 a. Proof. c3. Qed.
Lemma qn2_neg a : qn2 (qneg a) = qn2 a. Proof. c3. Qed.
Lemma qn2_1 : qn2 q1 = 1. Proof. c3. Qed.
Lemma qconj_mul a b : qconj (qmul a b) = qmul (qconj b) (qconj a). Proof. c3. Qed.
Lemma qmul_conj a : qn2 a = 1 -> qmul a (qconj a) = q1.
Proof. intros H; destruct a; u3; f_equal; lra. Qed.
Lemma qconj_qmul a : qn2 a = 1 -> qmul (qconj a) a = q1.
Proof. intros H; destruct a; u3; f_equal; lra. Qed.
Lemma qinv_unit a : qn2 a = 1 -> qinv a = qconj a.
Proof.
  intros H; unfold qinv. destruct (Rlt_dec 0 (qn2 a)); [|lra]. rewrite H. destruct a; u3; f_equal; lra.
Qed.
Lemma qrotH_mul a b : qrotH (qmul a b) = mmul (qrotH a) (qrotH b). Proof. c3. Qed.
Lemma qrot_H a : qn2 a = 1 -> qrot a = qrotH a.
Proof. intros H; destruct a; u3; f_equal; lra. Qed.
Lemma qrot_mul a b : qn2 a = 1 -> qn2 b = 1 -> qrot (qmul a b) = mmul (qrot a) (qrot b).
Proof. intros Ha Hb. rewrite !qrot_H, qrotH_mul; auto. rewrite qn2_mul; nra. Qed.
Lemma qrot_conj a : qrot (qconj a) = mtr (qrot a). Proof. c3. Qed.
Lemma qrot_neg a : qrot (qneg a) = qrot a. Proof. c3. Qed.
Lemma qrot_1 : qrot q1 = m1. Proof. c3. Qed.
Lemma qrot_so3 a : qn2 a = 1 -> so3 (qrot a).
Proof.
  intros H; split.
  - now rewrite <- qrot_conj, <- qrot_mul, qmul_conj, qrot_1; rewrite ?qn2_conj.
  - rewrite qrot_H by exact H.
    transitivity (qn2 a * qn2 a * qn2 a); [clear; c3|rewrite H; ring].
Qed.

(** Two unit quaternions with the same rotation are equal up to sign. *)
Lemma qrot_id a : qn2 a = 1 -> qrot a = m1 -> a = q1 \/ a = qneg q1.
Proof.
  intros H E. destruct a as [w x y z]; u3. injection E; intros.
  assert (x = 0) by nra. assert (y = 0) by nra. assert (z = 0) by nra. subst.
  assert (w * w = 1) by lra. assert (w = 1 \/ w = -1) as [-> | ->] by (destruct (Rle_dec 0 w); [left|right]; nra).
  - left; f_equal; lra.
  - right; f_equal; lra.
Qed.
Lemma qrot_inj a b : qn2 a = 1 -> qn2 b = 1 -> qrot a = qrot b -> a = b \/ a = qneg b.
Proof.
  intros Ha Hb E.
  assert (Hr : qrot (qmul a (qconj b)) = m1).
  { rewrite qrot_mul, qrot_conj, E by (rewrite ?qn2_conj; auto). apply (qrot_so3 b Hb). }
  assert (Hn : qn2 (qmul a (qconj b)) = 1) by (rewrite qn2_mul, qn2_conj; nra).
  assert (Ea : a = qmul (qmul a (qconj b)) b) by (rewrite <- qmul_assoc, qconj_qmul, qmul_1_r; auto).
  destruct (qrot_id _ Hn Hr) as [E1 | E1]; rewrite Ea, E1; [left|right]; clear; c3.
Qed.
