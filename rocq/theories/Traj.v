(** Finite differences and reconstruction of trajectories, fixed point constraint, test and projection
    of rotation matrices: include/state-observation/tools/rigid-body-kinematics.hxx. Doubles are exact reals. *)
From Coq Require Import Reals List Bool ZArith.
From Verif Require Import Base Vec3 Rot Orient Kine KinInput Approx Defs.
Import ListNotations.
Open Scope R_scope.

(** .hxx:554-560 derivateRotationFD of quaternions. (dt = 0 gives infinities in doubles; here the
    division is the total one of R and every theorem excludes dt = 0.) *)
Definition fd_quat (a b : Q4) (dt : R) : V3 :=
  let aa := quat_aa (qmul b (qconj a)) in vscal (fst aa / dt) (snd aa).
(** .hxx:562-569 derivateRotationFD of rotation vectors. *)
Definition fd_rv (o1 o2 : V3) (dt : R) : V3 := fd_quat (rv_quat o1) (rv_quat o2) dt.
(** .hxx:571-585 derivateHomogeneousMatrixFD: head (linear) and tail (angular) of the result. Only the
    rotation and translation blocks of the matrices are read. *)
Definition fd_homo (a b : homo) (dt : R) : V3 * V3 :=
  let aa := mat_aa (mmul (fst b) (mtr (fst a))) in
  (vscal (/ dt) (vsub (snd b) (snd a)), vscal (fst aa / dt) (snd aa)).
(** .hxx:587-596 derivatePoseThetaUFD on (position, rotation vector). *)
Definition fd_pose (a b : V3 * V3) (dt : R) : V3 * V3 :=
  (vscal (/ dt) (vsub (fst b) (fst a)), fd_rv (snd a) (snd b) dt).

(** .hxx:508-521 fixedPointRotationToTranslation: the three outputs. *)
Definition fixed_point (r : M3) (w al f : V3) : V3 * V3 * V3 :=
  let l := mvec r f in
  (vsub f l, vneg (vcross w l), vsub (vneg (vcross w (vcross w l))) (vcross al l)).

(** Eigen MatrixBase::isUnitary() with the default precision 1e-12: the squared norm of every column is
    close to one and every two columns have a product close to zero (.hxx:499). *)
Definition dummy_precision : R := / 1000000000000.
Definition eigen_isApprox (x y : R) : Prop := Rabs (x - y) <= Rmin (Rabs x) (Rabs y) * dummy_precision.
Definition eigen_isSmall (x y : R) : Prop := Rabs x <= Rabs y * dummy_precision.
Definition mcol0 (m : M3) : V3 := mkV (m00 m) (m10 m) (m20 m).
Definition mcol1 (m : M3) : V3 := mkV (m01 m) (m11 m) (m21 m).
Definition mcol2 (m : M3) : V3 := mkV (m02 m) (m12 m) (m22 m).
Definition isUnitary (m : M3) : Prop :=
  eigen_isApprox (vsq (mcol0 m)) 1 /\
  (eigen_isApprox (vsq (mcol1 m)) 1 /\ eigen_isSmall (vdot (mcol1 m) (mcol0 m)) 1) /\
  (eigen_isApprox (vsq (mcol2 m)) 1 /\ eigen_isSmall (vdot (mcol2 m) (mcol0 m)) 1 /\ eigen_isSmall (vdot (mcol2 m) (mcol1 m)) 1).
(** .hxx:496-502 isRotationMatrix(M, precision). *)
Definition isRotationMatrix (m : M3) (p : R) : Prop :=
  isUnitary m /\ isApproxAbs (m00 m * m11 m - m01 m * m10 m) (m22 m) p /\ isApproxAbs (m10 m * m21 m - m11 m * m20 m) (m02 m) p.

(** .hxx:238-243 orthogonalizeRotationMatrix: Eigen's JacobiSVD is a parameter returning U and V. *)
Definition orthogonalize (svd : M3 -> M3 * M3) (m : M3) : M3 := mmul (fst (svd m)) (mtr (snd (svd m))).

(** Vector::head(3), Vector::tail(3): asserted by Eigen in debug, out of bounds in release. *)
Definition vec_head3 (md : mode) (l : list R) : outcome V3 :=
  match l with a :: b :: c :: _ => Ok (mkV a b c) | _ => match md with Debug => AssertFail | Release => UB end end.
Definition vec_tail3 (md : mode) (l : list R) : outcome V3 :=
  match rev l with c :: b :: a :: _ => Ok (mkV a b c) | _ => match md with Debug => AssertFail | Release => UB end end.

(** for (i = i0; i < i1; ++i) with the body changing the array. The index does not overflow. *)
Fixpoint tr_loop (body : Z -> iarr KState -> outcome (iarr KState)) (n : nat) (i : Z) (a : iarr KState) : outcome (iarr KState) :=
  match n with O => Ok a | S n' => do a' <- body i a; tr_loop body n' (i + 1)%Z a' end.

(** Vector::Zero(18,1) (.hxx:604) by blocks (kine::indexes<rotationVector>: pos, ori, linVel, angVel, linAcc, angAcc). *)
Definition ks0 : KState := mkKS v0 v0 v0 v0 v0 v0.
(** .hxx:615-622 first loop: r keeps its zero velocities and accelerations through the loop. *)
Definition tr_body1 (md : mode) (po : iarr (list R)) (i : Z) (a : iarr KState) : outcome (iarr KState) :=
  do x <- ia_get md po i; do p <- vec_head3 md x; do o <- vec_tail3 md x;
  ia_setValue md (mkKS p o v0 v0 v0 v0) i a.
(** .hxx:624-637 second loop: velocities. *)
Definition tr_body2 (md : mode) (po : iarr (list R)) (dt : R) (i : Z) (a : iarr KState) : outcome (iarr KState) :=
  do r <- ia_get md a i; do x <- ia_get md po i; do x1 <- ia_get md po (i + 1)%Z;
  do p <- vec_head3 md x; do p1 <- vec_head3 md x1; do o <- vec_tail3 md x; do o1 <- vec_tail3 md x1;
  ia_setValue md (mkKS (sp r) (so r) (derivate_v p p1 dt) (fd_quat (rv_quat o) (rv_quat o1) dt) (sa r) (sal r)) i a.
(** .hxx:639-651 third loop: accelerations. *)
Definition tr_body3 (md : mode) (dt : R) (i : Z) (a : iarr KState) : outcome (iarr KState) :=
  do r <- ia_get md a i; do r2 <- ia_get md a (i + 1)%Z;
  ia_setValue md (mkKS (sp r) (so r) (sv r) (sw r) (derivate_v (sv r) (sv r2) dt) (derivate_v (sw r) (sw r2) dt)) i a.
(** .hxx:598-652 reconstructStateTrajectory. *)
Definition reconstruct (md : mode) (po : iarr (list R)) (dt : R) : outcome (iarr KState) :=
  let i0 := ia_first po in let i1 := ia_next po in
  do a <- ia_setValue md ks0 i0 ia_empty;
  do a <- ia_resize (ia_size po) ks0 a;
  do a <- tr_loop (tr_body1 md po) (Z.to_nat (i1 - i0)) i0 a;
  do a <- tr_loop (tr_body2 md po dt) (Z.to_nat (i1 - 1 - i0)) i0 a;
  tr_loop (tr_body3 md dt) (Z.to_nat (i1 - 2 - i0)) i0 a.

(** A sample of positionOrientation: the position then the rotation vector (.hxx:619-620). *)
Definition pose6 (x : V3 * V3) : list R := l3 (fst x) ++ l3 (snd x).
