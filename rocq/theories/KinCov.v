(** Model of the covariance matrices of the kinetics observer (src/kinetics-observer.cpp): state
    covariance P and process covariance Q of its filter, and the default matrices.

    The bookkeeping is that of KinObs.v. Matrices are over an arbitrary real closed field. P and Q have
    the tangent size [nt] (the filter asserts it, kalman-filter-base.cpp:75-101). The covariance computed
    by the filter in update is given by the caller, as a function of P. *)
From mathcomp Require Import all_ssreflect all_algebra.
From Coq Require Import ZArith.
From Verif Require Import Base KinObs.
Set Implicit Arguments.
Unset Strict Implicit.
Unset Printing Implicit Defensive.
Import GRing.Theory Num.Theory.
Local Open Scope ring_scope.

Section Blocks.
Variable R : rcfType.
(** eigen_assert. *)
Definition eigen_fail (A : Type) (md : mode) : outcome A := match md with Debug => AssertFail | Release => UB end.
Definition in_seg (z k : Z) (i : nat) : bool := Z.leb z (Z.of_nat i) && Z.ltb (Z.of_nat i) (z + k).
Definition seg_ok (n : nat) (z k : Z) : bool := [&& Z.leb 0 z, Z.leb 0 k & Z.leb (z + k) (Z.of_nat n)].
(** B(a, b), used in range. *)
Definition mat_at m (B : 'M[R]_m) (a b : nat) : R :=
  match insub a, insub b with Some a, Some b => B a b | _, _ => 0 end.

Section N.
Variable n : nat.
Implicit Types P : 'M[R]_n.
(** P.block(r, c, h, w).setZero(). *)
Definition block_zero (md : mode) (r c h w : Z) P : outcome 'M[R]_n :=
  if seg_ok n r h && seg_ok n c w then Ok (\matrix_(i, j) (if in_seg r h i && in_seg c w j then 0 else P i j)) else eigen_fail _ md.
(** P.block<k, k>(z, z) = B. *)
Definition block_assign (md : mode) (k : nat) (z : Z) m (B : 'M[R]_m) P : outcome 'M[R]_n :=
  if seg_ok n z (Z.of_nat k) && (m == k) then
    Ok (\matrix_(i, j) (if in_seg z (Z.of_nat k) i && in_seg z (Z.of_nat k) j
                        then mat_at B (i - Z.to_nat z)%nat (j - Z.to_nat z)%nat else P i j))
  else eigen_fail _ md.
(** kinetics-observer.cpp:27-39, setBlockStateCovariance<k>. *)
Definition set_block (md : mode) (k : nat) P m (B : 'M[R]_m) (z : Z) : outcome 'M[R]_n :=
  let kz := Z.of_nat k in
  do P <- block_assign md k z B P;
  do P <- block_zero md z 0 kz z P;
  do P <- block_zero md 0 z z kz P;
  do P <- block_zero md (z + kz) z (Z.of_nat n - z - kz) kz P;
  block_zero md z (z + kz) kz (Z.of_nat n - z - kz) P.
End N.

(** ** Default matrices: cpp:52-70, 113-167 *)
Definition statePoseInitVarianceDefault : R := 10%:R ^- 4.
Definition stateOriInitVarianceDefault : R := 10%:R ^- 4.
Definition stateLinVelInitVarianceDefault : R := 10%:R ^- 6.
Definition stateAngVelInitVarianceDefault : R := 10%:R ^- 6.
Definition gyroBiasInitVarianceDefault : R := 10%:R ^- 10.
Definition unmodeledWrenchInitVarianceDefault : R := 10%:R ^+ 100.
Definition contactForceInitVarianceDefault : R := 10%:R ^+ 100.
Definition contactTorqueInitVarianceDefault : R := 10%:R ^+ 100.
Definition statePoseProcessVarianceDefault : R := 10%:R ^- 8.
Definition stateOriProcessVarianceDefault : R := 10%:R ^- 8.
Definition stateLinVelProcessVarianceDefault : R := 10%:R ^- 8.
Definition stateAngVelProcessVarianceDefault : R := 10%:R ^- 8.
Definition gyroBiasProcessVarianceDefault : R := 10%:R ^- 12.
Definition unmodeledWrenchProcessVarianceDefault : R := 10%:R ^- 8.
Definition contactPositionProcessVarianceDefault : R := 10%:R ^- 8.
Definition contactOrientationProcessVarianceDefault : R := 10%:R ^- 8.
Definition contactForceProcessVarianceDefault : R := 10%:R ^- 8.
Definition contactTorqueProcessVarianceDefault : R := 10%:R ^- 8.
(** cpp:137-167: four 3x3 blocks on the diagonal of a zero 12x12 matrix. *)
Definition blocks4 (md : mode) (z1 z2 z3 z4 : Z) (a b c d : R) : outcome 'M[R]_12 :=
  do M <- block_assign md 3 z1 (a%:M : 'M[R]_3) (0 : 'M[R]_12); do M <- block_assign md 3 z2 (b%:M : 'M[R]_3) M;
  do M <- block_assign md 3 z3 (c%:M : 'M[R]_3) M; block_assign md 3 z4 (d%:M : 'M[R]_3) M.
(** The covariance members of the class, hpp:1179-1200. *)
Record defaults := mkDefaults { d_kine : 'M[R]_12; d_gyro : 'M[R]_3; d_unm : 'M[R]_6; d_con : 'M[R]_12;
  q_kine : 'M[R]_12; q_gyro : 'M[R]_3; q_unm : 'M[R]_6; q_con : 'M[R]_12 }.
(** cpp:113-167; lines 127-128 build the process covariance of the contact wrenches from the Init
    variances, line 167 uses the process covariance of the contacts as initial covariance. *)
Definition defaults_init (md : mode) : outcome defaults :=
  do dk <- blocks4 md posIndexTangent oriIndexTangent linVelIndexTangent angVelIndexTangent
             statePoseInitVarianceDefault stateOriInitVarianceDefault stateLinVelInitVarianceDefault stateAngVelInitVarianceDefault;
  do qk <- blocks4 md posIndexTangent oriIndexTangent linVelIndexTangent angVelIndexTangent
             statePoseProcessVarianceDefault stateOriProcessVarianceDefault stateLinVelProcessVarianceDefault stateAngVelProcessVarianceDefault;
  do qc <- blocks4 md 0 3 6 9
             contactPositionProcessVarianceDefault contactOrientationProcessVarianceDefault contactForceInitVarianceDefault contactTorqueInitVarianceDefault;
  Ok (mkDefaults dk (gyroBiasInitVarianceDefault%:M) (unmodeledWrenchInitVarianceDefault%:M) qc
        qk (gyroBiasProcessVarianceDefault%:M) (unmodeledWrenchProcessVarianceDefault%:M) qc).
End Blocks.

Section Cov.
Variable R : rcfType.
Context {S : Type} (s0 : S) {Kn : Type} (k0 : Kn) (kfirst : mode -> Kn -> outcome Kn) (kupd : mode -> Z -> Kn -> Kn -> outcome Kn).
Context {M : Type} (mzero : M -> bool) {C : Type}.
Notation obs := (obs S Kn M C).
Notation op := (ko_op S Kn M C).

Record kcov (nt : nat) := mkKC { kc_obs : obs; kc_P : 'M[R]_nt; kc_Q : 'M[R]_nt; kc_d : defaults R }.

Section NT.
Variable nt : nat.
Notation kcov := (kcov nt).
Implicit Types s : kcov.
Definition with_P P s : kcov := mkKC (kc_obs s) P (kc_Q s) (kc_d s).
Definition with_Q Q s : kcov := mkKC (kc_obs s) (kc_P s) Q (kc_d s).
Definition with_obs o s : kcov := mkKC o (kc_P s) (kc_Q s) (kc_d s).
Definition with_d d s : kcov := mkKC (kc_obs s) (kc_P s) (kc_Q s) d.
(** The pattern of lines 1006-1075: read, set a block, write. [q]: process covariance. *)
Definition set_cov (md : mode) (q : bool) (k : nat) m (B : 'M[R]_m) (z : Z) s : outcome kcov :=
  if q then do Q <- set_block md k (kc_Q s) B z; Ok (with_Q Q s)
  else do P <- set_block md k (kc_P s) B z; Ok (with_P P s).

(** ** Setters: cpp:1001-1075 *)
Definition kc_setKinematicsStateCovariance md m (B : 'M[R]_m) s := set_cov md false (Z.to_nat sizeStateKineTangent) B kineIndexTangent s.
Definition kc_setGyroBiasStateCovariance md (B : 'M[R]_3) i s :=
  do z <- gyroBiasIndexTangent md (o_maxI (kc_obs s)) i; set_cov md false (Z.to_nat sizeGyroBias) B z s.
Definition kc_setGyroBiasProcessCovariance md (B : 'M[R]_3) i s :=
  do z <- gyroBiasIndexTangent md (o_maxI (kc_obs s)) i; set_cov md true (Z.to_nat sizeGyroBias) B z s.
Definition kc_setUnmodeledWrenchStateCovMat md (B : 'M[R]_6) s :=
  do z <- unmodeledWrenchIndexTangent md (o_maxI (kc_obs s)); set_cov md false (Z.to_nat sizeWrench) B z s.
Definition kc_setUnmodeledWrenchProcessCovMat md (B : 'M[R]_6) s :=
  do z <- unmodeledWrenchIndexTangent md (o_maxI (kc_obs s)); set_cov md true (Z.to_nat sizeWrench) B z s.
Definition kc_setContactStateCovMat md n (B : 'M[R]_12) s :=
  do z <- ko_contactIndexTangent md n (kc_obs s); set_cov md false (Z.to_nat sizeContactTangent) B z s.
Definition kc_setContactProcessCovMat md n (B : 'M[R]_12) s :=
  do z <- ko_contactIndexTangent md n (kc_obs s); set_cov md true (Z.to_nat sizeContactTangent) B z s.

(** ** Resets: cpp:1130-1240 *)
Definition kc_resetStateKinematicsCovMat md s := set_cov md false (Z.to_nat sizeStateKineTangent) (d_kine (kc_d s)) kineIndexTangent s.
Definition kc_resetStateGyroBiasCovMat md i s :=
  do z <- gyroBiasIndexTangent md (o_maxI (kc_obs s)) i; set_cov md false (Z.to_nat sizeGyroBias) (d_gyro (kc_d s)) z s.
Definition kc_resetStateUnmodeledWrenchCovMat md s :=
  do z <- unmodeledForceIndexTangent md (o_maxI (kc_obs s)); set_cov md false (Z.to_nat sizeWrench) (d_unm (kc_d s)) z s.
Definition kc_resetStateContactCovMat md n s :=
  do _ <- boost_assert md (Z.ltb n (Z.of_nat (length (o_contacts (kc_obs s)))));
  do c <- vec_at n (o_contacts (kc_obs s));
  do _ <- boost_assert md (c_set c);
  set_cov md false (Z.to_nat sizeContactTangent) (d_con (kc_d s)) (c_tidx c) s.
Definition kc_resetProcessKinematicsCovMat md s := set_cov md true (Z.to_nat sizeContactTangent) (q_kine (kc_d s)) kineIndexTangent s.
Definition kc_resetProcessGyroBiasCovMat md i s :=
  do z <- gyroBiasIndexTangent md (o_maxI (kc_obs s)) i; set_cov md true (Z.to_nat sizeGyroBias) (q_gyro (kc_d s)) z s.
Definition kc_resetProcessUnmodeledWrenchCovMat md s :=
  do z <- unmodeledForceIndexTangent md (o_maxI (kc_obs s)); set_cov md true (Z.to_nat sizeWrench) (q_unm (kc_d s)) z s.
Definition kc_resetProcessContactCovMat md n s :=
  do _ <- boost_assert md (Z.ltb n (o_maxC (kc_obs s)));
  do c <- vec_at n (o_contacts (kc_obs s));
  do _ <- boost_assert md (c_set c);
  set_cov md true (Z.to_nat sizeContactTangent) (q_con (kc_d s)) (c_tidx c) s.
(** for(i = 0; i < size; ++i) if(cond[i]) f(i). *)
Fixpoint for_each (f : Z -> kcov -> outcome kcov) (conds : list bool) (i : Z) s : outcome kcov :=
  match conds with nil => Ok s | cons b l => do s <- (if b then f i s else Ok s); for_each f l (i + 1) s end.
Definition contacts_set (o : obs) : list bool := List.map (fun c => c_set c) (o_contacts o).
Definition kc_resetStateContactsCovMat md s := for_each (kc_resetStateContactCovMat md) (contacts_set (kc_obs s)) 0 s.
Definition kc_resetProcessContactsCovMat md s := for_each (kc_resetProcessContactCovMat md) (contacts_set (kc_obs s)) 0 s.
(** cpp:1130-1142: only the IMUs whose time is k_data_. *)
Definition kc_resetStateCovarianceMat md s :=
  do s <- kc_resetStateKinematicsCovMat md s;
  do s <- for_each (kc_resetStateGyroBiasCovMat md) (List.map (fun i => Z.eqb (i_time i) (o_kdata (kc_obs s))) (o_imus (kc_obs s))) 0 s;
  do s <- kc_resetStateUnmodeledWrenchCovMat md s;
  kc_resetStateContactsCovMat md s.
(** cpp:1189-1198. *)
Definition kc_resetProcessCovarianceMat md s :=
  do s <- kc_resetProcessKinematicsCovMat md s;
  do s <- for_each (kc_resetProcessGyroBiasCovMat md) (List.map (fun _ => true) (o_imus (kc_obs s))) 0 s;
  do s <- kc_resetProcessUnmodeledWrenchCovMat md s;
  kc_resetProcessContactsCovMat md s.

(** ** Setting the state with resetCovariance = true: cpp:401-478 *)
(** Lines 430-438: the block has the size of the contact in the state vector, and its index there;
    contactIndex(iterator) asserts the index (hxx). *)
Fixpoint reset_contacts_kine md (cs : list (contact S Kn M C)) s : outcome kcov :=
  match cs with
  | nil => Ok s
  | cons c cs' =>
      do s <- (if c_set c then do _ <- boost_assert md (Z.ltb 0 (c_sidx c)); set_cov md false (Z.to_nat sizeContact) (d_con (kc_d s)) (c_sidx c) s else Ok s);
      reset_contacts_kine md cs' s
  end.
Definition kc_setStateKinematics md kv (resetForces : bool) s : outcome kcov :=
  do o <- ko_setStateKinematics s0 md kv resetForces (kc_obs s);
  do s <- set_cov md false (Z.to_nat sizeStateKineTangent) (d_kine (kc_d s)) kineIndex (with_obs o s);
  if resetForces then reset_contacts_kine md (o_contacts o) s else Ok s.
Definition kc_setGyroBias md b i s : outcome kcov :=
  do o <- ko_setGyroBias md b i (kc_obs s);
  do z <- gyroBiasIndex md (o_maxI o) i;
  set_cov md false (Z.to_nat sizeGyroBias) (d_gyro (kc_d s)) z (with_obs o s).
Definition kc_setStateUnmodeledWrench md w s : outcome kcov :=
  do o <- ko_setStateUnmodeledWrench md w (kc_obs s);
  do z <- unmodeledWrenchIndex md (o_maxI o);
  set_cov md false (Z.to_nat sizeWrench) (d_unm (kc_d s)) z (with_obs o s).
Definition kc_setStateVector md v s : outcome kcov := kc_resetStateCovarianceMat md (with_obs (ko_setStateVector v (kc_obs s)) s).

(** ** addContact: cpp:857-962; the contact is already in the table when its index is used *)
Definition kc_addContact md pv num st (B Qc : 'M[R]_12) s : outcome (Z * kcov) :=
  do r <- ko_addContact s0 mzero md pv num st (kc_obs s);
  let '(n, o) := r in
  do c <- vec_at n (o_contacts o);
  do s <- set_cov md false (Z.to_nat sizeContactTangent) B (c_tidx c) (with_obs o s);
  do s <- set_cov md true (Z.to_nat sizeContactTangent) Qc (c_tidx c) s;
  Ok (n, s).

(** ** Calls *)
(** COp: the calls of KinObs.v; addContact without covariances (cpp:952-962) and the state setters with
    resetCovariance = false are there. [f]: the covariance computed by the filter if the call is an
    update that has something to do. *)
Inductive kc_op :=
| COp (o : op) (f : 'M[R]_nt -> 'M[R]_nt)
| CAdd (pv : list S) (num : Z) (st : M * M * M * M) (B Qc : 'M[R]_12)
| CState (P : 'M[R]_nt) | CProcess (Q : 'M[R]_nt)
| CKine m (B : 'M[R]_m) | CGyroCov (q : bool) (B : 'M[R]_3) (i : Z) | CUnm (q : bool) (B : 'M[R]_6) | CContact (q : bool) (n : Z) (B : 'M[R]_12)
| CDKine (B : 'M[R]_12) | CDGyro (B : 'M[R]_3) | CDUnm (B : 'M[R]_6) | CDContact (B : 'M[R]_12)
| CRKine (q : bool) | CRGyro (q : bool) (i : Z) | CRUnm (q : bool) | CRContact (q : bool) (n : Z) | CRContacts (q : bool) | CRAll (q : bool)
| CSetKine (kv : list S) (resetForces : bool) | CSetBias (b : list S) (i : Z) | CSetWrench (w : list S) | CSetVector (v : list S).
Definition kc_step md (o : kc_op) s : outcome kcov :=
  let d := kc_d s in
  match o with
  | COp (KAdd pv num st) _ => do r <- kc_addContact md pv num st (d_con d) (q_con d) s; Ok (snd r)
  | COp (KUpdate e) f =>
      do o' <- ko_update md e (kc_obs s);
      Ok (with_P (if Z.eqb (o_kest (kc_obs s)) (o_kdata (kc_obs s)) then kc_P s else f (kc_P s)) (with_obs o' s))
  | COp o _ => do o' <- ko_step s0 kfirst kupd mzero md o (kc_obs s); Ok (with_obs o' s)
  | CAdd pv num st B Qc => do r <- kc_addContact md pv num st B Qc s; Ok (snd r)
  | CState P => Ok (with_P P s)
  | CProcess Q => Ok (with_Q Q s)
  | CKine m B => kc_setKinematicsStateCovariance md B s
  | CGyroCov q B i => (if q then kc_setGyroBiasProcessCovariance else kc_setGyroBiasStateCovariance) md B i s
  | CUnm q B => (if q then kc_setUnmodeledWrenchProcessCovMat else kc_setUnmodeledWrenchStateCovMat) md B s
  | CContact q n B => (if q then kc_setContactProcessCovMat else kc_setContactStateCovMat) md n B s
  | CDKine B => Ok (with_d (mkDefaults B (d_gyro d) (d_unm d) (d_con d) (q_kine d) (q_gyro d) (q_unm d) (q_con d)) s)
  | CDGyro B => Ok (with_d (mkDefaults (d_kine d) B (d_unm d) (d_con d) (q_kine d) (q_gyro d) (q_unm d) (q_con d)) s)
  | CDUnm B => Ok (with_d (mkDefaults (d_kine d) (d_gyro d) B (d_con d) (q_kine d) (q_gyro d) (q_unm d) (q_con d)) s)
  | CDContact B => Ok (with_d (mkDefaults (d_kine d) (d_gyro d) (d_unm d) B (q_kine d) (q_gyro d) (q_unm d) (q_con d)) s)
  | CRKine q => (if q then kc_resetProcessKinematicsCovMat else kc_resetStateKinematicsCovMat) md s
  | CRGyro q i => (if q then kc_resetProcessGyroBiasCovMat else kc_resetStateGyroBiasCovMat) md i s
  | CRUnm q => (if q then kc_resetProcessUnmodeledWrenchCovMat else kc_resetStateUnmodeledWrenchCovMat) md s
  | CRContact q n => (if q then kc_resetProcessContactCovMat else kc_resetStateContactCovMat) md n s
  | CRContacts q => (if q then kc_resetProcessContactsCovMat else kc_resetStateContactsCovMat) md s
  | CRAll q => (if q then kc_resetProcessCovarianceMat else kc_resetStateCovarianceMat) md s
  | CSetKine kv b => kc_setStateKinematics md kv b s
  | CSetBias b i => kc_setGyroBias md b i s
  | CSetWrench w => kc_setStateUnmodeledWrench md w s
  | CSetVector v => kc_setStateVector md v s
  end.
Definition kc_run md ops s := orun (kc_step md) ops s.
End NT.

(** The constructor: cpp:88-178; P and Q are zero (lines 176-177 use getPmatrixZero, getQmatrixZero)
    before the resets. *)
Definition tsize (maxC maxI : nat) : nat := Z.to_nat (stateTangentSize (Z.of_nat maxC) (Z.of_nat maxI)).
Definition kc_init md (maxC maxI : nat) ds di dw dp : outcome (kcov (tsize maxC maxI)) :=
  do o <- ko_init s0 k0 md maxC maxI ds di dw dp;
  do d <- defaults_init R md;
  do s <- kc_resetStateCovarianceMat md (mkKC o 0 0 d);
  kc_resetProcessCovarianceMat md s.
End Cov.
Arguments kcov : clear implicits.
Arguments kc_op : clear implicits.
Arguments COp {R S Kn M C nt}.
Arguments CAdd {R S Kn M C nt}.
Arguments CState {R S Kn M C nt}.
Arguments CProcess {R S Kn M C nt}.
Arguments CKine {R S Kn M C nt m}.
Arguments CGyroCov {R S Kn M C nt}.
Arguments CUnm {R S Kn M C nt}.
Arguments CContact {R S Kn M C nt}.
Arguments CDKine {R S Kn M C nt}.
Arguments CDGyro {R S Kn M C nt}.
Arguments CDUnm {R S Kn M C nt}.
Arguments CDContact {R S Kn M C nt}.
Arguments CRKine {R S Kn M C nt}.
Arguments CRGyro {R S Kn M C nt}.
Arguments CRUnm {R S Kn M C nt}.
Arguments CRContact {R S Kn M C nt}.
Arguments CRContacts {R S Kn M C nt}.
Arguments CRAll {R S Kn M C nt}.
Arguments CSetKine {R S Kn M C nt}.
Arguments CSetBias {R S Kn M C nt}.
Arguments CSetWrench {R S Kn M C nt}.
Arguments CSetVector {R S Kn M C nt}.
