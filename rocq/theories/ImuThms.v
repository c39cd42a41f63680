(** Lemmas for the properties of the models of an inertial unit. *)
From Coq Require Import ZArith List Bool Reals Lia Lra.
From Verif Require Import Base Vec3 Rot SpecRot RotProofs RotProofs3 OrientProofs SpecKine KineProofs2 KinDynMotion ExpDeriv Kine Sensors ImuSys SpecImu ImuProofs.
Import ListNotations.
Open Scope R_scope.
Set Default Proof Using "Type".

Lemma exact_not_tiny v : exact_rv v -> ~ tiny v \/ v = v0.
Proof. intros [H|H]; [left; unfold tiny; lra|now right]. Qed.

(** ** What the two calls return *)
Section R.
Variable nz : noises R.
Variable kd : ikind.
Implicit Types s : isys.
Lemma out_state md x u s : wf kd s -> length x = 18%nat -> (kd = KImu -> length u = 6%nat) ->
  out (i_step nz kd md (IState x u) s) = (do y <- with_noise nz (i_pn s) (i_pcalls s) (next_of kd (i_dt s) x u); Ok (Some y)).
Proof.
  intros W Lx Lu. destruct (next_ok nz kd md x u s W Lx Lu) as (s' & _ & (D1 & D2 & D3 & D4 & _) & E). cbn [i_step]. rewrite E. unfold process_noise, with_noise. rewrite D3, D4.
  destruct (i_pn s); [|reflexivity]. destruct (nz _ _ _); reflexivity.
Qed.
Lemma out_meas md x u k s : wf kd s -> keeps_size nz -> length x = 18%nat -> (kd = KFix \/ kd = KStab -> length u = 15%nat) ->
  out (i_step nz kd md (IMeas x u k) s) =
  (do y <- with_noise nz (a_noise (i_sens s)) (a_calls (i_sens s)) (clean_of kd x u); Ok (Some (y ++ virtual_of kd x (i_contacts s)))).
Proof.
  intros W KS Lx Lu. pose proof (meas_ok nz kd md x u k s W KS Lx Lu) as H. cbn [i_step]. unfold with_noise. destruct (a_noise (i_sens s)).
  - destruct H as (s' & -> & _). destruct (nz _ _ _); reflexivity.
  - destruct H as (s' & -> & _). reflexivity.
Qed.
Lemma out_state_bad md x u s s2 : ~ (length x = 18%nat /\ (kd = KImu -> length u = 6%nat)) -> out (i_step nz kd md (IState x u) s) = out (i_step nz kd md (IState x u) s2).
Proof.
  intros H. cbn [i_step]. unfold i_stateDynamics, vsize, eigen_assert.
  destruct (Nat.eqb_spec (length x) 18); [|destruct md; reflexivity].
  destruct kd; try (exfalso; apply H; split; [assumption|discriminate]).
  destruct (Nat.eqb_spec (length u) 6); [exfalso; apply H; auto|destruct md; reflexivity].
Qed.
Lemma out_meas_bad md x u k s s2 : ~ (length x = 18%nat /\ (kd = KFix \/ kd = KStab -> length u = 15%nat)) ->
  out (i_step nz kd md (IMeas x u k) s) = out (i_step nz kd md (IMeas x u k) s2).
Proof.
  intros H. cbn [i_step]. unfold i_measureDynamics, vsize, eigen_assert.
  destruct (Nat.eqb_spec (length x) 18); [|destruct md; reflexivity]. cbn [obind].
  destruct (computeQuaternion (seg3 x 3) s) as [q1' s1], (computeQuaternion (seg3 x 3) s2) as [q2' s2'].
  destruct kd; try (exfalso; apply H; split; [assumption|intros [?|?]; discriminate]);
  (destruct (Nat.eqb_spec (length u) 15); [exfalso; apply H; auto|destruct md; reflexivity]).
Qed.

(** The orientation of the next state. *)
Lemma next_rot dt x u : rodrigues (seg3 (next_of kd dt x u) 3) = mmul (rv_mat (step_angle kd dt x)) (rv_mat (seg3 x 3)) /\ vnorm (seg3 (next_of kd dt x u) 3) <= PI.
Proof.
  unfold next_of. rewrite (proj1 (proj2 (seg_pack _ _ _ _ _ _))).
  assert (U : qn2 (qmul (rv_quat (step_angle kd dt x)) (rv_quat (seg3 x 3))) = 1) by (rewrite qn2_mul, !rv_quat_unit; ring).
  split; [|now apply quat_rv_pi]. rewrite quat_rv_rot, qrot_mul, <- !rv_mat_quat by auto using rv_quat_unit. reflexivity.
Qed.
(** The signal of the unit of a motion. *)
Lemma unit_signal x u base mi mg t : is_motion base -> is_motion mi -> is_motion mg -> unit_motion kd base mi mg ->
  mr base t = rv_mat (seg3 x 3) -> mw base t = seg3 x 9 -> ma base t = seg3 x 12 -> mal base t = seg3 x 15 ->
  (kd = KFix \/ kd = KStab -> mp mi t = seg3 u 0 /\ mr mi t = rv_mat (seg3 u 3) /\ mv mi t = seg3 u 6 /\ mw mi t = seg3 u 9 /\ ma mi t = seg3 u 12) ->
  clean_of kd x u = l3 (mvec (mtr (mr mg t)) (vadd (ma mg t) sgravity)) ++ l3 (mvec (mtr (mr mg t)) (mw mg t)) ++
    match kd with KMag => l3 (mvec (mtr (mr mg t)) earthField) | _ => [] end.
Proof.
  intros Mb Mi Mg Hu Er Ew Ea El Hi. unfold clean_of, unit_of, signal, accelerationMeasure, rotationVelocityMeasure, magneticFieldMeasure.
  assert (Hf : kd = KFix \/ kd = KStab -> (forall u, mp mg u = vadd (mp base u) (mvec (mr base u) (mp mi u)) /\ mr mg u = mmul (mr base u) (mr mi u)) ->
     qrot (qmul (rv_quat (seg3 x 3)) (rv_quat (seg3 u 3))) = mr mg t /\
     vadd (seg3 x 9) (mvec (qrot (rv_quat (seg3 x 3))) (seg3 u 9)) = mw mg t /\
     vadd (vadd (vadd (mvec (mmul (madd (skew (seg3 x 15)) (mmul (skew (seg3 x 9)) (skew (seg3 x 9)))) (qrot (rv_quat (seg3 x 3)))) (seg3 u 0))
       (mvec (mmul (mscal 2 (skew (seg3 x 9))) (qrot (rv_quat (seg3 x 3)))) (seg3 u 6))) (seg3 x 12)) (mvec (qrot (rv_quat (seg3 x 3))) (seg3 u 12)) = ma mg t).
  { intros K Hm. destruct (Hi K) as (I1 & I2 & I3 & I4 & I5).
    destruct (motion_unique mg (mo_mul base mi) Mg (mo_mul_motion _ _ Mb Mi)) with (u := t) as (_ & W & A & _).
    - intros v. rewrite (proj1 (Hm v)). cbn. apply vadd_comm.
    - intros v. rewrite (proj2 (Hm v)). reflexivity.
    - rewrite W, A, (proj2 (Hm t)). cbn [mo_mul mw ma mr]. rewrite Er, Ew, Ea, El, I1, I2, I3, I4, I5, !rv_mat_quat, qrot_mul by auto using rv_quat_unit.
      split; [reflexivity|]. generalize (qrot (rv_quat (seg3 x 3))). intros r. generalize (seg3 x 9) (seg3 u 9) (seg3 x 15) (seg3 u 0) (seg3 u 6) (seg3 x 12) (seg3 u 12).
      split; c3. }
  unfold unit_motion in Hu. destruct kd.
  1,2: subst mg; rewrite Er, Ew, Ea, rv_mat_quat; reflexivity.
  all: destruct Hf as (-> & -> & ->); auto.
Qed.
End R.

(** ** The stable model *)
Definition lyap (dt p v : R) : R := 25 * (p * p) + (1 - 25 / 2 * dt) * (p * v) + (1 - dt / 2) * (v * v).
Definition lyap3 (dt : R) (x : list R) : R :=
  lyap dt (vx (seg3 x 0)) (vx (seg3 x 6)) + lyap dt (vy (seg3 x 0)) (vy (seg3 x 6)) + lyap dt (vz (seg3 x 0)) (vz (seg3 x 6)).
Definition gain (dt : R) : R := 1 - dt + 25 / 2 * (dt * dt).
Lemma lyap_next dt x u : lyap3 dt (next_of KStab dt x u) = gain dt * lyap3 dt x.
Proof.
  unfold lyap3, next_of. destruct (seg_pack (vadd (seg3 x 0) (vadd (vscal dt (seg3 x 6)) (vscal (1 / 2 * dt * dt) (fst (acc_used KStab x)))))
    (quat_rv (qmul (rv_quat (step_angle KStab dt x)) (rv_quat (seg3 x 3))))
    (vadd (seg3 x 6) (vscal dt (fst (acc_used KStab x)))) (vadd (seg3 x 9) (vscal dt (snd (acc_used KStab x)))) (fst (acc_next KStab x u)) (snd (acc_next KStab x u)))
    as (-> & _ & -> & _). unfold acc_used, stabilize, lyap, gain. cbn [fst]. generalize (seg3 x 0) (seg3 x 6). intros [p q r] [v w z]. u3. field.
Qed.
Lemma lyap_lower dt p v : 0 <= dt <= 8 / 100 -> 4 / 10 * (p * p + v * v) <= lyap dt p v.
Proof.
  intros H. unfold lyap. pose proof (Rle_0_sqr p) as P. pose proof (Rle_0_sqr v) as V. pose proof (Rle_0_sqr (p + v)) as Q. unfold Rsqr in *.
  assert (K : 0 <= 1 - 25 / 2 * dt <= 1) by lra. set (k := 1 - 25 / 2 * dt) in *. clearbody k.
  assert (A : - (1 / 2) * (p * p + v * v) <= k * (p * v)).
  { destruct (Rle_dec 0 (p * v)) as [G|G]; [assert (0 <= k * (p * v)) by (apply Rmult_le_pos; lra); lra|].
    assert (0 <= (1 - k) * - (p * v)) by (apply Rmult_le_pos; lra). lra. }
  assert (0 <= (4 / 100 - dt / 2) * (v * v)) by (apply Rmult_le_pos; lra). lra.
Qed.
Lemma feed_ok nz md u n : forall x s, wf KStab s -> i_pn s = None -> length x = 18%nat ->
  exists y s', feed nz KStab md u n x s = Ok (y, s') /\ wf KStab s' /\ i_pn s' = None /\ length y = 18%nat /\ i_dt s' = i_dt s /\ lyap3 (i_dt s) y = gain (i_dt s) ^ n * lyap3 (i_dt s) x.
Proof.
  induction n as [|n IH]; intros x s W Hn Lx; [exists x, s; cbn; repeat split; auto; try apply W; ring|].
  destruct (IH x s W Hn Lx) as (y & s1 & E & W1 & N1 & L1 & D1 & V1). cbn [feed]. rewrite E. cbn [obind].
  destruct (next_ok nz KStab md y (u n) s1 W1 L1) as (s2 & W2 & (T1 & T2 & T3 & T4 & T5 & T6) & E2); [discriminate|].
  rewrite E2. unfold process_noise. rewrite T3, N1. do 2 eexists. split; [reflexivity|]. split; [exact W2|]. split; [congruence|]. split; [reflexivity|]. split; [congruence|].
  rewrite D1, lyap_next, V1. cbn [pow]. ring.
Qed.
Lemma pow_small q y : 0 <= q < 1 -> 0 < y -> exists N, forall n, (N <= n)%nat -> q ^ n < y.
Proof.
  intros H Hy. destruct (pow_lt_1_zero q) with (y := y) as (N & HN); [rewrite Rabs_pos_eq; lra|lra|]. exists N. intros n Hn.
  specialize (HN n Hn). apply Rabs_def2 in HN. lra.
Qed.
Lemma vnorm_lt v e : 0 < e -> vsq v < e * e -> vnorm v < e.
Proof. intros He H. unfold vnorm. rewrite <- (sqrt_square e) by lra. apply sqrt_lt_1_alt. split; [destruct v; u3; nra|exact H]. Qed.
Lemma lyap3_lower dt x : 0 <= dt <= 8 / 100 -> 4 / 10 * (vsq (seg3 x 0) + vsq (seg3 x 6)) <= lyap3 dt x.
Proof.
  intros H. unfold lyap3. generalize (seg3 x 0) (seg3 x 6). intros [p q r] [v w z]. cbn [vx vy vz].
  pose proof (lyap_lower dt p v H). pose proof (lyap_lower dt q w H). pose proof (lyap_lower dt r z H). u3. lra.
Qed.

(** ** The multiplicative model *)
Lemma seg_packq p q v w a al : seg3 (packq p q v w a al) 0 = p /\ quat_at (packq p q v w a al) 3 = q /\ seg3 (packq p q v w a al) 7 = v /\
  seg3 (packq p q v w a al) 10 = w /\ seg3 (packq p q v w a al) 13 = a /\ seg3 (packq p q v w a al) 16 = al.
Proof. destruct p, q, v, w, a, al. repeat split. Qed.
(** A vector of 19 entries is made of its parts. *)
Lemma packq_all x : length x = 19%nat -> packq (seg3 x 0) (quat_at x 3) (seg3 x 7) (seg3 x 10) (seg3 x 13) (seg3 x 16) = x.
Proof. intros H. do 19 (destruct x as [|? x]; [discriminate H|]). destruct x; [reflexivity|discriminate H]. Qed.
Lemma pack_all x : length x = 18%nat -> pack (seg3 x 0) (seg3 x 3) (seg3 x 6) (seg3 x 9) (seg3 x 12) (seg3 x 15) = x.
Proof. intros H. do 18 (destruct x as [|? x]; [discriminate H|]). destruct x; [reflexivity|discriminate H]. Qed.
Lemma qnormalize_unit q : qn2 q <> 0 -> qn2 (qnormalize q) = 1.
Proof.
  intros H. unfold qnormalize. assert (0 < qn2 q) by (assert (0 <= qn2 q) by (destruct q; u3; nra); lra). destruct (Rlt_dec 0 (qn2 q)) as [P|]; [|lra].
  pose proof (sqrt_sqrt (qn2 q) (Rlt_le _ _ P)) as E. assert (0 < sqrt (qn2 q)) by now apply sqrt_lt_R0. set (n := sqrt (qn2 q)) in *. clearbody n.
  transitivity (qn2 q / (n * n)); [destruct q; u3; field; lra|rewrite E; field; lra].
Qed.
Definition ml_step (dt : R) (x : list R) : V3 := vadd (vscal dt (seg3 x 10)) (vscal (1 / 2 * dt * dt) (seg3 x 16)).
Lemma ml_next_eq md dt x u : length x = 19%nat -> length u = 6%nat -> let q' := qmul (rv_quat (ml_step dt x)) (quat_at x 3) in
  ml_next md dt x u = Ok (packq (vadd (seg3 x 0) (vadd (vscal dt (seg3 x 7)) (vscal (1 / 2 * dt * dt) (seg3 x 13))))
     (if Rlt_dec (1 + quatNormTol) (qn2 q') then qnormalize q' else if Rlt_dec (qn2 q') (1 - quatNormTol) then qnormalize q' else q')
     (vadd (seg3 x 7) (vscal dt (seg3 x 13))) (vadd (seg3 x 10) (vscal dt (seg3 x 16))) (seg3 u 0) (seg3 u 3)).
Proof. intros Lx Lu q'. unfold ml_next. rewrite (vsize_ok md 19 x Lx), (vsize_ok md 6 u Lu). reflexivity. Qed.
Lemma tol_pos : 0 < quatNormTol < 1. Proof. unfold quatNormTol. lra. Qed.
Lemma ml_next_unit md dt x u : length x = 19%nat -> length u = 6%nat -> qn2 (quat_at x 3) = 1 ->
  ml_next md dt x u = Ok (packq (vadd (seg3 x 0) (vadd (vscal dt (seg3 x 7)) (vscal (1 / 2 * dt * dt) (seg3 x 13))))
     (qmul (rv_quat (ml_step dt x)) (quat_at x 3))
     (vadd (seg3 x 7) (vscal dt (seg3 x 13))) (vadd (seg3 x 10) (vscal dt (seg3 x 16))) (seg3 u 0) (seg3 u 3)).
Proof.
  intros Lx Lu U. rewrite ml_next_eq by assumption. cbv zeta. rewrite qn2_mul, rv_quat_unit, U. pose proof tol_pos.
  destruct (Rlt_dec (1 + quatNormTol) (1 * 1)); [lra|]. destruct (Rlt_dec (1 * 1) (1 - quatNormTol)); [lra|]. reflexivity.
Qed.
Lemma vd_scal_l c f t a : vderiv f t a -> vderiv (fun s => vscal c (f s)) t (vscal c a).
Proof. intros (X & Y & Z). vd. Qed.
Lemma jac_eq d e : ~ tiny d -> mvec (dRddelta d) e = left_jac d e.
Proof.
  intros H. assert (N : epsA < vnorm d).
  { unfold tiny in H. apply Rnot_le_lt in H. unfold vnorm. pose proof epsA_pos. rewrite <- (sqrt_square epsA) by lra. apply sqrt_lt_1_alt. split; [nra|exact H]. }
  unfold dRddelta, left_jac. destruct (Rlt_dec (vnorm d) epsA) as [?|_]; [lra|]. pose proof epsA_pos. set (n := vnorm d) in *. clearbody n. assert (n <> 0) by lra.
  destruct d as [x y z], e as [p q r]. unfold outer. u3. f_equal; field; auto.
Qed.
Lemma tiny_far V t e : vderiv V t e -> ~ tiny (V t) -> near t (fun s => ~ tiny (V s)).
Proof.
  intros D H. unfold tiny in H. apply Rnot_le_lt in H. eapply near_mono; [apply (dl_above _ _ _ _ (vsq_deriv V t e D) H)|]. cbv beta. unfold tiny. intros s Hs. lra.
Qed.
Lemma ml_rot_deriv d q (o e : V3) : (forall s, qn2 (q s) = 1) -> mderiv (fun s => qrot (q s)) 0 (mmul (skew o) (qrot (q 0))) -> vderiv d 0 e -> ~ tiny (d 0) ->
  mderiv (fun s => qrot (qmul (rv_quat (d s)) (q s))) 0 (mmul (skew (vadd (mvec (rv_mat (d 0)) o) (left_jac (d 0) e))) (qrot (qmul (rv_quat (d 0)) (q 0)))).
Proof.
  intros U Dq Dd Ht.
  assert (Hd : d 0 <> v0) by (intros E; apply Ht; rewrite E; unfold tiny; pose proof epsA_pos; u3; nra).
  assert (D1 : mderiv (fun s => rv_mat (d s)) 0 (mmul (skew (left_jac (d 0) e)) (rv_mat (d 0)))).
  { eapply md_local with (f := fun s => rodrigues (d s)).
    - rewrite (rv_rodrigues (d 0)) by auto. now apply rodrigues_moving.
    - eapply near_mono; [apply (tiny_far _ _ _ Dd Ht)|]. cbv beta. intros s Hs. symmetry. apply rv_rodrigues. auto. }
  eapply mderiv_ext.
  - eapply md_eq; [apply (md_mul _ _ _ _ _ D1 Dq)|]. rewrite qrot_mul, <- rv_mat_quat, skew_add, mmul_madd_l by auto using rv_quat_unit.
    rewrite madd_comm. rewrite !mmul_assoc. rewrite (so3_skew (rv_mat (d 0)) o) by apply rv_mat_so3. reflexivity.
  - intros s. cbv beta. now rewrite qrot_mul, <- rv_mat_quat by auto using rv_quat_unit.
Qed.
Lemma vd_ext_eq f g t a b : vderiv f t a -> (forall s, g s = f s) -> a = b -> vderiv g t b.
Proof. intros D E <-. eapply vd_ext; [exact D|]. auto. Qed.
Lemma vadd_vsub_r a b : vadd a (vsub b a) = b. Proof. c3. Qed.
Lemma vsub_vadd_l a b : vsub (vadd a b) a = b. Proof. c3. Qed.
