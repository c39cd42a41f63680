(** Properties of the models of an inertial unit (C58, C94 to C101). *)
From Coq Require Import ZArith List Bool Reals Lia Lra.
From Verif Require Import Base Vec3 Rot SpecRot RotProofs RotProofs3 SpecKine KineProofs2 ExpDeriv Kine Sensors ImuSys SpecImu ImuProofs ImuThms.
Import ListNotations.
Open Scope R_scope.

(** ** C58 *)
(** Whatever was called before, on two objects of the same class with the same sampling period, noise and contacts, stateDynamics and
    measureDynamics return the same for the same arguments: the cached quaternion has no effect. With C94 and
    C95, the rotation used is that of the vector given. The elastic model is in PropFlex.v. *)
Theorem C58_cached_rotation_imu nz kd md md1 md2 dt1 dt2 ops1 ops2 s1 s2 x u k : keeps_size nz ->
  i_run nz kd md1 ops1 (i_init kd dt1) = Ok s1 -> i_run nz kd md2 ops2 (i_init kd dt2) = Ok s2 ->
  (i_dt s1 = i_dt s2 -> i_pn s1 = i_pn s2 -> i_pn s1 = None \/ i_pcalls s1 = i_pcalls s2 ->
    out (i_step nz kd md (IState x u) s1) = out (i_step nz kd md (IState x u) s2)) /\
  (i_contacts s1 = i_contacts s2 -> a_noise (i_sens s1) = a_noise (i_sens s2) -> a_noise (i_sens s1) = None \/ a_calls (i_sens s1) = a_calls (i_sens s2) ->
    out (i_step nz kd md (IMeas x u k) s1) = out (i_step nz kd md (IMeas x u k) s2)).
Proof.
  intros KS R1 R2. apply reach_wf in R1, R2; try assumption. split.
  - intros Ed En Ec. destruct (Nat.eq_dec (length x) 18) as [Lx|Lx]; [|apply out_state_bad; tauto].
    assert (Du : (kd = KImu -> length u = 6%nat) \/ ~ (kd = KImu -> length u = 6%nat)).
    { destruct (Nat.eq_dec (length u) 6); [tauto|]. destruct kd; try (left; discriminate). right. auto. }
    destruct Du as [Lu|Lu]; [|apply out_state_bad; tauto].
    rewrite !out_state by assumption. rewrite Ed, En. destruct Ec as [Ec|Ec]; [|now rewrite Ec]. rewrite En in Ec. now rewrite Ec.
  - intros Ed En Ec. destruct (Nat.eq_dec (length x) 18) as [Lx|Lx]; [|apply out_meas_bad; tauto].
    assert (Du : (kd = KFix \/ kd = KStab -> length u = 15%nat) \/ ~ (kd = KFix \/ kd = KStab -> length u = 15%nat)).
    { destruct (Nat.eq_dec (length u) 15); [tauto|]. destruct kd; try (left; intros [?|?]; discriminate); right; auto. }
    destruct Du as [Lu|Lu]; [|apply out_meas_bad; tauto].
    rewrite !out_meas by assumption. rewrite Ed, En. destruct Ec as [Ec|Ec]; [|now rewrite Ec]. rewrite En in Ec. now rewrite Ec.
Qed.
(** An object that computed the next state of another state, and a new one. *)
Example C58_case : keeps_size (fun _ _ l => Ok l) /\
  exists s1, i_run (fun _ _ l => Ok l) KFix Debug [IState (repeat 1 18) []; IPeriod 2] (i_init KFix 1) = Ok s1 /\
  i_run (fun _ _ l => Ok l) KFix Debug [] (i_init KFix 2) = Ok (i_init KFix 2) /\ i_dt s1 = i_dt (i_init KFix 2) /\ i_pn s1 = None /\ i_contacts s1 = i_contacts (i_init KFix 2) /\ a_noise (i_sens s1) = None.
Proof.
  split; [intros id n l y E; inversion E; reflexivity|].
  destruct (next_ok (fun _ _ l => Ok l) KFix Debug (repeat 1 18) [] (i_init KFix 1) (init_wf KFix 1) eq_refl) as (s' & _ & (D1 & D2 & D3 & D4 & D5 & D6) & E); [discriminate|].
  unfold process_noise in E. rewrite D3 in E. cbn [i_init i_pn] in E. cbn [i_run i_step]. rewrite E. cbn [obind]. eexists. split; [reflexivity|]. split; [reflexivity|]. cbn. rewrite D2, D6. auto.
Qed.

(** ** C94 *)
(** The next state: the position and the velocities follow constant accelerations over the sampling period, those of the state
    (for the stable model, those of a spring and a damper); the rotation is that of dt w + dt^2/2 alpha after that
    of the state. The next accelerations are the input (IMU), zero (IMU with magnetometer), those of the state
    (fixed contact), or the new ones (stable). The process noise is added to this. *)
Theorem C94_next_state nz kd md md1 dt0 ops s x u : keeps_size nz -> i_run nz kd md1 ops (i_init kd dt0) = Ok s -> length x = 18%nat -> (kd = KImu -> length u = 6%nat) ->
  let dt := i_dt s in let p := seg3 x 0 in let o := seg3 x 3 in let v := seg3 x 6 in let w := seg3 x 9 in
  let a := match kd with KStab => vsub (vscal (- 25) p) v | _ => seg3 x 12 end in
  let al := match kd with KStab => vsub (vscal (- 25) o) w | _ => seg3 x 15 end in
  let d := vadd (vscal dt w) (vscal (dt * dt / 2) al) in
  exists y, out (i_step nz kd md (IState x u) s) = (do y <- with_noise nz (i_pn s) (i_pcalls s) y; Ok (Some y)) /\ length y = 18%nat /\
    seg3 y 0 = vadd p (vadd (vscal dt v) (vscal (dt * dt / 2) a)) /\ seg3 y 6 = vadd v (vscal dt a) /\ seg3 y 9 = vadd w (vscal dt al) /\
    rodrigues (seg3 y 3) = mmul (rv_mat d) (rv_mat o) /\ vnorm (seg3 y 3) <= PI /\
    (exact_rv d -> exact_rv o -> rodrigues (seg3 y 3) = mmul (rodrigues d) (rodrigues o)) /\
    (seg3 y 12, seg3 y 15) = match kd with KImu => (seg3 u 0, seg3 u 3) | KMag => (v0, v0) | _ => (a, al) end.
Proof.
  intros KS R1 Lx Lu dt p o v w a al d. apply reach_wf in R1; [|assumption].
  assert (Ea : acc_used kd x = (a, al)).
  { unfold acc_used, a, al, stabilize. destruct kd; auto. unfold p, v, o, w. f_equal; generalize (seg3 x 0) (seg3 x 6) (seg3 x 3) (seg3 x 9); intros [] [] [] []; u3; f_equal; field. }
  exists (next_of kd dt x u). split; [now apply out_state|]. split; [reflexivity|].
  assert (Ed : step_angle kd dt x = d).
  { unfold step_angle. rewrite Ea. unfold d, w. cbn [snd]. f_equal. f_equal. field. }
  destruct (next_rot kd dt x u) as [Er Ep]. rewrite Ed in Er.
  destruct (seg_pack (vadd (seg3 x 0) (vadd (vscal dt (seg3 x 6)) (vscal (1 / 2 * dt * dt) (fst (acc_used kd x)))))
    (quat_rv (qmul (rv_quat (step_angle kd dt x)) (rv_quat (seg3 x 3))))
    (vadd (seg3 x 6) (vscal dt (fst (acc_used kd x)))) (vadd (seg3 x 9) (vscal dt (snd (acc_used kd x)))) (fst (acc_next kd x u)) (snd (acc_next kd x u)))
    as (E0 & _ & E6 & E9 & E12 & E15).
  change (pack _ _ _ _ _ _) with (next_of kd dt x u) in *.
  repeat match goal with |- _ /\ _ => split end; auto.
  - rewrite E0, Ea. cbn [fst]. unfold p, v. f_equal. f_equal. f_equal. field.
  - rewrite E6, Ea. reflexivity.
  - rewrite E9, Ea. reflexivity.
  - intros Hd Ho. rewrite Er. now rewrite !rv_rodrigues by now apply exact_not_tiny.
  - rewrite E12, E15. unfold acc_next. rewrite Ea. destruct kd; reflexivity.
Qed.
Example C94_case : exists s, i_run (fun _ _ l => Ok l) KStab Debug [IPeriod (1 / 100)] (i_init KStab 1) = Ok s /\ i_dt s = 1 / 100 /\ length (repeat 1 18) = 18%nat.
Proof. eexists. split; [reflexivity|]. split; reflexivity. Qed.

(** ** C95 *)
(** The predicted measurement is that of ideal sensors. [mg] is the motion of the unit: that of the state, or the composition of the
    motion of the flexible base, which the state describes at t, and of the motion of the unit on the base, which the
    input describes at t. Then come the displacements of the contacts. The measurement noise is added to the first part only. *)
Theorem C95_predicted_measurement nz kd md md1 dt0 ops s x u k base mi mg t : keeps_size nz -> i_run nz kd md1 ops (i_init kd dt0) = Ok s -> length x = 18%nat ->
  (kd = KFix \/ kd = KStab -> length u = 15%nat) ->
  is_motion base -> is_motion mi -> is_motion mg -> unit_motion kd base mi mg ->
  mp base t = seg3 x 0 -> mr base t = rv_mat (seg3 x 3) -> mw base t = seg3 x 9 -> ma base t = seg3 x 12 -> mal base t = seg3 x 15 ->
  (kd = KFix \/ kd = KStab -> mp mi t = seg3 u 0 /\ mr mi t = rv_mat (seg3 u 3) /\ mv mi t = seg3 u 6 /\ mw mi t = seg3 u 9 /\ ma mi t = seg3 u 12) ->
  let y := l3 (mvec (mtr (mr mg t)) (vadd (ma mg t) sgravity)) ++ l3 (mvec (mtr (mr mg t)) (mw mg t)) ++
    match kd with KMag => l3 (mvec (mtr (mr mg t)) earthField) | _ => [] end in
  let c := match kd with KImu | KMag => [] | _ => concat (map (fun c => l3 (vsub (vadd (mp base t) (mvec (mr base t) c)) c)) (i_contacts s)) end in
  out (i_step nz kd md (IMeas x u k) s) = (do y <- with_noise nz (a_noise (i_sens s)) (a_calls (i_sens s)) y; Ok (Some (y ++ c))).
Proof.
  intros KS R1 Lx Lu Mb Mi Mg Hu Ep Er Ew Ea El Hi y c. apply reach_wf in R1; [|assumption]. rewrite out_meas by assumption.
  rewrite (unit_signal kd x u base mi mg t) by assumption. fold y.
  assert (virtual_of kd x (i_contacts s) = c) as ->; [|reflexivity].
  unfold virtual_of, c. rewrite Ep, Er, rv_mat_quat. destruct kd; auto; f_equal; apply map_ext; intros b; unfold vlist, l3; now rewrite (vadd_comm (seg3 x 0)).
Qed.
(** The base turns about the vertical at 1 rad/s, the unit is 2 m away from the axis: the motions, the state and the input. *)
Definition c95_x : list R := [0; 0; 0; 0; 0; 0; 0; 0; 0; 0; 0; 1; 0; 0; 0; 0; 0; 0].
Definition c95_u : list R := [2; 0; 0; 0; 0; 0; 0; 0; 0; 0; 0; 0; 0; 0; 0].
Example C95_case : let base := mo_const v0 v0 v0 m1 (mkV 0 0 1) in let mi := mo_const (mkV 2 0 0) v0 v0 m1 v0 in
  is_motion base /\ is_motion mi /\ is_motion (mo_mul base mi) /\ unit_motion KFix base mi (mo_mul base mi) /\
  mp base 0 = seg3 c95_x 0 /\ mr base 0 = rv_mat (seg3 c95_x 3) /\ mw base 0 = seg3 c95_x 9 /\ ma base 0 = seg3 c95_x 12 /\ mal base 0 = seg3 c95_x 15 /\
  mp mi 0 = seg3 c95_u 0 /\ mr mi 0 = rv_mat (seg3 c95_u 3) /\ mv mi 0 = seg3 c95_u 6 /\ mw mi 0 = seg3 c95_u 9 /\ ma mi 0 = seg3 c95_u 12 /\
  ma (mo_mul base mi) 0 = mkV (- 2) 0 0.
Proof.
  assert (S1 : so3 m1) by (split; c3). intros base mi.
  assert (Mb : is_motion base) by now apply mo_const_motion. assert (Mi : is_motion mi) by now apply mo_const_motion.
  split; [exact Mb|]. split; [exact Mi|]. split; [now apply mo_mul_motion|].
  split. { intros u. cbn [mo_mul mp mr]. split; [apply vadd_comm|reflexivity]. }
  assert (Er : forall w, mmul (rodrigues (vscal 0 w)) m1 = m1). { intros w. replace (vscal 0 w) with v0 by c3. rewrite rodrigues_0. c3. }
  unfold base, mi, c95_x, c95_u, seg3, at_. cbn [mo_const mo_mul mp mr mv mw ma mal nth plus Nat.add]. rewrite !Er. change (mkV 0 0 0) with v0. rewrite rv_mat_v0.
  repeat match goal with |- _ /\ _ => split end; try reflexivity; u3; f_equal; field.
Qed.

(** ** C96 *)
(** The stable model, fed with its own predictions, brings the position and the velocity to zero from every state, when the sampling period is less than
    80 ms. Missing: longer periods, for which it is false (C96_stable_refuted), and the orientation. *)
Theorem C96_stable_partial nz md md1 dt0 ops s x u : keeps_size nz -> i_run nz KStab md1 ops (i_init KStab dt0) = Ok s -> i_pn s = None -> length x = 18%nat ->
  0 < i_dt s < 8 / 100 ->
  forall e, 0 < e -> exists N, forall n, (N <= n)%nat -> exists y s', feed nz KStab md u n x s = Ok (y, s') /\ vnorm (seg3 y 0) < e /\ vnorm (seg3 y 6) < e.
Proof.
  intros KS R1 Hn Lx Hd e He. apply reach_wf in R1; [|assumption]. set (dt := i_dt s) in *.
  assert (V0 : 0 <= lyap3 dt x).
  { eapply Rle_trans; [|apply lyap3_lower; lra]. assert (0 <= vsq (seg3 x 0)) by (destruct (seg3 x 0); u3; nra). assert (0 <= vsq (seg3 x 6)) by (destruct (seg3 x 6); u3; nra). lra. }
  assert (G : 0 <= gain dt < 1) by (unfold gain; split; nra).
  destruct (pow_small (gain dt) (4 / 10 * (e * e) / (lyap3 dt x + 1))) as (N & HN); [exact G|apply Rdiv_lt_0_compat; nra|].
  exists N. intros n Hle. destruct (feed_ok nz md u n x s R1 Hn Lx) as (y & s' & E & _ & _ & _ & _ & V). fold dt in V. exists y, s'. split; [exact E|].
  assert (B : lyap3 dt y < 4 / 10 * (e * e)).
  { rewrite V. specialize (HN n Hle). assert (gain dt ^ n * (lyap3 dt x + 1) < 4 / 10 * (e * e)).
    { apply (Rmult_lt_compat_r (lyap3 dt x + 1)) in HN; [|lra]. unfold Rdiv in HN. rewrite (Rmult_assoc _ (/ _)), Rinv_l, Rmult_1_r in HN by lra. exact HN. }
    assert (0 <= gain dt ^ n) by (apply pow_le; lra). lra. }
  pose proof (lyap3_lower dt y) as L. assert (0 <= vsq (seg3 y 0)) by (destruct (seg3 y 0); u3; nra). assert (0 <= vsq (seg3 y 6)) by (destruct (seg3 y 6); u3; nra).
  split; apply vnorm_lt; try assumption; lra.
Qed.
Example C96_case : exists s, i_run (fun _ _ l => Ok l) KStab Debug [IPeriod (5 / 1000)] (i_init KStab 1) = Ok s /\ i_pn s = None /\ 0 < i_dt s < 8 / 100.
Proof. eexists. split; [reflexivity|]. cbn. split; [reflexivity|lra]. Qed.
(** With a sampling period of 100 ms, from a position of 1 m at rest, it stays away from zero for ever. *)
Theorem C96_stable_refuted : exists nz s x, keeps_size nz /\ i_run nz KStab Debug [] (i_init KStab (1 / 10)) = Ok s /\ i_pn s = None /\ length x = 18%nat /\
  forall u n, exists y s', feed nz KStab Debug u n x s = Ok (y, s') /\ 8 / 10 <= vsq (seg3 y 0) + vsq (seg3 y 6).
Proof.
  exists (fun _ _ l => Ok l), (i_init KStab (1 / 10)), (1 :: repeat 0 17). split; [intros id n l y E; inversion E; reflexivity|]. split; [reflexivity|]. split; [reflexivity|]. split; [reflexivity|].
  intros u n. destruct (feed_ok (fun _ _ l => Ok l) Debug u n (1 :: repeat 0 17) (i_init KStab (1 / 10)) (init_wf KStab (1 / 10))) as (y & s' & E & _ & _ & _ & _ & V); [reflexivity|reflexivity|].
  exists y, s'. split; [exact E|]. cbn [i_init i_dt] in V.
  assert (P : 1 <= gain (1 / 10) ^ n) by (apply pow_R1_Rle; unfold gain; lra).
  assert (X : lyap3 (1 / 10) (1 :: repeat 0 17) = 25) by (unfold lyap3, lyap, seg3, at_; cbn; field).
  rewrite X in V. assert (Y : 25 <= lyap3 (1 / 10) y) by lra. clear V P X E.
  assert (U : forall p v, lyap (1 / 10) p v <= 26 * (p * p + v * v)) by (intros p v; unfold lyap; pose proof (Rle_0_sqr (p + v)); pose proof (Rle_0_sqr v); unfold Rsqr in *; pose proof (Rle_0_sqr p); unfold Rsqr in *; lra).
  unfold lyap3 in Y. revert Y. generalize (seg3 y 0) (seg3 y 6). intros [p q r] [v w z] Y. cbn [vx vy vz] in Y. pose proof (U p v). pose proof (U q w). pose proof (U r z). u3. lra.
Qed.

(** ** C97 *)
(** IMUMltpctiveDynamicalSystem: the state sum undoes the state difference (up to the sign of the quaternion) and the difference
    undoes the sum, for rotations between the two states that the library computes exactly and of less than half a turn. *)
Theorem C97_sum_of_difference md x y : length x = 19%nat -> length y = 19%nat -> qn2 (quat_at x 3) = 1 -> qn2 (quat_at y 3) = 1 ->
  exists t z, ml_diff md y x = Ok t /\ ml_sum md x t = Ok z /\ length t = 18%nat /\ length z = 19%nat /\ qn2 (quat_at z 3) = 1 /\
    seg3 z 0 = seg3 y 0 /\ seg3 z 7 = seg3 y 7 /\ seg3 z 10 = seg3 y 10 /\ seg3 z 13 = seg3 y 13 /\ seg3 z 16 = seg3 y 16 /\
    (exact_rv (seg3 t 3) -> qrot (quat_at z 3) = qrot (quat_at y 3)).
Proof.
  intros Lx Ly Ux Uy. unfold ml_diff. rewrite (vsize_ok md 19 x Lx), (vsize_ok md 19 y Ly). cbn [obind]. do 2 eexists. split; [reflexivity|].
  unfold ml_sum. rewrite (vsize_ok md 19 x Lx), (vsize_ok md 18) by reflexivity. cbn [obind]. split; [reflexivity|]. split; [reflexivity|]. split; [reflexivity|].
  set (q := qmul (quat_at y 3) (qconj (quat_at x 3))).
  assert (Uq : qn2 q = 1) by (unfold q; rewrite qn2_mul, qn2_conj; nra).
  match goal with |- context[pack ?p ?o ?v ?w ?a ?al] => destruct (seg_pack p o v w a al) as (-> & -> & -> & -> & -> & ->) end.
  match goal with |- context[packq ?p ?o ?v ?w ?a ?al] => destruct (seg_packq p o v w a al) as (-> & -> & -> & -> & -> & ->) end.
  split. { rewrite qn2_mul, rv_quat_unit, Ux. ring. }
  rewrite !vadd_vsub_r. do 5 (split; [reflexivity|]).
  intros He. rewrite qrot_mul, <- rv_mat_quat by auto using rv_quat_unit. rewrite rv_rodrigues by now apply exact_not_tiny.
  rewrite quat_rv_rot by exact Uq. rewrite <- qrot_mul by auto. f_equal. unfold q. generalize (quat_at y 3). intros y'. clear - Ux. revert Ux. generalize (quat_at x 3). intros x'.
  intros U. rewrite <- qmul_assoc. replace (qmul (qconj x') x') with q1; [destruct y'; u3; f_equal; ring|]. destruct x'. u3. f_equal; try ring. lra.
Qed.
Theorem C97_difference_of_sum md x t : length x = 19%nat -> length t = 18%nat -> qn2 (quat_at x 3) = 1 -> exact_rv (seg3 t 3) -> vnorm (seg3 t 3) < PI ->
  exists z, ml_sum md x t = Ok z /\ ml_diff md z x = Ok t.
Proof.
  intros Lx Lt Ux He Hp. unfold ml_sum. rewrite (vsize_ok md 19 x Lx), (vsize_ok md 18 t Lt). cbn [obind]. eexists. split; [reflexivity|].
  unfold ml_diff. rewrite (vsize_ok md 19 x Lx), (vsize_ok md 19) by reflexivity. cbn [obind].
  match goal with |- context[packq ?p ?o ?v ?w ?a ?al] => destruct (seg_packq p o v w a al) as (-> & -> & -> & -> & -> & ->) end.
  f_equal. rewrite <- (pack_all t Lt) at 7. 
  assert (quat_rv (qmul (qmul (rv_quat (seg3 t 3)) (quat_at x 3)) (qconj (quat_at x 3))) = seg3 t 3) as ->.
  { rewrite <- qmul_assoc. replace (qmul (quat_at x 3) (qconj (quat_at x 3))) with q1.
    - replace (qmul (rv_quat (seg3 t 3)) q1) with (rv_quat (seg3 t 3)) by (destruct (rv_quat (seg3 t 3)); u3; f_equal; ring).
      destruct (exact_not_tiny _ He) as [H|H]; [now apply quat_rv_exp|]. rewrite H, rv_quat_v0. apply RotProofs2.quat_rv_q1.
    - clear - Ux. revert Ux. generalize (quat_at x 3). intros x' U. destruct x'. u3. f_equal; try ring. lra. }
  now rewrite !vsub_vadd_l.
Qed.
Definition c97_x : list R := [1; 2; 3; 0; 0; 0; 1; 0; 0; 0; 1; 0; 0; 0; 0; 0; 0; 0; 0].
Definition c97_t : list R := [1; 2; 3; 0; 0; 1; 0; 0; 0; 1; 0; 0; 0; 0; 0; 0; 0; 0].
Example C97_case : length c97_x = 19%nat /\ length c97_t = 18%nat /\ qn2 (quat_at c97_x 3) = 1 /\ exact_rv (seg3 c97_t 3) /\ vnorm (seg3 c97_t 3) < PI.
Proof.
  unfold c97_x, c97_t, quat_at, seg3, at_. cbn [nth Nat.add length]. repeat split; auto.
  - u3. ring.
  - left. pose proof epsA_pos. assert (epsA < 1) by (unfold epsA; lra). u3. nra.
  - unfold vnorm. replace (vsq (mkV 0 0 1)) with 1 by (u3; ring). rewrite sqrt_1. pose proof PI2_1. lra.
Qed.

(** ** C98 *)
(** IMUMltpctiveDynamicalSystem::stateDynamics keeps the squared norm of the quaternion within 1e-6 of one, from any nonzero quaternion; from a unit one the
    state is that of C94. *)
Theorem C98_unit_quaternion md dt x u : length x = 19%nat -> length u = 6%nat -> qn2 (quat_at x 3) <> 0 ->
  exists y, ml_next md dt x u = Ok y /\ length y = 19%nat /\ Rabs (qn2 (quat_at y 3) - 1) <= / 1000000 /\
    seg3 y 0 = vadd (seg3 x 0) (vadd (vscal dt (seg3 x 7)) (vscal (dt * dt / 2) (seg3 x 13))) /\ seg3 y 7 = vadd (seg3 x 7) (vscal dt (seg3 x 13)) /\
    seg3 y 10 = vadd (seg3 x 10) (vscal dt (seg3 x 16)) /\ seg3 y 13 = seg3 u 0 /\ seg3 y 16 = seg3 u 3 /\
    let d := vadd (vscal dt (seg3 x 10)) (vscal (dt * dt / 2) (seg3 x 16)) in
    (qn2 (quat_at x 3) = 1 -> qn2 (quat_at y 3) = 1 /\ (exact_rv d -> qrot (quat_at y 3) = mmul (rodrigues d) (qrot (quat_at x 3)))).
Proof.
  intros Lx Lu Hq. rewrite ml_next_eq by assumption. cbv zeta. set (q' := qmul (rv_quat (ml_step dt x)) (quat_at x 3)). eexists. split; [reflexivity|]. split; [reflexivity|].
  match goal with |- context[packq ?p ?o ?v ?w ?a ?al] => destruct (seg_packq p o v w a al) as (-> & -> & -> & -> & -> & ->) end.
  assert (Hq' : qn2 q' = qn2 (quat_at x 3)) by (unfold q'; rewrite qn2_mul, rv_quat_unit; ring).
  rewrite Hq'. pose proof tol_pos as T.
  assert (Ed : 1 / 2 * dt * dt = dt * dt / 2) by field.
  split; [|split; [now rewrite Ed|]; split; [reflexivity|]; split; [reflexivity|]; split; [reflexivity|]; split; [reflexivity|]].
  - change (/ 1000000) with quatNormTol. destruct (Rlt_dec (1 + quatNormTol) (qn2 (quat_at x 3))); [rewrite qnormalize_unit by (rewrite Hq'; exact Hq); rewrite Rminus_diag_eq, Rabs_R0 by reflexivity; lra|].
    destruct (Rlt_dec (qn2 (quat_at x 3)) (1 - quatNormTol)); [rewrite qnormalize_unit by (rewrite Hq'; exact Hq); rewrite Rminus_diag_eq, Rabs_R0 by reflexivity; lra|].
    rewrite Hq'. apply Rabs_le. lra.
  - intros U. rewrite U. destruct (Rlt_dec (1 + quatNormTol) 1); [lra|]. destruct (Rlt_dec 1 (1 - quatNormTol)); [lra|]. split; [congruence|].
    intros He. unfold q'. rewrite qrot_mul, <- rv_mat_quat by auto using rv_quat_unit. unfold ml_step. rewrite Ed. now rewrite rv_rodrigues by now apply exact_not_tiny.
Qed.
Example C98_case : length c97_x = 19%nat /\ length (repeat 1 6) = 6%nat /\ qn2 (quat_at c97_x 3) <> 0.
Proof. split; [reflexivity|]. split; [reflexivity|]. unfold c97_x, quat_at, at_. cbn [nth Nat.add]. u3. lra. Qed.

(** ** C99 *)
(** getAMatrix is the derivative of stateDynamics in the tangent space: when the state follows a curve [xe] with tangent (p, o, v, w, a, al), R' = [o]x R
    for its rotation, the next state follows a curve with the tangent getAMatrix gives. When the rotation of
    the step is not less than 1e-16. *)
Theorem C99_state_jacobian md dt xe u p o v w a al : (forall e, length (xe e) = 19%nat /\ qn2 (quat_at (xe e) 3) = 1) -> length u = 6%nat ->
  vderiv (fun e => seg3 (xe e) 0) 0 p -> mderiv (fun e => qrot (quat_at (xe e) 3)) 0 (mmul (skew o) (qrot (quat_at (xe 0) 3))) ->
  vderiv (fun e => seg3 (xe e) 7) 0 v -> vderiv (fun e => seg3 (xe e) 10) 0 w -> vderiv (fun e => seg3 (xe e) 13) 0 a -> vderiv (fun e => seg3 (xe e) 16) 0 al ->
  epsA * epsA < vsq (vadd (vscal dt (seg3 (xe 0) 10)) (vscal (dt * dt / 2) (seg3 (xe 0) 16))) ->
  exists ye, (forall e, ml_next md dt (xe e) u = Ok (ye e)) /\
    let '(p', o', v', w', a', al') := ml_A dt (xe 0) p o v w a al in
    vderiv (fun e => seg3 (ye e) 0) 0 p' /\ mderiv (fun e => qrot (quat_at (ye e) 3)) 0 (mmul (skew o') (qrot (quat_at (ye 0) 3))) /\
    vderiv (fun e => seg3 (ye e) 7) 0 v' /\ vderiv (fun e => seg3 (ye e) 10) 0 w' /\ vderiv (fun e => seg3 (ye e) 13) 0 a' /\ vderiv (fun e => seg3 (ye e) 16) 0 al'.
Proof.
  intros Hx Lu Dp Do Dv Dw Da Dal Ht. eexists (fun e => packq _ _ _ _ _ _). split.
  { intros e. destruct (Hx e) as [L U]. rewrite ml_next_unit by assumption. reflexivity. }
  assert (Dd : vderiv (fun e => ml_step dt (xe e)) 0 (vadd (vscal dt w) (vscal (1 / 2 * dt * dt) al))) by (apply vd_add; apply vd_scal_l; assumption).
  assert (Ht' : ~ tiny (ml_step dt (xe 0))). { unfold ml_step, tiny. replace (1 / 2 * dt * dt) with (dt * dt / 2) by field. lra. }
  pose proof (ml_rot_deriv (fun e => ml_step dt (xe e)) (fun e => quat_at (xe e) 3) o _ (fun e => proj2 (Hx e)) Do Dd Ht') as Dr. cbv beta in Dr.
  unfold ml_A.
  repeat match goal with |- _ /\ _ => split end.
  - eapply vd_ext_eq with (f := fun e => vadd (seg3 (xe e) 0) (vadd (vscal dt (seg3 (xe e) 7)) (vscal (1 / 2 * dt * dt) (seg3 (xe e) 13)))).
    + apply vd_add; [exact Dp|]. apply vd_add; [apply (vd_scal_l dt _ _ _ Dv)|apply (vd_scal_l (1 / 2 * dt * dt) _ _ _ Da)].
    + intros e. now rewrite (proj1 (seg_packq _ _ _ _ _ _)).
    + destruct p, v, a. u3. f_equal; field.
  - destruct (seg_packq (vadd (seg3 (xe 0) 0) (vadd (vscal dt (seg3 (xe 0) 7)) (vscal (1 / 2 * dt * dt) (seg3 (xe 0) 13))))
     (qmul (rv_quat (ml_step dt (xe 0))) (quat_at (xe 0) 3)) (vadd (seg3 (xe 0) 7) (vscal dt (seg3 (xe 0) 13))) (vadd (seg3 (xe 0) 10) (vscal dt (seg3 (xe 0) 16))) (seg3 u 0) (seg3 u 3)) as (_ & -> & _).
    eapply mderiv_ext; [eapply md_eq; [exact Dr|]|].
    + f_equal. f_equal. replace (vadd (vscal dt (seg3 (xe 0) 10)) (vscal (dt * dt / 2) (seg3 (xe 0) 16))) with (ml_step dt (xe 0)) by (unfold ml_step; do 2 f_equal; field).
      unfold dRdR. rewrite <- jac_eq by exact Ht'. generalize (rv_mat (ml_step dt (xe 0))) (dRddelta (ml_step dt (xe 0))). intros [] []. destruct o, w, al. u3. f_equal; field.
    + intros e. now rewrite (proj1 (proj2 (seg_packq _ _ _ _ _ _))).
  - eapply vd_ext_eq with (f := fun e => vadd (seg3 (xe e) 7) (vscal dt (seg3 (xe e) 13))); [apply vd_add; [exact Dv|apply (vd_scal_l dt _ _ _ Da)]| |reflexivity].
    intros e. now rewrite (proj1 (proj2 (proj2 (seg_packq _ _ _ _ _ _)))).
  - eapply vd_ext_eq with (f := fun e => vadd (seg3 (xe e) 10) (vscal dt (seg3 (xe e) 16))); [apply vd_add; [exact Dw|apply (vd_scal_l dt _ _ _ Dal)]| |reflexivity].
    intros e. now rewrite (proj1 (proj2 (proj2 (proj2 (seg_packq _ _ _ _ _ _))))).
  - eapply vd_ext_eq with (f := fun e => seg3 u 0); [apply vd_const| |reflexivity]. intros e. now rewrite (proj1 (proj2 (proj2 (proj2 (proj2 (seg_packq _ _ _ _ _ _)))))).
  - eapply vd_ext_eq with (f := fun e => seg3 u 3); [apply vd_const| |reflexivity]. intros e. now rewrite (proj2 (proj2 (proj2 (proj2 (proj2 (seg_packq _ _ _ _ _ _)))))).
Qed.
(** getCMatrix is the derivative of measureDynamics in the tangent space. *)
Theorem C99_measurement_jacobian md xe o w a : (forall e, length (xe e) = 19%nat /\ qn2 (quat_at (xe e) 3) = 1) ->
  mderiv (fun e => qrot (quat_at (xe e) 3)) 0 (mmul (skew o) (qrot (quat_at (xe 0) 3))) ->
  vderiv (fun e => seg3 (xe e) 10) 0 w -> vderiv (fun e => seg3 (xe e) 13) 0 a ->
  exists ye, (forall e, ml_measure md (xe e) = Ok (ye e)) /\
    vderiv (fun e => seg3 (ye e) 0) 0 (fst (ml_C (xe 0) o w a)) /\ vderiv (fun e => seg3 (ye e) 3) 0 (snd (ml_C (xe 0) o w a)).
Proof.
  intros Hx Do Dw Da.
  exists (fun e => vlist (accelerationMeasure (seg3 (xe e) 13) (qrot (quat_at (xe e) 3))) ++ vlist (rotationVelocityMeasure (seg3 (xe e) 10) (qrot (quat_at (xe e) 3)))). split.
  { intros e. unfold ml_measure. rewrite vsize_ok by apply Hx. cbn [obind]. pose proof (signal_fun KImu md (quat_at (xe e) 3) (seg3 (xe e) 13) (seg3 (xe e) 10)) as S. cbn [i_class] in S. rewrite S. reflexivity. }
  pose proof (md_tr _ _ _ Do) as Dt. unfold ml_C. cbn [fst snd]. split.
  - eapply vd_ext_eq with (f := fun e => mvec (mtr (qrot (quat_at (xe e) 3))) (vadd (seg3 (xe e) 13) sgravity)).
    + apply (vd_mvec _ _ _ _ _ Dt (vd_add _ _ _ _ _ Da (vd_const sgravity 0))).
    + intros e. unfold accelerationMeasure. destruct (mvec _ _); reflexivity.
    + cbv beta. generalize (qrot (quat_at (xe 0) 3)) (seg3 (xe 0) 13) sgravity. c3.
  - eapply vd_ext_eq with (f := fun e => mvec (mtr (qrot (quat_at (xe e) 3))) (seg3 (xe e) 10)).
    + apply (vd_mvec _ _ _ _ _ Dt Dw).
    + intros e. unfold rotationVelocityMeasure. destruct (mvec _ (seg3 (xe e) 10)); reflexivity.
    + cbv beta. generalize (qrot (quat_at (xe 0) 3)) (seg3 (xe 0) 10). c3.
Qed.
(** A state that turns about the vertical, at 1 rad/s and with a constant velocity; only the orientation is perturbed. *)
Definition c99_x (e : R) : list R := packq (mkV 1 2 3) (aa_quat (e, uz)) v0 uz v0 v0.
Example C99_case : (forall e, length (c99_x e) = 19%nat /\ qn2 (quat_at (c99_x e) 3) = 1) /\
  mderiv (fun e => qrot (quat_at (c99_x e) 3)) 0 (mmul (skew uz) (qrot (quat_at (c99_x 0) 3))) /\ vderiv (fun e => seg3 (c99_x e) 10) 0 v0 /\
  epsA * epsA < vsq (vadd (vscal 1 (seg3 (c99_x 0) 10)) (vscal (1 * 1 / 2) (seg3 (c99_x 0) 16))).
Proof.
  assert (Q : forall e, quat_at (c99_x e) 3 = aa_quat (e, uz)) by (intros e; apply (proj1 (proj2 (seg_packq _ _ _ _ _ _)))).
  split; [intros e; split; [reflexivity|]; rewrite Q; apply aa_quat_unit, vsq_uz|]. split.
  - rewrite Q, <- aa_mat_quat by apply vsq_uz. eapply mderiv_ext; [eapply md_eq; [apply (aa_mat_deriv 1 uz 0 vsq_uz)|]|].
    + rewrite Rmult_0_l. f_equal. c3.
    + intros e. cbv beta. rewrite Q, <- aa_mat_quat, Rmult_1_r by apply vsq_uz. reflexivity.
  - split; [apply vd_const|]. unfold c99_x. destruct (seg_packq (mkV 1 2 3) (aa_quat (0, uz)) v0 uz v0 v0) as (_ & _ & _ & -> & _ & ->).
    pose proof epsA_pos. assert (epsA < 1) by (unfold epsA; lra). u3. nra.
Qed.
(** derivateRtvMultiplicative is not the derivative of R^T v when R turns (R' = [o]x R): it has the opposite sign. *)
Theorem C99_derivateRtv_refuted : exists (r : R -> M3) (v o : V3), (forall e, mmul (r e) (mtr (r e)) = m1) /\ mderiv r 0 (mmul (skew o) (r 0)) /\
  vderiv (fun e => mvec (mtr (r e)) v) 0 (vneg (mvec (dRtv (r 0) v) o)) /\ ~ vderiv (fun e => mvec (mtr (r e)) v) 0 (mvec (dRtv (r 0) v) o).
Proof.
  exists (fun e => aa_mat (e * 1, uz)), ux, (vscal 1 uz).
  assert (D : mderiv (fun e => aa_mat (e * 1, uz)) 0 (mmul (skew (vscal 1 uz)) (aa_mat (0 * 1, uz)))) by (apply aa_mat_deriv, vsq_uz).
  split; [intros e; apply (aa_mat_so3 (e * 1) uz vsq_uz)|]. split; [exact D|].
  assert (E : vderiv (fun e => mvec (mtr (aa_mat (e * 1, uz))) ux) 0 (vneg (mvec (dRtv (aa_mat (0 * 1, uz)) ux) (vscal 1 uz)))).
  { eapply vd_eq; [apply (vd_mvec _ _ _ _ _ (md_tr _ _ _ D) (vd_const ux 0))|]. unfold dRtv. generalize (aa_mat (0 * 1, uz)). c3. }
  split; [exact E|]. intros F. pose proof (KinDynMotion.vd_unique _ _ _ _ E F) as G. rewrite Rmult_0_l, aa_mat_0 in G. unfold dRtv in G. u3. injection G. intros. lra.
Qed.

(** ** C100 *)
(** BidimElasticInvPendulum: the angular acceleration by which stateDynamics changes the angular velocity satisfies the balance of the angular momentum of the mass
    about the contact, for the moments of the spring and of gravity, exactly when the product of the angular velocity,
    of the velocity of the mass and of h - p is zero. Missing: the other states, where it does not hold. *)
Theorem C100_pendulum_momentum_partial md s k (p pd th thd cx cy : R -> R) pdd thdd y t : b_k s = Some k -> b_m s <> 0 -> b_dt s <> 0 -> p t * p t + b_h s * b_h s <> 0 ->
  bip_next md [p t; th t; pd t; thd t] [pdd] s = Ok y -> at_ y 3 = thd t + b_dt s * thdd ->
  (forall r, derivable_pt_lim p r (pd r)) -> derivable_pt_lim pd t pdd -> (forall r, derivable_pt_lim th r (thd r)) -> derivable_pt_lim thd t thdd ->
  (forall r, derivable_pt_lim (fun r => pend_x (p r) (b_h s) (th r)) r (cx r)) -> (forall r, derivable_pt_lim (fun r => pend_y (p r) (b_h s) (th r)) r (cy r)) ->
  let momentum r := b_m s * (pend_x (p r) (b_h s) (th r) * cy r - pend_y (p r) (b_h s) (th r) * cx r) in
  derivable_pt_lim momentum t (- k * th t - pend_x (p t) (b_h s) (th t) * (b_m s * (98 / 10))) <-> thd t * pd t * (b_h s - p t) = 0.
Proof.
  intros Ek Hm Hdt Hn En Ey Dp Dpd Dth Dthd Dx Dy momentum. unfold bip_next in En. rewrite (vsize_ok md 4), (vsize_ok md 1) in En by reflexivity. cbn [obind] in En. rewrite Ek in En.
  apply KinProofs.Ok_inj in En. subst y. unfold at_ in Ey. cbn [nth] in Ey.
  assert (Ea : thdd = bip_acc k (b_m s) (b_h s) (p t) (pd t) pdd (th t) (thd t)) by (apply Rplus_eq_reg_l, Rmult_eq_reg_l in Ey; auto). clear Ey.
  set (h := b_h s) in *. set (m := b_m s) in *.
  assert (Ex : forall r, cx r = pd r * cos (th r) - p r * (sin (th r) * thd r) - h * (cos (th r) * thd r)).
  { intros r. eapply uniqueness_limite; [apply Dx|]. unfold pend_x. pose proof (dl_sin' _ _ _ (Dth r)) as S. pose proof (dl_cos' _ _ _ (Dth r)) as C. specialize (Dp r).
    eapply dl_eq; [dl|cbv beta; ring]. }
  assert (Ey : forall r, cy r = pd r * sin (th r) + p r * (cos (th r) * thd r) - h * (sin (th r) * thd r)).
  { intros r. eapply uniqueness_limite; [apply Dy|]. unfold pend_y. pose proof (dl_sin' _ _ _ (Dth r)) as S. pose proof (dl_cos' _ _ _ (Dth r)) as C. specialize (Dp r).
    eapply dl_eq; [dl|cbv beta; ring]. }
  assert (Dl : derivable_pt_lim momentum t (m * ((p t * p t + h * h) * thdd + 2 * (p t * pd t) * thd t - h * pdd))).
  { apply dl_ext with (f := fun r => m * ((p r * p r + h * h) * thd r - h * pd r)).
    - specialize (Dp t). eapply dl_eq; [dl|cbv beta; ring].
    - intros r. unfold momentum, pend_x, pend_y. rewrite Ex, Ey. pose proof (sc1 (th r)) as Z. set (a := sin (th r)) in *. set (b := cos (th r)) in *.
      transitivity (m * ((p r * p r + h * h) * thd r - h * pd r) * 1); [ring|]. rewrite <- Z. ring. }
  assert (Ev : m * ((p t * p t + h * h) * thdd + 2 * (p t * pd t) * thd t - h * pdd) = - k * th t - pend_x (p t) h (th t) * (m * (98 / 10)) - 2 * m * (thd t * pd t * (h - p t))).
  { rewrite Ea. unfold bip_acc, pend_x. field. auto. }
  rewrite Ev in Dl. split.
  - intros G. pose proof (uniqueness_limite _ _ _ _ Dl G) as E. assert (2 * m * (thd t * pd t * (h - p t)) = 0) as E' by lra.
    apply Rmult_integral in E'. destruct E'; [lra|assumption].
  - intros G. rewrite G, Rmult_0_r, Rminus_0_r in Dl. exact Dl.
Qed.
(** The mass passes above the contact (p = 0) at 1 m/s while the pendulum turns at 1 rad/s, at a height of 1 m. *)
Theorem C100_pendulum_momentum_refuted : exists s k p pd th thd cx cy pdd thdd y, b_k s = Some k /\ b_m s <> 0 /\ b_dt s <> 0 /\
  bip_next Debug [p 0; th 0; pd 0; thd 0] [pdd] s = Ok y /\ at_ y 3 = thd 0 + b_dt s * thdd /\
  (forall r, derivable_pt_lim p r (pd r)) /\ derivable_pt_lim pd 0 pdd /\ (forall r, derivable_pt_lim th r (thd r)) /\ derivable_pt_lim thd 0 thdd /\
  (forall r, derivable_pt_lim (fun r => pend_x (p r) (b_h s) (th r)) r (cx r)) /\ (forall r, derivable_pt_lim (fun r => pend_y (p r) (b_h s) (th r)) r (cy r)) /\
  ~ derivable_pt_lim (fun r => b_m s * (pend_x (p r) (b_h s) (th r) * cy r - pend_y (p r) (b_h s) (th r) * cx r)) 0 (- k * th 0 - pend_x (p 0) (b_h s) (th 0) * (b_m s * (98 / 10))).
Proof.
  set (s := bip_step (BElast 1) bip_init). set (al := bip_acc 1 1 1 0 1 0 0 1). set (p := fun r : R => r). set (pd := fun _ : R => 1).
  set (th := fun r => r + al / 2 * (r * r)). set (thd := fun r => 1 + al * r).
  set (cx := fun r => pd r * cos (th r) - p r * (sin (th r) * thd r) - 1 * (cos (th r) * thd r)).
  set (cy := fun r => pd r * sin (th r) + p r * (cos (th r) * thd r) - 1 * (sin (th r) * thd r)).
  assert (Dp : forall r, derivable_pt_lim p r (pd r)) by (intros r; apply dl_id).
  assert (Dth : forall r, derivable_pt_lim th r (thd r)).
  { intros r. unfold th, thd. pose proof (dl_id r). eapply dl_eq; [dl|cbv beta; field]. }
  assert (Dthd : derivable_pt_lim thd 0 al). { unfold thd. pose proof (dl_id 0). eapply dl_eq; [dl|cbv beta; ring]. }
  assert (Dx : forall r, derivable_pt_lim (fun r => pend_x (p r) (b_h s) (th r)) r (cx r)).
  { intros r. unfold pend_x, cx. change (b_h s) with 1. pose proof (dl_sin' _ _ _ (Dth r)) as S. pose proof (dl_cos' _ _ _ (Dth r)) as C. specialize (Dp r). eapply dl_eq; [dl|cbv beta; ring]. }
  assert (Dy : forall r, derivable_pt_lim (fun r => pend_y (p r) (b_h s) (th r)) r (cy r)).
  { intros r. unfold pend_y, cy. change (b_h s) with 1. pose proof (dl_sin' _ _ _ (Dth r)) as S. pose proof (dl_cos' _ _ _ (Dth r)) as C. specialize (Dp r). eapply dl_eq; [dl|cbv beta; ring]. }
  assert (T0 : th 0 = 0) by (unfold th; ring). assert (T1 : thd 0 = 1) by (unfold thd; ring).
  assert (Hm : b_m s <> 0) by (cbn; lra). assert (Hdt : b_dt s <> 0) by (cbn; lra).
  assert (En : exists y, bip_next Debug [p 0; th 0; pd 0; thd 0] [0] s = Ok y /\ at_ y 3 = thd 0 + b_dt s * al).
  { eexists. split; [reflexivity|]. unfold at_. cbn [nth]. unfold al. rewrite T0, T1. reflexivity. }
  destruct En as (y & En & Ey).
  exists s, 1, p, pd, th, thd, cx, cy, 0, al, y. split; [reflexivity|]. split; [exact Hm|]. split; [exact Hdt|]. split; [exact En|]. split; [exact Ey|].
  split; [exact Dp|]. split; [apply (dl_const 1 0)|]. split; [exact Dth|]. split; [exact Dthd|]. split; [exact Dx|]. split; [exact Dy|].
  intros G. refine (_ (proj1 (C100_pendulum_momentum_partial Debug s 1 p pd th thd cx cy 0 al y 0 eq_refl Hm Hdt _ En Ey Dp (dl_const 1 0) Dth Dthd Dx Dy) G)).
  - rewrite T1. unfold pd, p. cbn [s bip_step bip_init b_h]. intros F. change (b_h s) with 1 in F. lra.
  - unfold p. change (b_h s) with 1. lra.
Qed.

(** ** C101 *)
(** BidimElasticInvPendulum::stateDynamics reads a stiffness that no constructor sets: whatever else was configured, it is undefined before
    setElasticity, and defined after it. *)
Theorem C101_pendulum_stiffness_refuted : exists (x u : list R), length x = 4%nat /\ length u = 1%nat /\
  (forall md ops, (forall k, ~ In (BElast k) ops) -> bip_next md x u (fold_left (fun s o => bip_step o s) ops bip_init) = UB) /\
  (forall md ops, (exists k, In (BElast k) ops) -> exists y, bip_next md x u (fold_left (fun s o => bip_step o s) ops bip_init) = Ok y).
Proof.
  exists (repeat 0 4), [0]. split; [reflexivity|]. split; [reflexivity|].
  assert (N : forall ops s, b_k s = None -> (forall k, ~ In (BElast k) ops) -> b_k (fold_left (fun s o => bip_step o s) ops s) = None).
  { induction ops as [|o os IH]; intros s Hs Hk; [exact Hs|]. cbn [fold_left]. apply IH; [|intros k Hi; apply (Hk k); now right].
    destruct o; cbn; auto. exfalso. apply (Hk k). now left. }
  assert (P : forall ops s, (b_k s <> None \/ exists k, In (BElast k) ops) -> b_k (fold_left (fun s o => bip_step o s) ops s) <> None).
  { induction ops as [|o os IH]; intros s Hs; [destruct Hs as [H|(k & [])]; exact H|]. cbn [fold_left]. apply IH. destruct Hs as [H|(k & [H|H])].
    - left. destruct o; cbn; auto; discriminate.
    - subst o. left. discriminate.
    - right. eauto. }
  split; intros md ops H; unfold bip_next; rewrite (vsize_ok md 4), (vsize_ok md 1) by reflexivity; cbn [obind].
  - now rewrite N by (auto; reflexivity).
  - destruct (b_k (fold_left _ ops bip_init)) eqn:E; [eauto|]. exfalso. revert E. apply P. auto.
Qed.

Print Assumptions C58_cached_rotation_imu.
Print Assumptions C94_next_state.
Print Assumptions C95_predicted_measurement.
Print Assumptions C96_stable_partial.
Print Assumptions C96_stable_refuted.
Print Assumptions C97_sum_of_difference.
Print Assumptions C97_difference_of_sum.
Print Assumptions C98_unit_quaternion.
Print Assumptions C99_state_jacobian.
Print Assumptions C99_measurement_jacobian.
Print Assumptions C99_derivateRtv_refuted.
Print Assumptions C100_pendulum_momentum_partial.
Print Assumptions C100_pendulum_momentum_refuted.
Print Assumptions C101_pendulum_stiffness_refuted.
