(** Properties C38, C39 (state vectors) and C71: updates, inverse states, motions. *)
From Coq Require Import Reals Lra Psatz Lia List Bool.
From Verif Require Import Base Vec3 Rot SpecRot RotProofs RotProofs2 RotProofs3 Orient SpecOrient OrientProofs
  Kine SpecKine KineProofs KineProofs2 KineProofs3 KineUpdate PropKine.
Import ListNotations.
Open Scope R_scope.

(** C38: without new values, update is integrate (each acceleration coming with its velocity). *)
Theorem C38_no_new_value_integrates : forall md dt k, coh (ko k) ->
  (kp k <> None -> ka k <> None -> kv k <> None) -> (rot (ko k) <> None -> kal k <> None -> kw k <> None) ->
  k_update md k_empty dt (k_flags k) k = k_integrate md dt k.
Proof.
  intros md dt k H C1 C2. unfold k_update, k_integrate, k_flags. cbn [kp ko kv kw ka kal fP fO fV fW fA fAl k_empty].
  assert (L : upd_lin md dt (isSome (kp k)) (isSome (kv k)) (isSome (ka k)) (kp k, kv k, ka k) (None, None, None) =
    Ok (g_p dt (kp k) (kv k) (ka k), g_v dt (kv k) (ka k), ka k)).
  { clear C2. destruct (kp k), (kv k), (ka k); try reflexivity. exfalso. apply C1; congruence. }
  rewrite L. cbn [obind]. clear L.
  assert (E : rot (ko k) = None -> ko k = o_empty) by apply unset_fails.
  destruct (o_isSet (ko k)) eqn:S.
  - apply rot_isSet in S. specialize (C2 S).
    destruct (kw k) as [w|], (kal k) as [l|]; try (exfalso; apply C2; congruence);
      unfold upd_ang; cbn [isSome o_isSet o_empty oq om meth_pos meth_vel meth_acc orb andb obind oget boost_assert].
    all: apply rot_isSet in S; rewrite ?S; cbn [isSome o_isSet o_empty oq om meth_pos meth_vel meth_acc orb andb obind oget boost_assert].
    all: try destruct (o_integrate md _ (ko k)); cbn [obind]; destruct (kp k), (kv k), (ka k); reflexivity.
  - apply rot_notSet in S. rewrite (E S). clear.
    destruct (kw k) as [w|], (kal k) as [l|], (kp k), (kv k), (ka k); reflexivity.
Qed.
Print Assumptions C38_no_new_value_integrates.

(** C38: what update needs: each flagged component is given, computable from the current and new
    values, or already there. It then succeeds, keeps orientations coherent, unsets what is not
    flagged and sets what is (the angular acceleration excepted, see below), and copies every
    flagged new value. *)
Theorem C38_update_defined : forall md new dt f k, coh (ko k) -> coh (ko new) ->
  upd_avail (fP f, fV f, fA f) (isSome (kp k)) (isSome (kv k)) (isSome (ka k)) (isSome (kp new)) (isSome (kv new)) (isSome (ka new)) ->
  upd_avail (fO f, fW f, fAl f) (o_isSet (ko k)) (isSome (kw k)) (isSome (kal k)) (o_isSet (ko new)) (isSome (kw new)) (isSome (kal new)) ->
  exists k', k_update md new dt f k = Ok k' /\ coh (ko k') /\
    isSome (kp k') = fP f /\ o_isSet (ko k') = fO f /\ isSome (kv k') = fV f /\ isSome (kw k') = fW f /\ isSome (ka k') = fA f.
Proof.
  intros md new dt f k H H' A B.
  destruct (upd_lin_ok md dt _ _ _ _ _ _ _ _ _ A) as (p & v & a & E1 & P & V & Q).
  destruct (upd_ang_ok md dt _ _ _ _ _ _ _ _ _ H H' B) as (o & w & l & E2 & C & O & W).
  exists (mkK p o v w a l). split; [now apply upd_intro|]. cbn. auto 10.
Qed.
Print Assumptions C38_update_defined.
Theorem C38_new_values_copied : forall md new dt f k k', k_update md new dt f k = Ok k' ->
  (fP f = true -> kp new <> None -> kp k' = kp new) /\ (fO f = true -> rot (ko new) <> None -> ko k' = ko new) /\
  (fV f = true -> kv new <> None -> kv k' = kv new) /\ (fW f = true -> kw new <> None -> kw k' = kw new) /\
  (fA f = true -> ka new <> None -> ka k' = ka new) /\ (fAl f = true -> kal new <> None -> kal k' = kal new) /\
  (fP f = false -> kp k' = None) /\ (fO f = false -> rot (ko k') = None) /\ (fV f = false -> kv k' = None) /\
  (fW f = false -> kw k' = None) /\ (fA f = false -> ka k' = None) /\ (fAl f = false -> kal k' = None).
Proof.
  intros md new dt f k k' H. destruct (upd_inv _ _ _ _ _ _ H) as [L A]. clear H.
  unfold upd_lin, upd_ang in L, A.
  apply obind_Ok_inv in L as (pm & M1 & L). apply obind_Ok_inv in L as (vm & M2 & L). apply obind_Ok_inv in L as (am & M3 & L).
  apply obind_Ok_inv in L as (x1 & _ & L). apply obind_Ok_inv in L as ([x2 x3] & _ & L). apply obind_Ok_inv in L as (x4 & X4 & L).
  apply obind_Ok_inv in L as (x5 & X5 & L). apply obind_Ok_inv in L as (x6 & X6 & L). injection L as Lp Lv La.
  apply obind_Ok_inv in A as (pm' & M1' & A). apply obind_Ok_inv in A as (vm' & M2' & A). apply obind_Ok_inv in A as (am' & M3' & A).
  apply obind_Ok_inv in A as (y1 & _ & A). apply obind_Ok_inv in A as ([y2 y3] & _ & A). apply obind_Ok_inv in A as (y4 & Y4 & A).
  apply obind_Ok_inv in A as (y5 & Y5 & A). apply obind_Ok_inv in A as (y6 & Y6 & A). injection A as Ap Av Aa.
  rewrite <- Lp, <- Lv, <- La, <- Ap, <- Av, <- Aa. clear Lp Lv La Ap Av Aa.
  split; [intros F N; rewrite F in *; destruct (kp new); [injection M1 as <-; now injection X4 as <-|congruence]|].
  split; [intros F N; apply rot_isSet in N; rewrite F, N in *; injection M1' as <-; now injection Y4 as <-|].
  split; [intros F N; rewrite F in *; destruct (kv new); [injection M2 as <-; now injection X5 as <-|congruence]|].
  split; [intros F N; rewrite F in *; destruct (kw new); [injection M2' as <-; now injection Y5 as <-|congruence]|].
  split; [intros F N; rewrite F in *; destruct (ka new); [injection M3 as <-; now injection X6 as <-|congruence]|].
  split; [intros F N; rewrite F in *; destruct (kal new); [injection M3' as <-; now injection Y6 as <-|congruence]|].
  repeat split; intros ->; reflexivity.
Qed.
Print Assumptions C38_new_values_copied.

(** C38, linear part: the exact next position and velocity give back the constant acceleration;
    the velocity alone gives the exact position too (an acceleration being present); the position
    alone gives the exact velocity of a uniform motion, with zero acceleration when the velocity
    was known; from rest (velocity not set) it gives the exact acceleration. *)
Theorem C38_linear_exact : forall md new dt f k k' p v a, dt <> 0 -> k_update md new dt f k = Ok k' ->
  fP f = true -> fV f = true -> fA f = true -> ka new = None -> kp k = Some p ->
  (kv k = Some v -> kp new = Some (vadd p (vadd (vscal dt v) (vscal (dt * dt / 2) a))) -> kv new = Some (vadd v (vscal dt a)) ->
     kp k' = kp new /\ kv k' = kv new /\ ka k' = Some a) /\
  (kv k = Some v -> ka k <> None -> kp new = None -> kv new = Some (vadd v (vscal dt a)) ->
     kp k' = Some (vadd p (vadd (vscal dt v) (vscal (dt * dt / 2) a))) /\ kv k' = kv new /\ ka k' = Some a) /\
  (kv k = Some v -> kp new = Some (vadd p (vscal dt v)) -> kv new = None ->
     kp k' = kp new /\ kv k' = Some v /\ ka k' = Some v0) /\
  (kv k = None -> kp new = Some (vadd p (vscal (dt * dt / 2) a)) -> kv new = None ->
     kp k' = kp new /\ ka k' = Some a).
Proof.
  intros md new dt f k k' p v a D H F1 F2 F3 N P. destruct (upd_inv _ _ _ _ _ _ H) as [L _]. clear H.
  rewrite F1, F2, F3, N, P in L. clear F1 F2 F3.
  assert (A1 : vdivr (vsub (vadd v (vscal dt a)) v) dt = a) by (clear -D; destruct v, a; unfold vdivr; u3; f_equal; field; exact D).
  split; [|split; [|split]].
  - intros V P' V'. rewrite V, P', V' in L. cbn in L. injection L as Lp Lv La. rewrite <- ?Lp, <- ?Lv, <- ?La. rewrite P', V'. split; [reflexivity|]. split; [reflexivity|].
    f_equal. exact A1.
  - intros V A P' V'. rewrite V, P', V' in L. destruct (ka k) as [a0|]; [|congruence]. cbn in L. injection L as Lp Lv La. rewrite <- ?Lp, <- ?Lv, <- ?La. rewrite V'.
    split; [f_equal|split; [reflexivity|f_equal; exact A1]]. f_equal. f_equal. change (vscal (dt * dt / 2) (vdivr (vsub (vadd v (vscal dt a)) v) dt) = vscal (dt * dt / 2) a).
    now rewrite A1.
  - intros V P' V'. rewrite V, P', V' in L. cbn in L. injection L as Lp Lv La. rewrite <- ?Lp, <- ?Lv, <- ?La. rewrite P'. split; [reflexivity|].
    split; f_equal; clear -D; destruct v, p; unfold vdivr; u3; f_equal; field; exact D.
  - intros V P' V'. rewrite V, P', V' in L. cbn in L. injection L as Lp Lv La. rewrite <- ?Lp, <- ?Lv, <- ?La. rewrite P'. split; [reflexivity|].
    f_equal; clear -D; destruct a, p; unfold vdivr; u3; f_equal; field; exact D.
Qed.
Print Assumptions C38_linear_exact.
(** C38, angular part: the exact next orientation gives back the constant angular velocity
    (less than half a turn per step), and the exact next velocity the constant acceleration. *)
Theorem C38_angular_exact : forall md new dt f k k' r w al, dt <> 0 -> k_update md new dt f k = Ok k' ->
  coh (ko k) -> coh (ko new) -> fO f = true -> fW f = true -> rot (ko k) = Some r ->
  (rot (ko new) = Some (mmul (rodrigues (vscal dt w)) r) -> kw new = None ->
     Rabs dt * vnorm w < PI -> resolved dt w -> rot (ko k') = rot (ko new) /\ kw k' = Some w) /\
  (kw k = Some w -> kw new = Some (vadd w (vscal dt al)) -> kal new = None -> fAl f = true ->
     kw k' = kw new /\ kal k' = Some al).
Proof.
  intros md new dt f k k' r w al D H C C' F1 F2 R.
  destruct (C38_new_values_copied _ _ _ _ _ _ H) as (_ & CO & _ & CW & _).
  destruct (upd_inv _ _ _ _ _ _ H) as [_ L]. clear H. rewrite F1, F2 in L.
  assert (S : o_isSet (ko k) = true) by (apply rot_isSet; congruence).
  split.
  - intros R' N B T.
    assert (S' : o_isSet (ko new) = true) by (apply rot_isSet; congruence).
    split; [rewrite CO; congruence|].
    unfold upd_ang in L. rewrite S, S', N in L. cbn [meth_pos meth_vel andb isSome obind] in L.
    pose proof (coh_so3 _ _ C R) as Sr.
    assert (Df : o_diff md (ko k) (ko new) = Ok (vscal dt w)).
    { destruct (diff_ok md (ko k) (ko new) r _ C R C' R') as (d & q & E & U & Q & ->). rewrite E. f_equal.
      rewrite <- mmul_assoc, (proj1 Sr), mmul_1_r in Q.
      assert (B' : vnorm (vscal dt w) < PI) by now rewrite vnorm_scal.
      unfold resolved in T. fold epsA in T. rewrite <- rv_mat_line, rv_mat_quat in Q by exact T.
      assert (NT : vscal dt w = v0 \/ ~ tiny (vscal dt w)).
      { destruct T as [T|T]; [left|right].
        - apply Rmult_integral in T. destruct T as [T|T]; [lra|]. assert (vsq w = 0) by (rewrite <- vnorm_sq, T; ring).
          rewrite (vsq_0 w) by auto. apply vscal_v0.
        - rewrite <- vnorm_scal in T. unfold tiny. rewrite <- vnorm_sq. pose proof epsA_pos. nra. }
      destruct NT as [Z|NT].
      - rewrite Z in *. assert (T0 : tiny v0) by (unfold tiny; replace (vsq v0) with 0 by (u3; ring); pose proof epsA2_pos; lra).
        destruct (qrot_inj _ _ U (rv_quat_unit v0) Q) as [-> | ->]; [now apply quat_rv_small|].
        rewrite quat_rv_neg; [now apply quat_rv_small|]. rewrite (proj2 (rv_small v0 T0)). cbn. lra.
      - destruct (qrot_inj _ _ U (rv_quat_unit _) Q) as [-> | ->]; [now apply quat_rv_exp|].
        rewrite quat_rv_neg by now apply rv_quat_w. now apply quat_rv_exp. }
    assert (Wd : vdivr (vscal dt w) dt = w) by (clear -D; destruct w; unfold vdivr; u3; f_equal; field; exact D).
    rewrite Df in L.
    apply obind_Ok_inv in L as (am & M & L). apply obind_Ok_inv in L as (x1 & _ & L). apply obind_Ok_inv in L as ([x2 x3] & X & L).
    assert (X2 : x2 = Some w).
    { assert (am <> useVelAndAcc) by (revert M; unfold meth_acc; destruct (fAl f), (kw k), (kal k), (kal new); cbn; try destruct md; congruence).
      destruct am; try congruence; cbn [obind] in X; injection X as <- _; now rewrite Wd. }
    cbn [obind] in L. apply obind_Ok_inv in L as (x6 & _ & L). injection L as _ <- _. exact X2.
  - intros W W' N F3. split; [apply CW; congruence|]. unfold upd_ang in L. rewrite S, W, W', N, F3 in L.
    cbn [meth_pos meth_vel meth_acc andb isSome obind oget] in L.
    assert (A1 : vdivr (vsub (vadd w (vscal dt al)) w) dt = al) by (clear -D; destruct w, al; unfold vdivr; u3; f_equal; field; exact D).
    rewrite A1 in L. apply obind_Ok_inv in L as (pm & _ & L). apply obind_Ok_inv in L as (x & _ & L). injection L as _ _ <-. reflexivity.
Qed.
Print Assumptions C38_angular_exact.
(** K_a with a new velocity, a new orientation (a turn of 1 rad about z), nothing else. *)
Example C38_case : let new := mkK None (o_mat (mmul (rodrigues (vscal (1 / 2) (mkV 0 0 2))) (mkM 0 (-1) 0 1 0 0 0 0 1))) (Some (mkV 1 1 1)) None None None in
  coh (ko K_a) /\ coh (ko new) /\ 1 / 2 <> 0 /\ Rabs (1 / 2) * vnorm (mkV 0 0 2) < PI /\ resolved (1 / 2) (mkV 0 0 2) /\
  exists k', k_update Debug new (1 / 2) f_all K_a = Ok k'.
Proof.
  intros new. assert (N : vnorm (mkV 0 0 2) = 2).
  { unfold vnorm. replace (vsq (mkV 0 0 2)) with (2 * 2) by (u3; ring). apply sqrt_square. lra. }
  assert (C : coh (ko new)) by (apply coh_mat, so3_mul; [apply rodrigues_so3'|split; u3; [f_equal; ring|ring]]).
  split; [apply K_coh|]. split; [exact C|]. split; [lra|].
  unfold resolved. rewrite N, Rabs_pos_eq by lra. pose proof PI2_3_2. split; [lra|]. split; [lra|].
  destruct (C38_update_defined Debug new (1 / 2) f_all K_a) as (k' & E & _); [apply K_coh|exact C|cbn; auto 10|cbn; auto 10|eauto].
Qed.

(** C38, position from an acceleration alone: refuted, the code adds 2 a dt^2 (it divides by
    0.5) where the motion is a dt^2 / 2. *)
Theorem C38_position_from_acceleration_refuted : exists k dt k', kp k = Some v0 /\ kv k = None /\ ka k = Some ux /\
  k_update Debug k_empty dt (k_flags k) k = Ok k' /\ kp k' <> Some (vscal (dt * dt / 2) ux) /\ kp k' = Some (vscal (2 * dt * dt) ux).
Proof.
  exists (mkK (Some v0) o_empty None None (Some ux) None), 1, (mkK (Some (vscal 2 ux)) o_empty None None (Some ux) None).
  split; [reflexivity|]. split; [reflexivity|]. split; [reflexivity|]. split.
  - cbn. f_equal. f_equal. f_equal. u3. f_equal; field.
  - cbn [kp]. split; [|f_equal; u3; f_equal; ring]. intros X. injection X. u3. lra.
Qed.
Print Assumptions C38_position_from_acceleration_refuted.
(** C38, angular acceleration from two orientations: refuted. From rest with angular acceleration
    al, the next orientation is exp(al dt^2/2) R; the code computes -al. *)
Theorem C38_angular_acceleration_sign_refuted : exists k new dt al k', kw k = None /\ kal k = None /\ al <> v0 /\ dt <> 0 /\
  (exists r, rot (ko k) = Some r /\ rot (ko new) = Some (mmul (rodrigues (vscal (dt * dt / 2) al)) r)) /\
  kw new = None /\ kal new = None /\ k_update Debug new dt (mkF false true false false false true) k = Ok k' /\ kal k' = Some (vneg al).
Proof.
  set (al := mkV 0 0 2). set (m := rodrigues (vscal (1 * 1 / 2) al)).
  assert (Sm : so3 m) by apply rodrigues_so3'.
  set (k := with_ori k_empty (o_mat m1)). set (new := with_ori k_empty (o_mat m)).
  assert (Ck : coh (ko k)) by apply coh_mat, so3_1. assert (Cn : coh (ko new)) by now apply coh_mat.
  exists k, new, 1, al, (mkK None (o_mat m) None None None (Some (vneg al))).
  split; [reflexivity|]. split; [reflexivity|]. split; [unfold al; intros X; injection X; lra|]. split; [lra|].
  split; [exists m1; split; [reflexivity|cbn; now rewrite mmul_1_r]|]. split; [reflexivity|]. split; [reflexivity|]. split; [|reflexivity].
  assert (E0 : vscal (1 * 1 / 2) al = mkV 0 0 1) by (unfold al; u3; f_equal; field).
  assert (P1 : 1 < PI) by (pose proof PI2_3_2; lra).
  assert (NT : ~ tiny (vneg (mkV 0 0 1))).
  { unfold tiny. rewrite vsq_neg, <- vnorm_sq, vnorm_uz. pose proof epsA_pos. pose proof epsA_small. nra. }
  assert (NV : vnorm (vneg (mkV 0 0 1)) = 1) by (unfold vnorm; rewrite vsq_neg; exact vnorm_uz).
  assert (Df : o_diff Debug (ko new) (ko k) = Ok (vneg (mkV 0 0 1))).
  { destruct (diff_ok Debug (ko new) (ko k) m m1 Cn eq_refl Ck eq_refl) as (d & q & E & U & Q & ->). rewrite E. f_equal.
    rewrite mmul_1_l in Q. unfold m in Q. rewrite E0 in Q.
    rewrite <- rv_rodrigues in Q by (left; unfold tiny; rewrite <- vnorm_sq, vnorm_uz; pose proof epsA_pos; pose proof epsA_small; nra).
    rewrite <- rv_mat_neg, rv_mat_quat in Q.
    destruct (qrot_inj _ _ U (rv_quat_unit _) Q) as [-> | ->]; [apply quat_rv_exp; [exact NT|lra]|].
    rewrite quat_rv_neg by (apply rv_quat_w; [exact NT|lra]). apply quat_rv_exp; [exact NT|lra]. }
  unfold k_update, upd_lin, upd_ang. change (fP (mkF false true false false false true)) with false.
  cbn [fO fV fW fA fAl kp kv ka kw kal k new with_ori k_empty isSome obind meth_pos meth_vel meth_acc].
  change (ko (with_ori k_empty (o_mat m))) with (ko new). change (ko (with_ori k_empty (o_mat m1))) with (ko k).
  change (o_isSet (ko k)) with true. change (o_isSet (ko new)) with true. cbn [obind andb isSome boost_assert].
  rewrite Df. cbn [obind]. unfold vdivr, al. f_equal. f_equal. f_equal. u3. f_equal; field.
Qed.
Print Assumptions C38_angular_acceleration_sign_refuted.
(** C38, angular acceleration from an orientation and a velocity: refuted. A frame that stays at
    rest keeps a stale angular acceleration (the branch that should update it is never taken),
    while the linear part is updated. *)
Theorem C38_angular_acceleration_stale_refuted : exists k new dt k', rot (ko k) = Some m1 /\ kw k = Some v0 /\ kp k = Some v0 /\ kv k = Some v0 /\
  rot (ko new) = Some m1 /\ kp new = Some v0 /\ dt <> 0 /\ k_update Debug new dt f_all k = Ok k' /\
  kw k' = Some v0 /\ ka k' = Some v0 /\ kal k' = kal k /\ kal k' = Some (mkV 5 0 0).
Proof.
  set (k := mkK (Some v0) (o_mat m1) (Some v0) (Some v0) (Some (mkV 5 0 0)) (Some (mkV 5 0 0))).
  set (new := mkK (Some v0) (o_mat m1) None None None None).
  assert (Ck : coh (ko k)) by apply coh_mat, so3_1. assert (Cn : coh (ko new)) by apply coh_mat, so3_1.
  destruct (C38_update_defined Debug new 1 f_all k Ck Cn) as (k' & E & _); [cbn; auto 10|cbn; auto 10|].
  destruct (C38_linear_exact Debug new 1 f_all k k' v0 v0 v0) as (_ & _ & L & _); auto; try lra.
  destruct L as (_ & _ & L); auto; [cbn; f_equal; u3; f_equal; ring|].
  destruct (C38_angular_exact Debug new 1 f_all k k' m1 v0 v0) as (A & _); auto; try lra.
  destruct A as (_ & A); auto.
  { cbn. now rewrite vscal_v0, rodrigues_0, mmul_1_l. }
  { rewrite vnorm_v0. pose proof PI_RGT_0. lra. } { left. rewrite vnorm_v0. ring. }
  assert (B : kal k' = Some (mkV 5 0 0)).
  { destruct (upd_inv _ _ _ _ _ _ E) as [_ G]. unfold upd_ang in G. cbn [fO fW fAl kw kal ko k new f_all isSome] in G.
    change (o_isSet (o_mat m1)) with true in G. cbn [meth_pos meth_vel meth_acc andb obind isSome] in G.
    apply obind_Ok_inv in G as ([x1 x2] & X & G). apply obind_Ok_inv in X as (d & _ & X). injection X as <- <-. injection G as _ _ <-. reflexivity. }
  exists k, new, 1, k'. repeat (split; [first [assumption|reflexivity|lra]|]). exact B.
Qed.
Print Assumptions C38_angular_acceleration_stale_refuted.

(** C71: the product and the inverse of kinematics are the kinematics of the composed and of the
    inverse motion: if two frames move (differentiably) and the objects hold their kinematics at
    every instant, the composed position is R1 p2 + p1, the composed rotation R1 R2, and the
    velocities and accelerations computed are their derivatives. *)
Theorem C71_product_of_motions : forall md a b, is_motion a -> is_motion b ->
  exists c, is_motion c /\ (forall t, mp c t = vadd (mvec (mr a t) (mp b t)) (mp a t)) /\ (forall t, mr c t = mmul (mr a t) (mr b t)) /\
    forall t ka kb, holds ka a t -> holds kb b t ->
      exists k ka' kb', k_mul md ka kb = Ok (k, ka', kb') /\ holds k c t /\ holds ka' a t /\ holds kb' b t.
Proof.
  intros md a b Ma Mb. exists (mo_mul a b). split; [now apply mo_mul_motion|]. split; [reflexivity|]. split; [reflexivity|].
  intros t x y (Px & Cx & Rx & Vx & Wx & Ax & Lx) (Py & Cy & Ry & Vy & Wy & Ay & Ly).
  destruct (k_mul_ok md x y _ Cx Cy Rx) as (k & x' & y' & E & Ck & P & O & V & W & A & L & Cx' & Sx & Cy' & Sy); [left; congruence|].
  exists k, x', y'. split; [exact E|]. destruct Sx as (A1 & A2 & A3 & A4 & A5 & A6). destruct Sy as (B1 & B2 & B3 & B4 & B5 & B6).
  unfold holds. rewrite A1, A2, A3, A4, A5, A6, B1, B2, B3, B4, B5, B6, P, O, V, W, A, L, Px, Rx, Vx, Wx, Ax, Lx, Py, Ry, Vy, Wy, Ay, Ly.
  cbn [c_p c_o c_v c_w c_a c_l mp mr mv mw ma mal mo_mul]. auto 20.
Qed.
Print Assumptions C71_product_of_motions.
Theorem C71_inverse_of_motion : forall md a, is_motion a ->
  exists c, is_motion c /\ (forall t, mp c t = vneg (mvec (mtr (mr a t)) (mp a t))) /\ (forall t, mr c t = mtr (mr a t)) /\
    forall t k, holds k a t -> exists i, k_inv md k = Ok i /\ holds i c t.
Proof.
  intros md a Ma. exists (mo_inv a). split; [now apply mo_inv_motion|]. split; [reflexivity|]. split; [reflexivity|].
  intros t x (Px & Cx & Rx & Vx & Wx & Ax & Lx).
  destruct (k_inv_ok md x _ Cx Rx) as (i & E & Ci & P & O & V & W & A & L). exists i. split; [exact E|].
  unfold holds. rewrite P, O, V, W, A, L, Px, Vx, Wx, Ax, Lx. cbn [i_p i_w i_v i_l i_a option_map mp mr mv mw ma mal mo_inv]. auto 20.
Qed.
Print Assumptions C71_inverse_of_motion.
(** A falling, spinning frame is a motion. *)
Example C71_case : let m := mo_const (mkV 1 0 0) (mkV 0 1 0) (mkV 0 0 (-10)) m1 (mkV 0 0 2) in
  is_motion m /\ exists k, holds k m 0.
Proof.
  split; [apply mo_const_motion, so3_1|]. eexists (mkK _ (o_mat _) _ _ _ _). unfold holds. cbn [kp ko kv kw ka kal].
  split; [reflexivity|]. split; [|repeat split].
  apply coh_mat. cbn [mr mo_const]. apply so3_mul; [apply rodrigues_so3'|apply so3_1].
Qed.

(** C39, state vectors: invertState is an involution, is the getInverse of the same kinematics,
    and so composes to the identity with its argument (C29). *)
Definition of_state (s : KState) : Kin :=
  mkK (Some (sp s)) (o_vec (so s)) (Some (sv s)) (Some (sw s)) (Some (sa s)) (Some (sal s)).
Theorem C39_invert_state_involution : forall s, invert_state (invert_state s) = s.
Proof.
  intros [p o v w a l]. unfold invert_state. cbn [sp so sv sw sa sal]. rewrite vneg_neg, !skew_cross, !rv_mat_neg.
  pose proof (rv_mat_so3 o) as S. set (r := rv_mat o) in *. clearbody r. pose proof (so3_tr _ S) as St.
  assert (Ng : forall m x, mvec (mscal (-1) m) x = vneg (mvec m x)) by (clear; c3). rewrite !Ng.
  assert (T1 : forall v, mvec r (mvec (mtr r) v) = v) by (intros; now apply so3_vec_tr).
  rewrite <- ?mvec_neg, ?skew_cross, <- ?mvec_scal, !vsub_def, <- ?mvec_neg.
  rewrite <- !(so3_cross (mtr r)) by exact St.
  rewrite <- ?mvec_neg, <- ?mvec_scal, <- ?mvec_add, <- ?(so3_cross (mtr r)), <- ?mvec_neg, <- ?mvec_add by exact St.
  rewrite ?T1. f_equal; try (apply vneg_neg); try (clear; c3).
Qed.
Print Assumptions C39_invert_state_involution.
Theorem C39_invert_state_is_inverse : forall md s, exists i, k_inv md (of_state s) = Ok i /\ same_kin i (of_state (invert_state s)).
Proof.
  intros md s. destruct (k_inv_ok md (of_state s) (rv_mat (so s))) as (i & E & C & P & O & V & W & A & L).
  { apply coh_quat, rv_quat_unit. } { unfold rot. cbn. now rewrite rv_mat_quat. }
  exists i. split; [exact E|]. unfold same_kin. rewrite P, O, V, W, A, L. cbn [of_state kp kv kw ka kal ko i_p i_w i_v i_a i_l option_map].
  assert (Ng : forall m x, mvec (mscal (-1) m) x = vneg (mvec m x)) by (clear; c3).
  unfold invert_state. cbn [sp so sv sw sa sal]. rewrite !Ng, !skew_cross, !rv_mat_neg. 
  unfold rot, o_vec, o_quat. cbn [om oq]. rewrite <- rv_mat_quat, rv_mat_neg. auto 10.
Qed.
Print Assumptions C39_invert_state_is_inverse.
Example C39_state_case : let s := mkKS (mkV 1 2 3) (mkV 0 0 1) (mkV 4 5 6) (mkV 1 0 0) (mkV 0 1 0) (mkV 0 0 7) in
  coh (ko (of_state s)) /\ sv (invert_state s) <> sv s.
Proof.
  cbn. split; [apply coh_quat, rv_quat_unit|]. intros X. apply (f_equal vsq) in X. change (vsq (mvec (rv_mat (vneg (mkV 0 0 1))) (vsub (mvec (skew (mkV 1 0 0)) (mkV 1 2 3)) (mkV 4 5 6))) = vsq (mkV 4 5 6)) in X.
  rewrite so3_vsq in X by apply rv_mat_so3. u3. lra.
Qed.
