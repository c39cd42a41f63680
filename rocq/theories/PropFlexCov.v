(** Properties C124-C131: the covariance matrices of the flexibility estimators, over all
    histories of public calls from construction. *)
From Coq Require Import QArith List Bool Arith Lia.
From Verif Require Import Base Sensors FlexCov FlexCovProofs.
Import ListNotations.
Open Scope nat_scope.

(** C124. After any history, in both build modes: the measurement size of the filter and the size
    of R are 6, plus 6 per contact with force measurements, plus 6 with an absolute pose, for the
    contacts and flags last given; the filter has the R and Q that the estimator returns. *)
Theorem C124_filter_has_the_matrices :
  forall md ops s, v_hist md ops = Ok s ->
  let '(n, ft, ab) := fold_left (fun '(n, f, a) o => match o with
     | VContacts n' => (n', f, a) | VForces b => (n, b, a) | VAbs b => (n, f, b) | _ => (n, f, a) end)
     ops (0, false, false) in
  let m := 6 + (if ft then 6 * n else 0) + (if ab then 6 else 0) in
  v_km s = m /\ mr (v_R s) = m /\ v_kR s = Some (v_R s) /\ v_kQ s = v_Q s.
Proof.
  intros md ops s E. pose proof (v_hist_vinv _ _ _ E) as (H1 & H2 & H3 & H4).
  apply v_hist_split in E as (s0 & E0 & E).
  pose proof (v_new_vis _ _ E0) as K. apply v_new_facts in E0 as (V & _).
  pose proof (vis_run _ _ _ _ _ V K E) as Hv.
  assert (X : forall l p, fold_left (fun '(n, f, a) o => match o with
     | VContacts n' => (n', f, a) | VForces b => (n, b, a) | VAbs b => (n, f, b) | _ => (n, f, a) end) l p = fold_left vnext l p).
  { induction l as [|o l IH]; intros ((n, f), a); cbn [fold_left]; [reflexivity|]. rewrite IH. now destruct o. }
  rewrite X, Hv. unfold v_msize in *. rewrite H3, H2, H1. rewrite (Nat.mul_comm (v_nc s)). auto.
Qed.
Print Assumptions C124_filter_has_the_matrices.

Example C124_example : exists s,
  v_hist Debug [VContacts 2; VForces true; VAbs true; VNoiseR (m_scal 12 3%Q); VContacts 1; VNan; VForces false] = Ok s /\
  v_km s = 12.
Proof. apply ex_run. vm_compute. reflexivity. Qed.

(** C125. The 6x6 block of the IMU in the R in force is that of the last R given, or the default
    one if none was given since the construction or the last reset. *)
Theorem C125_imu_block_is_the_last_given :
  forall ops s, v_hist Debug ops = Ok s ->
  exists R, v_kR s = Some R /\ forall i j, i < 6 -> j < 6 ->
    me R i j = fold_left (fun f o => match o with
      | VNoiseR M => me M | VResetAll | VNan => default_RIMU | _ => f end) ops default_RIMU i j.
Proof.
  intros ops s E. pose proof (v_hist_vinv _ _ _ E) as (H1 & _). exists (v_R s). split; [exact H1|].
  apply v_hist_split in E as (s0 & E0 & E).
  pose proof (v_new_imu _ _ E0) as K. apply v_new_facts in E0 as (V & _).
  intros i j Hi Hj. apply (imu_run _ _ _ _ V K E i j Hi Hj).
Qed.
Print Assumptions C125_imu_block_is_the_last_given.

(** A 12x12 R given while only the IMU is used, then sensors and contacts switched: the block
    given is kept. *)
Example C125_example :
  in_force Debug [VNoiseR (m_scal 12 3%Q); VContacts 2; VForces true; VAbs true; VContacts 1; VForces false] 2 2 =
  Ok (12, Some 3%Q).
Proof. vm_compute. reflexivity. Qed.

(** The default block is not entirely written: before any R is given, the covariances between the
    accelerometer and the gyrometer that the filter uses are uninitialised. *)
Theorem C125_default_block_is_initialised_refuted : exists ops i j,
  forall md, i < 6 /\ j < 6 /\ in_force md ops i j = Ok (6, None).
Proof. exists [], 0, 3. intros md. split; [lia|]. split; [lia|]. destruct md; vm_compute; reflexivity. Qed.
Print Assumptions C125_default_block_is_initialised_refuted.

(** C126. No history of calls whose matrices have the documented sizes fails an assertion, as long
    as the force variance is not given as a 3x3 matrix. *)
Theorem C126_sized_calls_succeed_partial :
  forall ops,
  Forall (fun o => match o with
    | VNoiseR M => 0 < mr M /\ mr M mod 6 = 0
    | VNoiseQ M => mr M = 35
    | VForceVar3 _ => False
    | _ => True end) ops ->
  exists s, v_hist Debug ops = Ok s.
Proof.
  intros ops F. destruct v_new_ok as (s0 & E0 & V & K). destruct (v_run_ok ops s0 V K F) as (s & E).
  exists s. unfold v_hist. rewrite E0. exact E.
Qed.
Print Assumptions C126_sized_calls_succeed_partial.

Example C126_example :
  Forall (fun o => match o with
    | VNoiseR M => 0 < mr M /\ mr M mod 6 = 0
    | VNoiseQ M => mr M = 35
    | VForceVar3 _ => False
    | _ => True end)
  [VNoiseR (m_scal 24 1%Q); VContacts 2; VForces true; VNoiseQ (m_scal 35 1%Q); VForceVar 5; VAbs true; VNan].
Proof. repeat constructor. Qed.

(** setForceVariance(Matrix3) is public, but the blocks filled with it are 6x6: the next fill
    stops on Eigen's assertion, and is undefined in release builds. *)
Theorem C126_force_variance_3x3_refuted : exists f ops,
  v_hist Debug (VForceVar3 f :: ops) = AssertFail /\ v_hist Release (VForceVar3 f :: ops) = UB.
Proof. exists (f_scal q4), [VContacts 1; VForces true]. split; vm_compute; reflexivity. Qed.
Print Assumptions C126_force_variance_3x3_refuted.

(** C127. Force variance d given first; then any history without absolute pose in which neither R
    nor a variance is given and nothing is reset, with any switches of the force measurements and
    of the number of contacts: whenever the force measurements are on, every contact has the
    block d Id and is not correlated with the IMU. *)
Theorem C127_force_blocks_partial :
  forall md d ops s,
  Forall (fun o => match o with
    | VNoiseR _ | VForceVar _ | VForceVar3 _ | VAbsVar _ | VResetAll | VNan => False
    | VAbs b => b = false | _ => True end) ops ->
  v_hist md (VForceVar d :: ops) = Ok s -> v_ft s = true ->
  exists R, v_kR s = Some R /\ forall k a b, k < v_nc s -> a < 6 -> b < 6 ->
    me R (6 + 6 * k + a) (6 + 6 * k + b) = Some (if a =? b then d else 0%Q) /\
    me R (6 + 6 * k + a) b = Some 0%Q /\ me R b (6 + 6 * k + a) = Some 0%Q.
Proof.
  intros md d ops s F E Hf. pose proof (v_hist_vinv _ _ _ E) as (H1 & _). exists (v_R s). split; [exact H1|].
  apply v_hist_cons in E as (s0 & s1 & E0 & A & E). apply v_new_facts in E0 as (V & N1 & N2).
  pose proof (v_step_vinv _ _ _ _ V A) as V1.
  assert (K : finv (m_scal 6 d) s1).
  { cbn [v_step] in A. pose proof (v_update_frame _ _ _ A) as (_ & B & C & _ & _ & D & _).
    cbn [v_ft v_abs v_fv w_fv] in B, C, D.
    split; [congruence|]. split; [exact D|]. intros X. congruence. }
  assert (F' : Forall (fun o => leaves_R o /\ no_abs o) ops).
  { eapply Forall_impl; [|exact F]. intros [] X; cbn in *; tauto. }
  assert (R := run_inv (finv (m_scal 6 d)) (fun o => leaves_R o /\ no_abs o) md
    (fun o s s' h i '(conj p q) e => finv_step md (m_scal 6 d) o s s' h i p q e) ops s1 s V1 K F' E).
  destruct R as (_ & _ & G). intros k a b Hk Ha Hb. exact (G Hf k a b Hk Ha Hb).
Qed.
Print Assumptions C127_force_blocks_partial.

(** The same for the variance of the absolute pose, without force measurements. *)
Theorem C127_absolute_pose_block_partial :
  forall md d ops s,
  Forall (fun o => match o with
    | VNoiseR _ | VForceVar _ | VForceVar3 _ | VAbsVar _ | VResetAll | VNan => False
    | VForces b => b = false | _ => True end) ops ->
  v_hist md (VAbsVar d :: ops) = Ok s -> v_abs s = true ->
  exists R, v_kR s = Some R /\ forall a b, a < 6 -> b < 6 ->
    me R (6 + a) (6 + b) = Some (if a =? b then d else 0%Q) /\
    me R (6 + a) b = Some 0%Q /\ me R b (6 + a) = Some 0%Q.
Proof.
  intros md d ops s F E Hf. pose proof (v_hist_vinv _ _ _ E) as (H1 & _). exists (v_R s). split; [exact H1|].
  apply v_hist_cons in E as (s0 & s1 & E0 & A & E). apply v_new_facts in E0 as (V & N1 & N2).
  pose proof (v_step_vinv _ _ _ _ V A) as V1.
  assert (K : ainv d s1).
  { cbn [v_step] in A. pose proof (v_update_frame _ _ _ A) as (_ & B & C & _ & _ & _ & D & _).
    cbn [v_ft v_abs v_av w_av] in B, C, D.
    split; [congruence|]. split; [exact D|]. intros X. congruence. }
  assert (F' : Forall (fun o => leaves_R o /\ no_force o) ops).
  { eapply Forall_impl; [|exact F]. intros [] X; cbn in *; tauto. }
  assert (R := run_inv (ainv d) (fun o => leaves_R o /\ no_force o) md
    (fun o s s' h i '(conj p q) e => ainv_step md d o s s' h i p q e) ops s1 s V1 K F' E).
  destruct R as (_ & _ & G). intros a b Ha Hb. exact (G Hf a b Ha Hb).
Qed.
Print Assumptions C127_absolute_pose_block_partial.

Example C127_example :
  (exists s, v_hist Debug (VForceVar 5 :: [VContacts 2; VForces true; VContacts 1; VForces false; VContacts 3; VForces true]) = Ok s /\
     v_ft s = true /\ v_nc s = 3) /\
  (exists s, v_hist Debug (VAbsVar 5 :: [VContacts 2; VAbs true; VAbs false; VAbs true]) = Ok s /\ v_abs s = true).
Proof. split; apply ex_run; vm_compute; auto. Qed.

(** With several contacts the blocks between two contacts are never written. *)
Theorem C127_between_contacts_refuted : exists ops,
  forall md, in_force md ops 6 12 = Ok (18, None).
Proof. exists [VContacts 2; VForces true]. intros []; vm_compute; auto. Qed.
Print Assumptions C127_between_contacts_refuted.

(** Force measurements and absolute pose together: the pose enabled second has an uninitialised
    block; the forces enabled second get the variance of the pose, and the pose gets an
    uninitialised block; disabling the forces leaves their variance to the pose. *)
Theorem C127_both_sensors_refuted :
  (exists ops, forall md, in_force md ops 12 12 = Ok (18, None)) /\
  (exists d ops, forall md, in_force md (VAbsVar d :: VForceVar 5 :: ops ++ [VForces true]) 6 6 = Ok (18, Some d) /\
     in_force md (VAbsVar d :: VForceVar 5 :: ops ++ [VForces true]) 12 12 = Ok (18, None)) /\
  (exists d ops, forall md, in_force md (VAbsVar 5 :: VForceVar d :: ops ++ [VForces false]) 6 6 = Ok (12, Some d)).
Proof.
  split; [|split].
  - exists [VContacts 1; VForces true; VAbs true]. intros []; vm_compute; auto.
  - exists 7%Q, [VContacts 1; VAbs true]. intros []; vm_compute; auto.
  - exists 7%Q, [VContacts 1; VForces true; VAbs true]. intros []; vm_compute; auto.
Qed.
Print Assumptions C127_both_sensors_refuted.

(** C128. A variance given for the forces or for the absolute pose: it does not change the R in
    force, whatever the history. It is only used when R is next enlarged. *)
Theorem C128_variance_waits_for_a_resize :
  forall md ops o s s',
  match o with VForceVar _ | VForceVar3 _ | VAbsVar _ => True | _ => False end ->
  v_hist md ops = Ok s -> v_step md o s = Ok s' -> v_kR s' = v_kR s /\ v_R s' = v_R s.
Proof.
  intros md ops o s s' Ho E St. pose proof (v_hist_vinv _ _ _ E) as V.
  assert (G : exists s1, s' = s1 /\ v_kR s1 = v_kR s /\ v_R s1 = v_R s).
  { destruct o; try contradiction; cbn [v_step] in St; (eapply v_update_same in St; [|exact V]); eauto. }
  destruct G as (s1 & -> & A & B). auto.
Qed.
Print Assumptions C128_variance_waits_for_a_resize.

(** Hence a force variance given while the force measurements are in use has no effect. *)
Theorem C128_force_variance_takes_effect_refuted : exists ops d,
  forall md, in_force md (ops ++ [VForceVar d]) 6 6 = Ok (12, Some q4) /\ ~ (d == q4)%Q.
Proof.
  exists [VContacts 1; VForces true], 5%Q. intros md. split; [destruct md; vm_compute; reflexivity|]. unfold Qeq. cbn. lia.
Qed.
Print Assumptions C128_force_variance_takes_effect_refuted.

Example C128_example : exists s, v_hist Debug ([VContacts 1; VForces true; VAbs true] ++ [VAbsVar 3]) = Ok s /\ v_km s = 18.
Proof. apply ex_run. vm_compute. reflexivity. Qed.

(** C129. Component i is a bias of the centre of mass or a drift (30 to 34). In any history that
    gives no Q and resets nothing, with the estimation of these components switched on or off at
    any time, and estimations that leave row and column i of the covariance zero when they find
    it so (C123): row and column i of the process noise and of the covariance are still zero. *)
Theorem C129_enabled_bias_keeps_zero_noise :
  forall md i ops s, 30 <= i < 35 ->
  Forall (fun o => match o with
    | VNoiseQ _ | VResetAll | VNan => False
    | VEstimate P => forall j, j < 35 -> P i j = Some 0%Q /\ P j i = Some 0%Q
    | _ => True end) ops ->
  v_hist md ops = Ok s ->
  forall j, j < 35 ->
  me (v_kQ s) i j = Some 0%Q /\ me (v_kQ s) j i = Some 0%Q /\
  me (v_kP s) i j = Some 0%Q /\ me (v_kP s) j i = Some 0%Q.
Proof.
  intros md i ops s Hi F E. pose proof (v_hist_vinv _ _ _ E) as (_ & _ & _ & Hq).
  apply v_hist_split in E as (s0 & E0 & E).
  pose proof (v_new_qinv _ _ _ Hi E0) as K. apply v_new_facts in E0 as (V & _).
  assert (F' : Forall (leaves_Q i) ops). { eapply Forall_impl; [|exact F]. intros [] X; cbn in *; auto. }
  assert (R := run_inv (qinv i) (leaves_Q i) md
    (fun o s s' h k p e => qinv_step md i o s s' (proj1 Hi) h k p e) ops s0 s V K F' E).
  destruct R as (A & B). intros j Hj. rewrite Hq. destruct (A j Hj), (B j Hj). auto.
Qed.
Print Assumptions C129_enabled_bias_keeps_zero_noise.

(** Enabling the bias does not make it uncertain. *)
Theorem C129_enabled_bias_is_uncertain_refuted : exists ops s,
  v_hist Debug ops = Ok s /\ v_cb s = true /\ me (v_kQ s) 30 30 = Some 0%Q /\ me (v_kP s) 30 30 = Some 0%Q.
Proof. exists [VComBias true]. apply ex_run. vm_compute. auto. Qed.
Print Assumptions C129_enabled_bias_is_uncertain_refuted.

Example C129_example :
  Forall (fun o => match o with
    | VNoiseQ _ | VResetAll | VNan => False
    | VEstimate P => forall j, j < 35 -> P 30 j = Some 0%Q /\ P j 30 = Some 0%Q
    | _ => True end)
  [VComBias true; VAbs true; VEstimate (f_scal 0); VUnmodeledProc 3; VGuess; VResetP] /\
  exists s, v_hist Debug [VComBias true; VAbs true; VEstimate (f_scal 0); VUnmodeledProc 3; VGuess; VResetP] = Ok s /\ v_cb s = true.
Proof.
  split; [|apply ex_run; vm_compute; reflexivity]. repeat constructor; unfold f_scal; [destruct (30 =? j)|destruct (j =? 30)]; reflexivity.
Qed.

(** C130. A reset, called or caused by a NaN, after any history: R is the default block of the IMU
    and the identity elsewhere; Q is diagonal with the default variances, zero for the parts not
    enabled; the covariance is Q; sizes and flags are kept. *)
Theorem C130_reset_gives_the_defaults :
  forall md ops o s s', o = VResetAll \/ o = VNan ->
  v_hist md ops = Ok s -> v_step md o s = Ok s' ->
  (exists R, v_kR s' = Some R /\ mr R = v_km s /\ forall i j,
     me R i j = if (i <? 6) && (j <? 6) then default_RIMU i j else Some (if i =? j then 1%Q else 0%Q)) /\
  (forall i j, i < 35 -> j < 35 -> me (v_kQ s') i j = Some
     (if i =? j then
        if i <? 12 then q8 else if i <? 24 then q4 else
        if i <? 30 then (if v_uf s then q2 else 0%Q) else
        if i <? 32 then (if v_cb s then q25 else 0%Q) else if v_abs s then q8 else 0%Q
      else 0%Q)) /\
  v_kP s' = v_kQ s' /\ v_km s' = v_km s /\
  (v_nc s', v_ft s', v_abs s', v_cb s', v_uf s') = (v_nc s, v_ft s, v_abs s, v_cb s, v_uf s).
Proof.
  intros md ops o s s' Ho E St. pose proof (v_hist_vinv _ _ _ E) as (H1 & H2 & H3 & H4).
  assert (G : let R := reset_R (v_msize s) in let Q := reset_Q (v_uf s) (v_cb s) (v_abs s) in
    s' = mkF (v_nc s) (v_ft s) (v_abs s) (v_cb s) (v_uf s) R (v_fv s) (v_av s) Q Q (v_km s) (Some R) Q Q).
  { cbn zeta. destruct Ho as [-> | ->]; cbn [v_step] in St.
    - rewrite v_reset_eq in St by exact H3. cbn zeta in St. congruence.
    - apply obind_Ok_inv in St as (s1 & A & B). rewrite v_reset_eq in A by exact H3. cbn zeta in A.
      apply obind_Ok_inv in B as (u & _ & B). inversion A; subst s1. inversion B. reflexivity. }
  cbn zeta in G. subst s'. cbn [v_kR v_kQ v_kP v_km v_nc v_ft v_abs v_cb v_uf]. split.
  { eexists. split; [reflexivity|]. split; [exact (eq_sym H3)|]. intros i j. unfold reset_R. cbn [me].
    change (within 0 6 i) with (i <? 6). change (within 0 6 j) with (j <? 6). now rewrite !Nat.sub_0_r. }
  split; [|repeat split]. intros i j Hi Hj. unfold reset_Q. cbn [me default_Q].
  destruct (i =? j) eqn:Eij.
  - apply Nat.eqb_eq in Eij. subst j.
    destruct (i <? 12) eqn:L1; [apply Nat.ltb_lt in L1|apply Nat.ltb_ge in L1].
    { assert (A : within 32 3 i = false) by (apply within_false; lia). assert (B : within 30 2 i = false) by (apply within_false; lia).
      assert (C : within 24 6 i = false) by (apply within_false; lia). rewrite A, B, C. reflexivity. }
    destruct (i <? 24) eqn:L2; [apply Nat.ltb_lt in L2|apply Nat.ltb_ge in L2].
    { assert (A : within 32 3 i = false) by (apply within_false; lia). assert (B : within 30 2 i = false) by (apply within_false; lia).
      assert (C : within 24 6 i = false) by (apply within_false; lia). rewrite A, B, C. reflexivity. }
    destruct (i <? 30) eqn:L3; [apply Nat.ltb_lt in L3|apply Nat.ltb_ge in L3].
    { assert (A : within 32 3 i = false) by (apply within_false; lia). assert (B : within 30 2 i = false) by (apply within_false; lia).
      assert (C : within 24 6 i = true) by (apply within_spec; lia). rewrite A, B, C. cbn [andb].
      destruct (v_uf s); unfold f_scal, f_zero; rewrite ?Nat.eqb_refl; reflexivity. }
    destruct (i <? 32) eqn:L4; [apply Nat.ltb_lt in L4|apply Nat.ltb_ge in L4].
    { assert (A : within 32 3 i = false) by (apply within_false; lia). assert (B : within 30 2 i = true) by (apply within_spec; lia).
      rewrite A, B. cbn [andb]. destruct (v_cb s); unfold f_scal, f_zero; rewrite ?Nat.eqb_refl; reflexivity. }
    assert (A : within 32 3 i = true) by (apply within_spec; lia). rewrite A. cbn [andb].
    destruct (v_abs s); unfold f_scal, f_zero; rewrite ?Nat.eqb_refl; reflexivity.
  - apply Nat.eqb_neq in Eij.
    assert (S : forall k b c, k <= i -> k <= j -> (if b : bool then f_scal c else f_zero) (i - k) (j - k) = Some 0%Q).
    { intros k b c Hki Hkj. destruct b; [|reflexivity]. unfold f_scal.
      assert (N : i - k =? j - k = false) by (apply Nat.eqb_neq; lia). now rewrite N. }
    destruct (within 32 3 i && within 32 3 j) eqn:W.
    { apply andb_true_iff in W as [A B]. apply within_spec in A, B. apply S; lia. }
    destruct (within 30 2 i && within 30 2 j) eqn:W'.
    { apply andb_true_iff in W' as [A B]. apply within_spec in A, B. apply S; lia. }
    destruct (within 24 6 i && within 24 6 j) eqn:W''.
    { apply andb_true_iff in W'' as [A B]. apply within_spec in A, B. apply S; lia. }
    reflexivity.
Qed.
Print Assumptions C130_reset_gives_the_defaults.

(** In particular a NaN replaces the force variance by the identity. *)
Theorem C130_reset_keeps_force_variance_refuted : exists ops d,
  in_force Debug (VForceVar d :: ops) 6 6 = Ok (12, Some d) /\ ~ (d == 1)%Q /\
  in_force Debug (VForceVar d :: ops ++ [VNan]) 6 6 = Ok (12, Some 1%Q).
Proof.
  exists [VContacts 1; VForces true], 5%Q. split; [vm_compute; reflexivity|]. split; [|vm_compute; reflexivity]. unfold Qeq. cbn. lia.
Qed.
Print Assumptions C130_reset_keeps_force_variance_refuted.

Example C130_example : exists s, v_hist Debug ([VContacts 1; VForces true; VComBias true; VUnmodeled true] ++ [VNan]) = Ok s /\
  me (v_kQ s) 30 30 = Some q25 /\ me (v_kQ s) 32 32 = Some 0%Q.
Proof. apply ex_run. vm_compute. auto. Qed.

(** C131. The estimator with fixed contacts, after any history: the R in force is the R last given
    (1e-6 Id by default and after a reset) for the IMU, the virtual covariance last given (1e-10 by
    default) on the diagonal for the three rows of each contact, and zero elsewhere; the filter
    has the Q that the estimator returns. *)
Theorem C131_fixed_contact_covariances :
  forall md ops s, x_hist md ops = Ok s ->
  let RI := fold_left (fun f o => match o with XNoiseR M => me M | XResetAll | XNan => f_scal q6 | _ => f end)
     ops (f_scal q6) in
  let c := fold_left (fun c o => match o with XVirtual c' => c' | _ => c end) ops q10 in
  let n := fold_left (fun n o => match o with XContacts n' => n' | _ => n end) ops 0 in
  x_km s = 6 + 3 * n /\ x_kQ s = x_Q s /\
  exists R, x_kR s = Some R /\ mr R = 6 + 3 * n /\
    forall i j, me R i j = if (i <? 6) && (j <? 6) then RI i j else Some (if i =? j then c else 0%Q).
Proof.
  intros md ops s E. destruct (x_hist_inv _ _ _ E) as ((_ & H2 & H3 & R & H4 & H5 & H6) & K).
  assert (X : forall l f c n, fold_left xnext l (f, c, n) =
    (fold_left (fun f o => match o with XNoiseR M => me M | XResetAll | XNan => f_scal q6 | _ => f end) l f,
     fold_left (fun c o => match o with XVirtual c' => c' | _ => c end) l c,
     fold_left (fun n o => match o with XContacts n' => n' | _ => n end) l n)).
  { induction l as [|o l IH]; intros f c n; cbn [fold_left]; [reflexivity|]. rewrite <- IH. now destruct o. }
  rewrite X in K. cbn zeta. destruct K as (K1 & K2 & K3).
  rewrite <- K1, <- K2, <- K3. split; [exact H2|]. split; [exact H3|]. exists R. auto.
Qed.
Print Assumptions C131_fixed_contact_covariances.

(** Calls with matrices of the documented sizes never fail. *)
Theorem C131_fixed_contact_calls_succeed :
  forall ops,
  Forall (fun o => match o with XNoiseR M => mr M = 6 | XNoiseQ M => mr M = 18 | _ => True end) ops ->
  exists s, x_hist Debug ops = Ok s.
Proof.
  intros ops F. destruct (x_hist Debug []) as [s0| | |] eqn:E0; try discriminate E0.
  pose proof (x_hist_inv _ _ _ E0) as (H & _). unfold x_hist in *.
  apply obind_Ok_inv in E0 as (s1 & A & B). cbn [orun] in B. assert (s1 = s0) as -> by congruence. rewrite A. cbn [obind].
  apply x_run_ok; [exact H| |exact F].
  unfold x_new in A. apply obind_Ok_inv in A as (s2 & A & C). apply x_reset_inv in A; [|reflexivity|reflexivity].
  destruct A as (_ & _ & _ & D & _). inversion C. unfold xok. cbn. rewrite D. reflexivity.
Qed.
Print Assumptions C131_fixed_contact_calls_succeed.

(** The covariance of the state and the process noise after a reset, explicit or by a NaN. *)
Theorem C131_fixed_contact_reset :
  forall md ops o s, o = XResetAll \/ o = XNan -> x_hist md (ops ++ [o]) = Ok s ->
  mr (x_kP s) = 18 /\ mr (x_kQ s) = 18 /\
  forall i j, me (x_kP s) i j = Some (if i =? j then 1 # 100 else 0)%Q /\
    me (x_kQ s) i j = Some (if i =? j then if i <? 6 then 1 # 100000000
                            else if i <? 12 then 1 # 10000 else 1 # 100 else 0)%Q.
Proof.
  intros md ops o s Ho E. unfold x_hist in E. apply obind_Ok_inv in E as (s0 & _ & E).
  rewrite orun_app in E. apply obind_Ok_inv in E as (s1 & _ & E). cbn [orun] in E. apply obind_Ok_inv in E as (s2 & E & E2).
  assert (s2 = s) as -> by congruence.
  assert (E' : x_reset md s1 = Ok s) by (destruct Ho; subst o; exact E).
  unfold x_reset in E'. cbn zeta in E'. apply obind_Ok_inv in E' as (s3 & _ & E').
  match type of E' with Ok ?a = Ok ?b => assert (b = a) as -> by congruence end.
  cbn [x_kP x_kQ]. split; [reflexivity|]. split; [reflexivity|]. intros i j. split; reflexivity.
Qed.
Print Assumptions C131_fixed_contact_reset.

Example C131_example : exists s,
  x_hist Debug [XContacts 2; XVirtual 3; XNoiseR (m_scal 6 7%Q); XNan; XContacts 1] = Ok s /\ x_km s = 9.
Proof. apply ex_run. vm_compute. reflexivity. Qed.
