(** Properties C30 and C37: orientations. *)
From Coq Require Import Reals Lra Psatz List Bool PeanoNat.
From Verif Require Import Base Vec3 Rot SpecRot RotProofs RotProofs2 RotProofs3 Orient SpecOrient OrientProofs.
Import ListNotations.
Open Scope R_scope.

(** C30: every history of public calls that never uses an unset orientation runs without
    failure, in both build modes, and leaves every object with the rotation computed by the
    history of plain rotation matrices; the two representations, when both are present, agree. *)
Theorem C30_orientation_history : forall md ops a', Forall valid_op ops -> spec_run ops (fun _ => None) = Some a' ->
  exists s', orun (o_step md) ops (fun _ => o_empty) = Ok s' /\ forall i,
    (forall q m, oq (s' i) = Some q -> om (s' i) = Some m -> qrot q = m) /\
    (forall q, oq (s' i) = Some q -> qn2 q = 1 /\ a' i = Some (qrot q)) /\
    (forall m, om (s' i) = Some m -> mmul m (mtr m) = m1 /\ mdet m = 1 /\ a' i = Some m) /\
    (o_isSet (s' i) = true <-> a' i <> None).
Proof.
  intros md ops a' V E.
  destruct (run_ok md ops (fun _ => o_empty) (fun _ => None) a' V) as (s' & Es & H); auto.
  { intros i; split; [apply coh_empty|reflexivity]. }
  exists s'. split; [exact Es|]. intros i. destruct (H i) as [(A & B & C) D]. rewrite <- D.
  split; [exact C|]. unfold rot, o_isSet. destruct (s' i) as [[q|] [m|]]; cbn in *.
  - pose proof (C q m eq_refl eq_refl) as X. destruct (B m eq_refl). split; [|split; [|split; [discriminate|reflexivity]]].
    + intros ? Y; injection Y as <-. split; [auto|now rewrite X].
    + intros ? Y; injection Y as <-. auto.
  - split; [|split; [discriminate|split; [discriminate|reflexivity]]]. intros ? Y; injection Y as <-. auto.
  - destruct (B m eq_refl). split; [discriminate|split; [|split; [discriminate|reflexivity]]]. intros ? Y; injection Y as <-. auto.
  - split; [discriminate|split; [discriminate|split; [discriminate|]]]. congruence.
Qed.
Print Assumptions C30_orientation_history.
(** C30: in debug builds, a history that uses an unset orientation is rejected. *)
Theorem C30_unset_orientation_rejected : forall ops, Forall valid_op ops -> spec_run ops (fun _ => None) = None ->
  forall s', orun (o_step Debug) ops (fun _ => o_empty) <> Ok s'.
Proof.
  intros ops V E. apply (run_fails ops _ (fun _ => None)); auto. intros i; split; [apply coh_empty|reflexivity].
Qed.
Print Assumptions C30_unset_orientation_rejected.
(** C30, reading: whatever representation is stored, the matrix, the quaternion, the rotation
    vector, the angle-axis and the rotated vectors read are those of the rotation, and reading
    does not change it. *)
Theorem C30_reading_preserves_rotation : forall md o m, coh o -> rot o = Some m ->
  (exists o', o_toMat md o = Ok (m, o') /\ coh o' /\ rot o' = Some m) /\
  (exists q o', o_toQuat md o = Ok (q, o') /\ coh o' /\ rot o' = Some m /\ qn2 q = 1 /\ qrot q = m) /\
  (exists v, o_toVec md o = Ok v /\ rodrigues v = m /\ vnorm v <= PI) /\
  (exists t u, o_toAA md o = Ok (t, u) /\ vsq u = 1 /\ rodrigues (vscal t u) = m) /\
  (forall v, exists o', o_rot md o v = Ok (mvec m v, o') /\ coh o' /\ rot o' = Some m) /\
  (exists o', o_sync md o = Ok o' /\ coh o' /\ rot o' = Some m /\ oq o' <> None /\ om o' <> None).
Proof.
  intros md o m H R. split; [now apply toMat_ok|]. split; [now apply toQuat_ok|]. split; [|split; [|split]].
  - destruct (toVec_ok md o m H R) as (v & q & E & U & Q & V). exists v. split; [exact E|].
    destruct (quat_rv_norm q U) as [N B]. destruct (quat_aa_ok q U) as [A1 A2]. rewrite V. split.
    + unfold quat_rv. rewrite <- aa_rodrigues by exact A1. now rewrite <- surjective_pairing, A2.
    + rewrite N; lra.
  - destruct (toAA_ok md o m H R) as ([t u] & E & U & A). exists t, u. split; [exact E|]. split; [exact U|].
    now rewrite <- aa_rodrigues.
  - intros v. destruct (toMat_ok md o m H R) as (o' & E & A & B). exists o'. unfold o_rot. rewrite E. auto.
  - destruct (sync_ok md o m H R) as (p & E & A & B & C & D). exists p. split; [exact E|]. split; [exact A|]. split; [exact B|].
    destruct (oq p), (om p); try discriminate. split; discriminate.
Qed.
Print Assumptions C30_reading_preserves_rotation.
(** A history mixing representations: a quaternion, a matrix, their product, its inverse, an
    integration, readings. *)
Example C30_case : let ops := [OQuat 0 q1; OMat 1 (mkM 0 (-1) 0 1 0 0 0 0 1); OMul 2 0 1; OReadQuat 2; OInv 3 2; OInteg 3 (mkV 0 0 1);
                              ORotate 0 (mkV 1 2 3); OSetProd 4 3 0; OReset 0; ODiff 2 4] in
  Forall valid_op ops /\ spec_run ops (fun _ => None) <> None /\
  Forall valid_op (ops ++ [OInv 1 0]) /\ spec_run (ops ++ [OInv 1 0]) (fun _ => None) = None.
Proof.
  assert (S : mmul (mkM 0 (-1) 0 1 0 0 0 0 1) (mtr (mkM 0 (-1) 0 1 0 0 0 0 1)) = m1 /\ mdet (mkM 0 (-1) 0 1 0 0 0 0 1) = 1)
    by (split; u3; [f_equal; ring|ring]).
  assert (U : qn2 q1 = 1) by apply qn2_1.
  split; [repeat constructor; auto; apply S|]. split; [cbn; discriminate|]. split; [repeat constructor; auto; apply S|reflexivity].
Qed.

(** C37: differentiating against the integral returns the increment. *)
Theorem C37_differentiate_inverts_integrate : forall md o v, coh o -> rot o <> None -> vnorm v < PI ->
  exists o', o_integrate md v o = Ok o' /\ coh o' /\
    (/ 10000000000000000 < vnorm v -> o_diff md o o' = Ok v) /\
    (vnorm v <= / 10000000000000000 -> o_diff md o o' = Ok v0).
Proof.
  intros md o v H R B. destruct (rot o) as [m|] eqn:E; [|congruence]. clear R.
  destruct (integrate_ok md v o m H E) as (o' & Ei & Ho & Ro). exists o'. split; [exact Ei|]. split; [exact Ho|].
  destruct (diff_ok md o o' m _ H E Ho Ro) as (w & q & Ed & U & Q & ->).
  assert (Sm : so3 m) by (apply (coh_so3 o m H E)).
  rewrite <- mmul_assoc, (proj1 Sm), mmul_1_r, rv_mat_quat in Q.
  pose proof (qrot_inj _ _ U (rv_quat_unit v) Q) as C. pose proof (vnorm_sq v) as N. pose proof (vnorm_pos v) as P.
  fold epsA. pose proof epsA_pos as PA. split; intros T.
  - assert (T' : ~ tiny v) by (unfold tiny; nra). rewrite Ed. f_equal.
    destruct C as [-> | ->]; [now apply quat_rv_exp|]. rewrite quat_rv_neg by now apply rv_quat_w. now apply quat_rv_exp.
  - assert (T' : tiny v) by (unfold tiny; nra). rewrite Ed. f_equal.
    destruct C as [-> | ->]; [now apply quat_rv_small|]. rewrite quat_rv_neg; [now apply quat_rv_small|].
    rewrite (proj2 (rv_small v T')). cbn. lra.
Qed.
Print Assumptions C37_differentiate_inverts_integrate.
(** C37: integrating the difference restores the target orientation, except when the difference
    is below 1e-16 rad without being zero (the code then rotates by nothing). The difference is
    the rotation vector of R_k1 * R_k^-1, of norm at most pi. *)
Theorem C37_integrate_difference_restores : forall md o k1 m n, coh o -> rot o = Some m -> coh k1 -> rot k1 = Some n ->
  exists v, o_diff md o k1 = Ok v /\ vnorm v <= PI /\ rodrigues v = mmul n (mtr m) /\
    exists o', o_integrate md v o = Ok o' /\ coh o' /\
      (v = v0 \/ / 10000000000000000 < vnorm v -> rot o' = Some n).
Proof.
  intros md o k1 m n H R H1 R1. destruct (diff_ok md o k1 m n H R H1 R1) as (v & q & E & U & Q & ->).
  exists (quat_rv q). split; [exact E|]. destruct (quat_rv_norm q U) as [N B]. destruct (quat_aa_ok q U) as [A1 A2].
  assert (RQ : rodrigues (quat_rv q) = qrot q).
  { unfold quat_rv. rewrite <- aa_rodrigues by exact A1. now rewrite <- surjective_pairing, A2. }
  split; [rewrite N; lra|]. split; [now rewrite RQ|].
  destruct (integrate_ok md (quat_rv q) o m H R) as (o' & Ei & Ho & Ro). exists o'. split; [exact Ei|]. split; [exact Ho|].
  intros C. rewrite Ro. f_equal. rewrite rv_rodrigues, RQ, Q, <- mmul_assoc.
  - rewrite so3_tr_mul, mmul_1_r; [reflexivity|]. apply (coh_so3 o m H R).
  - destruct C as [C|C]; [now right|left]. fold epsA in C. unfold tiny. rewrite <- vnorm_sq. pose proof epsA_pos. nra.
Qed.
Print Assumptions C37_integrate_difference_restores.
Example C37_case : coh (o_mat (mkM 0 (-1) 0 1 0 0 0 0 1)) /\ rot (o_mat (mkM 0 (-1) 0 1 0 0 0 0 1)) <> None /\
  coh (o_quat q1) /\ rot (o_quat q1) = Some m1 /\ / 10000000000000000 < vnorm (mkV 0 1 0) < PI.
Proof.
  split; [apply coh_mat; split; u3; [f_equal; ring|ring]|]. split; [discriminate|]. split; [apply coh_quat, qn2_1|].
  split; [unfold rot; cbn; now rewrite <- qrot_1|]. unfold vnorm. replace (vsq (mkV 0 1 0)) with 1 by (u3; ring). rewrite sqrt_1.
  pose proof PI2_3_2. lra.
Qed.
(** C37, read literally (log of this^-1 * R_k1, as the header says): refuted, the code
    returns the log of R_k1 * this^-1, consistent with integrate(). *)
Theorem C37_documented_difference_refuted : exists o k1 m n v, coh o /\ rot o = Some m /\ coh k1 /\ rot k1 = Some n /\
  o_diff Debug o k1 = Ok v /\ rodrigues v <> mmul (mtr m) n.
Proof.
  set (m := mkM 0 (-1) 0 1 0 0 0 0 1). set (n := mkM 1 0 0 0 0 (-1) 0 1 0).
  assert (Sm : so3 m) by (split; unfold m; u3; [f_equal; ring|ring]).
  assert (Sn : so3 n) by (split; unfold n; u3; [f_equal; ring|ring]).
  destruct (C37_integrate_difference_restores Debug (o_mat m) (o_mat n) m n (coh_mat m Sm) eq_refl (coh_mat n Sn) eq_refl)
    as (v & E & _ & Rv & _).
  exists (o_mat m), (o_mat n), m, n, v. split; [now apply coh_mat|]. split; [reflexivity|]. split; [now apply coh_mat|].
  split; [reflexivity|]. split; [exact E|]. rewrite Rv. unfold m, n; u3. intros X; injection X; lra.
Qed.
Print Assumptions C37_documented_difference_refuted.
