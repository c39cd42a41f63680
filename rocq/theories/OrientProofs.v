(** Proofs about Orientation. *)
From Coq Require Import Reals Lra Psatz List Bool PeanoNat.
From Verif Require Import Base Vec3 Rot SpecRot RotProofs RotProofs2 RotProofs3 Orient SpecOrient.
Import ListNotations.
Open Scope R_scope.

Ltac coh_split := split; [|split]; cbn; intros; repeat match goal with H : Some _ = Some _ |- _ => injection H as <- end; try discriminate.
Lemma coh_quat q : qn2 q = 1 -> coh (o_quat q). Proof. intros H; coh_split; auto. Qed.
Lemma coh_mat m : so3 m -> coh (o_mat m). Proof. intros H; coh_split; auto. Qed.
Lemma coh_both q m : qn2 q = 1 -> qrot q = m -> coh (o_both q m).
Proof. intros H <-; coh_split; auto; now apply qrot_so3. Qed.
Lemma coh_empty : coh o_empty. Proof. coh_split. Qed.
Lemma coh_so3 o m : coh o -> rot o = Some m -> so3 m.
Proof.
  intros (A & B & C). unfold rot. destruct (om o) as [x|] eqn:E.
  - intros H; injection H as <-; now apply B.
  - destruct (oq o) as [q|] eqn:F; [|discriminate]. intros H; injection H as <-. apply qrot_so3; auto.
Qed.
(** Cases of a coherent set orientation. *)
Lemma coh_cases o m : coh o -> rot o = Some m ->
  so3 m /\ (exists q, qn2 q = 1 /\ qrot q = m /\ (o = mkO (Some q) (Some m) \/ o = mkO (Some q) None)) \/ so3 m /\ o = mkO None (Some m).
Proof.
  intros H R. pose proof (coh_so3 o m H R) as S. destruct H as (A & B & C). destruct o as [[q|] [x|]]; cbn in *; unfold rot in R; cbn in R.
  - injection R as <-. left. split; [auto|]. exists q. auto.
  - injection R as <-. left. split; [auto|]. exists q. auto.
  - injection R as <-. right. auto.
  - discriminate.
Qed.
Ltac cases H := let S := fresh "S" in let q := fresh "q" in let U := fresh "U" in let E := fresh "E" in
  destruct H as [[S (q & U & E & [-> | ->])] | [S ->]].

Lemma toMat_ok md o m : coh o -> rot o = Some m ->
  exists o', o_toMat md o = Ok (m, o') /\ coh o' /\ rot o' = Some m.
Proof.
  intros H R. pose proof (coh_cases o m H R) as C. cases C; cbn.
  - eexists; split; [reflexivity|]; auto.
  - rewrite E. eexists; split; [reflexivity|]. split; [now apply coh_both|reflexivity].
  - eexists; split; [reflexivity|]; auto.
Qed.
Lemma toQuat_ok md o m : coh o -> rot o = Some m ->
  exists q o', o_toQuat md o = Ok (q, o') /\ coh o' /\ rot o' = Some m /\ qn2 q = 1 /\ qrot q = m.
Proof.
  intros H R. pose proof (coh_cases o m H R) as C. cases C; cbn.
  - exists q. eexists; split; [reflexivity|]; auto.
  - exists q. eexists; split; [reflexivity|]; auto.
  - destruct (mat_quat_ok m S) as [U E]. exists (mat_quat m). eexists; split; [reflexivity|].
    split; [now apply coh_both|auto].
Qed.
Lemma toVec_ok md o m : coh o -> rot o = Some m ->
  exists v q, o_toVec md o = Ok v /\ qn2 q = 1 /\ qrot q = m /\ v = quat_rv q.
Proof.
  intros H R. pose proof (coh_cases o m H R) as C. cases C; cbn.
  - exists (quat_rv q), q; auto.
  - exists (quat_rv q), q; auto.
  - destruct (mat_quat_ok m S) as [U E]. exists (mat_rv m), (mat_quat m). auto.
Qed.
Lemma quat_aa_ok q : qn2 q = 1 -> vsq (snd (quat_aa q)) = 1 /\ aa_mat (quat_aa q) = qrot q.
Proof.
  intros H. pose proof (qn_split q H) as E. unfold quat_aa. set (n := vnorm (qvec q)).
  assert (N : 0 <= n) by apply vnorm_pos.
  assert (E2 : n * n = vsq (qvec q)) by (unfold n; apply vnorm_sq).
  destruct (Req_EM_T n 0) as [Z|Z]; cbn [fst snd].
  - split; [apply vsq_ux|]. rewrite aa_mat_0. assert (V : vsq (qvec q) = 0) by (rewrite <- E2, Z; ring).
    apply vsq_0 in V. destruct q; u3. injection V; intros; subst. f_equal; ring.
  - set (s := if Rlt_dec (qw q) 0 then - n else n).
    assert (S2 : s * s = n * n) by (unfold s; destruct (Rlt_dec _ _); ring).
    assert (S0 : s <> 0) by (unfold s; destruct (Rlt_dec _ _); lra).
    assert (U : vsq (vscal (/ s) (qvec q)) = 1).
    { rewrite vsq_scal, <- E2, <- S2. field; exact S0. }
    split; [exact U|]. rewrite aa_mat_quat by exact U. unfold aa_quat.
    set (a := atan2 n (Rabs (qw q))). replace (2 * a / 2) with a by lra.
    assert (R1 : Rabs (qw q) * Rabs (qw q) + n * n = 1).
    { assert (Rabs (qw q) * Rabs (qw q) = qw q * qw q) by (unfold Rabs; destruct (Rcase_abs _); ring). lra. }
    destruct (atan2_sc n (Rabs (qw q))) as (_ & Ec & Es); [lra|]. fold a in Ec, Es.
    rewrite R1, sqrt_1 in Ec, Es. unfold Rdiv in Ec, Es. rewrite Rinv_1, Rmult_1_r in Ec, Es.
    rewrite Ec, Es. unfold s, Rabs. destruct (Rcase_abs (qw q)), (Rlt_dec (qw q) 0); try lra.
    + rewrite <- (qrot_neg q). f_equal. destruct q as [w x y z]; cbn in *; unfold qneg, vscal, qvec; cbn. f_equal; field; lra.
    + f_equal. destruct q as [w x y z]; cbn in *; unfold vscal, qvec; cbn. f_equal; field; lra.
Qed.
Lemma toAA_ok md o m : coh o -> rot o = Some m -> exists a, o_toAA md o = Ok a /\ vsq (snd a) = 1 /\ aa_mat a = m.
Proof.
  intros H R. pose proof (coh_cases o m H R) as C. cases C; cbn.
  - exists (mat_aa m). destruct (mat_quat_ok m S) as [U' E']. destruct (quat_aa_ok _ U') as [A B]. unfold mat_aa. rewrite E' in B. auto.
  - exists (quat_aa q). destruct (quat_aa_ok _ U). rewrite <- E. auto.
  - exists (mat_aa m). destruct (mat_quat_ok m S) as [U' E']. destruct (quat_aa_ok _ U') as [A B]. unfold mat_aa. rewrite E' in B. auto.
Qed.
Lemma mul_ok md a b ma mb : coh a -> rot a = Some ma -> coh b -> rot b = Some mb ->
  exists p a' b', o_mul md a b = Ok (p, a', b') /\ coh p /\ rot p = Some (mmul ma mb) /\
    coh a' /\ rot a' = Some ma /\ coh b' /\ rot b' = Some mb.
Proof.
  intros Ha Ra Hb Rb. pose proof (coh_cases a ma Ha Ra) as Ca. pose proof (coh_cases b mb Hb Rb) as Cb.
  pose proof (coh_so3 _ _ Ha Ra) as Sa. pose proof (coh_so3 _ _ Hb Rb) as Sb.
  cases Ca; cases Cb; cbn.
  all: try match goal with |- context [qmul ?x ?y] =>
    assert (QU : qn2 (qmul x y) = 1) by (rewrite qn2_mul; nra);
    assert (QR : qrot (qmul x y) = mmul ma mb) by (rewrite qrot_mul by auto; congruence) end.
  all: do 3 eexists; split; [reflexivity|]; rewrite ?E, ?E0; repeat apply conj; auto.
  all: try (now apply coh_both); try (now apply coh_quat); try (now apply coh_mat); try (now apply coh_mat, so3_mul).
  all: try (now unfold rot; cbn; rewrite ?QR, ?E, ?E0).
Qed.
Lemma inv_ok md o m : coh o -> rot o = Some m -> exists p, o_inv md o = Ok p /\ coh p /\ rot p = Some (mtr m).
Proof.
  intros H R. pose proof (coh_cases o m H R) as C. cases C; cbn; eexists; (split; [reflexivity|]);
    rewrite ?(qinv_unit q U).
  - split; [apply coh_both; [now rewrite qn2_conj|now rewrite qrot_conj, E]|reflexivity].
  - split; [apply coh_quat; now rewrite qn2_conj|]. unfold rot; cbn. now rewrite qrot_conj, E.
  - split; [now apply coh_mat, so3_tr|reflexivity].
Qed.
Lemma integrate_ok md v o m : coh o -> rot o = Some m ->
  exists p, o_integrate md v o = Ok p /\ coh p /\ rot p = Some (mmul (rv_mat v) m).
Proof.
  intros H R. pose proof (coh_cases o m H R) as C. pose proof (rv_quat_unit v) as V.
  cases C; cbn; eexists; (split; [reflexivity|]); rewrite ?rv_mat_quat.
  - split; [apply coh_both; [rewrite qn2_mul; nra|rewrite qrot_mul, E; auto]|reflexivity].
  - split; [apply coh_quat; rewrite qn2_mul; nra|]. unfold rot; cbn. rewrite qrot_mul, E; auto.
  - rewrite <- rv_mat_quat. split; [apply coh_mat, so3_mul; auto using rv_mat_so3|reflexivity].
Qed.
Lemma sync_ok md o m : coh o -> rot o = Some m ->
  exists p, o_sync md o = Ok p /\ coh p /\ rot p = Some m /\ isSome (oq p) = true /\ isSome (om p) = true.
Proof.
  intros H R. pose proof (coh_cases o m H R) as C. cases C; cbn.
  - eexists; split; [reflexivity|]; auto.
  - rewrite E. eexists; split; [reflexivity|]. split; [now apply coh_both|]. auto.
  - destruct (mat_quat_ok m S) as [U E]. eexists; split; [reflexivity|]. split; [now apply coh_both|]. auto.
Qed.
Lemma unset_fails o : rot o = None -> o = o_empty.
Proof. destruct o as [[q|] [m|]]; cbn; unfold rot; cbn; try discriminate; reflexivity. Qed.
(** Differentiation: the logarithm of the relative rotation. *)
Lemma diff_ok md o k1 m n : coh o -> rot o = Some m -> coh k1 -> rot k1 = Some n ->
  exists v q, o_diff md o k1 = Ok v /\ qn2 q = 1 /\ qrot q = mmul n (mtr m) /\ v = quat_rv q.
Proof.
  intros Ho Ro Hk Rk. destruct (inv_ok md o m Ho Ro) as (i & Ei & Hi & Ri).
  destruct (mul_ok md k1 i n (mtr m) Hk Rk Hi Ri) as (p & a & b & Ep & Hp & Rp & _).
  destruct (toVec_ok md p _ Hp Rp) as (v & q & Ev & U & Q & V).
  exists v, q. split; [|auto]. unfold o_diff. rewrite Ei.
  assert (o_check md o = Ok tt) as -> by (destruct o as [[?|] [?|]]; cbn; auto; discriminate Ro).
  cbn [obind]. rewrite Ep. cbn [obind]. exact Ev.
Qed.

(** ** Histories *)
Definition repr (s : store) (a : rots) : Prop := forall i, coh (s i) /\ rot (s i) = a i.
Lemma repr_put s a i o m : repr s a -> coh o -> rot o = m -> repr (put s i o) (sput a i m).
Proof. intros H A B j. unfold put, sput. destruct (Nat.eqb j i); auto. Qed.
Lemma repr_put_same s a i o m : repr s a -> a i = m -> coh o -> rot o = m -> repr (put s i o) a.
Proof. intros H E A B j. unfold put. destruct (Nat.eqb_spec j i); [subst; auto|auto]. Qed.

Lemma step_ok md op s a a' : valid_op op -> repr s a -> spec_step op a = Some a' ->
  exists s', o_step md op s = Ok s' /\ repr s' a'.
Proof.
  intros V H. destruct op; cbn in *.
  1-10: intros E; injection E as <-; eexists; (split; [reflexivity|]); apply repr_put; auto.
  all: try (now apply coh_quat); try (now apply coh_mat); try apply coh_empty; try reflexivity.
  all: try (now apply coh_quat, rv_quat_unit); try (now apply coh_quat, rpy_quat_unit).
  all: try (unfold rot; cbn; now rewrite <- ?rv_mat_quat, ?qrot_1).
  all: try (now apply H).
  all: try (apply coh_quat, qn2_1); try (apply coh_mat, so3_1).
  - destruct a0 as [t u]. now apply coh_quat, aa_quat_unit.
  - destruct a0 as [t u]. unfold rot; cbn -[aa_mat aa_quat]. now rewrite <- aa_mat_quat.
  - exact (f_equal Some (rpy_mat_eq r p y)).
  - destruct V; now apply coh_both.
  - destruct (a j) as [mj|] eqn:Ej; [|discriminate]. destruct (a k) as [mk|] eqn:Ek; [|discriminate].
    intros E; injection E as <-. destruct (H j) as [Hj Rj], (H k) as [Hk Rk]. rewrite Ej in Rj. rewrite Ek in Rk.
    destruct (mul_ok md _ _ _ _ Hj Rj Hk Rk) as (p & x & y & -> & P1 & P2 & P3 & P4 & P5 & P6). cbn.
    eexists; split; [reflexivity|]. apply repr_put; auto. eapply repr_put_same; eauto. eapply repr_put_same; eauto.
  - destruct (Nat.eqb i j || Nat.eqb i k); [discriminate|].
    destruct (a j) as [mj|] eqn:Ej; [|discriminate]. destruct (a k) as [mk|] eqn:Ek; [|discriminate].
    intros E; injection E as <-. destruct (H j) as [Hj Rj], (H k) as [Hk Rk]. rewrite Ej in Rj. rewrite Ek in Rk.
    destruct (mul_ok md _ _ _ _ Hj Rj Hk Rk) as (p & x & y & -> & P1 & P2 & P3 & P4 & P5 & P6). cbn.
    eexists; split; [reflexivity|]. apply repr_put; auto. eapply repr_put_same; eauto. eapply repr_put_same; eauto.
  - destruct (a j) as [mj|] eqn:Ej; [|discriminate]. intros E; injection E as <-. destruct (H j) as [Hj Rj]. rewrite Ej in Rj.
    destruct (inv_ok md _ _ Hj Rj) as (p & -> & P1 & P2). cbn. eexists; split; [reflexivity|]. apply repr_put; auto.
  - destruct (a i) as [mi|] eqn:Ei; [|discriminate]. intros E; injection E as <-. destruct (H i) as [Hi Ri]. rewrite Ei in Ri.
    destruct (integrate_ok md v _ _ Hi Ri) as (p & -> & P1 & P2). cbn. eexists; split; [reflexivity|]. apply repr_put; auto.
  - destruct (a i) as [mi|] eqn:Ei; [|discriminate]. intros E; injection E as <-. destruct (H i) as [Hi Ri]. rewrite Ei in Ri.
    destruct (sync_ok md _ _ Hi Ri) as (p & -> & P1 & P2 & _). cbn. eexists; split; [reflexivity|]. eapply repr_put_same; eauto.
  - destruct (a i) as [mi|] eqn:Ei; [|discriminate]. intros E; injection E as <-. destruct (H i) as [Hi Ri]. rewrite Ei in Ri.
    destruct (toMat_ok md _ _ Hi Ri) as (p & -> & P1 & P2). cbn. eexists; split; [reflexivity|]. eapply repr_put_same; eauto.
  - destruct (a i) as [mi|] eqn:Ei; [|discriminate]. intros E; injection E as <-. destruct (H i) as [Hi Ri]. rewrite Ei in Ri.
    destruct (toQuat_ok md _ _ Hi Ri) as (q & p & -> & P1 & P2 & _). cbn. eexists; split; [reflexivity|]. eapply repr_put_same; eauto.
  - destruct (a i) as [mi|] eqn:Ei; [|discriminate]. intros E; injection E as <-. destruct (H i) as [Hi Ri]. rewrite Ei in Ri.
    destruct (toVec_ok md _ _ Hi Ri) as (v & q & -> & _). cbn. eexists; split; [reflexivity|]. auto.
  - destruct (a i) as [mi|] eqn:Ei; [|discriminate]. intros E; injection E as <-. destruct (H i) as [Hi Ri]. rewrite Ei in Ri.
    unfold o_toRPY. destruct (toMat_ok md _ _ Hi Ri) as (p & -> & P1 & P2). cbn. eexists; split; [reflexivity|]. eapply repr_put_same; eauto.
  - destruct (a i) as [mi|] eqn:Ei; [|discriminate]. intros E; injection E as <-. destruct (H i) as [Hi Ri]. rewrite Ei in Ri.
    destruct (toAA_ok md _ _ Hi Ri) as (v & -> & _). cbn. eexists; split; [reflexivity|]. auto.
  - destruct (a i) as [mi|] eqn:Ei; [|discriminate]. intros E; injection E as <-. destruct (H i) as [Hi Ri]. rewrite Ei in Ri.
    unfold o_rot. destruct (toMat_ok md _ _ Hi Ri) as (p & -> & P1 & P2). cbn. eexists; split; [reflexivity|]. eapply repr_put_same; eauto.
  - destruct (a i) as [mi|] eqn:Ei; [|discriminate]. destruct (a j) as [mj|] eqn:Ej; [|discriminate].
    intros E; injection E as <-. destruct (H i) as [Hi Ri], (H j) as [Hj Rj]. rewrite Ei in Ri. rewrite Ej in Rj.
    destruct (diff_ok md _ _ _ _ Hi Ri Hj Rj) as (v & q & -> & _). cbn. eexists; split; [reflexivity|]. auto.
Qed.
(** A call the specification rejects is rejected by a debug build (or breaks the no-alias rule). *)
Lemma step_fails op s a : repr s a -> spec_step op a = None -> forall s', o_step Debug op s <> Ok s'.
Proof.
  intros H.
  assert (N : forall i, a i = None -> s i = o_empty) by (intros i E; apply unset_fails; rewrite <- E; apply H).
  assert (Q1 : forall b y, o_mul Debug o_empty b <> Ok y) by (intros b y; cbn; discriminate).
  assert (Q2 : forall b y, o_mul Debug b o_empty <> Ok y) by (intros b y; destruct b as [[?|] [?|]]; cbn; discriminate).
  assert (Fm : forall j k (F : Ori * Ori * Ori -> outcome store), a j = None \/ a k = None -> forall s', obind (o_mul Debug (s j) (s k)) F <> Ok s').
  { intros j k F [E|E] s' G; destruct (obind_Ok_inv _ _ _ G) as (r & E1 & _); rewrite (N _ E) in E1; [now apply Q1 in E1|now apply Q2 in E1]. }
  destruct op; cbn; try discriminate; intros E s'.
  - apply Fm. destruct (a j); [|auto]. destruct (a k); [discriminate|auto].
  - destruct (Nat.eqb i j || Nat.eqb i k); [discriminate|].
    apply Fm. destruct (a j); [|auto]. destruct (a k); [discriminate|auto].
  - destruct (a j) eqn:F; [discriminate|]. rewrite (N _ F). cbn; discriminate.
  - destruct (a i) eqn:F; [discriminate|]. rewrite (N _ F). cbn; discriminate.
  - destruct (a i) eqn:F; [discriminate|]. rewrite (N _ F). cbn; discriminate.
  - destruct (a i) eqn:F; [discriminate|]. rewrite (N _ F). cbn; discriminate.
  - destruct (a i) eqn:F; [discriminate|]. rewrite (N _ F). cbn; discriminate.
  - destruct (a i) eqn:F; [discriminate|]. rewrite (N _ F). cbn; discriminate.
  - destruct (a i) eqn:F; [discriminate|]. rewrite (N _ F). cbn; discriminate.
  - destruct (a i) eqn:F; [discriminate|]. rewrite (N _ F). cbn; discriminate.
  - destruct (a i) eqn:F; [discriminate|]. rewrite (N _ F). cbn; discriminate.
  - destruct (a i) as [mi|] eqn:F; [|rewrite (N _ F); cbn; discriminate].
    destruct (a j) as [mj|] eqn:G; [discriminate|]. rewrite (N _ G). destruct (H i) as [Hi Ri]. rewrite F in Ri.
    unfold o_diff. destruct (inv_ok Debug _ _ Hi Ri) as (p & -> & _).
    assert (o_check Debug (s i) = Ok tt) as -> by (destruct (s i) as [[?|] [?|]]; cbn; auto; discriminate Ri).
    cbn. discriminate.
Qed.
Lemma run_ok md ops : forall s a a', Forall valid_op ops -> repr s a -> spec_run ops a = Some a' ->
  exists s', orun (o_step md) ops s = Ok s' /\ repr s' a'.
Proof.
  induction ops as [|op ops IH]; cbn; intros s a a' V H E; [injection E as <-; eauto|].
  inversion V as [|? ? V1 V2]; subst. destruct (spec_step op a) as [a1|] eqn:E1; [|discriminate].
  destruct (step_ok md op s a a1 V1 H E1) as (s1 & -> & H1). cbn. eauto.
Qed.
Lemma run_fails ops : forall s a, Forall valid_op ops -> repr s a -> spec_run ops a = None ->
  forall s', orun (o_step Debug) ops s <> Ok s'.
Proof.
  induction ops as [|op ops IH]; cbn; intros s a V H E s'; [discriminate|].
  inversion V as [|? ? V1 V2]; subst. destruct (spec_step op a) as [a1|] eqn:E1.
  - destruct (step_ok Debug op s a a1 V1 H E1) as (s1 & -> & H1). cbn. eauto.
  - intros G. destruct (obind_Ok_inv _ _ _ G) as (s1 & E2 & _). now apply (step_fails op s a H E1 s1).
Qed.
