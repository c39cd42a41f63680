(** Proofs about the inputs of the kinetics observer. *)
From Coq Require Import Reals Lra ZArith Lia List Bool.
From Verif Require Import Base Defs Vec3 KinObs KinProofs KinInput SpecKinInput.
Import ListNotations.
Open Scope R_scope.
Set Default Proof Using "Type".

Lemma fd_set_ok {A} (der : A -> A -> R -> A) md dt k v x xd x' xd' : fd_set der md dt k v x xd = Ok (x', xd') ->
  x' = im_put v k /\ ((im_k x < k)%Z -> exists o, im_v x = Some o /\ xd' = im_put (der o v (dt * IZR (k - im_k x))) k) /\ ((k <= im_k x)%Z -> xd' = xd).
Proof.
  unfold fd_set, im_time, im_get. intros H. apply obind_Ok_inv in H. destruct H as (t & Et & H).
  apply obind_Ok_inv in Et. destruct Et as (u & Eu & Et). apply Ok_inj in Et. subst t.
  destruct (Z.ltb_spec (im_k x) k) as [L|L].
  - rewrite Eu in H. cbn [obind] in H. destruct (im_v x) as [o|]; [|discriminate]. cbn [obind] in H. apply Ok_inj in H. injection H as <- <-.
    split; [reflexivity|]. split; [eauto|lia].
  - cbn [obind] in H. apply Ok_inj in H. injection H as <- <-. split; [reflexivity|]. split; [lia|auto].
Qed.

Section P.
Context {S : Type} (s0 : S) {Kn : Type} (k0 : Kn) (kfirst : mode -> Kn -> outcome Kn) (kupd : mode -> Z -> Kn -> Kn -> outcome Kn).
Context {M : Type} (mzero : M -> bool) {C : Type}.
Notation kin := (kin S Kn M C).
Notation op := (ki_op S Kn M C).
Notation step := (ki_step s0 kfirst kupd mzero).
Notation run := (ki_run s0 kfirst kupd mzero).

(** ** Iterations *)
Definition lag (s : obs S Kn M C) : Prop := (o_kdata s = o_kest s \/ o_kdata s = o_kest s + 1)%Z.
Definition same (s s' : obs S Kn M C) : Prop := o_kest s' = o_kest s /\ o_kdata s' = o_kdata s.
Lemma start_lag s : lag s -> o_kest (ko_start s) = o_kest s /\ o_kdata (ko_start s) = (o_kest s + 1)%Z.
Proof. unfold lag, ko_start. intros H. destruct (Z.eqb_spec (o_kest s) (o_kdata s)); cbn; lia. Qed.

Lemma ko_iter md o s s' : ko_step s0 kfirst kupd mzero md o s = Ok s' -> lag s ->
  (match o with KUpdate _ => o_kest s' = (o_kest s + if (o_kest s =? o_kdata s)%Z then 0 else 1)%Z /\ o_kdata s' = o_kdata s
   | _ => o_kest s' = o_kest s /\ (o_kdata s' = o_kdata s \/ o_kdata s' = o_kest s + 1)%Z end).
Proof.
  intros H L. pose proof (start_lag s L) as [K1 K2].
  destruct o; cbn [ko_step] in H.
  - apply obind_Ok_inv in H. destruct H as ([n x] & E & H). apply Ok_inj in H. subst x. unfold ko_addContact in E.
    repeat (apply obind_Ok_inv in E; destruct E as (? & _ & E)). destruct st as [[[a b] c] d], (o_dstiff s) as [[[a' b'] c'] d'].
    repeat (apply obind_Ok_inv in E; destruct E as (? & _ & E)). apply Ok_inj in E. injection E as _ <-. cbn. auto.
  - unfold ko_removeContact in H. repeat (apply obind_Ok_inv in H; destruct H as (? & _ & H)). apply Ok_inj in H. subst. cbn. auto.
  - apply Ok_inj in H. subst. cbn. auto.
  - apply obind_Ok_inv in H. destruct H as ([n x] & E & H). apply Ok_inj in H. subst x. unfold ko_setIMU in E.
    repeat (apply obind_Ok_inv in E; destruct E as (? & _ & E)). apply Ok_inj in E. injection E as _ <-. cbn. auto.
  - unfold ko_updateWrench in H. repeat (apply obind_Ok_inv in H; destruct H as (? & _ & H)). apply Ok_inj in H. subst. cbn. auto.
  - unfold ko_updateNoSensor in H. repeat (apply obind_Ok_inv in H; destruct H as (? & _ & H)). apply Ok_inj in H. subst. cbn. auto.
  - apply Ok_inj in H. subst. cbn. auto.
  - apply Ok_inj in H. subst. cbn. auto.
  - unfold ko_setStateKinematics in H. repeat (apply obind_Ok_inv in H; destruct H as (? & _ & H)). apply Ok_inj in H. subst. cbn. auto.
  - unfold ko_setGyroBias in H. repeat (apply obind_Ok_inv in H; destruct H as (? & _ & H)). apply Ok_inj in H. subst. cbn. auto.
  - unfold ko_setStateUnmodeledWrench in H. repeat (apply obind_Ok_inv in H; destruct H as (? & _ & H)). apply Ok_inj in H. subst. cbn. auto.
  - apply Ok_inj in H. subst. cbn. auto.
  - apply Ok_inj in H. subst. cbn. auto.
  - apply Ok_inj in H. subst. cbn. auto.
  - apply Ok_inj in H. subst. cbn. auto.
  - apply Ok_inj in H. subst. cbn. auto.
  - unfold ko_update in H. destruct (Z.eqb_spec (o_kest s) (o_kdata s)); [apply Ok_inj in H; subst; split; lia|].
    apply obind_Ok_inv in H. destruct H as (x & E & H). apply Ok_inj in H. subst. unfold ko_prepare in E.
    apply obind_Ok_inv in E. destruct E as ([cs nr] & _ & E). cbv zeta in E. destruct (_ <? 0)%Z; [discriminate|].
    apply obind_Ok_inv in E. destruct E as ([[[? ?] ?] ?] & _ & E). apply obind_Ok_inv in E. destruct E as ([[[? ?] ?] ?] & _ & E).
    apply obind_Ok_inv in E. destruct E as ([[? ?] ?] & _ & E). apply Ok_inj in E. subst. cbn. auto.
Qed.

Implicit Types (s : kin) (o : op).
Definition klag (s : kin) := lag (ki_obs s).
Definition ke (s : kin) : Z := o_kest (ki_obs s).
(** Each input call leaves k_data_ = k_est_ + 1. *)
Lemma kstart_lag s : klag s -> ke (ki_start s) = ke s /\ kd (ki_start s) = (ke s + 1)%Z.
Proof. apply start_lag. Qed.

Lemma step_obs md o (s s' : kin) : step md o s = Ok s' -> (forall x, o <> IObs x) -> (forall x, o <> IDt x) -> ki_obs s' = ko_start (ki_obs s) /\ ki_dt s' = ki_dt s.
Proof.
  intros H N1 N2. destruct o; try (exfalso; eapply N1; reflexivity); try (exfalso; eapply N2; reflexivity); cbn [ki_step] in H;
    try (apply Ok_inj in H; subst; cbn; auto; fail).
  - unfold ki_setInertia in H. apply obind_Ok_inv in H. destruct H as ([? ?] & _ & H). apply Ok_inj in H. subst. cbn. auto.
  - unfold ki_setInertiaV in H. cbv zeta in H. apply obind_Ok_inv in H. destruct H as (? & _ & H). apply obind_Ok_inv in H. destruct H as (? & _ & H). apply Ok_inj in H. subst. cbn. auto.
  - unfold ki_setCom2 in H. apply obind_Ok_inv in H. destruct H as ([? ?] & _ & H). apply Ok_inj in H. subst. cbn. auto.
  - unfold ki_setCom1 in H. apply obind_Ok_inv in H. destruct H as (? & _ & H). apply obind_Ok_inv in H. destruct H as ([? ?] & _ & H). apply Ok_inj in H. subst. cbn. auto.
  - unfold ki_setMomentum in H. apply obind_Ok_inv in H. destruct H as ([? ?] & _ & H). apply Ok_inj in H. subst. cbn. auto.
Qed.
Lemma step_iter md o (s s' : kin) : step md o s = Ok s' -> klag s -> klag s' /\ ke s' = (ke s + if is_update o && pending s then 1 else 0)%Z.
Proof.
  intros H L. destruct o as [o|dt| | | | | | | | | ].
  - cbn [ki_step] in H. apply obind_Ok_inv in H. destruct H as (x & E & H). apply Ok_inj in H. subst s'.
    pose proof (ko_iter _ _ _ _ E L) as K. unfold klag, ke, pending, lag in *. cbn [with_obs ki_obs].
    destruct o; cbn [is_update andb]; try lia. destruct (Z.eqb_spec (o_kest (ki_obs s)) (o_kdata (ki_obs s))); cbn [negb] in *; lia.
  - apply Ok_inj in H. subst. cbn. unfold klag, ke in *. cbn. split; [exact L|lia].
  - destruct (step_obs _ _ _ _ H) as [E _]; try discriminate. destruct (start_lag _ L). unfold klag, ke, lag. rewrite E. cbn [is_update andb]. lia.
  - destruct (step_obs _ _ _ _ H) as [E _]; try discriminate. destruct (start_lag _ L). unfold klag, ke, lag. rewrite E. cbn [is_update andb]. lia.
  - destruct (step_obs _ _ _ _ H) as [E _]; try discriminate. destruct (start_lag _ L). unfold klag, ke, lag. rewrite E. cbn [is_update andb]. lia.
  - destruct (step_obs _ _ _ _ H) as [E _]; try discriminate. destruct (start_lag _ L). unfold klag, ke, lag. rewrite E. cbn [is_update andb]. lia.
  - destruct (step_obs _ _ _ _ H) as [E _]; try discriminate. destruct (start_lag _ L). unfold klag, ke, lag. rewrite E. cbn [is_update andb]. lia.
  - destruct (step_obs _ _ _ _ H) as [E _]; try discriminate. destruct (start_lag _ L). unfold klag, ke, lag. rewrite E. cbn [is_update andb]. lia.
  - destruct (step_obs _ _ _ _ H) as [E _]; try discriminate. destruct (start_lag _ L). unfold klag, ke, lag. rewrite E. cbn [is_update andb]. lia.
  - destruct (step_obs _ _ _ _ H) as [E _]; try discriminate. destruct (start_lag _ L). unfold klag, ke, lag. rewrite E. cbn [is_update andb]. lia.
  - destruct (step_obs _ _ _ _ H) as [E _]; try discriminate. destruct (start_lag _ L). unfold klag, ke, lag. rewrite E. cbn [is_update andb]. lia.
Qed.
Lemma run_iter md ops : forall s s' : kin, run md ops s = Ok s' -> klag s -> klag s' /\ ke s' = (ke s + estimations s0 kfirst kupd mzero md ops s)%Z.
Proof.
  induction ops as [|o ops IH]; intros s s' H L.
  - apply Ok_inj in H. subst. split; [auto|]. cbn [estimations]. lia.
  - unfold ki_run in H. cbn [orun] in H. apply obind_Ok_inv in H. destruct H as (x & E & H). destruct (step_iter _ _ _ _ E L) as [L1 K1].
    destruct (IH _ _ H L1) as [L2 K2]. split; [auto|]. cbn [estimations]. rewrite E. lia.
Qed.
Lemma init_lag md a b ds di dw dp s : ki_init s0 k0 md a b ds di dw dp = Ok s -> klag s /\ ki_dt s = / 1000000 /\ ke s = 0%Z.
Proof.
  unfold ki_init. intros H. apply obind_Ok_inv in H. destruct H as (x & E & H). apply Ok_inj in H. subst s.
  unfold ko_init in E. apply obind_Ok_inv in E. destruct E as (? & _ & E). apply Ok_inj in E. subst x. unfold klag, lag, ke. cbn. auto.
Qed.

(** ** What each call keeps *)
Lemma keep_mom md o (s s' : kin) : step md o s = Ok s' -> gives_mom o = false -> ki_sigma s' = ki_sigma s /\ ki_sigmad s' = ki_sigmad s.
Proof.
  intros H N. destruct o; try discriminate; cbn [ki_step] in H; try (apply Ok_inj in H; subst; cbn; auto; fail).
  - apply obind_Ok_inv in H. destruct H as (? & _ & H). apply Ok_inj in H. subst. cbn. auto.
  - unfold ki_setInertia in H. apply obind_Ok_inv in H. destruct H as ([? ?] & _ & H). apply Ok_inj in H. subst. cbn. auto.
  - unfold ki_setInertiaV in H. cbv zeta in H. apply obind_Ok_inv in H. destruct H as (? & _ & H). apply obind_Ok_inv in H. destruct H as (? & _ & H). apply Ok_inj in H. subst. cbn. auto.
  - unfold ki_setCom2 in H. apply obind_Ok_inv in H. destruct H as ([? ?] & _ & H). apply Ok_inj in H. subst. cbn. auto.
  - unfold ki_setCom1 in H. apply obind_Ok_inv in H. destruct H as (? & _ & H). apply obind_Ok_inv in H. destruct H as ([? ?] & _ & H). apply Ok_inj in H. subst. cbn. auto.
Qed.
Lemma keep_inertia md o (s s' : kin) : step md o s = Ok s' -> gives_inertia o = false -> ki_I s' = ki_I s /\ ki_Id s' = ki_Id s.
Proof.
  intros H N. destruct o; try discriminate; cbn [ki_step] in H; try (apply Ok_inj in H; subst; cbn; auto; fail).
  - apply obind_Ok_inv in H. destruct H as (? & _ & H). apply Ok_inj in H. subst. cbn. auto.
  - unfold ki_setCom2 in H. apply obind_Ok_inv in H. destruct H as ([? ?] & _ & H). apply Ok_inj in H. subst. cbn. auto.
  - unfold ki_setCom1 in H. apply obind_Ok_inv in H. destruct H as (? & _ & H). apply obind_Ok_inv in H. destruct H as ([? ?] & _ & H). apply Ok_inj in H. subst. cbn. auto.
  - unfold ki_setMomentum in H. apply obind_Ok_inv in H. destruct H as ([? ?] & _ & H). apply Ok_inj in H. subst. cbn. auto.
Qed.
Lemma keep_com md o (s s' : kin) : step md o s = Ok s' -> gives_com o = false -> ki_com s' = ki_com s /\ ki_comd s' = ki_comd s /\ ki_comdd s' = ki_comdd s.
Proof.
  intros H N. destruct o; try discriminate; cbn [ki_step] in H; try (apply Ok_inj in H; subst; cbn; auto; fail).
  - apply obind_Ok_inv in H. destruct H as (? & _ & H). apply Ok_inj in H. subst. cbn. auto.
  - unfold ki_setInertia in H. apply obind_Ok_inv in H. destruct H as ([? ?] & _ & H). apply Ok_inj in H. subst. cbn. auto.
  - unfold ki_setInertiaV in H. cbv zeta in H. apply obind_Ok_inv in H. destruct H as (? & _ & H). apply obind_Ok_inv in H. destruct H as (? & _ & H). apply Ok_inj in H. subst. cbn. auto.
  - unfold ki_setMomentum in H. apply obind_Ok_inv in H. destruct H as ([? ?] & _ & H). apply Ok_inj in H. subst. cbn. auto.
Qed.
Lemma keep_run {A} (f : kin -> A) (p : op -> bool) md : (forall o s s', step md o s = Ok s' -> p o = false -> f s' = f s) ->
  forall ops s s', run md ops s = Ok s' -> without p ops -> f s' = f s.
Proof.
  intros K. induction ops as [|o ops IH]; intros s s' H N.
  - apply Ok_inj in H. subst. reflexivity.
  - unfold ki_run in H. cbn [orun] in H. apply obind_Ok_inv in H. destruct H as (x & E & H). unfold without in N. cbn [forallb] in N. apply andb_true_iff in N. destruct N as [N1 N2].
    rewrite (IH _ _ H N2). apply (K _ _ _ E). destruct (p o); [discriminate|reflexivity].
Qed.
End P.
