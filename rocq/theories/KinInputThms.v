(** The effect of the input calls of the kinetics observer, and finite differences of curves. *)
From Coq Require Import Reals Lra ZArith Lia List Bool.
From Verif Require Import Base Defs Vec3 SpecKine KinObs KinProofs KinInput SpecKinInput KinInputProofs.
Import ListNotations.
Open Scope R_scope.
Set Default Proof Using "Type".

(** ** Derivatives by differences *)
Lemma derivate_v_eq a b h : h <> 0 -> b = vadd a (vscal h (derivate_v a b h)).
Proof. intros H. unfold derivate_v. d3. u3. f_equal; field; auto. Qed.
Lemma derivate_m_eq a b h : h <> 0 -> b = madd a (mscal h (derivate_m a b h)).
Proof. intros H. unfold derivate_m. d3. u3. f_equal; field; auto. Qed.

(** Mean value: the difference quotient of a curve over [t - h, t] against its derivative at t. *)
Lemma fd_mean (f f1 : R -> R) (t h : R) : 0 < h -> (forall x, t - h <= x <= t -> derivable_pt_lim f x (f1 x)) ->
  exists c, t - h < c < t /\ f t - f (t - h) = h * f1 c.
Proof.
  intros H D. destruct (MVT_cor2 f f1 (t - h) t) as (c & E & I); [lra|intros; apply D; lra|]. exists c. split; [lra|]. rewrite E. ring.
Qed.
Lemma fd_bound (f f1 f2 : R -> R) (t h B d : R) : 0 < h ->
  (forall x, t - h <= x <= t -> derivable_pt_lim f x (f1 x)) -> (forall x, t - h <= x <= t -> derivable_pt_lim f1 x (f2 x)) ->
  (forall x, t - h <= x <= t -> Rabs (f2 x) <= B) -> f t = f (t - h) + h * d -> Rabs (d - f1 t) <= B * h.
Proof.
  intros H D1 D2 HB E. destruct (fd_mean f f1 t h H D1) as (c & I & Ec).
  assert (d = f1 c) as -> by (apply (Rmult_eq_reg_l h); lra).
  destruct (MVT_cor2 f1 f2 c t) as (c' & E' & I'); [lra|intros; apply D2; lra|].
  rewrite <- Rabs_Ropp. replace (- (f1 c - f1 t)) with (f1 t - f1 c) by ring. rewrite E', Rabs_mult, (Rabs_right (t - c)) by lra.
  specialize (HB c'). assert (0 <= Rabs (f2 c')) by apply Rabs_pos. assert (Rabs (f2 c') <= B) by (apply HB; lra). nra.
Qed.
Lemma dpl_shift (f : R -> R) (x h l : R) : derivable_pt_lim f (x - h) l -> derivable_pt_lim (fun y => f (y - h)) x l.
Proof.
  intros H e He. destruct (H e He) as [d Hd]. exists d. intros u Hu Hb. specialize (Hd u Hu Hb). replace (x + u - h) with (x - h + u) by ring. exact Hd.
Qed.
(** Second difference over [t - 2h, t]. *)
Lemma fd_bound2 (f f1 f2 f3 : R -> R) (t h B v w a : R) : 0 < h ->
  (forall x, t - 2 * h <= x <= t -> derivable_pt_lim f x (f1 x)) -> (forall x, t - 2 * h <= x <= t -> derivable_pt_lim f1 x (f2 x)) ->
  (forall x, t - 2 * h <= x <= t -> derivable_pt_lim f2 x (f3 x)) -> (forall x, t - 2 * h <= x <= t -> Rabs (f3 x) <= B) ->
  f (t - h) = f (t - 2 * h) + h * v -> f t = f (t - h) + h * w -> w = v + h * a -> Rabs (a - f2 t) <= 2 * B * h.
Proof.
  intros H D1 D2 D3 HB Ev Ew Ea.
  set (g := fun y => f y - f (y - h)).
  assert (Dg : forall x, t - h <= x <= t -> derivable_pt_lim g x (f1 x - f1 (x - h))).
  { intros x Hx. unfold g. apply (derivable_pt_lim_minus f (fun y => f (y - h))); [apply D1; lra|apply dpl_shift, D1; lra]. }
  destruct (MVT_cor2 g (fun x => f1 x - f1 (x - h)) (t - h) t) as (c & Ec & Ic); [lra|intros; apply Dg; lra|].
  destruct (MVT_cor2 f1 f2 (c - h) c) as (e & Ee & Ie); [lra|intros; apply D2; lra|].
  assert (a = f2 e) as ->.
  { unfold g in Ec. replace (t - h - h) with (t - 2 * h) in Ec by ring. rewrite Ee in Ec. apply (Rmult_eq_reg_l (h * h)); [|apply Rgt_not_eq; nra]. nra. }
  destruct (MVT_cor2 f2 f3 e t) as (z & Ez & Iz); [lra|intros; apply D3; lra|].
  rewrite <- Rabs_Ropp. replace (- (f2 e - f2 t)) with (f2 t - f2 e) by ring. rewrite Ez, Rabs_mult, (Rabs_right (t - e)) by lra.
  assert (0 <= Rabs (f3 z)) by apply Rabs_pos. assert (Rabs (f3 z) <= B) by (apply HB; lra). nra.
Qed.
(** Curves. *)
Definition vbound (v : V3) (b : R) : Prop := Rabs (vx v) <= b /\ Rabs (vy v) <= b /\ Rabs (vz v) <= b.
Lemma vfd_bound (f f1 f2 : R -> V3) (t h B : R) (d : V3) : 0 < h ->
  (forall x, t - h <= x <= t -> vderiv f x (f1 x) /\ vderiv f1 x (f2 x) /\ vbound (f2 x) B) ->
  f t = vadd (f (t - h)) (vscal h d) -> vbound (vsub d (f1 t)) (B * h).
Proof.
  intros H D E. unfold vbound, vsub. cbn [vx vy vz].
  assert (Ex := f_equal vx E). assert (Ey := f_equal vy E). assert (Ez := f_equal vz E). cbn [vadd vscal vx vy vz] in *.
  split; [|split].
  - eapply (fd_bound (fun x => vx (f x)) (fun x => vx (f1 x)) (fun x => vx (f2 x)) t h B (vx d) H); intros; try (apply D; assumption); exact Ex.
  - eapply (fd_bound (fun x => vy (f x)) (fun x => vy (f1 x)) (fun x => vy (f2 x)) t h B (vy d) H); intros; try (apply D; assumption); exact Ey.
  - eapply (fd_bound (fun x => vz (f x)) (fun x => vz (f1 x)) (fun x => vz (f2 x)) t h B (vz d) H); intros; try (apply D; assumption); exact Ez.
Qed.
Lemma vfd_bound2 (f f1 f2 f3 : R -> V3) (t h B : R) (v w a : V3) : 0 < h ->
  (forall x, t - 2 * h <= x <= t -> vderiv f x (f1 x) /\ vderiv f1 x (f2 x) /\ vderiv f2 x (f3 x) /\ vbound (f3 x) B) ->
  f (t - h) = vadd (f (t - 2 * h)) (vscal h v) -> f t = vadd (f (t - h)) (vscal h w) -> w = vadd v (vscal h a) -> vbound (vsub a (f2 t)) (2 * B * h).
Proof.
  intros H D E1 E2 E3. unfold vbound, vsub. cbn [vx vy vz].
  assert (Ax := f_equal vx E1). assert (Ay := f_equal vy E1). assert (Az := f_equal vz E1).
  assert (Bx := f_equal vx E2). assert (By := f_equal vy E2). assert (Bz := f_equal vz E2).
  assert (Cx := f_equal vx E3). assert (Cy := f_equal vy E3). assert (Cz := f_equal vz E3). cbn [vadd vscal vx vy vz] in *.
  split; [|split].
  - eapply (fd_bound2 (fun x => vx (f x)) (fun x => vx (f1 x)) (fun x => vx (f2 x)) (fun x => vx (f3 x)) t h B); eauto; intros; apply D; assumption.
  - eapply (fd_bound2 (fun x => vy (f x)) (fun x => vy (f1 x)) (fun x => vy (f2 x)) (fun x => vy (f3 x)) t h B); eauto; intros; apply D; assumption.
  - eapply (fd_bound2 (fun x => vz (f x)) (fun x => vz (f1 x)) (fun x => vz (f2 x)) (fun x => vz (f3 x)) t h B); eauto; intros; apply D; assumption.
Qed.

Section P.
Context {S : Type} (s0 : S) {Kn : Type} (k0 : Kn) (kfirst : mode -> Kn -> outcome Kn) (kupd : mode -> Z -> Kn -> Kn -> outcome Kn).
Context {M : Type} (mzero : M -> bool) {C : Type}.
Notation kin := (kin S Kn M C).
Notation op := (ki_op S Kn M C).
Notation step := (ki_step s0 kfirst kupd mzero).
Notation run := (ki_run s0 kfirst kupd mzero).
Notation est := (estimations s0 kfirst kupd mzero).
Implicit Types (s : kin) (o : op).

(** ** What a call writes *)
Lemma mom_put md o s s' g : step md o s = Ok s' -> mom_of o = Some g -> klag s -> ki_sigma s' = im_put g (ke s + 1).
Proof.
  intros H E L. destruct (kstart_lag s L) as [_ K]. destruct o; try discriminate; injection E as ->; cbn [ki_step] in H.
  - apply Ok_inj in H. subst. cbn [ki_setMomentum2 with_sigma ki_sigma]. rewrite K. reflexivity.
  - unfold ki_setMomentum in H. apply obind_Ok_inv in H. destruct H as ([x xd] & F & H). apply Ok_inj in H. subst. apply fd_set_ok in F. destruct F as (-> & _). cbn [with_sigma ki_sigma]. rewrite K. reflexivity.
Qed.
Lemma mom_fd md g s s' u1 t : step md (IMom g) s = Ok s' -> klag s -> ki_sigma s = im_put u1 t ->
  ((t < ke s + 1)%Z -> ki_sigmad s' = im_put (derivate_v u1 g (ki_dt s * IZR (ke s + 1 - t))) (ke s + 1)) /\ ((ke s + 1 <= t)%Z -> ki_sigmad s' = ki_sigmad s).
Proof.
  intros H L E. destruct (kstart_lag s L) as [_ K]. cbn [ki_step] in H. unfold ki_setMomentum in H. apply obind_Ok_inv in H. destruct H as ([x xd] & F & H). apply Ok_inj in H. subst s'.
  apply fd_set_ok in F. destruct F as (_ & F1 & F2). rewrite K in F1, F2. change (ki_sigma (ki_start s)) with (ki_sigma s) in *. rewrite E in F1, F2. cbn [im_put im_k im_v] in F1, F2. cbn [with_sigma ki_sigmad]. split; intros T.
  - destruct (F1 T) as (o & Eo & ->). injection Eo as <-. reflexivity.
  - apply F2. exact T.
Qed.
Lemma inertia_put md o s s' i : step md o s = Ok s' -> inertia_of o = Some i -> klag s -> ki_I s' = im_put i (ke s + 1).
Proof.
  intros H E L. destruct (kstart_lag s L) as [_ K]. destruct o; try discriminate; injection E as <-; cbn [ki_step] in H.
  - apply Ok_inj in H. subst. cbn [ki_setInertia2 with_I ki_I]. rewrite K. reflexivity.
  - unfold ki_setInertia in H. apply obind_Ok_inv in H. destruct H as ([x xd] & F & H). apply Ok_inj in H. subst. apply fd_set_ok in F. destruct F as (-> & _). cbn [with_I ki_I]. rewrite K. reflexivity.
  - apply Ok_inj in H. subst. cbn [ki_setInertiaV2 with_I ki_I]. rewrite K. reflexivity.
  - unfold ki_setInertiaV in H. cbv zeta in H. apply obind_Ok_inv in H. destruct H as (? & _ & H). apply obind_Ok_inv in H. destruct H as (? & _ & H). apply Ok_inj in H. subst. cbn [with_I ki_I]. rewrite K. reflexivity.
Qed.
Lemma inertia_fd md i s s' u1 t : step md (IInertia i) s = Ok s' -> klag s -> ki_I s = im_put u1 t -> (t < ke s + 1)%Z ->
  ki_Id s' = im_put (derivate_m u1 i (ki_dt s * IZR (ke s + 1 - t))) (ke s + 1).
Proof.
  intros H L E T. destruct (kstart_lag s L) as [_ K]. cbn [ki_step] in H. unfold ki_setInertia in H. apply obind_Ok_inv in H. destruct H as ([x xd] & F & H). apply Ok_inj in H. subst s'.
  apply fd_set_ok in F. destruct F as (_ & F1 & _). rewrite K in F1. change (ki_I (ki_start s)) with (ki_I s) in *. rewrite E in F1. cbn [im_put im_k im_v] in F1. cbn [with_I ki_Id].
  destruct (F1 T) as (o & Eo & ->). injection Eo as <-. reflexivity.
Qed.
Lemma comv_put md o s s' c d : step md o s = Ok s' -> comv_of o = Some (c, d) -> klag s -> ki_com s' = im_put c (ke s + 1) /\ ki_comd s' = im_put d (ke s + 1).
Proof.
  intros H E L. destruct (kstart_lag s L) as [_ K]. destruct o; try discriminate; injection E as -> ->; cbn [ki_step] in H.
  - apply Ok_inj in H. subst. cbn [ki_setCom3 with_com ki_com ki_comd]. rewrite K. auto.
  - unfold ki_setCom2 in H. apply obind_Ok_inv in H. destruct H as ([x xd] & F & H). apply Ok_inj in H. subst. apply fd_set_ok in F. destruct F as (-> & _). cbn [with_com ki_com ki_comd]. rewrite K. auto.
Qed.
Lemma comv_fd md c d s s' u1 t : step md (ICom2 c d) s = Ok s' -> klag s -> ki_comd s = im_put u1 t -> (t < ke s + 1)%Z ->
  ki_comdd s' = im_put (derivate_v u1 d (ki_dt s * IZR (ke s + 1 - t))) (ke s + 1).
Proof.
  intros H L E T. destruct (kstart_lag s L) as [_ K]. cbn [ki_step] in H. unfold ki_setCom2 in H. apply obind_Ok_inv in H. destruct H as ([x xd] & F & H). apply Ok_inj in H. subst s'.
  apply fd_set_ok in F. destruct F as (_ & F1 & _). rewrite K in F1. change (ki_comd (ki_start s)) with (ki_comd s) in *. rewrite E in F1. cbn [im_put im_k im_v] in F1. cbn [with_com ki_comdd].
  destruct (F1 T) as (o & Eo & ->). injection Eo as <-. reflexivity.
Qed.
Lemma com1_put md c s s' : step md (ICom1 c) s = Ok s' -> klag s -> ki_com s' = im_put c (ke s + 1).
Proof.
  intros H L. destruct (kstart_lag s L) as [_ K]. cbn [ki_step] in H. unfold ki_setCom1 in H. apply obind_Ok_inv in H. destruct H as (? & _ & H). apply obind_Ok_inv in H. destruct H as ([? ?] & _ & H). apply Ok_inj in H. subst. cbn [with_com ki_com]. rewrite K. reflexivity.
Qed.
Lemma com1_fd md c s s' u1 t od t' : step md (ICom1 c) s = Ok s' -> klag s -> ki_com s = im_put u1 t -> ki_comd s = im_put od t' -> (t < ke s + 1)%Z ->
  let h := ki_dt s * IZR (ke s + 1 - t) in let v := derivate_v u1 c h in
  ki_comd s' = im_put v (ke s + 1) /\ ki_comdd s' = im_put (derivate_v od v h) (ke s + 1).
Proof.
  intros H L E E' T. destruct (kstart_lag s L) as [_ K]. cbn [ki_step] in H. unfold ki_setCom1 in H. change (ki_com (ki_start s)) with (ki_com s) in H. change (ki_comd (ki_start s)) with (ki_comd s) in H. change (ki_dt (ki_start s)) with (ki_dt s) in H.
  rewrite K, E, E' in H. unfold im_time, im_get in H. cbn [im_put im_set im_k im_v] in H. destruct md; cbn [boost_assert obind] in H; rewrite (proj2 (Z.ltb_lt _ _) T) in H; cbn [boost_assert obind] in H; apply Ok_inj in H; subst s'; cbn [with_com ki_comd ki_comdd]; auto.
Qed.
Notation reached := (reached s0 k0 kfirst kupd mzero).
Lemma reached_lag md h s : reached md h s -> klag s.
Proof. intros (a & b & ds & di & dw & dp & si & E & H). apply init_lag in E. destruct E as (L & _). exact (proj1 (run_iter s0 kfirst kupd mzero md h si s H L)). Qed.
(** The time of an item that nothing changed since it was written before [s1], against the iteration
    of the next call. *)
Lemma between md ops s s1 s2 k : klag s -> ke s1 = ke s -> klag s1 -> run md ops s1 = Ok s2 -> k = (ke s + 1)%Z ->
  klag s2 /\ (ke s2 + 1 - k = est md ops s1)%Z.
Proof. intros L E L1 H ->. destruct (run_iter s0 kfirst kupd mzero md ops s1 s2 H L1) as [L2 K]. split; [auto|lia]. Qed.
Lemma input_iter md o s s1 : step md o s = Ok s1 -> klag s -> is_update o = false -> klag s1 /\ ke s1 = ke s.
Proof. intros H L N. destruct (step_iter s0 kfirst kupd mzero md o s s1 H L) as [L1 K]. rewrite N in K. cbn [andb] in K. split; [auto|lia]. Qed.

(** Every reached state has its items set, except the centre of mass before it is given. *)
Definition items (s : kin) : Prop :=
  (exists v k, ki_comd s = im_put v k) /\ (exists v k, ki_sigma s = im_put v k) /\ (exists v k, ki_I s = im_put v k).
Definition has_com (s : kin) : Prop := exists v k, ki_com s = im_put v k.
Lemma step_total md o s : items s -> (forall x, o <> IObs x) -> (has_com s \/ forall c, o <> ICom1 c) -> exists s', step md o s = Ok s'.
Proof.
  intros ((v1 & k1 & E1) & (v2 & k2 & E2) & (v3 & k3 & E3)) N Hc. destruct o; cbn [ki_step]; try (eexists; reflexivity); try (exfalso; eapply N; reflexivity).
  - unfold ki_setInertia. change (ki_I (ki_start s)) with (ki_I s). rewrite E3. unfold fd_set, im_time, im_get. cbn [im_put im_set im_k im_v].
    destruct md; cbn [boost_assert obind]; destruct (_ <? _)%Z; cbn [boost_assert obind]; eexists; reflexivity.
  - unfold ki_setInertiaV. change (ki_I (ki_start s)) with (ki_I s). rewrite E3. unfold im_time, im_get. cbn [im_put im_set im_k im_v].
    destruct md; cbn [boost_assert obind]; destruct (_ <? _)%Z; cbn [boost_assert obind]; eexists; reflexivity.
  - unfold ki_setCom2. change (ki_comd (ki_start s)) with (ki_comd s). rewrite E1. unfold fd_set, im_time, im_get. cbn [im_put im_set im_k im_v].
    destruct md; cbn [boost_assert obind]; destruct (_ <? _)%Z; cbn [boost_assert obind]; eexists; reflexivity.
  - destruct Hc as [(v & k & E)|Hc]; [|exfalso; eapply Hc; reflexivity]. unfold ki_setCom1. change (ki_comd (ki_start s)) with (ki_comd s). change (ki_com (ki_start s)) with (ki_com s).
    rewrite E, E1. unfold im_time, im_get. cbn [im_put im_set im_k im_v].
    destruct md; cbn [boost_assert obind]; destruct (_ <? _)%Z; cbn [boost_assert obind]; eexists; reflexivity.
  - unfold ki_setMomentum. change (ki_sigma (ki_start s)) with (ki_sigma s). rewrite E2. unfold fd_set, im_time, im_get. cbn [im_put im_set im_k im_v].
    destruct md; cbn [boost_assert obind]; destruct (_ <? _)%Z; cbn [boost_assert obind]; eexists; reflexivity.
Qed.
Lemma step_items md o s s' : step md o s = Ok s' -> items s -> klag s -> items s' /\ (has_com s' <-> has_com s \/ gives_com o = true).
Proof.
  intros H (I1 & I2 & I3) L. destruct (gives_com o) eqn:G.
  - assert (N1 : gives_mom o = false /\ gives_inertia o = false) by (destruct o; try discriminate; auto). destruct N1 as [N1 N2].
    destruct (keep_mom s0 kfirst kupd mzero md o s s' H N1) as [F1 _]. destruct (keep_inertia s0 kfirst kupd mzero md o s s' H N2) as [F2 _].
    unfold items. rewrite F1, F2. split; [split; [|auto]|].
    + destruct o; try discriminate.
      * eexists; eexists; eapply (comv_put md _ s s' _ _ H eq_refl L).
      * eexists; eexists; eapply (comv_put md _ s s' _ _ H eq_refl L).
      * cbn [ki_step] in H. unfold ki_setCom1 in H. apply obind_Ok_inv in H. destruct H as (? & _ & H). apply obind_Ok_inv in H. destruct H as ([cd cdd] & E & H). apply Ok_inj in H. subst. cbn [with_com ki_comd].
        destruct (_ <? _)%Z in E; [|apply Ok_inj in E; injection E as <- _; exact I1]. apply obind_Ok_inv in E. destruct E as (? & _ & E). apply obind_Ok_inv in E. destruct E as (? & _ & E). apply Ok_inj in E. injection E as <- _. eauto.
    + split; [auto|intros _]. unfold has_com. destruct o; try discriminate.
      * eexists; eexists; eapply (comv_put md _ s s' _ _ H eq_refl L).
      * eexists; eexists; eapply (comv_put md _ s s' _ _ H eq_refl L).
      * eexists; eexists; eapply (com1_put md _ s s' H L).
  - destruct (keep_com s0 kfirst kupd mzero md o s s' H G) as (F1 & F2 & _). unfold items, has_com. rewrite F1, F2.
    split; [|split; [auto|intros [A|A]; [auto|discriminate]]]. split; [auto|]. split.
    + destruct (gives_mom o) eqn:G'; [|destruct (keep_mom s0 kfirst kupd mzero md o s s' H G') as [F3 _]; rewrite F3; exact I2].
      destruct o; try discriminate; eexists; eexists; eapply (mom_put md _ s s' _ H eq_refl L).
    + destruct (gives_inertia o) eqn:G'; [|destruct (keep_inertia s0 kfirst kupd mzero md o s s' H G') as [F3 _]; rewrite F3; exact I3].
      destruct o; try discriminate; eexists; eexists; eapply (inertia_put md _ s s' _ H eq_refl L).
Qed.
Lemma run_items md h : forall s s', run md h s = Ok s' -> items s -> klag s -> items s' /\ (has_com s' <-> has_com s \/ existsb gives_com h = true).
Proof.
  induction h as [|o h IH]; intros s s' H It L.
  - apply Ok_inj in H. subst. split; [auto|]. cbn. split; [auto|intros [A|A]; [auto|discriminate]].
  - unfold ki_run in H. cbn [orun] in H. apply obind_Ok_inv in H. destruct H as (x & E & H). destruct (step_items md o s x E It L) as [It' Hc].
    destruct (step_iter s0 kfirst kupd mzero md o s x E L) as [L' _]. destruct (IH x s' H It' L') as [It'' Hc']. split; [auto|]. cbn [existsb]. rewrite Hc', Hc, orb_true_iff. tauto.
Qed.
Lemma init_items md a b ds di dw dp s : ki_init s0 k0 md a b ds di dw dp = Ok s -> items s /\ ~ has_com s /\
  ki_com s = im_empty /\ ki_comd s = im_put v0 0 /\ ki_sigma s = im_put v0 0 /\ ki_I s = im_put m1 0.
Proof.
  unfold ki_init. intros H. apply obind_Ok_inv in H. destruct H as (x & E & H). apply Ok_inj in H. subst s.
  unfold ko_init in E. apply obind_Ok_inv in E. destruct E as (? & _ & E). apply Ok_inj in E. subst x. unfold items, has_com. cbn. split; [split; [eauto|split; eauto]|]. split; [intros (v & k & F); discriminate|auto 10].
Qed.
Lemma reached_items md h s : reached md h s -> items s /\ (has_com s <-> existsb gives_com h = true).
Proof.
  intros (a & b & ds & di & dw & dp & si & E & H). destruct (init_items _ _ _ _ _ _ _ _ E) as (It & N & _). apply init_lag in E. destruct E as (L & _).
  destruct (run_items md h si s H It L) as [A B]. split; [auto|]. rewrite B. tauto.
Qed.
(** ** Vector6 arguments *)
Lemma sym_six m : symmetric m -> fill6 (six m) = m.
Proof. unfold symmetric, fill6, six, fillSymmetric. destruct m. cbn. intros H. injection H as E1 E2 _ E3 _ _. subst. reflexivity. Qed.
Definition sym_state (s : kin) : Prop := exists m k, ki_I s = im_put m k /\ symmetric m.
Lemma fill_sym d a b c : symmetric (fillSymmetric d a b c).
Proof. reflexivity. Qed.
Lemma six_step md o s : sym_state s -> sym_op o -> step md (with_six o) s = step md o s.
Proof.
  intros (m & k & E & Sm) So. destruct o; try reflexivity; cbn [with_six ki_step sym_op] in *.
  - unfold ki_setInertiaV2, ki_setInertia2. destruct So as [A B]. rewrite !sym_six by assumption. reflexivity.
  - unfold ki_setInertiaV, ki_setInertia, fd_set. change (ki_I (ki_start s)) with (ki_I s). rewrite E. unfold im_time, im_get. cbn [im_put im_set im_k im_v]. rewrite sym_six by assumption.
    assert (D : forall h, fillSymmetric (derivate_v (mdiagonal m) (v6d (six i)) h) (derivate_r (m10 m) (v6e (six i)) h) (derivate_r (m20 m) (v6f (six i)) h) (derivate_r (m21 m) (v6g (six i)) h) = derivate_m m i h).
    { intros h. unfold symmetric in Sm, So. destruct m, i. cbn in Sm, So. injection Sm as A1 A2 _ A3 _ _. injection So as B1 B2 _ B3 _ _. subst. unfold fillSymmetric, derivate_v, derivate_r, derivate_m, mdiagonal, six. cbn [v6d v6e v6f v6g]. u3. f_equal; ring. }
    destruct md; cbn [boost_assert obind]; destruct (_ <? _)%Z; cbn [boost_assert obind]; rewrite ?D; reflexivity.
Qed.
Lemma sym_step md o s s' : step md o s = Ok s' -> sym_op o -> klag s -> sym_state s -> sym_state s'.
Proof.
  intros H So L Ss. destruct (gives_inertia o) eqn:G; [|destruct (keep_inertia s0 kfirst kupd mzero md o s s' H G) as [F _]; unfold sym_state; rewrite F; exact Ss].
  unfold sym_state. destruct o; try discriminate; cbn [sym_op] in So; (eexists; eexists; split; [eapply (inertia_put md _ s s' _ H eq_refl L)|]); try apply fill_sym; tauto.
Qed.
Lemma six_run md h : forall s, klag s -> sym_state s -> Forall sym_op h -> run md (map with_six h) s = run md h s.
Proof.
  induction h as [|o h IH]; intros s L Ss Hh; [reflexivity|]. inversion Hh as [|? ? So Hr]; subst.
  unfold ki_run. cbn [map orun]. rewrite (six_step md o s Ss So). destruct (step md o s) as [x| | |] eqn:E; try reflexivity. cbn [obind].
  apply IH; [exact (proj1 (step_iter s0 kfirst kupd mzero md o s x E L))|eapply sym_step; eauto|assumption].
Qed.
(** A call of each kind always succeeds when its items are set. *)
Lemma value_put {A} (v : A) k : value (im_put v k) = Some v.
Proof. reflexivity. Qed.
End P.
