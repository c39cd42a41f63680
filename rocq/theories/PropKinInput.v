(** Properties of the inputs of the kinetics observer given without their derivatives. *)
From Coq Require Import Reals Lra ZArith Lia List Bool.
From Verif Require Import Base Defs Vec3 SpecKine KinObs KinProofs KinInput SpecKinInput KinInputProofs KinInputThms.
Import ListNotations.
Open Scope R_scope.
Set Default Proof Using "Type".

Section P.
Context {S : Type} (s0 : S) {Kn : Type} (k0 : Kn) (kfirst : mode -> Kn -> outcome Kn) (kupd : mode -> Z -> Kn -> Kn -> outcome Kn).
Context {M : Type} (mzero : M -> bool) {C : Type}.
Notation kin := (kin S Kn M C).
Notation op := (ki_op S Kn M C).
Notation step := (ki_step s0 kfirst kupd mzero).
Notation run := (ki_run s0 kfirst kupd mzero).
Notation est := (estimations s0 kfirst kupd mzero).
Notation reached := (reached s0 k0 kfirst kupd mzero).

(** C89. The derivative used is the finite difference between the value given and the one given before,
    over the time of the estimations made in between. Missing: an iteration in which the value is given
    more than once (refuted below). *)
Theorem C89_momentum_partial md h (s s1 s2 s3 : kin) o1 g1 ops g2 : reached md h s -> mom_of o1 = Some g1 -> step md o1 s = Ok s1 ->
  without gives_mom ops -> run md ops s1 = Ok s2 -> (1 <= est md ops s1)%Z -> ki_dt s2 <> 0 -> step md (IMom g2) s2 = Ok s3 ->
  value (ki_sigma s3) = Some g2 /\
  exists d, value (ki_sigmad s3) = Some d /\ g2 = vadd g1 (vscal (ki_dt s2 * IZR (est md ops s1)) d).
Proof.
  intros Hr E1 H1 N H2 Hn Hd H3. pose proof (reached_lag s0 k0 kfirst kupd mzero md h s Hr) as L.
  assert (U : is_update o1 = false) by (destruct o1; try discriminate; reflexivity).
  destruct (input_iter s0 kfirst kupd mzero md o1 s s1 H1 L U) as [L1 K1].
  destruct (between s0 kfirst kupd mzero md ops s s1 s2 _ L K1 L1 H2 eq_refl) as [L2 K2].
  pose proof (mom_put s0 kfirst kupd mzero md o1 s s1 g1 H1 E1 L) as P1.
  assert (P2 : ki_sigma s2 = ki_sigma s1).
  { apply (keep_run s0 kfirst kupd mzero ki_sigma gives_mom md) with (ops := ops); auto. intros o x x' A B. exact (proj1 (keep_mom s0 kfirst kupd mzero md o x x' A B)). }
  rewrite P1 in P2. rewrite (mom_put s0 kfirst kupd mzero md (IMom g2) s2 s3 g2 H3 eq_refl L2). split; [reflexivity|].
  destruct (mom_fd s0 kfirst kupd mzero md g2 s2 s3 g1 _ H3 L2 P2) as [F _]. rewrite F by lia. rewrite K2. eexists. split; [reflexivity|].
  apply derivate_v_eq. apply Rmult_integral_contrapositive_currified; [exact Hd|]. apply IZR_neq. lia.
Qed.
Theorem C89_inertia_partial md h (s s1 s2 s3 : kin) o1 i1 ops i2 : reached md h s -> inertia_of o1 = Some i1 -> step md o1 s = Ok s1 ->
  without gives_inertia ops -> run md ops s1 = Ok s2 -> (1 <= est md ops s1)%Z -> ki_dt s2 <> 0 -> step md (IInertia i2) s2 = Ok s3 ->
  value (ki_I s3) = Some i2 /\
  exists d, value (ki_Id s3) = Some d /\ i2 = madd i1 (mscal (ki_dt s2 * IZR (est md ops s1)) d).
Proof.
  intros Hr E1 H1 N H2 Hn Hd H3. pose proof (reached_lag s0 k0 kfirst kupd mzero md h s Hr) as L.
  assert (U : is_update o1 = false) by (destruct o1; try discriminate; reflexivity).
  destruct (input_iter s0 kfirst kupd mzero md o1 s s1 H1 L U) as [L1 K1].
  destruct (between s0 kfirst kupd mzero md ops s s1 s2 _ L K1 L1 H2 eq_refl) as [L2 K2].
  pose proof (inertia_put s0 kfirst kupd mzero md o1 s s1 i1 H1 E1 L) as P1.
  assert (P2 : ki_I s2 = ki_I s1).
  { apply (keep_run s0 kfirst kupd mzero ki_I gives_inertia md) with (ops := ops); auto. intros o x x' A B. exact (proj1 (keep_inertia s0 kfirst kupd mzero md o x x' A B)). }
  rewrite P1 in P2. rewrite (inertia_put s0 kfirst kupd mzero md (IInertia i2) s2 s3 i2 H3 eq_refl L2). split; [reflexivity|].
  rewrite (inertia_fd s0 kfirst kupd mzero md i2 s2 s3 i1 _ H3 L2 P2) by lia. rewrite K2. eexists. split; [reflexivity|].
  apply derivate_m_eq. apply Rmult_integral_contrapositive_currified; [exact Hd|]. apply IZR_neq. lia.
Qed.
Theorem C89_com_velocity_partial md h (s s1 s2 s3 : kin) o1 c1 v1 ops c2 v2 : reached md h s -> comv_of o1 = Some (c1, v1) -> step md o1 s = Ok s1 ->
  without gives_com ops -> run md ops s1 = Ok s2 -> (1 <= est md ops s1)%Z -> ki_dt s2 <> 0 -> step md (ICom2 c2 v2) s2 = Ok s3 ->
  value (ki_com s3) = Some c2 /\ value (ki_comd s3) = Some v2 /\
  exists a, value (ki_comdd s3) = Some a /\ v2 = vadd v1 (vscal (ki_dt s2 * IZR (est md ops s1)) a).
Proof.
  intros Hr E1 H1 N H2 Hn Hd H3. pose proof (reached_lag s0 k0 kfirst kupd mzero md h s Hr) as L.
  assert (U : is_update o1 = false) by (destruct o1; try discriminate; reflexivity).
  destruct (input_iter s0 kfirst kupd mzero md o1 s s1 H1 L U) as [L1 K1].
  destruct (between s0 kfirst kupd mzero md ops s s1 s2 _ L K1 L1 H2 eq_refl) as [L2 K2].
  destruct (comv_put s0 kfirst kupd mzero md o1 s s1 c1 v1 H1 E1 L) as [_ P1].
  assert (P2 : ki_comd s2 = ki_comd s1).
  { apply (keep_run s0 kfirst kupd mzero ki_comd gives_com md) with (ops := ops); auto. intros o x x' A B. exact (proj1 (proj2 (keep_com s0 kfirst kupd mzero md o x x' A B))). }
  rewrite P1 in P2. destruct (comv_put s0 kfirst kupd mzero md (ICom2 c2 v2) s2 s3 c2 v2 H3 eq_refl L2) as [-> ->]. split; [reflexivity|]. split; [reflexivity|].
  rewrite (comv_fd s0 kfirst kupd mzero md c2 v2 s2 s3 v1 _ H3 L2 P2) by lia. rewrite K2. eexists. split; [reflexivity|].
  apply derivate_v_eq. apply Rmult_integral_contrapositive_currified; [exact Hd|]. apply IZR_neq. lia.
Qed.
(** Three positions: the velocity is the last difference, the acceleration the difference of the two
    velocities. *)
Definition com_of (o : op) : option V3 := match o with ICom3 c _ _ | ICom2 c _ | ICom1 c => Some c | _ => None end.
Theorem C89_com_position_partial md h (s s1 s2 s3 s4 s5 : kin) o1 c1 ops c2 ops' c3 : reached md h s -> com_of o1 = Some c1 -> step md o1 s = Ok s1 ->
  without gives_com ops -> run md ops s1 = Ok s2 -> (1 <= est md ops s1)%Z -> ki_dt s2 <> 0 -> step md (ICom1 c2) s2 = Ok s3 ->
  without gives_com ops' -> run md ops' s3 = Ok s4 -> (1 <= est md ops' s3)%Z -> ki_dt s4 <> 0 -> step md (ICom1 c3) s4 = Ok s5 ->
  value (ki_com s5) = Some c3 /\
  exists v v' a, value (ki_comd s3) = Some v /\ c2 = vadd c1 (vscal (ki_dt s2 * IZR (est md ops s1)) v) /\
    value (ki_comd s5) = Some v' /\ c3 = vadd c2 (vscal (ki_dt s4 * IZR (est md ops' s3)) v') /\
    value (ki_comdd s5) = Some a /\ v' = vadd v (vscal (ki_dt s4 * IZR (est md ops' s3)) a).
Proof.
  intros Hr E1 H1 N H2 Hn Hd H3 N' H4 Hn' Hd' H5. pose proof (reached_lag s0 k0 kfirst kupd mzero md h s Hr) as L.
  assert (U : is_update o1 = false) by (destruct o1; try discriminate; reflexivity).
  destruct (input_iter s0 kfirst kupd mzero md o1 s s1 H1 L U) as [L1 K1].
  destruct (between s0 kfirst kupd mzero md ops s s1 s2 _ L K1 L1 H2 eq_refl) as [L2 K2].
  destruct (input_iter s0 kfirst kupd mzero md (ICom1 c2) s2 s3 H3 L2 eq_refl) as [L3 K3].
  destruct (between s0 kfirst kupd mzero md ops' s2 s3 s4 _ L2 K3 L3 H4 eq_refl) as [L4 K4].
  assert (P1 : ki_com s1 = im_put c1 (ke s + 1)).
  { destruct o1; try discriminate; injection E1 as <-; [eapply comv_put; eauto; reflexivity|eapply comv_put; eauto; reflexivity|eapply com1_put; eauto]. }
  assert (Kp : forall ops (x x' : kin), run md ops x = Ok x' -> without gives_com ops -> (ki_com x', ki_comd x') = (ki_com x, ki_comd x)).
  { intros l x x' A B. apply (keep_run s0 kfirst kupd mzero (fun s : kin => (ki_com s, ki_comd s)) gives_com md) with (ops := l); auto.
    intros o y y' A' B'. destruct (keep_com s0 kfirst kupd mzero md o y y' A' B') as (-> & -> & _). reflexivity. }
  assert (P2 := Kp _ _ _ H2 N). assert (P4 := Kp _ _ _ H4 N'). injection P2 as P2 _. injection P4 as P4 P4'. rewrite P1 in P2.
  (* the velocity is set from the start *)
  assert (It : items s2).
  { destruct (reached_items s0 k0 kfirst kupd mzero md h s Hr) as [I0 _]. destruct (step_items s0 kfirst kupd mzero md o1 s s1 H1 I0 L) as [I1 _].
    exact (proj1 (run_items s0 kfirst kupd mzero md ops s1 s2 H2 I1 L1)). }
  destruct It as ((vd & td & Ed) & _).
  destruct (com1_fd s0 kfirst kupd mzero md c2 s2 s3 c1 _ vd td H3 L2 P2 Ed) as [Q1 _]; [lia|]. rewrite K2 in Q1.
  pose proof (com1_put s0 kfirst kupd mzero md c2 s2 s3 H3 L2) as Q2. rewrite Q2 in P4. rewrite Q1 in P4'.
  destruct (com1_fd s0 kfirst kupd mzero md c3 s4 s5 c2 _ _ _ H5 L4 P4 P4') as [Q3 Q4]; [lia|]. rewrite K4 in Q3, Q4.
  rewrite (com1_put s0 kfirst kupd mzero md c3 s4 s5 H5 L4). split; [reflexivity|]. rewrite Q1, Q3, Q4. cbn [value im_put im_set im_v].
  assert (Z1 : ki_dt s2 * IZR (est md ops s1) <> 0) by (apply Rmult_integral_contrapositive_currified; [exact Hd|apply IZR_neq; lia]).
  assert (Z2 : ki_dt s4 * IZR (est md ops' s3) <> 0) by (apply Rmult_integral_contrapositive_currified; [exact Hd'|apply IZR_neq; lia]).
  do 3 eexists. split; [reflexivity|]. split; [apply derivate_v_eq, Z1|]. split; [reflexivity|]. split; [apply derivate_v_eq, Z2|]. split; [reflexivity|apply derivate_v_eq, Z2].
Qed.

(** The value given a second time in one iteration replaces the first, but the derivative stays the one of
    the first. *)
Theorem C89_repeated_call_refuted md h (s s1 s2 s3 s4 : kin) o1 g1 ops g2 g3 : reached md h s -> mom_of o1 = Some g1 -> step md o1 s = Ok s1 ->
  without gives_mom ops -> run md ops s1 = Ok s2 -> (1 <= est md ops s1)%Z -> ki_dt s2 <> 0 -> step md (IMom g2) s2 = Ok s3 -> step md (IMom g3) s3 = Ok s4 ->
  value (ki_sigma s4) = Some g3 /\ exists d, value (ki_sigmad s4) = Some d /\ g2 = vadd g1 (vscal (ki_dt s2 * IZR (est md ops s1)) d) /\
  (g3 <> g2 -> g3 <> vadd g1 (vscal (ki_dt s2 * IZR (est md ops s1)) d)).
Proof.
  intros Hr E1 H1 N H2 Hn Hd H3 H4. destruct (C89_momentum_partial md h s s1 s2 s3 o1 g1 ops g2 Hr E1 H1 N H2 Hn Hd H3) as (_ & d & V & E).
  pose proof (reached_lag s0 k0 kfirst kupd mzero md h s Hr) as L. assert (U : is_update o1 = false) by (destruct o1; try discriminate; reflexivity).
  destruct (input_iter s0 kfirst kupd mzero md o1 s s1 H1 L U) as [L1 K1]. destruct (between s0 kfirst kupd mzero md ops s s1 s2 _ L K1 L1 H2 eq_refl) as [L2 K2].
  destruct (input_iter s0 kfirst kupd mzero md (IMom g2) s2 s3 H3 L2 eq_refl) as [L3 K3].
  rewrite (mom_put s0 kfirst kupd mzero md (IMom g3) s3 s4 g3 H4 eq_refl L3). split; [reflexivity|].
  destruct (mom_fd s0 kfirst kupd mzero md g3 s3 s4 g2 _ H4 L3 (mom_put s0 kfirst kupd mzero md (IMom g2) s2 s3 g2 H3 eq_refl L2)) as [_ F]. rewrite F by lia.
  exists d. split; [exact V|]. split; [exact E|]. intros X Y. apply X. rewrite Y. symmetry. exact E.
Qed.

(** C90. When the values given are those of a smooth motion at the times of two successive iterations, the
    derivative used is the one of the motion up to the sampling period times a bound of the next derivative. *)
Theorem C90_momentum_accuracy md h (s s1 s2 s3 : kin) o1 ops (f f1 f2 : R -> V3) (t B : R) : let T := ki_dt s2 * IZR (est md ops s1) in
  reached md h s -> mom_of o1 = Some (f (t - T)) -> step md o1 s = Ok s1 -> without gives_mom ops -> run md ops s1 = Ok s2 ->
  (1 <= est md ops s1)%Z -> 0 < ki_dt s2 -> step md (IMom (f t)) s2 = Ok s3 ->
  (forall x, t - T <= x <= t -> vderiv f x (f1 x) /\ vderiv f1 x (f2 x) /\ vbound (f2 x) B) ->
  exists d, value (ki_sigmad s3) = Some d /\ vbound (vsub d (f1 t)) (B * T).
Proof.
  intros T Hr E1 H1 N H2 Hn Hd H3 HB.
  assert (Hd' : ki_dt s2 <> 0) by lra.
  destruct (C89_momentum_partial md h s s1 s2 s3 o1 (f (t - T)) ops (f t) Hr E1 H1 N H2 Hn Hd' H3) as (_ & d & V & E).
  exists d. split; [exact V|]. apply (vfd_bound f f1 f2 t T B d); auto. unfold T. apply Rmult_lt_0_compat; [exact Hd|]. apply IZR_lt. lia.
Qed.
(** Three successive positions of the centre of mass: velocity and acceleration. *)
Theorem C90_com_accuracy md h (s s1 s2 s3 s4 s5 : kin) o1 ops ops' (f f1 f2 f3 : R -> V3) (t T B2 B3 : R) :
  reached md h s -> com_of o1 = Some (f (t - 2 * T)) -> step md o1 s = Ok s1 ->
  without gives_com ops -> run md ops s1 = Ok s2 -> est md ops s1 = 1%Z -> ki_dt s2 = T -> step md (ICom1 (f (t - T))) s2 = Ok s3 ->
  without gives_com ops' -> run md ops' s3 = Ok s4 -> est md ops' s3 = 1%Z -> ki_dt s4 = T -> step md (ICom1 (f t)) s4 = Ok s5 -> 0 < T ->
  (forall x, t - 2 * T <= x <= t -> vderiv f x (f1 x) /\ vderiv f1 x (f2 x) /\ vderiv f2 x (f3 x) /\ vbound (f2 x) B2 /\ vbound (f3 x) B3) ->
  exists v a, value (ki_com s5) = Some (f t) /\ value (ki_comd s5) = Some v /\ vbound (vsub v (f1 t)) (B2 * T) /\
    value (ki_comdd s5) = Some a /\ vbound (vsub a (f2 t)) (2 * B3 * T).
Proof.
  intros Hr E1 H1 N H2 Hn Hd H3 N' H4 Hn' Hd' H5 HT HB.
  assert (X1 : (1 <= est md ops s1)%Z) by lia. assert (X2 : ki_dt s2 <> 0) by lra. assert (X3 : (1 <= est md ops' s3)%Z) by lia. assert (X4 : ki_dt s4 <> 0) by lra.
  destruct (C89_com_position_partial md h s s1 s2 s3 s4 s5 o1 (f (t - 2 * T)) ops (f (t - T)) ops' (f t) Hr E1 H1 N H2 X1 X2 H3 N' H4 X3 X4 H5) as (V1 & v & v' & a & V2 & Q2 & V3 & Q3 & V4 & Q4). rewrite Hn, Hd in Q2. rewrite Hn', Hd' in Q3, Q4. rewrite Rmult_1_r in Q2, Q3, Q4.
  exists v', a. split; [exact V1|]. split; [exact V3|]. split; [|split; [exact V4|]].
  - apply (vfd_bound f f1 f2 t T B2 v' HT); [|exact Q3]. intros x Hx. destruct (HB x) as (A1 & A2 & A3 & A4 & A5); [lra|]. auto.
  - apply (vfd_bound2 f f1 f2 f3 t T B3 v v' a HT); auto. intros x Hx. destruct (HB x Hx) as (A1 & A2 & A3 & A4 & A5). auto.
Qed.

(** C91. A quantity given for the first time, without its derivative, is not taken as constant: the derivative
    is its difference with a default value over the sampling period. *)
Theorem C91_first_call_refuted md maxC maxI ds di dw dp (s : kin) dt : ki_init s0 k0 md maxC maxI ds di dw dp = Ok s -> dt <> 0 -> forall g i c v,
  exists s', run md [IDt dt; IMom g; IInertia i; ICom2 c v] s = Ok s' /\ value (ki_sigma s') = Some g /\ value (ki_I s') = Some i /\ value (ki_comd s') = Some v /\
    value (ki_sigmad s') = Some (vscal (1 / dt) g) /\ value (ki_Id s') = Some (mscal (1 / dt) (msub i m1)) /\ value (ki_comdd s') = Some (vscal (1 / dt) v) /\
    (g <> v0 -> value (ki_sigmad s') <> Some v0) /\ (i <> m1 -> value (ki_Id s') <> Some mz) /\ (v <> v0 -> value (ki_comdd s') <> Some v0).
Proof.
  intros E Hd g i c v. unfold ki_init in E. apply obind_Ok_inv in E. destruct E as (x & E & F). apply Ok_inj in F. subst s.
  unfold ko_init in E. apply obind_Ok_inv in E. destruct E as (? & _ & E). apply Ok_inj in E. subst x.
  assert (Z : 1 / dt <> 0) by (unfold Rdiv; rewrite Rmult_1_l; apply Rinv_neq_0_compat; exact Hd).
  assert (A0 : forall a, vscal (1 / dt) (vsub a v0) = vscal (1 / dt) a) by (intros [p q r]; c3).
  match goal with |- exists s', run md ?l ?s = Ok s' /\ _ =>
    assert (W : exists s', run md l s = Ok s' /\ value (ki_sigma s') = Some g /\ value (ki_I s') = Some i /\ value (ki_comd s') = Some v /\
      value (ki_sigmad s') = Some (vscal (1 / (dt * 1)) (vsub g v0)) /\ value (ki_Id s') = Some (mscal (1 / (dt * 1)) (msub i m1)) /\ value (ki_comdd s') = Some (vscal (1 / (dt * 1)) (vsub v v0)))
  end.
  { destruct md; eexists; (split; [reflexivity|]); (split; [reflexivity|]); (split; [reflexivity|]); (split; [reflexivity|]); (split; [reflexivity|]); (split; [reflexivity|]); reflexivity. }
  rewrite Rmult_1_r, !A0 in W. destruct W as (s' & W0 & W1 & W2 & W3 & W4 & W5 & W6). exists s'. rewrite W4, W5, W6.
  split; [exact W0|]. split; [exact W1|]. split; [exact W2|]. split; [exact W3|]. split; [reflexivity|]. split; [reflexivity|]. split; [reflexivity|].
  assert (V : forall w, w <> v0 -> Some (vscal (1 / dt) w) <> Some v0).
  { intros w Hw B. apply Hw. injection B as B1 B2 B3. destruct w as [p q r]. cbn [vx vy vz] in *. unfold v0.
    apply Rmult_integral in B1, B2, B3. f_equal; tauto. }
  split; [apply V|]. split; [|apply V].
  intros Hi B. apply Hi. assert (Q : msub i m1 = mz).
  { assert (Q : mscal (1 / dt) (msub i m1) = mz) by congruence. destruct (msub i m1) as [a0 a1 a2 a3 a4 a5 a6 a7 a8]. unfold mscal, mz in Q. cbn in Q. injection Q as B0 B1 B2 B3 B4 B5 B6 B7 B8.
    assert (N : forall y, 1 / dt * y = 0 -> y = 0) by (intros y Hy; apply Rmult_integral in Hy; destruct Hy; [contradiction|assumption]).
    apply N in B0, B1, B2, B3, B4, B5, B6, B7, B8. subst. reflexivity. }
  clear -Q. destruct i. unfold msub, mneg, mscal, madd, mz, m1 in *. cbn in *. injection Q as B0 B1 B2 B3 B4 B5 B6 B7 B8. f_equal; lra.
Qed.

(** C92. Which input calls succeed. The position of the centre of mass alone is accepted exactly when the
    centre of mass was given before; every other input call always succeeds. *)
Theorem C92_inputs_accepted_partial md h (s : kin) o : reached md h s -> (forall x, o <> IObs x) -> (existsb gives_com h = true \/ forall c, o <> ICom1 c) ->
  exists s', step md o s = Ok s'.
Proof.
  intros Hr N Hc. destruct (reached_items s0 k0 kfirst kupd mzero md h s Hr) as [It Ic]. apply step_total; auto. rewrite Ic. exact Hc.
Qed.
Theorem C92_com_position_refuted md h (s : kin) c : reached md h s -> existsb gives_com h = false ->
  step md (ICom1 c) s = match md with Debug => AssertFail | Release => UB end.
Proof.
  intros Hr Hc. assert (E : ki_com s = im_empty).
  { destruct Hr as (a & b & ds & di & dw & dp & si & E & H). destruct (init_items _ _ _ _ _ _ _ _ _ _ E) as (_ & _ & X & _). rewrite <- X.
    apply (keep_run s0 kfirst kupd mzero ki_com gives_com md) with (ops := h); auto; [intros o y y' A B; exact (proj1 (keep_com s0 kfirst kupd mzero md o y y' A B))|].
    unfold without. clear -Hc. induction h as [|o h IH]; [reflexivity|]. cbn [existsb forallb] in *. apply orb_false_iff in Hc. destruct Hc as [-> Hc]. cbn. auto. }
  pose proof (reached_lag s0 k0 kfirst kupd mzero md h s Hr) as L. destruct (kstart_lag s L) as [_ K].
  cbn [ki_step]. unfold ki_setCom1. change (ki_com (ki_start s)) with (ki_com s). rewrite E. destruct md; [reflexivity|].
  unfold im_time. cbn [im_empty im_set im_k boost_assert obind]. rewrite K.
  assert (P : (0 <= ke s)%Z).
  { destruct Hr as (a & b & ds & di & dw & dp & si & E' & H). apply init_lag in E'. destruct E' as (L' & _ & K0). destruct (run_iter s0 kfirst kupd mzero Release h si s H L') as [_ K'].
    assert (G : forall l (x : kin), (0 <= est Release l x)%Z). { induction l as [|o l IH]; intros x; cbn [estimations]; [lia|]. destruct (is_update o && pending x); destruct (step Release o x); try specialize (IH a0); lia. }
    specialize (G h si). lia. }
  rewrite (proj2 (Z.ltb_lt 0 (ke s + 1))) by lia. reflexivity.
Qed.

(** C93. A history whose inertia matrices are symmetric gives the same result when they are passed as vectors of
    six entries. *)
Theorem C93_vector6_inertia md maxC maxI ds di dw dp (s : kin) h : ki_init s0 k0 md maxC maxI ds di dw dp = Ok s -> Forall sym_op h ->
  run md (map with_six h) s = run md h s.
Proof.
  intros E Hh. destruct (init_items _ _ _ _ _ _ _ _ _ _ E) as (_ & _ & _ & _ & _ & X). apply init_lag in E. destruct E as (L & _).
  apply six_run; auto. exists m1, 0%Z. split; [exact X|reflexivity].
Qed.
End P.

(** ** Cases *)
Definition yinit md : outcome (kin R R M3 unit) := ki_init 0 0 md 1 1 (m1, m1, m1, m1) (tt, tt) tt tt.
Definition yrun md : list (ki_op R R M3 unit) -> kin R R M3 unit -> outcome (kin R R M3 unit) := ki_run 0 (fun _ k => Ok k) (fun _ _ _ k => Ok k) (fun _ => false) md.
Definition yest md := @estimations R 0 R (fun _ k => Ok k) (fun _ _ _ k => Ok k) M3 (fun _ => false) unit md.
Definition yupd : ki_op R R M3 unit := IObs (KUpdate (fun x _ => x)).
(** The hypotheses of C89 and C90: a momentum, two estimations with other data, a momentum. *)
Example C89_case md dt g1 g2 :
  (do s <- yinit md; do s1 <- yrun md [IDt dt; IMom g1] s; let l := [yupd; ICom3 v0 v0 v0; yupd; yupd] in
   do s2 <- yrun md l s1; do s3 <- yrun md [IMom g2] s2; Ok (yest md l s1, ki_dt s2, value (ki_sigma s3), value (ki_sigmad s3)))
  = Ok (2%Z, dt, Some g2, Some (derivate_v g1 g2 (dt * 2))).
Proof. destruct md; vm_compute; reflexivity. Qed.
Example C89_repeated_case md dt g1 g2 g3 :
  (do s <- yinit md; do s1 <- yrun md [IDt dt; IMom g1; yupd; IMom g2; IMom g3] s; Ok (value (ki_sigma s1), value (ki_sigmad s1))) = Ok (Some g3, Some (derivate_v g1 g2 (dt * 1))).
Proof. destruct md; vm_compute; reflexivity. Qed.
(** A motion for C90: constant acceleration. *)
Example C90_case (a v p : V3) t : vderiv (fun x => vadd p (vadd (vscal x v) (vscal (x * x / 2) a))) t (vadd v (vscal t a)) /\
  vderiv (fun x => vadd v (vscal x a)) t a /\ vderiv (fun _ => a) t v0 /\ vbound a (Rabs (vx a) + Rabs (vy a) + Rabs (vz a)) /\ vbound v0 0.
Proof.
  assert (D1 : forall c0 c1 c2 x, derivable_pt_lim (fun y => c0 + (y * c1 + y * y / 2 * c2)) x (c1 + x * c2)).
  { intros c0 c1 c2 x. replace (c1 + x * c2) with (0 + ((1 * c1 + x * 0) + ((1 * x + x * 1) / 2 * c2 + x * x / 2 * 0))) by field.
    apply (derivable_pt_lim_plus (fun _ => c0)); [apply derivable_pt_lim_const|]. apply (derivable_pt_lim_plus (fun y => y * c1) (fun y => y * y / 2 * c2)).
    - apply (derivable_pt_lim_mult id (fun _ => c1)); [apply derivable_pt_lim_id|apply derivable_pt_lim_const].
    - apply (derivable_pt_lim_mult (fun y => y * y / 2) (fun _ => c2)); [|apply derivable_pt_lim_const]. unfold Rdiv. replace ((1 * x + x * 1) * / 2) with ((1 * x + x * 1) * / 2 + x * x * 0) by ring.
      apply (derivable_pt_lim_mult (fun y => y * y) (fun _ => / 2)); [|apply derivable_pt_lim_const]. apply (derivable_pt_lim_mult id id); apply derivable_pt_lim_id. }
  assert (D2 : forall c0 c1 x, derivable_pt_lim (fun y => c0 + y * c1) x c1).
  { intros c0 c1 x. assert (Q : c1 = 0 + (1 * c1 + x * 0)) by ring. cut (derivable_pt_lim (fun y => c0 + y * c1) x (0 + (1 * c1 + x * 0))); [rewrite <- Q; auto|]. apply (derivable_pt_lim_plus (fun _ => c0) (fun y => y * c1)); [apply derivable_pt_lim_const|].
    apply (derivable_pt_lim_mult id (fun _ => c1)); [apply derivable_pt_lim_id|apply derivable_pt_lim_const]. }
  split; [repeat split; cbn; apply D1|]. split; [repeat split; cbn; apply D2|]. split; [repeat split; apply derivable_pt_lim_const|].
  pose proof (Rabs_pos (vx a)). pose proof (Rabs_pos (vy a)). pose proof (Rabs_pos (vz a)). unfold vbound, v0. cbn. rewrite Rabs_R0. repeat split; lra.
Qed.
Example C91_case : vscal (1 / (5 / 1000)) (mkV 0 0 1) = mkV 0 0 200.
Proof. unfold vscal. cbn. f_equal; field. Qed.
Example C92_case md c c' : (do s <- yinit md; do s1 <- yrun md [IMom v0; yupd; ICom2 c v0; yupd] s; do s2 <- yrun md [ICom1 c'] s1; Ok (value (ki_com s2))) = Ok (Some c').
Proof. destruct md; vm_compute; reflexivity. Qed.
Definition yops : list (ki_op R R M3 unit) := [IInertia (mkM 3 1 0 1 4 2 0 2 5); yupd; IInertia (mkM 3 1 1 1 4 2 1 2 5)].
Example C93_case : Forall sym_op yops /\ (do s <- yinit Debug; do s1 <- yrun Debug yops s; Ok (value (ki_I s1))) = Ok (Some (mkM 3 1 1 1 4 2 1 2 5)).
Proof. split; [unfold yops; repeat (apply Forall_cons; [try exact I; repeat split|]); apply Forall_nil|vm_compute; reflexivity]. Qed.

Print Assumptions C89_momentum_partial.
Print Assumptions C89_inertia_partial.
Print Assumptions C89_com_velocity_partial.
Print Assumptions C89_com_position_partial.
Print Assumptions C89_repeated_call_refuted.
Print Assumptions C90_momentum_accuracy.
Print Assumptions C90_com_accuracy.
Print Assumptions C91_first_call_refuted.
Print Assumptions C92_inputs_accepted_partial.
Print Assumptions C92_com_position_refuted.
Print Assumptions C93_vector6_inertia.
