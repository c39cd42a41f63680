(** Statements and lemmas for the convergence of the tilt estimator at rest. *)
From Coq Require Import Reals ZArith List Lra Lia Psatz.
From Verif Require Import Base Defs ZDO ZDOProofs Vec3 Tilt TiltProofs TiltConv PropTilt.
Import ListNotations.
Open Scope R_scope.

(** A sensor that does not turn in the world nor in the control frame and moves at a constant velocity: the gyrometer gives zero and the accelerometer
    the gravity along the tilt t. *)
Definition still (t : V3) : TY := (vscal (98 / 10) t, v0).
Definition velocity (e : TE) : V3 := mvec (mtr (t_R e)) (vadd (t_vc e) (t_vs e)).
(** The estimates: initial one, then one per measurement. *)
Definition estimates (e : TE) (t : V3) (x : TX) (X : nat -> TX) := forall n, fold_measurements e (repeat (still t) n) x = Ok (X n).
Definition vcv (f : nat -> V3) (l : V3) := Un_cv (fun n => vnorm (vsub (f n) l)) 0.

Lemma fold_snoc e y n x : fold_measurements e (repeat y (S n)) x = do x' <- fold_measurements e (repeat y n) x; t_update e y x'.
Proof.
  revert x. induction n as [|n IH]; intros x; [cbn; now destruct (t_update e y x)|].
  change (repeat y (S (S n))) with (y :: repeat y (S n)). cbn [fold_measurements]. change (repeat y (S n)) with (y :: repeat y n) at 2. cbn [fold_measurements].
  destruct (t_update e y x) as [x'| | |]; cbn [obind]; [apply IH|reflexivity..].
Qed.

Lemma estimates_step e t x X : estimates e t x X -> X 0%nat = x /\ forall n, t_update e (still t) (X n) = Ok (X (S n)).
Proof.
  intros H. split; [pose proof (H 0%nat) as E; cbn in E; now injection E|]. intros n. pose proof (H (S n)) as E. rewrite fold_snoc, (H n) in E. exact E.
Qed.

Lemma estimates_ex e t x : x_t x <> v0 -> exists X, estimates e t x X.
Proof.
  intros T. set (nx z := match t_update e (still t) z with Ok z' => z' | _ => z end).
  exists (fun n => Nat.iter n nx x).
  assert (G : forall n, x_t (Nat.iter n nx x) <> v0 /\ t_update e (still t) (Nat.iter n nx x) = Ok (Nat.iter (S n) nx x)).
  { intros n. assert (NZ : x_t (Nat.iter n nx x) <> v0).
    { induction n as [|n IH]; [exact T|]. cbn [Nat.iter nat_rect] in IH |- *. fold (Nat.iter n nx x) in IH |- *. set (z := Nat.iter n nx x) in *. unfold nx at 1.
      destruct (t_update_defined e (still t) z) as (z' & U); [now apply vsq_neq|]. rewrite U. apply t_update_unit, unit_sq in U.
      intros E. rewrite E in U. revert U. unfold vsq, vdot, v0; cbn. lra. }
    split; [exact NZ|]. destruct (t_update_defined e (still t) (Nat.iter n nx x)) as (z' & U); [now apply vsq_neq|].
    rewrite U. f_equal. change (Nat.iter (S n) nx x) with (nx (Nat.iter n nx x)). unfold nx at 1. now rewrite U. }
  intros n. induction n as [|n IH]; [reflexivity|]. rewrite fold_snoc, IH. cbn [obind]. apply G.
Qed.

Lemma x1_still e : t_ws e = v0 -> t_x1 e v0 = velocity e.
Proof. intros W. unfold t_x1, velocity. rewrite W. generalize (mvec (mtr (t_R e)) (vadd (t_vc e) (t_vs e))) (mtr (t_R e)) (t_p e). clear. c3. Qed.

Lemma linear_step e t x x' : t_ws e = v0 -> t_update e (still t) x = Ok x' ->
  let a := vsub (x_v x) (velocity e) in let b := vsub (x_tp x) t in
  vsub (x_v x') (velocity e) = vadd (vscal (1 - t_al e * t_dt e) a) (vscal (- (98 / 10 * t_dt e)) b) /\
  vsub (x_tp x') t = vadd b (vscal (t_be e * t_dt e) a).
Proof.
  intros W H a b. unfold t_update, t_normalize in H. destruct (Req_EM_T _ 0) as [|NZ]; [discriminate|]. injection H as <-. clear NZ.
  unfold t_euler, t_dx, still. cbn [x_v x_tp fst snd]. rewrite (x1_still e W). unfold a, b, grav.
  generalize (x_v x) (x_tp x) (velocity e) (t_al e) (t_be e) (t_dt e) t. clear. intros. split; d3; u3; f_equal; field.
Qed.


Lemma norm_le v : vnorm v <= Rabs (vx v) + Rabs (vy v) + Rabs (vz v).
Proof.
  pose proof (Rabs_pos (vx v)). pose proof (Rabs_pos (vy v)). pose proof (Rabs_pos (vz v)).
  apply Rsqr_incr_0_var; [|lra]. unfold vnorm. rewrite Rsqr_sqrt by apply vsq_pos. unfold vsq, vdot, Rsqr.
  assert (E : forall a, a * a = Rabs a * Rabs a) by (intros; rewrite <- Rabs_mult; symmetry; apply Rabs_pos_eq, Rle_0_sqr).
  rewrite (E (vx v)), (E (vy v)), (E (vz v)).
  pose proof (Rmult_le_pos _ _ H H0). pose proof (Rmult_le_pos _ _ H H1). pose proof (Rmult_le_pos _ _ H0 H1). lra.
Qed.
Lemma le_norm v : Rabs (vx v) <= vnorm v.
Proof.
  apply Rsqr_incr_0_var; [|apply sqrt_pos]. rewrite <- Rsqr_abs. unfold vnorm. rewrite Rsqr_sqrt by apply vsq_pos.
  pose proof (Rle_0_sqr (vy v)). pose proof (Rle_0_sqr (vz v)). unfold vsq, vdot, Rsqr in *. lra.
Qed.
Lemma norm_pos v : 0 <= vnorm v. Proof. apply sqrt_pos. Qed.

Lemma decays_norm (f : nat -> V3) : decays (fun n => vx (f n)) -> decays (fun n => vy (f n)) -> decays (fun n => vz (f n)) -> decays (fun n => vnorm (f n)).
Proof.
  intros A B C. apply (decays_le (fun k => Rabs (Rabs (vx (f k)) + Rabs (vy (f k))) + Rabs (vz (f k)))).
  - intros k. pose proof (Rabs_pos (vx (f k))). pose proof (Rabs_pos (vy (f k))). pose proof (Rabs_pos (vz (f k))). pose proof (norm_le (f k)). pose proof (norm_pos (f k)).
    rewrite (Rabs_pos_eq (Rabs (vx (f k)) + Rabs (vy (f k)))) by lra. rewrite (Rabs_pos_eq (vnorm (f k))) by lra. rewrite (Rabs_pos_eq (_ + Rabs (vz (f k)))) by lra. lra.
  - apply decays_add; [|exact C]. now apply decays_add.
Qed.

Definition gains_ok (e : TE) := 0 < 98 / 10 * t_be e * t_dt e < t_al e /\ 2 * t_al e * t_dt e < 4 + 98 / 10 * t_be e * t_dt e * t_dt e.

Lemma linear_decays e t x X : 0 < t_dt e -> t_ws e = v0 -> gains_ok e -> estimates e t x X ->
  decays (fun n => vnorm (vsub (x_v (X n)) (velocity e))) /\ decays (fun n => vnorm (vsub (x_tp (X n)) t)).
Proof.
  intros D W (G1 & G2) H. destruct (estimates_step e t x X H) as (_ & HS).
  assert (P : forall f : V3 -> R, (forall k a b, f (vadd (vscal k a) b) = k * f a + f b) -> 
     decays (fun n => f (vsub (x_v (X n)) (velocity e))) /\ decays (fun n => f (vsub (x_tp (X n)) t))).
  { intros f F. assert (F1 : forall k a, f (vscal k a) = k * f a).
    { intros k a. assert (Z : f v0 = 0). { pose proof (F 1 v0 v0) as Q. replace (vadd (vscal 1 v0) v0) with v0 in Q by (u3; f_equal; ring). lra. }
      pose proof (F k a v0) as Q. replace (vadd (vscal k a) v0) with (vscal k a) in Q by (clear; c3). lra. }
    apply (pair_decays (t_al e * t_dt e) (98 / 10 * t_dt e) (t_be e * t_dt e)).
    - intros k. destruct (linear_step e t _ _ W (HS k)) as (L & _). rewrite L, F, F1. ring.
    - intros k. destruct (linear_step e t _ _ W (HS k)) as (_ & L). rewrite L.
      replace (vadd (vsub (x_tp (X k)) t) (vscal (t_be e * t_dt e) (vsub (x_v (X k)) (velocity e)))) with
         (vadd (vscal (t_be e * t_dt e) (vsub (x_v (X k)) (velocity e))) (vsub (x_tp (X k)) t)) by (generalize (vsub (x_v (X k)) (velocity e)) (vsub (x_tp (X k)) t); clear; c3).
      rewrite F. ring.
    - split; nra.
    - nra. }
  destruct (P vx) as (A1 & B1); [reflexivity|]. destruct (P vy) as (A2 & B2); [reflexivity|]. destruct (P vz) as (A3 & B3); [reflexivity|].
  split; now apply decays_norm.
Qed.

Lemma linear_necessary e t : 0 < t_dt e -> t_ws e = v0 ->
  (forall x X, x_t x <> v0 -> estimates e t x X -> vcv (fun n => x_v (X n)) (velocity e) /\ vcv (fun n => x_tp (X n)) t) -> gains_ok e.
Proof.
  intros D W H.
  destruct (pair_necessary (t_al e * t_dt e) (98 / 10 * t_dt e) (t_be e * t_dt e)) as ((N1 & N2) & N3).
  - lra.
  - intros (a, b). set (x := mkT (vadd (velocity e) (vscal a ux)) (vadd t (vscal b ux)) ux).
    assert (U : x_t x <> v0) by (intros E; injection E; lra).
    destruct (estimates_ex e t x U) as (X & HX). destruct (H x X U HX) as (C1 & C2). destruct (estimates_step e t x X HX) as (X0 & HS).
    assert (E : forall n, pr (t_al e * t_dt e) (98 / 10 * t_dt e) (t_be e * t_dt e) (a, b) n = (vx (vsub (x_v (X n)) (velocity e)), vx (vsub (x_tp (X n)) t))).
    { induction n as [|n IH].
      - rewrite X0. cbn [pr x x_v x_tp]. generalize (velocity e). clear. intros v. d3; u3. f_equal; ring.
      - cbn [pr]. rewrite IH. destruct (linear_step e t _ _ W (HS n)) as (L1 & L2). rewrite L1, L2. cbn [fst snd].
        generalize (vsub (x_v (X n)) (velocity e)) (vsub (x_tp (X n)) t) (t_al e) (t_be e) (t_dt e). clear. intros. d3; u3. f_equal; ring. }
    assert (Q : forall f : nat -> V3, Un_cv (fun n => vnorm (f n)) 0 -> Un_cv (fun n => vx (f n)) 0).
    { intros f C eps He. destruct (C eps He) as (N & HN). exists N. intros n Hn. specialize (HN n Hn). unfold R_dist in *. rewrite Rminus_0_r in *.
      rewrite Rabs_pos_eq in HN by apply norm_pos. pose proof (le_norm (f n)). lra. }
    split; eapply Un_cv_ext; [| |intros n; rewrite E; reflexivity| ]; cycle 2.
    all: try (intros n; rewrite E; reflexivity).
    all: cbn [fst snd]; apply Q; assumption.
  - split; [split|].
    + nra.
    + apply (Rmult_lt_reg_r (t_dt e)); [exact D|]. nra.
    + nra.
Qed.

Lemma dot_unit_bounds a b : vsq a = 1 -> vsq b = 1 -> -1 <= vdot a b <= 1.
Proof. intros A B. pose proof (cauchy a b) as C. rewrite A, B in C. apply abs_le; lra. Qed.

Lemma cv_dot (f : nat -> V3) l (c : nat -> R) : (forall n, vsq (vsub (f n) l) <= 2 * (1 - c n)) -> Un_cv c 1 -> vcv f l.
Proof.
  intros H C eta He. unfold Rgt in He. destruct (C (eta * eta / 4)) as (N & HN); [nra|].
  exists N. intros n Hn. specialize (HN n Hn). unfold R_dist in *. rewrite Rminus_0_r. rewrite Rabs_pos_eq by apply norm_pos.
  apply Rabs_def2 in HN. specialize (H n). unfold vnorm.
  apply Rsqr_incrst_0; [|apply sqrt_pos|lra]. rewrite Rsqr_sqrt by apply vsq_pos. unfold Rsqr. nra.
Qed.

Lemma sq_sub a b : vsq (vsub a b) = vsq a + vsq b - 2 * vdot a b.
Proof. c3. Qed.
Lemma sq_subn a b : vsq (vsub a (vneg b)) = vsq a + vsq b + 2 * vdot a b.
Proof. c3. Qed.
Lemma sub0_eq a b : vsub a b = v0 -> a = b.
Proof. intros W. d3. unfold vsub, v0 in W. cbn in W. injection W as W1 W2 W3. f_equal; lra. Qed.
Section Dich.
Variables (e : TE) (t : V3) (X : nat -> TX).
Hypothesis HS : forall n, t_update e (still t) (X n) = Ok (X (S n)).
Hypothesis Ut : vsq t = 1.
Hypothesis Hh : 0 < t_ga e * t_dt e < 2.
Hypothesis U0 : vsq (x_t (X 0%nat)) = 1.
Lemma unit_all n : vsq (x_t (X n)) = 1.
Proof. destruct n as [|n]; [exact U0|]. pose proof (HS n) as U. now apply t_update_unit, unit_sq in U. Qed.
Lemma tilt_dichotomy_unit : vcv (fun n => x_tp (X n)) t -> vcv (fun n => x_t (X n)) t \/ vcv (fun n => x_t (X n)) (vneg t).
Proof.
  intros C. set (h := t_ga e * t_dt e) in *.
  destruct (dichotomy (h * (1 - h / 2)) (fun n => vdot (x_t (X n)) t) (fun n => vnorm (vsub (x_tp (X n)) t))) as [L|L].
  - nra.
  - intros k. apply dot_unit_bounds; [apply unit_all|exact Ut].
  - intros k. apply norm_pos.
  - exact C.
  - intros k Hk. apply (update_tilt e (fst (still t)) t (X k) (X (S k))); try assumption; [apply unit_all|split; [apply norm_pos|exact Hk]| |apply HS].
    right. symmetry. apply sqrt_sqrt, vsq_pos.
  - intros k Hk. apply (update_tilt e (fst (still t)) t (X k) (X (S k))); try assumption; [apply unit_all|split; [apply norm_pos|exact Hk]| |apply HS].
    right. symmetry. apply sqrt_sqrt, vsq_pos.
  - left. apply (cv_dot _ _ (fun n => vdot (x_t (X n)) t)); [|exact L]. intros n. right.
    rewrite sq_sub, unit_all, Ut. ring.
  - right. apply (cv_dot _ _ (fun n => - vdot (x_t (X n)) t)).
    + intros n. right.
      rewrite sq_subn, unit_all, Ut. ring.
    + replace 1 with (- -1) by ring. now apply CV_opp.
Qed.
Lemma tilt_monotone : (forall n, x_tp (X n) = t) -> x_t (X 0%nat) <> vneg t -> vcv (fun n => x_t (X n)) t.
Proof.
  intros T N.
  assert (Z : forall n, vsq (vsub (x_tp (X n)) t) = 0) by (intros n; rewrite T, sq_sub; unfold vsq; ring).
  assert (C : vcv (fun n => x_tp (X n)) t).
  { intros eps He. exists 0%nat. intros n _. unfold R_dist, vnorm. rewrite Z, sqrt_0, Rminus_0_r, Rabs_R0. exact He. }
  destruct (tilt_dichotomy_unit C) as [L|L]; [exact L|exfalso].
  assert (M : forall n, vdot (x_t (X 0%nat)) t <= vdot (x_t (X n)) t).
  { induction n as [|n IH]; [lra|].
    destruct (update_tilt e (fst (still t)) t (X n) (X (S n)) 0 Hh (unit_all n) Ut ltac:(lra) ltac:(rewrite Z; lra) (HS n)) as (Q & _). lra. }
  set (s := vsq (vsub (x_t (X 0%nat)) (vneg t))).
  assert (E : forall n, vsq (vsub (x_t (X n)) (vneg t)) = 2 + 2 * vdot (x_t (X n)) t).
  { intros n. rewrite sq_subn, unit_all, Ut. ring. }
  assert (SP : 0 < s).
  { destruct (Rle_lt_or_eq_dec 0 s (vsq_pos _)) as [P|P]; [exact P|exfalso]. symmetry in P. apply (fun H => vsq_neq (vsub (x_t (X 0%nat)) (vneg t)) H P).
    intros W. apply N. now apply sub0_eq. }
  destruct (L (sqrt s)) as (K & HK); [now apply sqrt_lt_R0|]. specialize (HK K (Nat.le_refl K)). unfold R_dist in HK. rewrite Rminus_0_r, Rabs_pos_eq in HK by apply norm_pos.
  unfold vnorm in HK. apply sqrt_lt_0_alt in HK. unfold s in HK. rewrite !E in HK. specialize (M K). lra.
Qed.
End Dich.

Lemma vcv_unshift (f : nat -> V3) l : vcv (fun n => f (S n)) l -> vcv f l.
Proof. intros H. exact (cv_unshift (fun n => vnorm (vsub (f n) l)) 0 H). Qed.
Lemma vcv_shift (f : nat -> V3) l : vcv f l -> vcv (fun n => f (S n)) l.
Proof. intros H. exact (cv_shift (fun n => vnorm (vsub (f n) l)) 0 H). Qed.
Lemma unit_vsq t : vnorm t = 1 -> vsq t = 1.
Proof. apply unit_sq. Qed.
