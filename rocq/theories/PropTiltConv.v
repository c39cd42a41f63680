(** Property C160: the tilt estimator converges at rest. *)
From Coq Require Import Reals ZArith List Lra Lia Psatz.
From Verif Require Import Base Defs ZDO ZDOProofs Vec3 Tilt TiltProofs TiltConv PropTilt TiltConvThms.
Import ListNotations.
Open Scope R_scope.

(** C160. The sensor does not turn and moves at a constant velocity: the accelerometer gives 9.8 t, t the unit tilt, and the gyrometer zero ([still t]). The velocity and
    the intermediate tilt tend to the true ones from every initial estimate exactly when 0 < 9.8 beta dt < alpha and 2 alpha dt < 4 + 9.8 beta dt^2. *)
Theorem C160_linear_part_exactly_when : forall e t, 0 < t_dt e -> t_ws e = v0 ->
  ((forall x X, x_t x <> v0 -> (forall n, fold_measurements e (repeat (still t) n) x = Ok (X n)) ->
      vcv (fun n => x_v (X n)) (mvec (mtr (t_R e)) (vadd (t_vc e) (t_vs e))) /\ vcv (fun n => x_tp (X n)) t) <->
   (0 < 98 / 10 * t_be e * t_dt e < t_al e /\ 2 * t_al e * t_dt e < 4 + 98 / 10 * t_be e * t_dt e * t_dt e)).
Proof.
  intros e t D W. split; intros H.
  - exact (linear_necessary e t D W H).
  - intros x X T HX. destruct (linear_decays e t x X D W H HX) as (A & B). split; now apply decays_cv.
Qed.
Print Assumptions C160_linear_part_exactly_when.

(** C160. With such gains, gamma dt between 0 and 2 and calls of setMeasurement and getEstimatedState for each measurement: the velocity and the intermediate tilt converge
    at a geometric rate, and the tilt tends to the true one or to its opposite. *)
Theorem C160_estimates_converge : forall md (s : tz) x k t, z_n s = 9%Z -> z_m s = 6%Z -> z_p s = 0%Z -> z_x s = im_put x k -> ia_v (z_y s) = [] -> x_t x <> v0 ->
  let e := z_e s in vnorm t = 1 -> 0 < t_dt e -> t_ws e = v0 ->
  0 < 98 / 10 * t_be e * t_dt e < t_al e -> 2 * t_al e * t_dt e < 4 + 98 / 10 * t_be e * t_dt e * t_dt e -> 0 < t_ga e * t_dt e < 2 ->
  exists X, (forall n, exists s', t_run md (feed k (repeat (still t) n)) s = Ok s' /\ z_x s' = im_put (X n) (k + Z.of_nat n)%Z) /\
    (exists C r, 0 <= r < 1 /\ forall n, vnorm (vsub (x_v (X n)) (mvec (mtr (t_R e)) (vadd (t_vc e) (t_vs e)))) <= C * r ^ n /\ vnorm (vsub (x_tp (X n)) t) <= C * r ^ n) /\
    (vcv (fun n => x_t (X n)) t \/ vcv (fun n => x_t (X n)) (vneg t)).
Proof.
  intros md s x k t N M P EX EY T e Ut D W G1 G2 Hh.
  destruct (estimates_ex e t x T) as (X & HX). exists X.
  destruct (linear_decays e t x X D W (conj G1 G2) HX) as (A & B). destruct (estimates_step e t x X HX) as (X0 & HS).
  split; [|split].
  - intros n. destruct (C41_one_by_one md (repeat (still t) n) s x k N M P EX EY T) as (s' & x' & R1 & R2 & R3). fold e in R3. rewrite (HX n) in R3. injection R3 as <-.
    exists s'. split; [exact R1|]. now rewrite R2, repeat_length.
  - pose proof (decays_add _ _ A B) as (C & r & HC & Hr & H). exists C, r. split; [exact Hr|]. intros n. specialize (H n).
    pose proof (norm_pos (vsub (x_v (X n)) (velocity e))). pose proof (norm_pos (vsub (x_tp (X n)) t)). cbv beta in H.
    rewrite !(Rabs_pos_eq (vnorm _)) in H by assumption. rewrite Rabs_pos_eq in H by lra. unfold velocity in *. split; lra.
  - apply decays_cv in B.
    destruct (tilt_dichotomy_unit e t (fun n => X (S n)) (fun n => HS (S n)) (unit_vsq t Ut) Hh) as [L|L].
    + pose proof (HS 0%nat) as U. now apply t_update_unit, unit_sq in U.
    + exact (vcv_shift (fun n => x_tp (X n)) t B).
    + left. now apply vcv_unshift.
    + right. now apply vcv_unshift.
Qed.
Print Assumptions C160_estimates_converge.

(** C160. If the velocity and the intermediate tilt are right, the tilt converges to the true one from every unit tilt but its opposite. *)
Theorem C160_tilt_converges : forall e t x X, vnorm t = 1 -> 0 < t_dt e -> t_ws e = v0 -> 0 < t_ga e * t_dt e < 2 ->
  x_v x = mvec (mtr (t_R e)) (vadd (t_vc e) (t_vs e)) -> x_tp x = t -> vnorm (x_t x) = 1 -> x_t x <> vneg t ->
  (forall n, fold_measurements e (repeat (still t) n) x = Ok (X n)) -> vcv (fun n => x_t (X n)) t.
Proof.
  intros e t x X Ut D W Hh Ev Et Ux N HX. destruct (estimates_step e t x X HX) as (X0 & HS).
  apply (tilt_monotone e t X HS (unit_vsq t Ut) Hh); [rewrite X0; now apply unit_sq| |now rewrite X0].
  assert (Q : forall n, vsub (x_v (X n)) (velocity e) = v0 /\ vsub (x_tp (X n)) t = v0).
  { induction n as [|n (I1 & I2)].
    - rewrite X0, Ev, Et. unfold velocity. generalize (mvec (mtr (t_R e)) (vadd (t_vc e) (t_vs e))) t. clear. intros. split; c3.
    - destruct (linear_step e t _ _ W (HS n)) as (L1 & L2). rewrite I1, I2 in L1, L2. rewrite L1, L2. clear. split; c3. }
  intros n. apply sub0_eq, Q.
Qed.
Print Assumptions C160_tilt_converges.

(** C160. The opposite tilt is not corrected, whatever the gains: the estimate stays upside down. *)
Theorem C160_opposite_tilt_stays : forall e t x, vnorm t = 1 -> t_ws e = v0 ->
  x_v x = mvec (mtr (t_R e)) (vadd (t_vc e) (t_vs e)) -> x_tp x = t -> x_t x = vneg t -> forall n, fold_measurements e (repeat (still t) n) x = Ok x.
Proof.
  intros e t x Ut W Ev Et Ex.
  assert (U : t_update e (still t) x = Ok x).
  { assert (E : t_euler e (fst (still t)) (snd (still t)) x = x).
    { unfold t_euler, t_dx, still. cbn [fst snd]. rewrite (x1_still e W). unfold velocity. rewrite <- Ev. destruct x as [a b c]. cbn [x_v x_tp x_t] in *. subst b c.
      generalize (t_al e) (t_be e) (t_ga e) (t_dt e). clear. unfold grav. intros. f_equal; d3; u3; f_equal; field. }
    unfold t_update. rewrite E. unfold t_normalize. assert (N1 : vnorm (x_t x) = 1).
    { rewrite Ex, <- Ut. unfold vnorm. f_equal. generalize t. clear. c3. }
    rewrite N1. destruct (Req_EM_T 1 0); [lra|]. destruct x as [a b c]. cbn [x_v x_tp x_t]. do 2 f_equal. rewrite Rinv_1. clear. c3. }
  induction n as [|n IH]; [reflexivity|]. cbn [repeat fold_measurements]. now rewrite U.
Qed.
Print Assumptions C160_opposite_tilt_stays.

(** C160. Hence convergence from every tilt is false, with gains that satisfy the conditions and everything else exact. *)
Theorem C160_converges_from_every_tilt_refuted : exists e t x X, 0 < 98 / 10 * t_be e * t_dt e < t_al e /\ 2 * t_al e * t_dt e < 4 + 98 / 10 * t_be e * t_dt e * t_dt e /\
  0 < t_ga e * t_dt e < 2 /\ vnorm t = 1 /\ x_v x = v0 /\ x_tp x = t /\ x_t x <> v0 /\ (forall n, fold_measurements e (repeat (still t) n) x = Ok (X n)) /\ ~ vcv (fun n => x_t (X n)) t.
Proof.
  set (e := mkTE 10 1 5 (5 / 1000) v0 m1 v0 v0 v0). set (x := mkT v0 uz (vneg uz)).
  assert (U : vnorm uz = 1) by (unfold vnorm, vsq, vdot, uz; cbn; replace (0 * 0 + 0 * 0 + 1 * 1) with 1 by ring; apply sqrt_1).
  exists e, uz, x, (fun _ => x). cbn [e t_be t_dt t_al t_ga]. split; [lra|]. split; [lra|]. split; [lra|]. split; [exact U|]. split; [reflexivity|]. split; [reflexivity|].
  split; [intros E; injection E; lra|]. split.
  - apply (C160_opposite_tilt_stays e uz x U); try reflexivity. cbn [e t_R t_vc t_vs x x_v]. clear. c3.
  - intros C. destruct (C 1 Rlt_0_1) as (N & H). specialize (H N (Nat.le_refl N)). unfold R_dist in H. rewrite Rminus_0_r, Rabs_pos_eq in H by apply norm_pos.
    unfold vnorm in H. rewrite <- sqrt_1 in H. apply sqrt_lt_0_alt in H. revert H. cbn [x x_t]. u3. cbn. lra.
Qed.
Print Assumptions C160_converges_from_every_tilt_refuted.

(** alpha = 10, beta = 1, gamma = 5, dt = 5 ms; a new estimator started horizontally, the tilt being vertical. *)
Example C160_case : exists s x, t_run Debug [TZ (ZSetState (mkT ux uy ux) 0%Z)] (t_init 10 1 5) = Ok s /\
  z_x s = im_put x 0%Z /\ exists X, (forall n, exists s', t_run Debug (feed 0 (repeat (still uz) n)) s = Ok s' /\ z_x s' = im_put (X n) (Z.of_nat n)) /\
    vcv (fun n => x_v (X n)) v0 /\ vcv (fun n => x_tp (X n)) uz /\ (vcv (fun n => x_t (X n)) uz \/ vcv (fun n => x_t (X n)) (vneg uz)).
Proof.
  eexists _, (mkT ux uy ux). split; [reflexivity|]. split; [reflexivity|].
  match goal with |- exists X, (forall n, exists s', t_run _ _ ?s0 = _ /\ _) /\ _ => set (s := s0) end.
  assert (NZ : x_t (mkT ux uy ux) <> v0) by (intros E; injection E; lra).
  assert (U : vnorm uz = 1) by (unfold vnorm, vsq, vdot, uz; cbn; replace (0 * 0 + 0 * 0 + 1 * 1) with 1 by ring; apply sqrt_1).
  destruct (C160_estimates_converge Debug s (mkT ux uy ux) 0%Z uz) as (X & H1 & (C & r & Hr & H2) & H3);
    try reflexivity; try exact NZ; try exact U; cbn [s z_e t_dt t_be t_al t_ga t_ws with_x with_y with_u t_init z_init]; try lra.
  exists X. split; [exact H1|].
  assert (V : mvec (mtr (t_R (z_e s))) (vadd (t_vc (z_e s)) (t_vs (z_e s))) = v0) by (change (z_e s) with (mkTE 10 1 5 (5 / 1000) v0 m1 v0 v0 v0); cbn [t_R t_vc t_vs]; clear; c3).
  rewrite V in H2.
  assert (L : forall f : nat -> V3, forall l, (forall n, vnorm (vsub (f n) l) <= C * r ^ n) -> vcv f l).
  { intros f l H. apply decays_cv. exists (Rabs C), r. split; [apply Rabs_pos|]. split; [exact Hr|]. intros k. specialize (H k).
    rewrite Rabs_pos_eq by apply norm_pos. pose proof (Rle_abs C). assert (0 <= r ^ k) by (apply pow_le; lra). nra. }
  split; [apply L; apply H2|]. split; [apply L; apply H2|exact H3].
Qed.
Example C160_tilt_case : exists e x X, 0 < t_ga e * t_dt e < 2 /\ x_t x = ux /\ (forall n, fold_measurements e (repeat (still uz) n) x = Ok (X n)) /\ vcv (fun n => x_t (X n)) uz.
Proof.
  set (e := mkTE 10 1 5 (5 / 1000) v0 m1 v0 v0 v0). set (x := mkT v0 uz ux).
  assert (NZ : x_t x <> v0) by (intros E; injection E; lra).
  assert (U : vnorm uz = 1) by (unfold vnorm, vsq, vdot, uz; cbn; replace (0 * 0 + 0 * 0 + 1 * 1) with 1 by ring; apply sqrt_1).
  assert (U' : vnorm ux = 1) by (unfold vnorm, vsq, vdot, ux; cbn; replace (1 * 1 + 0 * 0 + 0 * 0) with 1 by ring; apply sqrt_1).
  destruct (estimates_ex e uz x NZ) as (X & HX). exists e, x, X. split; [cbn; lra|]. split; [reflexivity|]. split; [exact HX|].
  apply (C160_tilt_converges e uz x X U); try reflexivity; try exact U'; try (cbn; lra); try exact HX.
  - cbn [e t_R t_vc t_vs x x_v]. clear. c3.
  - cbn. intros E. injection E. lra.
Qed.
