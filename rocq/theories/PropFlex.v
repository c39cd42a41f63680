(** Properties of the flexible base (C58, C60, C61, C102 to C112, C120 to C122). *)
From Coq Require Import ZArith List Bool Reals Lia Lra.
From Verif Require Import Base Vec3 Rot SpecRot RotProofs RotProofs2 RotProofs3 SpecKine KineProofs2 ExpDeriv Kine Sensors KinDyn KinDynMotion ImuSys SpecImu ImuProofs ImuThms FlexSys SpecFlex FlexDyn FlexProofs FlexThms.
Import ListNotations.
Open Scope R_scope.

(** ** C58 *)
(** Whatever was called before, on two objects with the same settings and noise, the calls return the same for the same arguments: the
    cached rotations have no effect. The rotation used is that of the vector given (C60, C102, C108). *)
Theorem C58_cached_rotation_flex nz md md1 md2 dt1 dt2 ops1 ops2 s1 s2 x u k :
  f_run nz md1 ops1 (f_init dt1) = Ok s1 -> f_run nz md2 ops2 (f_init dt2) = Ok s2 -> f_cfg s1 = f_cfg s2 ->
  (f_pn s1 = None -> f_pn s2 = None -> out (f_step nz md (FState x u) s1) = out (f_step nz md (FState x u) s2)) /\
  (f_eff s1 = f_eff s2 -> a_noise (f_sens s1) = a_noise (f_sens s2) -> a_noise (f_sens s1) = None \/ a_calls (f_sens s1) = a_calls (f_sens s2) ->
    out (f_step nz md (FMeas x u k) s1) = out (f_step nz md (FMeas x u k) s2)) /\
  out (f_step nz md (FAcc x u) s1) = out (f_step nz md (FAcc x u) s2) /\
  out (f_step nz md (FMomF x u) s1) = out (f_step nz md (FMomF x u) s2) /\
  out (f_step nz md (FMomK x u) s1) = out (f_step nz md (FMomK x u) s2) /\
  (length x = 35%nat -> (48 + 12 * f_nc (f_cfg s1) <= length u)%nat -> out (f_step nz md (FForcesOf x u) s1) = out (f_step nz md (FForcesOf x u) s2)).
Proof.
  intros R1 R2 Ec. apply reach_wf in R1, R2.
  assert (Es : f_sizes md x u s1 = f_sizes md x u s2) by (unfold f_sizes; now rewrite Ec).
  repeat match goal with |- _ /\ _ => split end.
  - intros N1 N2. rewrite !out_state by assumption. now rewrite Es, Ec, N1, N2.
  - intros Ee En Hc. rewrite !out_meas by assumption. rewrite Es, Ec, Ee, En. destruct Hc as [Hc|Hc]; [|now rewrite Hc]. rewrite En in Hc. now rewrite Hc.
  - rewrite !out_acc by assumption. now rewrite Es, Ec.
  - rewrite !out_momf by assumption. now rewrite Es, Ec.
  - rewrite !out_momk by assumption. now rewrite Es, Ec.
  - intros Lx Lu. rewrite !out_forces by (try assumption; now rewrite <- Ec). now rewrite Ec.
Qed.
(** An object that computed forces in two other positions, and a new one. *)
Definition rest35 : list R := repeat 0 35.
Definition turned (a : R) : list R := [0; 0; 0; a; 0; 0] ++ repeat 0 29.
Example C58_case_flex : exists s1 s2, f_run (fun _ _ l => Ok l) Debug [FSet (SetModel CElastic); FContacts 1; FForcesOf (turned 1) (repeat 1 60); FForcesOf (turned 2) (repeat 1 60); FSet (SetMass 50)] (f_init 1) = Ok s1 /\
  f_run (fun _ _ l => Ok l) Release [FSet (SetMass 50); FContacts 1; FSet (SetModel CElastic)] (f_init 1) = Ok s2 /\ f_cfg s1 = f_cfg s2 /\ f_pn s1 = None /\ f_pn s2 = None /\
  f_eff s1 = f_eff s2 /\ a_noise (f_sens s1) = a_noise (f_sens s2) /\ a_noise (f_sens s1) = None.
Proof.
  set (nz := fun (_ _ : nat) (l : list R) => Ok l).
  assert (H : forall s x u, fwf s -> has_model (f_cfg s) -> f_nc (f_cfg s) = 1%nat -> length x = 35%nat -> length u = 60%nat -> exists y s', f_step nz Debug (FForcesOf x u) s = Ok (y, s') /\
     f_cfg s' = f_cfg s /\ f_pn s' = f_pn s /\ f_eff s' = f_eff s /\ f_sens s' = f_sens s).
  { intros s x u W M Hn Lx Lu. cbn [f_step]. unfold f_forcesOf. rewrite Lx, Lu, Hn. cbn [Nat.mul Nat.add Nat.leb eigen_assert obind].
    destruct (getrot_ok 0 (seg3 x 3) (f_cache s) (proj1 W)) as (k & E & C). rewrite E.
    destruct (forces_ok Debug (f_cfg s) (contacts_of 1 u) (seg3 x 0) (seg3 x 6) (seg3 x 3) (rv_mat (seg3 x 3)) (seg3 x 9) k C) as (k2 & C2 & F). rewrite F.
    destruct (forces_total Debug (f_cfg s) u (seg3 x 0) (seg3 x 6) (seg3 x 3) (rv_mat (seg3 x 3)) (seg3 x 9) M) as (fc & tc & Ef); [lia|]. rewrite Hn in Ef. rewrite Ef. cbn [obind].
    unfold f_getForces. cbn [with_work f_cfg]. rewrite Hn. cbn [Nat.leb nbModeledMax eigen_assert obind]. eexists _, _. split; [reflexivity|]. auto. }
  cbn [f_run f_step obind].
  match goal with |- context [f_forcesOf Debug (turned 1) _ ?s] => set (s0 := s) end.
  assert (W0 : fwf s0) by (apply (reach_wf nz Debug 1 [FSet (SetModel CElastic); FContacts 1]); reflexivity).
  destruct (H s0 (turned 1) (repeat 1 60) W0 (or_introl eq_refl) eq_refl eq_refl eq_refl) as (y1 & t1 & E1 & A1 & A2 & A3 & A4).
  pose proof (step_wf nz Debug (FForcesOf (turned 1) (repeat 1 60)) _ _ _ W0 E1) as W1.
  destruct (H t1 (turned 2) (repeat 1 60) W1) as (y2 & t2 & E2 & B1 & B2 & B3 & B4); [rewrite A1; now left|now rewrite A1|reflexivity|reflexivity|].
  cbn [f_step] in E1, E2. destruct (f_forcesOf Debug (turned 1) (repeat 1 60) s0) as [[q1 r1]| | |]; try discriminate. cbn [obind] in *. inversion E1; subst.
  destruct (f_forcesOf Debug (turned 2) (repeat 1 60) t1) as [[q2 r2]| | |]; try discriminate. cbn [obind] in *. inversion E2; subst.
  eexists _, _. split; [reflexivity|]. split; [reflexivity|]. cbn [with_cfg f_cfg f_pn f_eff f_sens]. rewrite B1, A1, B2, A2, B3, A3, B4, A4.
  repeat match goal with |- _ /\ _ => split end; reflexivity.
Qed.

(** ** C60 *)
(** The accelerations returned satisfy the Newton-Euler equations of the robot: along every motion of the base and of the robot on
    the base that has, at t, the values given by the state, the input and these accelerations, the mass times the
    acceleration of the centre of mass is the sum of the forces and of the weight, and the derivative of the
    angular momentum about the origin is the sum of their moments. *)
Theorem C60_newton_euler nz md md1 dt0 ops s x u : f_run nz md1 ops (f_init dt0) = Ok s -> fits (f_cfg s) x u ->
  let c := f_cfg s in let m := f_mass c in m <> 0 -> pdef (madd (tensor u 9) (mscal m (skew2 (com_of c x u)))) ->
  exists A Al, out (f_step nz md (FAcc x u) s) = Ok (OVec (l3 A ++ l3 Al)) /\
    forall mo cc ccd ccdd Ic sc V t, is_motion mo -> (forall s, vderiv cc s (ccd s)) -> (forall s, vderiv ccd s (ccdd s)) ->
      (forall s, vderiv (fun s => vadd (mp mo s) (mvec (mr mo s) (cc s))) s (V s)) ->
      mp mo t = seg3 x 0 -> mr mo t = rv_mat (seg3 x 3) -> mw mo t = seg3 x 9 -> ma mo t = A -> mal mo t = Al ->
      cc t = com_of c x u -> ccd t = seg3 u 3 -> ccdd t = seg3 u 6 -> Ic t = tensor u 9 -> mderiv Ic t (tensor u 18) -> sc t = seg3 u 15 -> vderiv sc t (seg3 u 24) ->
      exists G, vderiv V t G /\ vscal m (vadd G gravity) = sum_force (wrenches c x u) /\
        vderiv (ang_momentum m mo V cc Ic sc) t (vsub (sum_moment (wrenches c x u)) (vcross (vadd (mp mo t) (mvec (mr mo t) (cc t))) (vscal m gravity))).
Proof.
  intros R1 F c m Hm P. apply reach_wf in R1. destruct (accel_ok md c x u (seg3 x 9) Hm (proj2 (proj2 (proj2 F))) P) as (A & Al & E & N1 & N2).
  exists A, Al. split. { rewrite out_acc by exact R1. rewrite sizes_fits by exact F. unfold acc_p. fold c. rewrite E. reflexivity. }
  intros mo cc ccd ccdd Ic sc V t Mo Dc Dcd DV Ep Er Ew Ea El Ec Ecd Ecdd EI DI Es Ds.
  destruct (newton_euler mo cc ccd ccdd Ic sc V t (tensor u 18) (seg3 u 24) m Mo Dc Dcd DI Ds DV) as (DG & DL). cbv zeta in DG, DL.
  rewrite Ep, Er, Ew, Ea, El, Ec, Ecd, Ecdd in *. rewrite EI, Es in DL. eexists. split; [exact DG|]. split; [exact N1|]. fold m in N2. eapply vd_eq; [exact DL|]. exact N2.
Qed.
(** A new object; the base turns at 1 rad/s and falls, with the centre of mass on the axis. *)
Definition c60_x : list R := [0; 0; 0; 0; 0; 0; 0; 0; 0; 0; 0; 1] ++ repeat 0 23.
Definition c60_u : list R := [0; 0; 2; 0; 0; 0; 0; 0; 0; 300; 300; 1] ++ repeat 0 36.
Lemma c60_pdef : pdef (madd (tensor c60_u 9) (mscal hrp2_m (skew2 (mkV 0 0 2)))).
Proof.
  intros v Hv. replace (madd _ _) with (mkM (728 / 10) 0 0 0 (728 / 10) 0 0 0 1) by (unfold tensor, at_, c60_u, hrp2_m; cbn [nth app Nat.add repeat]; u3; f_equal; lra).
  destruct v as [a b d]. u3. destruct (Req_dec a 0), (Req_dec b 0), (Req_dec d 0); subst; try (exfalso; now apply Hv); nra.
Qed.
Example C60_case : let s := f_init 1 in f_run (fun _ _ l => Ok l) Debug [] (f_init 1) = Ok s /\ fits (f_cfg s) c60_x c60_u /\ f_mass (f_cfg s) <> 0 /\
  pdef (madd (tensor c60_u 9) (mscal (f_mass (f_cfg s)) (skew2 (com_of (f_cfg s) c60_x c60_u)))) /\
  out (f_step (fun _ _ l => Ok l) Debug (FAcc c60_x c60_u) s) = Ok (OVec (l3 (vneg gravity) ++ l3 v0)) /\
  let mo := mo_const v0 v0 (vneg gravity) m1 (mkV 0 0 1) in
  is_motion mo /\ mp mo 0 = seg3 c60_x 0 /\ mr mo 0 = rv_mat (seg3 c60_x 3) /\ mw mo 0 = seg3 c60_x 9 /\ mal mo 0 = v0.
Proof.
  intros s. split; [reflexivity|]. split; [split; [|split; [|split]]; try reflexivity; try discriminate; vm_compute; lia|].
  assert (Hm : f_mass (f_cfg s) <> 0) by (cbn; unfold hrp2_m; lra). split; [exact Hm|].
  assert (P : pdef (madd (tensor c60_u 9) (mscal (f_mass (f_cfg s)) (skew2 (com_of (f_cfg s) c60_x c60_u))))) by exact c60_pdef. split; [exact P|].
  assert (R0 : rv_mat (mkV 0 0 0) = m1) by apply rv_mat_0.
  assert (S1 : so3 m1) by (split; c3).
  split.
  - rewrite out_acc by apply init_wf. rewrite sizes_fits by (split; [|split; [|split]]; try reflexivity; try discriminate; vm_compute; lia). cbn [obind].
    destruct (accel_ok Debug (f_cfg s) c60_x c60_u (seg3 c60_x 9) Hm) as (A & Al & E & N1 & N2); [discriminate|exact P|]. unfold acc_p. rewrite E. cbn [obind].
    unfold sum_force, sum_moment, wrenches, com_of, tensor, seg3, at_, c60_x, c60_u in N1, N2. cbn [f_init f_cfg fcfg_init f_mass f_model f_bias nth Nat.add app repeat fold_right fst snd s] in N1, N2. rewrite R0 in N1, N2.
    destruct A as [a1 a2 a3], Al as [b1 b2 b3]. unfold hrp2_m, gravity in *. u3.
    injection N1 as X1 X2 X3. injection N2 as Y1 Y2 Y3. assert (b1 = 0 /\ b2 = 0 /\ b3 = 0) as (-> & -> & ->) by (repeat split; lra). assert (a1 = 0 /\ a2 = 0) as (-> & ->) by (split; lra).
    unfold vlist, l3. u3. do 2 f_equal. cbn [app]. repeat (f_equal; try lra).
  - intros mo. split; [now apply mo_const_motion|].
    assert (Er : forall w, mmul (rodrigues (vscal 0 w)) m1 = m1). { intros w. replace (vscal 0 w) with v0 by c3. rewrite rodrigues_0. c3. }
    unfold mo, c60_x, seg3, at_. cbn [mo_const mp mr mw mal nth Nat.add app]. rewrite Er, R0. repeat match goal with |- _ /\ _ => split end; try reflexivity. u3; f_equal; field.
Qed.

(** ** C61 *)
(** The process noise is applied to a buffer that only stateDynamicsJacobian fills: on an object that computed no Jacobian, the state
    returned is empty, while the next state has 35 entries. *)
Theorem C61_process_noise_refuted : exists nz ops s x u y, keeps_size nz /\ f_run nz Debug ops (f_init 1) = Ok s /\ fits (f_cfg s) x u /\ f_pn s = Some 0%nat /\
  (exists s0, f_step nz Debug (FProc None) s = Ok (ONone, s0) /\ out (f_step nz Debug (FState x u) s0) = Ok (OVec y)) /\ length y = 35%nat /\
  out (f_step nz Debug (FState x u) s) = Ok (OVec []) /\ nz 0%nat (f_pcalls s) y <> Ok [].
Proof.
  set (nz := fun (_ _ : nat) (l : list R) => Ok l). set (ops := [FSet (SetModel CElastic); FContacts 2; FProc (Some 0%nat)]).
  assert (exists s, f_run nz Debug ops (f_init 1) = Ok s /\ f_cfg s = set_contacts 2 (f_setting (SetModel CElastic) (fcfg_init 1)) /\ f_pn s = Some 0%nat /\ f_opxk1 s = []) as (s & Rn & Ec & Ep & Eo) by (eexists; split; [reflexivity|]; auto).
  pose proof (reach_wf _ _ _ _ _ Rn) as W.
  assert (F : fits (f_cfg s) rest35 (repeat 0 72)) by (rewrite Ec; split; [|split; [|split]]; vm_compute; auto).
  destruct (step_total Debug (f_cfg s) rest35 (repeat 0 72)) as (A & Al & fc & tc & _ & Ef & _ & En); [rewrite Ec; now left|rewrite Ec; auto|].
  exists nz, ops, s, rest35, (repeat 0 72), (f_pack (f_cfg s) rest35 (moved (f_dt (f_cfg s)) rest35 A Al) fc tc).
  split; [intros ? ? ? ? E; now inversion E|]. split; [exact Rn|]. split; [exact F|]. split; [exact Ep|].
  assert (Ly : length (f_pack (f_cfg s) rest35 (moved (f_dt (f_cfg s)) rest35 A Al) fc tc) = 35%nat) by (apply pack_len; reflexivity).
  split.
  { eexists. split; [reflexivity|]. rewrite out_state by (apply (step_wf nz Debug (FProc None) s ONone); [exact W|reflexivity]). rewrite sizes_fits by exact F. cbn [obind with_pn f_cfg f_pn]. rewrite En. reflexivity. }
  split; [exact Ly|]. split.
  - rewrite out_state by exact W. rewrite sizes_fits by exact F. cbn [obind]. rewrite En. cbn [obind]. rewrite Ep, Eo. reflexivity.
  - intros E. apply (f_equal (fun o => match o with Ok l => length l | _ => 0%nat end)) in E. unfold nz in E. rewrite Ly in E. discriminate.
Qed.

(** ** C102 *)
(** Without process noise, the next state: the position and the velocities follow the accelerations that computeAccelerations returns,
    constant over the sampling period; the rotation is that of dt w + dt^2/2 alpha after that of the state, as a
    vector of norm at most pi; the unmodeled wrench decreases by 1e-4, or is zero when it is not enabled; the bias of
    the centre of mass and the drift are kept; and the efforts of the contacts are those that
    getForcesAndMoments gives for this next state, zero for absent contacts. *)
Theorem C102_next_state nz md md1 dt0 ops s x u : f_run nz md1 ops (f_init dt0) = Ok s -> f_pn s = None -> fits (f_cfg s) x u -> has_model (f_cfg s) ->
  let c := f_cfg s in let dt := f_dt c in
  exists A Al y, out (f_step nz md (FAcc x u) s) = Ok (OVec (l3 A ++ l3 Al)) /\ out (f_step nz md (FState x u) s) = Ok (OVec y) /\ length y = 35%nat /\
    seg3 y 0 = vadd (seg3 x 0) (vadd (vscal dt (seg3 x 6)) (vscal (dt * dt / 2) A)) /\ seg3 y 6 = vadd (seg3 x 6) (vscal dt A) /\ seg3 y 9 = vadd (seg3 x 9) (vscal dt Al) /\
    rodrigues (seg3 y 3) = mmul (rv_mat (vadd (vscal dt (seg3 x 9)) (vscal (dt * dt / 2) Al))) (rv_mat (seg3 x 3)) /\ vnorm (seg3 y 3) <= PI /\
    (if f_unm c then seg3 y 24 = vscal (9999 / 10000) (seg3 x 24) /\ seg3 y 27 = vscal (9999 / 10000) (seg3 x 27) else seg3 y 24 = v0 /\ seg3 y 27 = v0) /\
    (forall i, (30 <= i < 35)%nat -> nth i y 0 = nth i x 0) /\
    (exact_rv (seg3 y 3) -> (f_nc c <= 2)%nat -> out (f_step nz md (FForcesOf y u) s) = Ok (OVec (firstn (6 * f_nc c) (skipn 12 y)))) /\
    (f_model c = CElastic -> forall i, (f_nc c <= i < 2)%nat -> seg3 y (12 + 6 * i) = v0 /\ seg3 y (15 + 6 * i) = v0).
Proof.
  intros R1 Hn F M c dt. apply reach_wf in R1. destruct (step_total md c x u M (proj2 (proj2 (proj2 F)))) as (A & Al & fc & tc & Ea & Ef & Es & En).
  set (y := f_pack c x (moved (f_dt c) x A Al) fc tc) in *. exists A, Al, y.
  assert (Ly : length y = 35%nat) by (apply pack_len, F).
  destruct (pack_parts c x (moved (f_dt c) x A Al) fc tc (proj1 F)) as (P0 & P3 & P6 & P9 & P12 & P15 & P18 & P21 & P24 & P27 & P30). fold y in P0, P3, P6, P9, P12, P15, P18, P21, P24, P27, P30.
  pose proof (moved_so3 dt x Al) as So.
  assert (Hd : 1 / 2 * dt * dt = dt * dt / 2) by field.
  split. { rewrite out_acc by exact R1. rewrite sizes_fits by exact F. fold c. cbn [obind]. rewrite Ea. reflexivity. }
  split. { rewrite out_state by exact R1. rewrite sizes_fits by exact F. fold c. cbn [obind]. rewrite En, Hn. reflexivity. }
  split; [exact Ly|]. split; [rewrite P0; unfold moved; cbn [l_p]; fold dt; now rewrite Hd|]. split; [rewrite P6; reflexivity|]. split; [rewrite P9; reflexivity|].
  assert (E3 : seg3 y 3 = mat_rv (moved_r dt x Al)) by (rewrite P3; reflexivity).
  split. { rewrite E3, mat_rv_rot by exact So. unfold moved_r. now rewrite Hd. }
  split. { rewrite E3. now apply mat_rv_norm. }
  split. { destruct (f_unm c); auto. }
  split; [exact P30|]. split.
  - intros He Hc. rewrite out_forces by (try assumption; apply F). fold c. rewrite P0, P3, P6, P9. change (l_th (moved (f_dt c) x A Al)) with (mat_rv (moved_r dt x Al)). rewrite E3 in He. rewrite mat_rv_exact by assumption.
    change (mat_rv (moved_r dt x Al)) with (l_th (moved (f_dt c) x A Al)). unfold dt. rewrite Ef. cbn [obind]. apply Nat.leb_le in Hc. rewrite Hc. cbn [eigen_assert obind]. apply Nat.leb_le in Hc.
    do 2 f_equal. now apply listed_efforts.
  - intros Hm i Hi. unfold forces_p in Ef. rewrite Hm in Ef. change nbModeledMax with 2%nat in Ef. pose proof (contacts_len (f_nc c) u) as L. rewrite elast_p_ok in Ef by (rewrite L; lia).
    inversion Ef; subst. destruct (contacts_of (f_nc c) u) as [|a [|b l]]; cbn [length] in L.
    + destruct i as [|[|i]]; [| |lia]; cbn [Nat.mul Nat.add]; [rewrite P12, P15|rewrite P18, P21]; auto.
    + destruct i as [|[|i]]; [lia| |lia]. cbn [Nat.mul Nat.add]. rewrite P18, P21. auto.
    + lia.
Qed.
(** The settings of an elastic contact, at rest. *)
Definition c102_s : list fop := [FSet (SetModel CElastic); FContacts 1].
Example C102_case : exists s, f_run (fun _ _ l => Ok l) Debug c102_s (f_init (5 / 1000)) = Ok s /\ f_pn s = None /\ fits (f_cfg s) rest35 (repeat 0 60) /\ has_model (f_cfg s) /\ f_nc (f_cfg s) = 1%nat.
Proof. eexists. split; [reflexivity|]. split; [reflexivity|]. split; [split; [|split; [|split]]; vm_compute; auto; lia|]. split; [now left|reflexivity]. Qed.

(** ** C103 *)
(** Elastic contacts store and dissipate energy: with isotropic gains and contacts fixed on the base, along every motion that has at
    t the position, the orientation and the velocities of the state, the derivative of the energy of the springs is the
    opposite of the power of the efforts returned by getForcesAndMoments, less the energy dissipated by the dampers.
    Missing: other gains (C103_gains_refuted) and contacts that move on the base (C103_moving_contact_refuted). *)
Theorem C103_contact_energy_partial nz md md1 dt0 ops s x u mo th thd t k b kt bt : f_run nz md1 ops (f_init dt0) = Ok s -> fits (f_cfg s) x u ->
  let c := f_cfg s in f_model c = CElastic -> f_kfe c = mscal k m1 -> f_kfv c = mscal b m1 -> f_kte c = mscal kt m1 -> f_ktv c = mscal bt m1 ->
  (forall i, (i < f_nc c)%nat -> seg3 u (54 + 12 * i) = v0) ->
  is_motion mo -> (forall s, mr mo s = rodrigues (th s)) -> vderiv th t thd -> exact_rv (seg3 x 3) ->
  mp mo t = seg3 x 0 -> th t = seg3 x 3 -> mv mo t = seg3 x 6 -> mw mo t = seg3 x 9 ->
  exists y, out (f_step nz md (FForcesOf x u) s) = Ok (OVec y) /\
    let total (f : nat -> R) := fold_right Rplus 0 (map f (seq 0 (f_nc c))) in
    let pos i := seg3 u (48 + 12 * i) in let frame i := mmul (mr mo t) (rv_mat (seg3 u (51 + 12 * i))) in
    let vel i := vadd (mv mo t) (vcross (mw mo t) (mvec (mr mo t) (pos i))) in
    let power := total (fun i => vdot (mvec (frame i) (seg3 y (6 * i))) (vel i) + vdot (mvec (frame i) (seg3 y (6 * i + 3))) (mw mo t)) in
    let energy s := total (fun i => k / 2 * vsq (vsub (vadd (mp mo s) (mvec (mr mo s) (pos i))) (pos i)) + kt / 2 * vsq (th s)) in
    derivable_pt_lim energy t (- power - total (fun i => b * vsq (vel i) + bt * vsq (mw mo t))).
Proof.
  intros R1 F c M G1 G2 G3 G4 Hv Hm Er Dt Hx Ep Et Ev Ew. apply reach_wf in R1. destruct (elastic_out nz md s x u R1 F M) as (y & Ey & _ & Hy). fold c in Hy. exists y. split; [exact Ey|].
  cbv beta zeta. rewrite sum_lin. eapply dl_eq.
  - apply (dl_sum (fun i s => k / 2 * vsq (vsub (vadd (mp mo s) (mvec (mr mo s) (seg3 u (48 + 12 * i)))) (seg3 u (48 + 12 * i))) + kt / 2 * vsq (th s))
      (fun i => k / 2 * (2 * vdot (vsub (vadd (mp mo t) (mvec (mr mo t) (seg3 u (48 + 12 * i)))) (seg3 u (48 + 12 * i))) (vadd (mv mo t) (vcross (mw mo t) (mvec (mr mo t) (seg3 u (48 + 12 * i)))))) + kt / 2 * (2 * vdot (th t) thd))).
    intros i _. apply (derivable_pt_lim_plus (fun s => k / 2 * vsq (vsub (vadd (mp mo s) (mvec (mr mo s) (seg3 u (48 + 12 * i)))) (seg3 u (48 + 12 * i)))) (fun s => kt / 2 * vsq (th s))).
    + apply derivable_pt_lim_scal. apply (vsq_deriv (fun s => vsub (vadd (mp mo s) (mvec (mr mo s) (seg3 u (48 + 12 * i)))) (seg3 u (48 + 12 * i)))). now apply point_deriv.
    + apply derivable_pt_lim_scal. now apply vsq_deriv.
  - apply sum_ext. intros i Hi. apply in_seq in Hi. destruct (Hy i) as [E1 E2]; [lia|]. cbv zeta in E1, E2. rewrite E1, E2, Hv by lia.
    rewrite <- (rot_power mo th thd t Hm Er Dt). destruct (Hm t) as (So & _).
    assert (Rt : rv_mat (seg3 x 3) = mr mo t) by (rewrite rv_rodrigues by (now apply exact_not_tiny); rewrite Er; now rewrite Et).
    unfold elast_force, elast_moment. rewrite Rt, <- Ep, <- Et, <- Ev, <- Ew, G1, G2, G3, G4. rewrite !mvec_add, !iso_turn by (try apply rv_mat_so3; exact So).
    generalize (mvec (mr mo t) (seg3 u (48 + 12 * i))) (seg3 u (48 + 12 * i)) (mp mo t) (mv mo t) (mw mo t) (th t). clear. intros g q p v w h.
    replace (mvec (mr mo t) v0) with v0 by (clear; c3). destruct g, q, p, v, w, h. u3. field.
Qed.
(** The base turns at 1 rad/s about the vertical; one contact. *)
Example C103_case : exists s, f_run (fun _ _ l => Ok l) Debug c102_s (f_init 1) = Ok s /\
  let u := repeat 0 48 ++ [1; 0; 0] ++ repeat 0 9 in let x := c60_x in let c := f_cfg s in let mo := mo_const v0 v0 v0 m1 (mkV 0 0 1) in let th := fun s => vscal s (mkV 0 0 1) in
  fits c x u /\ f_model c = CElastic /\ f_kfe c = mscal 40000 m1 /\ f_kfv c = mscal 600 m1 /\ f_kte c = mscal 600 m1 /\ f_ktv c = mscal 60 m1 /\
  (forall i, (i < f_nc c)%nat -> seg3 u (54 + 12 * i) = v0) /\ is_motion mo /\ (forall s, mr mo s = rodrigues (th s)) /\ vderiv th 0 (mkV 0 0 1) /\ exact_rv (seg3 x 3) /\
  mp mo 0 = seg3 x 0 /\ th 0 = seg3 x 3 /\ mv mo 0 = seg3 x 6 /\ mw mo 0 = seg3 x 9.
Proof.
  eexists. split; [reflexivity|]. cbv zeta.
  assert (S1 : so3 m1) by (split; c3). assert (M1 : forall r, mmul r m1 = r) by (clear; intros; c3).
  repeat match goal with |- _ /\ _ => split end; try reflexivity.
  - split; [|split; [|split]]; vm_compute; auto; lia.
  - intros i Hi. cbn in Hi. replace i with 0%nat by lia. reflexivity.
  - now apply mo_const_motion.
  - intros s. cbn [mo_const mr]. apply M1.
  - apply vd_lin.
  - now right.
  - cbn [mo_const mp]. unfold c60_x, seg3, at_. cbn [nth app Nat.add]. u3; f_equal; field.
  - unfold c60_x, seg3, at_. cbn [nth app Nat.add]. u3; f_equal; field.
  - cbn [mo_const mv]. unfold c60_x, seg3, at_. cbn [nth app Nat.add]. u3; f_equal; field.
Qed.
(** A contact that moves on the base, which is at rest: the springs stay at rest, for the contact is at its place; but the dampers act. *)
Theorem C103_moving_contact_refuted : exists nz s x u q y, f_run nz Debug c102_s (f_init 1) = Ok s /\ fits (f_cfg s) x u /\
  x = rest35 /\ (forall a, vsub (vadd (seg3 x 0) (mvec (rv_mat (seg3 x 3)) (q a))) (q a) = v0) /\ q 0 = seg3 u 48 /\ vderiv q 0 (seg3 u 54) /\
  out (f_step nz Debug (FForcesOf x u) s) = Ok (OVec y) /\ seg3 y 0 = mkV (- 600) 0 0.
Proof.
  set (nz := fun (_ _ : nat) (l : list R) => Ok l). set (u := repeat 0 54 ++ [1; 0; 0; 0; 0; 0]).
  assert (exists s, f_run nz Debug c102_s (f_init 1) = Ok s /\ f_cfg s = set_contacts 1 (f_setting (SetModel CElastic) (fcfg_init 1))) as (s & Rn & Ec) by (eexists; split; reflexivity).
  assert (F : fits (f_cfg s) rest35 u) by (rewrite Ec; split; [|split; [|split]]; vm_compute; auto; lia).
  destruct (elastic_out nz Debug s rest35 u) as (y & Ey & _ & Hy); [eapply reach_wf, Rn|exact F|now rewrite Ec|].
  assert (R0 : rv_mat (seg3 rest35 3) = m1) by apply rv_mat_0.
  exists nz, s, rest35, u, (fun a => vscal a (mkV 1 0 0)), y. split; [exact Rn|]. split; [exact F|]. split; [reflexivity|]. split.
  { intros a. rewrite R0. unfold rest35, seg3, at_. cbn [repeat nth Nat.add]. u3; f_equal; ring. }
  split. { unfold u, seg3, at_. cbn [repeat app nth Nat.add]. u3; f_equal; ring. }
  split. { apply vd_lin. }
  split; [exact Ey|]. destruct (Hy 0%nat) as [E _]; [rewrite Ec; cbn; lia|]. cbn [Nat.mul Nat.add] in E. rewrite E. unfold elast_force. rewrite R0, Ec.
  unfold rest35, u, seg3, at_. cbn [repeat app nth Nat.add]. change (mkV 0 0 0) with v0. rewrite rv_mat_0. cbn [set_contacts f_setting fcfg_init f_kfe f_kfv]. u3; f_equal; ring.
Qed.
(** With gains that are not isotropic, even without damping, there is no energy of the springs, whatever the function of the position and the orientation:
    going to a position, turning, coming back and turning back gives energy. *)
Theorem C103_gains_refuted : exists nz ops s u, f_run nz Debug ops (f_init 1) = Ok s /\ (forall x, length x = 35%nat -> fits (f_cfg s) x u) /\
  let c := f_cfg s in f_model c = CElastic /\ f_nc c = 1%nat /\ sym (f_kfe c) /\ pdef (f_kfe c) /\ f_kfv c = mscal 0 m1 /\ f_kte c = mscal 0 m1 /\ f_ktv c = mscal 0 m1 /\ seg3 u 54 = v0 /\
  ~ exists E : V3 -> V3 -> R, forall x y mo th thd t, length x = 35%nat -> out (f_step nz Debug (FForcesOf x u) s) = Ok (OVec y) ->
    is_motion mo -> (forall s, mr mo s = rodrigues (th s)) -> vderiv th t thd -> exact_rv (seg3 x 3) ->
    mp mo t = seg3 x 0 -> th t = seg3 x 3 -> mv mo t = seg3 x 6 -> mw mo t = seg3 x 9 ->
    let frame := mmul (mr mo t) (rv_mat (seg3 u 51)) in
    derivable_pt_lim (fun s => E (mp mo s) (th s)) t
      (- (vdot (mvec frame (seg3 y 0)) (vadd (mv mo t) (vcross (mw mo t) (mvec (mr mo t) (seg3 u 48)))) + vdot (mvec frame (seg3 y 3)) (mw mo t))).
Proof.
  set (nz := fun (_ _ : nat) (l : list R) => Ok l). set (K := mkM 1 0 0 0 4 0 0 0 1). set (Z := mscal 0 m1).
  set (ops := [FSet (SetModel CElastic); FContacts 1; FSet (SetKfe K); FSet (SetKfv Z); FSet (SetKte Z); FSet (SetKtv Z)]). set (u := repeat 0 60).
  assert (exists s, f_run nz Debug ops (f_init 1) = Ok s /\ f_model (f_cfg s) = CElastic /\ f_nc (f_cfg s) = 1%nat /\ f_isize (f_cfg s) = 60%nat /\ f_kfe (f_cfg s) = K /\ f_kfv (f_cfg s) = Z /\ f_kte (f_cfg s) = Z /\ f_ktv (f_cfg s) = Z)
    as (s & Rn & M & N & Is & G1 & G2 & G3 & G4) by (eexists; split; [reflexivity|]; repeat split; reflexivity).
  assert (F : forall x, length x = 35%nat -> fits (f_cfg s) x u) by (intros x Lx; split; [exact Lx|rewrite Is, N; unfold u; rewrite repeat_length; lia]).
  exists nz, ops, s, u. split; [exact Rn|]. split; [exact F|]. split; [exact M|]. split; [exact N|]. rewrite G1, G2, G3, G4.
  split; [reflexivity|]. split.
  { intros v Hv. destruct v as [a b d]. unfold K. u3. clear - Hv. pose proof (Rle_0_sqr a) as A. pose proof (Rle_0_sqr b) as B. pose proof (Rle_0_sqr d) as D. unfold Rsqr in *.
    destruct (Req_dec a 0) as [->|Na]; [|apply Rsqr_pos_lt in Na; unfold Rsqr in Na; lra]. destruct (Req_dec b 0) as [->|Nb]; [|apply Rsqr_pos_lt in Nb; unfold Rsqr in Nb; lra].
    destruct (Req_dec d 0) as [->|Nd]; [exfalso; now apply Hv|apply Rsqr_pos_lt in Nd; unfold Rsqr in Nd; lra]. }
  split; [reflexivity|]. split; [reflexivity|]. split; [reflexivity|]. split; [reflexivity|].
  intros (E & H).
  assert (U : seg3 u 51 = v0 /\ seg3 u 48 = v0 /\ seg3 u 54 = v0) by (repeat split; reflexivity). destruct U as (U1 & U2 & U3).
  assert (P : forall mo th thd t, is_motion mo -> (forall s, mr mo s = rodrigues (th s)) -> vderiv th t thd -> exact_rv (th t) ->
    derivable_pt_lim (fun s => E (mp mo s) (th s)) t (vdot (mvec (mr mo t) (mvec K (mvec (mtr (mr mo t)) (mp mo t)))) (mv mo t))).
  { intros mo th thd t Mo Er Dt He.
    set (x := vlist (mp mo t) ++ vlist (th t) ++ vlist (mv mo t) ++ vlist (mw mo t) ++ repeat 0 23).
    assert (X : seg3 x 0 = mp mo t /\ seg3 x 3 = th t /\ seg3 x 6 = mv mo t /\ seg3 x 9 = mw mo t) by (unfold x; destruct (mp mo t), (th t), (mv mo t), (mw mo t); repeat split; reflexivity). destruct X as (X0 & X3 & X6 & X9).
    destruct (elastic_out nz Debug s x u) as (y & Ey & _ & Hy); [eapply reach_wf, Rn|now apply F|exact M|].
    specialize (H x y mo th thd t eq_refl Ey Mo Er Dt). rewrite X0, X3, X6, X9 in H. specialize (H He eq_refl eq_refl eq_refl eq_refl). cbv zeta in H. eapply dl_eq; [exact H|]. clear H.
    destruct (Hy 0%nat) as [E1 E2]; [rewrite N; lia|]. cbn [Nat.mul Nat.add] in E1, E2. rewrite E1, E2, U1, U2, U3, X0, X3, X6, X9. unfold elast_force, elast_moment.
    rewrite (rv_rodrigues (th t)) by now apply exact_not_tiny. rewrite <- Er, rv_mat_0, G1, G2, G3, G4. unfold Z. generalize (mr mo t) (mp mo t) (mv mo t) (mw mo t) (th t) K. clear. intros r p v w h K. d3. u3. ring. }
  set (ex := mkV 1 0 0).
  assert (Line : forall a, exact_rv (mkV 0 0 a) -> E ex (mkV 0 0 a) - E v0 (mkV 0 0 a) = (cos a * cos a + 4 * (sin a * sin a)) / 2).
  { intros a Ha. set (mo := mo_const v0 ex v0 (rodrigues (mkV 0 0 a)) v0).
    assert (So : so3 (rodrigues (mkV 0 0 a))) by (rewrite <- rv_rodrigues by (now apply exact_not_tiny); apply rv_mat_so3).
    assert (Mo : is_motion mo) by now apply mo_const_motion.
    assert (Er : forall t, mr mo t = rodrigues (mkV 0 0 a)). { intros t. cbn [mo mo_const mr]. replace (vscal t v0) with v0 by (clear; c3). rewrite rodrigues_0. clear. generalize (rodrigues (mkV 0 0 a)). intros; c3. }
    assert (Ep : forall t, mp mo t = mkV t 0 0) by (intros t; cbn [mo mo_const mp]; unfold ex; u3; f_equal; field).
    assert (Ev : forall t, mv mo t = ex) by (intros t; cbn [mo mo_const mv]; unfold ex; u3; f_equal; field).
    rewrite <- (parabola (fun t => E (mkV t 0 0) (mkV 0 0 a)) (cos a * cos a + 4 * (sin a * sin a))); [reflexivity|].
    intros t. pose proof (P mo (fun _ => mkV 0 0 a) v0 t Mo Er (vd_const _ _) Ha) as D. rewrite Er, Ev, Ep, rodrigues_z in D.
    eapply dl_eq; [eapply dl_ext; [exact D|intros; cbv beta; now rewrite Ep]|]. unfold K, ex. u3. ring. }
  assert (Turn : forall p, E p (mkV 0 0 PI) = E p (mkV 0 0 (PI / 2))).
  { intros p. pose proof PI_RGT_0. apply (still (fun a => E p (mkV 0 0 a))); [lra|]. intros a Ha.
    set (mo := mo_const p v0 v0 m1 (mkV 0 0 1)). assert (Mo : is_motion mo) by (apply mo_const_motion; split; c3).
    assert (Ez : forall t, vscal t (mkV 0 0 1) = mkV 0 0 t) by (intros; u3; f_equal; ring).
    assert (Er : forall t, mr mo t = rodrigues (vscal t (mkV 0 0 1))) by (intros t; cbn [mo mo_const mr]; generalize (rodrigues (vscal t (mkV 0 0 1))); clear; intros; c3).
    assert (He : exact_rv (vscal a (mkV 0 0 1))).
    { left. rewrite Ez. pose proof PI2_1 as P1. assert (epsA < 1) by (unfold epsA; lra). assert (0 < epsA) by (unfold epsA; lra). unfold vsq. u3. assert (1 < a) by (change (PI2) with (PI / 2) in P1; lra). nra. }
    pose proof (P mo (fun t => vscal t (mkV 0 0 1)) (mkV 0 0 1) a Mo Er (vd_lin _ _) He) as D.
    assert (Ep : forall t, mp mo t = p) by (intros t; cbn [mo mo_const mp]; clear; c3).
    eapply dl_eq; [eapply dl_ext; [exact D|intros; cbv beta; rewrite Ep; now rewrite Ez]|].
    replace (mv mo a) with v0 by (cbn [mo mo_const mv]; clear; c3). generalize (mvec (mr mo a) (mvec K (mvec (mtr (mr mo a)) (mp mo a)))). clear. intros; d3; u3; ring. }
  assert (Ex : forall a, PI / 2 <= a -> exact_rv (mkV 0 0 a)).
  { intros a Ha. left. pose proof PI2_1 as P1. assert (epsA < 1) by (unfold epsA; lra). assert (0 < epsA) by (unfold epsA; lra). unfold vsq. u3. assert (1 < a) by (change (PI2) with (PI / 2) in P1; lra). nra. }
  pose proof PI_RGT_0. pose proof (Line PI (Ex PI ltac:(lra))) as L1. pose proof (Line (PI / 2) (Ex (PI / 2) ltac:(lra))) as L2. rewrite !Turn in L1. rewrite cos_PI, sin_PI in L1. rewrite cos_PI2, sin_PI2 in L2. lra.
Qed.

(** ** C104 *)
(** The force of the pendulum model: with isotropic gains, each rope pulls its point of the base towards the pole with a force
    proportional to its elongation, and a damper acts on the velocity of the base. Missing: the moment (C104_rope_moment_refuted). *)
Theorem C104_rope_force_partial nz md md1 dt0 ops s x u k b : f_run nz md1 ops (f_init dt0) = Ok s -> fits (f_cfg s) x u ->
  let c := f_cfg s in f_model c = CPendulum -> (1 <= f_nc c <= 2)%nat -> f_rfe c = mscal k m1 -> f_rfv c = mscal b m1 ->
  let pos i := seg3 u (48 + 12 * i) in let g i := vadd (seg3 x 0) (mvec (rv_mat (seg3 x 3)) (pos i)) in
  (forall i, (i < f_nc c)%nat -> g i <> f_pe c) ->
  let tension i := vscal (- k * (vnorm (vsub (g i) (f_pe c)) - vnorm (vsub (pos i) (f_pe c))) / vnorm (vsub (g i) (f_pe c))) (vsub (g i) (f_pe c)) in
  exists y, out (f_step nz md (FForcesOf x u) s) = Ok (OVec y) /\
    seg3 y 0 = vadd (fold_right vadd v0 (map tension (seq 0 (f_nc c)))) (vscal (- b) (seg3 x 6)).
Proof.
  intros R1 F c M Hn G1 G2 pos g Hg tension. apply reach_wf in R1. rewrite out_forces; [|exact R1|apply F|apply F]. fold c. unfold forces_p. rewrite M. unfold ropes. cbn [obind].
  assert (Hl : Nat.leb (f_nc c) 2 = true) by (apply Nat.leb_le; lia). rewrite Hl. cbn [eigen_assert obind]. eexists. split; [reflexivity|].
  assert (T : forall i, (i < f_nc c)%nat -> rope_force c (rv_mat (seg3 x 3)) (seg3 x 0) (pos i) = tension i).
  { intros i Hi. unfold rope_force, tension. fold (g i). rewrite G1. assert (0 < vnorm (vsub (g i) (f_pe c))).
    { apply vnorm_pos. intros E. apply (Hg i Hi). revert E. generalize (g i) (f_pe c). clear. intros [] [] E. unfold vsub, v0 in E. cbn in E. injection E. intros. f_equal; lra. }
    generalize dependent (vnorm (vsub (g i) (f_pe c))). intros l' L. generalize (vnorm (vsub (pos i) (f_pe c))) (vsub (g i) (f_pe c)). clear - L. intros l v. destruct v. u3. f_equal; field; lra. }
  assert (Sg : forall f t l, seg3 (concat (map (fun i => vlist (nth i [f; v0] v0) ++ vlist (nth i [t; v0] v0)) (0%nat :: l))) 0 = f) by (intros f t l; cbn [map concat nth]; destruct f, t; reflexivity).
  replace (mvec (mneg (f_rfv c)) (seg3 x 6)) with (vscal (- b) (seg3 x 6)) by (rewrite G2; generalize (seg3 x 6); clear; intros; c3).
  destruct (f_nc c) as [|[|[|n]]]; try lia; cbn [seq]; rewrite Sg; unfold contacts_of; cbn [seq map fold_left fold_right contact_of fst snd]; f_equal.
  - change (seg3 u (48 + 12 * 0)) with (pos 0%nat). rewrite T by lia. generalize (tension 0%nat). clear. intros; c3.
  - change (seg3 u (48 + 12 * 0)) with (pos 0%nat). change (seg3 u (48 + 12 * 1)) with (pos 1%nat). rewrite !T by lia. generalize (tension 0%nat) (tension 1%nat). clear. intros; c3.
Qed.
(** A rope of 5 m stretched to 10 m. *)
Definition c104_ops : list fop := [FSet (SetModel CPendulum); FContacts 1; FSet (SetPe (mkV 1 0 0))].
Definition c104_x : list R := [0; 3; 4] ++ repeat 0 32.
Definition c104_u : list R := repeat 0 48 ++ [1; 3; 4] ++ repeat 0 9.
Lemma c104_case : exists s, f_run (fun _ _ l => Ok l) Debug c104_ops (f_init 1) = Ok s /\ fits (f_cfg s) c104_x c104_u /\ let c := f_cfg s in f_model c = CPendulum /\ f_nc c = 1%nat /\ f_pe c = mkV 1 0 0 /\
  f_rfe c = mscal 40000 m1 /\ f_rfv c = mscal 600 m1 /\ f_rte c = mscal 600 m1 /\ f_rtv c = mscal 60 m1 /\
  vadd (seg3 c104_x 0) (mvec (rv_mat (seg3 c104_x 3)) (seg3 c104_u 48)) = mkV 1 6 8.
Proof.
  eexists. split; [reflexivity|]. split; [split; [|split; [|split]]; vm_compute; auto; discriminate|]. cbv zeta. repeat match goal with |- _ /\ _ => split end; try reflexivity.
  replace (seg3 c104_x 3) with v0 by reflexivity. rewrite rv_mat_0. unfold c104_x, c104_u, seg3, at_. cbn [nth app repeat Nat.add]. u3. f_equal; ring.
Qed.
Example C104_case : exists s, f_run (fun _ _ l => Ok l) Debug c104_ops (f_init 1) = Ok s /\ fits (f_cfg s) c104_x c104_u /\ let c := f_cfg s in f_model c = CPendulum /\ (1 <= f_nc c <= 2)%nat /\
  f_rfe c = mscal 40000 m1 /\ f_rfv c = mscal 600 m1 /\ (forall i, (i < f_nc c)%nat -> vadd (seg3 c104_x 0) (mvec (rv_mat (seg3 c104_x 3)) (seg3 c104_u (48 + 12 * i))) <> f_pe c).
Proof.
  destruct c104_case as (s & Rn & F & M & N & P & G1 & G2 & _ & _ & X). exists s. split; [exact Rn|]. split; [exact F|]. cbv zeta. rewrite N, P. repeat match goal with |- _ /\ _ => split end; auto.
  intros i Hi. replace i with 0%nat by lia. cbn [Nat.mul Nat.add]. rewrite X. intros E. injection E. lra.
Qed.
(** The moment of the ropes about the origin is missing: in the case above, at rest, the moment returned is zero, while that of the force of
    the rope at its point is not. *)
Theorem C104_rope_moment_refuted : exists nz s y, f_run nz Debug c104_ops (f_init 1) = Ok s /\ fits (f_cfg s) c104_x c104_u /\ f_model (f_cfg s) = CPendulum /\ f_nc (f_cfg s) = 1%nat /\
  seg3 c104_x 6 = v0 /\ seg3 c104_x 9 = v0 /\ out (f_step nz Debug (FForcesOf c104_x c104_u) s) = Ok (OVec y) /\
  seg3 y 3 = v0 /\ vcross (vadd (seg3 c104_x 0) (mvec (rv_mat (seg3 c104_x 3)) (seg3 c104_u 48))) (seg3 y 0) = mkV 0 160000 (- 120000).
Proof.
  destruct c104_case as (s & Rn & F & M & N & P & G1 & G2 & G3 & G4 & X). exists (fun _ _ l => Ok l), s.
  assert (R1 : fwf s) by (eapply reach_wf, Rn). rewrite out_forces; [|exact R1|apply F|apply F]. unfold forces_p. rewrite M, N. unfold ropes. cbn [obind Nat.leb eigen_assert seq map concat].
  eexists. split; [exact Rn|]. split; [exact F|]. do 5 (split; [reflexivity|]).
  unfold contacts_of. cbn [seq map contact_of fst snd fold_left nth app Nat.mul Nat.add]. rewrite X. unfold rope_force. rewrite X, G1, G2, G3, G4, P.
  assert (L1 : vnorm (vsub (mkV 1 6 8) (mkV 1 0 0)) = 10) by (unfold vnorm, vsq; u3; replace (_ + _) with (10 * 10) by ring; apply sqrt_square; lra).
  assert (L2 : vnorm (vsub (seg3 c104_u 48) (mkV 1 0 0)) = 5) by (unfold vnorm, vsq, seg3, at_, c104_u; cbn [nth app repeat Nat.add]; u3; replace (_ + _) with (5 * 5) by ring; apply sqrt_square; lra).
  rewrite L1, L2. unfold seg3, at_, c104_x, vlist. cbn [nth app repeat Nat.add]. split; u3; f_equal; field.
Qed.

(** ** C105 *)
(** A base at rest whose accelerations are zero stays there with iterateDynamicsRK4, when the forces of the contacts are also their
    moments. Missing: all other efforts (C105_equilibrium_refuted). *)
Theorem C105_equilibrium_partial md c b dt l e k : cwf k -> has_model c -> (length (b_cs b) <= 2)%nat -> l_v l = v0 -> l_w l = v0 ->
  accel md c b (l_p l) (rv_mat (l_th l)) (l_w l) e e = Ok (v0, v0) ->
  exists l' fc' tc' k', rk4 md c b dt l e e k = Ok (l', fc', tc', k') /\ l_p l' = l_p l /\ l_v l' = v0 /\ l_w l' = v0 /\ rodrigues (l_th l') = rv_mat (l_th l).
Proof.
  intros C M Hc Ev Ew Ea. unfold rk4. destruct (getrot_ok 0 (l_th l) k C) as (k1 & E & C1). rewrite E, Ev, Ew in *. rewrite Ea. cbn [obind].
  assert (Zs : forall a, vscal a v0 = v0) by (clear; intros; c3). assert (Za : forall a, vadd a v0 = a) by (clear; intros; c3).
  assert (Ip : forall a p, int_p a p v0 = p) by (intros; unfold int_p; now rewrite Zs, Za).
  assert (Im : forall a r, int_m a r v0 = r) by (intros; unfold int_m; rewrite Zs, rv_mat_0; generalize r; clear; intros; c3).
  rewrite !Zs, !Za, !Ip, !Im, !Ea. cbn [obind]. rewrite !Zs, !Za, !Ip, !Im, !Ea. cbn [obind]. rewrite !Zs, !Za, !Ip, !Im, !Ea. cbn [obind]. rewrite ?Zs, ?Za, ?Ip, ?Im, ?Zs, ?Za.
  destruct (getrot_ok 0 (mat_rv (rv_mat (l_th l))) k1 C1) as (k2 & E2 & C2). rewrite E2.
  destruct (forces_ok md c (b_cs b) (l_p l) v0 (mat_rv (rv_mat (l_th l))) (rv_mat (mat_rv (rv_mat (l_th l)))) v0 k2 C2) as (k3 & C3 & Ef). rewrite Ef.
  assert (exists q, forces_p md c (b_cs b) (l_p l) v0 (mat_rv (rv_mat (l_th l))) (rv_mat (mat_rv (rv_mat (l_th l)))) v0 = Ok q) as ([fc tc] & ->).
  { unfold forces_p. destruct M as [M|M]; rewrite M; [change nbModeledMax with 2%nat; rewrite elast_p_ok by exact Hc; eauto|destruct (ropes _ _ _ _ _ _ _); eauto]. }
  cbn [obind]. eexists _, fc, tc, k3. split; [reflexivity|]. cbn [l_p l_v l_w l_th]. repeat split; auto. apply mat_rv_rot, rv_mat_so3.
Qed.
(** No forces of the contacts; the additional force carries the weight. *)
Definition c105_b (f : R) : fbody := mkFB v0 v0 v0 v0 v0 m1 (mscal 0 m1) [] v0 v0 (mkV 0 0 f) v0.
Definition c105_c : fcfg := f_setting (SetModel CPendulum) (fcfg_init 1).
Lemma c105_accel md f r p w F T : so3 r -> mvec r (mkV 0 0 f) = mkV 0 0 f -> accel md c105_c (c105_b f) p r w [F; v0] [T; v0] =
  Ok (vsub (vscal (/ hrp2_m) (vadd F (mkV 0 0 f))) gravity, vsub T (vcross p F)).
Proof.
  intros S Hf. assert (Hm : hrp2_m <> 0) by (unfold hrp2_m; lra).
  destruct (accel_gen md c105_c (c105_b f) p r w [F; v0] [T; v0] (vadd (mkV 0 0 f) F) (vadd (vcross p (mkV 0 0 f)) T)) as (A & Al & E & N1 & N2); auto.
  - unfold wrench. cbn [c105_c f_setting fcfg_init f_model c105_b b_fa b_ta b_fm b_tm nth]. rewrite Hf. clear. destruct F, T, p, r. do 2 f_equal; u3; f_equal; ring.
  - reflexivity.
  - intros v Hv. cbn [c105_b b_I b_c]. replace (vdot v _) with (vdot v v) by (clear; generalize (f_mass c105_c); intros m; destruct v; u3; ring).
    pose proof (vnorm_pos v Hv). replace (vdot v v) with (vnorm v * vnorm v); [nra|]. unfold vnorm. rewrite sqrt_sqrt; [reflexivity|]. clear. destruct v; u3; nra.
  - rewrite E. clear E. cbn [c105_b b_c b_cd b_cdd b_I b_Id b_sg b_sgd] in N1, N2. change (f_mass c105_c) with hrp2_m in N1, N2. destruct S as (S & _).
    assert (I1 : mmul (mmul r m1) (mtr r) = m1) by (replace (mmul r m1) with r by (clear; c3); exact S). rewrite I1 in N2.
    assert (Z : mvec r v0 = v0) by (clear; c3). rewrite !Z in N1, N2.
    assert (Id : mvec (mmul (mmul r (mscal 0 m1)) (mtr r)) w = v0) by (clear; destruct r, w; u3; f_equal; ring). rewrite Id in N2. clear I1 Z Id S.
    set (G := vadd (vadd (vadd (vadd A (vcross Al v0)) (vcross w (vcross w v0))) (vscal 2 (vcross w v0))) v0) in N1, N2.
    assert (EG : G = A) by (unfold G; clear; c3). rewrite EG in *. clear G EG.
    assert (EA : A = vsub (vscal (/ hrp2_m) (vadd F (mkV 0 0 f))) gravity).
    { replace (vadd F (mkV 0 0 f)) with (vscal hrp2_m (vadd A gravity)) by (rewrite N1; apply vadd_comm). clear - Hm. destruct A. unfold gravity. u3. f_equal; field; exact Hm. }
    assert (EM : vscal hrp2_m A = vsub (vadd (mkV 0 0 f) F) (vscal hrp2_m gravity)) by (rewrite <- N1; clear; destruct A; unfold gravity; u3; f_equal; ring).
    f_equal. rewrite <- EA. f_equal. clear EA N1. rewrite EM in N2. revert N2. generalize (vscal hrp2_m gravity). clear. intros g N.
    assert (E : Al = vsub (vadd (vadd (vcross p (vsub (vadd (mkV 0 0 f) F) g)) Al) v0) (vcross p (vsub (vadd (mkV 0 0 f) F) g))) by (clear; c3). rewrite E. clear E.
    match type of N with ?a = ?b => replace (vadd (vadd (vcross p (vsub (vadd (mkV 0 0 f) F) g)) Al) v0) with a by (clear; destruct p, F, Al, w, g; u3; f_equal; ring) end. rewrite N. clear. destruct p, F, T, g; u3; f_equal; ring.
Qed.
Example C105_case : let l := mkFL v0 v0 v0 v0 in cwf cache_init /\ has_model c105_c /\ l_v l = v0 /\ l_w l = v0 /\
  accel Debug c105_c (c105_b (hrp2_m * (98 / 10))) (l_p l) (rv_mat (l_th l)) (l_w l) [v0; v0] [v0; v0] = Ok (v0, v0).
Proof.
  intros l. split; [apply cwf_init|]. split; [now right|]. split; [reflexivity|]. split; [reflexivity|]. cbn [l l_p l_th l_w]. rewrite rv_mat_0, c105_accel by (try exact so3_1; clear; c3).
  unfold gravity, hrp2_m. do 2 f_equal; u3; f_equal; field.
Qed.
(** iterateDynamicsRK4 passes the moments for the forces and the forces for the moments in its third evaluation: a base at rest whose weight
    is exactly carried by its contact, so that its accelerations are zero, moves. *)
Theorem C105_equilibrium_refuted : exists c b dt l fc tc k, cwf k /\ has_model c /\ (length (b_cs b) <= 2)%nat /\ l_v l = v0 /\ l_w l = v0 /\
  accel Debug c b (l_p l) (rv_mat (l_th l)) (l_w l) fc tc = Ok (v0, v0) /\
  exists l' fc' tc' k', rk4 Debug c b dt l fc tc k = Ok (l', fc', tc', k') /\ l_v l' = mkV 0 0 (- (98 / 30)).
Proof.
  set (F := mkV 0 0 (hrp2_m * (98 / 10))).
  assert (Zs : forall a, vscal a v0 = v0) by (clear; intros; c3). assert (Za : forall a, vadd a v0 = a) by (clear; intros; c3).
  assert (Ip : forall a p, int_p a p v0 = p) by (intros; unfold int_p; now rewrite Zs, Za).
  assert (Im : forall a r, int_m a r v0 = r) by (intros; unfold int_m; rewrite Zs, rv_mat_0; generalize r; clear; intros; c3).
  assert (E0 : forall w, accel Debug c105_c (c105_b 0) v0 m1 w [F; v0] [v0; v0] = Ok (v0, v0)).
  { intros w. rewrite c105_accel by (try exact so3_1; clear; c3). unfold F, gravity, hrp2_m. do 2 f_equal; u3; f_equal; field. }
  assert (E1 : forall w, accel Debug c105_c (c105_b 0) v0 m1 w [v0; v0] [F; v0] = Ok (vneg gravity, F)).
  { intros w. rewrite c105_accel by (try exact so3_1; clear; c3). unfold F, gravity, hrp2_m. do 2 f_equal; u3; f_equal; field. }
  exists c105_c, (c105_b 0), 1, (mkFL v0 v0 v0 v0), [F; v0], [v0; v0], cache_init. split; [apply cwf_init|]. split; [now right|]. split; [cbn; lia|]. split; [reflexivity|]. split; [reflexivity|].
  cbn [l_p l_th l_v l_w]. rewrite rv_mat_0. split; [apply E0|].
  unfold rk4. cbn [l_p l_th l_v l_w]. destruct (getrot_ok 0 v0 cache_init cwf_init) as (k1 & Ek & C1). rewrite Ek, rv_mat_0, E0. cbn [obind].
  rewrite !Zs, !Za, !Ip, !Im, !E0. cbn [obind]. rewrite !Zs, !Za, !Ip, !Im, E1. cbn [obind]. rewrite ?Ip, ?Im, E0. cbn [obind].
  match goal with |- context [getrot 0 ?th k1] => destruct (getrot_ok 0 th k1 C1) as (k2 & E2 & C2); rewrite E2 end.
  match goal with |- context [forces Debug c105_c ?cs ?p ?v ?th ?r ?w k2] => destruct (forces_ok Debug c105_c cs p v th r w k2 C2) as (k3 & C3 & Ef) end. rewrite Ef.
  unfold forces_p. cbn [c105_c f_setting fcfg_init f_model]. destruct (ropes _ _ _ _ _ _ _) as [f t]. cbn [obind].
  eexists _, _, _, k3. split; [reflexivity|]. cbn [l_v]. unfold gravity. u3. f_equal; field.
Qed.

(** ** C106 *)
(** getMomentaDotFromForces and getMomentaDotFromKinematics agree when the mass of the robot is that of HRP-2 and the linear velocity of the base is also
    its angular velocity. Missing: all other velocities and masses (C106_momenta_refuted, C106_mass_refuted). *)
Theorem C106_momenta_partial nz md md1 dt0 ops s x u : f_run nz md1 ops (f_init dt0) = Ok s -> fits (f_cfg s) x u -> let c := f_cfg s in f_mass c = hrp2_m -> seg3 x 6 = seg3 x 9 ->
  pdef (madd (tensor u 9) (mscal (f_mass c) (skew2 (com_of c x u)))) ->
  exists y, out (f_step nz md (FMomF x u) s) = Ok (OVec y) /\ out (f_step nz md (FMomK x u) s) = Ok (OVec y).
Proof.
  intros R1 F c Hm Hv P. apply reach_wf in R1. assert (Hm0 : f_mass c <> 0) by (rewrite Hm; unfold hrp2_m; lra).
  destruct (accel_ok md c x u (seg3 x 6) Hm0 (proj2 (proj2 (proj2 F))) P) as (A & Al & E & N1 & N2). cbv zeta in N1, N2.
  rewrite out_momf, out_momk by exact R1. rewrite sizes_fits by exact F. fold c. cbn [obind]. cbv zeta. rewrite wrench_ok by apply F. rewrite E. cbn [obind]. eexists. split; [reflexivity|].
  cbn [body_of b_c b_cd b_cdd b_I b_Id b_sg b_sgd]. fold (com_of c x u). do 2 f_equal. rewrite Hv in N1, N2. rewrite Hm in N1, N2.
  set (r := rv_mat (seg3 x 3)) in *. set (w := seg3 x 9) in *. set (cm := com_of c x u) in *.
  set (G := vadd (vadd (vadd (vadd A (vcross Al (mvec r cm))) (vcross w (vcross w (mvec r cm)))) (vscal 2 (vcross w (mvec r (seg3 u 3))))) (mvec r (seg3 u 6))) in N1, N2.
  assert (EG : vadd (vadd (vadd (vadd (mvec (mmul (skew Al) r) cm) (mvec (mmul (skew2 w) r) cm)) (mvec (mmul (mscal 2 (skew w)) r) (seg3 u 3))) (mvec r (seg3 u 6))) A = G).
  { unfold G. rewrite !mvec_mul. generalize (mvec r cm) (mvec r (seg3 u 3)) (mvec r (seg3 u 6)). clear. intros; c3. }
  rewrite EG. rewrite <- N1. f_equal.
  - f_equal. clearbody G. clear. generalize hrp2_m. intros m. destruct G. unfold gravity. u3. f_equal; ring.
  - f_equal. rewrite vadd_comm in N2. match type of N2 with ?a = vsub _ ?b => assert (ET : sum_moment (wrenches c x u) = vadd a b) by (rewrite N2; generalize (sum_moment (wrenches c x u)) b; clear; intros; c3) end.
    rewrite ET. clear ET N1 N2 EG E. clearbody G cm w r. generalize (tensor u 9) (tensor u 18) (seg3 u 15) (seg3 u 24) (seg3 x 0). intros I0 I1 s0 s1 p.
    replace (mvec (mmul (mmul (mmul (skew w) r) I0) (mtr r)) w) with (vcross w (mvec (mmul (mmul r I0) (mtr r)) w)) by (rewrite !mvec_mul; generalize (mvec r (mvec I0 (mvec (mtr r) w))); clear; intros; c3).
    replace (mvec (mmul (skew w) r) s0) with (vcross w (mvec r s0)) by (rewrite !mvec_mul; generalize (mvec r s0); clear; intros; c3).
    generalize (mvec (mmul (mmul r I0) (mtr r)) w) (mvec (mmul (mmul r I1) (mtr r)) w) (mvec (mmul (mmul r I0) (mtr r)) Al) (mvec r s0) (mvec r s1) (mvec r cm) hrp2_m. clear. unfold gravity. intros q1 q2 q3 q4 q5 q6 m. d3. u3. f_equal; ring.
Qed.
Definition c106_x : list R := [1; 2; 3; 0; 0; 0; 0; 0; 1; 0; 0; 1] ++ repeat 0 23.
Example C106_case : f_run (fun _ _ l => Ok l) Debug [] (f_init 1) = Ok (f_init 1) /\ let c := f_cfg (f_init 1) in fits c c106_x c60_u /\ f_mass c = hrp2_m /\ seg3 c106_x 6 = seg3 c106_x 9 /\ seg3 c106_x 9 = mkV 0 0 1 /\
  pdef (madd (tensor c60_u 9) (mscal (f_mass c) (skew2 (com_of c c106_x c60_u)))).
Proof.
  split; [reflexivity|]. cbv zeta. split; [split; [|split; [|split]]; vm_compute; auto; discriminate|]. split; [reflexivity|]. split; [reflexivity|]. split; [reflexivity|]. exact c60_pdef.
Qed.
(** The accelerations are computed with the linear velocity as angular velocity: for a base that moves up at 1 m/s without turning, while the robot has an
    angular momentum on it, the two disagree. *)
Definition c106_x2 : list R := [0; 0; 0; 0; 0; 0; 0; 0; 1] ++ repeat 0 26.
Definition c106_u2 : list R := [0; 0; 0; 0; 0; 0; 0; 0; 0; 1; 1; 1; 0; 0; 0; 1] ++ repeat 0 32.
Lemma c106_pdef : pdef (madd (tensor c106_u2 9) (mscal hrp2_m (skew2 (mkV 0 0 0)))).
Proof.
  intros v Hv. pose proof (vnorm_pos v Hv). replace (vdot v _) with (vnorm v * vnorm v); [nra|]. unfold vnorm. rewrite sqrt_sqrt by (clear; destruct v; u3; nra).
  unfold tensor, at_, c106_u2. cbn [nth app Nat.add]. clear. generalize hrp2_m. intros. destruct v; u3; ring.
Qed.
Theorem C106_momenta_refuted : exists nz s x u y1 y2, f_run nz Debug [] (f_init 1) = Ok s /\ fits (f_cfg s) x u /\ f_mass (f_cfg s) = hrp2_m /\
  pdef (madd (tensor u 9) (mscal (f_mass (f_cfg s)) (skew2 (com_of (f_cfg s) x u)))) /\
  out (f_step nz Debug (FMomF x u) s) = Ok (OVec y1) /\ out (f_step nz Debug (FMomK x u) s) = Ok (OVec y2) /\ seg3 y1 3 = v0 /\ seg3 y2 3 = mkV 0 (- 1) 0.
Proof.
  set (nz := fun (_ _ : nat) (l : list R) => Ok l). set (s := f_init 1). set (x := c106_x2). set (u := c106_u2).
  assert (F : fits (f_cfg s) x u) by (split; [|split; [|split]]; vm_compute; auto; discriminate).
  assert (P : pdef (madd (tensor u 9) (mscal (f_mass (f_cfg s)) (skew2 (com_of (f_cfg s) x u))))) by exact c106_pdef.
  assert (W : fwf s) by apply init_wf. assert (Hm0 : f_mass (f_cfg s) <> 0) by (cbn; unfold hrp2_m; lra).
  destruct (accel_ok Debug (f_cfg s) x u (seg3 x 6) Hm0 (proj2 (proj2 (proj2 F))) P) as (A & Al & E & N1 & N2). cbv zeta in N1, N2.
  exists nz, s, x, u. rewrite out_momf, out_momk by exact W. rewrite sizes_fits by exact F. cbn [obind]. cbv zeta. rewrite wrench_ok by discriminate. rewrite E. cbn [obind].
  eexists _, _. split; [reflexivity|]. split; [exact F|]. split; [reflexivity|]. split; [exact P|]. split; [reflexivity|]. split; [reflexivity|].
  assert (R0 : rv_mat (seg3 x 3) = m1) by apply rv_mat_0. rewrite R0 in *. clear E.
  unfold sum_force, sum_moment, wrenches in *. rewrite R0 in *. unfold com_of, body_of in *. unfold tensor in *.
  unfold x, u, c106_x2, c106_u2, seg3, at_ in *. cbn [f_init s f_cfg fcfg_init f_mass f_model f_bias nth app repeat Nat.add fold_right fst snd b_c b_cd b_cdd b_I b_Id b_sg b_sgd vlist] in *.
  destruct A as [a1 a2 a3], Al as [b1 b2 b3]. unfold gravity in *. u3. generalize dependent hrp2_m. intros m N1 Hm P N2. clear P F.
  injection N2 as Y1 Y2 Y3. split; f_equal; try lra.
Qed.
(** The mass used is that of HRP-2 whatever the mass set: for a robot of 50 kg in free fall, the weight returned is not its own. *)
Theorem C106_mass_refuted : exists nz s x u y, f_run nz Debug [FSet (SetMass 50)] (f_init 1) = Ok s /\ fits (f_cfg s) x u /\ f_mass (f_cfg s) = 50 /\ sum_force (wrenches (f_cfg s) x u) = v0 /\
  out (f_step nz Debug (FMomF x u) s) = Ok (OVec y) /\ seg3 y 0 <> vscal (- 50) gravity.
Proof.
  set (nz := fun (_ _ : nat) (l : list R) => Ok l).
  assert (exists s, f_run nz Debug [FSet (SetMass 50)] (f_init 1) = Ok s /\ f_cfg s = f_setting (SetMass 50) (fcfg_init 1)) as (s & Rn & Ec) by (eexists; split; reflexivity).
  assert (F : fits (f_cfg s) rest35 (repeat 0 48)) by (rewrite Ec; split; [|split; [|split]]; vm_compute; auto; discriminate).
  assert (Es : sum_force (wrenches (f_cfg s) rest35 (repeat 0 48)) = v0).
  { rewrite Ec. unfold sum_force, wrenches. replace (rv_mat (seg3 rest35 3)) with m1 by (symmetry; apply rv_mat_0). cbn [f_setting fcfg_init f_model]. unfold seg3, at_, rest35. cbn [nth repeat Nat.add fold_right fst snd]. u3. f_equal; ring. }
  exists nz, s, rest35, (repeat 0 48). rewrite out_momf by (eapply reach_wf, Rn). rewrite sizes_fits by exact F. cbn [obind]. cbv zeta. rewrite wrench_ok by apply F. cbn [obind].
  eexists. split; [exact Rn|]. split; [exact F|]. split; [now rewrite Ec|]. split; [exact Es|]. split; [reflexivity|]. rewrite Es.
  match goal with |- seg3 (vlist ?a ++ ?b) 0 <> _ => replace (seg3 (vlist a ++ b) 0) with a by (destruct a; reflexivity) end.
  unfold gravity, hrp2_m. u3. intros E. injection E. lra.
Qed.

(** ** C108 *)
(** The predicted measurement is that of an ideal accelerometer and gyrometer on the motion [mg], the composition of the motion of the base, which the state and
    the accelerations describe at t, and of the motion of the unit on the base, which the input describes at t; then, as
    enabled, the efforts of the contacts in the state, and the pose of the base moved by the drift, its rotation as
    a vector of norm at most pi. Missing: an object on which nothing was called (C108_measurement_refuted). *)
Theorem C108_predicted_measurement_partial nz md md1 dt0 ops s x u k A Al base mi mg t : f_run nz md1 ops (f_init dt0) = Ok s -> fits (f_cfg s) x u -> f_eff s = true -> a_noise (f_sens s) = None ->
  let c := f_cfg s in (f_nc c <= 2)%nat -> out (f_step nz md (FAcc x u) s) = Ok (OVec (l3 A ++ l3 Al)) ->
  is_motion base -> is_motion mi -> is_motion mg -> (forall s, mp mg s = vadd (mp base s) (mvec (mr base s) (mp mi s)) /\ mr mg s = mmul (mr base s) (mr mi s)) ->
  mr base t = rv_mat (seg3 x 3) -> mw base t = seg3 x 9 -> ma base t = A -> mal base t = Al ->
  mp mi t = seg3 u 27 -> mr mi t = rv_mat (seg3 u 30) -> mv mi t = seg3 u 33 -> mw mi t = seg3 u 36 -> ma mi t = seg3 u 39 ->
  exists h, rodrigues h = mmul (rodrigues (mkV 0 0 (at_ x 34))) (rv_mat (seg3 x 3)) /\ vnorm h <= PI /\
  out (f_step nz md (FMeas x u k) s) = Ok (OVec (l3 (mvec (mtr (mr mg t)) (vadd (ma mg t) sgravity)) ++ l3 (mvec (mtr (mr mg t)) (mw mg t)) ++
    (if f_force c then firstn (6 * f_nc c) (skipn 12 x) else []) ++
    (if f_abs c then l3 (vadd (mkV (at_ x 32) (at_ x 33) 0) (mvec (rodrigues (mkV 0 0 (at_ x 34))) (seg3 x 0))) ++ l3 h else []))).
Proof.
  intros R1 F He Hn c Hc Ha Mb Mi Mg Hg Er Ew Ea El I1 I2 I3 I4 I5. apply reach_wf in R1.
  rewrite out_acc in Ha by exact R1. rewrite sizes_fits in Ha by exact F. cbn [obind] in Ha. fold c in Ha. destruct (acc_p md c x u) as [[A' Al']| | |] eqn:Eacc; try discriminate. cbn [obind] in Ha.
  assert (A' = A /\ Al' = Al) as [-> ->] by (destruct A, A', Al, Al'; unfold l3, vlist in Ha; cbn in Ha; inversion Ha; auto). clear Ha.
  set (rd := rodrigues (mkV 0 0 (at_ x 34))). assert (Erd : rdrift (at_ x 34) = rd) by (unfold rd; now rewrite rodrigues_z).
  assert (Sd : so3 rd).
  { unfold rd. rewrite rodrigues_z. pose proof (sin2_cos2 (at_ x 34)) as SC. unfold Rsqr in SC. split; u3; [f_equal|]; try ring; lra. }
  assert (So : so3 (mmul rd (rv_mat (seg3 x 3)))) by (apply so3_mul; [exact Sd|apply rv_mat_so3]).
  exists (mat_rv (mmul rd (rv_mat (seg3 x 3)))). split; [now apply mat_rv_rot|]. split; [now apply mat_rv_norm|].
  rewrite out_meas by exact R1. rewrite sizes_fits by exact F. rewrite He. fold c. unfold meas_p. rewrite Eacc.
  replace (boost_assert md true) with (Ok tt) by (now destruct md). cbn [obind]. unfold f_direct.
  assert (E35 : Nat.leb (12 + 6 * f_nc c) 35 = true) by (apply Nat.leb_le; lia). rewrite E35.
  assert (EM : forall (A B : Type) (b : bool) (a a' : A) (f : A -> outcome B), obind (if b then Ok a else Ok a') f = f (if b then a else a')) by (intros; destruct b; reflexivity).
  cbn [eigen_assert obind]. rewrite EM. cbv zeta. rewrite Hn, Erd. cbn [obind].
  destruct (motion_unique mg (mo_mul base mi) Mg (mo_mul_motion _ _ Mb Mi)) with (u := t) as (_ & W & Acc & _).
  { intros v. rewrite (proj1 (Hg v)). cbn. apply vadd_comm. }
  { intros v. rewrite (proj2 (Hg v)). reflexivity. }
  do 2 f_equal. rewrite W, Acc, (proj2 (Hg t)). cbn [mo_mul mw ma mr]. rewrite Er, Ew, Ea, El, I1, I2, I3, I4, I5. unfold isignal, accelerationMeasure, rotationVelocityMeasure. rewrite <- app_assoc. change vlist with l3. f_equal.
  - f_equal. f_equal. f_equal. generalize (rv_mat (seg3 x 3)) (seg3 x 9) (seg3 u 33) (seg3 u 39) (seg3 u 27). clear. intros r w a b q. rewrite !mvec_mul. generalize (mvec r a) (mvec r b) (mvec r q). clear. intros; c3.
  - f_equal. f_equal. f_equal. apply vadd_comm.
Qed.
(** A state given to computeAccelerations before; the base turns about the vertical at 1 rad/s and falls; the unit is 2 m away from the axis. *)
Definition c108_u : list R := firstn 27 c60_u ++ [2; 0; 0] ++ repeat 0 18.
Example C108_case : exists s, f_run (fun _ _ l => Ok l) Debug [FWithAbs true; FAcc c60_x c108_u] (f_init 1) = Ok s /\ let c := f_cfg s in fits c c60_x c108_u /\ f_eff s = true /\ a_noise (f_sens s) = None /\ f_abs c = true /\ (f_nc c <= 2)%nat /\
  out (f_step (fun _ _ l => Ok l) Debug (FAcc c60_x c108_u) s) = Ok (OVec (l3 (vneg gravity) ++ l3 v0)) /\
  let base := mo_const v0 v0 (vneg gravity) m1 (mkV 0 0 1) in let mi := mo_const (mkV 2 0 0) v0 v0 m1 v0 in
  is_motion base /\ is_motion mi /\ is_motion (mo_mul base mi) /\ (forall s, mp (mo_mul base mi) s = vadd (mp base s) (mvec (mr base s) (mp mi s)) /\ mr (mo_mul base mi) s = mmul (mr base s) (mr mi s)) /\
  mr base 0 = rv_mat (seg3 c60_x 3) /\ mw base 0 = seg3 c60_x 9 /\ mp mi 0 = seg3 c108_u 27 /\ mr mi 0 = rv_mat (seg3 c108_u 30) /\ mv mi 0 = seg3 c108_u 33 /\ mw mi 0 = seg3 c108_u 36 /\ ma mi 0 = seg3 c108_u 39 /\
  ma (mo_mul base mi) 0 = mkV (- 2) 0 (- (98 / 10)).
Proof.
  set (nz := fun (_ _ : nat) (l : list R) => Ok l). set (c := set_abs true (fcfg_init 1)).
  assert (F : fits c c60_x c108_u) by (split; [|split; [|split]]; vm_compute; auto; discriminate).
  assert (R0 : rv_mat (mkV 0 0 0) = m1) by apply rv_mat_0.
  assert (Ea : acc_p Debug c c60_x c108_u = Ok (vneg gravity, v0)).
  { assert (Hm : f_mass c <> 0) by (cbn; unfold hrp2_m; lra).
    destruct (accel_ok Debug c c60_x c108_u (seg3 c60_x 9) Hm) as (A & Al & E & N1 & N2); [discriminate|exact c60_pdef|]. unfold acc_p. rewrite E.
    unfold sum_force, sum_moment, wrenches, com_of, tensor, seg3, at_, c60_x, c108_u, c60_u in N1, N2. cbn [c set_abs fcfg_init f_mass f_model f_bias nth Nat.add app repeat firstn fold_right fst snd] in N1, N2. rewrite R0 in N1, N2.
    destruct A as [a1 a2 a3], Al as [b1 b2 b3]. unfold hrp2_m, gravity in *. u3.
    injection N1 as X1 X2 X3. injection N2 as Y1 Y2 Y3. assert (b1 = 0 /\ b2 = 0 /\ b3 = 0) as (-> & -> & ->) by (repeat split; lra). assert (a1 = 0 /\ a2 = 0) as (-> & ->) by (split; lra).
    do 2 f_equal. f_equal; lra. }
  cbn [f_run f_step obind]. match goal with |- context [f_accelerations Debug c60_x c108_u ?s] => set (s0 := s) end.
  assert (Ec : f_cfg s0 = c) by reflexivity. assert (W0 : fwf s0) by (apply (reach_wf nz Debug 1 [FWithAbs true]); reflexivity).
  unfold f_accelerations at 1. rewrite sizes_fits by exact F. cbn [obind]. destruct (getrot_ok 0 (seg3 c60_x 3) (f_cache s0) (proj1 W0)) as (k & E & C). rewrite E. fold (acc_p Debug (f_cfg s0) c60_x c108_u). rewrite Ec, Ea. cbn [obind].
  eexists. split; [reflexivity|]. cbv zeta. cbn [with_work f_cfg f_eff f_sens]. split; [exact F|]. split; [reflexivity|]. split; [reflexivity|]. split; [reflexivity|]. split; [cbn; lia|]. split.
  { match goal with |- out (do (_, _) <- f_accelerations _ _ _ ?s; _) = _ => change (out (f_step nz Debug (FAcc c60_x c108_u) s) = Ok (OVec (l3 (vneg gravity) ++ l3 v0))); rewrite (out_acc nz Debug c60_x c108_u s) end.
    - rewrite sizes_fits by exact F. cbn [obind with_work f_cfg]. rewrite Ec, Ea. reflexivity.
    - destruct W0 as (_ & W2 & W3 & W4). split; [exact C|]. split; [reflexivity|]. split; [reflexivity|]. exact W4. }
  assert (S1 : so3 m1) by (split; c3).
  assert (Mb : is_motion (mo_const v0 v0 (vneg gravity) m1 (mkV 0 0 1))) by now apply mo_const_motion. assert (Mi : is_motion (mo_const (mkV 2 0 0) v0 v0 m1 v0)) by now apply mo_const_motion.
  split; [exact Mb|]. split; [exact Mi|]. split; [now apply mo_mul_motion|]. split. { intros s. cbn [mo_mul mp mr]. split; [apply vadd_comm|reflexivity]. }
  assert (Er : forall w, mmul (rodrigues (vscal 0 w)) m1 = m1). { intros w. replace (vscal 0 w) with v0 by c3. rewrite rodrigues_0. c3. }
  unfold c60_x, c108_u, c60_u, seg3, at_. cbn [mo_const mo_mul mp mr mv mw ma mal nth Nat.add app firstn repeat]. rewrite !Er. rewrite R0.
  unfold gravity. repeat match goal with |- _ /\ _ => split end; try reflexivity; u3; f_equal; field.
Qed.
(** On a new object the measurement cannot be computed: the buffer of the efforts is empty. *)
Theorem C108_measurement_refuted nz dt x u k : length x = 35%nat -> length u = 48%nat ->
  f_run nz Debug [] (f_init dt) = Ok (f_init dt) /\ fits (f_cfg (f_init dt)) x u /\
  out (f_step nz Debug (FMeas x u k) (f_init dt)) = AssertFail /\ out (f_step nz Release (FMeas x u k) (f_init dt)) = UB.
Proof.
  intros Lx Lu. split; [reflexivity|]. assert (F : fits (f_cfg (f_init dt)) x u) by (split; [exact Lx|]; split; [exact Lu|]; split; [rewrite Lu; cbn; lia|discriminate]). split; [exact F|].
  rewrite !out_meas by apply init_wf. rewrite !sizes_fits by exact F. split; reflexivity.
Qed.
Example C108_case2 : length rest35 = 35%nat /\ length c60_u = 48%nat.
Proof. split; reflexivity. Qed.

(** ** C110 *)
(** The number of contacts can be set to any value, but with more than two elastic contacts no dynamics can be computed: an assertion fails, or, in release, the behaviour is undefined. *)
Theorem C110_many_contacts_refuted nz md1 dt0 ops s x u : f_run nz md1 ops (f_init dt0) = Ok s -> let c := f_cfg s in f_model c = CElastic -> (2 < f_nc c)%nat ->
  length x = 35%nat -> length u = f_isize c -> (48 + 12 * f_nc c <= length u)%nat ->
  forall o, In o [FState x u; FAcc x u; FMomF x u; FMomK x u; FForcesOf x u] -> out (f_step nz Debug o s) = AssertFail /\ out (f_step nz Release o s) = UB.
Proof.
  intros R1 c M Hn Lx Lu Ln o Ho. apply reach_wf in R1.
  assert (Sz : forall md, f_sizes md x u s = Ok tt) by (intros; now apply sizes_ok).
  assert (Wr : forall md r p f1 f2 t1 t2, wrench md c (body_of c x u) r p [f1; f2] [t1; t2] = match md with Debug => AssertFail | Release => UB end).
  { intros. unfold wrench. rewrite M. cbn [body_of b_cs]. pose proof (contacts_len (f_nc c) u) as L. destruct (contacts_of (f_nc c) u) as [|[[]] [|[[]] [|[[]] l]]]; cbn [length] in L; try lia. destruct md; reflexivity. }
  assert (Ac : forall md r p w f1 f2 t1 t2, accel md c (body_of c x u) p r w [f1; f2] [t1; t2] = match md with Debug => AssertFail | Release => UB end) by (intros; unfold accel; rewrite Wr; destruct md; reflexivity).
  cbn [In] in Ho. destruct Ho as [<-|[<-|[<-|[<-|[<-|[]]]]]].
  - rewrite !out_state by exact R1. rewrite !Sz. unfold next_p, step_p, acc_p, efforts_f, efforts_t. fold c. rewrite !Ac. split; reflexivity.
  - rewrite !out_acc by exact R1. rewrite !Sz. unfold acc_p, efforts_f, efforts_t. fold c. rewrite !Ac. split; reflexivity.
  - rewrite !out_momf by exact R1. rewrite !Sz. unfold efforts_f, efforts_t. fold c. cbn [obind]. rewrite !Wr. split; reflexivity.
  - rewrite !out_momk by exact R1. rewrite !Sz. unfold efforts_f, efforts_t. fold c. cbn [obind]. rewrite !Ac. split; reflexivity.
  - rewrite !out_forces by assumption. fold c. unfold forces_p. rewrite M. change nbModeledMax with 2%nat. rewrite !elast_p_many by (rewrite contacts_len; exact Hn). split; reflexivity.
Qed.
Example C110_case : exists s, f_run (fun _ _ l => Ok l) Debug [FSet (SetModel CElastic); FContacts 3] (f_init 1) = Ok s /\ f_model (f_cfg s) = CElastic /\ (2 < f_nc (f_cfg s))%nat /\
  length (repeat 0 84) = f_isize (f_cfg s) /\ (48 + 12 * f_nc (f_cfg s) <= 84)%nat.
Proof. eexists. split; [reflexivity|]. split; [reflexivity|]. vm_compute. repeat split; lia. Qed.

(** ** C111 *)
(** getForcesAndMoments() returns the efforts of the contacts in the state that stateDynamics has just returned, or in the state that measureDynamics has just been given. *)
Theorem C111_last_efforts nz md md1 dt0 ops s x u k y s' : f_run nz md1 ops (f_init dt0) = Ok s -> (f_nc (f_cfg s) <= 2)%nat ->
  (f_pn s = None -> f_step nz md (FState x u) s = Ok (OVec y, s') -> out (f_step nz md FForces s') = Ok (OVec (firstn (6 * f_nc (f_cfg s)) (skipn 12 y)))) /\
  (f_step nz md (FMeas x u k) s = Ok (OVec y, s') -> out (f_step nz md FForces s') = Ok (OVec (firstn (6 * f_nc (f_cfg s)) (skipn 12 x)))).
Proof.
  intros R1 Hn. apply reach_wf in R1. assert (Hl : Nat.leb (f_nc (f_cfg s)) nbModeledMax = true) by (apply Nat.leb_le; exact Hn). split.
  - intros Np E. cbn [f_step] in E. destruct (state_ok nz md x u s R1) as (kc & C & Es). rewrite Es in E. destruct (f_sizes md x u s) eqn:Sz; try discriminate. apply sizes_inv in Sz. cbn [obind] in E.
    destruct (step_p md (f_cfg s) x u) as [[[l fc] tc]| | |]; try discriminate. cbn [obind] in E. unfold f_noise in E. cbn [with_x with_work f_pn] in E. rewrite Np in E. cbn [obind f_xk1] in E. inversion E; subst. clear E.
    cbn [f_step]. unfold f_getForces. cbn [with_x with_work f_cfg f_fc f_tc]. rewrite Hl. cbn [eigen_assert obind out]. do 2 f_equal.
    destruct (pack_parts (f_cfg s) x l fc tc (proj1 Sz)) as (_ & _ & _ & _ & P12 & P15 & P18 & P21 & _). apply listed_efforts; auto. apply pack_len, Sz.
  - intros E. cbn [f_step] in E. destruct (meas_ok nz md x u k s R1) as (kc & C & Es). rewrite Es in E. destruct (f_sizes md x u s) eqn:Sz; try discriminate. apply sizes_inv in Sz. cbn [obind] in E.
    destruct (boost_assert md (f_eff s)); try discriminate. destruct (f_eff s); try discriminate. cbn [obind] in E. destruct (meas_p md (f_cfg s) x u) as [[[[r0 a9] w0] d0]| | |]; try discriminate. cbn [obind] in E.
    destruct (sense nz md r0 a9 w0 d0 k (f_sens s)) as [[y0 sn]| | |]; try discriminate. cbn [obind] in E. inversion E; subst. clear E.
    cbn [f_step]. unfold f_getForces. cbn [with_y with_work f_cfg f_fc f_tc]. rewrite Hl. cbn [eigen_assert obind out]. do 2 f_equal. apply listed_efforts; auto. apply Sz.
Qed.
(** Elastic contacts, no noise. *)
Example C111_case : exists s, f_run (fun _ _ l => Ok l) Debug c102_s (f_init 1) = Ok s /\ (f_nc (f_cfg s) <= 2)%nat /\ f_pn s = None /\
  exists y s', f_step (fun _ _ l => Ok l) Debug (FState rest35 (repeat 0 60)) s = Ok (OVec y, s') /\ exists y2 s2, f_step (fun _ _ l => Ok l) Debug (FMeas rest35 (repeat 0 60) 1) s' = Ok (OVec y2, s2).
Proof.
  set (nz := fun (_ _ : nat) (l : list R) => Ok l).
  assert (exists s, f_run nz Debug c102_s (f_init 1) = Ok s /\ f_cfg s = set_contacts 1 (f_setting (SetModel CElastic) (fcfg_init 1)) /\ f_pn s = None /\ a_noise (f_sens s) = None) as (s & Rn & Ec & Ep & En) by (eexists; split; [reflexivity|]; auto).
  assert (W : fwf s) by (eapply reach_wf, Rn). assert (F : fits (f_cfg s) rest35 (repeat 0 60)) by (rewrite Ec; split; [|split; [|split]]; vm_compute; auto).
  exists s. split; [exact Rn|]. split; [rewrite Ec; cbn; lia|]. split; [exact Ep|].
  destruct (step_total Debug (f_cfg s) rest35 (repeat 0 60)) as (A & Al & fc & tc & Ea & _ & Es & _); [rewrite Ec; now left|apply F|].
  destruct (state_ok nz Debug rest35 (repeat 0 60) s W) as (kc & C & E). rewrite sizes_fits in E by exact F. rewrite Es in E. cbn [obind] in E. unfold f_noise in E. cbn [with_x with_work f_pn] in E. rewrite Ep in E.
  eexists _, _. split; [cbn [f_step]; rewrite E; reflexivity|].
  match goal with |- context [f_step nz Debug _ ?q] => set (s1 := q) end.
  assert (W1 : fwf s1) by (eapply (step_wf nz Debug (FState rest35 (repeat 0 60)) s); [exact W|cbn [f_step]; rewrite E; reflexivity]).
  pose proof (out_meas nz Debug rest35 (repeat 0 60) 1 s1 W1) as Q. rewrite sizes_fits in Q by exact F. unfold meas_p in Q. change (f_cfg s1) with (f_cfg s) in Q. rewrite Ea in Q. unfold f_direct in Q. rewrite Ec in Q. cbn [set_contacts f_setting fcfg_init f_force f_abs obind] in Q.
  change (a_noise (f_sens s1)) with (a_noise (f_sens s)) in Q. rewrite En in Q. change (f_eff s1) with true in Q. cbn [boost_assert obind] in Q.
  destruct (f_step nz Debug (FMeas rest35 (repeat 0 60) 1) s1) as [[o2 s2]| | |]; try discriminate. cbn [out obind] in Q. inversion Q; subst. eexists _, _. reflexivity.
Qed.

(** ** C112 *)
(** A measurement noise can be set with force or absolute measurements, but then, in debug, no measurement can be computed. *)
Theorem C112_measurement_noise_refuted nz md1 dt0 ops s x u k id : f_run nz md1 ops (f_init dt0) = Ok s -> fits (f_cfg s) x u -> f_eff s = true -> a_noise (f_sens s) = Some id ->
  (f_force (f_cfg s) = true /\ (0 < f_nc (f_cfg s) <= 2)%nat \/ f_abs (f_cfg s) = true /\ (f_nc (f_cfg s) <= 2)%nat) -> out (f_step nz Debug (FMeas x u k) s) = AssertFail.
Proof.
  intros R1 F He Hn Hx. apply reach_wf in R1. rewrite out_meas by exact R1. rewrite sizes_fits by exact F. rewrite He, Hn. cbn [boost_assert obind]. unfold meas_p.
  destruct (acc_total Debug (f_cfg s) x u (proj2 (proj2 (proj2 F)))) as (A & Al & Ea). rewrite Ea. cbn [obind]. unfold f_direct.
  assert (E35 : Nat.leb (12 + 6 * f_nc (f_cfg s)) 35 = true) by (apply Nat.leb_le; lia). rewrite E35. cbn [eigen_assert obind].
  assert (X0 : Nat.eqb (f_extra (f_cfg s)) 0 = false) by (apply Nat.eqb_neq; unfold f_extra; destruct Hx as [[-> ?]|[-> ?]]; destruct (f_force (f_cfg s)); lia).
  destruct (f_force (f_cfg s)); cbn [obind]; rewrite X0; reflexivity.
Qed.
Example C112_case : exists s, f_run (fun _ _ l => Ok l) Debug [FWithAbs true; FMNoise (Some 0%nat); FAcc c60_x c108_u] (f_init 1) = Ok s /\ fits (f_cfg s) c60_x c108_u /\ f_eff s = true /\ a_noise (f_sens s) = Some 0%nat /\
  f_abs (f_cfg s) = true /\ (f_nc (f_cfg s) <= 2)%nat.
Proof.
  set (nz := fun (_ _ : nat) (l : list R) => Ok l). set (c := set_abs true (fcfg_init 1)).
  assert (F : fits c c60_x c108_u) by (split; [|split; [|split]]; vm_compute; auto; discriminate).
  cbn [f_run f_step obind]. match goal with |- context [f_accelerations Debug c60_x c108_u ?s] => set (s0 := s) end.
  assert (Ec : f_cfg s0 = c) by reflexivity. assert (W0 : fwf s0) by (apply (reach_wf nz Debug 1 [FWithAbs true; FMNoise (Some 0%nat)]); reflexivity).
  destruct (acc_total Debug c c60_x c108_u) as (A & Al & Ea); [discriminate|].
  unfold f_accelerations. rewrite sizes_fits by exact F. cbn [obind]. destruct (getrot_ok 0 (seg3 c60_x 3) (f_cache s0) (proj1 W0)) as (k & E & C). rewrite E. fold (acc_p Debug (f_cfg s0) c60_x c108_u). rewrite Ec, Ea. cbn [obind].
  eexists. split; [reflexivity|]. cbn [with_work f_cfg f_eff f_sens]. split; [exact F|]. repeat split; try reflexivity. cbn; lia.
Qed.

(** ** C107 *)
(** Without process noise, stateDynamicsJacobian, after stateDynamics, returns the finite differences of stateDynamics with the steps given, for every part of the
    state; the bias and the drift also when they are not enabled. Missing: the unmodeled wrench when it is not enabled (C107_unmodeled_refuted). *)
Theorem C107_state_jacobian_partial nz md md1 dt0 ops s x u y s1 : f_run nz md1 ops (f_init dt0) = Ok s -> f_pn s = None -> fits (f_cfg s) x u -> has_model (f_cfg s) -> length (f_dx s) = 35%nat ->
  f_step nz md (FState x u) s = Ok (OVec y, s1) ->
  exists cols, out (f_step nz md FJx s1) = Ok (OCols cols) /\ length cols = 35%nat /\
    forall i, (i < 35)%nat -> ((24 <= i < 30)%nat -> f_unm (f_cfg s) = true) -> let h := nth i (f_dx s) 0 in h <> 0 ->
      exists yi, out (f_step nz md (FState (list_set i (nth i x 0 + h) x) u) s) = Ok (OVec yi) /\ length (nth i cols []) = 35%nat /\
        forall j, (j < 35)%nat -> nth j (nth i cols []) 0 = (nth j yi 0 - nth j y 0) / h.
Proof.
  intros R1 Np F M Ld E. apply reach_wf in R1. set (c := f_cfg s) in *. set (dx := f_dx s) in *.
  destruct (state_call nz md c x u s R1 eq_refl Np M F) as (s1' & E1 & En & W1 & C1 & N1 & D1 & X1 & U1 & Y1).
  cbn [f_step] in E. rewrite E1 in E. cbn [obind] in E. inversion E; subst s1'. clear E. set (y0 := unok [] (next_p md c x u)) in *.
  assert (Ly : length y0 = 35%nat). { destruct (step_total md c x u M (proj2 (proj2 (proj2 F)))) as (A & Al & fc & tc & _ & _ & _ & E). unfold y0. rewrite E. apply pack_len, F. }
  destruct (state_jacobian nz md c x u dx s1 y0 W1 C1 N1 M F D1 Ld X1 U1 Y1 Ly) as (s2 & EJ & _). cbn [f_step]. rewrite EJ. cbn [obind out]. eexists. split; [reflexivity|].
  split; [rewrite !map_length, seq_length; reflexivity|]. intros i Hi Hu Hh. set (h := nth i (f_dx s) 0) in *. rewrite cols_nth by exact Hi.
  assert (F' : fits c (pert dx x i) u) by (split; [unfold pert; rewrite list_set_len; apply F|apply F]).
  destruct (state_call nz md c (pert dx x i) u s R1 eq_refl Np M F') as (s3 & E3 & En3 & _).
  exists (unok [] (next_p md c (pert dx x i) u)). split. { transitivity (out (f_step nz md (FState (pert dx x i) u) s)); [reflexivity|]. cbn [f_step]. rewrite E3. reflexivity. }
  assert (Li : length (unok [] (next_p md c (pert dx x i) u)) = 35%nat).
  { destruct (step_total md c (pert dx x i) u M (proj2 (proj2 (proj2 F)))) as (A & Al & fc & tc & _ & _ & _ & E). rewrite E. apply pack_len. apply F'. }
  destruct (active c i) eqn:Act.
  - split; [rewrite quot_len; congruence|]. intros j Hj. rewrite quot_nth by (congruence || lia). reflexivity.
  - destruct (inactive_unused c i Hi Act) as [[Hr Hn]|[Hun _]]; [rewrite (Hu Hr) in Hn; discriminate|].
    split; [unfold unit_col; now rewrite map_length, seq_length|]. intros j Hj. rewrite unit_col_nth by exact Hj.
    pose proof (next_unused md c x u i (at_ x i + at_ dx i) y0 (proj1 F) Hun En) as Eq. fold (pert dx x i) in Eq. rewrite Eq. cbn [unok]. rewrite nth_list_set by (rewrite Ly; exact Hi).
    destruct (Nat.eqb_spec j i) as [->|_]; [|unfold Rdiv; ring].
    assert (Ei : nth i y0 0 = nth i x 0).
    { destruct (step_total md c x u M (proj2 (proj2 (proj2 F)))) as (A & Al & fc & tc & _ & _ & _ & E). unfold y0. rewrite E. cbn [unok]. destruct (pack_parts c x (moved (f_dt c) x A Al) fc tc (proj1 F)) as (_ & _ & _ & _ & _ & _ & _ & _ & _ & _ & P30). apply P30.
      pose proof (unused_ge c i Hun). lia. }
    rewrite Ei. change (1 = (nth i x 0 + h - nth i x 0) / h). field. exact Hh.
Qed.
Definition c107_ops : list fop := [FSet (SetModel CElastic); FContacts 1; FDx (repeat (1 / 1000) 35)].
Example C107_case : exists s y s1, f_run (fun _ _ l => Ok l) Debug c107_ops (f_init (5 / 1000)) = Ok s /\ f_pn s = None /\ fits (f_cfg s) rest35 (repeat 0 60) /\ has_model (f_cfg s) /\ length (f_dx s) = 35%nat /\
  (forall i, (i < 35)%nat -> nth i (f_dx s) 0 <> 0) /\ f_step (fun _ _ l => Ok l) Debug (FState rest35 (repeat 0 60)) s = Ok (OVec y, s1).
Proof.
  set (nz := fun (_ _ : nat) (l : list R) => Ok l).
  assert (exists s, f_run nz Debug c107_ops (f_init (5 / 1000)) = Ok s /\ f_cfg s = set_contacts 1 (f_setting (SetModel CElastic) (fcfg_init (5 / 1000))) /\ f_pn s = None /\ f_dx s = repeat (1 / 1000) 35) as (s & Rn & Ec & Ep & Ed) by (eexists; split; [reflexivity|]; auto).
  assert (W : fwf s) by (eapply reach_wf, Rn). assert (F : fits (f_cfg s) rest35 (repeat 0 60)) by (rewrite Ec; split; [|split; [|split]]; vm_compute; auto).
  assert (M : has_model (f_cfg s)) by (rewrite Ec; now left).
  destruct (state_call nz Debug (f_cfg s) rest35 (repeat 0 60) s W eq_refl Ep M F) as (s1 & E1 & _). exists s, (unok [] (next_p Debug (f_cfg s) rest35 (repeat 0 60))), s1.
  split; [exact Rn|]. split; [exact Ep|]. split; [exact F|]. split; [exact M|]. rewrite Ed. split; [reflexivity|]. split; [|cbn [f_step]; rewrite E1; reflexivity].
  intros i Hi. assert (In (nth i (repeat (1 / 1000) 35) 0) (repeat (1 / 1000) 35)) as Hin by (apply nth_In; rewrite repeat_length; exact Hi). apply repeat_spec in Hin. rewrite Hin. lra.
Qed.
(** The column of a component of an unmodeled wrench that is not enabled is that of the identity, although stateDynamics returns zero for this
    component whatever its value. *)
Theorem C107_unmodeled_refuted : exists nz ops s x u y s1 cols, f_run nz Debug ops (f_init 1) = Ok s /\ f_pn s = None /\ fits (f_cfg s) x u /\ has_model (f_cfg s) /\ length (f_dx s) = 35%nat /\ nth 24 (f_dx s) 0 <> 0 /\
  f_step nz Debug (FState x u) s = Ok (OVec y, s1) /\ out (f_step nz Debug FJx s1) = Ok (OCols cols) /\ nth 24 (nth 24 cols []) 0 = 1 /\
  forall h, exists yi, out (f_step nz Debug (FState (list_set 24 (nth 24 x 0 + h) x) u) s) = Ok (OVec yi) /\ nth 24 yi 0 - nth 24 y 0 = 0.
Proof.
  destruct C107_case as (s & y & s1 & Rn & Np & F & M & Ld & Hd & E). set (nz := fun (_ _ : nat) (l : list R) => Ok l) in *.
  assert (exists s, f_run nz Debug c107_ops (f_init 1) = Ok s /\ f_cfg s = set_contacts 1 (f_setting (SetModel CElastic) (fcfg_init 1)) /\ f_pn s = None /\ f_dx s = repeat (1 / 1000) 35) as (q & Rq & Ec & Ep & Ed) by (eexists; split; [reflexivity|]; auto).
  clear s y s1 Rn Np F M Ld Hd E.
  assert (W : fwf q) by (eapply reach_wf, Rq). assert (F : forall x, length x = 35%nat -> fits (f_cfg q) x (repeat 0 60)) by (intros x Lx; rewrite Ec; split; [exact Lx|]; split; [|split]; vm_compute; auto).
  assert (M : has_model (f_cfg q)) by (rewrite Ec; now left). set (u := repeat 0 60) in *. set (c := f_cfg q) in *.
  assert (Ld : length (f_dx q) = 35%nat) by (rewrite Ed; reflexivity).
  destruct (state_call nz Debug c rest35 u q W eq_refl Ep M (F rest35 eq_refl)) as (s1 & E1 & En & W1 & C1 & N1 & D1 & X1 & U1 & Y1). set (y0 := unok [] (next_p Debug c rest35 u)) in *.
  assert (Z : forall x, length x = 35%nat -> length (unok [] (next_p Debug c x u)) = 35%nat /\ nth 24 (unok [] (next_p Debug c x u)) 0 = 0).
  { intros x Lx. destruct (step_total Debug c x u M (proj2 (proj2 (proj2 (F x Lx))))) as (A & Al & fc & tc & _ & _ & _ & E). rewrite E. cbn [unok]. split; [now apply pack_len|].
    destruct (pack_parts c x (moved (f_dt c) x A Al) fc tc Lx) as (_ & _ & _ & _ & _ & _ & _ & _ & P24 & _). replace (f_unm c) with false in P24 by (rewrite Ec; reflexivity). unfold seg3, at_ in P24. injection P24. auto. }
  destruct (state_jacobian nz Debug c rest35 u (f_dx q) s1 y0 W1 C1 N1 M (F rest35 eq_refl) D1 Ld X1 U1 Y1 (proj1 (Z rest35 eq_refl))) as (s2 & EJ & _).
  eexists nz, c107_ops, q, rest35, u, y0, s1, _. split; [exact Rq|]. split; [exact Ep|]. split; [now apply F|]. split; [exact M|]. split; [exact Ld|]. split; [rewrite Ed; cbn; lra|].
  split; [cbn [f_step]; rewrite E1; reflexivity|]. split; [cbn [f_step]; rewrite EJ; reflexivity|]. split.
  - rewrite cols_nth by lia. replace (active c 24) with false by (rewrite Ec; reflexivity). now rewrite unit_col_nth by lia.
  - intros h. assert (Lp : length (list_set 24 (nth 24 rest35 0 + h) rest35) = 35%nat) by (now rewrite list_set_len). destruct (state_call nz Debug c _ u q W eq_refl Ep M (F _ Lp)) as (s3 & E3 & _).
    eexists. split; [cbn [f_step]; rewrite E3; reflexivity|]. rewrite (proj2 (Z _ Lp)). unfold y0. rewrite (proj2 (Z rest35 eq_refl)). ring.
Qed.

(** ** C109 *)
(** Without measurement noise, measureDynamicsJacobian, after measureDynamics, returns the finite differences of measureDynamics with the steps given, for every part
    of the state; the bias and the drift also when they are not enabled. Missing: the unmodeled wrench when it is not enabled (C109_unmodeled_refuted). *)
Theorem C109_measure_jacobian_partial nz md md1 dt0 ops s x u k y s1 : f_run nz md1 ops (f_init dt0) = Ok s -> a_noise (f_sens s) = None -> f_eff s = true -> fits (f_cfg s) x u -> (f_nc (f_cfg s) <= 2)%nat -> length (f_dx s) = 35%nat ->
  f_step nz md (FMeas x u k) s = Ok (OVec y, s1) ->
  exists cols, out (f_step nz md FJy s1) = Ok (OCols cols) /\ length cols = 35%nat /\
    forall i, (i < 35)%nat -> ((24 <= i < 30)%nat -> f_unm (f_cfg s) = true) -> let h := nth i (f_dx s) 0 in h <> 0 ->
      exists yi, out (f_step nz md (FMeas (list_set i (nth i x 0 + h) x) u k) s) = Ok (OVec yi) /\ length (nth i cols []) = length y /\
        forall j, (j < length y)%nat -> nth j (nth i cols []) 0 = (nth j yi 0 - nth j y 0) / h.
Proof.
  intros R1 Hn He F Hc Ld E. apply reach_wf in R1. set (c := f_cfg s) in *. set (dx := f_dx s) in *. assert (H3 : f_force c = true -> (f_nc c <= 3)%nat) by lia.
  destruct (meas_call nz md c x u k s R1 eq_refl Hn He F H3) as (s1' & E1 & Ly & W1 & C1 & N1 & T1 & D1 & X1 & U1 & K1 & Y1).
  cbn [f_step] in E. rewrite E1 in E. cbn [obind] in E. inversion E; subst s1'. clear E H0. set (y0 := meas_of md c u x) in *.
  destruct (meas_jacobian nz md c x u k dx s1 y0 W1 C1 N1 T1 F H3 D1 Ld X1 U1 K1 Y1 Ly) as (s2 & EJ & _). cbn [f_step]. rewrite EJ. cbn [obind out]. eexists. split; [reflexivity|].
  split; [rewrite !map_length, seq_length; reflexivity|]. intros i Hi Hu Hh. set (h := nth i (f_dx s) 0) in *. rewrite cols_nth by exact Hi.
  assert (F' : fits c (pert dx x i) u) by (split; [unfold pert; rewrite list_set_len; apply F|apply F]).
  destruct (meas_call nz md c (pert dx x i) u k s R1 eq_refl Hn He F' H3) as (s3 & E3 & Li & _).
  exists (meas_of md c u (pert dx x i)). split. { transitivity (out (f_step nz md (FMeas (pert dx x i) u k) s)); [reflexivity|]. cbn [f_step]. rewrite E3. reflexivity. }
  destruct (active c i) eqn:Act.
  - split; [rewrite quot_len; congruence|]. intros j Hj. rewrite quot_nth by (congruence || lia). reflexivity.
  - destruct (inactive_unused c i Hi Act) as [[Hr Hq]|[Hun Hab]]; [rewrite (Hu Hr) in Hq; discriminate|].
    split; [rewrite repeat_length; congruence|]. intros j Hj. unfold meas_of, pert. rewrite meas_unused by (auto; apply F). fold (meas_of md c u x). fold y0.
    rewrite Rminus_diag_eq by reflexivity. unfold Rdiv. rewrite Rmult_0_l. apply nth_repeat.
Qed.
Example C109_case : exists s y s1, f_run (fun _ _ l => Ok l) Debug [FSet (SetModel CElastic); FContacts 1; FWithForce true; FDx (repeat (1 / 1000) 35); FAcc rest35 (repeat 0 60)] (f_init 1) = Ok s /\ a_noise (f_sens s) = None /\ f_eff s = true /\
  fits (f_cfg s) rest35 (repeat 0 60) /\ (f_nc (f_cfg s) <= 2)%nat /\ length (f_dx s) = 35%nat /\ (forall i, (i < 35)%nat -> nth i (f_dx s) 0 <> 0) /\ f_step (fun _ _ l => Ok l) Debug (FMeas rest35 (repeat 0 60) 1) s = Ok (OVec y, s1) /\ length y = 12%nat.
Proof.
  set (nz := fun (_ _ : nat) (l : list R) => Ok l). set (c := set_force true (set_contacts 1 (f_setting (SetModel CElastic) (fcfg_init 1)))). set (u := repeat 0 60).
  assert (F : fits c rest35 u) by (split; [|split; [|split]]; vm_compute; auto; discriminate).
  cbn [f_run f_step obind]. match goal with |- context [f_accelerations Debug rest35 u ?s] => set (s0 := s) end.
  assert (Ec : f_cfg s0 = c) by reflexivity. assert (W0 : fwf s0) by (apply (reach_wf nz Debug 1 [FSet (SetModel CElastic); FContacts 1; FWithForce true; FDx (repeat (1 / 1000) 35)]); reflexivity).
  destruct (acc_total Debug c rest35 u) as (A & Al & Ea); [cbn; lia|].
  unfold f_accelerations. rewrite sizes_fits by exact F. cbn [obind]. destruct (getrot_ok 0 (seg3 rest35 3) (f_cache s0) (proj1 W0)) as (k & E & C). rewrite E. fold (acc_p Debug (f_cfg s0) rest35 u). rewrite Ec, Ea. cbn [obind].
  match goal with |- context [Ok ?q = Ok _] => set (s2 := q) end.
  assert (W2 : fwf s2). { destruct W0 as (_ & W2 & W3 & W4). split; [exact C|]. split; [reflexivity|]. split; [reflexivity|]. exact W4. }
  destruct (meas_call nz Debug c rest35 u 1 s2 W2 eq_refl eq_refl eq_refl F) as (s3 & E3 & Ly & _); [cbn; lia|].
  eexists s2, _, s3. split; [reflexivity|]. split; [reflexivity|]. split; [reflexivity|]. split; [exact F|]. split; [cbn; lia|]. split; [reflexivity|]. split.
  - intros i Hi. change (f_dx s2) with (repeat (1 / 1000) 35). assert (In (nth i (repeat (1 / 1000) 35) 0) (repeat (1 / 1000) 35)) as Hin by (apply nth_In; rewrite repeat_length; exact Hi). apply repeat_spec in Hin. rewrite Hin. lra.
  - rewrite E3. cbn [obind]. split; [reflexivity|exact Ly].
Qed.
(** The column of a component of an unmodeled wrench that is not enabled is zero, although the measurement depends on this component. *)
Theorem C109_unmodeled_refuted : exists nz ops s x u k y s1 cols, f_run nz Debug ops (f_init 1) = Ok s /\ a_noise (f_sens s) = None /\ f_eff s = true /\ fits (f_cfg s) x u /\ (f_nc (f_cfg s) <= 2)%nat /\ length (f_dx s) = 35%nat /\ nth 24 (f_dx s) 0 <> 0 /\
  f_unm (f_cfg s) = false /\ f_step nz Debug (FMeas x u k) s = Ok (OVec y, s1) /\ out (f_step nz Debug FJy s1) = Ok (OCols cols) /\ nth 0 (nth 24 cols []) 0 = 0 /\
  forall h, h <> 0 -> exists yi, out (f_step nz Debug (FMeas (list_set 24 (nth 24 x 0 + h) x) u k) s) = Ok (OVec yi) /\ nth 0 yi 0 <> nth 0 y 0.
Proof.
  set (nz := fun (_ _ : nat) (l : list R) => Ok l). set (c := fcfg_init 1). set (u := c60_u). set (ops := [FDx (repeat (1 / 1000) 35); FAcc rest35 u]).
  assert (F : forall x, length x = 35%nat -> fits c x u) by (intros x Lx; split; [exact Lx|]; split; [|split]; vm_compute; auto; discriminate).
  assert (R0 : rv_mat (mkV 0 0 0) = m1) by apply rv_mat_0.
  assert (V : forall h, exists k, k <> 0 /\ nth 0 (meas_of Debug c u (list_set 24 h rest35)) 0 = k * h).
  { intros h. assert (Hm : f_mass c <> 0) by (cbn; unfold hrp2_m; lra).
    destruct (accel_ok Debug c (list_set 24 h rest35) u (seg3 (list_set 24 h rest35) 9) Hm) as (A & Al & E & N1 & N2); [discriminate|exact c60_pdef|].
    unfold meas_of, meas_p, acc_p. rewrite E. cbn [obind]. unfold f_direct. cbn [c fcfg_init f_force f_abs obind unok].
    unfold sum_force, sum_moment, wrenches, com_of, tensor, seg3, at_, rest35, u, c60_u in *. cbn [c fcfg_init f_mass f_model f_bias nth Nat.add app repeat firstn fold_right fst snd list_set] in *. rewrite R0 in *.
    destruct A as [a1 a2 a3], Al as [b1 b2 b3]. unfold hrp2_m, gravity, meas_v, isignal in *. u3.
    injection N1 as X1 X2 X3. injection N2 as Y1 Y2 Y3. exists (/ ((1 - 4 * (568 / 10) / 300) * (568 / 10))). split; [apply Rinv_neq_0_compat; lra|]. assert (Ea : a1 * ((1 - 4 * (568 / 10) / 300) * (568 / 10)) = h) by lra. rewrite <- Ea. unfold accelerationMeasure, sgravity. u3. cbn [vlist nth app vx]. field. }
  assert (exists s0, f_run nz Debug [FDx (repeat (1 / 1000) 35)] (f_init 1) = Ok s0 /\ f_cfg s0 = c /\ fwf s0 /\ f_dx s0 = repeat (1 / 1000) 35 /\ a_noise (f_sens s0) = None) as (s0 & Rs & Ec & W0 & Ed & En).
  { eexists. split; [reflexivity|]. split; [reflexivity|]. split; [apply (reach_wf nz Debug 1 [FDx (repeat (1 / 1000) 35)]); reflexivity|]. split; reflexivity. }
  destruct (acc_total Debug c rest35 u) as (A & Al & Ea); [discriminate|].
  assert (exists s, f_step nz Debug (FAcc rest35 u) s0 = Ok (OVec (l3 A ++ l3 Al), s) /\ fwf s /\ f_cfg s = c /\ f_eff s = true /\ a_noise (f_sens s) = None /\ f_dx s = repeat (1 / 1000) 35) as (s & E & W & Ec' & He & En' & Ed').
  { cbn [f_step]. unfold f_accelerations. rewrite sizes_fits by (rewrite Ec; now apply F). cbn [obind]. destruct (getrot_ok 0 (seg3 rest35 3) (f_cache s0) (proj1 W0)) as (k & E & C). rewrite E. fold (acc_p Debug (f_cfg s0) rest35 u). rewrite Ec, Ea. cbn [obind].
    eexists. split; [reflexivity|]. split; [|cbn [with_work f_cfg f_eff f_sens f_dx]; auto]. destruct W0 as (_ & W2 & W3 & W4). split; [exact C|]. split; [reflexivity|]. split; [reflexivity|]. exact W4. }
  assert (Rn : f_run nz Debug ops (f_init 1) = Ok s). { unfold ops. cbn [f_run] in Rs |- *. destruct (f_step nz Debug (FDx _) (f_init 1)) as [[? q]| | |]; try discriminate. cbn [obind] in *. apply ok_inj in Rs. subst q. rewrite E. reflexivity. }
  assert (H3 : f_force c = true -> (f_nc c <= 3)%nat) by discriminate. assert (Ld : length (f_dx s) = 35%nat) by (rewrite Ed'; reflexivity).
  destruct (meas_call nz Debug c rest35 u 1 s W Ec' En' He (F rest35 eq_refl) H3) as (s1 & E1 & Ly & W1 & C1 & N1 & T1 & D1 & X1 & U1 & K1 & Y1).
  destruct (meas_jacobian nz Debug c rest35 u 1 (f_dx s) s1 _ W1 C1 N1 T1 (F rest35 eq_refl) H3 D1 Ld X1 U1 K1 Y1 Ly) as (s2 & EJ & _).
  eexists nz, ops, s, rest35, u, 1%Z, _, s1, _. split; [exact Rn|]. split; [exact En'|]. split; [exact He|]. rewrite Ec'. split; [now apply F|]. split; [cbn; lia|]. split; [exact Ld|]. split; [rewrite Ed'; cbn; lra|]. split; [reflexivity|].
  split; [cbn [f_step]; rewrite E1; reflexivity|]. split; [cbn [f_step]; rewrite EJ; reflexivity|]. split. { rewrite cols_nth by lia. reflexivity. }
  intros h Hh. assert (Lp : length (list_set 24 (nth 24 rest35 0 + h) rest35) = 35%nat) by (now rewrite list_set_len).
  destruct (meas_call nz Debug c _ u 1 s W Ec' En' He (F _ Lp) H3) as (s3 & E3 & _). eexists. split; [cbn [f_step]; rewrite E3; reflexivity|].
  destruct (V (nth 24 rest35 0 + h)) as (k1 & Hk & ->). destruct (V 0) as (k0 & _ & V0). change (list_set 24 0 rest35) with rest35 in V0. rewrite V0. change (nth 24 rest35 0) with 0. rewrite Rplus_0_l, Rmult_0_r. apply Rmult_integral_contrapositive. split; assumption.
Qed.

(** ** C120 *)
(** Asking a Jacobian any number of times gives the same matrix: the perturbed evaluations leave no trace in the object. *)
Theorem C120_state_jacobian_again nz md md1 dt0 ops s x u y s1 n : f_run nz md1 ops (f_init dt0) = Ok s -> f_pn s = None -> fits (f_cfg s) x u -> has_model (f_cfg s) -> length (f_dx s) = 35%nat ->
  f_step nz md (FState x u) s = Ok (OVec y, s1) ->
  exists s2 cols, f_run nz md (repeat FJx n) s1 = Ok s2 /\ out (f_step nz md FJx s1) = Ok (OCols cols) /\ out (f_step nz md FJx s2) = Ok (OCols cols).
Proof.
  intros R1 Np F M Ld E. apply reach_wf in R1. set (c := f_cfg s) in *. set (dx := f_dx s) in *.
  destruct (state_call nz md c x u s R1 eq_refl Np M F) as (s1' & E1 & En & W1 & C1 & N1 & D1 & X1 & U1 & Y1).
  cbn [f_step] in E. rewrite E1 in E. cbn [obind] in E. inversion E; subst s1'. clear E. set (y0 := unok [] (next_p md c x u)) in *.
  assert (Ly : length y0 = 35%nat). { destruct (step_total md c x u M (proj2 (proj2 (proj2 F)))) as (A & Al & fc & tc & _ & _ & _ & E). unfold y0. rewrite E. apply pack_len, F. }
  set (cols := map snd (map (fun i => (i, if active c i then ldiv (lsub (unok [] (next_p md c (pert dx x i) u)) y0) (at_ dx i) else unit_col 35 i)) (seq 0 35))).
  assert (Q : forall q, fwf q -> f_cfg q = c -> f_pn q = None -> f_dx q = dx -> f_xk q = x -> f_uk q = u -> f_xk1 q = y0 ->
    exists q', f_step nz md FJx q = Ok (OCols cols, q') /\ fwf q' /\ f_cfg q' = c /\ f_pn q' = None /\ f_dx q' = dx /\ f_xk q' = x /\ f_uk q' = u /\ f_xk1 q' = y0).
  { intros q A1 A2 A3 A4 A5 A6 A7. destruct (state_jacobian nz md c x u dx q y0 A1 A2 A3 M F A4 Ld A5 A6 A7 Ly) as (q' & EJ & B).
    assert (EF : f_step nz md FJx q = Ok (OCols cols, q')) by (cbn [f_step]; rewrite EJ; reflexivity).
    exists q'. split; [exact EF|]. split; [exact (step_wf nz md FJx q _ _ A1 EF)|exact B]. }
  assert (P : forall n q, fwf q -> f_cfg q = c -> f_pn q = None -> f_dx q = dx -> f_xk q = x -> f_uk q = u -> f_xk1 q = y0 ->
    exists s2, f_run nz md (repeat FJx n) q = Ok s2 /\ out (f_step nz md FJx q) = Ok (OCols cols) /\ out (f_step nz md FJx s2) = Ok (OCols cols)).
  { clear - Q. induction n as [|n IH]; intros q A1 A2 A3 A4 A5 A6 A7; destruct (Q q A1 A2 A3 A4 A5 A6 A7) as (q' & EF & B1 & B2 & B3 & B4 & B5 & B6 & B7).
    - exists q. cbn [repeat f_run]. rewrite EF. auto.
    - destruct (IH q' B1 B2 B3 B4 B5 B6 B7) as (s2 & I1 & _ & I3). exists s2. cbn [repeat f_run]. rewrite EF. cbn [obind out]. auto. }
  destruct (P n s1 W1 C1 N1 D1 X1 U1 Y1) as (s2 & P1 & P2 & P3). eauto.
Qed.
Theorem C120_measure_jacobian_again nz md md1 dt0 ops s x u k y s1 n : f_run nz md1 ops (f_init dt0) = Ok s -> a_noise (f_sens s) = None -> f_eff s = true -> fits (f_cfg s) x u -> (f_nc (f_cfg s) <= 2)%nat -> length (f_dx s) = 35%nat ->
  f_step nz md (FMeas x u k) s = Ok (OVec y, s1) ->
  exists s2 cols, f_run nz md (repeat FJy n) s1 = Ok s2 /\ out (f_step nz md FJy s1) = Ok (OCols cols) /\ out (f_step nz md FJy s2) = Ok (OCols cols).
Proof.
  intros R1 Hn He F Hc Ld E. apply reach_wf in R1. set (c := f_cfg s) in *. set (dx := f_dx s) in *. assert (H3 : f_force c = true -> (f_nc c <= 3)%nat) by lia.
  destruct (meas_call nz md c x u k s R1 eq_refl Hn He F H3) as (s1' & E1 & Ly & W1 & C1 & N1 & T1 & D1 & X1 & U1 & K1 & Y1).
  cbn [f_step] in E. rewrite E1 in E. cbn [obind] in E. inversion E; subst s1'. clear E H0. set (y0 := meas_of md c u x) in *.
  set (cols := map snd (map (fun i => (i, if active c i then ldiv (lsub (meas_of md c u (pert dx x i)) y0) (at_ dx i) else repeat 0 (6 + f_extra c))) (seq 0 35))).
  set (J := fun q => fwf q /\ f_cfg q = c /\ a_noise (f_sens q) = None /\ f_eff q = true /\ f_dx q = dx /\ f_xf q = x /\ f_uf q = u /\ f_kf q = k /\ f_yk q = y0).
  assert (Q : forall q, J q -> exists q', f_step nz md FJy q = Ok (OCols cols, q') /\ J q').
  { intros q (A1 & A2 & A3 & A4 & A5 & A6 & A7 & A8 & A9). destruct (meas_jacobian nz md c x u k dx q y0 A1 A2 A3 A4 F H3 A5 Ld A6 A7 A8 A9 Ly) as (q' & EJ & B).
    assert (EF : f_step nz md FJy q = Ok (OCols cols, q')) by (cbn [f_step]; rewrite EJ; reflexivity).
    exists q'. split; [exact EF|]. split; [exact (step_wf nz md FJy q _ _ A1 EF)|exact B]. }
  assert (P : forall n q, J q -> exists s2, f_run nz md (repeat FJy n) q = Ok s2 /\ out (f_step nz md FJy q) = Ok (OCols cols) /\ out (f_step nz md FJy s2) = Ok (OCols cols)).
  { clear - Q. induction n as [|n IH]; intros q A; destruct (Q q A) as (q' & EF & B).
    - exists q. cbn [repeat f_run]. rewrite EF. auto.
    - destruct (IH q' B) as (s2 & I1 & _ & I3). exists s2. cbn [repeat f_run]. rewrite EF. cbn [obind out]. auto. }
  destruct (P n s1) as (s2 & P1 & P2 & P3); [unfold J; auto 12|]. eauto.
Qed.
(** C107_case and C109_case meet the hypotheses. *)

(** ** C121 *)
(** iterateDynamicsRK4 is exact when the accelerations are constant, the angular one being zero: parabola of the position, linear
    velocity, uniform rotation (as long as the four angles of the integration are not under the threshold of the exponential). *)
Theorem C121_rk4_exact md c b dt l e k a : cwf k -> has_model c -> (length (b_cs b) <= 2)%nat ->
  (forall p r w, so3 r -> accel md c b p r w e e = Ok (a, v0)) ->
  (forall t, t = dt \/ t = dt / 2 \/ t = dt / 3 \/ t = dt / 6 -> exact_rv (vscal t (l_w l))) ->
  exists l' fc' tc' k', rk4 md c b dt l e e k = Ok (l', fc', tc', k') /\
    l_p l' = vadd (l_p l) (vadd (vscal dt (l_v l)) (vscal (dt * dt / 2) a)) /\ l_v l' = vadd (l_v l) (vscal dt a) /\ l_w l' = l_w l /\
    rodrigues (l_th l') = mmul (rodrigues (vscal dt (l_w l))) (rv_mat (l_th l)).
Proof.
  intros C M Hc Ea Hx. unfold rk4. destruct (getrot_ok 0 (l_th l) k C) as (k1 & E & C1). rewrite E. set (r := rv_mat (l_th l)). set (w := l_w l) in *.
  assert (Zs : forall t, vscal t v0 = v0) by (clear; intros; c3). assert (Za : forall t, vadd t v0 = t) by (clear; intros; c3).
  assert (S : so3 r) by apply rv_mat_so3. assert (Si : forall t r w, so3 r -> so3 (int_m t r w)) by (intros t r0 w0 S0; unfold int_m; apply so3_mmul; [apply rv_mat_so3|exact S0]).
  rewrite Ea by exact S. cbn [obind]. rewrite ?Zs, ?Za. rewrite Ea by (apply Si, S). cbn [obind]. rewrite ?Zs, ?Za. rewrite Ea by (apply Si, S). cbn [obind]. rewrite ?Zs, ?Za.
  rewrite Ea by (apply Si, S). cbn [obind]. rewrite ?Zs, ?Za.
  assert (Em : int_m (dt / 6) (int_m (dt / 3) (int_m (dt / 3) (int_m (dt / 6) r w) w) w) w = mmul (rodrigues (vscal dt w)) r).
  { unfold int_m. rewrite !rv_rodrigues by (apply exact_not_tiny, Hx; auto). rewrite !mmul_assoc, !rodrigues_add. do 3 f_equal. field. }
  rewrite Em. set (rr := mmul (rodrigues (vscal dt w)) r). assert (Sr : so3 rr) by (unfold rr; apply so3_mmul; [rewrite <- rv_rodrigues by (apply exact_not_tiny, Hx; auto); apply rv_mat_so3|exact S]).
  match goal with |- context [getrot 0 ?th k1] => destruct (getrot_ok 0 th k1 C1) as (k2 & E2 & C2); rewrite E2 end.
  match goal with |- context [forces md c ?cs ?p ?v ?th ?q ?w k2] => destruct (forces_ok md c cs p v th q w k2 C2) as (k3 & C3 & Ef); rewrite Ef;
    assert (exists z, forces_p md c cs p v th q w = Ok z) as ([fc tc] & ->) end.
  { unfold forces_p. destruct M as [M|M]; rewrite M; [change nbModeledMax with 2%nat; rewrite elast_p_ok by exact Hc; eauto|destruct (ropes _ _ _ _ _ _ _); eauto]. }
  cbn [obind]. eexists _, fc, tc, k3. split; [reflexivity|]. cbn [l_p l_v l_w l_th]. split; [|split; [|split]].
  - unfold int_p. generalize (l_p l) (l_v l) a. clear. intros p v a. destruct p, v, a. u3. f_equal; field.
  - generalize (l_v l) a. clear. intros v a. destruct v, a. u3. f_equal; field.
  - now rewrite Zs, Za.
  - apply mat_rv_rot, Sr.
Qed.
(** Free fall of a body whose mass is carried by nothing. *)
Example C121_case : let l := mkFL v0 v0 (mkV 1 0 0) v0 in cwf cache_init /\ has_model c105_c /\
  (forall p r w, so3 r -> accel Debug c105_c (c105_b 0) p r w [v0; v0] [v0; v0] = Ok (vneg gravity, v0)) /\
  (forall t, exact_rv (vscal t (l_w l))).
Proof.
  intros l. split; [apply cwf_init|]. split; [now right|]. split.
  - intros p r w S. rewrite c105_accel by (try exact S; destruct r; u3; f_equal; ring).
    unfold gravity, hrp2_m. destruct p. do 2 f_equal; u3; f_equal; field.
  - intros t. right. cbn. u3. f_equal; ring.
Qed.

(** ** C122 *)
(** What was given last. *)
Definition last_given {A} (ops : list fop) (pick : fop -> option A) (default : A) : A :=
  fold_left (fun a o => match pick o with Some v => v | None => a end) ops default.
(** After any history every setting has the value given last by its own setter (the documented default when it was never given): no other
    call changes it. The size of the input follows the number of contacts. *)
Theorem C122_last_setting nz md dt0 ops s : f_run nz md ops (f_init dt0) = Ok s ->
  let c := f_cfg s in let last {A} := @last_given A ops in
  f_mass c = last (fun o => match o with FSet (SetMass m) => Some m | _ => None end) (hrp2_m) /\
  f_dt c = last (fun o => match o with FSet (SetPeriod m) => Some m | _ => None end) (dt0) /\
  f_model c = last (fun o => match o with FSet (SetModel m) => Some m | _ => None end) (CNone) /\
  f_kfe c = last (fun o => match o with FSet (SetKfe m) => Some m | _ => None end) (mscal 40000 m1) /\
  f_kfv c = last (fun o => match o with FSet (SetKfv m) => Some m | _ => None end) (mscal 600 m1) /\
  f_kte c = last (fun o => match o with FSet (SetKte m) => Some m | _ => None end) (mscal 600 m1) /\
  f_ktv c = last (fun o => match o with FSet (SetKtv m) => Some m | _ => None end) (mscal 60 m1) /\
  f_rfe c = last (fun o => match o with FSet (SetRfe m) => Some m | _ => None end) (mscal 40000 m1) /\
  f_rfv c = last (fun o => match o with FSet (SetRfv m) => Some m | _ => None end) (mscal 600 m1) /\
  f_rte c = last (fun o => match o with FSet (SetRte m) => Some m | _ => None end) (mscal 600 m1) /\
  f_rtv c = last (fun o => match o with FSet (SetRtv m) => Some m | _ => None end) (mscal 60 m1) /\
  f_pe c = last (fun o => match o with FSet (SetPe m) => Some m | _ => None end) (v0) /\
  f_bias c = last (fun o => match o with FSet (SetWithComBias m) => Some m | _ => None end) (false) /\
  f_unm c = last (fun o => match o with FSet (SetWithUnmodeled m) => Some m | _ => None end) (false) /\
  f_nc c = last (fun o => match o with FContacts m => Some m | _ => None end) 0%nat /\
  f_force c = last (fun o => match o with FWithForce m => Some m | _ => None end) false /\
  f_abs c = last (fun o => match o with FWithAbs m => Some m | _ => None end) false /\
  f_isize c = last (fun o => match o with FContacts m => Some (48 + 12 * m)%nat | FSet (SetInputSize m) => Some m | _ => None end) 48%nat.
Proof.
  intros E c last. pose proof (run_cfg nz md ops _ _ (init_wf dt0) E) as H. fold c in H. rewrite H. change (f_cfg (f_init dt0)) with (fcfg_init dt0). unfold last, last_given.
  repeat match goal with |- _ /\ _ => split end.
  all: match goal with |- ?fd _ = fold_left (fun a o => match @?p o with Some v => v | None => a end) _ _ => rewrite (fold_field fd p ops); [reflexivity|] end.
  all: intros o [] ; destruct o as [| | | | | | | | |[]| | | | | |]; reflexivity.
Qed.
Example C122_case : exists s, f_run (fun _ _ l => Ok l) Debug [FSet (SetKtv m1); FContacts 2; FSet (SetMass 50); FSet (SetKte (mscal 2 m1)); FContacts 1; FWithAbs true] (f_init 1) = Ok s /\
  f_ktv (f_cfg s) = m1 /\ f_nc (f_cfg s) = 1%nat /\ f_isize (f_cfg s) = 60%nat.
Proof. eexists. split; [reflexivity|]. auto. Qed.

Print Assumptions C58_cached_rotation_flex.
Print Assumptions C60_newton_euler.
Print Assumptions C61_process_noise_refuted.
Print Assumptions C102_next_state.
Print Assumptions C103_contact_energy_partial.
Print Assumptions C103_moving_contact_refuted.
Print Assumptions C103_gains_refuted.
Print Assumptions C104_rope_force_partial.
Print Assumptions C104_rope_moment_refuted.
Print Assumptions C105_equilibrium_partial.
Print Assumptions C105_equilibrium_refuted.
Print Assumptions C106_momenta_partial.
Print Assumptions C106_momenta_refuted.
Print Assumptions C106_mass_refuted.
Print Assumptions C108_predicted_measurement_partial.
Print Assumptions C108_measurement_refuted.
Print Assumptions C110_many_contacts_refuted.
Print Assumptions C111_last_efforts.
Print Assumptions C112_measurement_noise_refuted.
Print Assumptions C107_state_jacobian_partial.
Print Assumptions C107_unmodeled_refuted.
Print Assumptions C109_measure_jacobian_partial.
Print Assumptions C109_unmodeled_refuted.
Print Assumptions C120_state_jacobian_again.
Print Assumptions C120_measure_jacobian_again.
Print Assumptions C121_rk4_exact.
Print Assumptions C122_last_setting.
