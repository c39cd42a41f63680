(** Properties of the simulator: C47, C48. [in_force], [inputs], [phase_op], [inputs_in_time],
    [sim_only] and [final_time] are in SimProofs.v. *)
From Coq Require Import ZArith List Lia Bool.
From Verif Require Import Base Defs SpecArray ArrayProofs Simulator SimProofs.
Import ListNotations.
Open Scope Z_scope.

(** The toy functor of the examples: state 10 x + u, measurement 1000 x + 100 u + k. *)
Definition toy : functor Z Z Z := mkF (fun x u _ => 10 * x + u) (fun x u k => 1000 * x + 100 * u + k).

(** ** C47 *)
(** From any earlier state of the simulator: after resetDynamics, setDynamicsFunctor and
    setState(x0, k0), any sequence of inputs (distinct times, none for a time already simulated),
    simulations and queries that runs leaves a state in which getState(i) for i from k0 to the
    current time are the iterates of the dynamics under the inputs in force, and getMeasurement(i)
    for i before the current time is the measurement function there. In Debug the first measurement
    cannot be read (C48). *)
Theorem C47_simulation_iterates_dynamics :
  forall (X U Y : Type) md (fh : functor X U Y) x0 k0 ops s0 s1 s,
  forallb phase_op ops = true ->
  NoDup (map fst (inputs ops)) ->
  sim_run md [SResetDyn; SFunctor fh; SState x0 k0] s0 = Ok s1 ->
  inputs_in_time md k0 ops s1 ->
  sim_run md ops s1 = Ok s ->
  exists xs : Z -> X,
    k0 <= sim_getCurrentTime s /\ xs k0 = x0 /\
    (forall i, k0 <= i <= sim_getCurrentTime s -> sim_getState md i s = Ok (xs i, s)) /\
    forall i, k0 <= i < sim_getCurrentTime s -> exists u, in_force (inputs ops) i u /\
      xs (i + 1) = f_dyn fh (xs i) u i /\
      (md = Release \/ k0 < i -> sim_getMeasurement md i s = Ok (f_meas fh (xs i) u i, s)).
Proof.
  intros X U Y md fh x0 k0 ops s0 s1 s Hp Hn E1 Ht Er.
  destruct (start_inv fh md x0 k0 s0) as (s1' & E1' & Hi). rewrite E1 in E1'. injection E1' as <-.
  rewrite <- (app_nil_r (map fst (inputs ops))) in Hn.
  pose proof (phase_inv fh md ops [] x0 k0 s1 s Hi Hp Ht Hn Er) as Hi'. rewrite app_nil_r in Hi'.
  destruct (inv_queries fh md _ _ _ _ Hi') as (xs & H1 & H2 & H3 & H4). exists xs.
  split; [exact H1|]. split; [exact H2|]. split; [exact H3|]. intros i Hi1.
  destruct (H4 i Hi1) as (u & G1 & G2 & _ & _ & _ & G3). exists u. auto.
Qed.
Print Assumptions C47_simulation_iterates_dynamics.
Example C47_ex : exists s,
  sim_run Debug ([SResetDyn; SFunctor toy; SState 1 5] ++ [SInput 2 3; SSimTo 7; SInput 9 8; SSimTo 10; SGetState 6; SGetMeas 9]) sim_init = Ok s /\
  sim_getCurrentTime s = 10 /\ omap fst (sim_getState Debug 10 s) = Ok 122299 /\ omap fst (sim_getMeasurement Debug 8 s) = Ok 1222908.
Proof. eexists. vm_compute. auto. Qed.

(** With one input at or before the first time, in both build modes, inputs and simulations never
    fail and the time reached is the expected one. *)
Theorem C47_simulation_total :
  forall (X U Y : Type) md (fh : functor X U Y) x0 k0 u k ops s0,
  k <= k0 ->
  forallb sim_only ops = true ->
  NoDup (map fst (inputs (SInput u k :: ops))) ->
  exists s1, sim_run md [SResetDyn; SFunctor fh; SState x0 k0; SInput u k] s0 = Ok s1 /\ sim_getCurrentTime s1 = k0 /\
  (inputs_in_time md k0 ops s1 -> exists s, sim_run md ops s1 = Ok s /\ sim_getCurrentTime s = final_time ops k0).
Proof.
  intros X U Y md fh x0 k0 u k ops s0 Hk Hp Hn.
  destruct (start_inv fh md x0 k0 s0) as (s1 & E1 & Hi).
  assert (ET : sim_getCurrentTime s1 = k0).
  { revert E1. unfold sim_run. cbn [orun sim_step obind]. 
    change (sim_setState md x0 k0 (sim_setFunctor fh (sim_resetDynamics s0))) with
      (Ok (mkSim (Some fh) (mkIarr k0 [x0]) (ia_empty (A := Y)) (@nil (Z * U)))).
    cbn [obind]. intros E. injection E as <-. unfold sim_getCurrentTime, ia_last, ia_size. cbn. lia. }
  exists (sim_setInput u k s1). split.
  { change [SResetDyn; SFunctor fh; SState x0 k0; SInput u k] with ([SResetDyn; SFunctor fh; SState x0 k0] ++ [SInput (X := X) (Y := Y) u k]).
    unfold sim_run in *. rewrite orun_app, E1. reflexivity. }
  split; [exact ET|]. intros Ht.
  cbn [inputs map fst] in Hn. inversion Hn as [|? ? Hn1 Hn2]; subst x l.
  destruct (phase_total fh md ops [(k, u)] x0 k0 (sim_setInput u k s1)) as (s & Es & Et); auto.
  - apply input_inv; auto.
  - exists k, u. split; [left; reflexivity|exact Hk].
  - cbn [map fst]. apply NoDup_Add with (a := k) (l := map fst (inputs ops)).
    + rewrite <- (app_nil_r (map fst (inputs ops))) at 1. apply Add_app.
    + auto.
  - exists s. split; [exact Es|]. rewrite Et. f_equal. exact ET.
Qed.
Print Assumptions C47_simulation_total.
Example C47_total_ex : exists s,
  sim_run Release [SResetDyn; SFunctor toy; SState 1 5; SInput 2 5; SSim; SInput 3 6; SSimTo 6; SSimTo 9; SSim] sim_init = Ok s /\ sim_getCurrentTime s = 10.
Proof. eexists. vm_compute. auto. Qed.

(** A correction of an input already given is dropped without notice, in both modes: the hypothesis
    on distinct times cannot be removed. *)
Theorem C47_corrected_input_ignored_refuted :
  exists (fh : functor Z Z Z) x0 u u', u <> u' /\ forall md,
  exists s, sim_run md [SFunctor fh; SState x0 0; SInput u 0; SInput u' 0; SSim] sim_init = Ok s /\
  sim_getCurrentState md s = Ok (f_dyn fh x0 u 0) /\ f_dyn fh x0 u 0 <> f_dyn fh x0 u' 0.
Proof. exists toy, 1, 2, 3. split; [discriminate|]. intros []; eexists; (split; [vm_compute; reflexivity|]); split; (reflexivity || discriminate). Qed.
Print Assumptions C47_corrected_input_ignored_refuted.

(** setState at a time already simulated restarts there: the earlier states are kept, the later ones are
    forgotten, and the simulation goes on from the new state with the inputs in force, replacing the measurements it reaches. *)
Theorem C47_restart :
  forall (X U Y : Type) md (fh : functor X U Y) x0 k0 ops s0 s1 s x1 k1 k2,
  forallb phase_op ops = true ->
  NoDup (map fst (inputs ops)) ->
  sim_run md [SResetDyn; SFunctor fh; SState x0 k0] s0 = Ok s1 ->
  inputs_in_time md k0 ops s1 ->
  sim_run md ops s1 = Ok s ->
  k0 <= k1 <= sim_getCurrentTime s -> (exists k u, In (k, u) (inputs ops) /\ k <= k1) ->
  exists s2 s3 (xs : Z -> X), sim_run md [SState x1 k1] s = Ok s2 /\ sim_getCurrentTime s2 = k1 /\
    sim_run md [SSimTo k2] s2 = Ok s3 /\ sim_getCurrentTime s3 = Z.max k1 k2 /\
    (forall i, k0 <= i < k1 -> sim_getState md i s = Ok (xs i, s)) /\ xs k1 = x1 /\
    (forall i, k0 <= i <= k1 -> sim_getState md i s2 = Ok (xs i, s2)) /\ (forall i r, k1 < i -> sim_getState md i s2 <> Ok r) /\
    (forall i, k0 <= i <= Z.max k1 k2 -> sim_getState md i s3 = Ok (xs i, s3)) /\
    forall i, k1 <= i < Z.max k1 k2 -> exists u, in_force (inputs ops) i u /\
      xs (i + 1) = f_dyn fh (xs i) u i /\
      (md = Release \/ k0 < i -> sim_getMeasurement md i s3 = Ok (f_meas fh (xs i) u i, s3)).
Proof.
  intros X U Y md fh x0 k0 ops s0 s1 s x1 k1 k2 Hp Hn E1 Ht Er Hk He.
  destruct (start_inv fh md x0 k0 s0) as (s1' & E1' & Hi). rewrite E1 in E1'. injection E1' as <-.
  rewrite <- (app_nil_r (map fst (inputs ops))) in Hn.
  pose proof (phase_inv fh md ops [] x0 k0 s1 s Hi Hp Ht Hn Er) as Hi'. rewrite app_nil_r in Hi'.
  destruct (restart_rinv fh md _ _ _ _ x1 k1 Hi' Hk) as (s2 & xs0 & E2 & R2 & Q0).
  pose proof (rinv_time fh _ _ _ _ _ _ _ R2) as T2. destruct (rinv_queries fh md _ _ _ _ _ _ _ R2) as (ya & A1 & A2 & A3 & _).
  destruct (simulateTo_rinv fh md _ _ _ _ _ _ k2 _ R2 He) as (s3 & E3 & R3). pose proof (rinv_time fh _ _ _ _ _ _ _ R3) as T3.
  destruct (rinv_queries fh md _ _ _ _ _ _ _ R3) as (xs & B1 & B2 & B3 & B4). exists s2, s3, xs.
  unfold sim_run. cbn [orun sim_step]. rewrite E2, E3. cbn [obind]. split; [reflexivity|]. split; [exact T2|]. split; [reflexivity|]. split; [exact T3|].
  split. { intros i H. rewrite B1 by exact H. apply Q0. lia. } split; [exact B2|]. split.
  { intros i H. rewrite A3 by lia. destruct (Z.eq_dec i k1) as [->|D]; [now rewrite A2, B2|]. now rewrite A1, B1 by lia. }
  split. { intros i r H. apply future_state. unfold sim_getCurrentTime in T2. lia. } split; [exact B3|exact B4].
Qed.
Print Assumptions C47_restart.
Example C47_restart_ex : exists s,
  sim_run Debug ([SResetDyn; SFunctor toy; SState 1 5] ++ [SInput 2 3; SSimTo 7; SInput 9 8; SSimTo 10]) sim_init = Ok s /\ sim_getCurrentTime s = 10 /\
  exists s3, sim_run Debug [SState 7 6; SSimTo 8] s = Ok s3 /\ omap fst (sim_getState Debug 5 s3) = Ok 1 /\ omap fst (sim_getState Debug 8 s3) = Ok 722.
Proof. eexists. split; [vm_compute; reflexivity|]. split; [reflexivity|]. eexists. vm_compute. auto. Qed.

(** setState in the past restarts the states but keeps the measurements simulated after that time:
    getMeasurement(k) returns a measurement of the abandoned trajectory although the simulator has
    not reached k. *)
Theorem C47_restart_keeps_stale_measurements_refuted :
  exists (fh : functor Z Z Z) x0 x1 u, x0 <> x1 /\ forall md,
  exists s y, sim_run md [SFunctor fh; SState x0 0; SInput u 0; SSimTo 3; SState x1 0; SSimTo 1] sim_init = Ok s /\
  sim_getCurrentTime s = 1 /\ omap fst (sim_getMeasurement md 2 s) = Ok y /\
  y = f_meas fh (f_dyn fh (f_dyn fh x0 u 0) u 1) u 2 /\
  y <> f_meas fh (f_dyn fh (f_dyn fh x1 u 0) u 1) u 2.
Proof.
  exists toy, 1, 7, 2. split; [discriminate|].
  intros []; eexists; eexists; (split; [vm_compute; reflexivity|]); (split; [reflexivity|]); (split; [vm_compute; reflexivity|]); split; (reflexivity || discriminate).
Qed.
Print Assumptions C47_restart_keeps_stale_measurements_refuted.

(** setState accepts the index after the last one, but the next simulation then leaves a gap in the
    measurements: an assertion failure in Debug, a measurement stored under the wrong time in
    Release. *)
Theorem C47_state_at_next_index_refuted :
  exists (fh : functor Z Z Z) x0 x1 u,
  (exists s, sim_run Debug [SFunctor fh; SState x0 0; SInput u 0; SSim; SState x1 2] sim_init = Ok s /\ sim_simulate Debug s = AssertFail) /\
  (exists s, sim_run Release [SFunctor fh; SState x0 0; SInput u 0; SSim; SState x1 2; SSim] sim_init = Ok s /\
     omap fst (sim_getMeasurement Release 1 s) = Ok (f_meas fh x1 u 2)).
Proof.
  exists toy, 1, 7, 2. split; eexists; (split; [vm_compute; reflexivity|]); reflexivity.
Qed.
Print Assumptions C47_state_at_next_index_refuted.

(** ** C48 *)
(** No query about a state later than the current time ever returns, from any state of the
    simulator and in any build mode: the loop stops one step early. *)
Theorem C48_future_state_never_returned :
  forall (X U Y : Type) md (s : sim X U Y) k r, sim_getCurrentTime s < k -> sim_getState md k s <> Ok r.
Proof. intros. apply future_state. assumption. Qed.
Print Assumptions C48_future_state_never_returned.

(** The same for the measurements, in any simulation phase. *)
Theorem C48_future_measurement_never_returned :
  forall (X U Y : Type) md (fh : functor X U Y) x0 k0 ops s0 s1 s k r,
  forallb phase_op ops = true ->
  NoDup (map fst (inputs ops)) ->
  sim_run md [SResetDyn; SFunctor fh; SState x0 k0] s0 = Ok s1 ->
  inputs_in_time md k0 ops s1 ->
  sim_run md ops s1 = Ok s ->
  sim_getCurrentTime s <= k -> sim_getMeasurement md k s <> Ok r.
Proof.
  intros X U Y md fh x0 k0 ops s0 s1 s k r Hp Hn E1 Ht Er Hk.
  destruct (start_inv fh md x0 k0 s0) as (s1' & E1' & Hi). rewrite E1 in E1'. injection E1' as <-.
  rewrite <- (app_nil_r (map fst (inputs ops))) in Hn.
  pose proof (phase_inv fh md ops [] x0 k0 s1 s Hi Hp Ht Hn Er) as Hi'.
  eapply future_measurement; eauto.
Qed.
Print Assumptions C48_future_measurement_never_returned.

(** The property itself is therefore false, also when simulateDynamicsTo would succeed. *)
Theorem C48_future_queries_refuted :
  exists (fh : functor Z Z Z) x0 u, forall md,
  exists s, sim_run md [SFunctor fh; SState x0 0; SInput u 0] sim_init = Ok s /\
  (forall k r, 0 < k -> sim_getState md k s <> Ok r) /\
  (exists s', sim_simulateTo md 5 s = Ok s' /\ omap fst (sim_getState md 5 s') = Ok 122222) /\
  sim_getMeasurement md 5 s = match md with Debug => AssertFail | Release => UB end.
Proof.
  exists toy, 1, 2. intros []; eexists; (split; [vm_compute; reflexivity|]); (split; [intros; apply future_state; vm_compute; assumption|]);
  (split; [eexists; split; vm_compute; reflexivity|vm_compute; reflexivity]).
Qed.
Print Assumptions C48_future_queries_refuted.

(** In Debug the first measurement cannot be read either. *)
Theorem C48_first_measurement_refuted :
  forall (X U Y : Type) (fh : functor X U Y) x0 k0 u, exists s,
  sim_run Debug [SFunctor fh; SState x0 k0; SInput u k0; SSim; SSim] sim_init = Ok s /\ sim_getMeasurement Debug k0 s = AssertFail.
Proof.
  intros X U Y fh x0 k0 u.
  destruct (start_inv fh Debug x0 k0 sim_init) as (s1 & E1 & Hi).
  assert (ET : s1 = mkSim (Some fh) (mkIarr k0 [x0]) ia_empty []).
  { revert E1. unfold sim_run. cbn [orun sim_step obind].
    change (sim_setState Debug x0 k0 (sim_setFunctor fh (sim_resetDynamics sim_init))) with
      (Ok (mkSim (Some fh) (mkIarr k0 [x0]) (ia_empty (A := Y)) (@nil (Z * U)))).
    cbn [obind]. intros E. injection E as <-. reflexivity. }
  assert (Ht : sim_getCurrentTime s1 = k0) by (rewrite ET; unfold sim_getCurrentTime, ia_last, ia_size; cbn; lia).
  assert (Hi1 : inv fh [(k0, u)] x0 k0 (sim_setInput u k0 s1)) by (apply input_inv; [auto|left; auto|intros []]).
  assert (He : exists k v, In (k, v) [(k0, u)] /\ k <= k0) by (exists k0, u; split; [left; reflexivity|lia]).
  destruct (simulate_inv fh Debug _ _ _ _ Hi1 He) as (s2 & E2 & Hi2 & T2 & _).
  destruct (simulate_inv fh Debug _ _ _ _ Hi2 He) as (s3 & E3 & Hi3 & T3 & _ & Ny).
  exists s3. split.
  - change [SFunctor fh; SState x0 k0; SInput u k0; SSim; SSim] with ([SFunctor fh; SState x0 k0] ++ [SInput (X := X) (Y := Y) u k0; SSim; SSim]).
    unfold sim_run in *. rewrite orun_app. change (orun (sim_step Debug) [SFunctor fh; SState x0 k0] sim_init) with
      (orun (sim_step Debug) [SResetDyn; SFunctor fh; SState x0 k0] (@sim_init X U Y)). rewrite E1.
    cbn [orun sim_step obind]. rewrite E2. cbn [obind]. rewrite E3. reflexivity.
  - destruct (inv_queries fh Debug _ _ _ _ Hi3) as (xs & H1 & H2 & H3 & H4).
    assert (Ht' : sim_getCurrentTime (sim_setInput u k0 s1) = k0) by exact Ht.
    destruct (H4 k0 ltac:(lia)) as (v & _ & _ & _ & F & _).
    unfold sim_getMeasurement. rewrite F, Z.ltb_irrefl. destruct (Z.eqb_spec (ia_size (s_y s3)) 0); [contradiction|]. reflexivity.
Qed.
Print Assumptions C48_first_measurement_refuted.

(** What holds: times already simulated are answered, one by one or as an array, without moving the
    simulation. Missing for C48: every query about a future time (see above). *)
Theorem C48_past_values_partial :
  forall (X U Y : Type) md (fh : functor X U Y) x0 k0 ops s0 s1 s t d,
  forallb phase_op ops = true ->
  NoDup (map fst (inputs ops)) ->
  sim_run md [SResetDyn; SFunctor fh; SState x0 k0] s0 = Ok s1 ->
  inputs_in_time md k0 ops s1 ->
  sim_run md ops s1 = Ok s ->
  k0 < t -> t + Z.of_nat d <= sim_getCurrentTime s ->
  exists xs, sim_getStateArray md t d s = Ok (xs, s) /\ ia_size xs = Z.of_nat d /\
    (forall i, t <= i < t + Z.of_nat d -> exists x, sim_getState md i s = Ok (x, s) /\ ia_get md xs i = Ok x) /\
  exists ys, sim_getMeasurementArray md t d s = Ok (ys, s) /\ ia_size ys = Z.of_nat d /\
    (forall i, t <= i < t + Z.of_nat d -> exists y, sim_getMeasurement md i s = Ok (y, s) /\ ia_get md ys i = Ok y).
Proof.
  intros X U Y md fh x0 k0 ops s0 s1 s t d Hp Hn E1 Ht Er Hk Hd.
  destruct (start_inv fh md x0 k0 s0) as (s1' & E1' & Hi). rewrite E1 in E1'. injection E1' as <-.
  rewrite <- (app_nil_r (map fst (inputs ops))) in Hn.
  pose proof (phase_inv fh md ops [] x0 k0 s1 s Hi Hp Ht Hn Er) as Hi'. rewrite app_nil_r in Hi'.
  destruct (inv_queries fh md _ _ _ _ Hi') as (xs & H1 & H2 & H3 & H4).
  assert (Hf : ia_first (s_x s) = k0).
  { destruct Hi' as (_ & _ & _ & T & x' & y' & _ & _ & Hx & _). destruct (rep_bounds _ _ _ _ Hx) as (B & _). exact B. }
  destruct (H4 k0 ltac:(lia)) as (_ & _ & _ & _ & Fy & _).
  unfold sim_getStateArray, sim_getMeasurementArray. rewrite Hf, Fy. destruct (Z.ltb_spec k0 t) as [_|]; [|lia].
  cbn [boost_assert obind].
  destruct (collect_ok md (sim_getState md) s d t t ia_empty) as (a & Ea & Ga & Sa & _).
  - intros i Hi1. exists (xs i). apply H3. lia.
  - left. split; reflexivity.
  - intros; lia.
  - exists a. split; [exact Ea|]. split; [lia|]. split; [exact Ga|].
    destruct (collect_ok md (sim_getMeasurement md) s d t t ia_empty) as (b & Eb & Gb & Sb & _).
    + intros i Hi1. destruct (H4 i ltac:(lia)) as (u & _ & _ & _ & _ & _ & G). eexists. apply G. right. lia.
    + left. split; reflexivity.
    + intros; lia.
    + exists b. split; [exact Eb|]. split; [lia|]. exact Gb.
Qed.
Print Assumptions C48_past_values_partial.
Example C48_past_ex : exists s,
  sim_run Debug [SFunctor toy; SState 1 5; SInput 2 5; SSimTo 9] sim_init = Ok s /\ omap (fun r => ia_v (fst r)) (sim_getStateArray Debug 6 3 s) = Ok [12; 122; 1222] /\ omap (fun r => ia_v (fst r)) (sim_getMeasurementArray Debug 6 3 s) = Ok [12206; 122207; 1222208].
Proof. eexists. vm_compute. auto. Qed.
