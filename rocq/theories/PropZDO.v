(** Properties C08-C13, C27, C66: zero-delay observers. *)
From Coq Require Import ZArith List Lia Bool.
From Verif Require Import Base Defs SpecArray ArrayProofs ZDO ZDOProofs ZDOInv ZDORelease.
Import ListNotations.
Open Scope Z_scope.

Lemma assert_true md : boost_assert md true = Ok tt.
Proof. destruct md; reflexivity. Qed.

(** A concrete step used in the examples: x' = 2x + y(k+1) + u(k). *)
Definition demo_step : @stepfun Z Z Z unit :=
  fun _ e _ x oy ou _ => do y <- oy; do u <- ou; Ok (2 * x + y + u, e).
(** The same without input: x' = 2x + y(k+1). *)
Definition demo_step0 : @stepfun Z Z Z unit :=
  fun _ e _ x oy _ _ => do y <- oy; Ok (2 * x + y, e).
Definition one (_ : Z) : Z := 1.

(** C08. For every one-step function, build mode and buffers covering the interval, the
    estimate is the fold of the one-step function over the recorded data, in order; the
    current time becomes k and the measurements kept are exactly those from k on. *)
Theorem C08_estimate_is_fold_over_measurements :
  forall (X Y U E : Type) (st : @stepfun X Y U E) (md : mode) (s : zdo X Y U E) (k0 k : Z) (x : X),
  state_at s k0 x -> k0 < k -> covered st k0 k s ->
  match est_spec st md (ia_get md (z_y s)) (ia_get md (z_u s)) (Z.to_nat (k - k0)) (z_e s) k0 x with
  | Ok (x', e') => exists s',
      z_getEstimatedState (local_step st) md k s = Ok (s', x') /\
      state_at s' k x' /\ z_e s' = e' /\
      (ia_first (z_y s) >= k0 -> forall t, seen (z_y s') t = if k <=? t then seen (z_y s) t else None)
  | AssertFail => z_getEstimatedState (local_step st) md k s = AssertFail
  | Throw => z_getEstimatedState (local_step st) md k s = Throw
  | UB => z_getEstimatedState (local_step st) md k s = UB
  end.
Proof.
  intros X Y U E st md s k0 k x Hx Hk Hc.
  rewrite (getEstimatedState_spec st md s k0 k x Hx Hk Hc).
  destruct (est_spec st md _ _ _ _ _ _) as [[x' e']| | |]; cbn [obind]; auto.
  eexists. split; [reflexivity|]. split; [reflexivity|]. split; [reflexivity|].
  intros Hf t. destruct Hc as (H1 & H2 & _). apply after_seen_y; lia.
Qed.
Print Assumptions C08_estimate_is_fold_over_measurements.

Example C08_example :
  let s : zdo Z Z Z unit := mkZ 1 1 1 (im_put 1 0) (mkIarr 1 [10; 20; 30]) (mkIarr 0 [100; 200; 300]) tt in
  covered demo_step 0 3 s /\
  omap snd (z_getEstimatedState (local_step demo_step) Debug 3 s)
  = Ok (2 * (2 * (2 * 1 + 10 + 100) + 20 + 200) + 30 + 300).
Proof. split; [|reflexivity]. unfold covered; cbn. lia. Qed.

(** C09. Estimating at k1 and then at k2 is estimating at k2: same final observer (state,
    time, remaining buffers, derived-class state), same value, same failure. *)
Theorem C09_batch_equals_incremental :
  forall (X Y U E : Type) (st : @stepfun X Y U E) (md : mode) (s : zdo X Y U E) (k0 k1 k2 : Z) (x : X),
  state_at s k0 x -> k0 <= k1 <= k2 -> covered st k0 k2 s ->
  (do s1 <- z_getEstimatedState (local_step st) md k1 s;
   z_getEstimatedState (local_step st) md k2 (fst s1))
  = z_getEstimatedState (local_step st) md k2 s.
Proof. exact @batch_incremental. Qed.
Print Assumptions C09_batch_equals_incremental.

Example C09_example :
  let s : zdo Z Z Z unit := mkZ 1 1 1 (im_put 1 0) (mkIarr 1 [10; 20; 30]) (mkIarr 0 [100; 200; 300]) tt in
  (do s1 <- z_getEstimatedState (local_step demo_step) Debug 2 s;
   z_getEstimatedState (local_step demo_step) Debug 3 (fst s1))
  = z_getEstimatedState (local_step demo_step) Debug 3 s /\
  z_getEstimatedState (local_step demo_step) Debug 3 s
  = Ok (mkZ 1 1 1 (im_put 1218 3) (mkIarr 3 [30]) (mkIarr 3 []) tt, 1218).
Proof. split; reflexivity. Qed.

(** C10. After a successful estimateState, calling it or getEstimatedState again for the
    current time returns the same value and leaves the observer identical. *)
Theorem C10_reestimation_is_idempotent :
  forall (X Y U E : Type) (st : @stepfun X Y U E) (md : mode) (s : zdo X Y U E) (k0 : Z) (x : X)
         (s' : zdo X Y U E) (t : Z),
  state_at s k0 x -> k0 <= ia_last (z_y s) -> ia_v (z_y s) <> [] ->
  covered st k0 (ia_last (z_y s)) s -> ia_first (z_y s) >= k0 ->
  z_estimateState (local_step st) md s = Ok (s', t) ->
  t = ia_last (z_y s) /\
  z_estimateState (local_step st) md s' = Ok (s', t) /\
  exists x', state_at s' t x' /\ z_getEstimatedState (local_step st) md t s' = Ok (s', x').
Proof.
  intros X Y U E st md s k0 x s' t Hx Hk Hne Hc Hf H.
  apply size_pos_nonempty in Hne.
  assert (Hlast : forall s1, 0 < ia_size (z_y s1) -> z_estimateState (local_step st) md s1 =
            do s2 <- omap fst (z_getEstimatedState (local_step st) md (ia_last (z_y s1)) s1);
            do t <- z_time md s2; Ok (s2, t)).
  { intros s1 H1. unfold z_estimateState. apply Z.ltb_lt in H1. rewrite H1. reflexivity. }
  rewrite Hlast in H by exact Hne.
  destruct (Z.eq_dec k0 (ia_last (z_y s))) as [E0|E0].
  - rewrite <- E0, (getEstimatedState_now (local_step st) md s k0 x Hx) in H.
    cbn [omap obind fst] in H. unfold z_time in H. rewrite Hx in H. cbn in H.
    injection H as <- <-. split; [exact E0|]. split.
    + rewrite Hlast by exact Hne. rewrite <- E0, (getEstimatedState_now (local_step st) md s k0 x Hx).
      cbn [omap obind fst]. unfold z_time. rewrite Hx. reflexivity.
    + exists x. split; [exact Hx|]. apply getEstimatedState_now. exact Hx.
  - rewrite (getEstimatedState_spec st md s k0 _ x Hx) in H by (auto; lia).
    unfold omap in H.
    destruct (est_spec st md _ _ _ _ _ _) as [[x1 e1]| | |]; cbn [obind fst] in H; try discriminate.
    cbn in H. injection H as <- <-. split; [reflexivity|].
    set (K := ia_last (z_y s)) in *.
    set (s1 := after (Z.to_nat (K - k0)) K s (x1, e1)).
    assert (Hx1 : z_x s1 = im_put x1 K) by reflexivity.
    destruct Hc as (H1 & H2 & _).
    assert (Hn1 : ia_next (z_y s1) = ia_next (z_y s)) by (apply after_next_y; lia).
    assert (Hf1 : ia_first (z_y s1) = K) by (apply after_first_y; lia).
    assert (Hlast1 : ia_last (z_y s1) = K).
    { unfold ia_next, ia_last, ia_first in *. unfold K. unfold ia_last. lia. }
    assert (Hs1 : 0 < ia_size (z_y s1)).
    { unfold ia_next, ia_first in *. unfold K in *. unfold ia_last in *. lia. }
    split.
    + rewrite Hlast by exact Hs1. rewrite Hlast1.
      rewrite (getEstimatedState_now (local_step st) md s1 K x1 Hx1).
      reflexivity.
    + exists x1. split; [exact Hx1|]. apply getEstimatedState_now. exact Hx1.
Qed.
Print Assumptions C10_reestimation_is_idempotent.

Example C10_example :
  let s : zdo Z Z Z unit := mkZ 1 1 0 (im_put 1 0) (mkIarr 1 [10; 20]) (mkIarr 0 []) tt in
  exists s' t, z_estimateState (local_step demo_step0) Debug s = Ok (s', t) /\ t = 2 /\
               z_estimateState (local_step demo_step0) Debug s' = Ok (s', t).
Proof. do 2 eexists. split; [vm_compute; reflexivity|]. repeat split. Qed.

(** C11. Over every history of public calls that does not assert, no recorded measurement or
    input is older than the estimate and sizes match. *)
Theorem C11_no_stale_data_in_past :
  forall (X Y U E : Type) (sx : X -> Z) (sy : Y -> Z) (su : U -> Z) (st : @stepfun X Y U E)
         (n m p : Z) (e : E) (ops : list (z_op X Y U)) (s' : zdo X Y U E),
  step_keeps_size sx st ->
  z_run sx sy su (local_step st) Debug ops (z_init n m p e) = Ok s' ->
  no_past s' /\ no_input_when_none s'.
Proof.
  intros X Y U E sx sy su st n m p e ops s' Hst H.
  destruct (z_run_inv sx sy su st ops Hst _ _ H (inv_init sx sy su n m p e)) as ((_ & H1 & H2) & _).
  auto.
Qed.
Print Assumptions C11_no_stale_data_in_past.

(** The other half of the claim needs one restriction: setState is not called with a time
    more than one step before the recorded data. Then buffers always stay adjacent to the
    estimate, so the measurement accepted next is unique. *)
Theorem C11_buffers_adjacent_partial :
  forall (X Y U E : Type) (sx : X -> Z) (sy : Y -> Z) (su : U -> Z) (st : @stepfun X Y U E)
         (n m p : Z) (e : E) (ops : list (z_op X Y U)) (s' : zdo X Y U E),
  step_keeps_size sx st ->
  guarded sx sy su st ops (z_init n m p e) ->
  z_run sx sy su (local_step st) Debug ops (z_init n m p e) = Ok s' ->
  no_past s' /\ no_gap s'.
Proof.
  intros X Y U E sx sy su st n m p e ops s' Hst Hg H.
  destruct (z_run_inv sx sy su st ops Hst _ _ H (inv_init sx sy su n m p e)) as ((_ & H1 & H2) & H3).
  split; auto. apply H3; auto. apply no_gap_init.
Qed.
Print Assumptions C11_buffers_adjacent_partial.

Example C11_example :
  let ops := [ZSetState 1 0; ZSetMeas 10 1; ZSetInput 5 0; ZPushMeas 20; ZPushInput 6; ZEstimate; ZPushMeas 30] in
  exists s', guarded one one one demo_step ops (z_init 1 1 1 tt) /\
  z_run one one one (local_step demo_step) Debug ops (z_init 1 1 1 tt) = Ok s' /\
  ia_first (z_y s') = 2 /\ ia_next (z_y s') = 4 /\ im_k (z_x s') = 2.
Proof.
  eexists. split; [vm_compute; repeat split; intros; discriminate|].
  split; [vm_compute; reflexivity|]. repeat split.
Qed.

(** Without the restriction it is false. *)
Theorem C11_buffers_adjacent_refuted :
  exists (ops : list (z_op Z Z Z)) (s' : zdo Z Z Z unit),
  z_run one one one (local_step demo_step0) Debug ops (z_init 1 1 0 tt) = Ok s' /\
  im_set (z_x s') = true /\ ia_v (z_y s') <> [] /\ ia_first (z_y s') > im_k (z_x s') + 1.
Proof.
  exists [ZSetState 1 5; ZSetMeas 10 6; ZSetState 1 2]. eexists.
  split; [reflexivity|]. repeat split; discriminate.
Qed.
Print Assumptions C11_buffers_adjacent_refuted.

(** Which measurement index is accepted next (debug build). *)
Theorem C11_next_measurement_unique :
  forall (X Y U E : Type) (sy : Y -> Z) (y : Y) (k k0 : Z) (x : X) (s : zdo X Y U E),
  state_at s k0 x -> sy y = z_m s ->
  ((exists s', z_setMeasurement sy Debug y k s = Ok s') <->
   (if 0 <? ia_size (z_y s) then ia_first (z_y s) <= k <= ia_next (z_y s) else k = k0 + 1)).
Proof.
  intros X Y U E sy y k k0 x s Hx Hs. unfold z_setMeasurement.
  rewrite (proj2 (Z.eqb_eq _ _) Hs). cbn [boost_assert obind]. rewrite Hx. cbn [im_put im_set im_k negb orb].
  unfold ia_next, ia_first.
  destruct (Z.ltb_spec 0 (ia_size (z_y s))).
  - unfold ia_setValue. destruct (ia_checkIndex (z_y s) k) eqn:Ck.
    + rewrite orb_true_r. apply checkIndex_iff in Ck. cbn. split; [lia|eauto].
    + apply checkIndex_false in Ck. rewrite orb_false_r.
      destruct (Z.eqb_spec (ia_k (z_y s) + ia_size (z_y s)) k).
      * cbn. rewrite orb_true_r. cbn. split; [lia|eauto].
      * cbn. split; [intros [s' H']; discriminate|lia].
  - pose proof (ia_size_nonneg (z_y s)). assert (Hz : ia_size (z_y s) = 0) by lia.
    unfold ia_setValue.
    assert (ia_checkIndex (z_y s) k = false) as -> by (apply checkIndex_false; lia).
    rewrite Hz. cbn [Z.eqb orb].
    destruct (Z.eqb_spec k0 (k - 1)); cbn; split; intros HH; try lia; eauto; destruct HH; discriminate.
Qed.
Print Assumptions C11_next_measurement_unique.

(** C12 is false: setState into the past never clears. *)
Theorem C12_rewind_clears_refuted :
  exists (s s' : zdo Z Z Z unit) (x' : Z) (k : Z),
  k < im_k (z_x s) /\ im_set (z_x s) = true /\
  z_setState one Debug x' k s = Ok s' /\ seen (z_y s') 6 = Some 10.
Proof.
  exists (mkZ 1 1 0 (im_put 1 5) (mkIarr 6 [10]) (mkIarr 0 []) tt).
  eexists. exists 7, 2. split; [reflexivity|]. split; [reflexivity|]. split; [vm_compute; reflexivity|reflexivity].
Qed.
Print Assumptions C12_rewind_clears_refuted.

(** Exactly what setState keeps, for every time k: measurements after k and, with inputs,
    inputs from k on; nothing is ever cleared because of a rewind. *)
Theorem C12_setState_keeps_later_data :
  forall (X Y U E : Type) (sx : X -> Z) (md : mode) (x : X) (k : Z) (s s' : zdo X Y U E),
  z_setState sx md x k s = Ok s' ->
  state_at s' k x /\
  (forall t, seen (z_y s') t = if k + 1 <=? t then seen (z_y s) t else None) /\
  (0 < z_p s -> forall t, seen (z_u s') t = if k <=? t then seen (z_u s) t else None).
Proof.
  intros X Y U E sx md x k s s' H. unfold z_setState in H.
  destruct (obind_Ok_inv _ _ _ H) as (u & _ & H2). clear H.
  unfold z_time, im_time in H2. cbn in H2. rewrite Z.ltb_irrefl in H2.
  assert (Hpop : forall (A : Type) lim (a : iarr A) t,
     seen (pop_below lim (ia_k a) (ia_v a)) t = if lim <=? t then seen a t else None).
  { intros A lim a t. destruct (pop_below_spec lim (ia_v a) (ia_k a)) as (d & D1 & D2 & D3 & D4 & D5).
    rewrite D2. change (mkIarr (ia_k a + Z.of_nat d) (skipn d (ia_v a))) with (ia_drop d a).
    rewrite !seen_entry, ia_drop_entry by auto.
    destruct (Z.leb_spec lim t), (Z.leb_spec (ia_k a + Z.of_nat d) t); auto.
    - symmetry. destruct (Z_le_dec (ia_k a) lim).
      + specialize (D5 l). lia.
      + rewrite D4 in * by lia. apply entry_out. lia.
    - destruct (skipn d (ia_v a)) as [|v0 l0] eqn:Ed.
      + apply entry_out. assert (length (skipn d (ia_v a)) = O) by now rewrite Ed.
        rewrite skipn_length in H1. unfold ia_size. lia.
      + assert (lim <= ia_k a + Z.of_nat d) by (apply D3; congruence). lia. }
  destruct (0 <? z_p s) eqn:Ep; injection H2 as <-; cbn [z_x z_y z_u with_x with_y with_u].
  - split; [reflexivity|]. split; intros; apply Hpop.
  - split; [reflexivity|]. split; [intros; apply Hpop|]. apply Z.ltb_ge in Ep. lia.
Qed.
Print Assumptions C12_setState_keeps_later_data.

(** Consequence: after a rewind with a pending measurement the next measurement cannot be
    recorded in a debug build. *)
Theorem C12_rewind_blocks_measurements :
  forall (X Y U E : Type) (sx : X -> Z) (sy : Y -> Z) (x : X) (y : Y) (k : Z) (s s' : zdo X Y U E),
  ia_v (z_y s) <> [] -> k + 1 < ia_first (z_y s) ->
  z_setState sx Debug x k s = Ok s' ->
  z_setMeasurement sy Debug y (k + 1) s' = AssertFail.
Proof.
  intros X Y U E sx sy x y k s s' Hne Hk H. unfold z_setState in H.
  destruct (obind_Ok_inv _ _ _ H) as (u & _ & H2). clear H.
  unfold z_time, im_time in H2. cbn in H2. rewrite Z.ltb_irrefl in H2.
  assert (Hy : z_y s' = z_y s).
  { assert (pop_below (k + 1) (ia_k (z_y s)) (ia_v (z_y s)) = z_y s) as Hp.
    { destruct (pop_below_spec (k + 1) (ia_v (z_y s)) (ia_k (z_y s))) as (d & D1 & D2 & D3 & D4 & D5).
      unfold ia_first in *. rewrite D4 in D2 by lia. rewrite D2.
      destruct (z_y s); cbn. f_equal. lia. }
    destruct (0 <? z_p s); injection H2 as <-; exact Hp. }
  unfold z_setMeasurement. destruct (sy y =? z_m s'); [|reflexivity]. cbn [boost_assert obind].
  rewrite Hy. apply size_pos_nonempty in Hne. pose proof (proj2 (Z.ltb_lt _ _) Hne) as ->.
  assert ((ia_next (z_y s) =? k + 1) || ia_checkIndex (z_y s) (k + 1) = false) as ->.
  { unfold ia_next, ia_first in *. apply orb_false_iff. split.
    - apply Z.eqb_neq. lia.
    - apply checkIndex_false. lia. }
  reflexivity.
Qed.
Print Assumptions C12_rewind_blocks_measurements.

Example C12_example :
  let s : zdo Z Z Z unit := mkZ 1 1 0 (im_put 1 5) (mkIarr 6 [10; 11]) (mkIarr 0 []) tt in
  (do s1 <- z_setState one Debug 7 2 s; z_setMeasurement one Debug 3 3 s1) = AssertFail /\
  (do s1 <- z_setState one Debug 7 6 s; z_setMeasurement one Debug 3 8 s1)
   = Ok (mkZ 1 1 0 (im_put 7 6) (mkIarr 7 [11; 3]) (mkIarr 0 []) tt).
Proof. split; reflexivity. Qed.

(** C13 is false: with a positive input size and no recorded input, estimation aborts (debug)
    or is undefined (release), even for a step that never reads an input. *)
Theorem C13_inputs_not_needed_refuted :
  exists (s : zdo Z Z Z unit),
  (forall md e k x y u1 u2, demo_step0 md e k x (Ok y) u1 u2 = Ok (2 * x + y, e)) /\
  ia_get Debug (z_y s) 1 = Ok 10 /\
  z_getEstimatedState (local_step demo_step0) Debug 1 s = AssertFail /\
  z_getEstimatedState (local_step demo_step0) Release 1 s = UB.
Proof.
  exists (mkZ 1 1 1 (im_put 1 0) (mkIarr 1 [10]) (mkIarr 0 []) tt).
  split; [reflexivity|]. repeat split.
Qed.
Print Assumptions C13_inputs_not_needed_refuted.

(** For every observer: one step ahead with an empty input buffer always fails once the step
    itself succeeds. *)
Theorem C13_empty_inputs_always_fail :
  forall (X Y U E : Type) (st : @stepfun X Y U E) (md : mode) (s : zdo X Y U E) (k0 : Z) (x : X) xe,
  state_at s k0 x -> 0 < z_p s -> ia_v (z_u s) = [] -> ia_first (z_u s) <= k0 ->
  k0 < ia_first (z_y s) ->
  st md (z_e s) k0 x (ia_get md (z_y s) (k0 + 1)) (ia_get md (z_u s) k0) (ia_get md (z_u s) (k0 + 1)) = Ok xe ->
  z_getEstimatedState (local_step st) md (k0 + 1) s =
  match md with Debug => AssertFail | Release => UB end.
Proof.
  intros X Y U E st md s k0 x xe Hx Hp Hu Hf Hfy Hst.
  unfold state_at in Hx. unfold z_getEstimatedState, z_time, im_time. rewrite !Hx. cbn [im_put im_set im_k].
  rewrite assert_true. cbn [obind]. 
  assert (k0 <=? k0 + 1 = true) as -> by (apply Z.leb_le; lia). rewrite assert_true.
  replace (Z.to_nat (k0 + 1 - k0)) with 1%nat by lia.
  cbn [obind oiter]. unfold z_iter, local_step, z_time, im_time, im_get. rewrite !Hx.
  cbn [im_put im_set im_k im_v]. rewrite assert_true. cbn [obind]. rewrite Hst.
  cbn [obind fst snd z_y z_u z_p with_e with_x].
  assert (ia_first (z_y s) <? k0 + 1 = false) as -> by (apply Z.ltb_ge; lia).
  cbn [obind z_u z_p with_e with_x].
  apply Z.ltb_lt in Hp. rewrite Hp.
  assert (ia_first (z_u s) <? k0 + 1 = true) as -> by (apply Z.ltb_lt; lia).
  unfold ia_popFront, ia_size. rewrite Hu. destruct md; reflexivity.
Qed.
Print Assumptions C13_empty_inputs_always_fail.

(** C27 (observer level). In every state reached without assertion, the recorded state,
    measurements and inputs have the current sizes. *)
Theorem C27_observer_sizes_consistent :
  forall (X Y U E : Type) (sx : X -> Z) (sy : Y -> Z) (su : U -> Z) (st : @stepfun X Y U E)
         (n m p : Z) (e : E) (ops : list (z_op X Y U)) (s' : zdo X Y U E),
  step_keeps_size sx st ->
  z_run sx sy su (local_step st) Debug ops (z_init n m p e) = Ok s' ->
  sizes_ok sx sy su s'.
Proof.
  intros X Y U E sx sy su st n m p e ops s' Hst H.
  destruct (z_run_inv sx sy su st ops Hst _ _ H (inv_init sx sy su n m p e)) as ((H1 & _) & _).
  exact H1.
Qed.
Print Assumptions C27_observer_sizes_consistent.

Example C27_example :
  let len := fun l : list Z => Z.of_nat (length l) in
  let st : @stepfun (list Z) (list Z) (list Z) unit := fun _ e _ x _ _ _ => Ok (x, e) in
  let ops := [ZSetState [1; 2] 0; ZPushMeas [3]; ZStateSize 3; ZMeasSize 2; ZSetState [1; 2; 3] 0; ZPushMeas [1; 1]] in
  exists s', z_run len len len (local_step st) Debug ops (z_init 2 1 0 tt) = Ok s' /\
             ia_v (z_y s') = [[1; 1]] /\ im_v (z_x s') = Some [1; 2; 3].
Proof. eexists. split; [vm_compute; reflexivity|]. repeat split. Qed.

(** C66. Assertions are the only difference between the build modes: a history that runs in
    a debug build gives the same observer in a release build. *)
Theorem C66_release_agrees_with_debug :
  forall (X Y U E : Type) (sx : X -> Z) (sy : Y -> Z) (su : U -> Z) (st : @stepfun X Y U E)
         (ops : list (z_op X Y U)) (s s' : zdo X Y U E),
  step_mode_ok st ->
  z_run sx sy su (local_step st) Debug ops s = Ok s' ->
  z_run sx sy su (local_step st) Release ops s = Ok s'.
Proof. intros X Y U E sx sy su st ops s s' Hst H. exact (orefines_run sx sy su st ops Hst s s' H). Qed.
Print Assumptions C66_release_agrees_with_debug.

Example C66_example :
  step_mode_ok demo_step /\
  z_run one one one (local_step demo_step) Release
    [ZSetState 1 0; ZPushMeas 10; ZPushInput 5; ZEstimate] (z_init 1 1 1 tt)
  = z_run one one one (local_step demo_step) Debug
    [ZSetState 1 0; ZPushMeas 10; ZPushInput 5; ZEstimate] (z_init 1 1 1 tt).
Proof.
  split; [|reflexivity].
  intros e k x oy oy' u1 u1' u2 u2' H1 H2 H3. unfold demo_step.
  apply orefines_bind; auto. intros. apply orefines_bind; auto. intros. apply orefines_refl.
Qed.
