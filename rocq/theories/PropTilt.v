(** Properties C40, C41, C72 and C73: the tilt estimator. *)
From Coq Require Import Reals ZArith List Lra Lia Bool Psatz.
From Verif Require Import Base Defs SpecArray ArrayProofs ZDO ZDOProofs ZDOInv Vec3 Rot RotProofs2 Kine SpecKine KineProofs2 Tilt TiltProofs.
Import ListNotations.
Open Scope R_scope.

(** C40. Whatever the history of calls, gains, parameters and measurements, an estimate at a time
    later than the stored one has a tilt of unit norm. *)
Theorem C40_estimate_has_unit_tilt : forall md al be ga (ops : list t_op) s k s' x',
  t_run md ops (t_init al be ga) = Ok s -> im_set (z_x s) = true -> (im_k (z_x s) < k)%Z ->
  t_get md k s = Ok (s', x') -> vdot (x_t x') (x_t x') = 1.
Proof.
  intros md al be ga ops s k s' x' _ S L H. apply (unit_sq (x_t x')). exact (proj1 (get_unit md k s s' x' S L H)).
Qed.
Print Assumptions C40_estimate_has_unit_tilt.

(** C40. If moreover the tilts given to setState and setCurrentState are not zero, then the
    normalisation never divides by zero: any next measurement, with any gains and parameters,
    gives an estimate, with a unit tilt, at any point of any history. *)
Theorem C40_every_measurement_gives_a_unit_tilt : forall md al be ga (ops : list t_op) s x k y,
  (forall z i, In (TZ (ZSetState z i)) ops -> x_t z <> v0) -> (forall z, In (TZ (ZSetCurrentState z)) ops -> x_t z <> v0) ->
  t_run md ops (t_init al be ga) = Ok s -> z_n s = 9%Z -> z_m s = 6%Z -> z_p s = 0%Z -> z_x s = im_put x k ->
  seen (z_y s) (k + 1) = Some y ->
  exists s' x', t_get md (k + 1) s = Ok (s', x') /\ vdot (x_t x') (x_t x') = 1 /\ z_x s' = im_put x' (k + 1)%Z.
Proof.
  intros md al be ga ops s x k y P1 P2 H N M Pp X Y.
  assert (F : Forall nz_op ops).
  { apply Forall_forall. intros [o|e] I; [|exact Logic.I]. destruct o; cbn; eauto. }
  assert (Z0 : nz (t_init al be ga)) by (intros z; cbn; discriminate).
  pose proof (run_nz md ops F _ _ Z0 H) as Z1.
  destruct (t_update_defined (z_e s) y x) as (x' & U); [apply Z1; now rewrite X|].
  assert (Rd : ready s x k) by now repeat split.
  exists (stepped s x' (k + 1)), x'. split.
  - rewrite (get_iter md (k + 1) s x k Rd) by lia. replace (Z.to_nat (k + 1 - k)) with 1%nat by lia. cbn [oiter].
    rewrite (iter_ok md s x k (k + 1) y x' Rd Y U) by lia. reflexivity.
  - split; [|reflexivity]. apply unit_sq. now apply t_update_unit in U.
Qed.
Print Assumptions C40_every_measurement_gives_a_unit_tilt.

Definition T0 : TX := mkT v0 (mkV 0 0 2) (mkV 0 3 4).
Definition hist : list t_op := [TZ (ZSetState T0 0%Z); TPar (mkTE 1 2 3 1 ux m1 v0 uy v0); TZ (ZSetMeas (ux, uy) 1%Z)].
Example C40_example : exists s, t_run Debug hist (t_init 1 1 1) = Ok s /\
  (forall z i, In (TZ (ZSetState z i)) hist -> x_t z <> v0) /\ (forall z, In (TZ (ZSetCurrentState z)) hist -> x_t z <> v0) /\
  z_n s = 9%Z /\ z_m s = 6%Z /\ z_p s = 0%Z /\ z_x s = im_put T0 0%Z /\ seen (z_y s) (0 + 1) = Some (ux, uy).
Proof.
  eexists. split; [reflexivity|]. split; [|split; [|split; [|split; [|split; [|split]]]]]; try reflexivity.
  - intros z i [E|[E|[E|[]]]]; try discriminate. injection E as <- <-. unfold T0; cbn. intros E. injection E. lra.
  - intros z [E|[E|[E|[]]]]; discriminate.
Qed.

(** The estimates one gets by processing the measurements one by one, in order. *)
Fixpoint fold_measurements (e : TE) (ys : list TY) (x : TX) : outcome TX :=
  match ys with
  | [] => Ok x
  | y :: ys => do x' <- t_update e y x; fold_measurements e ys x'
  end.
(** One call of setMeasurement and one of getEstimatedState per measurement. *)
Fixpoint feed (k : Z) (ys : list TY) : list t_op :=
  match ys with
  | [] => []
  | y :: ys => TZ (ZSetMeas y (k + 1)) :: TZ (ZGetEstimate (k + 1)) :: feed (k + 1) ys
  end.

(** C41. Fed one by one, every measurement is processed, however many there are. *)
Theorem C41_one_by_one : forall md ys (s : tz) x k,
  z_n s = 9%Z -> z_m s = 6%Z -> z_p s = 0%Z -> z_x s = im_put x k -> ia_v (z_y s) = [] -> x_t x <> v0 ->
  exists s' x', t_run md (feed k ys) s = Ok s' /\ z_x s' = im_put x' (k + Z.of_nat (length ys))%Z /\
  fold_measurements (z_e s) ys x = Ok x'.
Proof.
  induction ys as [|y ys IH]; intros s x k N M P X Y0 T.
  - exists s, x. cbn. rewrite Z.add_0_r. auto.
  - cbn [feed fold_measurements]. unfold t_run. cbn [orun t_step z_step].
    destruct (t_update_defined (z_e s) y x) as (x' & U); [now apply vsq_neq|].
    set (s1 := with_y s (mkIarr (k + 1) [y])).
    assert (E1 : z_setMeasurement tsy md y (k + 1) s = Ok s1).
    { unfold z_setMeasurement, tsy. rewrite M, X. cbn [Z.eqb Pos.eqb boost_assert obind].
      unfold ia_setValue, ia_checkIndex, ia_size. rewrite Y0. cbn [length Z.of_nat Z.ltb Z.compare im_put im_set im_k negb orb andb].
      replace (k + 1 - 1)%Z with k by lia. rewrite Z.eqb_refl. reflexivity. }
    rewrite E1. cbn [obind].
    assert (Rd : ready s1 x k) by now repeat split.
    assert (Sn : seen (z_y s1) (k + 1) = Some y).
    { rewrite seen_entry. unfold s1; cbn [z_y with_y]. rewrite entry_mk. rewrite Z.leb_refl, Z.sub_diag. reflexivity. }
    fold (t_get md (k + 1) s1). rewrite (get_iter md (k + 1) s1 x k Rd) by lia. replace (Z.to_nat (k + 1 - k)) with 1%nat by lia. cbn [oiter].
    rewrite (iter_ok md s1 x k (k + 1) y x' Rd Sn U) by lia. cbn [obind omap stepped z_x im_get im_put im_set im_v boost_assert fst].
    rewrite U. cbn [obind].
    destruct (IH (stepped s1 x' (k + 1)) x' (k + 1)%Z) as (s' & x2 & H1 & H2 & H3); try assumption; try reflexivity.
    { cbn [stepped z_y s1 with_y ia_k ia_v pop_below]. destruct (Z.ltb_spec (k + 1) (k + 1 + 1)); [reflexivity|lia]. }
    { apply t_update_unit, unit_sq in U. intros E. rewrite E in U. revert U. unfold vsq, vdot, v0; cbn. lra. }
    exists s', x2. split; [exact H1|]. split; [|exact H3]. rewrite H2. f_equal. cbn [length]. lia.
Qed.
Print Assumptions C41_one_by_one.

(** C41. Recorded in advance, up to two measurements are processed by one call. *)
Theorem C41_batches_up_to_two_partial : forall md (s : tz) x k y1 y2,
  z_n s = 9%Z -> z_m s = 6%Z -> z_p s = 0%Z -> z_x s = im_put x k -> x_t x <> v0 ->
  seen (z_y s) (k + 1) = Some y1 -> seen (z_y s) (k + 2) = Some y2 ->
  exists s' x', t_get md (k + 2) s = Ok (s', x') /\ z_x s' = im_put x' (k + 2)%Z /\
  fold_measurements (z_e s) [y1; y2] x = Ok x'.
Proof.
  intros md s x k y1 y2 N M P X T Y1 Y2. assert (Rd : ready s x k) by now repeat split.
  destruct (t_update_defined (z_e s) y1 x) as (x1 & U1); [now apply vsq_neq|].
  assert (T1 : vsq (x_t x1) <> 0) by (rewrite (unit_sq _ (t_update_unit _ _ _ _ U1)); lra).
  destruct (t_update_defined (z_e s) y2 x1) as (x2 & U2); [exact T1|].
  assert (Rd1 : ready (stepped s x1 (k + 1)) x1 (k + 1)) by now repeat split.
  exists (stepped (stepped s x1 (k + 1)) x2 (k + 1 + 1)), x2. split.
  - rewrite (get_iter md (k + 2) s x k Rd) by lia. replace (Z.to_nat (k + 2 - k)) with 2%nat by lia. cbn [oiter].
    rewrite (iter_ok md s x k (k + 2) y1 x1 Rd Y1 U1) by lia. cbn [obind].
    rewrite (iter_ok md _ x1 (k + 1) (k + 2) y2 x2 Rd1); [reflexivity| |exact U2|lia].
    rewrite stepped_seen by lia. replace (k + 1 + 1)%Z with (k + 2)%Z by lia. exact Y2.
  - split; [cbn [stepped z_x]; f_equal; lia|]. cbn [fold_measurements]. rewrite U1. cbn [obind]. now rewrite U2.
Qed.
Print Assumptions C41_batches_up_to_two_partial.

(** C41 is false beyond: with three or more pending measurements the call always fails, because the
    loop drops the measurement at k+2 before it is used. *)
Theorem C41_longer_batches_always_fail : forall md (s : tz) x k K y1 y2,
  z_n s = 9%Z -> z_m s = 6%Z -> z_p s = 0%Z -> z_x s = im_put x k -> x_t x <> v0 ->
  seen (z_y s) (k + 1) = Some y1 -> seen (z_y s) (k + 2) = Some y2 -> (k + 3 <= K)%Z ->
  t_get md K s = match md with Debug => AssertFail | Release => UB end.
Proof.
  intros md s x k K y1 y2 N M P X T Y1 Y2 L. assert (Rd : ready s x k) by now repeat split.
  destruct (t_update_defined (z_e s) y1 x) as (x1 & U1); [now apply vsq_neq|].
  destruct (iter_lost md s x k K y1 x1 y2 Rd Y1 U1 Y2) as (s' & H1 & H2 & H3 & _); [lia|].
  rewrite (get_iter md K s x k Rd) by lia. destruct (Z.to_nat (K - k)) as [|[|n]] eqn:E; [lia|lia|]. cbn [oiter].
  rewrite H1. cbn [obind]. unfold z_iter at 1. rewrite (oneStep_nodata md s' x1 (k + 1)).
  - now destruct md.
  - exact H2.
  - replace (k + 1 + 1)%Z with (k + 2)%Z by lia. exact H3.
Qed.
Print Assumptions C41_longer_batches_always_fail.
Theorem C41_batches_refuted : exists (s : tz) x k K, z_x s = im_put x k /\ (k < K)%Z /\ x_t x <> v0 /\
  (forall t, (k < t <= K)%Z -> exists y, seen (z_y s) t = Some y) /\ t_get Debug K s = AssertFail /\ t_get Release K s = UB /\
  exists ops, t_run Debug ops (t_init 1 1 1) = Ok s.
Proof.
  pose (ops := [TZ (ZSetState T0 0%Z); TZ (ZSetMeas (ux, uy) 1%Z); TZ (ZPushMeas (ux, uy)); TZ (ZPushMeas (ux, uy))] : list t_op).
  exists (mkZ 9 6 0 (im_put T0 0%Z) (mkIarr 1 [(ux, uy); (ux, uy); (ux, uy)]) (mkIarr 0 []) (z_e (t_init 1 1 1))), T0, 0%Z, 3%Z.
  split; [reflexivity|]. split; [lia|]. assert (T : x_t T0 <> v0) by (unfold T0; cbn; intros E; injection E; lra). split; [exact T|].
  split; [|split; [|split]].
  - intros t L. exists (ux, uy). assert (D : t = 1%Z \/ t = 2%Z \/ t = 3%Z) by lia. destruct D as [-> |[-> | ->]]; reflexivity.
  - apply (C41_longer_batches_always_fail Debug _ T0 0 3 (ux, uy) (ux, uy)); first [reflexivity | exact T | lia].
  - apply (C41_longer_batches_always_fail Release _ T0 0 3 (ux, uy) (ux, uy)); first [reflexivity | exact T | lia].
  - exists ops. reflexivity.
Qed.
Print Assumptions C41_batches_refuted.

Example C41_example : exists s, t_run Debug [TZ (ZSetState T0 0%Z); TZ (ZSetMeas (ux, uy) 1%Z); TZ (ZPushMeas (uy, ux))] (t_init 1 1 1) = Ok s /\
  z_n s = 9%Z /\ z_m s = 6%Z /\ z_p s = 0%Z /\ z_x s = im_put T0 0%Z /\ x_t T0 <> v0 /\
  seen (z_y s) (0 + 1) = Some (ux, uy) /\ seen (z_y s) (0 + 2) = Some (uy, ux).
Proof.
  eexists. split; [reflexivity|]. repeat (split; [try reflexivity|]); try reflexivity. unfold T0; cbn; intros E; injection E; lra.
Qed.
Example C41_one_by_one_example : exists s, t_run Debug [TZ (ZSetState T0 0%Z)] (t_init 1 1 1) = Ok s /\
  z_n s = 9%Z /\ z_m s = 6%Z /\ z_p s = 0%Z /\ z_x s = im_put T0 0%Z /\ ia_v (z_y s) = [] /\ x_t T0 <> v0.
Proof.
  eexists. split; [reflexivity|]. repeat (split; [try reflexivity|]); try reflexivity. unfold T0; cbn; intros E; injection E; lra.
Qed.

(** C72. Along any motion of the control frame C in the world and of the sensor S in the control
    frame, with exact parameters and exact measurements, the velocity the estimator derives from
    the control frame is that of the sensor, and if the estimate is exact its derivative is the
    true one, for every gain. *)
Theorem C72_exact_estimate_follows_the_motion : forall al be ga dt (C S W : motion) t,
  is_motion C -> is_motion S -> is_motion W ->
  (forall u, mp W u = vadd (mvec (mr C u) (mp S u)) (mp C u)) -> (forall u, mr W u = mmul (mr C u) (mr S u)) ->
  let e := mkTE al be ga dt (mp S t) (mr S t) (mv S t) (mw S t) (mvec (mtr (mr C t)) (mv C t)) in
  let ya := mvec (mtr (mr W t)) (vadd (ma W t) (mkV 0 0 (98 / 10))) in
  let yg := mvec (mtr (mr W t)) (mw W t) in
  let vel u := mvec (mtr (mr W u)) (mv W u) in
  let tilt u := mvec (mtr (mr W u)) uz in
  let d := t_dx e ya yg (mkT (vel t) (tilt t) (tilt t)) in
  t_x1 e yg = vel t /\ vderiv vel t (x_v d) /\ vderiv tilt t (x_tp d) /\ vderiv tilt t (x_t d).
Proof.
  intros al be ga dt C S W t MC MS MW EP ER e ya yg vel tilt d.
  destruct (motion_unique W (mo_mul C S) MW (mo_mul_motion _ _ MC MS) EP ER t) as (V & Wt & _).
  destruct (MC t) as (SC & _). destruct (MS t) as (SS & _). destruct (MW t) as (SW & PW & VW & RW & WW).
  pose proof (so3_tr _ SW) as SWt.
  assert (X1 : t_x1 e yg = vel t).
  { unfold t_x1, yg, vel, e. cbn [t_R t_vc t_vs t_ws t_p]. rewrite ER, V, Wt. cbn [mv mw mo_mul]. rewrite mtr_mul, !mvec_mul.
    pose proof (so3_tr _ SC) as SCt. pose proof (so3_tr _ SS) as SSt.
    rewrite !mvec_add, !(so3_cross _ _ _ SCt), !(so3_tr_vec _ _ SC), (so3_cross _ _ _ SSt), vsub_def.
    generalize (mvec (mtr (mr S t)) (mvec (mtr (mr C t)) (mv C t))) (mvec (mtr (mr S t)) (mv S t))
      (mvec (mtr (mr S t)) (mw S t)) (mvec (mtr (mr S t)) (mvec (mtr (mr C t)) (mw C t))) (mvec (mtr (mr S t)) (mp S t)).
    clear. c3. }
  assert (DT : forall f df, vderiv f t df -> vderiv (fun u => mvec (mtr (mr W u)) (f u)) t (vadd (vcross (mvec (mtr (mr W t)) (f t)) yg) (mvec (mtr (mr W t)) df))).
  { intros f df H. eapply vd_eq; [apply vd_mvec; [apply md_tr; exact RW|exact H]|].
    rewrite mtr_mul, skew_tr, mvec_mul, skew_cross, (so3_cross _ _ _ SWt), mvec_neg. unfold yg. f_equal. rewrite vcross_neg_l. symmetry. apply vcross_anti. }
  assert (G : mkV 0 0 (98 / 10) = vscal grav uz) by (unfold grav, uz, vscal; cbn; f_equal; ring).
  split; [exact X1|]. unfold d, t_dx. rewrite X1. cbn [x_v x_tp x_t].
  assert (DV := DT _ _ VW). assert (DZ := DT _ _ (vd_const uz t)). fold (vel t) in DV. cbv beta in DZ. fold (tilt t) in DZ. rewrite mvec_0 in DZ.
  split; [|split].
  - eapply vd_eq; [exact DV|]. unfold ya. rewrite G, mvec_add, mvec_scal. fold (tilt t). generalize (vel t) (tilt t) (mvec (mtr (mr W t)) (ma W t)) grav (t_al e) yg. clear. c3.
  - eapply vd_eq; [exact DZ|]. generalize (vel t) (tilt t) (t_be e) yg. clear. c3.
  - eapply vd_eq; [exact DZ|]. rewrite vcross_self. generalize (tilt t) (t_ga e) yg. clear. c3.
Qed.
Print Assumptions C72_exact_estimate_follows_the_motion.
(** A sensor turning in a control frame that turns in the world. *)
Example C72_example : exists C S W, is_motion C /\ is_motion S /\ is_motion W /\
  (forall u, mp W u = vadd (mvec (mr C u) (mp S u)) (mp C u)) /\ (forall u, mr W u = mmul (mr C u) (mr S u)) /\
  mw C 0 <> v0 /\ mw S 0 <> v0.
Proof.
  exists (mo_const v0 ux uy m1 uz), (mo_const uy v0 v0 m1 ux), (mo_mul (mo_const v0 ux uy m1 uz) (mo_const uy v0 v0 m1 ux)).
  pose proof (mo_const_motion v0 ux uy m1 uz so3_1). pose proof (mo_const_motion uy v0 v0 m1 ux so3_1).
  split; [assumption|]. split; [assumption|]. split; [now apply mo_mul_motion|]. split; [reflexivity|]. split; [reflexivity|].
  split; cbn; intros E; injection E; lra.
Qed.

(** C73. The estimates do not depend on the frame attached to the sensor: mounting the sensor rotated
    by Q rotates its measurements and the estimates by Q, at every step of every history. *)
Definition turnT (Q : M3) (x : TX) : TX := mkT (mvec Q (x_v x)) (mvec Q (x_tp x)) (mvec Q (x_t x)).
Definition remount (Q : M3) (e : TE) : TE := mkTE (t_al e) (t_be e) (t_ga e) (t_dt e) (t_p e) (mmul (t_R e) (mtr Q)) (t_vs e) (t_ws e) (t_vc e).
Theorem C73_sensor_frame_does_not_matter : forall Q e ys x, mmul Q (mtr Q) = m1 -> mdet Q = 1 ->
  fold_measurements (remount Q e) (map (fun y => (mvec Q (fst y), mvec Q (snd y))) ys) (turnT Q x) =
  omap (turnT Q) (fold_measurements e ys x).
Proof.
  intros Q e ys x O D. assert (SQ : so3 Q) by now split. clear O D. revert x. induction ys as [|y ys IH]; intros x; [reflexivity|].
  cbn [map fold_measurements].
  assert (U : t_update (remount Q e) (mvec Q (fst y), mvec Q (snd y)) (turnT Q x) = omap (turnT Q) (t_update e y x)).
  { assert (EU : t_euler (remount Q e) (mvec Q (fst y)) (mvec Q (snd y)) (turnT Q x) = turnT Q (t_euler e (fst y) (snd y) x)).
    { assert (X1 : t_x1 (remount Q e) (mvec Q (snd y)) = mvec Q (t_x1 e (snd y))).
      { unfold t_x1, remount. cbn [t_R t_vc t_vs t_ws t_p]. rewrite mtr_mul, mtr_tr, !mvec_mul, !vsub_def.
        rewrite (mvec_add Q), !(so3_cross _ _ _ SQ), (mvec_add Q), (mvec_neg Q). reflexivity. }
      unfold t_euler, t_dx. rewrite X1. unfold turnT, remount. cbn [x_v x_tp x_t t_al t_be t_ga t_dt]. rewrite !vsub_def.
      f_equal; repeat first [rewrite mvec_add | rewrite mvec_scal | rewrite mvec_neg | rewrite (so3_cross _ _ _ SQ)]; reflexivity. }
    unfold t_update. cbn [fst snd]. rewrite EU. generalize (t_euler e (fst y) (snd y) x). clear EU. intros z. unfold t_normalize.
    assert (NQ : vnorm (mvec Q (x_t z)) = vnorm (x_t z)) by (unfold vnorm; now rewrite so3_vsq).
    destruct (Req_EM_T (vnorm (x_t z)) 0) as [E|E], (Req_EM_T (vnorm (x_t (turnT Q z))) 0) as [E'|E']; cbn [turnT x_t] in E';
      [reflexivity|congruence|congruence|]. cbn [omap obind]. unfold turnT. cbn [x_v x_tp x_t]. now rewrite NQ, mvec_scal. }
  rewrite U. destruct (t_update e y x) as [x'| | |]; cbn [omap obind]; [apply IH|reflexivity..].
Qed.
Print Assumptions C73_sensor_frame_does_not_matter.
Example C73_example : exists Q x y e, mmul Q (mtr Q) = m1 /\ mdet Q = 1 /\ Q <> m1 /\ turnT Q x <> x /\
  exists x', fold_measurements e [y] x = Ok x'.
Proof.
  exists (mkM 0 (-1) 0 1 0 0 0 0 1), T0, (ux, uy), (mkTE 1 2 3 1 ux m1 v0 uy v0).
  split; [c3|]. split; [c3|]. split; [intros E; injection E; lra|]. split.
  - unfold turnT, T0, mvec; cbn. intros E. injection E. intros; lra.
  - destruct (t_update_defined (mkTE 1 2 3 1 ux m1 v0 uy v0) (ux, uy) T0) as (x' & U).
    + unfold T0, vsq, vdot; cbn. lra.
    + exists x'. cbn [fold_measurements]. now rewrite U.
Qed.
