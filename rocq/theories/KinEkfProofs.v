(** Proofs for KinEkf.v: the sizes of the matrices of the filter over the calls of the observer. *)
From Coq Require Import ZArith List Bool Lia.
From Verif Require Import Base KinObs SpecKin KSize KinEkf KinProofs KinInv KinNan KinNanProofs KinInputProofs.
Import ListNotations.
Open Scope Z_scope.

Section Sizes.
Context {S : Type} (s0 : S) {Kn : Type} (k0 : Kn) (kfirst : mode -> Kn -> outcome Kn) (kupd : mode -> Z -> Kn -> Kn -> outcome Kn).
Context {M : Type} (mzero : M -> bool) {C : Type}.
Notation obs := (obs S Kn M C).
Notation op := (ko_op S Kn M C).
Notation kstep := (ko_step s0 kfirst kupd mzero).
Notation krun := (ko_run s0 kfirst kupd mzero).
Notation fstep := (kf_step s0 kfirst kupd mzero).
Notation frun := (kf_run s0 kfirst kupd mzero).
Implicit Types s : obs.

Definition no_pose (o : op) : bool := match o with KPose _ _ => false | _ => true end.
(** The time of the pose sensor. *)
Lemma start_pose s : o_pose (ko_start s) = o_pose s.
Proof. unfold ko_start. destruct (_ =? _); reflexivity. Qed.
Lemma step_pose md (o : op) s s' : kstep md o s = Ok s' ->
  match o with
  | KPose _ _ => p_time (o_pose s') = o_kdata (ko_start s)
  | KResetInputs => p_time (o_pose s') = o_kest s
  | _ => p_time (o_pose s') = p_time (o_pose s) end.
Proof.
  intros E. pose proof (start_pose s) as St.
  destruct o as [pv num st|n| |sig cov k num|w cov k n|k n|sig cov| |kv rf|b i|w|v|b|b|b| |e]; cbn [ko_step] in E.
  - apply obind_Ok_inv in E. destruct E as ([n s1] & E & Es). injection Es as <-. apply add_inv in E. destruct E as (n0 & c & x & _ & _ & _ & _ & _ & _ & _ & ->). reflexivity.
  - apply remove_inv in E. destruct E as (c & _ & _ & _ & ->). reflexivity.
  - injection E as <-. reflexivity.
  - apply obind_Ok_inv in E. destruct E as ([n s1] & E & Es). injection Es as <-. apply setIMU_inv in E. destruct E as (i & k' & _ & _ & _ & _ & _ & ->). cbn. now rewrite St.
  - apply wrench_inv in E. destruct E as (c & k' & _ & _ & _ & _ & ->). cbn. now rewrite St.
  - apply nosensor_inv in E. destruct E as (c & k' & _ & _ & _ & _ & ->). cbn. now rewrite St.
  - injection E as <-. reflexivity.
  - injection E as <-. cbn. unfold ko_input. now rewrite St.
  - unfold ko_setStateKinematics in E. repeat (apply obind_Ok_inv in E; destruct E as (? & _ & E)). apply Ok_inj in E. subst. reflexivity.
  - unfold ko_setGyroBias in E. repeat (apply obind_Ok_inv in E; destruct E as (? & _ & E)). apply Ok_inj in E. subst. reflexivity.
  - unfold ko_setStateUnmodeledWrench in E. repeat (apply obind_Ok_inv in E; destruct E as (? & _ & E)). apply Ok_inj in E. subst. reflexivity.
  - injection E as <-. reflexivity.
  - injection E as <-. reflexivity.
  - injection E as <-. reflexivity.
  - injection E as <-. reflexivity.
  - injection E as <-. reflexivity.
  - unfold ko_update in E. destruct (_ =? _); [injection E as <-; reflexivity|].
    apply obind_Ok_inv in E. destruct E as (s1 & Ep & E). injection E as <-. cbn.
    apply prepare_shape in Ep. destruct Ep as ((y & r & p & -> & P & _) & _). cbn. exact P.
Qed.
(** The filter between two calls. *)
Record fits (nx nt : Z) s (f : ksz) : Prop := {
  ft_n : s_n f = nx; ft_nt : s_nt f = nt; ft_q : s_q f = (nt, nt); ft_p : s_pr f = (nt, nt); ft_x : s_x f = Some (o_kest s);
  ft_xb : match s_xbar f with Some (_, t) => t <= o_kest s | None => True end;
  ft_yb : match s_ybar f with Some (_, t) => t <= o_kest s | None => True end }.
Lemma dim_refl a : dim_eqb a a = true.
Proof. unfold dim_eqb. now rewrite !Z.eqb_refl. Qed.
Lemma meas_size_ok md m mt f : exists f1, s_step false md (SMeasSize m mt) f = Ok f1 /\ s_m f1 = m /\ s_mt f1 = mt /\ s_n f1 = s_n f /\ s_nt f1 = s_nt f /\
  s_q f1 = s_q f /\ s_pr f1 = s_pr f /\ s_x f1 = s_x f /\ s_xbar f1 = s_xbar f /\ s_ybar f1 = s_ybar f.
Proof.
  destruct f as [n nt m' mt' p a c q r pr b d xb yb x]. cbn. destruct (Z.eqb_spec m m'), (Z.eqb_spec mt mt'); subst; cbn; eexists; (split; [reflexivity|]); cbn; repeat split; reflexivity.
Qed.
Lemma assert_true md : boost_assert md true = Ok tt.
Proof. destruct md; reflexivity. Qed.
Lemma filter_ok md nx nt s f : fits nx nt s f -> Z.of_nat (length (o_meas s)) = fst (meas_sizes s) -> p_time (o_pose s) <> o_kdata s ->
  exists f', kf_filter md s f = Ok f' /\ s_n f' = nx /\ s_nt f' = nt /\ s_q f' = (nt, nt) /\ s_pr f' = (nt, nt) /\ s_x f' = Some (o_kest s + 1) /\
    s_xbar f' = Some (nx, o_kest s + 1) /\ s_ybar f' = Some (Z.of_nat (length (o_meas s)), o_kest s + 1).
Proof.
  intros F L P. unfold kf_filter. destruct (meas_sizes s) as [m mt] eqn:E0. assert (m = mt).
  { unfold meas_sizes in E0. destruct (Z.eqb_spec (p_time (o_pose s)) (o_kdata s)); [contradiction|]. injection E0. intros; congruence. }
  subst mt. cbn [fst] in L. clear E0.
  destruct (meas_size_ok md m m f) as (f1 & -> & M1 & M2 & M3 & M4 & M5 & M6 & M7 & M8 & M9). cbn [obind]. rewrite L, M1, Z.eqb_refl, assert_true. cbn [obind].
  destruct F as [F1 F2 F3 F4 F5 F6 F7]. rewrite <- M3 in F1. rewrite <- M4 in F2. rewrite <- M5 in F3. rewrite <- M6 in F4. rewrite <- M7 in F5. rewrite <- M8 in F6. rewrite <- M9 in F7.
  clear M3 M4 M5 M6 M7 M8 M9. destruct f1 as [n' nt' m' mt' p a c q r pr b d xb yb x]. cbn in M1, M2, F1, F2, F3, F4, F5, F6, F7. subst n' nt' m' mt' q pr x.
  unfold s_step, fd_A, fd_C, okA, okC, okR, pred_size, meas_size.
  repeat (cbn [s_n s_nt s_m s_mt s_xbar s_ybar s_a s_c obind andb negb orb]; rewrite ?dim_refl, ?assert_true).
  replace (match xb with Some (sz, t) => if t =? o_kest s + 1 then sz else nx | None => nx end) with nx.
  2:{ destruct xb as [[z t]|]; [|reflexivity]. destruct (Z.eqb_spec t (o_kest s + 1)); [lia|reflexivity]. }
  replace (match yb with Some (sz, t) => if t =? o_kest s + 1 then sz else m | None => m end) with m.
  2:{ destruct yb as [[z t]|]; [|reflexivity]. destruct (Z.eqb_spec t (o_kest s + 1)); [lia|reflexivity]. }
  rewrite !Z.eqb_refl. cbn [andb]. eexists. split; [reflexivity|]. cbn. repeat split; reflexivity.
Qed.
Lemma filter_pose md s f : Z.of_nat (length (o_meas s)) = fst (meas_sizes s) -> p_time (o_pose s) = o_kdata s -> s_x f <> None ->
  kf_filter md s f = match md with Debug => AssertFail | Release => UB end.
Proof.
  intros L P X. unfold kf_filter. destruct (meas_sizes s) as [m mt] eqn:E0. assert (N : m <> mt).
  { unfold meas_sizes in E0. rewrite P, Z.eqb_refl in E0. injection E0. change sizePose with 7. change sizePoseTangent with 6. lia. }
  cbn [fst] in L. destruct (meas_size_ok md m mt f) as (f1 & -> & M1 & M2 & _ & _ & _ & _ & M7 & _). cbn [obind]. rewrite L, M1, Z.eqb_refl, assert_true. cbn [obind].
  rewrite <- M7 in X. destruct f1 as [n' nt' m' mt' p a c q r pr b d xb yb x]. cbn in M1, M2, X. subst m' mt'.
  assert (D : dim_eqb (m, nt') (mt, nt') = false) by (unfold dim_eqb; cbn; now rewrite (proj2 (Z.eqb_neq m mt) N)).
  unfold s_step, fd_A, fd_C, okA, okC, okR. cbn [s_n s_nt s_m s_mt]. rewrite !dim_refl, !assert_true. cbn [obind]. rewrite dim_refl, assert_true. cbn [obind].
  cbn [s_nt s_m s_mt]. rewrite D. destruct md; [reflexivity|]. cbn [boost_assert obind s_nt s_mt]. rewrite D. destruct x as [k|]; [|contradiction].
  rewrite dim_refl. cbn [andb obind]. reflexivity.
Qed.
Lemma prepare_len_g md s s' : ko_prepare md s = Ok s' -> let n := 6 * o_nimu s' + 6 * o_nreal s' in 0 <= n /\
  Z.of_nat (length (o_meas s')) = (if p_time (o_pose s') =? o_kdata s' then n + 7 else n).
Proof.
  intros E. apply prepare_inv in E. destruct E as (cs1 & is' & y1 & r1 & n1 & cs' & y2 & r2 & n2 & p' & y & r & E1 & H0 & E2 & E3 & E4 & E). cbv zeta.
  apply write_imus_inv in E2. destruct E2 as (_ & L1 & _). apply write_contacts_inv in E3. destruct E3 as (_ & L2 & _). rewrite repeat_length in L1.
  assert (P1 : p_time p' = p_time (o_pose s)) by (destruct (p_time (o_pose s) =? o_kdata s); [destruct E4 as (_ & _ & ->); reflexivity|destruct E4 as (_ & -> & _); reflexivity]).
  assert (Q1 : o_nimu s' = o_nimu s) by (rewrite E; reflexivity). assert (Q2 : o_kdata s' = o_kdata s) by (rewrite E; reflexivity).
  assert (Q3 : o_pose s' = p') by (rewrite E; reflexivity). assert (Q4 : o_meas s' = y) by (rewrite E; reflexivity). clear E.
  rewrite Q1, Q2, Q3, Q4, P1. split; [exact H0|]. destruct (p_time (o_pose s) =? o_kdata s).
  - destruct E4 as (E4 & _). apply seg_set_length in E4. lia.
  - destruct E4 as (-> & _). lia.
Qed.
Lemma prepare_iter md s s' : ko_prepare md s = Ok s' -> o_kest s' = o_kest s /\ o_kdata s' = o_kdata s /\ p_time (o_pose s') = p_time (o_pose s) /\
  Z.of_nat (length (o_meas s')) = fst (meas_sizes s').
Proof.
  intros E. pose proof (prepare_len_g md s s' E) as [_ L]. unfold meas_sizes. change sizeIMUSignal with 6. change sizeWrench with 6. change sizePose with 7.
  apply prepare_shape in E. destruct E as ((y & r & p & E & P & _) & _). rewrite E. cbn. rewrite E in L. cbn in L. repeat split; auto. destruct (_ =? _); exact L.
Qed.
Definition sets_state (o : op) : bool := match o with KSetKine _ _ | KSetBias _ _ | KSetWrench _ | KSetVector _ => true | _ => false end.
Lemma fstep_eq md o s f : fstep md o (s, f) =
  match o with
  | KUpdate e => if o_kest s =? o_kdata s then Ok (s, f) else do s <- ko_prepare md s; do f <- kf_filter md s f; Ok (ko_finish e s, f)
  | _ => do s <- kstep md o s; do f <- (if sets_state o then s_step false md (SSetState (o_kest s)) f else Ok f); Ok (s, f) end.
Proof. destruct o; reflexivity. Qed.
(** Without pose, the sizes are right in every call. *)
Lemma step_fits md nx nt (o : op) s f s' : no_pose o = true -> lag s -> p_time (o_pose s) <= o_kest s -> fits nx nt s f -> kstep md o s = Ok s' ->
  exists f', fstep md o (s, f) = Ok (s', f') /\ lag s' /\ p_time (o_pose s') <= o_kest s' /\ fits nx nt s' f'.
Proof.
  intros Hn L P F E. pose proof (step_pose md o s s' E) as SP. pose proof (ko_iter _ _ _ _ _ _ _ _ E L) as IT. rewrite fstep_eq.
  destruct (is_update o) eqn:Eu.
  - destruct o as [| | | | | | | | | | | | | | | |e]; try discriminate. cbn [ko_step] in E. unfold ko_update in E. destruct (Z.eqb_spec (o_kest s) (o_kdata s)) as [Ek|Ek].
    + injection E as <-. exists f. auto.
    + apply obind_Ok_inv in E. destruct E as (s1 & Ep & E). injection E as <-. rewrite Ep. cbn [obind].
      destruct (prepare_iter md s s1 Ep) as (K1 & K2 & K3 & K4).
      destruct (filter_ok md nx nt s1 f) as (f' & Ef & G1 & G2 & G3 & G4 & G5 & G6 & G7); [|exact K4|unfold lag in L; lia|].
      { destruct F as [F1 F2 F3 F4 F5 F6 F7]. constructor; rewrite ?K1; auto. }
      rewrite Ef. cbn [obind]. exists f'. split; [reflexivity|]. unfold lag. cbn [o_kest o_kdata o_pose ko_finish set_iter set_state].
      split; [unfold lag in L; lia|]. split; [lia|]. constructor; auto; rewrite ?G6, ?G7; cbn; try lia.
  - assert (IT' : o_kest s' = o_kest s /\ (o_kdata s' = o_kdata s \/ o_kdata s' = o_kest s + 1)) by (destruct o; try discriminate; exact IT). clear IT. destruct IT' as [I1 I2].
    assert (P' : p_time (o_pose s') <= o_kest s') by (destruct o; try discriminate; lia). clear SP.
    assert (G : exists f', (do f <- (if sets_state o then s_step false md (SSetState (o_kest s')) f else Ok f); Ok (s', f)) = Ok (s', f') /\ fits nx nt s' f').
    { destruct F as [F1 F2 F3 F4 F5 F6 F7]. destruct f as [n' nt' m' mt' p a c q r pr b d xb yb x]. cbn in *.
      destruct (sets_state o); cbn; eexists; (split; [reflexivity|]); constructor; cbn; rewrite ?I1; auto. }
    destruct G as (f' & Ef & G). exists f'. split; [|split; [unfold lag in *; lia|auto]].
    destruct o; try discriminate; rewrite E; exact Ef.
Qed.
Lemma run_fits md nx nt (h : list op) : forall s f s', forallb no_pose h = true -> lag s -> p_time (o_pose s) <= o_kest s -> fits nx nt s f -> krun md h s = Ok s' ->
  exists f', frun md h (s, f) = Ok (s', f') /\ lag s' /\ p_time (o_pose s') <= o_kest s' /\ fits nx nt s' f'.
Proof.
  unfold ko_run, kf_run. induction h as [|o h IH]; intros s f s' Hn L P F E; cbn [orun] in *.
  - injection E as <-. exists f. auto.
  - cbn in Hn. apply andb_prop in Hn. destruct Hn as [Hn1 Hn2]. apply obind_Ok_inv in E. destruct E as (s1 & E1 & E).
    destruct (step_fits md nx nt o s f s1 Hn1 L P F E1) as (f1 & Ef & L1 & P1 & F1). rewrite Ef. cbn [obind]. apply IH; auto.
Qed.
(** The calls of a run with the filter are those of the run without it. *)
Lemma step_forget md (o : op) s f s' f' : fstep md o (s, f) = Ok (s', f') -> kstep md o s = Ok s'.
Proof.
  rewrite fstep_eq. destruct (is_update o) eqn:Eu.
  - destruct o; try discriminate. cbn [ko_step]. unfold ko_update. destruct (_ =? _); [congruence|]. intros E. apply obind_Ok_inv in E. destruct E as (s1 & -> & E).
    apply obind_Ok_inv in E. destruct E as (f1 & _ & E). injection E as <- _. reflexivity.
  - intros E. assert (E' : (do s <- kstep md o s; do f <- (if sets_state o then s_step false md (SSetState (o_kest s)) f else Ok f); Ok (s, f)) = Ok (s', f')) by (destruct o; try discriminate; exact E).
    apply obind_Ok_inv in E'. destruct E' as (s1 & -> & E'). apply obind_Ok_inv in E'. destruct E' as (f1 & _ & E'). congruence.
Qed.
Lemma run_forget md (h : list op) : forall s f s' f', frun md h (s, f) = Ok (s', f') -> krun md h s = Ok s'.
Proof.
  unfold ko_run, kf_run. induction h as [|o h IH]; intros s f s' f' E; cbn [orun] in *; [congruence|].
  apply obind_Ok_inv in E. destruct E as ([s1 f1] & E1 & E). apply step_forget in E1. rewrite E1. cbn [obind]. eauto.
Qed.
Lemma run_lag md (h : list op) : forall s s', lag s -> krun md h s = Ok s' -> lag s'.
Proof.
  unfold ko_run. induction h as [|o h IH]; intros s s' L E; cbn [orun] in *; [congruence|]. apply obind_Ok_inv in E. destruct E as (s1 & E1 & E).
  pose proof (ko_iter _ _ _ _ _ _ _ _ E1 L) as I. apply (IH s1); [|exact E]. unfold lag in *. destruct o; destruct I as [I1 I2]; try lia.
  destruct (Z.eqb_spec (o_kest s) (o_kdata s)); lia.
Qed.
(** The filter always has a state. *)
Lemma filter_x md s f f' : kf_filter md s f = Ok f' -> s_x f' <> None.
Proof.
  unfold kf_filter. destruct (meas_sizes s) as [m mt]. intros E. repeat (apply obind_Ok_inv in E; destruct E as (? & _ & E)).
  destruct x3 as [n' nt' m' mt' p a c q r pr b d xb yb x']. cbn in E. destruct x' as [k|]; [|destruct md; discriminate].
  apply obind_Ok_inv in E. destruct E as (? & _ & E). destruct (_ && _); [|discriminate]. injection E as <-. discriminate.
Qed.
Lemma step_x md (o : op) s f s' f' : s_x f <> None -> fstep md o (s, f) = Ok (s', f') -> s_x f' <> None.
Proof.
  intros X. rewrite fstep_eq. destruct (is_update o) eqn:Eu.
  - destruct o; try discriminate. destruct (_ =? _); [congruence|]. intros E. apply obind_Ok_inv in E. destruct E as (s1 & _ & E).
    apply obind_Ok_inv in E. destruct E as (f1 & Ef & E). injection E as _ <-. exact (filter_x _ _ _ _ Ef).
  - intros E. assert (E' : (do s <- kstep md o s; do f <- (if sets_state o then s_step false md (SSetState (o_kest s)) f else Ok f); Ok (s, f)) = Ok (s', f')) by (destruct o; try discriminate; exact E).
    apply obind_Ok_inv in E'. destruct E' as (s1 & _ & E'). apply obind_Ok_inv in E'. destruct E' as (f1 & Ef & E'). injection E' as _ <-.
    destruct (sets_state o); [|congruence]. destruct f as [n' nt' m' mt' p a c q r pr b d xb yb x']. cbn in Ef. injection Ef as <-. discriminate.
Qed.
Lemma run_x md (h : list op) : forall s f s' f', s_x f <> None -> frun md h (s, f) = Ok (s', f') -> s_x f' <> None.
Proof.
  unfold kf_run. induction h as [|o h IH]; intros s f s' f' X E; cbn [orun] in *; [congruence|].
  apply obind_Ok_inv in E. destruct E as ([s1 f1] & E1 & E). eapply IH; [|exact E]. eapply step_x; eauto.
Qed.
(** A reported pose stays the one of the iteration until the update. *)
Definition keeps_pose (o : op) : bool := match o with KUpdate _ | KResetInputs => false | _ => true end.
Lemma run_keeps md (h : list op) : forall s s', forallb keeps_pose h = true -> o_kdata s = o_kest s + 1 -> p_time (o_pose s) = o_kdata s -> krun md h s = Ok s' ->
  o_kdata s' = o_kest s' + 1 /\ p_time (o_pose s') = o_kdata s'.
Proof.
  unfold ko_run. induction h as [|o h IH]; intros s s' Hk K P E; cbn [orun] in *; [injection E as <-; auto|].
  cbn in Hk. apply andb_prop in Hk. destruct Hk as [Hk1 Hk2]. apply obind_Ok_inv in E. destruct E as (s1 & E1 & E).
  pose proof (ko_iter _ _ _ _ _ _ _ _ E1 (or_intror K)) as I. pose proof (step_pose _ _ _ _ E1) as SP.
  pose proof (start_lag s (or_intror K)) as [St1 St2].
  apply (IH s1); auto; destruct o; try discriminate; destruct I; lia.
Qed.
Lemma init_eq md maxC maxI : let n := stateSize (Z.of_nat maxC) (Z.of_nat maxI) in let nt := stateTangentSize (Z.of_nat maxC) (Z.of_nat maxI) in
  kf_init md maxC maxI = Ok (mkS n nt 0 0 0 d0 d0 (nt, nt) (0, 0) (nt, nt) d0 d0 None None (Some 0)).
Proof.
  unfold kf_init, s_run, s_init. generalize (stateSize (Z.of_nat maxC) (Z.of_nat maxI)) (stateTangentSize (Z.of_nat maxC) (Z.of_nat maxI)). intros n nt.
  cbv zeta. destruct md; cbn; unfold okA, dim_eqb; cbn; rewrite Z.eqb_refl; cbn; unfold okA, dim_eqb; cbn; rewrite Z.eqb_refl; reflexivity.
Qed.
Lemma init_fits md maxC maxI f s : kf_init md maxC maxI = Ok f -> o_kest s = 0 -> fits (stateSize (Z.of_nat maxC) (Z.of_nat maxI)) (stateTangentSize (Z.of_nat maxC) (Z.of_nat maxI)) s f.
Proof. rewrite init_eq. intros E K. injection E as <-. constructor; cbn [s_n s_nt s_q s_pr s_x s_xbar s_ybar]; auto. now rewrite K. Qed.
Lemma init_obs md maxC maxI ds di dw dp s : ko_init s0 k0 md maxC maxI ds di dw dp = Ok s -> o_kest s = 0 /\ o_kdata s = 0 /\ p_time (o_pose s) = 0.
Proof. unfold ko_init. intros E. apply obind_Ok_inv in E. destruct E as (? & _ & E). injection E as <-. auto. Qed.
End Sizes.
