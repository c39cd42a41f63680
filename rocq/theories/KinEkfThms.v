(** Proofs for KinEkf.v: the estimates of the observer with its own predictions. *)
From Coq Require Import Reals ZArith List Bool Lia Lra Classical_Prop.
From Verif Require Import Base Vec3 Rot RotProofs Orient OrientProofs Kine KinObs SpecKin KinSum SpecKinSum KinProofs KinInv SegProofs KinThms KinSumProofs KinSumProofs2 KinSumThms
  KinDyn SpecKinDyn KinDynProofs KinDynMeas KinQuery KinQueryProofs KinNan KinNanProofs KinEkf.
Import ListNotations.
Open Scope Z_scope.

Section Values.
Context {C : Type}.
Notation obs := (obs R Kin M3 C).
Notation contact := (contact R Kin M3 C).
Implicit Types s : obs.

Lemma known_some {A} (l : list A) : known (map Some l) = Ok l.
Proof. induction l as [|a l IH]; cbn; [reflexivity|]. now rewrite IH. Qed.
Lemma zip_zero a n : length a = n -> zip Rplus a (repeat 0%R n) = a.
Proof. intros <-. induction a as [|x a IH]; cbn; [reflexivity|]. f_equal; [ring|exact IH]. Qed.
Lemma seg_zero i n k : (i + n <= k)%nat -> seg_get i n (repeat 0%R k) = repeat 0%R n.
Proof.
  intros H. apply nth_error_ext. intros j. rewrite nth_error_seg. destruct (Nat.ltb_spec j n).
  - rewrite !nth_error_repeat by lia. reflexivity.
  - symmetry. apply nth_error_None. rewrite repeat_length. lia.
Qed.
Lemma rv_quat_zero : rv_quat v0 = q1.
Proof. apply rv_small. pose proof epsA_pos. unfold vsq, vdot, v0. cbn. nra. Qed.
Lemma qmul_one q : qmul q1 q = q.
Proof. destruct q. unfold qmul, q1. cbn. f_equal; ring. Qed.
Lemma vec_zero : vec_of (repeat 0%R 3) = v0.
Proof. reflexivity. Qed.
Lemma l4_of (l : list R) : length l = 4%nat -> l4 (quat_of l) = l.
Proof. intros H. do 4 (destruct l as [|? l]; [discriminate|]). destruct l; [|discriminate]. reflexivity. Qed.
Lemma seg_rd_inv {A} md i n (v u : list A) : seg_rd md i n v = Ok u -> 0 <= i /\ i + Z.of_nat n <= Z.of_nat (length v) /\ u = seg_get (Z.to_nat i) n v.
Proof.
  unfold seg_rd. destruct (Z.leb_spec 0 i), (Z.leb_spec (i + Z.of_nat n) (Z.of_nat (length v))); cbn; try (destruct md; discriminate). intros E. injection E as <-. auto.
Qed.
Lemma seg_set_same {A} md i n (x y : list A) : 0 <= i -> i + Z.of_nat n <= Z.of_nat (length x) -> seg_set md i (seg_get (Z.to_nat i) n x) x = Ok y -> y = x.
Proof.
  intros H0 H1 E. assert (L : length (seg_get (Z.to_nat i) n x) = n) by (apply seg_get_length; lia).
  unfold seg_set in E. rewrite L in E. destruct (_ && _); [|destruct md; discriminate]. injection E as <-. unfold seg_get.
  rewrite <- (firstn_skipn (Z.to_nat i) x) at 4. f_equal. rewrite <- (firstn_skipn n (skipn (Z.to_nat i) x)) at 2. f_equal.
  apply nth_error_ext. intros k. rewrite !nth_error_skipn. f_equal. lia.
Qed.
Lemma sum_block_zero md x k b y : sum_block md x (repeat 0%R k) b x = Ok y -> y = x.
Proof.
  destruct b as [[[n|] i] j]; unfold sum_block; intros E.
  - apply obind_Ok_inv in E. destruct E as (u & E1 & E). apply obind_Ok_inv in E. destruct E as (v & E2 & E).
    apply seg_rd_inv in E1. destruct E1 as (A1 & A2 & ->). apply seg_rd_inv in E2. destruct E2 as (B1 & B2 & ->). rewrite repeat_length in B2.
    rewrite seg_zero in E by lia. rewrite zip_zero in E by (apply seg_get_length; lia). exact (seg_set_same md i n x y A1 A2 E).
  - apply obind_Ok_inv in E. destruct E as (q & E1 & E). apply obind_Ok_inv in E. destruct E as (v & E2 & E).
    unfold rd4 in E1. apply obind_Ok_inv in E1. destruct E1 as (l & E1 & El). unfold rd3 in E2. apply obind_Ok_inv in E2. destruct E2 as (l' & E2 & El').
    apply seg_rd_inv in E1. destruct E1 as (A1 & A2 & ->). apply seg_rd_inv in E2. destruct E2 as (B1 & B2 & ->). rewrite repeat_length in B2.
    rewrite seg_zero in El' by lia. cbn in El'. injection El' as <-. change (mkV 0 0 0) with v0 in E. rewrite integ_quat in E. cbn [obind] in E. rewrite toquat_quat in E. cbn [obind] in E.
    rewrite rv_quat_zero, qmul_one in E. assert (L4 : l4 q = seg_get (Z.to_nat i) 4 x).
    { assert (L : length (seg_get (Z.to_nat i) 4 x) = 4%nat) by (apply seg_get_length; lia). destruct (seg_get (Z.to_nat i) 4 x) as [|a [|b [|c [|d [|? ?]]]]]; try discriminate. injection El as <-. reflexivity. }
    rewrite L4 in E. exact (seg_set_same md i 4 x y A1 A2 E).
Qed.
Lemma sum_blocks_zero md x k bs : forall y, orun (sum_block md x (repeat 0%R k)) bs x = Ok y -> y = x.
Proof.
  induction bs as [|b bs IH]; intros y E; cbn [orun] in E; [congruence|]. apply obind_Ok_inv in E. destruct E as (z & E1 & E). apply sum_block_zero in E1. subst z. auto.
Qed.
(** Adding the zero tangent vector changes nothing. *)
Lemma sum_zero md maxC maxI s x k : inv maxC maxI s -> (md = Debug -> (0 < maxI)%nat) -> length x = nx maxC maxI -> Z.of_nat k = stateTangentSize (Z.of_nat maxC) (Z.of_nat maxI) ->
  ko_stateSum md s x (repeat 0%R k) = Ok x.
Proof.
  intros Hi Hm Lx Hk. destruct (sum_ok md maxC maxI s x (repeat 0%R k) Hi Hm Lx) as (y & E & _); [rewrite repeat_length; exact Hk|].
  rewrite E. f_equal. unfold ko_stateSum in E. apply obind_Ok_inv in E. destruct E as (bs & _ & E). eapply sum_blocks_zero; eauto.
Qed.
(** The predicted state: its size and the norm of its quaternion. *)
Lemma toMat_oq md o m o' q : o_toMat md o = Ok (m, o') -> oq o = Some q -> oq o' = Some q.
Proof.
  unfold o_toMat, o_q2m. intros E Q. apply obind_Ok_inv in E. destruct E as (? & _ & E). destruct (om o).
  - injection E as _ <-. exact Q.
  - rewrite Q in E. cbn in E. injection E as _ <-. reflexivity.
Qed.
Lemma rot_oq md o v u o' q : o_rot md o v = Ok (u, o') -> oq o = Some q -> oq o' = Some q.
Proof. unfold o_rot. intros E Q. apply obind_Ok_inv in E. destruct E as ([m o1] & E1 & E). injection E as _ <-. eapply toMat_oq; eauto. Qed.
Lemma acc_oq md b k F T la al o q : accelerations md b k F T = Ok (la, al, o) -> oq (ko k) = Some q -> oq o = Some q.
Proof.
  unfold accelerations. intros E Q. apply obind_Ok_inv in E. destruct E as ([m o1] & E1 & E). pose proof (toMat_oq _ _ _ _ _ E1 Q) as Q1.
  cbv zeta in E. do 8 (apply obind_Ok_inv in E; destruct E as (? & _ & E)).
  apply obind_Ok_inv in E. destruct E as ([al' o2] & E2 & E). apply obind_Ok_inv in E. destruct E as ([la' o3] & E3 & E). injection E as _ _ <-.
  eapply rot_oq; eauto. eapply rot_oq; eauto.
Qed.
Definition qb (x : list R) : Q4 := quat_of (seg_get 3 4 x).
Lemma wrenches_low md k (cs : list contact) : Forall (fun c => c_set c = true -> 19 <= c_sidx c) cs -> forall x y, predict_wrenches md k cs x = Ok y -> firstn 13 y = firstn 13 x /\ length y = length x.
Proof.
  intros H. induction H as [|c cs Hc H IH]; intros x y E; cbn [predict_wrenches] in E.
  - apply Ok_inj in E. subst. auto.
  - destruct (c_set c); [|apply (IH x y E)]. specialize (Hc eq_refl).
    apply obind_Ok_inv in E. destruct E as ([f t] & _ & E). apply obind_Ok_inv in E. destruct E as (u & _ & E).
    apply obind_Ok_inv in E. destruct E as (x1 & E1 & E). apply obind_Ok_inv in E. destruct E as (x2 & E2 & E).
    destruct (IH _ _ E) as [A B]. apply (low_seg _ _ _ _ _ 13) in E1; [|change sizeContactKine with 7; lia]. apply (low_seg _ _ _ _ _ 13) in E2; [|change sizeContactKine with 7; change sizeForce with 3; lia].
    destruct E1 as [A1 B1], E2 as [A2 B2]. rewrite A, A2, A1, B, B2, B1. auto.
Qed.
Lemma low_qb (x y : list R) : firstn 13 y = firstn 13 x -> qb y = qb x.
Proof.
  intros H. unfold qb. f_equal. apply seg_get_eq. intros k Hk. assert (X := f_equal (fun l => nth_error l k) H). cbn beta in X. rewrite !nth_error_firstn in X.
  destruct (Nat.ltb_spec k 13); [exact X|lia].
Qed.
Lemma dyn_unit md b noise s x y : cplaced s -> (13 <= length x)%nat -> ko_stateDynamics md b noise s x = Ok y -> length y = length x /\ (qn2 (qb x) = 1 -> qn2 (qb y) = 1)%R.
Proof.
  intros [_ Hc] Lx E. unfold ko_stateDynamics in E. apply obind_Ok_inv in E. destruct E as (k & Ek & E). apply obind_Ok_inv in E. destruct E as (k1 & Ei & E).
  apply obind_Ok_inv in E. destruct E as ([v k2] & Ev & E). apply obind_Ok_inv in E. destruct E as (x1 & E1 & E). apply obind_Ok_inv in E. destruct E as (x2 & E2 & E). cbv zeta in E. injection E as <-.
  apply (wrenches_low md k2 _ Hc) in E2. destruct E2 as [A B]. pose proof (seg_set_length _ _ _ _ _ E1) as L1. split; [congruence|]. intros U. rewrite (low_qb _ _ A).
  unfold state_kine in Ek. apply obind_Ok_inv in Ek. destruct Ek as ([f t] & _ & Ek). destruct (from_vec md x Lx) as (v' & E3 & E4). rewrite E3 in Ek. cbn [obind] in Ek. rewrite E4 in Ek. cbn [obind] in Ek.
  apply obind_Ok_inv in Ek. destruct Ek as ([[la al] o] & Ea & Ek). injection Ek as <-.
  pose proof (acc_oq _ _ _ _ _ _ _ _ (qb x) Ea eq_refl) as Q. unfold k_integrate in Ei. cbn [kw kal ko kv ka kp] in Ei.
  assert (S1 : o_isSet o = true) by (unfold o_isSet; rewrite Q; cbn; now rewrite orb_true_r). rewrite S1 in Ei.
  apply obind_Ok_inv in Ei. destruct Ei as ([o1 w1] & Eo & Ei). apply obind_Ok_inv in Eo. destruct Eo as (o2 & Eo & Eo'). injection Eo' as <- _.
  assert (Q2 : exists d, oq o2 = Some (qmul (rv_quat d) (qb x))).
  { unfold o_integrate in Eo. apply obind_Ok_inv in Eo. destruct Eo as (? & _ & Eo). rewrite Q in Eo. destruct (om o); injection Eo as <-; eexists; reflexivity. }
  destruct Q2 as (d & Q2). set (q' := qmul (rv_quat d) (qb x)) in Q2. assert (U' : (qn2 q' = 1)%R) by (unfold q'; rewrite qn2_mul, rv_quat_unit, U; ring). clearbody q'. injection Ei as <-. unfold k_toVec in Ev. cbn [fP fO fV fW fA fAl fState kp ko kv kw ka kal option_map] in Ev.
  unfold o_toQuat in Ev. rewrite Q2 in Ev. cbn [oget obind o_check] in Ev.
  assert (K : o_check md o2 = Ok tt) by (unfold o_check; rewrite Q2; destruct md; reflexivity). rewrite K in Ev. cbn [obind] in Ev.
  destruct w1 as [w1|]; cbn [oget obind] in Ev; [|destruct md; discriminate]. apply Ok_inj in Ev. injection Ev as <- _.
  apply seg_set_get in E1. change (Z.to_nat kineIndex) with 0%nat in E1.
  rewrite <- U'. f_equal. unfold qb. assert (X := f_equal (seg_get 3 4) E1). rewrite seg_get_seg in X by (cbn; lia). rewrite Nat.add_0_l in X. rewrite X. clear. destruct q'. reflexivity.
Qed.
(** The correction keeps the norm of the quaternion. *)
Lemma sum_unit md maxC maxI s x t : inv maxC maxI s -> (md = Debug -> (0 < maxI)%nat) -> length x = nx maxC maxI -> Z.of_nat (length t) = stateTangentSize (Z.of_nat maxC) (Z.of_nat maxI) ->
  exists y, ko_stateSum md s x t = Ok y /\ length y = nx maxC maxI /\ (qn2 (qb x) = 1 -> qn2 (qb y) = 1)%R.
Proof.
  intros Hi Hm Lx Lt. destruct (sum_ok md maxC maxI s x t Hi Hm Lx Lt) as (y & E & Ly & _ & Y & _). exists y. split; [exact E|]. split; [exact Ly|]. intros U.
  specialize (Y COri). assert (A : active s COri) by (split; exact I). specialize (Y A eq_refl). change (Z.to_nat (cval false (Z.of_nat maxI) COri)) with 3%nat in Y. change (Z.to_nat (comp_size false COri)) with 4%nat in Y.
  unfold qb at 1. rewrite Y, quat_l4, qn2_mul, rv_quat_unit. unfold qb in U. rewrite U. ring.
Qed.
(** ** Histories *)
Context (kfirst : mode -> Kin -> outcome Kin) (kupd : mode -> Z -> Kin -> Kin -> outcome Kin) (mzero : M3 -> bool).
Notation kstep := (ko_step 0%R kfirst kupd mzero).
Notation estep := (est_step kfirst kupd mzero).
Notation erun := (est_run kfirst kupd mzero).
Lemma inv_placed maxC maxI s : inv maxC maxI s -> cplaced s.
Proof.
  intros Hi. split; [rewrite (v_maxI _ _ _ Hi); lia|]. apply Forall_forall. intros c Hc Hs. apply In_nth_error in Hc. destruct Hc as (j & Hj).
  destruct (v_ci _ _ _ Hi j c Hj Hs) as [-> _]. unfold cidx. lia.
Qed.
Lemma nx_13 maxC maxI : (13 <= nx maxC maxI)%nat.
Proof. unfold nx, stateSize. change sizeStateBase with 19. change sizeContact with 13. change sizeGyroBias with 3. lia. Qed.
(** What an update is: the correction of the prediction, as the estimate of KUpdate. *)
Lemma est_inv md maxC maxI b n n' g d0 s s' : inv maxC maxI s -> (md = Debug -> (0 < maxI)%nat) -> (forall d, Z.of_nat (length (g d)) = stateTangentSize (Z.of_nat maxC) (Z.of_nat maxI)) ->
  ko_update_est md b n n' g d0 s = Ok s' ->
  s' = s \/ exists s1 xb x, ko_prepare md s = Ok s1 /\ ko_stateDynamics md b n s1 (o_ekf s1) = Ok xb /\ length x = nx maxC maxI /\ (qn2 (qb (o_ekf s)) = 1 -> qn2 (qb x) = 1)%R /\
    ko_update md (fun _ _ => x) s = Ok s' /\ o_state s' = x /\ o_ekf s' = x.
Proof.
  intros Hi Hm Hg E. unfold ko_update_est in E. unfold ko_update. destruct (_ =? _); [left; congruence|]. right.
  apply obind_Ok_inv in E. destruct E as (s1 & Ep & E). apply obind_Ok_inv in E. destruct E as (x & Ex & E).
  pose proof (prepare_keep _ _ _ _ _ Hi Ep) as Hi1. pose proof (prepare_ekf _ _ _ Ep) as Ek.
  unfold ko_estimate in Ex. apply obind_Ok_inv in Ex. destruct Ex as (xb & Eb & Ex). do 4 (apply obind_Ok_inv in Ex; destruct Ex as (? & _ & Ex)).
  pose proof (v_e _ _ _ Hi1) as L1. pose proof (nx_13 maxC maxI) as N13.
  destruct (dyn_unit md b n s1 (o_ekf s1) xb (inv_placed _ _ _ Hi1)) as [Lb Ub]; [lia|exact Eb|].
  match type of Ex with ko_stateSum _ _ _ (g ?d) = _ => destruct (sum_unit md maxC maxI s1 xb (g d) Hi1 Hm) as (y & Ey & Ly & Uy); [congruence|apply Hg|] end.
  rewrite Ex in Ey. apply Ok_inj in Ey. subst y.
  exists s1, xb, x. split; [exact Ep|]. split; [exact Eb|]. split; [exact Ly|]. split.
  - rewrite <- Ek. auto.
  - rewrite Ep. cbn [obind]. split; [exact E|]. injection E as <-. split; reflexivity.
Qed.
Definition est_ok (maxC maxI : nat) (o : est_op C) : Prop :=
  match o with
  | ECall (KUpdate _) => False
  | ECall o => no_clear o = true /\ wf_op (nx maxC maxI) o
  | EUpdate _ _ _ g _ => forall d, Z.of_nat (length (g d)) = stateTangentSize (Z.of_nat maxC) (Z.of_nat maxI)
  end.
Lemma est_step_inv md maxC maxI o s s' : est_ok maxC maxI o -> (md = Debug -> (0 < maxI)%nat) -> inv maxC maxI s -> estep md o s = Ok s' -> inv maxC maxI s'.
Proof.
  intros Ho Hm Hi E. destruct o as [o|b n n' g d0]; cbn [est_step] in E.
  - assert (X : no_clear o = true /\ wf_op (nx maxC maxI) o) by (destruct o; try exact Ho; contradiction). destruct X as [X1 X2]. eapply step_inv; eauto.
  - destruct (est_inv md maxC maxI b n n' g d0 s s' Hi Hm Ho E) as [->|(s1 & xb & x & _ & _ & Lx & _ & Eu & _)]; [exact Hi|].
    apply (step_inv 0%R kfirst kupd mzero md maxC maxI (KUpdate (fun _ _ => x)) s s'); auto. cbn. auto.
Qed.
Lemma est_run_inv md maxC maxI h : forall s s', Forall (est_ok maxC maxI) h -> (md = Debug -> (0 < maxI)%nat) -> inv maxC maxI s -> erun md h s = Ok s' -> inv maxC maxI s'.
Proof.
  unfold est_run. induction h as [|o h IH]; intros s s' Ho Hm Hi E; cbn [orun] in E; [congruence|]. inversion Ho; subst. apply obind_Ok_inv in E. destruct E as (s1 & E1 & E).
  eapply IH; [eassumption|exact Hm| |exact E]. eapply est_step_inv; eauto.
Qed.
(** Unit quaternions. *)
Definition unit_op (o : est_op C) : Prop :=
  match o with ECall (KSetKine kv _) => (qn2 (quat_of (firstn 4 (skipn 3 kv))) = 1)%R | ECall (KSetVector v) => (qn2 (quat_of (firstn 4 (skipn 3 v))) = 1)%R | _ => True end.
Lemma setkine_unit md maxC maxI kv rf s s' : inv maxC maxI s -> length kv = 13%nat -> (qn2 (quat_of (firstn 4 (skipn 3 kv))) = 1)%R -> kstep md (KSetKine kv rf) s = Ok s' ->
  (qn2 (qb (o_state s')) = 1 /\ qn2 (qb (o_ekf s')) = 1)%R.
Proof.
  intros Hi L U E. cbn [ko_step] in E. unfold ko_setStateKinematics in E. apply obind_Ok_inv in E. destruct E as (x & E1 & E). apply obind_Ok_inv in E. destruct E as (x' & E2 & E). injection E as <-. cbn.
  assert (X : (qn2 (qb x') = 1)%R); [|auto].
  assert (Y : firstn 13 x' = firstn 13 x).
  { destruct rf; [|injection E2 as <-; reflexivity]. destruct (inv_placed _ _ _ Hi) as [_ Hc]. eapply (low_zero 0%R md (o_contacts s) 13); [lia|exact Hc|exact E2]. }
  rewrite (low_qb _ _ Y). apply seg_set_get in E1. rewrite L in E1. change (Z.to_nat kineIndex) with 0%nat in E1. rewrite <- U. f_equal. unfold qb. f_equal.
  rewrite <- E1. fold (seg_get 3 4 (seg_get 0 13 x)). rewrite seg_get_seg by lia. reflexivity.
Qed.
Lemma est_step_unit md maxC maxI o s s' : est_ok maxC maxI o -> unit_op o -> (md = Debug -> (0 < maxI)%nat) -> inv maxC maxI s -> estep md o s = Ok s' ->
  (qn2 (qb (o_state s)) = 1 /\ qn2 (qb (o_ekf s)) = 1 -> qn2 (qb (o_state s')) = 1 /\ qn2 (qb (o_ekf s')) = 1)%R.
Proof.
  intros Ho Hu Hm Hi E [U1 U2]. destruct o as [o|b n n' g d0].
  - assert (X : no_clear o = true /\ wf_op (nx maxC maxI) o) by (destruct o; try exact Ho; contradiction). destruct X as [_ X2]. cbn [est_step] in E.
    destruct o as [pv num st|n| |sig cov k num|w cov k n|k n|sig cov| |kv rf|b i|w|v|b|b|b| |e]; cbn [unit_op] in Hu; try contradiction.
    9:{ eapply setkine_unit; eauto. }
    11:{ cbn [ko_step] in E. injection E as <-. cbn. auto. }
    all: match type of E with ko_step _ _ _ _ _ ?o _ = _ => destruct (other_low 0%R kfirst kupd mzero md (nx maxC maxI) o s s' eq_refl X2 (inv_placed _ _ _ Hi) E) as (A & _ & _) end; rewrite (low_qb _ _ A); split; [exact U1|].
    all: try (match type of E with ko_step _ _ _ _ _ ?o _ = _ => rewrite (other_keeps_ekf 0%R kfirst kupd mzero md o s s' eq_refl eq_refl E) end; exact U2).
    + cbn [ko_step] in E. unfold ko_setGyroBias in E. apply obind_Ok_inv in E. destruct E as (? & _ & E). apply obind_Ok_inv in E. destruct E as (? & _ & E). injection E as <-. cbn in *. rewrite (low_qb _ _ A). exact U1.
    + cbn [ko_step] in E. unfold ko_setStateUnmodeledWrench in E. apply obind_Ok_inv in E. destruct E as (? & _ & E). apply obind_Ok_inv in E. destruct E as (? & _ & E). injection E as <-. cbn in *. rewrite (low_qb _ _ A). exact U1.
  - cbn [est_step est_ok] in *. destruct (est_inv md maxC maxI b n n' g d0 s s' Hi Hm Ho E) as [->|(s1 & xb & x & _ & _ & Lx & Ux & _ & -> & ->)]; auto.
Qed.
Lemma est_run_unit md maxC maxI h : forall s s', Forall (est_ok maxC maxI) h -> Forall unit_op h -> (md = Debug -> (0 < maxI)%nat) -> inv maxC maxI s -> erun md h s = Ok s' ->
  (qn2 (qb (o_state s)) = 1 /\ qn2 (qb (o_ekf s)) = 1 -> qn2 (qb (o_state s')) = 1 /\ qn2 (qb (o_ekf s')) = 1)%R.
Proof.
  unfold est_run. induction h as [|o h IH]; intros s s' Ho Hu Hm Hi E U; cbn [orun] in E; [injection E as <-; exact U|]. inversion Ho; inversion Hu; subst. apply obind_Ok_inv in E. destruct E as (s1 & E1 & E).
  eapply IH; [eassumption|eassumption|exact Hm| |exact E|]; [eapply est_step_inv; eauto|]. eapply est_step_unit; eauto.
Qed.
End Values.
