(** Sum and difference of states are inverse: proofs of the statements of PropKinSum.v. *)
From Coq Require Import ZArith List Lia Bool Reals Lra.
From Verif Require Import Base Vec3 Rot SpecRot RotProofs RotProofs2 RotProofs3 Orient SpecOrient OrientProofs Kine KinObs SpecKin KinSum SpecKinSum KinProofs KinInv KinThms SegProofs KinSumProofs KinSumProofs2.
Import ListNotations.
Open Scope Z_scope.

Lemma log_exp_mul q v : (qn2 q = 1)%R -> (vnorm v < PI)%R ->
  ((epsA < vnorm v)%R -> quat_rv (qmul (qmul (rv_quat v) q) (qinv q)) = v) /\ ((vnorm v <= epsA)%R -> quat_rv (qmul (qmul (rv_quat v) q) (qinv q)) = v0).
Proof.
  intros U P. rewrite <- qmul_assoc, (qinv_unit q U), (qmul_conj q U), qmul_1_r. pose proof (vnorm_sq v) as N. pose proof (vnorm_pos v). pose proof epsA_pos.
  split; intros T; [apply quat_rv_exp; [unfold tiny; nra|exact P]|apply quat_rv_small; unfold tiny; nra].
Qed.
Lemma qneg_mul_l a b : qmul (qneg a) b = qneg (qmul a b). Proof. c3. Qed.
Lemma exp_log_mul p q : (qn2 p = 1)%R -> (qn2 q = 1)%R -> let v := quat_rv (qmul p (qinv q)) in v = v0 \/ (epsA < vnorm v)%R ->
  qmul (rv_quat v) q = p \/ qmul (rv_quat v) q = qneg p.
Proof.
  intros Up Uq v T. assert (Ui : (qn2 (qinv q) = 1)%R) by (rewrite (qinv_unit q Uq); rewrite <- Uq; destruct q; cbn; unfold qn2; cbn; ring).
  set (r := qmul p (qinv q)) in *. assert (Ur : (qn2 r = 1)%R) by (unfold r; rewrite qn2_mul, Up, Ui; ring).
  assert (E : r = rv_quat v \/ r = qneg (rv_quat v)).
  { apply qrot_inj; [exact Ur|apply rv_quat_unit|]. rewrite <- rv_mat_quat. destruct (quat_aa_ok r Ur) as [A1 A2].
    rewrite rv_rodrigues.
    - unfold v, quat_rv. rewrite <- aa_rodrigues by exact A1. now rewrite <- surjective_pairing, A2.
    - destruct T as [T|T]; [now right|left]. unfold tiny. rewrite <- vnorm_sq. pose proof epsA_pos. nra. }
  assert (K : qmul r q = p).
  { unfold r. rewrite <- qmul_assoc, (qinv_unit q Uq). replace (qmul (qconj q) q) with q1; [apply qmul_1_r|].
    clear -Uq. destruct q as [w x y z]; unfold qn2 in Uq; cbn in *. unfold qmul, qconj, q1; cbn. f_equal; lra. }
  destruct E as [E|E]; rewrite E in K; [now left|right]. rewrite qneg_mul_l in K. rewrite <- K. destruct (qmul (rv_quat v) q); unfold qneg; cbn; f_equal; ring.
Qed.

Set Default Proof Using "Type".
Section P.
Context {Kn M C : Type}.
Notation obs := (obs R Kn M C).
Implicit Types s : obs.
Notation nt maxC maxI := (stateTangentSize (Z.of_nat maxC) (Z.of_nat maxI)).
Notation sg t mI c v := (seg_get (Z.to_nat (cval t mI c)) (Z.to_nat (comp_size t c)) v).

Lemma part_ok md maxC maxI s t c v : inv maxC maxI s -> (md = Debug -> (0 < maxI)%nat) -> active s c -> part md t s c v = sg t (Z.of_nat maxI) c v.
Proof. intros Hi Hm [He _]. unfold part. rewrite (comp_start_ok md t maxC maxI s c Hi Hm He). reflexivity. Qed.
Lemma sg_length maxC maxI s (t : bool) c (v : list R) : inv maxC maxI s -> active s c -> Z.of_nat (length v) = vsize t maxC maxI ->
  length (sg t (Z.of_nat maxI) c v) = Z.to_nat (comp_size t c).
Proof.
  intros Hi [He _] L. destruct (layout_in t s c maxC maxI Hi He). apply seg_get_length.
  assert (0 <= comp_size t c) by (destruct c, t; cbn; lia). lia.
Qed.
Lemma outside_ok md maxC maxI s t k : inv maxC maxI s -> (md = Debug -> (0 < maxI)%nat) -> outside md t s k ->
  forall c, active s c -> ~ (cval t (Z.of_nat maxI) c <= Z.of_nat k < cval t (Z.of_nat maxI) c + comp_size t c).
Proof. intros Hi Hm H c Ha. apply (H c); [exact Ha|]. apply (comp_start_ok md t maxC maxI s c Hi Hm). apply Ha. Qed.

Lemma diff_sum md maxC maxI s x d d0 : inv maxC maxI s -> (md = Debug -> (0 < maxI)%nat) ->
  length x = nx maxC maxI -> Z.of_nat (length d) = nt maxC maxI -> Z.of_nat (length d0) = nt maxC maxI ->
  (forall c, active s c -> is_ori c = true -> (qn2 (quat_of (part md false s c x)) = 1 /\ vnorm (vec_of (part md true s c d)) < PI)%R) ->
  exists y d', ko_stateSum md s x d = Ok y /\ ko_stateDifference md s y x d0 = Ok d' /\ length y = length x /\ length d' = length d /\
    (forall c, active s c -> (is_ori c = true -> epsA < vnorm (vec_of (part md true s c d)))%R -> part md true s c d' = part md true s c d) /\
    (forall c, active s c -> is_ori c = true -> (vnorm (vec_of (part md true s c d)) <= epsA)%R -> part md true s c d' = [0; 0; 0]%R) /\
    (forall k, outside md false s k -> nth_error y k = nth_error x k) /\ (forall k, outside md true s k -> nth_error d' k = nth_error d0 k).
Proof.
  intros Hi Hm Hx Hd Hd0 HU. destruct (sum_ok md maxC maxI s x d Hi Hm Hx Hd) as (y & Ey & Ly & S1 & S2 & S3).
  destruct (diff_ok md maxC maxI s y x d0 Hi Hm Ly Hx Hd0) as (d' & Ed & Ld & D1 & D2 & D3). exists y, d'.
  assert (V1 : Z.of_nat (length x) = vsize false maxC maxI) by (rewrite Hx, nx_eq, vsize_eq; reflexivity).
  split; [exact Ey|]. split; [exact Ed|]. split; [congruence|]. split; [lia|]. split; [|split; [|split]].
  - intros c Ha Ho. rewrite !(part_ok md maxC maxI) in * by assumption.
    pose proof (sg_length maxC maxI s true c d Hi Ha Hd) as L1. pose proof (sg_length maxC maxI s false c x Hi Ha V1) as L2.
    destruct (is_ori c) eqn:E.
    + rewrite (D2 c Ha E), (S2 c Ha E), quat_l4. specialize (HU c Ha E). rewrite !(part_ok md maxC maxI) in HU by assumption. destruct HU as [U P].
      rewrite (proj1 (log_exp_mul _ _ U P) (Ho eq_refl)). apply l3_vec. rewrite L1. destruct c; try discriminate; reflexivity.
    + rewrite (D1 c Ha E), (S1 c Ha E). apply zip_minus_plus. rewrite L1, L2. destruct c; try discriminate; reflexivity.
  - intros c Ha E Ho. specialize (HU c Ha E). rewrite !(part_ok md maxC maxI) in * by assumption. destruct HU as [U P].
    rewrite (D2 c Ha E), (S2 c Ha E), quat_l4, (proj2 (log_exp_mul _ _ U P) Ho). reflexivity.
  - intros k Hk. apply S3. eapply outside_ok; eassumption.
  - intros k Hk. apply D3. eapply outside_ok; eassumption.
Qed.

Lemma sum_diff md maxC maxI s x1 x2 d0 : inv maxC maxI s -> (md = Debug -> (0 < maxI)%nat) ->
  length x1 = nx maxC maxI -> length x2 = nx maxC maxI -> Z.of_nat (length d0) = nt maxC maxI ->
  (forall c, active s c -> is_ori c = true -> (qn2 (quat_of (part md false s c x1)) = 1 /\ qn2 (quat_of (part md false s c x2)) = 1)%R) ->
  exists d y, ko_stateDifference md s x1 x2 d0 = Ok d /\ ko_stateSum md s x2 d = Ok y /\ length y = length x2 /\
    (forall c, active s c -> is_ori c = false -> part md false s c y = part md false s c x1) /\
    (forall c, active s c -> is_ori c = true -> let v := vec_of (part md true s c d) in v = v0 \/ (epsA < vnorm v)%R ->
       quat_of (part md false s c y) = quat_of (part md false s c x1) \/ quat_of (part md false s c y) = qneg (quat_of (part md false s c x1))) /\
    (forall k, outside md false s k -> nth_error y k = nth_error x2 k).
Proof.
  intros Hi Hm Hx1 Hx2 Hd0 HU. destruct (diff_ok md maxC maxI s x1 x2 d0 Hi Hm Hx1 Hx2 Hd0) as (d & Ed & Ld & D1 & D2 & D3).
  destruct (sum_ok md maxC maxI s x2 d Hi Hm Hx2) as (y & Ey & Ly & S1 & S2 & S3); [congruence|]. exists d, y.
  assert (V1 : Z.of_nat (length x1) = vsize false maxC maxI) by (rewrite Hx1, nx_eq, vsize_eq; reflexivity).
  assert (V2 : Z.of_nat (length x2) = vsize false maxC maxI) by (rewrite Hx2, nx_eq, vsize_eq; reflexivity).
  split; [exact Ed|]. split; [exact Ey|]. split; [congruence|]. split; [|split].
  - intros c Ha E. rewrite !(part_ok md maxC maxI) by assumption. rewrite (S1 c Ha E), (D1 c Ha E). apply zip_plus_minus.
    rewrite (sg_length maxC maxI s false c x1 Hi Ha V1), (sg_length maxC maxI s false c x2 Hi Ha V2). reflexivity.
  - intros c Ha E v. specialize (HU c Ha E). unfold v. rewrite !(part_ok md maxC maxI) in * by assumption. rewrite (S2 c Ha E), (D2 c Ha E), quat_l4, vec_l3.
    apply exp_log_mul; tauto.
  - intros k Hk. apply S3. eapply outside_ok; eassumption.
Qed.
End P.

Section Meas.
Context {Kn M C : Type}.
Notation obs := (obs R Kn M C).
Implicit Types s : obs.
Lemma prepare_len md s s' : ko_prepare md s = Ok s' -> let n := 6 * o_nimu s' + 6 * o_nreal s' in 0 <= n /\
  Z.of_nat (length (o_meas s')) = (if p_time (o_pose s') =? o_kdata s' then n + 7 else n).
Proof.
  intros E. apply prepare_inv in E. destruct E as (cs1 & is' & y1 & r1 & n1 & cs' & y2 & r2 & n2 & p' & y & r & E1 & H0 & E2 & E3 & E4 & E). cbv zeta.
  apply write_imus_inv in E2. destruct E2 as (_ & L1 & _). apply write_contacts_inv in E3. destruct E3 as (_ & L2 & _). rewrite repeat_length in L1.
  assert (P1 : p_time p' = p_time (o_pose s)) by (destruct (p_time (o_pose s) =? o_kdata s); [destruct E4 as (_ & _ & ->); reflexivity|destruct E4 as (_ & -> & _); reflexivity]).
  assert (Q1 : o_nimu s' = o_nimu s) by (rewrite E; reflexivity). assert (Q2 : o_kdata s' = o_kdata s) by (rewrite E; reflexivity).
  assert (Q3 : o_pose s' = p') by (rewrite E; reflexivity). assert (Q4 : o_meas s' = y) by (rewrite E; reflexivity). clear E.
  rewrite Q1, Q2, Q3, Q4, P1. split; [exact H0|]. destruct (p_time (o_pose s) =? o_kdata s).
  - destruct E4 as (E4 & _). apply seg_set_length in E4. lia.
  - destruct E4 as (-> & _). lia.
Qed.
Lemma zip_self a : zip Rminus a a = repeat 0%R (length a).
Proof. induction a as [|x a IH]; [reflexivity|]. cbn. f_equal; [ring|exact IH]. Qed.
Lemma zip_get f a b k x y : nth_error a k = Some x -> nth_error b k = Some y -> nth_error (zip f a b) k = Some (f x y).
Proof. intros H1 H2. rewrite zip_nth, H1, H2. reflexivity. Qed.

Lemma meas_diff md s y1 y2 d0 : let n := 6 * o_nimu s + 6 * o_nreal s in let b := p_time (o_pose s) =? o_kdata s in
  0 <= n -> Z.of_nat (length y1) = (if b then n + 7 else n) -> length y2 = length y1 -> Z.of_nat (length d0) = (if b then n + 6 else n) ->
  exists d, ko_measurementDifference md s y1 y2 d0 = Ok d /\ length d = length d0 /\
    (forall k, Z.of_nat k < (if b then n + 3 else n) -> nth_error d k = nth_error (zip Rminus y1 y2) k) /\
    (b = true -> seg_get (Z.to_nat (n + 3)) 3 d = l3 (quat_rv (qmul (quat_of (seg_get (Z.to_nat (n + 3)) 4 y1)) (qinv (quat_of (seg_get (Z.to_nat (n + 3)) 4 y2)))))).
Proof.
  intros n b Hn L1 L2 L0. unfold ko_measurementDifference. change (sizeIMUSignal * o_nimu s + sizeWrench * o_nreal s) with n. fold b.
  assert (Lz : length (zip Rminus (seg_get 0 (Z.to_nat n) y1) (seg_get 0 (Z.to_nat n) y2)) = Z.to_nat n).
  { rewrite zip_length; rewrite !seg_get_length; destruct b; lia. }
  rewrite seg_rd_ok by (destruct b; lia). cbn [obind]. rewrite seg_rd_ok by (destruct b; lia). cbn [obind]. change (Z.to_nat 0) with 0%nat.
  destruct (seg_set md 0 (zip Rminus (seg_get 0 (Z.to_nat n) y1) (seg_get 0 (Z.to_nat n) y2)) d0) as [d1| | |] eqn:E1;
    try (rewrite seg_set_ok in E1 by (rewrite ?Lz; destruct b; lia); discriminate).
  cbn [obind]. pose proof (seg_set_length _ _ _ _ _ E1) as Ld1. pose proof (fun k => seg_set_nth _ _ _ _ _ k E1) as N1. rewrite Lz in N1. change (Z.to_nat 0) with 0%nat in N1.
  destruct b.
  - rewrite seg_rd_ok by lia. cbn [obind]. rewrite seg_rd_ok by lia. cbn [obind].
    assert (Lz2 : length (zip Rminus (seg_get (Z.to_nat n) 3 y1) (seg_get (Z.to_nat n) 3 y2)) = 3%nat) by (rewrite zip_length; rewrite !seg_get_length; lia).
    destruct (seg_set md n (zip Rminus (seg_get (Z.to_nat n) 3 y1) (seg_get (Z.to_nat n) 3 y2)) d1) as [d2| | |] eqn:E2;
      try (rewrite seg_set_ok in E2 by (rewrite ?Lz2; lia); discriminate).
    cbn [obind]. pose proof (seg_set_length _ _ _ _ _ E2) as Ld2. pose proof (fun k => seg_set_nth _ _ _ _ _ k E2) as N2. rewrite Lz2 in N2.
    change (n + sizePos) with (n + 3). rewrite rd4_ok by lia. cbn [obind]. rewrite rd4_ok by lia. cbn [obind]. rewrite diff_quat. cbn [obind].
    set (w := l3 _). destruct (seg_set md (n + 3) w d2) as [d3| | |] eqn:E3; try (rewrite seg_set_ok in E3 by (cbn [length w l3]; lia); discriminate).
    pose proof (seg_set_length _ _ _ _ _ E3) as Ld3. pose proof (fun k => seg_set_nth _ _ _ _ _ k E3) as N3. change (length w) with 3%nat in N3.
    exists d3. split; [reflexivity|]. split; [congruence|]. split; [|intros _; exact (seg_set_get _ _ _ _ _ E3)].
    intros k Hk. rewrite N3. destruct (Nat.leb_spec (Z.to_nat (n + 3)) k); [lia|]. cbn [andb]. rewrite N2.
    destruct (Nat.leb_spec (Z.to_nat n) k); cbn [andb].
    + destruct (Nat.ltb_spec k (Z.to_nat n + 3)); [|lia]. rewrite !zip_nth, !nth_error_seg. destruct (Nat.ltb_spec (k - Z.to_nat n) 3); [|lia].
      replace (Z.to_nat n + (k - Z.to_nat n))%nat with k by lia. reflexivity.
    + rewrite N1. cbn [Nat.leb]. destruct (Nat.ltb_spec k (0 + Z.to_nat n)); [|lia]. cbn [andb]. rewrite !zip_nth, !nth_error_seg, !Nat.sub_0_r.
      destruct (Nat.ltb_spec k (Z.to_nat n)); [|lia]. reflexivity.
  - exists d1. split; [reflexivity|]. split; [congruence|]. split; [|discriminate].
    intros k Hk. rewrite N1. cbn [Nat.leb]. destruct (Nat.ltb_spec k (0 + Z.to_nat n)); [|lia]. cbn [andb]. rewrite !zip_nth, !nth_error_seg, !Nat.sub_0_r.
    destruct (Nat.ltb_spec k (Z.to_nat n)); [|lia]. reflexivity.
Qed.
Lemma log_rot p q : (qn2 p = 1)%R -> (qn2 q = 1)%R -> let v := quat_rv (qmul p (qinv q)) in
  rodrigues v = mmul (qrot p) (mtr (qrot q)) /\ (vnorm v <= PI)%R /\ (p = q -> v = v0).
Proof.
  intros Up Uq v. assert (Uc : (qn2 (qconj q) = 1)%R) by (rewrite <- Uq; destruct q; unfold qn2; cbn; ring).
  assert (Ur : (qn2 (qmul p (qinv q)) = 1)%R) by (rewrite qn2_mul, Up, (qinv_unit q Uq), Uc; ring).
  destruct (quat_aa_ok _ Ur) as [A1 A2]. destruct (quat_rv_norm _ Ur) as [N B]. split; [|split].
  - unfold v, quat_rv. rewrite <- aa_rodrigues by exact A1. rewrite <- surjective_pairing, A2, (qinv_unit q Uq), qrot_mul, qrot_conj by assumption. reflexivity.
  - unfold v. lra.
  - intros ->. unfold v. rewrite (qinv_unit q Uq), (qmul_conj q Uq). apply quat_rv_q1.
Qed.
End Meas.
