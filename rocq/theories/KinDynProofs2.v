(** The state dynamics of the kinetics observer. *)
From Coq Require Import Reals ZArith List Bool Lia Lra.
From Verif Require Import Base Vec3 Rot SpecRot RotProofs Orient SpecOrient OrientProofs Kine SpecKine KineProofs KineProofs2
  KinObs SpecKin KinSum SpecKinSum KinProofs KinInv KinThms SegProofs KinSumProofs KinSumProofs2 KinDyn SpecKinDyn KinDynProofs.
Import ListNotations.
Open Scope R_scope.

(** ** The quaternions held by the orientations *)
Lemma toMat_q md o m o' q : o_toMat md o = Ok (m, o') -> oq o = Some q -> oq o' = Some q.
Proof. destruct o as [q' m']; intros E Hq; cbn in Hq; subst q'. unfold o_toMat in E. destruct m'; cbn in E; destruct md; cbn in E; injection E as <- <-; reflexivity. Qed.
Lemma rot_q md o v v' o' q : o_rot md o v = Ok (v', o') -> oq o = Some q -> oq o' = Some q.
Proof. unfold o_rot. intros E Hq. apply obind_Ok_inv in E. destruct E as ((m & o1) & E1 & E2). injection E2 as _ <-. eapply toMat_q; eauto. Qed.
Ltac rq := repeat match goal with
  | H : Ok _ = Ok _ |- _ => injection H as ?; subst
  | H : AssertFail = Ok _ |- _ => discriminate H
  | H : UB = Ok _ |- _ => discriminate H
  | H : obind _ _ = Ok _ |- _ => let x := fresh "x" in let E := fresh "E" in apply obind_Ok_inv in H; destruct H as (x & E & H); cbn beta in H
  | H : (let '(_, _) := ?p in _) = Ok _ |- _ => destruct p; cbn beta iota in H
  | E : o_rot _ ?o _ = Ok (_, ?o'), Q : oq ?o = Some ?q |- _ => pose proof (rot_q _ _ _ _ _ _ E Q); clear E
  | H : match ?x with Some _ => _ | None => _ end = Ok _ |- _ => destruct x
  end.
Lemma mul_lin_q md a b o p v ac o' q : k_mul_lin md a b o = Ok (p, v, ac, o') -> oq o = Some q -> oq o' = Some q.
Proof. unfold k_mul_lin. intros E Q. rq; auto. Qed.
Lemma k_mul_q md a b c a' b' qa qb : k_mul md a b = Ok (c, a', b') -> oq (ko a) = Some qa -> oq (ko b) = Some qb ->
  oq (ko c) = Some (qmul qa qb) /\ oq (ko a') = Some qa /\ oq (ko b') = Some qb.
Proof.
  intros E Ha Hb. unfold k_mul in E. apply obind_Ok_inv in E. destruct E as (u & _ & E). apply obind_Ok_inv in E. destruct E as (u' & _ & E).
  apply obind_Ok_inv in E. destruct E as ((((p & v) & ac) & o1) & E1 & E). pose proof (mul_lin_q _ _ _ _ _ _ _ _ _ E1 Ha) as Q1. cbn beta iota in E.
  apply obind_Ok_inv in E. destruct E as (((((o & w) & al) & o1') & o2) & E2 & E). cbn beta iota in E. injection E as <- <- <-. cbn [ko with_ori].
  unfold k_mul_ang in E2. assert (S : o_isSet (ko b) = true) by (unfold o_isSet; rewrite Hb; apply orb_true_r). rewrite S in E2.
  apply obind_Ok_inv in E2. destruct E2 as (((po & oa) & ob) & E3 & E2). cbn beta iota in E2.
  assert (X : oq po = Some (qmul qa qb) /\ oq oa = Some qa /\ oq ob = Some qb).
  { unfold o_mul in E3. rewrite Q1, Hb in E3. apply obind_Ok_inv in E3. destruct E3 as (? & _ & E3). apply obind_Ok_inv in E3. destruct E3 as (? & _ & E3).
    injection E3 as <- <- <-. auto. }
  destruct X as (X1 & X2 & X3). rq; auto.
Qed.
Lemma k_inv_q md k i q : k_inv md k = Ok i -> oq (ko k) = Some q -> oq (ko i) = Some (qinv q).
Proof.
  intros E Q. unfold k_inv in E. apply obind_Ok_inv in E. destruct E as (u & _ & E). apply obind_Ok_inv in E. destruct E as (r & E1 & E).
  assert (X : oq r = Some (qinv q)).
  { unfold o_inv in E1. rewrite Q in E1. apply obind_Ok_inv in E1. destruct E1 as (? & _ & E1). destruct (om (ko k)); injection E1 as <-; reflexivity. }
  apply obind_Ok_inv in E. destruct E as (((w & al) & r') & E2 & E). cbn beta iota in E. assert (X' : oq r' = Some (qinv q)) by (rq; auto). clear E2.
  apply obind_Ok_inv in E. destruct E as ((((p & v) & ac) & r2) & E3 & E). cbn beta iota in E. injection E as <-. cbn [ko]. rq; auto.
Qed.
Lemma k_integrate_q md dt k k' q w al : k_integrate md dt k = Ok k' -> oq (ko k) = Some q -> kw k = Some w -> kal k = Some al ->
  oq (ko k') = Some (qmul (rv_quat (vadd (vscal dt w) (vscal (dt * dt / 2) al))) q).
Proof.
  intros E Q W A. unfold k_integrate in E. rewrite W, A in E. assert (S : o_isSet (ko k) = true) by (unfold o_isSet; rewrite Q; apply orb_true_r). rewrite S in E.
  apply obind_Ok_inv in E. destruct E as ((o & w') & E1 & E). cbn beta iota in E. apply obind_Ok_inv in E1. destruct E1 as (o' & E1 & E2). injection E2 as <- <-.
  destruct (match kv k with Some _ => _ | None => _ end) as [p v]. injection E as <-. cbn [ko].
  unfold o_integrate in E1. rewrite Q in E1. apply obind_Ok_inv in E1. destruct E1 as (? & _ & E1). destruct (om (ko k)); injection E1 as <-; reflexivity.
Qed.

(** ** The wrench predicted at a contact *)
Set Default Proof Using "Type".
Section P.
Context {C : Type}.
Notation obs := (obs R Kin M3 C).
Notation contact := (contact R Kin M3 C).
Implicit Types s : obs.
Notation sg3 i x := (vec_of (seg_get (Z.to_nat i) 3 x)).

Definition wforce (r rl : M3) (st : M3 * M3 * M3 * M3) (p v : V3) : V3 :=
  let '(Kpt, Kdt, Kpr, Kdr) := st in vneg (mvec (mtr (mmul r rl)) (vadd (mvec Kpt p) (mvec Kdt v))).
Definition wtorque (r rl : M3) (st : M3 * M3 * M3 * M3) (q : Q4) (w : V3) : V3 :=
  let '(Kpt, Kdt, Kpr, Kdr) := st in vneg (mvec (mtr (mmul r rl)) (vadd (vscal (1 / 2) (mvec Kpr (qvec q))) (mvec Kdr w))).

Lemma contact_wrench_ok md k (c : contact) r p v w rl pl vl wl : coh (ko k) -> rot (ko k) = Some r -> kp k = Some p -> kv k = Some v -> kw k = Some w ->
  coh (ko (c_kine c)) -> rot (ko (c_kine c)) = Some rl -> kp (c_kine c) = Some pl -> kv (c_kine c) = Some vl -> kw (c_kine c) = Some wl ->
  exists q, contact_wrench md k c = Ok (wforce r rl (c_stiff c) p v, wtorque r rl (c_stiff c) q w) /\ qn2 q = 1 /\ qrot q = r /\
    (forall q0 ql, oq (ko k) = Some q0 -> oq (ko (c_kine c)) = Some ql -> q = q0).
Proof.
  intros Hk Rk Pk Vk Wk Hl Rl Pl Vl Wl. unfold contact_wrench, wforce, wtorque. destruct (c_stiff c) as [[[Kpt Kdt] Kpr] Kdr].
  pose proof (coh_so3 _ _ Hk Rk) as Sk. pose proof (coh_so3 _ _ Hl Rl) as Sl.
  destruct (k_mul_ok md k (c_kine c) r Hk Hl Rk) as (g & a' & l & E1 & Hg & Pg & Og & Vg & Wg & _ & _ & _ & _ & Hl' & Sl'); [left; congruence|].
  rewrite E1. cbn [obind]. destruct Sl' as (S1 & S2 & S3 & S4 & S5 & S6). rewrite Pl in S1. rewrite Rl in S2. rewrite Vl in S3. rewrite Wl in S4.
  destruct (k_inv_ok md l rl Hl' S2) as (li & E2 & Hi & Pi & Oi & Vi & Wi & _). rewrite E2. cbn [obind].
  rewrite Rl in Og. cbn [c_o] in Og.
  destruct (k_mul_ok md g li (mmul r rl) Hg Hi Og) as (e & g' & li' & E3 & He & Pe & Oe & Ve & We & _ & _ & Hg' & Sg' & _); [right; congruence|].
  rewrite E3. cbn [obind]. destruct Sg' as (_ & G2 & _). rewrite Og in G2.
  destruct (inv_ok md _ _ Hg' G2) as (rc & E4 & Hrc & Rrc). rewrite E4. cbn [obind].
  assert (Xp : kp e = Some p).
  { rewrite Pe, Pg, Pi, Pk, Pl, S1. rewrite <- (c_p_assoc r rl). rewrite il_p by exact Sl. cbn [isSome zero_if c_p]. rewrite mvec_0, vadd_0_l. reflexivity. }
  assert (Xv : kv e = Some v).
  { rewrite Ve, Pg, Pi, Vg, Vi, Wg, Pk, Pl, Vk, Vl, Wk, Wl, Rl, S1, S3, S4. rewrite <- (c_v_assoc r rl) by exact Sk.
    rewrite il_p, il_v by exact Sl. cbn [isSome zero_if c_v andb]. rewrite mvec_0. f_equal. clear. c3. }
  assert (Xw : kw e = Some w).
  { rewrite We, Wg, Wi, Oi, Wk, Wl, Rl, S4. rewrite <- (c_w_assoc r rl). rewrite il_w by exact Sl. cbn [isSome zero_if c_w c_o]. rewrite mvec_0, vadd_0_l. reflexivity. }
  rewrite Xp, Xv. cbn [oget obind].
  destruct (rot_ok md _ _ (vadd (mvec Kpt p) (mvec Kdt v)) Hrc Rrc) as (rc2 & E5 & Hrc2 & Rrc2). rewrite E5. cbn [obind].
  rewrite Oi in Oe. cbn [c_o] in Oe. rewrite <- mmul_assoc in Oe. rewrite (proj1 Sl), mmul_1_r in Oe.
  destruct (toQuat_ok md _ _ He Oe) as (q & oe & E6 & _ & _ & U & Rq). rewrite E6. cbn [obind]. rewrite Xw. cbn [oget obind].
  destruct (rot_ok md _ _ (vadd (vscal (1 / 2) (mvec Kpr (qvec q))) (mvec Kdr w)) Hrc2 Rrc2) as (rc3 & E7 & _). rewrite E7. cbn [obind].
  exists q. split; [reflexivity|]. split; [exact U|]. split; [exact Rq|].
  intros q0 ql Q0 Ql. destruct (k_mul_q _ _ _ _ _ _ _ _ E1 Q0 Ql) as (Q1 & _ & Q2). pose proof (k_inv_q _ _ _ _ E2 Q2) as Q3.
  destruct (k_mul_q _ _ _ _ _ _ _ _ E3 Q1 Q3) as (Q4 & _). unfold o_toQuat in E6. apply obind_Ok_inv in E6. destruct E6 as (? & _ & E6). rewrite Q4 in E6. injection E6 as <- _.
  assert (N : qn2 ql = 1) by (apply (proj1 Hl); exact Ql). rewrite qinv_unit by exact N. rewrite <- qmul_assoc, qmul_conj, qmul_1_r by exact N. reflexivity.
Qed.

Lemma predict_ok md k mI (wf wt : Z -> V3) : (0 <= mI)%Z -> forall (cs : list contact) i x, (0 <= i)%Z ->
  (forall j c, nth_error cs j = Some c -> c_set c = true -> c_sidx c = cidx mI (i + Z.of_nat j) /\
     contact_wrench md k c = Ok (wf (i + Z.of_nat j)%Z, wt (i + Z.of_nat j)%Z)) ->
  (cidx mI (i + Z.of_nat (length cs)) <= Z.of_nat (length x))%Z ->
  exists y, predict_wrenches md k cs x = Ok y /\ length y = length x /\
    (forall j, In j (list_set_contacts cs i) -> sg3 (cidx mI j + 7)%Z y = wf j /\ sg3 (cidx mI j + 10)%Z y = wt j) /\
    (forall n, (forall j, In j (list_set_contacts cs i) -> ~ (cidx mI j + 7 <= Z.of_nat n < cidx mI j + 13)%Z) -> nth_error y n = nth_error x n).
Proof.
  intros HmI. induction cs as [|c cs IH]; intros i x Hi H HL.
  - exists x. cbn. repeat split; auto; contradiction.
  - cbn [predict_wrenches list_set_contacts].
    assert (H' : forall j c', nth_error cs j = Some c' -> c_set c' = true -> c_sidx c' = cidx mI (i + 1 + Z.of_nat j) /\
      contact_wrench md k c' = Ok (wf (i + 1 + Z.of_nat j)%Z, wt (i + 1 + Z.of_nat j)%Z)).
    { intros j c' E Es. replace (i + 1 + Z.of_nat j)%Z with (i + Z.of_nat (S j))%Z by lia. apply H; assumption. }
    assert (HL' : (cidx mI (i + 1 + Z.of_nat (length cs)) <= Z.of_nat (length x))%Z).
    { cbn [length] in HL. replace (i + 1 + Z.of_nat (length cs))%Z with (i + Z.of_nat (S (length cs)))%Z by lia. exact HL. }
    destruct (c_set c) eqn:Es; [|apply (IH (i + 1)%Z); auto; lia].
    destruct (H 0%nat c eq_refl Es) as (E1 & E2). change (Z.of_nat 0) with 0%Z in *. rewrite Z.add_0_r in *. rewrite E2. cbn [obind].
    assert (P : (0 <? c_sidx c)%Z = true) by (apply Z.ltb_lt; rewrite E1; unfold cidx; lia). rewrite P, assert_true. cbn [obind].
    change sizeContactKine with 7%Z. change sizeForce with 3%Z. rewrite E1. replace (cidx mI i + 7 + 3)%Z with (cidx mI i + 10)%Z by lia.
    assert (B : (cidx mI i + 13 <= Z.of_nat (length x))%Z) by (unfold cidx in *; lia). assert (B0 : (0 <= cidx mI i)%Z) by (unfold cidx; lia).
    destruct (seg_set md (cidx mI i + 7) (l3 (wf i)) x) as [x1| | |] eqn:F1; try (rewrite seg_set_ok in F1 by (cbn [l3 length]; lia); discriminate). cbn [obind].
    pose proof (seg_set_length _ _ _ _ _ F1) as L1.
    destruct (seg_set md (cidx mI i + 10) (l3 (wt i)) x1) as [x2| | |] eqn:F2; try (rewrite seg_set_ok in F2 by (cbn [l3 length]; lia); discriminate). cbn [obind].
    pose proof (seg_set_length _ _ _ _ _ F2) as L2.
    destruct (IH (i + 1)%Z x2) as (y & Ey & Ly & W & Fr); [lia|exact H'|lia|]. exists y. split; [exact Ey|]. split; [lia|].
    assert (G : forall j, In j (list_set_contacts cs (i + 1)) -> (i + 1 <= j)%Z) by (intros j Hj; apply list_contacts_iff in Hj; tauto).
    assert (Fi : forall n, (Z.of_nat n < cidx mI i + 13)%Z -> nth_error y n = nth_error x2 n).
    { intros n Hn. apply Fr. intros j Hj. apply G in Hj. unfold cidx in *. lia. }
    split.
    + intros j [<-|Hj]; [|apply W; exact Hj].
      assert (Z1 : sg3 (cidx mI i + 7)%Z y = sg3 (cidx mI i + 7)%Z x1).
      { f_equal. apply seg_get_eq. intros n Hn. rewrite Fi by lia. rewrite (seg_set_nth _ _ _ _ _ n F2). cbn [l3 length].
        destruct (Nat.leb_spec (Z.to_nat (cidx mI i + 10)) n); [lia|]. reflexivity. }
      assert (Z2 : sg3 (cidx mI i + 10)%Z y = sg3 (cidx mI i + 10)%Z x2) by (f_equal; apply seg_get_eq; intros n Hn; apply Fi; lia).
      rewrite Z1, Z2. pose proof (seg_set_get _ _ _ _ _ F1) as G1. pose proof (seg_set_get _ _ _ _ _ F2) as G2. cbn [l3 length] in G1, G2. 
      change [vx (wf i); vy (wf i); vz (wf i)] with (l3 (wf i)) in G1. change [vx (wt i); vy (wt i); vz (wt i)] with (l3 (wt i)) in G2. rewrite G1, G2, !vec_l3. auto.
    + intros n Hn. rewrite Fr by (intros j Hj; apply Hn; now right). specialize (Hn i (or_introl eq_refl)).
      rewrite (seg_set_nth _ _ _ _ _ n F2), (seg_set_nth _ _ _ _ _ n F1). cbn [l3 length].
      destruct (Nat.leb_spec (Z.to_nat (cidx mI i + 10)) n), (Nat.ltb_spec n (Z.to_nat (cidx mI i + 10) + 3)); cbn [andb]; try lia;
      destruct (Nat.leb_spec (Z.to_nat (cidx mI i + 7)) n), (Nat.ltb_spec n (Z.to_nat (cidx mI i + 7) + 3)); cbn [andb]; try lia; reflexivity.
Qed.
End P.
