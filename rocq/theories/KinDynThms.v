(** Proofs of the statements of PropKinDyn.v. *)
From Coq Require Import Reals ZArith List Bool Lia Lra.
From Verif Require Import Base Vec3 Rot SpecRot RotProofs Orient SpecOrient OrientProofs Kine SpecKine KineProofs KineProofs2
  KinObs SpecKin KinSum SpecKinSum KinProofs KinInv KinThms SegProofs KinSumProofs KinSumProofs2 KinDyn SpecKinDyn KinDynProofs KinDynProofs2.
Import ListNotations.
Open Scope R_scope.

Lemma to_vec md p o v w a al q : oq o = Some q ->
  k_toVec md fState (mkK (Some p) o (Some v) (Some w) a al) = Ok (l3 p ++ l4 q ++ l3 v ++ l3 w, mkK (Some p) o (Some v) (Some w) a al).
Proof.
  intros Q. unfold k_toVec, fState. cbn [fP fO fV fW fA fAl kp ko kv kw ka kal oget obind].
  assert (E : o_toQuat md o = Ok (q, o)) by (destruct o as [oq0 om0]; cbn in Q; subst oq0; destruct md, om0; reflexivity).
  rewrite E. cbn [obind with_ori kp kv kw ka kal]. rewrite !app_nil_r. reflexivity.
Qed.
Lemma to_vec_pose md p o v w a al q : oq o = Some q ->
  k_toVec md fPose (mkK (Some p) o v w a al) = Ok (l3 p ++ l4 q, mkK (Some p) o v w a al).
Proof.
  intros Q. unfold k_toVec, fPose. cbn [fP fO fV fW fA fAl kp ko kv kw ka kal oget obind].
  assert (E : o_toQuat md o = Ok (q, o)) by (destruct o as [oq0 om0]; cbn in Q; subst oq0; destruct md, om0; reflexivity).
  rewrite E. cbn [obind with_ori kp kv kw ka kal]. rewrite !app_nil_r. reflexivity.
Qed.

Set Default Proof Using "Type".
Section P.
Context {C : Type}.
Notation obs := (obs R Kin M3 C).
Notation contact := (contact R Kin M3 C).
Notation imu := (imu R Kin C).
Implicit Types s : obs.


(** ** stateDynamics *)
Lemma state_dynamics_ok md maxC maxI s x a noise m c cd cdd sg sgd In' Id aF aT dt : inv maxC maxI s -> (md = Debug -> (0 < maxI)%nat) -> length x = nx maxC maxI -> contacts_at s a ->
  qn2 (qat md s x) = 1 ->
  let b := bodyv m c cd cdd sg sgd In' Id aF aT dt in
  let r := qrot (qat md s x) in let wl := mvec (mtr r) (vat md s x CAngVel) in
  let F := total_force md b s a x in let T := total_torque md b s a x in let al := al_loc m c cd cdd sg sgd In' Id wl F T in
  let A := vsub (mvec r (la_loc m c cd cdd wl F al)) gravity in let L := mvec r al in
  let p := vat md s x CPos in let v := vat md s x CLinVel in let w := vat md s x CAngVel in
  let q' := qmul (rv_quat (vadd (vscal dt w) (vscal (dt * dt / 2) L))) (qat md s x) in
  exists y, ko_stateDynamics md b noise s x = Ok y /\ length y = length x /\
    vat md s y CPos = vadd p (vadd (vscal dt v) (vscal (dt * dt / 2) A)) /\ qat md s y = q' /\ qn2 q' = 1 /\
    vat md s y CLinVel = vadd v (vscal dt A) /\ vat md s y CAngVel = vadd w (vscal dt L) /\
    (forall j, In j (ko_getListOfContacts s) -> exists ct q, nth_error (o_contacts s) (Z.to_nat j) = Some ct /\ qn2 q = 1 /\ qrot q = qrot q' /\
       (forall ql, oq (ko (c_kine ct)) = Some ql -> q = q') /\
       vat md s y (CCForce j) = wforce (qrot q') (fr a j) (c_stiff ct) (vat md s y CPos) (vat md s y CLinVel) /\
       vat md s y (CCTorque j) = wtorque (qrot q') (fr a j) (c_stiff ct) q (vat md s y CAngVel)) /\
    (forall n, (13 <= n)%nat -> (forall j, In j (ko_getListOfContacts s) -> ~ (cidx (Z.of_nat maxI) j + 7 <= Z.of_nat n < cidx (Z.of_nat maxI) j + 13)%Z) -> nth_error y n = nth_error x n).
Proof.
  intros Hi Hm Lx Ha Hq b r wl F T al A L p v w q'. unfold ko_stateDynamics.
  destruct (state_kine_ok md maxC maxI s x a m c cd cdd sg sgd In' Id aF aT dt Hi Hm Lx Ha Hq) as (o & E & Ho & Ro & Qo). fold b in E. rewrite E. cbn [obind]. clear E.
  fold p v w r wl in Ro |- *. fold F T. fold al. fold A L.
  set (k := mkK _ o _ _ _ _). destruct (k_integrate_ok md dt k) as (k' & E1 & Hk' & P' & V' & W' & _ & _ & _ & O'); [exact Ho|].
  change (b_dt b) with dt. rewrite E1. cbn [obind]. specialize (O' r Ro).
  pose proof (k_integrate_q _ _ _ _ _ _ _ E1 Qo eq_refl eq_refl) as Q'. fold w L q' in Q'.
  destruct k' as [kp' ko' kv' kw' ka' kal']. cbn [kp ko kv kw ka kal k g_p g_v] in *. subst kp' kv' kw'.
  rewrite (to_vec md _ _ _ _ _ _ q' Q'). cbn [obind].
  set (p' := vadd p _). set (v' := vadd v _). set (w' := vadd w _). set (k' := mkK _ ko' _ _ _ _).
  assert (U : qn2 q' = 1) by (apply (proj1 Hk'); exact Q').
  assert (R' : rot ko' = Some (qrot q')).
  { unfold rot. destruct (om ko') as [m'|] eqn:Em; [|rewrite Q'; reflexivity]. f_equal. symmetry. apply (proj2 (proj2 Hk')); assumption. }
  pose proof (nx_eq maxC maxI) as NE. unfold cidx in NE.
  set (kvec := l3 p' ++ l4 q' ++ l3 v' ++ l3 w').
  destruct (seg_set md kineIndex kvec x) as [x1| | |] eqn:F1; try (rewrite seg_set_ok in F1 by (unfold kineIndex; cbn [kvec l3 l4 app length]; lia); discriminate). cbn [obind].
  pose proof (seg_set_length _ _ _ _ _ F1) as L1.
  set (wf := fun z => match nth_error (o_contacts s) (Z.to_nat z) with Some ct => match contact_wrench md k' ct with Ok (f, _) => f | _ => v0 end | None => v0 end).
  set (wt := fun z => match nth_error (o_contacts s) (Z.to_nat z) with Some ct => match contact_wrench md k' ct with Ok (_, t) => t | _ => v0 end | None => v0 end).
  assert (K : forall j ct, nth_error (o_contacts s) j = Some ct -> c_set ct = true -> exists q, contact_wrench md k' ct = Ok (wforce (qrot q') (fr a (Z.of_nat j)) (c_stiff ct) p' v', wtorque (qrot q') (fr a (Z.of_nat j)) (c_stiff ct) q w') /\
     qn2 q = 1 /\ qrot q = qrot q' /\ (forall ql, oq (ko (c_kine ct)) = Some ql -> q = q')).
  { intros j ct Ej Es. destruct (Ha (Z.of_nat j)) as (c' & Ec & B1 & B2 & B3 & B4 & B5).
    { apply list_iff. split; [lia|]. exists ct. rewrite Nat2Z.id. auto. }
    rewrite Nat2Z.id, Ej in Ec. injection Ec as <-.
    destruct (contact_wrench_ok md k' ct (qrot q') p' v' w' _ _ _ _ Hk' R' eq_refl eq_refl eq_refl B1 B2 B3 B4 B5) as (q & E & U' & Rq & Qq).
    exists q. repeat split; auto. intros ql Hql. apply (Qq q' ql); auto. }
  destruct (predict_ok md k' (Z.of_nat maxI) wf wt (Nat2Z.is_nonneg _) (o_contacts s) 0%Z x1) as (y & Ey & Ly & W & Fr).
  { lia. }
  { intros j ct Ej Es. cbn [Z.add]. split; [apply (v_ci _ _ _ Hi _ _ Ej Es)|]. unfold wf, wt. rewrite Nat2Z.id, Ej. destruct (K _ _ Ej Es) as (q & E & _). rewrite E. reflexivity. }
  { rewrite (v_lC _ _ _ Hi). unfold cidx. lia. }
  rewrite Ey. cbn [obind]. exists y. split; [reflexivity|]. split; [lia|].
  assert (G : forall n, (n < 13)%nat -> nth_error y n = nth_error kvec n).
  { intros n Hn. rewrite Fr.
    - rewrite (seg_set_nth _ _ _ _ _ n F1). change (Z.to_nat kineIndex) with 0%nat. change (length kvec) with 13%nat. cbn [Nat.leb andb Nat.add].
      destruct (Nat.ltb_spec n 13); [|lia]. now rewrite Nat.sub_0_r.
    - intros j Hj. apply list_contacts_iff in Hj. unfold cidx. lia. }
  assert (S : forall i n, (i + n <= 13)%nat -> seg_get i n y = seg_get i n kvec) by (intros i n Hin; apply seg_get_eq; intros; apply G; lia).
  assert (Vs : vat md s y CPos = p' /\ qat md s y = q' /\ vat md s y CLinVel = v' /\ vat md s y CAngVel = w').
  { unfold vat, qat. rewrite !(part_eq md maxC maxI s _ y Hi Hm) by exact I. cbn [cval comp_size].
    change (Z.to_nat 0) with 0%nat. change (Z.to_nat 3) with 3%nat. change (Z.to_nat 7) with 7%nat. change (Z.to_nat 10) with 10%nat. change (Z.to_nat 4) with 4%nat.
    rewrite !S by lia. unfold kvec. clearbody p' q' v' w'. destruct p', q', v', w'. repeat split. }
  destruct Vs as (-> & -> & -> & ->). do 5 (split; [auto|]). split.
  - intros j Hj. pose proof Hj as Hj2. apply list_iff in Hj2. destruct Hj2 as (H0 & ct & Ec & Es). destruct (K _ _ Ec Es) as (q & E & U' & Rq & Qq). rewrite Z2Nat.id in E by exact H0.
    exists ct, q. split; [exact Ec|]. split; [exact U'|]. split; [exact Rq|]. split; [exact Qq|].
    destruct (W j Hj) as [W1 W2]. unfold wf in W1. unfold wt in W2. rewrite Ec, E in W1, W2.
    unfold vat. rewrite !(part_eq md maxC maxI s _ y Hi Hm) by exact Hj. split; [exact W1|exact W2].
  - intros n Hn Hout. rewrite Fr by (intros j Hj; apply Hout; exact Hj). rewrite (seg_set_nth _ _ _ _ _ n F1). change (Z.to_nat kineIndex) with 0%nat. change (length kvec) with 13%nat.
    cbn [Nat.leb andb Nat.add]. destruct (Nat.ltb_spec n 13); [lia|]. reflexivity.
Qed.
End P.
