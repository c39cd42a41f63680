(** Lemmas about the dynamics of the kinetics observer. *)
From Coq Require Import Reals ZArith List Bool Lia Lra.
From Verif Require Import Base Vec3 Rot SpecRot RotProofs Orient SpecOrient OrientProofs Kine SpecKine KineProofs KineProofs2
  KinObs SpecKin KinSum SpecKinSum KinProofs KinInv KinThms SegProofs KinSumProofs KinSumProofs2 KinDyn SpecKinDyn.
Import ListNotations.
Open Scope R_scope.

(** ** Algebra *)
Lemma minv_mul m : mdet m <> 0 -> mmul m (minv m) = m1.
Proof.
  intros H. unfold minv. assert (E : mmul m (mscal (/ mdet m) (madj m)) = mscal (/ mdet m) (mmul m (madj m))) by (generalize (/ mdet m); clear; intros r; c3).
  rewrite E. assert (E2 : mmul m (madj m) = mscal (mdet m) m1) by (clear; c3). rewrite E2.
  assert (E3 : forall r, mscal r (mscal (mdet m) m1) = mscal (r * mdet m) m1) by (generalize (mdet m); clear; intros; c3).
  rewrite E3, Rinv_l by exact H. clear. c3.
Qed.
Lemma vsum_cons v l : vsum (v :: l) = vadd v (vsum l). Proof. reflexivity. Qed.

(** ** The accelerations, in the frame of the robot *)
Definition corio (w c cd : V3) : V3 := vscal 2 (vcross w (vadd cd (vcross w c))).
Definition al_loc (m : R) (c cd cdd sg sgd : V3) (I Id : M3) (w F T : V3) : V3 :=
  mvec (minv (madd I (mscal m (skew2 c))))
     (vsub (vsub (vsub (vsub T (mvec Id w)) sgd) (vcross w (vadd (mvec I w) sg))) (vcross c (vsub F (vscal m (vadd cdd (corio w c cd)))))).
Definition la_loc (m : R) (c cd cdd : V3) (w F al : V3) : V3 := vadd (vsub (vsub (vscal (/ m) F) cdd) (corio w c cd)) (vcross c al).

Lemma accelerations_ok md m c cd cdd sg sgd I Id aF aT dt k r w F T : coh (ko k) -> rot (ko k) = Some r -> kw k = Some w ->
  let wl := mvec (mtr r) w in let al := al_loc m c cd cdd sg sgd I Id wl F T in
  exists o, accelerations md (mkBody m (Some c) (Some cd) (Some cdd) (Some sg) (Some sgd) (Some I) (Some Id) aF aT dt) k F T =
    Ok (vsub (mvec r (la_loc m c cd cdd wl F al)) gravity, mvec r al, o) /\ coh o /\ rot o = Some r /\ (forall q, oq (ko k) = Some q -> oq o = Some q).
Proof.
  intros Hc Hr Hw. cbv zeta. unfold accelerations. pose proof (coh_so3 _ _ Hc Hr) as S.
  assert (Q : forall o m' o', o_toMat md o = Ok (m', o') -> forall q, oq o = Some q -> oq o' = Some q).
  { intros [q' m'] m'' o' E q Hq. cbn in Hq. subst q'. unfold o_toMat in E. destruct m'; cbn in E; destruct md; cbn in E; injection E as <- <-; reflexivity. }
  destruct (toMat_ok md _ _ Hc Hr) as (o1 & E1 & A1 & B1). rewrite E1. cbn [obind]. rewrite Hw. cbn [oget obind b_com b_comd b_comdd b_sigma b_sigmad b_I b_Id b_mass].
  unfold o_rot. destruct (toMat_ok md _ _ A1 B1) as (o2 & E2 & A2 & B2). rewrite E2. cbn [obind].
  destruct (toMat_ok md _ _ A2 B2) as (o3 & E3 & A3 & B3). rewrite E3. cbn [obind].
  exists o3. split; [|split; [exact A3|split; [exact B3|]]].
  - rewrite so3_tr_vec by exact S. reflexivity.
  - intros q Hq. eauto.
Qed.
(** The balance of moments. *)
Lemma euler_loc m c cd cdd sg sgd I Id w F T : m <> 0 -> mdet (madd I (mscal m (skew2 c))) <> 0 ->
  let al := al_loc m c cd cdd sg sgd I Id w F T in
  vadd (vadd (vadd (vadd (mvec Id w) (mvec I al)) sgd) (vcross w (vadd (mvec I w) sg))) (vcross c (vscal m (la_loc m c cd cdd w F al))) = T.
Proof.
  intros Hm Hd al.
  assert (E : mvec (madd I (mscal m (skew2 c))) al = vsub (vsub (vsub (vsub T (mvec Id w)) sgd) (vcross w (vadd (mvec I w) sg))) (vcross c (vsub F (vscal m (vadd cdd (corio w c cd)))))).
  { unfold al, al_loc. rewrite <- mvec_mul, minv_mul by exact Hd. apply mvec_1. }
  assert (E2 : mvec (madd I (mscal m (skew2 c))) al = vadd (mvec I al) (vscal m (vcross c (vcross c al)))) by (clear; generalize al; intros; c3).
  rewrite E2 in E.
  assert (E3 : vscal m (la_loc m c cd cdd w F al) = vadd (vsub F (vscal m (vadd cdd (corio w c cd)))) (vscal m (vcross c al))).
  { unfold la_loc. assert (X : forall u v k, vscal m (vadd (vsub (vsub (vscal (/ m) F) u) v) k) = vadd (vsub F (vscal m (vadd u v))) (vscal m k)).
    { clear - Hm. intros. d3; u3. f_equal; field; exact Hm. } apply X. }
  rewrite E3, (vcross_add_r c), (vcross_scal_r m c).
  revert E. generalize (vcross c (vsub F (vscal m (vadd cdd (corio w c cd))))) (vscal m (vcross c (vcross c al))) (mvec I al) (mvec Id w) (vcross w (vadd (mvec I w) sg)).
  clear. intros a b d e f E. d3; u3. injection E. intros. f_equal; lra.
Qed.

Set Default Proof Using "Type".
Section P.
Context {C : Type}.
Notation obs := (obs R Kin M3 C).
Notation contact := (contact R Kin M3 C).
Notation imu := (imu R Kin C).
Implicit Types s : obs.
Notation sg3 i x := (vec_of (seg_get (Z.to_nat i) 3 x)).

Lemma part_eq md maxC maxI s c x : inv maxC maxI s -> (md = Debug -> (0 < maxI)%nat) -> comp_exists s c ->
  part md false s c x = seg_get (Z.to_nat (cval false (Z.of_nat maxI) c)) (Z.to_nat (comp_size false c)) x.
Proof. intros Hi Hm He. unfold part. rewrite (comp_start_ok md false maxC maxI s c Hi Hm He). reflexivity. Qed.

Lemma add_contacts_ok md mI x a : (0 <= mI)%Z -> forall (cs : list contact) i f t, (0 <= i)%Z ->
  (forall j c, nth_error cs j = Some c -> c_set c = true -> c_sidx c = cidx mI (i + Z.of_nat j) /\ coh (ko (c_kine c)) /\
     rot (ko (c_kine c)) = Some (fr a (i + Z.of_nat j)) /\ kp (c_kine c) = Some (fp a (i + Z.of_nat j))%Z) ->
  (cidx mI (i + Z.of_nat (length cs)) <= Z.of_nat (length x))%Z ->
  add_contacts md x cs f t = Ok
    (vadd f (vsum (map (fun j => mvec (fr a j) (sg3 (cidx mI j + 7)%Z x)) (list_set_contacts cs i))),
     vadd t (vsum (map (fun j => vadd (mvec (fr a j) (sg3 (cidx mI j + 10)%Z x)) (vcross (fp a j) (mvec (fr a j) (sg3 (cidx mI j + 7)%Z x)))) (list_set_contacts cs i)))).
Proof.
  intros HmI. induction cs as [|c cs IH]; intros i f t Hi H HL.
  - cbn. now rewrite !vadd_0_r.
  - cbn [add_contacts list_set_contacts].
    assert (H' : forall j c', nth_error cs j = Some c' -> c_set c' = true -> c_sidx c' = cidx mI (i + 1 + Z.of_nat j) /\ coh (ko (c_kine c')) /\
     rot (ko (c_kine c')) = Some (fr a (i + 1 + Z.of_nat j)) /\ kp (c_kine c') = Some (fp a (i + 1 + Z.of_nat j)%Z)).
    { intros j c' E Es. replace (i + 1 + Z.of_nat j)%Z with (i + Z.of_nat (S j))%Z by lia. apply H; assumption. }
    assert (HL' : (cidx mI (i + 1 + Z.of_nat (length cs)) <= Z.of_nat (length x))%Z).
    { cbn [length] in HL. replace (i + 1 + Z.of_nat (length cs))%Z with (i + Z.of_nat (S (length cs)))%Z by lia. exact HL. }
    destruct (c_set c) eqn:Es.
    + destruct (H 0%nat c eq_refl Es) as (E1 & E2 & E3 & E4). change (Z.of_nat 0) with 0%Z in *. rewrite Z.add_0_r in *. unfold cidx in HL, HL'.
      assert (P : (0 <? c_sidx c)%Z = true) by (apply Z.ltb_lt; rewrite E1; unfold cidx; lia). rewrite P, assert_true. cbn [obind].
      change sizeContactKine with 7%Z. change sizeForce with 3%Z. rewrite E1.
      rewrite rd3_ok by (unfold cidx; lia). cbn [obind]. destruct (rot_ok md _ _ (sg3 (cidx mI i + 7)%Z x) E2 E3) as (o & Eo & Ho & Ro). rewrite Eo. cbn [obind].
      replace (cidx mI i + 7 + 3)%Z with (cidx mI i + 10)%Z by lia.
      rewrite rd3_ok by (unfold cidx; lia). cbn [obind]. destruct (rot_ok md _ _ (sg3 (cidx mI i + 10)%Z x) Ho Ro) as (o2 & Eo2 & _). rewrite Eo2. cbn [obind].
      rewrite E4. cbn [oget obind map]. rewrite (IH (i + 1)%Z) by (auto; lia). rewrite !vsum_cons, !vadd_assoc. reflexivity.
    + apply (IH (i + 1)%Z); auto; lia.
Qed.
Lemma add_wrench_ok md maxC maxI s x a f t : inv maxC maxI s -> (md = Debug -> (0 < maxI)%nat) -> length x = nx maxC maxI -> contacts_at s a ->
  add_wrench md s x f t = Ok
    (vadd f (vadd (vat md s x CUForce) (vsum (map (fun j => mvec (fr a j) (vat md s x (CCForce j))) (ko_getListOfContacts s)))),
     vadd t (vadd (vat md s x CUTorque) (vsum (map (fun j =>
       vadd (mvec (fr a j) (vat md s x (CCTorque j))) (vcross (fp a j) (mvec (fr a j) (vat md s x (CCForce j))))) (ko_getListOfContacts s))))).
Proof.
  intros Hi Hm Lx Ha. unfold add_wrench.
  pose proof (nx_eq maxC maxI) as NE. unfold cidx in NE.
  pose proof (comp_start_ok md false maxC maxI s CUForce Hi Hm I) as E1. cbn [comp_start cval] in E1. unfold unmodeledForceIndex in E1. rewrite E1. cbn [obind].
  pose proof (comp_start_ok md false maxC maxI s CUTorque Hi Hm I) as E2. cbn [comp_start cval] in E2. 
  rewrite rd3_ok by lia. cbn [obind]. rewrite E2. cbn [obind]. rewrite rd3_ok by lia. cbn [obind].
  rewrite (add_contacts_ok md (Z.of_nat maxI) x a (Nat2Z.is_nonneg _) _ 0%Z); [|lia| |].
  - unfold vat. rewrite !(part_eq md maxC maxI s _ x Hi Hm) by exact I. cbn [cval comp_size]. change (Z.to_nat 3) with 3%nat. rewrite !vadd_assoc.
    unfold ko_getListOfContacts.
    assert (X : forall j, In j (list_set_contacts (o_contacts s) 0) -> part md false s (CCForce j) x = seg_get (Z.to_nat (cidx (Z.of_nat maxI) j + 7)) 3 x /\
       part md false s (CCTorque j) x = seg_get (Z.to_nat (cidx (Z.of_nat maxI) j + 10)) 3 x).
    { intros j Hj. split; rewrite (part_eq md maxC maxI s _ x Hi Hm) by exact Hj; reflexivity. }
    f_equal. f_equal; f_equal; f_equal; apply map_ext_in; intros j Hj; destruct (X j Hj) as [X1 X2]; rewrite ?X1, ?X2; reflexivity.
  - intros j c Ej Es. cbn [Z.add]. destruct (v_ci _ _ _ Hi _ _ Ej Es) as [A _]. split; [exact A|].
    destruct (Ha (Z.of_nat j)) as (c' & Ec & B1 & B2 & B3 & _).
    { apply list_iff. split; [lia|]. exists c. rewrite Nat2Z.id. auto. }
    rewrite Nat2Z.id, Ej in Ec. injection Ec as <-. auto.
  - rewrite (v_lC _ _ _ Hi). unfold cidx. lia.
Qed.

(** ** The kinematics of the state with the accelerations *)
Definition bodyv m c cd cdd sg sgd I Id aF aT dt := mkBody m (Some c) (Some cd) (Some cdd) (Some sg) (Some sgd) (Some I) (Some Id) aF aT dt.
Lemma from_vec md x : (13 <= length x)%nat -> exists v, seg_rd md kineIndex (Z.to_nat sizeStateKine) x = Ok v /\
  k_fromVec md v fState k_empty = Ok (mkK (Some (sg3 0%Z x)) (o_quat (quat_of (seg_get 3 4 x))) (Some (sg3 7%Z x)) (Some (sg3 10%Z x)) None None).
Proof.
  intros H. do 13 (destruct x as [|? x]; [cbn in H; lia|]). eexists. split; [apply seg_rd_ok; [unfold kineIndex; lia|]|].
  - change (Z.to_nat sizeStateKine) with 13%nat. unfold kineIndex. cbn [length]. lia.
  - reflexivity.
Qed.
Lemma state_kine_ok md maxC maxI s x a m c cd cdd sg sgd In Id aF aT dt : inv maxC maxI s -> (md = Debug -> (0 < maxI)%nat) -> length x = nx maxC maxI -> contacts_at s a ->
  qn2 (qat md s x) = 1 ->
  let b := bodyv m c cd cdd sg sgd In Id aF aT dt in
  let r := qrot (qat md s x) in let wl := mvec (mtr r) (vat md s x CAngVel) in
  let F := total_force md b s a x in let T := total_torque md b s a x in let al := al_loc m c cd cdd sg sgd In Id wl F T in
  exists o, state_kine md b s x = Ok (mkK (Some (vat md s x CPos)) o (Some (vat md s x CLinVel)) (Some (vat md s x CAngVel))
     (Some (vsub (mvec r (la_loc m c cd cdd wl F al)) gravity)) (Some (mvec r al))) /\ coh o /\ rot o = Some r /\ oq o = Some (qat md s x).
Proof.
  intros Hi Hm Lx Ha Hq b r wl F T al. unfold state_kine. rewrite (add_wrench_ok md maxC maxI s x a _ _ Hi Hm Lx Ha). cbn [obind].
  pose proof (nx_eq maxC maxI) as NE. unfold cidx in NE.
  destruct (from_vec md x) as (v & E1 & E2); [lia|]. rewrite E1. cbn [obind]. rewrite E2. cbn [obind].
  assert (Q : quat_of (seg_get 3 4 x) = qat md s x) by (unfold qat; rewrite (part_eq md maxC maxI s COri x Hi Hm I); reflexivity). rewrite Q.
  assert (V : sg3 0%Z x = vat md s x CPos /\ sg3 7%Z x = vat md s x CLinVel /\ sg3 10%Z x = vat md s x CAngVel).
  { unfold vat. rewrite !(part_eq md maxC maxI s _ x Hi Hm) by exact I. repeat split. } destruct V as (-> & -> & ->).
  fold (total_force md b s a x) (total_torque md b s a x). fold F T.
  set (k := mkK _ (o_quat (qat md s x)) _ _ _ _).
  destruct (accelerations_ok md m c cd cdd sg sgd In Id aF aT dt k r (vat md s x CAngVel) F T) as (o & Eo & A & B & D); [now apply coh_quat|reflexivity|reflexivity|].
  unfold b, bodyv. rewrite Eo. cbn [obind]. exists o. split; [reflexivity|]. split; [exact A|]. split; [exact B|]. apply D. reflexivity.
Qed.
End P.
