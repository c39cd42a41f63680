(** The kinetics observer of a robot that stands still: lemmas for C163. *)
From Coq Require Import Reals ZArith List Bool Lia Lra.
From Verif Require Import Base Vec3 Rot SpecRot RotProofs RotProofs3 Orient SpecOrient OrientProofs Kine SpecKine KineProofs KineProofs2
  KinObs SpecKin KinSum SpecKinSum KinProofs KinInv KinThms KinMeas SegProofs KinSumProofs KinSumProofs2 KinDyn SpecKinDyn KinDynProofs KinDynProofs2 KinDynThms
  ImuProofs.
Import ListNotations.
Open Scope R_scope.

Lemma al_rest m c I Id F T : al_loc m c v0 v0 v0 v0 I Id v0 F T = mvec (minv (madd I (mscal m (skew2 c)))) (vsub T (vcross c F)).
Proof. unfold al_loc, corio. f_equal. d3; u3; f_equal; ring. Qed.
Lemma la_rest m c F al : la_loc m c v0 v0 v0 F al = vadd (vscal (/ m) F) (vcross c al).
Proof. unfold la_loc, corio. d3; u3; f_equal; ring. Qed.
Lemma vscal_inj k v : k <> 0 -> vscal k v = v0 -> v = v0.
Proof. intros H E. d3; u3. injection E. intros. f_equal; apply (Rmult_eq_reg_l k); auto; lra. Qed.
Lemma vsub_eq a b : vsub a b = v0 <-> a = b.
Proof. split; [intros E|intros ->]; d3; u3; [injection E; intros; f_equal; lra|f_equal; ring]. Qed.
Lemma so3_inj r v : so3 r -> mvec r v = v0 -> v = v0.
Proof. intros S E. rewrite <- (so3_tr_vec r v S), E. apply mvec_0. Qed.

(** The accelerations of a robot at rest vanish exactly in equilibrium. *)
Lemma rest_accelerations m c I Id r F T : so3 r -> m <> 0 -> mdet (madd I (mscal m (skew2 c))) <> 0 ->
  let al := al_loc m c v0 v0 v0 v0 I Id v0 F T in
  (vsub (mvec r (la_loc m c v0 v0 v0 F al)) gravity = v0 /\ mvec r al = v0) <-> (mvec r F = vscal m gravity /\ T = vcross c F).
Proof.
  intros S Hm Hd al. unfold al. rewrite al_rest, la_rest. rewrite vsub_eq. split.
  - intros (A & L). apply so3_inj in L; [|exact S]. rewrite L in A.
    assert (T0 : vsub T (vcross c F) = v0).
    { rewrite <- (mvec_1 (vsub T (vcross c F))), <- (minv_mul _ Hd), mvec_mul, L. apply mvec_0. }
    apply (proj1 (vsub_eq _ _)) in T0. split; [|exact T0]. rewrite <- A. clear - Hm. d3; u3; f_equal; field; exact Hm.
  - intros (HF & ->). assert (Z : vsub (vcross c F) (vcross c F) = v0) by now apply vsub_eq. rewrite Z, !mvec_0. split; [|reflexivity].
    assert (Z2 : vadd (vscal (/ m) F) (vcross c v0) = vscal (/ m) F) by (clear; c3). rewrite Z2, mvec_scal, HF, vscal_scal, Rinv_l, vscal_1 by exact Hm. reflexivity.
Qed.

Lemma vec_seg (x y : list R) i : (i + 3 <= length x)%nat -> (i + 3 <= length y)%nat -> vec_of (seg_get i 3 x) = vec_of (seg_get i 3 y) -> seg_get i 3 x = seg_get i 3 y.
Proof.
  intros Lx Ly. assert (A := seg_get_length x i 3 Lx). assert (B := seg_get_length y i 3 Ly). revert A B.
  destruct (seg_get i 3 x) as [|a [|b [|c [|]]]], (seg_get i 3 y) as [|a' [|b' [|c' [|]]]]; try discriminate.
  intros _ _ E. unfold vec_of in E. cbn in E. congruence.
Qed.
Lemma quat_seg (x y : list R) i : (i + 4 <= length x)%nat -> (i + 4 <= length y)%nat -> quat_of (seg_get i 4 x) = quat_of (seg_get i 4 y) -> seg_get i 4 x = seg_get i 4 y.
Proof.
  intros Lx Ly. assert (A := seg_get_length x i 4 Lx). assert (B := seg_get_length y i 4 Ly). revert A B.
  destruct (seg_get i 4 x) as [|a [|b [|c [|d [|]]]]], (seg_get i 4 y) as [|a' [|b' [|c' [|d' [|]]]]]; try discriminate.
  intros _ _ E. unfold quat_of in E. cbn in E. congruence.
Qed.

Section P.
Context {C : Type}.
Notation obs := (obs R Kin M3 C).
Implicit Types s : obs.

(** Two states with the same kinematics, the same wrenches of the present contacts, and the same entries elsewhere are equal. *)
Lemma states_eq md maxC maxI s (x y : list R) : inv maxC maxI s -> (md = Debug -> (0 < maxI)%nat) -> length x = nx maxC maxI -> length y = length x ->
  vat md s y CPos = vat md s x CPos -> qat md s y = qat md s x -> vat md s y CLinVel = vat md s x CLinVel -> vat md s y CAngVel = vat md s x CAngVel ->
  (forall j, In j (ko_getListOfContacts s) -> vat md s y (CCForce j) = vat md s x (CCForce j) /\ vat md s y (CCTorque j) = vat md s x (CCTorque j)) ->
  (forall n, (13 <= n)%nat -> (forall j, In j (ko_getListOfContacts s) -> ~ (cidx (Z.of_nat maxI) j + 7 <= Z.of_nat n < cidx (Z.of_nat maxI) j + 13)%Z) -> nth_error y n = nth_error x n) ->
  y = x.
Proof.
  intros Hi Hm Lx Ly P Q V W K Fr. pose proof (nx_eq maxC maxI) as NE. unfold cidx in NE.
  assert (Lj : forall j, In j (ko_getListOfContacts s) -> (0 <= j < Z.of_nat maxC)%Z) by (intros j Hj; eapply list_bound; eassumption).
  unfold vat, qat in *.
  rewrite !(part_eq md maxC maxI s CPos _ Hi Hm I) in P. rewrite !(part_eq md maxC maxI s COri _ Hi Hm I) in Q. rewrite !(part_eq md maxC maxI s CLinVel _ Hi Hm I) in V. rewrite !(part_eq md maxC maxI s CAngVel _ Hi Hm I) in W. cbn [cval comp_size] in P, Q, V, W.
  change (Z.to_nat sizePos) with 3%nat in *. change (Z.to_nat sizeOri) with 4%nat in *.
  change (Z.to_nat 0) with 0%nat in P. change (Z.to_nat 3) with 3%nat in Q. change (Z.to_nat 7) with 7%nat in V. change (Z.to_nat 10) with 10%nat in W.
  assert (L13 : (19 <= length x)%nat) by lia.
  apply vec_seg in P; [|lia|lia]. apply quat_seg in Q; [|lia|lia]. apply vec_seg in V; [|lia|lia]. apply vec_seg in W; [|lia|lia].
  apply nth_error_ext. intros n.
  destruct (Nat.lt_ge_cases n 3); [apply (seg_get_nth_eq _ _ _ _ _ P); lia|].
  destruct (Nat.lt_ge_cases n 7); [apply (seg_get_nth_eq _ _ _ _ _ Q); lia|].
  destruct (Nat.lt_ge_cases n 10); [apply (seg_get_nth_eq _ _ _ _ _ V); lia|].
  destruct (Nat.lt_ge_cases n 13); [apply (seg_get_nth_eq _ _ _ _ _ W); lia|].
  destruct (Exists_dec (fun j => (cidx (Z.of_nat maxI) j + 7 <= Z.of_nat n < cidx (Z.of_nat maxI) j + 13)%Z) (ko_getListOfContacts s)) as [Ex|Nx].
  { intros j. destruct (Z_le_dec (cidx (Z.of_nat maxI) j + 7) (Z.of_nat n)), (Z_lt_dec (Z.of_nat n) (cidx (Z.of_nat maxI) j + 13)); [left; lia|right; lia..]. }
  - apply Exists_exists in Ex. destruct Ex as (j & Hj & Hn). destruct (K j Hj) as (F & T). specialize (Lj j Hj).
    rewrite !(part_eq md maxC maxI s (CCForce j) _ Hi Hm Hj) in F. rewrite !(part_eq md maxC maxI s (CCTorque j) _ Hi Hm Hj) in T. cbn [cval comp_size] in F, T.
    change (Z.to_nat sizeForce) with 3%nat in *. change (Z.to_nat sizeTorque) with 3%nat in *. unfold cidx in *.
    apply vec_seg in F; [|lia|lia]. apply vec_seg in T; [|lia|lia].
    destruct (Z_lt_dec (Z.of_nat n) (19 + 3 * Z.of_nat maxI + 13 * j + 10)).
    + apply (seg_get_nth_eq _ _ _ _ _ F). lia.
    + apply (seg_get_nth_eq _ _ _ _ _ T). lia.
  - apply Fr; [lia|]. intros j Hj Hn. apply Nx, Exists_exists. eauto.
Qed.
End P.
