(** Proofs about finite differences, reconstructed trajectories and rotation matrices. *)
From Coq Require Import Reals Lra Psatz List Bool ZArith Lia.
From Verif Require Import Base Vec3 Rot SpecRot RotProofs RotProofs2 RotProofs3 Orient SpecOrient OrientProofs Kine SpecKine KineProofs KineProofs2 KinInput KinInputThms Approx Defs Traj.
Import ListNotations.
Open Scope R_scope.

Lemma fd_quat_rv a b dt : fd_quat a b dt = vscal (/ dt) (quat_rv (qmul b (qconj a))).
Proof. unfold fd_quat, quat_rv. rewrite vscal_scal. f_equal. unfold Rdiv. ring. Qed.
Lemma not_tiny v : epsA < vnorm v -> ~ tiny v.
Proof. intros H T. unfold tiny in T. rewrite <- vnorm_sq in T. pose proof epsA_pos. nra. Qed.
Lemma tiny_norm v : vnorm v <= epsA -> tiny v.
Proof. intros H. unfold tiny. rewrite <- vnorm_sq. pose proof (vnorm_pos v). nra. Qed.
Lemma qmul_cancel a b : qn2 a = 1 -> qmul (qmul b a) (qconj a) = b.
Proof. intros H. now rewrite <- qmul_assoc, qmul_conj, qmul_1_r. Qed.
Lemma vscal_inv dt v : dt <> 0 -> vscal dt (vscal (/ dt) v) = v.
Proof. intros H. rewrite vscal_scal, Rinv_r by auto. apply vscal_1. Qed.
Lemma vscal_inv' dt v : dt <> 0 -> vscal (/ dt) (vscal dt v) = v.
Proof. intros H. rewrite vscal_scal, Rinv_l by auto. apply vscal_1. Qed.

(** Differentiating an integrated rotation. *)
Lemma fd_int q w dt : qn2 q = 1 -> dt <> 0 -> epsA < vnorm (vscal dt w) < PI -> fd_quat q (int_q dt q w) dt = w.
Proof.
  intros U D [A B]. rewrite fd_quat_rv. unfold int_q. rewrite qmul_cancel by auto.
  rewrite quat_rv_exp by auto using not_tiny. now apply vscal_inv'.
Qed.
Lemma fd_int_small q w dt : qn2 q = 1 -> vnorm (vscal dt w) <= epsA -> fd_quat q (int_q dt q w) dt = v0.
Proof.
  intros U A. rewrite fd_quat_rv. unfold int_q. rewrite qmul_cancel by auto.
  rewrite quat_rv_small by now apply tiny_norm. apply vscal_v0.
Qed.
(** Integrating a differentiated rotation. *)
Lemma int_fd a b dt : qn2 a = 1 -> qn2 b = 1 -> dt <> 0 -> let w := fd_quat a b dt in
  vnorm (vscal dt w) <= PI /\ (w = v0 \/ epsA < vnorm (vscal dt w) -> qrot (int_q dt a w) = qrot b).
Proof.
  intros Ua Ub D w. assert (E : vscal dt w = quat_rv (qmul b (qconj a))) by (unfold w; rewrite fd_quat_rv; now apply vscal_inv).
  assert (U : qn2 (qmul b (qconj a)) = 1) by (rewrite qn2_mul, qn2_conj, Ua, Ub; ring).
  rewrite E. split; [destruct (quat_rv_norm _ U) as [-> ?]; lra|]. intros H.
  unfold int_q. rewrite E, qrot_mul by auto using rv_quat_unit. rewrite <- rv_mat_quat.
  assert (M : rv_mat (quat_rv (qmul b (qconj a))) = qrot (qmul b (qconj a))).
  { destruct H as [H|H]; [|apply rv_mat_log; auto using not_tiny].
    rewrite H, vscal_v0 in E. rewrite <- E, (quat_rv_0 _ U) by auto.
    apply (rv_small v0). replace (vsq v0) with 0 by (u3; ring). pose proof epsA2_pos. lra. }
  rewrite M, qrot_mul by (auto; now rewrite qn2_conj). rewrite qrot_conj, <- mmul_assoc, so3_tr_mul by now apply qrot_so3. apply mmul_1_r.
Qed.
(** It is the shortest rotation. *)
Lemma rv_quat_w_cos v : epsA < vnorm v -> qw (rv_quat v) = cos (vnorm v / 2).
Proof.
  intros H. unfold rv_quat, rv_aa. destruct (Rlt_dec _ _) as [L|L]; [reflexivity|].
  exfalso. apply (not_tiny v H). unfold tiny. lra.
Qed.
Lemma quat_rv_short q v : qn2 q = 1 -> qrot (rv_quat v) = qrot q -> epsA < vnorm v -> vnorm (quat_rv q) <= vnorm v.
Proof.
  intros U E H. destruct (quat_rv_norm q U) as [EN B]. rewrite EN.
  assert (C : Rabs (cos (vnorm v / 2)) = Rabs (qw q)).
  { rewrite <- rv_quat_w_cos by auto. destruct (qrot_inj _ _ (rv_quat_unit v) U E) as [->| ->]; [reflexivity|]. cbn. apply Rabs_Ropp. }
  assert (A : Rabs (qw q) = cos (fst (quat_aa q) / 2)).
  { unfold quat_aa. destruct (Req_EM_T _ _) as [Z|Z]; cbn [fst].
    - replace (0 / 2) with 0 by lra. rewrite cos_0. assert (S := qn_split q U). rewrite <- vnorm_sq, Z in S.
      assert (qw q * qw q = 1) by lra. rewrite <- Rabs_R1. apply Rsqr_eq_abs_0. unfold Rsqr. lra.
    - replace (2 * _ / 2) with (atan2 (vnorm (qvec q)) (Rabs (qw q))) by field.
      assert (S := qn_split q U). rewrite <- vnorm_sq in S.
      assert (N : Rabs (qw q) * Rabs (qw q) = qw q * qw q) by (rewrite <- Rabs_mult; apply Rabs_right; nra).
      assert (P : 0 < Rabs (qw q) * Rabs (qw q) + vnorm (qvec q) * vnorm (qvec q)) by lra.
      destruct (atan2_sc (vnorm (qvec q)) (Rabs (qw q)) P) as (_ & X & _). rewrite X.
      replace (Rabs (qw q) * Rabs (qw q) + vnorm (qvec q) * vnorm (qvec q)) with 1 by lra. rewrite sqrt_1. field. }
  destruct (Rle_or_lt (fst (quat_aa q)) (vnorm v)) as [L|L]; [exact L|exfalso].
  pose proof (vnorm_pos v). pose proof PI_RGT_0.
  assert (X : cos (fst (quat_aa q) / 2) < cos (vnorm v / 2)) by (apply cos_decreasing_1; lra).
  assert (Y : 0 <= cos (fst (quat_aa q) / 2)) by (apply cos_ge_0; lra).
  rewrite Rabs_right in C by lra. lra.
Qed.

(** Rotation matrices. *)
Lemma mneg_orth m : mmul m (mtr m) = m1 -> mdet m = -1 -> so3 (mneg m).
Proof.
  intros A B. split.
  - rewrite <- A. c3.
  - transitivity (- mdet m); [c3|lra].
Qed.
Lemma orth_det m : mmul m (mtr m) = m1 -> mdet m = 1 \/ mdet m = -1.
Proof.
  intros A. assert (D : mdet m * mdet m = 1) by (rewrite <- (mdet_tr m) at 2; rewrite <- mdet_mul, A; c3).
  destruct (Rle_or_lt 0 (mdet m)); [left|right]; nra.
Qed.
Lemma orth_tr m : mmul m (mtr m) = m1 -> mmul (mtr m) m = m1.
Proof.
  intros A. destruct (orth_det m A) as [D|D]; [apply so3_tr_mul; now split|].
  rewrite <- (so3_tr_mul (mneg m)) by now apply mneg_orth. c3.
Qed.
Lemma eigen_approx_refl x : eigen_isApprox x x.
Proof.
  unfold eigen_isApprox. rewrite Rminus_eq_0, Rabs_R0. apply Rmult_le_pos; [|unfold dummy_precision; lra].
  apply Rmin_glb; apply Rabs_pos.
Qed.
Lemma eigen_small_0 x : eigen_isSmall 0 x.
Proof. unfold eigen_isSmall. rewrite Rabs_R0. apply Rmult_le_pos; [apply Rabs_pos|unfold dummy_precision; lra]. Qed.
Lemma orth_unitary m : mmul m (mtr m) = m1 -> isUnitary m.
Proof.
  intros A. apply orth_tr in A. destruct m as [a b c d e f g h i]. injection A as E1 E2 E3 E4 E5 E6 E7 E8 E9.
  unfold isUnitary, mcol0, mcol1, mcol2, vsq, vdot; cbn.
  replace (a * a + d * d + g * g) with 1 by lra. replace (b * b + e * e + h * h) with 1 by lra.
  replace (c * c + f * f + i * i) with 1 by lra. replace (b * a + e * d + h * g) with 0 by lra.
  replace (c * a + f * d + i * g) with 0 by lra. replace (c * b + f * e + i * h) with 0 by lra.
  repeat split; auto using eigen_approx_refl, eigen_small_0.
Qed.
Lemma so3_col2 m : so3 m -> m00 m * m11 m - m01 m * m10 m = m22 m /\ m10 m * m21 m - m11 m * m20 m = m02 m.
Proof. intros H. apply so3_adj in H. destruct m. injection H as E1 E2 E3 E4 E5 E6 E7 E8 E9. cbn. split; lra. Qed.
Lemma isRot_so3 m p : so3 m -> 0 < p -> isRotationMatrix m p.
Proof.
  intros H P. destruct (so3_col2 m H) as [A B]. split; [apply orth_unitary, H|].
  unfold isApproxAbs. rewrite A, B, !Rminus_eq_0, Rabs_R0. now split.
Qed.
Lemma isRot_reflection m p : mmul m (mtr m) = m1 -> mdet m = -1 -> (isRotationMatrix m p <-> 2 * Rabs (m22 m) < p /\ 2 * Rabs (m02 m) < p).
Proof.
  intros A D. destruct (so3_col2 _ (mneg_orth m A D)) as [B C].
  assert (E1 : m00 m * m11 m - m01 m * m10 m - m22 m = -2 * m22 m) by (destruct m; cbn in *; lra).
  assert (E2 : m10 m * m21 m - m11 m * m20 m - m02 m = -2 * m02 m) by (destruct m; cbn in *; lra).
  unfold isRotationMatrix, isApproxAbs. rewrite E1, E2, !Rabs_mult.
  replace (Rabs (-2)) with 2 by (rewrite <- Rabs_Ropp; symmetry; rewrite Rabs_right; lra).
  split; [now intros (_ & ? & ?)|]. intros [? ?]. split; [now apply orth_unitary|auto].
Qed.

(** The sum of the squares of the coefficients. *)
Lemma frob_orth u v x : mmul u (mtr u) = m1 -> mmul v (mtr v) = m1 ->
  mtrace (mmul (mmul u (mmul x (mtr v))) (mtr (mmul u (mmul x (mtr v))))) = mtrace (mmul x (mtr x)).
Proof.
  intros A B.
  assert (E : mmul (mmul u (mmul x (mtr v))) (mtr (mmul u (mmul x (mtr v)))) = mmul u (mmul x (mmul (mmul (mtr v) v) (mmul (mtr x) (mtr u))))) by c3.
  rewrite E, (orth_tr v B), mmul_1_l.
  assert (C : forall a b, mtrace (mmul a b) = mtrace (mmul b a)) by (intros; c3).
  rewrite C, <- !mmul_assoc, (orth_tr u A), mmul_1_r. reflexivity.
Qed.
Lemma orth_entries w : mmul w (mtr w) = m1 -> m00 w <= 1 /\ m11 w <= 1 /\ m22 w <= 1 /\ mtrace (mmul w (mtr w)) = 3.
Proof.
  intros H. rewrite H. destruct w. injection H as E1 E2 E3 E4 E5 E6 E7 E8 E9. cbn. repeat split; try nra. u3. lra.
Qed.
Lemma procrustes a b c w : 0 <= a -> 0 <= b -> 0 <= c -> mmul w (mtr w) = m1 ->
  mtrace (mmul (msub (mdiag a b c) m1) (mtr (msub (mdiag a b c) m1))) <= mtrace (mmul (msub (mdiag a b c) w) (mtr (msub (mdiag a b c) w))).
Proof.
  intros A B C H. destruct (orth_entries w H) as (X & Y & Z & T).
  assert (E : mtrace (mmul (msub (mdiag a b c) w) (mtr (msub (mdiag a b c) w))) =
    a * a + b * b + c * c - 2 * (a * m00 w + b * m11 w + c * m22 w) + mtrace (mmul w (mtr w))) by (destruct w; u3; ring).
  rewrite E, T. replace (mtrace _) with (a * a + b * b + c * c - 2 * (a + b + c) + 3) by (u3; ring). nra.
Qed.
Lemma orth_mul a b : mmul a (mtr a) = m1 -> mmul b (mtr b) = m1 -> mmul (mmul a b) (mtr (mmul a b)) = m1.
Proof. intros A B. rewrite mtr_mul, <- mmul_assoc, (mmul_assoc b), B, mmul_1_l. exact A. Qed.
Lemma polar_closest u v a b c o : mmul u (mtr u) = m1 -> mmul v (mtr v) = m1 -> 0 <= a -> 0 <= b -> 0 <= c -> mmul o (mtr o) = m1 ->
  let m := mmul u (mmul (mdiag a b c) (mtr v)) in let q := mmul u (mtr v) in
  mtrace (mmul (msub m q) (mtr (msub m q))) <= mtrace (mmul (msub m o) (mtr (msub m o))).
Proof.
  intros U V A B C O m q.
  assert (Q : msub m q = mmul u (mmul (msub (mdiag a b c) m1) (mtr v))) by (unfold m, q; c3).
  set (w := mmul (mtr u) (mmul o v)).
  assert (X : msub m o = mmul u (mmul (msub (mdiag a b c) w) (mtr v))).
  { replace (mmul u (mmul (msub (mdiag a b c) w) (mtr v))) with (msub m (mmul u (mmul w (mtr v)))) by (unfold m; c3).
    f_equal. unfold w. rewrite <- mmul_assoc, <- (mmul_assoc o), V, mmul_1_r, mmul_assoc, U. symmetry. apply mmul_1_l. }
  rewrite Q, X, !frob_orth by auto. apply procrustes; auto.
  unfold w. apply orth_mul; [rewrite mtr_tr; now apply orth_tr|]. now apply orth_mul.
Qed.
Lemma frob_0 x : mtrace (mmul x (mtr x)) <= 0 -> x = mz.
Proof.
  destruct x as [a b c d e f g h i]. unfold mtrace, mmul, mtr; cbn. intros H.
  assert (a = 0 /\ b = 0 /\ c = 0) as (-> & -> & ->) by (repeat split; nra).
  assert (d = 0 /\ e = 0 /\ f = 0) as (-> & -> & ->) by (repeat split; nra).
  assert (g = 0 /\ h = 0 /\ i = 0) as (-> & -> & ->) by (repeat split; nra). reflexivity.
Qed.

(** The loops. *)
Section Loop.
Variables (body : Z -> iarr KState -> outcome (iarr KState)) (k : Z) (N B : nat) (F : nat -> list KState -> KState).
Hypothesis Hb : forall j l, length l = N -> (j < B)%nat -> body (k + Z.of_nat j)%Z (mkIarr k l) = Ok (mkIarr k (list_set j (F j l) l)).
Hypothesis Hl : forall j l l', (forall m, (j <= m)%nat -> nth_error l m = nth_error l' m) -> F j l = F j l'.
Lemma tr_loop_ok n : forall j l, length l = N -> (B <= N)%nat -> (j + n <= B)%nat ->
  exists l', tr_loop body n (k + Z.of_nat j)%Z (mkIarr k l) = Ok (mkIarr k l') /\ length l' = N /\
    forall m, nth_error l' m = if (j <=? m)%nat && (m <? j + n)%nat then Some (F m l) else nth_error l m.
Proof using Hb Hl.
  induction n as [|n IH]; intros j l L BN H; cbn [tr_loop].
  - exists l. split; [reflexivity|]. split; [exact L|]. intros m.
    replace ((j <=? m)%nat && (m <? j + 0)%nat) with false; [reflexivity|]. symmetry.
    destruct (Nat.leb_spec j m), (Nat.ltb_spec m (j + 0)); cbn; auto; lia.
  - rewrite Hb by (auto; lia). cbn [obind]. replace (k + Z.of_nat j + 1)%Z with (k + Z.of_nat (S j))%Z by lia.
    destruct (IH (S j) (list_set j (F j l) l)) as (l' & R & L' & E); [now rewrite list_set_length|auto|lia|].
    exists l'. split; [exact R|]. split; [exact L'|]. intros m. rewrite E.
    assert (Ho : forall x, x <> j -> nth_error (list_set j (F j l) l) x = nth_error l x).
    { intros x X. rewrite list_set_nth_error. destruct (Nat.eqb_spec x j); [lia|]. reflexivity. }
    destruct (Nat.eq_dec m j) as [->|Mj].
    + replace ((S j <=? j)%nat && (j <? S j + n)%nat) with false by (destruct (Nat.leb_spec (S j) j); cbn; auto; lia).
      replace ((j <=? j)%nat && (j <? j + S n)%nat) with true by (destruct (Nat.leb_spec j j), (Nat.ltb_spec j (j + S n)); cbn; auto; lia).
      rewrite list_set_nth_error, Nat.eqb_refl. destruct (nth_error l j) eqn:Q; [reflexivity|]. apply nth_error_None in Q. lia.
    + rewrite Ho by auto.
      replace ((j <=? m)%nat && (m <? j + S n)%nat) with ((S j <=? m)%nat && (m <? S j + n)%nat)
        by (destruct (Nat.leb_spec (S j) m), (Nat.leb_spec j m), (Nat.ltb_spec m (S j + n)), (Nat.ltb_spec m (j + S n)); cbn; auto; lia).
      destruct ((S j <=? m)%nat && (m <? S j + n)%nat) eqn:Q; [|reflexivity]. f_equal. apply Hl.
      intros x X. apply Ho. apply andb_prop in Q. destruct Q as [Q _]. apply Nat.leb_le in Q. lia.
Qed.
End Loop.

Lemma ia_get_at {A} md k (l : list A) j x : nth_error l j = Some x -> ia_get md (mkIarr k l) (k + Z.of_nat j)%Z = Ok x.
Proof.
  intros H. assert (L : (j < length l)%nat) by (apply nth_error_Some; now rewrite H).
  unfold ia_get, ia_checkIndex, ia_at, ia_size. cbn [ia_k ia_v].
  replace (0 <? Z.of_nat (length l))%Z with true by (symmetry; apply Z.ltb_lt; lia).
  replace (k <=? k + Z.of_nat j)%Z with true by (symmetry; apply Z.leb_le; lia).
  replace (k + Z.of_nat j <? k + Z.of_nat (length l))%Z with true by (symmetry; apply Z.ltb_lt; lia).
  replace (Z.to_nat (k + Z.of_nat j - k)) with j by lia. rewrite H. now destruct md.
Qed.
Lemma ia_set_at {A} md k (l : list A) j x : (j < length l)%nat -> ia_setValue md x (k + Z.of_nat j)%Z (mkIarr k l) = Ok (mkIarr k (list_set j x l)).
Proof.
  intros L. unfold ia_setValue, ia_checkIndex, ia_size. cbn [ia_k ia_v].
  replace (0 <? Z.of_nat (length l))%Z with true by (symmetry; apply Z.ltb_lt; lia).
  replace (k <=? k + Z.of_nat j)%Z with true by (symmetry; apply Z.leb_le; lia).
  replace (k + Z.of_nat j <? k + Z.of_nat (length l))%Z with true by (symmetry; apply Z.ltb_lt; lia).
  replace (Z.to_nat (k + Z.of_nat j - k)) with j by lia. reflexivity.
Qed.
Lemma head_pose6 md x : vec_head3 md (pose6 x) = Ok (fst x).
Proof. destruct x as [[? ? ?] [? ? ?]]. reflexivity. Qed.
Lemma tail_pose6 md x : vec_tail3 md (pose6 x) = Ok (snd x).
Proof. destruct x as [[? ? ?] [? ? ?]]. reflexivity. Qed.

Section Rec.
Variables (md : mode) (k : Z) (pts : list (V3 * V3)) (dt : R).
Let po := mkIarr k (map pose6 pts).
Let N := length pts.
Let pt j := nth j pts (v0, v0).
Let st (l : list KState) j := nth j l ks0.
Let F1 (j : nat) (_ : list KState) := mkKS (fst (pt j)) (snd (pt j)) v0 v0 v0 v0.
Let vel j := derivate_v (fst (pt j)) (fst (pt (S j))) dt.
Let ang j := fd_rv (snd (pt j)) (snd (pt (S j))) dt.
Let F2 (j : nat) l := let r := st l j in mkKS (sp r) (so r) (vel j) (ang j) (sa r) (sal r).
Let F3 (j : nat) l := let r := st l j in let r2 := st l (S j) in mkKS (sp r) (so r) (sv r) (sw r) (derivate_v (sv r) (sv r2) dt) (derivate_v (sw r) (sw r2) dt).
Lemma po_get j : (j < N)%nat -> ia_get md po (k + Z.of_nat j)%Z = Ok (pose6 (pt j)).
Proof. intros H. apply ia_get_at. unfold pt. rewrite nth_error_map, (nth_error_nth' pts (v0, v0) H). reflexivity. Qed.
Lemma st_get l j : (j < length l)%nat -> ia_get md (mkIarr k l) (k + Z.of_nat j)%Z = Ok (st l j).
Proof. intros H. apply ia_get_at. now apply nth_error_nth'. Qed.
Lemma nth_ext_err {A} (l l' : list A) d j : nth_error l j = nth_error l' j -> nth j l d = nth j l' d.
Proof. intros H. rewrite <- !nth_default_eq. unfold nth_default. now rewrite H. Qed.

Definition rec_vel j := if (S j <? N)%nat then vel j else v0.
Definition rec_ang j := if (S j <? N)%nat then ang j else v0.
Definition rec_acc j := if (S (S j) <? N)%nat then derivate_v (vel j) (vel (S j)) dt else v0.
Definition rec_aac j := if (S (S j) <? N)%nat then derivate_v (ang j) (ang (S j)) dt else v0.

Lemma reconstruct_ok : exists l, reconstruct md po dt = Ok (mkIarr k l) /\ length l = N /\
  forall j, (j < N)%nat -> nth_error l j = Some (mkKS (fst (pt j)) (snd (pt j)) (rec_vel j) (rec_ang j) (rec_acc j) (rec_aac j)).
Proof.
  unfold reconstruct.
  assert (S0 : ia_setValue md ks0 (ia_first po) ia_empty = Ok (mkIarr k [ks0])) by (destruct md; reflexivity). rewrite S0. cbn [obind].
  assert (SZ : ia_size po = Z.of_nat N) by (unfold ia_size, po, N; cbn [ia_v]; now rewrite map_length).
  unfold ia_resize. rewrite SZ. destruct (Z.ltb_spec (Z.of_nat N) 0); [lia|]. cbn [obind ia_k ia_v]. rewrite Nat2Z.id.
  set (l0 := list_resize N ks0 [ks0]). assert (L0 : length l0 = N) by apply list_resize_length.
  unfold ia_next, ia_first. rewrite SZ. change (ia_k po) with k.
  replace (Z.to_nat (k + Z.of_nat N - k)) with N by lia.
  replace (Z.to_nat (k + Z.of_nat N - 1 - k)) with (N - 1)%nat by lia.
  replace (Z.to_nat (k + Z.of_nat N - 2 - k)) with (N - 2)%nat by lia.
  assert (K : (k + Z.of_nat 0)%Z = k) by lia.
  destruct (tr_loop_ok (tr_body1 md po) k N N F1) with (n := N) (j := 0%nat) (l := l0) as (l1 & R1 & L1 & E1); auto.
  { intros j l L J. unfold tr_body1. rewrite po_get by auto. cbn [obind]. rewrite head_pose6, tail_pose6. cbn [obind].
    apply ia_set_at. lia. }
  rewrite K in R1. rewrite R1. cbn [obind].
  destruct (tr_loop_ok (tr_body2 md po dt) k N (N - 1) F2) with (n := (N - 1)%nat) (j := 0%nat) (l := l1) as (l2 & R2 & L2 & E2); auto; try lia.
  { intros j l L J. unfold tr_body2. rewrite st_get by lia. cbn [obind]. rewrite po_get by lia. cbn [obind].
    replace (k + Z.of_nat j + 1)%Z with (k + Z.of_nat (S j))%Z by lia. rewrite po_get by lia. cbn [obind].
    rewrite !head_pose6, !tail_pose6. cbn [obind]. apply ia_set_at. lia. }
  { intros j l l' H'. unfold F2, st. now rewrite (nth_ext_err l l' ks0 j) by (apply H'; lia). }
  rewrite K in R2. rewrite R2. cbn [obind].
  destruct (tr_loop_ok (tr_body3 md dt) k N (N - 2) F3) with (n := (N - 2)%nat) (j := 0%nat) (l := l2) as (l3 & R3 & L3 & E3); auto; try lia.
  { intros j l L J. unfold tr_body3. rewrite st_get by lia. cbn [obind].
    replace (k + Z.of_nat j + 1)%Z with (k + Z.of_nat (S j))%Z by lia. rewrite st_get by lia. cbn [obind]. apply ia_set_at. lia. }
  { intros j l l' H'. unfold F3, st. now rewrite (nth_ext_err l l' ks0 j), (nth_ext_err l l' ks0 (S j)) by (apply H'; lia). }
  rewrite K in R3. exists l3. split; [exact R3|]. split; [exact L3|].
  assert (X1 : forall j, (j < N)%nat -> nth_error l1 j = Some (F1 j l0)).
  { intros j J. rewrite E1. destruct (Nat.ltb_spec j (0 + N)); [reflexivity|lia]. }
  assert (X2 : forall j, (j < N)%nat -> nth_error l2 j = Some (mkKS (fst (pt j)) (snd (pt j)) (rec_vel j) (rec_ang j) v0 v0)).
  { intros j J. rewrite E2. cbn [Nat.leb andb]. unfold rec_vel, rec_ang.
    destruct (Nat.ltb_spec j (0 + (N - 1))), (Nat.ltb_spec (S j) N); try lia; [|apply X1, J].
    unfold F2. replace (st l1 j) with (F1 j l0); [reflexivity|]. symmetry. apply nth_error_nth, X1, J. }
  assert (Y2 : forall j, (j < N)%nat -> st l2 j = mkKS (fst (pt j)) (snd (pt j)) (rec_vel j) (rec_ang j) v0 v0).
  { intros j J. apply nth_error_nth, X2, J. }
  intros j J. rewrite E3. cbn [Nat.leb andb]. unfold rec_acc, rec_aac.
  destruct (Nat.ltb_spec j (0 + (N - 2))), (Nat.ltb_spec (S (S j)) N); try lia; [|apply X2, J].
  unfold F3. rewrite !Y2 by lia. cbn [sp so sv sw sa sal]. unfold rec_vel, rec_ang.
  destruct (Nat.ltb_spec (S j) N), (Nat.ltb_spec (S (S j)) N); try lia. reflexivity.
Qed.
End Rec.

(** Finite differences find the rotation of less than half a turn. *)
Lemma fd_quat_exact a b w dt : qn2 a = 1 -> qn2 b = 1 -> dt <> 0 -> epsA < vnorm (vscal dt w) < PI ->
  qrot b = mmul (rodrigues (vscal dt w)) (qrot a) -> fd_quat a b dt = w.
Proof.
  intros Ua Ub D [A B] E. pose proof (not_tiny _ A) as NT. rewrite fd_quat_rv.
  assert (U : qn2 (qmul b (qconj a)) = 1) by (rewrite qn2_mul, qn2_conj, Ua, Ub; ring).
  assert (Q : qrot (qmul b (qconj a)) = qrot (rv_quat (vscal dt w))).
  { rewrite <- rv_mat_quat, rv_rodrigues by auto. rewrite qrot_mul by (auto; now rewrite qn2_conj).
    rewrite qrot_conj, E, <- mmul_assoc. destruct (qrot_so3 a Ua) as [-> _]. apply mmul_1_r. }
  replace (quat_rv (qmul b (qconj a))) with (vscal dt w); [now apply vscal_inv'|].
  destruct (qrot_inj _ _ U (rv_quat_unit _) Q) as [-> | ->]; [now rewrite quat_rv_exp|].
  rewrite quat_rv_neg by now apply rv_quat_w. now rewrite quat_rv_exp.
Qed.
Lemma fd_rv_exact o1 o2 w dt : dt <> 0 -> epsA < vnorm (vscal dt w) < PI ->
  rv_mat o2 = mmul (rodrigues (vscal dt w)) (rv_mat o1) -> fd_rv o1 o2 dt = w.
Proof.
  intros D H E. apply fd_quat_exact; auto using rv_quat_unit. now rewrite <- !rv_mat_quat.
Qed.
Lemma fd_rv_same o1 o2 dt : rv_mat o2 = rv_mat o1 -> fd_rv o1 o2 dt = v0.
Proof.
  intros E. unfold fd_rv. rewrite fd_quat_rv. rewrite !rv_mat_quat in E.
  assert (U := rv_quat_unit o1).
  destruct (qrot_inj _ _ (rv_quat_unit o2) U E) as [-> | ->].
  - rewrite qmul_conj by auto. now rewrite quat_rv_q1, vscal_v0.
  - replace (qmul (qneg (rv_quat o1)) (qconj (rv_quat o1))) with (qneg (qmul (rv_quat o1) (qconj (rv_quat o1)))) by c3.
    rewrite qmul_conj by auto. rewrite quat_rv_neg by (cbn; lra). now rewrite quat_rv_q1, vscal_v0.
Qed.
Lemma fd_homo_exact r p v w dt : so3 r -> dt <> 0 -> epsA < vnorm (vscal dt w) < PI ->
  fd_homo (r, p) (mmul (rodrigues (vscal dt w)) r, vadd p (vscal dt v)) dt = (v, w).
Proof.
  intros H D [A B]. pose proof (not_tiny _ A) as NT. unfold fd_homo; cbn [fst snd]. f_equal.
  - replace (vsub (vadd p (vscal dt v)) p) with (vscal dt v) by c3. now apply vscal_inv'.
  - rewrite <- mmul_assoc. destruct H as [-> _]. rewrite mmul_1_r, <- rv_rodrigues by auto.
    set (m := rv_mat (vscal dt w)). replace (vscal (fst (mat_aa m) / dt) (snd (mat_aa m))) with (vscal (/ dt) (mat_rv m)).
    + unfold m. rewrite mat_rv_exp by auto. now apply vscal_inv'.
    + unfold mat_rv. rewrite vscal_scal. f_equal. unfold Rdiv. ring.
Qed.

(** Reconstructed trajectories: the accelerations of samples in uniformly accelerated motion. *)
Lemma derivate_v_step p v h : h <> 0 -> derivate_v p (vadd p (vscal h v)) h = v.
Proof. intros H. unfold derivate_v. replace (vsub (vadd p (vscal h v)) p) with (vscal h v) by c3. unfold Rdiv. rewrite Rmult_1_l. now apply vscal_inv'. Qed.
