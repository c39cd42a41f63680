(** Properties C28, C29, C35, C36, C38, C39 and C71: kinematics. *)
From Coq Require Import Reals Lra Psatz Lia List Bool.
From Verif Require Import Base Vec3 Rot SpecRot RotProofs RotProofs2 RotProofs3 Orient SpecOrient OrientProofs
  Kine SpecKine KineProofs KineProofs2 KineProofs3 KineUpdate.
Import ListNotations.
Open Scope R_scope.

Ltac rws := repeat match goal with E : _ = _ |- _ => rewrite E end.

(** C28: (a b) c = a (b c) on every component and on the rotation, the four products being
    computed one after the other on the same objects, whatever their representations. *)
Theorem C28_composition_associative : forall md a b c,
  coh (ko a) -> coh (ko b) -> coh (ko c) -> rot (ko a) <> None -> rot (ko b) <> None ->
  rot (ko c) <> None \/ (kp b <> None /\ kp c <> None) ->
  exists ab a1 b1 l ab1 c1 bc b2 c2 r a2 bc1,
    k_mul md a b = Ok (ab, a1, b1) /\ k_mul md ab c = Ok (l, ab1, c1) /\
    k_mul md b1 c1 = Ok (bc, b2, c2) /\ k_mul md a1 bc = Ok (r, a2, bc1) /\
    coh (ko l) /\ coh (ko r) /\ same_kin l r.
Proof.
  intros md a b c Ha Hb Hc Na Nb Nc.
  destruct (rot (ko a)) as [ra|] eqn:Ra; [|congruence]. destruct (rot (ko b)) as [rb|] eqn:Rb; [|congruence]. clear Na Nb.
  destruct (k_mul_ok md a b ra Ha Hb Ra) as (ab & a1 & b1 & E1 & Hab & Pab & Oab & Vab & Wab & Aab & Lab & Ha1 & Sa1 & Hb1 & Sb1); [right; congruence|].
  rewrite Rb in Oab, Wab, Lab. cbn in Oab.
  assert (Nc' : kp c <> None \/ rot (ko c) <> None) by tauto.
  destruct (k_mul_ok md ab c (mmul ra rb) Hab Hc Oab Nc') as (l & ab1 & c1 & E2 & Hl & Pl & Ol & Vl & Wl & Al & Ll & Hab1 & Sab1 & Hc1 & Sc1).
  destruct Sa1 as (A1 & A2 & A3 & A4 & A5 & A6). destruct Sb1 as (B1 & B2 & B3 & B4 & B5 & B6). destruct Sc1 as (C1 & C2 & C3 & C4 & C5 & C6).
  rewrite Ra in A2. rewrite Rb in B2. rewrite <- C1, <- C2 in Nc'.
  destruct (k_mul_ok md b1 c1 rb Hb1 Hc1 B2 Nc') as (bc & b2 & c2 & E3 & Hbc & Pbc & Obc & Vbc & Wbc & Abc & Lbc & _).
  assert (Nbc : kp bc <> None \/ rot (ko bc) <> None).
  { rewrite Pbc, Obc, B1, C1, C2. destruct Nc as [N|[N M]].
    - right. unfold c_o. destruct (rot (ko c)); [discriminate|congruence].
    - left. unfold c_p. destruct (kp b), (kp c); try congruence; discriminate. }
  destruct (k_mul_ok md a1 bc ra Ha1 Hbc A2 Nbc) as (r & a2 & bc1 & E4 & Hr & Pr & Or & Vr & Wr & Ar & Lr & _).
  exists ab, a1, b1, l, ab1, c1, bc, b2, c2, r, a2, bc1. repeat (split; [assumption|]).
  pose proof (coh_so3 _ _ Ha Ra) as S.
  rewrite C1, C2, C3, C4, C5, C6, B1, B3, B4, B5, B6 in *. rewrite A1, A3, A4, A5, A6 in *.
  unfold same_kin. rewrite Pl, Ol, Vl, Wl, Al, Ll, Pr, Or, Vr, Wr, Ar, Lr, Pab, Vab, Wab, Aab, Lab, Pbc, Obc, Vbc, Wbc, Abc, Lbc.
  rewrite c_p_assoc, c_o_assoc, c_v_assoc, c_w_assoc, c_a_assoc, c_l_assoc by exact S. auto 10.
Qed.
Print Assumptions C28_composition_associative.
(** Fully set kinematics with a matrix, a quaternion, and a partly set one. *)
Definition K_a := mkK (Some (mkV 1 2 3)) (o_mat (mkM 0 (-1) 0 1 0 0 0 0 1)) (Some (mkV 0 1 0)) (Some (mkV 0 0 1)) (Some (mkV 0 0 9)) (Some (mkV 1 0 0)).
Definition K_b := mkK (Some (mkV 4 5 6)) (o_quat (mkQ 0 1 0 0)) (Some (mkV 1 1 1)) (Some (mkV 2 0 0)) (Some (mkV 3 0 0)) (Some (mkV 0 4 0)).
Definition K_c := mkK (Some (mkV 7 8 9)) o_empty (Some (mkV 1 0 0)) None None None.
Lemma K_coh : coh (ko K_a) /\ coh (ko K_b) /\ coh (ko K_c).
Proof.
  split; [apply coh_mat; split; u3; [f_equal; ring|ring]|]. split; [apply coh_quat; u3; ring|apply coh_empty].
Qed.
Example C28_case : coh (ko K_a) /\ coh (ko K_b) /\ coh (ko K_c) /\ rot (ko K_a) <> None /\ rot (ko K_b) <> None /\
  (rot (ko K_c) <> None \/ (kp K_b <> None /\ kp K_c <> None)).
Proof.
  destruct K_coh as (A & B & C). split; [exact A|]. split; [exact B|]. split; [exact C|]. cbn. split; [discriminate|]. split; [discriminate|].
  right; split; discriminate.
Qed.
(** Outside that hypothesis only the right association trips an assertion: b has no position and
    c no orientation, so b c is empty. *)
Example C28_empty_product : let b := with_ori k_empty (o_quat q1) in let c := mkK (Some v0) o_empty None None None None in
  match k_mul Debug b b with Ok (bb, _, _) => match k_mul Debug bb c with Ok _ => True | _ => False end | _ => False end /\
  match k_mul Debug b c with Ok (bc, _, _) => k_mul Debug b bc = AssertFail | _ => False end.
Proof. cbn. auto. Qed.

(** C29: the inverse composed on either side gives the identity pose and zero velocities and
    accelerations, on each component of the inverse that is set; the set components of the
    inverse are those computable from the components set in k. *)
Definition zero_or_unset (x : option V3) := x = None \/ x = Some v0.
Definition both (a b : option V3) : Prop := a <> None /\ b <> None.
Theorem C29_inverse_two_sided : forall md k, coh (ko k) -> rot (ko k) <> None ->
  exists i l k1 i1 r i2 k2, k_inv md k = Ok i /\ k_mul md k i = Ok (l, k1, i1) /\ k_mul md i1 k1 = Ok (r, i2, k2) /\
    (forall x, x = l \/ x = r ->
      rot (ko x) = Some m1 /\ zero_or_unset (kp x) /\ zero_or_unset (kv x) /\ zero_or_unset (kw x) /\ zero_or_unset (ka x) /\ zero_or_unset (kal x) /\
      (kp k <> None -> kp x = Some v0) /\ (kw k <> None -> kw x = Some v0) /\
      (both (kw k) (kal k) -> kal x = Some v0) /\ (kp k <> None /\ both (kv k) (kw k) -> kv x = Some v0) /\
      (kp k <> None /\ both (kv k) (kw k) /\ both (ka k) (kal k) -> ka x = Some v0)).
Proof.
  intros md k H N. destruct (rot (ko k)) as [r|] eqn:R; [|congruence]. clear N. pose proof (coh_so3 _ _ H R) as S.
  destruct (k_inv_ok md k r H R) as (i & Ei & Hi & Pi & Oi & Vi & Wi & Ai & Li).
  assert (Oi' : rot (ko i) <> None) by congruence.
  destruct (k_mul_ok md k i r H Hi R) as (l & k1 & i1 & El & Hl & Pl & Ol & Vl & Wl & Al & Ll & Hk1 & Sk1 & Hi1 & Si1); [now right|].
  destruct Sk1 as (A1 & A2 & A3 & A4 & A5 & A6). destruct Si1 as (B1 & B2 & B3 & B4 & B5 & B6). rewrite R in A2. rewrite Oi in B2.
  destruct (k_mul_ok md i1 k1 (mtr r) Hi1 Hk1 B2) as (x & i2 & k2 & Er & Hx & Px & Ox & Vx & Wx & Ax & Lx & _); [right; congruence|].
  exists i, l, k1, i1, x, i2, k2. split; [exact Ei|]. split; [exact El|]. split; [exact Er|]. intros y Y.
  assert (Z : forall b, zero_or_unset (zero_if b)) by (intros []; [now right|now left]).
  assert (F : rot (ko y) = Some m1 /\ kp y = zero_if (isSome (kp k)) /\ kv y = zero_if (isSome (kp k) && isSome (kv k) && isSome (kw k)) /\
    kw y = zero_if (isSome (kw k)) /\ ka y = zero_if (isSome (kp k) && isSome (kv k) && isSome (kw k) && isSome (ka k) && isSome (kal k)) /\
    kal y = zero_if (isSome (kw k) && isSome (kal k))).
  { destruct Y as [-> | ->].
    - rewrite Pl, Ol, Vl, Wl, Al, Ll, Oi, Pi, Vi, Wi, Ai, Li.
      rewrite il_p, il_v, il_w, il_a, il_l by exact S. cbn [c_o]. rewrite (proj1 S). auto 10.
    - rewrite Px, Ox, Vx, Wx, Ax, Lx, A1, A2, A3, A4, A5, A6, B1, B3, B4, B5, B6, Pi, Vi, Wi, Ai, Li.
      rewrite ir_p, ir_v, ir_w, ir_a, ir_l by exact S. cbn [c_o]. rewrite so3_tr_mul by exact S. auto 10. }
  destruct F as (-> & -> & -> & -> & -> & ->). split; [reflexivity|]. do 5 (split; [apply Z|]). unfold both.
  destruct (kp k), (kv k), (kw k), (ka k), (kal k); cbn; repeat split; intros; intuition congruence.
Qed.
Print Assumptions C29_inverse_two_sided.
Example C29_case : coh (ko K_a) /\ rot (ko K_a) <> None /\ kp K_a <> None /\ both (kv K_a) (kw K_a) /\ both (ka K_a) (kal K_a).
Proof. split; [apply K_coh|]. repeat split; discriminate. Qed.

(** C35: reading the flagged components (all set) and loading them back restores exactly those
    components and leaves the others, for each of the 64 flag combinations; the vector has the
    size of the flagged components. *)
Theorem C35_vector_round_trip : forall md md' f k k0, coh (ko k) -> flagged_set f k ->
  exists l k' k2, k_toVec md f k = Ok (l, k') /\ same_kin k' k /\ length l = vsize f /\ k_fromVec md' l f k0 = Ok k2 /\
    kp k2 = (if fP f then kp k else kp k0) /\ rot (ko k2) = (if fO f then rot (ko k) else rot (ko k0)) /\
    kv k2 = (if fV f then kv k else kv k0) /\ kw k2 = (if fW f then kw k else kw k0) /\
    ka k2 = (if fA f then ka k else ka k0) /\ kal k2 = (if fAl f then kal k else kal k0).
Proof.
  intros md md' f k k0 H F. destruct (toVec_fromVec md md' f k k0 H F) as (l & k' & k2 & E1 & E2 & E3 & E4 & E5 & E6).
  exists l, k', k2. auto 10.
Qed.
Print Assumptions C35_vector_round_trip.
(** C35, conversely: every vector of the right size is read back unchanged after loading. *)
Theorem C35_load_then_read : forall md md' f l k0, length l = vsize f ->
  exists k, k_fromVec md l f k0 = Ok k /\ exists k', k_toVec md' f k = Ok (l, k').
Proof. exact fromVec_toVec. Qed.
Print Assumptions C35_load_then_read.
(** C35: a vector too short for the flags is rejected in debug builds, and so is reading an
    unset component. *)
Theorem C35_wrong_use_rejected : forall f k, (forall l, (length l < vsize f)%nat -> k_fromVec Debug l f k = AssertFail) /\
  (~ flagged_set f k -> forall x, k_toVec Debug f k <> Ok x).
Proof.
  intros f k. split; [intros l; apply fromVec_short|]. intros N x E. apply N. clear N. unfold k_toVec in E.
  apply obind_Ok_inv in E as (a1 & E1 & E). apply obind_Ok_inv in E as ([a2 o2] & E2 & E). apply obind_Ok_inv in E as (a3 & E3 & E).
  apply obind_Ok_inv in E as (a4 & E4 & E). apply obind_Ok_inv in E as (a5 & E5 & E). apply obind_Ok_inv in E as (a6 & E6 & E).
  clear E. unfold flagged_set. split; [|split; [|split; [|split; [|split]]]]; intros F; rewrite F in *.
  1, 3-6: match goal with |- ?x <> None => destruct x; [discriminate|discriminate] end.
  destruct (ko k) as [[q|] [m|]]; try discriminate; unfold rot; cbn; congruence.
Qed.
Print Assumptions C35_wrong_use_rejected.
Example C35_case : flagged_set f_all K_a /\ coh (ko K_a) /\ length (seq 0 13) = vsize (mkF true true false true false true) /\
  ~ flagged_set f_all K_c /\ (length [1; 2] < vsize f_all)%nat.
Proof.
  split; [repeat split; discriminate|]. split; [apply K_coh|]. split; [reflexivity|].
  split; [intros (_ & O & _); now apply O|cbn; lia].
Qed.

(** C36: integrating over dt1 then dt2 is integrating over dt1 + dt2: always for the position and
    the velocities; for the orientation when there is no angular acceleration and none of the
    three rotations is below 1e-16 rad without being zero. *)
Definition resolved (t : R) (w : V3) : Prop := t * vnorm w = 0 \/ / 10000000000000000 < Rabs t * vnorm w.
Theorem C36_integration_composes : forall md k dt1 dt2, coh (ko k) ->
  exists k1 k2 k3, k_integrate md dt1 k = Ok k1 /\ k_integrate md dt2 k1 = Ok k2 /\ k_integrate md (dt1 + dt2) k = Ok k3 /\
    kp k2 = kp k3 /\ kv k2 = kv k3 /\ kw k2 = kw k3 /\ ka k2 = ka k /\ kal k2 = kal k /\ ka k3 = ka k /\ kal k3 = kal k /\
    (kal k = None \/ kal k = Some v0 ->
     (forall w, kw k = Some w -> resolved dt1 w /\ resolved dt2 w /\ resolved (dt1 + dt2) w) ->
     rot (ko k2) = rot (ko k3)).
Proof.
  intros md k dt1 dt2 H. destruct (k_integrate_ok md dt1 k H) as (k1 & E1 & H1 & P1 & V1 & W1 & A1 & L1 & N1 & R1).
  destruct (k_integrate_ok md dt2 k1 H1) as (k2 & E2 & H2 & P2 & V2 & W2 & A2 & L2 & N2 & R2).
  destruct (k_integrate_ok md (dt1 + dt2) k H) as (k3 & E3 & H3 & P3 & V3 & W3 & A3 & L3 & N3 & R3).
  exists k1, k2, k3. do 3 (split; [assumption|]).
  rewrite P2, P3, V2, V3, W2, W3, A2, A3, L2, L3, A1, L1, P1, V1, W1. rewrite W1, L1 in R2.
  split; [destruct (kp k), (kv k), (ka k); cbn [g_p g_v]; try reflexivity; f_equal; clear; d3; u3; f_equal; field|].
  split; [destruct (kv k), (ka k); cbn [g_v]; try reflexivity; f_equal; clear; c3|].
  split; [destruct (kw k), (kal k); cbn [g_v]; try reflexivity; f_equal; clear; c3|].
  do 4 (split; [reflexivity|]). intros Z C.
  destruct (rot (ko k)) as [r|] eqn:R; [|rewrite N3, N2; auto; now apply N1].
  rewrite (R3 r eq_refl), (R2 _ (R1 r eq_refl)), mmul_assoc. f_equal. f_equal.
  assert (G : forall t, g_i t (kw k) (kal k) = match kw k with Some w => vscal t w | None => v0 end).
  { intros t. destruct (kw k), Z as [-> | ->]; cbn [g_i]; try reflexivity. rewrite vscal_v0. apply vadd_0_r. }
  assert (G2 : g_i dt2 (g_v dt1 (kw k) (kal k)) (kal k) = match kw k with Some w => vscal dt2 w | None => v0 end).
  { rewrite <- G. destruct (kw k), Z as [-> | ->]; cbn [g_i g_v]; try reflexivity. now rewrite vscal_v0, vadd_0_r. }
  rewrite !G, G2. destruct (kw k) as [w|].
  - destruct (C w eq_refl) as (C1 & C2 & C3). unfold resolved in *. fold epsA in *. rewrite !rv_mat_line by assumption. rewrite rodrigues_add. f_equal. f_equal. ring.
  - now rewrite rv_mat_v0, mmul_1_l.
Qed.
Print Assumptions C36_integration_composes.
(** C36: integrate is the exact solution: with constant acceleration and constant angular
    velocity there is one motion of the frame, from the initial kinematics, whose value at every
    dt is the result of integrate(dt). *)
Theorem C36_integration_exact : forall md k p v a r w, coh (ko k) ->
  kp k = Some p -> kv k = Some v -> ka k = Some a -> rot (ko k) = Some r -> kw k = Some w -> kal k = Some v0 ->
  exists m, is_motion m /\ holds k m 0 /\ (forall t, ma m t = a) /\ (forall t, mw m t = w) /\
    forall dt, resolved dt w -> exists k', k_integrate md dt k = Ok k' /\ holds k' m dt.
Proof.
  intros md k p v a r w H P V A R W L. pose proof (coh_so3 _ _ H R) as S. exists (mo_const p v a r w).
  split; [now apply mo_const_motion|]. split.
  { unfold holds, mo_const. cbn [mp mr mv mw ma mal]. rewrite P, V, A, R, W, L, !vscal_0, rodrigues_0, mmul_1_l.
    replace (0 * 0 / 2) with 0 by field. rewrite vscal_0, !vadd_0_r. auto 10. }
  split; [reflexivity|]. split; [reflexivity|]. intros dt C.
  destruct (k_integrate_ok md dt k H) as (k1 & E1 & H1 & P1 & V1 & W1 & A1 & L1 & N1 & R1). exists k1. split; [exact E1|].
  unfold holds, mo_const. cbn [mp mr mv mw ma mal]. rewrite P1, V1, W1, A1, L1, (R1 r R), P, V, A, W, L. cbn [g_p g_v g_i].
  rewrite vscal_v0, vscal_v0, !vadd_0_r. split; [reflexivity|]. split; [exact H1|].
  unfold resolved in C. fold epsA in C. rewrite rv_mat_line by exact C. auto 10.
Qed.
Print Assumptions C36_integration_exact.
(** The free functions integrateKinematics compute the same. *)
Theorem C36_free_functions_agree : forall md dt k p v a m w al, coh (ko k) ->
  kp k = Some p -> kv k = Some v -> ka k = Some a -> rot (ko k) = Some m -> kw k = Some w -> kal k = Some al ->
  exists k', k_integrate md dt k = Ok k' /\ kp k' = Some (fst (int_pv dt a p v)) /\ kv k' = Some (snd (int_pv dt a p v)) /\
    rot (ko k') = Some (fst (int_mw dt al m w)) /\ kw k' = Some (snd (int_mw dt al m w)) /\
    forall q, qn2 q = 1 -> qrot q = m -> qrot (fst (int_qw dt al q w)) = fst (int_mw dt al m w) /\ snd (int_qw dt al q w) = snd (int_mw dt al m w).
Proof.
  intros md dt k p v a m w al H P V A R W L.
  destruct (k_integrate_ok md dt k H) as (k1 & E1 & H1 & P1 & V1 & W1 & A1 & L1 & N1 & R1). exists k1. split; [exact E1|].
  rewrite P1, V1, W1, (R1 m R), P, V, A, W, L. unfold int_pv, int_mw, int_qw. cbn [fst snd g_p g_v g_i].
  replace (1 / 2 * dt * dt) with (dt * dt / 2) by field. do 4 (split; [reflexivity|]). intros q U Q. split; [|reflexivity].
  rewrite qrot_mul, Q, rv_mat_quat; auto using rv_quat_unit.
Qed.
Print Assumptions C36_free_functions_agree.
Lemma vnorm_uz : vnorm (mkV 0 0 1) = 1.
Proof. unfold vnorm. replace (vsq (mkV 0 0 1)) with 1 by (u3; ring). apply sqrt_1. Qed.
Example C36_case : let k := mkK (Some (mkV 1 2 3)) (o_quat q1) (Some (mkV 0 1 0)) (Some (mkV 0 0 1)) (Some (mkV 0 0 9)) (Some v0) in
  coh (ko k) /\ rot (ko k) = Some m1 /\ resolved 1 (mkV 0 0 1) /\ resolved 2 (mkV 0 0 1) /\ resolved (1 + 2) (mkV 0 0 1).
Proof.
  cbn [ko]. split; [apply coh_quat, qn2_1|]. split; [unfold rot; cbn; now rewrite <- qrot_1|].
  unfold resolved. rewrite vnorm_uz. rewrite !Rabs_pos_eq by lra. lra.
Qed.
(** C36 for all durations: refuted. Two steps of 0.6e-16 s at 1 rad/s are each dropped, one step
    of 1.2e-16 s is not. *)
Theorem C36_all_durations_refuted : exists k dt k1 k2 k3, coh (ko k) /\ kal k = None /\
  k_integrate Debug dt k = Ok k1 /\ k_integrate Debug dt k1 = Ok k2 /\ k_integrate Debug (dt + dt) k = Ok k3 /\ rot (ko k2) <> rot (ko k3).
Proof.
  set (k := mkK None (o_mat m1) None (Some (mkV 0 0 1)) None None). set (dt := 6 / 100000000000000000).
  assert (H : coh (ko k)) by apply coh_mat, so3_1.
  destruct (k_integrate_ok Debug dt k H) as (k1 & E1 & H1 & _ & _ & W1 & _ & L1 & _ & R1).
  destruct (k_integrate_ok Debug dt k1 H1) as (k2 & E2 & _ & _ & _ & _ & _ & _ & _ & R2).
  destruct (k_integrate_ok Debug (dt + dt) k H) as (k3 & E3 & _ & _ & _ & _ & _ & _ & _ & R3).
  exists k, dt, k1, k2, k3. do 5 (split; [assumption || reflexivity|]).
  rewrite (R3 m1 eq_refl), (R2 _ (R1 m1 eq_refl)), W1, L1. cbn [kw kal k g_i g_v].
  assert (T : forall t, Rabs t <= epsA -> rv_mat (vscal t (mkV 0 0 1)) = m1).
  { intros t B. apply rv_small. rewrite <- vnorm_sq, vnorm_scal, vnorm_uz. pose proof (Rabs_pos t). nra. }
  assert (B : Rabs dt <= epsA) by (unfold dt, epsA; rewrite Rabs_pos_eq; lra).
  rewrite !(T dt B), !mmul_1_r. rewrite rv_mat_line.
  2: { right. rewrite vnorm_uz. unfold dt, epsA. rewrite Rabs_pos_eq; lra. }
  rewrite <- aa_rodrigues by (u3; ring). intros X. apply (f_equal (fun o => match o with Some m => m10 m | None => 0 end)) in X.
  assert (0 < sin (dt + dt)) by (apply sin_gt_0; unfold dt; pose proof PI2_3_2; lra).
  cbn in X. lra.
Qed.
Print Assumptions C36_all_durations_refuted.
