(** Proofs about the model of kine::Kinematics: composition, inverse, vectors. *)
From Coq Require Import Reals Lra Psatz List Bool.
From Verif Require Import Base Vec3 Rot SpecRot RotProofs RotProofs2 RotProofs3 Orient SpecOrient OrientProofs Kine SpecKine.
Import ListNotations.
Open Scope R_scope.

(** Components of a composition, the first frame having rotation [r]. *)
Definition c_p r (pa pb : option V3) := match pa, pb with Some p1, Some p2 => Some (vadd (mvec r p2) p1) | _, _ => None end.
Definition c_v r (pa pb va wa vb : option V3) := match pa, pb, va, wa, vb with
  | Some _, Some p2, Some v1, Some w1, Some v2 => Some (vadd (vadd (vcross w1 (mvec r p2)) (mvec r v2)) v1) | _, _, _, _, _ => None end.
Definition c_a r (pa pb va wa vb aa la ab : option V3) := match pa, pb, va, wa, vb, aa, la, ab with
  | Some _, Some p2, Some _, Some w1, Some v2, Some a1, Some al1, Some a2 =>
      Some (vadd (vadd (vadd (mvec r a2) (vcross al1 (mvec r p2)))
        (vcross w1 (vadd (vadd (vcross w1 (mvec r p2)) (mvec r v2)) (mvec r v2)))) a1) | _, _, _, _, _, _, _, _ => None end.
Definition c_o r (rb : option M3) := match rb with Some r2 => Some (mmul r r2) | None => None end.
Definition c_w r (rb : option M3) (wa wb : option V3) := match rb, wa, wb with Some _, Some w1, Some w2 => Some (vadd (mvec r w2) w1) | _, _, _ => None end.
Definition c_l r (rb : option M3) (wa wb la lb : option V3) := match rb, wa, wb, la, lb with
  | Some _, Some w1, Some w2, Some l1, Some l2 => Some (vadd (vadd (mvec r l2) (vcross w1 (mvec r w2))) l1) | _, _, _, _, _ => None end.

Lemma rot_isSet o : o_isSet o = true <-> rot o <> None.
Proof. destruct o as [[q|] [m|]]; unfold rot, o_isSet; cbn; split; intros; congruence. Qed.
Lemma rot_notSet o : o_isSet o = false <-> rot o = None.
Proof. destruct o as [[q|] [m|]]; unfold rot, o_isSet; cbn; split; intros; congruence. Qed.
Lemma rot_ok md o r v : coh o -> rot o = Some r -> exists o', o_rot md o v = Ok (mvec r v, o') /\ coh o' /\ rot o' = Some r.
Proof. intros H R. destruct (toMat_ok md o r H R) as (o' & E & A & B). exists o'. unfold o_rot. rewrite E. auto. Qed.

Ltac rotstep := match goal with
  | H : coh ?o, R : rot ?o = Some ?r |- context [o_rot ?md ?o ?v] =>
      let o' := fresh "o" in let E := fresh "E" in let A := fresh "A" in let B := fresh "B" in
      destruct (rot_ok md o r v H R) as (o' & E & A & B); rewrite E; clear E; cbn [obind]
  end.
Lemma mul_lin_ok md a b o r : coh o -> rot o = Some r ->
  exists o', k_mul_lin md a b o = Ok (c_p r (kp a) (kp b), c_v r (kp a) (kp b) (kv a) (kw a) (kv b),
     c_a r (kp a) (kp b) (kv a) (kw a) (kv b) (ka a) (kal a) (ka b), o') /\ coh o' /\ rot o' = Some r.
Proof.
  intros H R. unfold k_mul_lin, c_p, c_v, c_a.
  destruct (kp b) as [p2|]; [|exists o; destruct (kp a); auto].
  destruct (kp a) as [p1|]; [|eauto]. rotstep.
  destruct (kv b) as [v2|]; [|exists o0; destruct (kv a), (kw a); auto].
  destruct (kv a) as [v1|]; [|eauto]. destruct (kw a) as [w1|]; [|eauto]. rotstep.
  destruct (ka b) as [a2|]; [|exists o1; destruct (ka a), (kal a); auto].
  destruct (ka a) as [a1|]; [|eauto]. destruct (kal a) as [l1|]; [|eauto]. rotstep. eauto.
Qed.
Lemma mul_ang_ok md a b o r : coh o -> rot o = Some r -> coh (ko b) ->
  exists p o1 o2, k_mul_ang md a b o = Ok (p, c_w r (rot (ko b)) (kw a) (kw b), c_l r (rot (ko b)) (kw a) (kw b) (kal a) (kal b), o1, o2) /\
    coh p /\ rot p = c_o r (rot (ko b)) /\ coh o1 /\ rot o1 = Some r /\ coh o2 /\ rot o2 = rot (ko b).
Proof.
  intros H R Hb. unfold k_mul_ang, c_w, c_l, c_o. destruct (rot (ko b)) as [r2|] eqn:R2.
  - assert (S : o_isSet (ko b) = true) by (apply rot_isSet; congruence). rewrite S.
    destruct (mul_ok md o (ko b) r r2 H R Hb R2) as (p & o1 & o2 & E & Hp & Rp & H1 & R1 & H2 & R2'). rewrite E. cbn [obind].
    destruct (kw b) as [w2|]; [|exists p, o1, o2; destruct (kw a); auto 10].
    destruct (kw a) as [w1|]; [|exists p, o1, o2; auto 10]. rotstep.
    destruct (kal b) as [l2|]; [|exists p, o0, o2; destruct (kal a); auto 10].
    destruct (kal a) as [l1|]; [|exists p, o0, o2; auto 10]. rotstep. exists p, o3, o2; auto 10.
  - assert (S : o_isSet (ko b) = false) by (now apply rot_notSet). rewrite S.
    exists o_empty, o, (ko b). pose proof coh_empty. auto 10.
Qed.
(** The composition computes these components, and its operands keep their values. *)
Lemma k_mul_ok md a b r : coh (ko a) -> coh (ko b) -> rot (ko a) = Some r -> kp b <> None \/ rot (ko b) <> None ->
  exists c a' b', k_mul md a b = Ok (c, a', b') /\ coh (ko c) /\
    kp c = c_p r (kp a) (kp b) /\ rot (ko c) = c_o r (rot (ko b)) /\
    kv c = c_v r (kp a) (kp b) (kv a) (kw a) (kv b) /\ kw c = c_w r (rot (ko b)) (kw a) (kw b) /\
    ka c = c_a r (kp a) (kp b) (kv a) (kw a) (kv b) (ka a) (kal a) (ka b) /\ kal c = c_l r (rot (ko b)) (kw a) (kw b) (kal a) (kal b) /\
    coh (ko a') /\ same_kin a' a /\ coh (ko b') /\ same_kin b' b.
Proof.
  intros Ha Hb R P. unfold k_mul.
  assert (S : o_isSet (ko a) = true) by (apply rot_isSet; congruence).
  assert (S2 : (isSome (kp b) || o_isSet (ko b))%bool = true).
  { destruct P as [P|P]; [destruct (kp b); [reflexivity|congruence]|]. apply rot_isSet in P. rewrite P. now destruct (kp b). }
  rewrite S, S2. unfold boost_assert. assert (A : (match md with Debug => Ok tt | Release => Ok tt end) = Ok tt) by now destruct md.
  cbn. rewrite ?A. cbn.
  destruct (mul_lin_ok md a b (ko a) r Ha R) as (o1 & E1 & H1 & R1). rewrite E1. cbn.
  destruct (mul_ang_ok md a b o1 r H1 R1 Hb) as (p & o2 & o3 & E2 & Hp & Rp & H2 & R2 & H3 & R3). rewrite E2. cbn.
  do 3 eexists. split; [reflexivity|]. cbn. split; [exact Hp|]. split; [reflexivity|]. split; [exact Rp|].
  do 4 (split; [reflexivity|]). split; [exact H2|]. split; [unfold same_kin; cbn; rewrite R2, R; auto 10|]. split; [exact H3|].
  unfold same_kin; cbn; auto 10.
Qed.

(** Associativity of the components. *)
Ltac od := repeat match goal with |- context [match ?x with Some _ => _ | None => _ end] =>
  is_var x; destruct x; try reflexivity end.
Ltac gen3 := repeat match goal with |- context [mvec ?r ?x] => let y := fresh "y" in set (y := mvec r x); clearbody y end.
Lemma c_p_assoc r r2 p1 p2 p3 : c_p r p1 (c_p r2 p2 p3) = c_p (mmul r r2) (c_p r p1 p2) p3.
Proof. unfold c_p. od. f_equal. now rewrite mvec_add, mvec_mul, vadd_assoc. Qed.
Lemma c_v_assoc r r2 p1 p2 p3 v1 v2 v3 w1 w2 : so3 r ->
  c_v r p1 (c_p r2 p2 p3) v1 w1 (c_v r2 p2 p3 v2 w2 v3) =
  c_v (mmul r r2) (c_p r p1 p2) p3 (c_v r p1 p2 v1 w1 v2) (c_w r (Some r2) w1 w2) v3.
Proof.
  intros S. unfold c_v, c_p, c_w. od. f_equal. rewrite !mvec_mul, !mvec_add, !(so3_cross r) by exact S. gen3. clear S. c3.
Qed.
Lemma c_a_assoc r r2 p1 p2 p3 v1 v2 v3 w1 w2 a1 a2 a3 l1 l2 : so3 r ->
  c_a r p1 (c_p r2 p2 p3) v1 w1 (c_v r2 p2 p3 v2 w2 v3) a1 l1 (c_a r2 p2 p3 v2 w2 v3 a2 l2 a3) =
  c_a (mmul r r2) (c_p r p1 p2) p3 (c_v r p1 p2 v1 w1 v2) (c_w r (Some r2) w1 w2) v3
      (c_a r p1 p2 v1 w1 v2 a1 l1 a2) (c_l r (Some r2) w1 w2 l1 l2) a3.
Proof.
  intros S. unfold c_v, c_p, c_w, c_a, c_l. od. f_equal.
  rewrite !mvec_mul, !mvec_add, !(so3_cross r), !mvec_add, !(so3_cross r) by exact S. gen3. clear S. c3.
Qed.
Lemma c_o_assoc r r2 o3 : c_o r (c_o r2 o3) = c_o (mmul r r2) o3.
Proof. unfold c_o. od. f_equal. apply mmul_assoc. Qed.
Lemma c_w_assoc r r2 o3 w1 w2 w3 : c_w r (c_o r2 o3) w1 (c_w r2 o3 w2 w3) = c_w (mmul r r2) o3 (c_w r (Some r2) w1 w2) w3.
Proof. unfold c_w, c_o. od. f_equal. now rewrite mvec_add, mvec_mul, vadd_assoc. Qed.
Lemma c_l_assoc r r2 o3 w1 w2 w3 l1 l2 l3 : so3 r ->
  c_l r (c_o r2 o3) w1 (c_w r2 o3 w2 w3) l1 (c_l r2 o3 w2 w3 l2 l3) =
  c_l (mmul r r2) o3 (c_w r (Some r2) w1 w2) w3 (c_l r (Some r2) w1 w2 l1 l2) l3.
Proof.
  intros S. unfold c_l, c_w, c_o. od. f_equal. rewrite !mvec_mul, !mvec_add, !(so3_cross r) by exact S. gen3. clear S. c3.
Qed.

(** Inverse. *)
Definition i_p r (p : option V3) := option_map (fun p => vneg (mvec (mtr r) p)) p.
Definition i_w := i_p.
Definition i_l r (w l : option V3) := match w, l with Some w, Some l => Some (mvec (mtr r) (vsub (vcross w w) l)) | _, _ => None end.
Definition i_v r (p v w : option V3) := match p, v, w with Some p, Some v, Some w => Some (mvec (mtr r) (vsub (vcross w p) v)) | _, _, _ => None end.
Definition i_a r (p v w a l : option V3) := match p, v, w, a, l with
  | Some p, Some v, Some w, Some a, Some l =>
      Some (mvec (mtr r) (vadd (vsub (vcross w (vsub (vscal 2 v) (vcross w p))) a) (vcross l p))) | _, _, _, _, _ => None end.
Lemma k_inv_ok md k r : coh (ko k) -> rot (ko k) = Some r ->
  exists i, k_inv md k = Ok i /\ coh (ko i) /\ kp i = i_p r (kp k) /\ rot (ko i) = Some (mtr r) /\
    kv i = i_v r (kp k) (kv k) (kw k) /\ kw i = i_w r (kw k) /\ ka i = i_a r (kp k) (kv k) (kw k) (ka k) (kal k) /\ kal i = i_l r (kw k) (kal k).
Proof.
  intros H R. unfold k_inv.
  assert (S : o_isSet (ko k) = true) by (apply rot_isSet; congruence). rewrite S.
  assert (A : boost_assert md true = Ok tt) by now destruct md. rewrite A. cbn [obind].
  destruct (inv_ok md (ko k) r H R) as (i & E & Hi & Ri). rewrite E. cbn [obind].
  unfold i_p, i_w, i_p, i_l, i_v, i_a, option_map.
  destruct (kw k) as [w|]; [rotstep; destruct (kal k) as [l|]; [rotstep|]|]; cbn [obind];
    (destruct (kp k) as [p|]; [rotstep|]; cbn [obind]);
    try (destruct (kv k) as [v|]; [try rotstep|]; cbn [obind]);
    try (destruct (ka k) as [a|]; [try rotstep|]; cbn [obind]);
    (eexists; split; [reflexivity|]; cbn; auto 10).
Qed.

(** A composition with the inverse, component by component. *)
Definition zero_if (b : bool) : option V3 := if b then Some v0 else None.
Section Inv.
  Variables (r : M3) (S : so3 r).
  Lemma il_p p : c_p r p (i_p r p) = zero_if (isSome p).
  Proof. destruct p as [p|]; [|reflexivity]; unfold c_p, i_p, option_map, zero_if; cbn [isSome]. now rewrite mvec_neg, so3_vec_tr, vadd_neg_l. Qed.
  Lemma il_v p v w : c_v r p (i_p r p) v w (i_v r p v w) = zero_if (isSome p && isSome v && isSome w).
  Proof.
    unfold c_v, i_p, i_v, option_map. od. unfold zero_if; cbn [isSome andb]. f_equal. rewrite mvec_neg, !so3_vec_tr by exact S. clear; c3.
  Qed.
  Lemma il_w w : c_w r (Some (mtr r)) w (i_w r w) = zero_if (isSome w).
  Proof. apply il_p. Qed.
  Lemma il_l w l : c_l r (Some (mtr r)) w (i_w r w) l (i_l r w l) = zero_if (isSome w && isSome l).
  Proof.
    unfold c_l, i_w, i_p, i_l, option_map. od. unfold zero_if; cbn [isSome andb]. f_equal. rewrite mvec_neg, !so3_vec_tr by exact S. clear; c3.
  Qed.
  Lemma il_a p v w a l : c_a r p (i_p r p) v w (i_v r p v w) a l (i_a r p v w a l) = zero_if (isSome p && isSome v && isSome w && isSome a && isSome l).
  Proof.
    unfold c_a, i_p, i_v, i_a, option_map. od. unfold zero_if; cbn [isSome andb]. f_equal. rewrite mvec_neg, !so3_vec_tr by exact S. clear; c3.
  Qed.
  Let St : so3 (mtr r) := so3_tr r S.
  Lemma ir_p p : c_p (mtr r) (i_p r p) p = zero_if (isSome p).
  Proof. destruct p as [p|]; [|reflexivity]; unfold c_p, i_p, option_map, zero_if; cbn [isSome]. now rewrite vadd_neg. Qed.
  Ltac back := rewrite <- (mvec_0 (mtr r)); rewrite <- ?mvec_neg, <- ?(so3_cross (mtr r)), <- ?mvec_add, <- ?(so3_cross (mtr r)), <- ?mvec_add by exact St;
     f_equal; clear; c3.
  Lemma ir_v p v w : c_v (mtr r) (i_p r p) p (i_v r p v w) (i_w r w) v = zero_if (isSome p && isSome v && isSome w).
  Proof.
    unfold c_v, i_w, i_p, i_v, option_map. destruct p; [|reflexivity]. od. unfold zero_if; cbn [isSome andb]. f_equal. back.
  Qed.
  Lemma ir_w w o : c_w (mtr r) (Some o) (i_w r w) w = zero_if (isSome w).
  Proof. apply ir_p. Qed.
  Lemma ir_l w l o : c_l (mtr r) (Some o) (i_w r w) w (i_l r w l) l = zero_if (isSome w && isSome l).
  Proof.
    unfold c_l, i_w, i_p, i_l, option_map. destruct w; [|reflexivity]. od. unfold zero_if; cbn [isSome andb]. f_equal. back.
  Qed.
  Lemma ir_a p v w a l : c_a (mtr r) (i_p r p) p (i_v r p v w) (i_w r w) v (i_a r p v w a l) (i_l r w l) a =
    zero_if (isSome p && isSome v && isSome w && isSome a && isSome l).
  Proof.
    unfold c_a, i_w, i_p, i_v, i_a, i_l, option_map. destruct p; [|reflexivity]. od. unfold zero_if; cbn [isSome andb]. f_equal. back.
  Qed.
End Inv.
