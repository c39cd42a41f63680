(** Time-indexed invariants of zero-delay observers: every recorded datum satisfies a
    predicate of its time index. Debug builds. *)
From Coq Require Import ZArith List Lia Bool.
From Verif Require Import Base Defs ZDO.
Import ListNotations.
Open Scope Z_scope.

Definition tarr {T} (P : Z -> T -> Prop) (a : iarr T) : Prop :=
  forall i v, nth_error (ia_v a) i = Some v -> P (ia_k a + Z.of_nat i) v.
Definition tmat {T} (P : Z -> T -> Prop) (a : imat T) : Prop :=
  im_set a = true -> forall v, im_v a = Some v -> P (im_k a) v.

Section Arr.
Context {T : Type} (P : Z -> T -> Prop).

Lemma tarr_nil k : tarr P (mkIarr k []).
Proof. intros [|i] v; cbn; discriminate. Qed.

Lemma nth_error_list_set (l : list T) i j v w : nth_error (list_set i v l) j = Some w ->
  (i = j /\ w = v) \/ nth_error l j = Some w.
Proof.
  revert i j; induction l as [|a l IH]; intros [|i] [|j]; cbn; intros H; auto.
  - left; split; congruence.
  - destruct (IH _ _ H) as [[-> ->]|]; auto.
Qed.

Lemma tarr_push a v : tarr P a -> P (ia_next a) v -> tarr P (ia_pushBack v a).
Proof.
  intros H Hv i w; cbn. destruct (Nat.lt_ge_cases i (length (ia_v a))) as [Hi|Hi].
  - rewrite nth_error_app1 by auto. apply H.
  - rewrite nth_error_app2 by auto. destruct (i - length (ia_v a))%nat as [|[|j]] eqn:E; cbn; try discriminate.
    intros Hw; inversion Hw; subst. unfold ia_next, ia_size in Hv.
    replace i with (length (ia_v a)) by lia. exact Hv.
Qed.

Lemma tarr_setValue a v k a' : tarr P a -> P k v -> ia_setValue Debug v k a = Ok a' -> tarr P a'.
Proof.
  unfold ia_setValue. intros H Hv. destruct (ia_checkIndex a k) eqn:E.
  - intros E'; inversion E'; subst. unfold ia_checkIndex in E.
    rewrite !andb_true_iff, Z.leb_le, !Z.ltb_lt in E. intros i w; cbn. intros Hw.
    destruct (nth_error_list_set _ _ _ _ _ Hw) as [[<- ->]|Hn]; [|apply H; auto].
    replace (ia_k a + Z.of_nat (Z.to_nat (k - ia_k a))) with k by lia. exact Hv.
  - destruct (orb _ _) eqn:E1; cbn; [|discriminate]. intros E'; inversion E'; subst.
    destruct (ia_size a =? 0) eqn:Es.
    + apply Z.eqb_eq in Es. unfold ia_size in Es. destruct (ia_v a); cbn in *; [|lia].
      intros [|[|i]] w; cbn; try discriminate. intros Hw; inversion Hw; subst. now rewrite Z.add_0_r.
    + cbn in E1. apply Z.eqb_eq in E1. apply (tarr_push a v H). unfold ia_next. now rewrite E1.
Qed.

Lemma tarr_pop md a a' : tarr P a -> ia_popFront md a = Ok a' -> tarr P a'.
Proof.
  intros H. unfold ia_popFront. destruct (boost_assert _ _); cbn; try discriminate.
  destruct (ia_v a) as [|x l] eqn:E; intros E'; inversion E'; subst.
  intros i v; cbn. intros Hn. specialize (H (S i) v). rewrite E in H. specialize (H Hn).
  replace (ia_k a + 1 + Z.of_nat i) with (ia_k a + Z.of_nat (S i)) by lia. exact H.
Qed.

Lemma tarr_pop_below lim k l : tarr P (mkIarr k l) -> tarr P (pop_below lim k l).
Proof.
  revert k; induction l as [|x l IH]; intros k H; cbn; auto.
  destruct (k <? lim); auto. apply IH. intros i v Hn. specialize (H (S i) v Hn). cbn in *.
  replace (k + 1 + Z.of_nat i) with (k + Z.pos (Pos.of_succ_nat i)) by lia. exact H.
Qed.

Lemma tarr_get md a t v : tarr P a -> ia_get md a t = Ok v -> P t v.
Proof.
  intros H. unfold ia_get, ia_at. destruct (boost_assert _ _); cbn; try discriminate.
  destruct (ia_k a <=? t) eqn:E; [|discriminate]. apply Z.leb_le in E.
  destruct (nth_error _ _) eqn:En; [|discriminate]. intros E'; inversion E'; subst.
  specialize (H _ _ En). replace t with (ia_k a + Z.of_nat (Z.to_nat (t - ia_k a))) by lia. exact H.
Qed.
End Arr.

Section Time.
Context {X Y U E : Type} (sx : X -> Z) (sy : Y -> Z) (su : U -> Z).
Variable (PX : Z -> X -> Prop) (PY : Z -> Y -> Prop) (PU : Z -> U -> Prop) (PE : E -> Prop).
Variable st : @stepfun X Y U E.
Hypothesis Hst : forall e k x y u v x' e', PE e -> PX k x ->
  (forall a, y = Ok a -> PY (k + 1) a) -> (forall a, u = Ok a -> PU k a) ->
  (forall a, v = Ok a -> PU (k + 1) a) -> st Debug e k x y u v = Ok (x', e') -> PX (k + 1) x' /\ PE e'.

Definition tinv (s : zdo X Y U E) : Prop :=
  tmat PX (z_x s) /\ tarr PY (z_y s) /\ tarr PU (z_u s) /\ PE (z_e s).

(** The datum of a call satisfies the predicate of the time index it is recorded at. *)
Definition top_ok (s : zdo X Y U E) (o : z_op X Y U) : Prop :=
  match o with
  | ZSetState x k => PX k x
  | ZSetCurrentState x => PX (im_k (z_x s)) x
  | ZSetMeas y k => PY k y
  | ZPushMeas y => PY (if 0 <? ia_size (z_y s) then ia_next (z_y s) else im_k (z_x s) + 1) y
  | ZSetInput u k => PU k u
  | ZPushInput u => PU (if 0 <? ia_size (z_u s) then ia_next (z_u s) else im_k (z_x s)) u
  | _ => True
  end.

Ltac oinv := repeat match goal with
  | H : obind ?x _ = Ok _ |- _ => destruct x eqn:?; cbn [obind] in H; try discriminate
  | H : Ok _ = Ok _ |- _ => inversion H; subst; clear H
  | p : (_ * _)%type |- _ => destruct p
  end.

Lemma local_tinv s s' : tinv s -> local_step st Debug s = Ok s' -> tinv s'.
Proof.
  intros (Hx & Hy & Hu & He). unfold local_step, z_time, im_time, im_get, boost_assert.
  destruct (im_set (z_x s)) eqn:Es; cbn; [|discriminate]. destruct (im_v (z_x s)) as [x|] eqn:Ex; cbn; [|discriminate].
  intros H. oinv. specialize (Hx Es _ Ex).
  destruct (Hst _ _ _ _ _ _ _ _ He Hx (fun a => tarr_get PY Debug _ _ a Hy) (fun a => tarr_get PU Debug _ _ a Hu)
    (fun a => tarr_get PU Debug _ _ a Hu) Heqo) as [H1 H2].
  unfold tinv; cbn. repeat split; auto. intros _ v Hv; cbn in *. inversion Hv; subst; exact H1.
Qed.

Lemma iter_tinv k s s' : tinv s -> z_iter (local_step st) Debug k s = Ok s' -> tinv s'.
Proof.
  intros H. unfold z_iter. intros E1. oinv. pose proof (local_tinv _ _ H Heqo) as (Hx & Hy & Hu & He).
  assert (Ha : tinv a0).
  { destruct (ia_first (z_y a) <? k) in Heqo0; oinv; unfold tinv; cbn; auto.
    repeat split; auto. eapply tarr_pop; eauto. }
  destruct Ha as (Hx' & Hy' & Hu' & He').
  destruct (0 <? z_p a0); [|oinv; unfold tinv; auto].
  destruct (ia_first (z_u a0) <? k); oinv; unfold tinv; cbn; auto.
  repeat split; auto. eapply tarr_pop; eauto.
Qed.

Lemma oiter_tinv k n : forall s s', tinv s -> oiter n (z_iter (local_step st) Debug k) s = Ok s' -> tinv s'.
Proof.
  induction n as [|n IH]; cbn; intros s s' H E1; oinv; auto.
  eapply IH; [|eauto]. eapply iter_tinv; eauto.
Qed.

Lemma getEst_tinv k s r : tinv s -> z_getEstimatedState (local_step st) Debug k s = Ok r ->
  tinv (fst r).
Proof.
  intros H. unfold z_getEstimatedState. intros E1. oinv. cbn.
  eapply oiter_tinv; eauto.
Qed.

Lemma z_step_tinv o s s' : tinv s -> top_ok s o -> z_step sx sy su (local_step st) Debug o s = Ok s' -> tinv s'.
Proof.
  intros Hs Ho. pose proof Hs as (Hx & Hy & Hu & He).
  destruct o; cbn [z_step top_ok] in *.
  - unfold z_setState, z_time, im_time. intros E1. destruct (boost_assert Debug (sx x =? z_n s)); cbn in E1; try discriminate.
    rewrite Z.ltb_irrefl in E1. cbn in E1.
    assert (tarr PY (pop_below (k + 1) (ia_k (z_y s)) (ia_v (z_y s)))).
    { apply tarr_pop_below. destruct (z_y s); exact Hy. }
    assert (tarr PU (pop_below k (ia_k (z_u s)) (ia_v (z_u s)))).
    { apply tarr_pop_below. destruct (z_u s); exact Hu. }
    assert (tmat PX (im_put x k)). { intros _ v Hv; cbn in *; inversion Hv; subst; auto. }
    destruct (0 <? z_p s); oinv; unfold tinv; cbn; auto.
  - unfold z_setCurrentState. intros E1. oinv. unfold tinv; cbn. repeat split; auto.
    intros _ v Hv; cbn in *; inversion Hv; subst; auto.
  - intros E1; oinv. unfold tinv; cbn. repeat split; auto. intros Hf; cbn in Hf; discriminate.
  - unfold z_setMeasurement. intros E1. oinv. unfold tinv; cbn. repeat split; auto. eapply tarr_setValue; eauto.
  - unfold z_pushMeasurement. intros E1. oinv. destruct (0 <? ia_size (z_y s)); oinv; unfold tinv; cbn.
    + repeat split; auto. apply tarr_push; auto.
    + repeat split; auto. eapply tarr_setValue; [eassumption| |eassumption].
      match goal with H : im_time _ _ = Ok ?a |- _ => replace a with (im_k (z_x s)); [exact Ho|];
        unfold im_time in H; destruct (boost_assert _ _) in H; cbn in H; try discriminate; congruence end.
  - intros E1; oinv. unfold tinv; cbn. repeat split; auto. apply tarr_nil.
  - unfold z_setInput. intros E1. destruct (0 <? z_p s); oinv; auto. unfold tinv; cbn. repeat split; auto. eapply tarr_setValue; eauto.
  - unfold z_pushInput. intros E1. destruct (0 <? z_p s); oinv; auto. destruct (0 <? ia_size (z_u s)); oinv; unfold tinv; cbn.
    + repeat split; auto. apply tarr_push; auto.
    + repeat split; auto. eapply tarr_setValue; [eassumption| |eassumption].
      match goal with H : im_time _ _ = Ok ?a |- _ => replace a with (im_k (z_x s)); [exact Ho|];
        unfold im_time in H; destruct (boost_assert _ _) in H; cbn in H; try discriminate; congruence end.
  - intros E1; oinv. unfold tinv; cbn. repeat split; auto. apply tarr_nil.
  - intros E1; oinv. unfold tinv; cbn. repeat split; auto; try apply tarr_nil; intros Hf; cbn in Hf; discriminate.
  - unfold z_setStateSize. intros E1; oinv. destruct (n =? z_n s); auto. unfold tinv; cbn. repeat split; auto. intros Hf; cbn in Hf; discriminate.
  - unfold z_setMeasureSize. intros E1; oinv. destruct (m =? z_m s); auto. unfold tinv; cbn. repeat split; auto; apply tarr_nil.
  - unfold z_setInputSize. intros E1; oinv. destruct (p =? z_p s); auto. unfold tinv; cbn. repeat split; auto; apply tarr_nil.
  - unfold z_estimateState, omap. intros E1. oinv. cbn. destruct (0 <? ia_size (z_y s)); oinv; auto.
    apply (getEst_tinv _ _ _ Hs Heqo2).
  - unfold omap. intros E1. oinv. apply (getEst_tinv _ _ _ Hs Heqo).
Qed.
End Time.
