(** Sizes recorded by a zero-delay observer only change through the size setters. *)
From Coq Require Import ZArith List Lia.
From Verif Require Import Base Defs ZDO.
Open Scope Z_scope.

Section S.
Context {X Y U E : Type} (sx : X -> Z) (sy : Y -> Z) (su : U -> Z) (st : @stepfun X Y U E).
Notation zdo := (zdo X Y U E).
Definition sz3 (s : zdo) : Z * Z * Z := (z_n s, z_m s, z_p s).

Lemma local_sz md s s' : local_step st md s = Ok s' -> sz3 s' = sz3 s.
Proof.
  unfold local_step. destruct (z_time md s); cbn; try discriminate.
  destruct (im_get md (z_x s)); cbn; try discriminate.
  destruct (st _ _ _ _ _ _ _) as [[x' e']| | |]; cbn; try discriminate. now intros [= <-].
Qed.

Lemma iter_sz md k s s' : z_iter (local_step st) md k s = Ok s' -> sz3 s' = sz3 s.
Proof.
  unfold z_iter. destruct (local_step st md s) as [s1| | |] eqn:E1; cbn; try discriminate.
  apply local_sz in E1.
  destruct (ia_first (z_y s1) <? k).
  - destruct (ia_popFront md (z_y s1)); cbn; try discriminate.
    destruct (0 <? z_p s1); [|intros [= <-]; exact E1].
    destruct (ia_first (z_u s1) <? k); [|intros [= <-]; exact E1].
    destruct (ia_popFront md (z_u s1)); cbn; try discriminate. intros [= <-]; exact E1.
  - cbn. destruct (0 <? z_p s1); [|intros [= <-]; exact E1].
    destruct (ia_first (z_u s1) <? k); [|intros [= <-]; exact E1].
    destruct (ia_popFront md (z_u s1)); cbn; try discriminate. intros [= <-]; exact E1.
Qed.

Lemma oiter_sz md k n : forall s s', oiter n (z_iter (local_step st) md k) s = Ok s' -> sz3 s' = sz3 s.
Proof.
  induction n as [|n IH]; cbn; intros s s'; [now intros [= <-]|].
  destruct (z_iter (local_step st) md k s) as [s1| | |] eqn:E1; cbn; try discriminate.
  intros H. rewrite (IH _ _ H). now apply iter_sz in E1.
Qed.

Lemma getEst_sz md k s r : z_getEstimatedState (local_step st) md k s = Ok r -> sz3 (fst r) = sz3 s.
Proof.
  unfold z_getEstimatedState. destruct (boost_assert _ _); cbn; try discriminate.
  destruct (z_time md s); cbn; try discriminate.
  destruct (boost_assert _ _); cbn; try discriminate.
  destruct (oiter _ _ _) as [s1| | |] eqn:E1; cbn; try discriminate.
  destruct (im_get _ _); cbn; try discriminate. intros [= <-]. now apply oiter_sz in E1.
Qed.

Ltac ob := repeat match goal with
  | |- context [obind (boost_assert ?a ?b) _] => destruct (boost_assert a b); cbn; try discriminate
  | |- context [obind (im_time ?a ?b) _] => destruct (im_time a b); cbn; try discriminate
  | |- context [obind (ia_setValue ?a ?b ?c ?d) _] => destruct (ia_setValue a b c d); cbn; try discriminate
  | |- context [obind (if ?a then _ else _) _] => destruct a; cbn; try discriminate
  | |- (if ?a then _ else _) = _ -> _ => destruct a; cbn; try discriminate
  end; try (intros [= <-]; reflexivity).

Lemma z_step_sz md o s s' :
  match o with
  | ZStateSize k => k = z_n s | ZMeasSize k => k = z_m s | ZInputSize k => k = z_p s | _ => True end ->
  z_step sx sy su (local_step st) md o s = Ok s' -> sz3 s' = sz3 s.
Proof.
  destruct o; intros Ho; cbn; try (intros [= <-]; reflexivity).
  - unfold z_setState, z_time. ob.
  - unfold z_setCurrentState. ob.
  - unfold z_setMeasurement. ob.
  - unfold z_pushMeasurement. ob.
  - unfold z_setInput. ob.
  - unfold z_pushInput. ob.
  - intros [= <-]. unfold z_setStateSize. now rewrite Ho, Z.eqb_refl.
  - intros [= <-]. unfold z_setMeasureSize. now rewrite Ho, Z.eqb_refl.
  - intros [= <-]. unfold z_setInputSize. now rewrite Ho, Z.eqb_refl.
  - unfold z_estimateState, omap.
    destruct (0 <? ia_size (z_y s)) eqn:Ez.
    + destruct (boost_assert md true); cbn [obind]; try discriminate.
      destruct (z_getEstimatedState _ _ _ _) as [r| | |] eqn:Eg; cbn; try discriminate.
      apply getEst_sz in Eg. destruct (z_time md (fst r)); cbn; try discriminate. now intros [= <-].
    + cbn. destruct (z_time md s); cbn; try discriminate. now intros [= <-].
  - unfold omap. destruct (z_getEstimatedState _ _ _ _) as [r| | |] eqn:Eg; cbn; try discriminate.
    apply getEst_sz in Eg. now intros [= <-].
Qed.
End S.
