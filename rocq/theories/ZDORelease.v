(** Debug and release builds of the zero-delay observer agree whenever the debug build
    does not assert. *)
From Coq Require Import ZArith List Lia Bool.
From Verif Require Import Base Defs SpecArray ArrayProofs ZDO ZDOProofs.
Import ListNotations.
Open Scope Z_scope.

(** [o'] returns whatever [o] returns normally. *)
Definition orefines {A} (o o' : outcome A) : Prop := forall a, o = Ok a -> o' = Ok a.

Lemma orefines_refl {A} (o : outcome A) : orefines o o.
Proof. intros a H; exact H. Qed.

Lemma orefines_bind {A B} (o o' : outcome A) (f f' : A -> outcome B) :
  orefines o o' -> (forall a, o = Ok a -> orefines (f a) (f' a)) -> orefines (obind o f) (obind o' f').
Proof.
  intros H1 H2 b Hb. destruct (obind_Ok_inv _ _ _ Hb) as (a & E1 & E2).
  rewrite (H1 a E1). cbn. exact (H2 a E1 b E2).
Qed.

Lemma orefines_assert b : orefines (boost_assert Debug b) (boost_assert Release b).
Proof. intros u H. destruct b; [exact H|discriminate]. Qed.

Lemma orefines_iter {A} n (f f' : A -> outcome A) : (forall a, orefines (f a) (f' a)) ->
  forall a, orefines (oiter n f a) (oiter n f' a).
Proof.
  intros H. induction n as [|n IH]; intros a; cbn; [apply orefines_refl|].
  apply orefines_bind; auto.
Qed.

Lemma orefines_get {A} (a : iarr A) t : orefines (ia_get Debug a t) (ia_get Release a t).
Proof.
  intros v H. rewrite ia_get_entry in *. destruct (entry a t); [exact H|discriminate].
Qed.

Lemma orefines_setValue {A} v k (a : iarr A) : orefines (ia_setValue Debug v k a) (ia_setValue Release v k a).
Proof. intros b H. exact (step_release (OSet v k) a b H). Qed.

Lemma orefines_pop {A} (a : iarr A) : orefines (ia_popFront Debug a) (ia_popFront Release a).
Proof. intros b H. exact (step_release OPop a b H). Qed.

Section R.
Context {X Y U E : Type}.
Variable sx : X -> Z.
Variable sy : Y -> Z.
Variable su : U -> Z.
Variable st : @stepfun X Y U E.

(** The derived class only differs between modes by its assertions. *)
Definition step_mode_ok : Prop := forall e k x oy oy' u1 u1' u2 u2',
  orefines oy oy' -> orefines u1 u1' -> orefines u2 u2' ->
  orefines (st Debug e k x oy u1 u2) (st Release e k x oy' u1' u2').

Ltac orf := repeat first
  [ apply orefines_refl | apply orefines_assert | apply orefines_get | apply orefines_setValue
  | apply orefines_pop
  | (apply orefines_bind; [|intros ? ?])
  | match goal with |- orefines (if ?b then _ else _) _ => destruct b end ].

Lemma orefines_local s : step_mode_ok -> orefines (local_step st Debug s) (local_step st Release s).
Proof.
  intros Hst. unfold local_step, z_time, im_time, im_get. orf.
  apply Hst; apply orefines_get.
Qed.

Lemma orefines_est k (s : zdo X Y U E) : step_mode_ok ->
  orefines (z_getEstimatedState (local_step st) Debug k s) (z_getEstimatedState (local_step st) Release k s).
Proof.
  intros Hst. unfold z_getEstimatedState, z_time, im_time, im_get.
  apply orefines_bind; [apply orefines_assert|intros _ _].
  apply orefines_bind; [orf|intros k0 _].
  apply orefines_bind; [apply orefines_assert|intros _ _].
  apply orefines_bind; [|intros; orf].
  apply orefines_iter. intros a. unfold z_iter.
  apply orefines_bind; [now apply orefines_local|intros]. orf.
Qed.

Lemma orefines_step o (s : zdo X Y U E) : step_mode_ok ->
  orefines (z_step sx sy su (local_step st) Debug o s) (z_step sx sy su (local_step st) Release o s).
Proof.
  intros Hst. destruct o; cbn [z_step].
  - unfold z_setState, z_time, im_time. orf.
  - unfold z_setCurrentState. orf.
  - orf.
  - unfold z_setMeasurement. orf.
  - unfold z_pushMeasurement, im_time. orf.
  - orf.
  - unfold z_setInput. orf.
  - unfold z_pushInput, im_time. orf.
  - orf.
  - orf.
  - orf.
  - orf.
  - orf.
  - unfold z_estimateState, omap. apply orefines_bind; [|intros; apply orefines_refl].
    apply orefines_bind.
    + destruct (0 <? ia_size (z_y s)); [|apply orefines_refl].
      apply orefines_bind; [orf|intros t _].
      apply orefines_bind; [now apply orefines_est|intros; apply orefines_refl].
    + intros s1 _. unfold z_time, im_time. orf.
  - unfold omap. apply orefines_bind; [now apply orefines_est|intros; orf].
Qed.

Lemma orefines_run ops : step_mode_ok -> forall (s : zdo X Y U E),
  orefines (z_run sx sy su (local_step st) Debug ops s) (z_run sx sy su (local_step st) Release ops s).
Proof.
  intros Hst. unfold z_run. induction ops as [|o os IH]; intros s; cbn; [apply orefines_refl|].
  apply orefines_bind; [now apply orefines_step|auto].
Qed.
End R.
