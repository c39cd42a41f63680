(** Properties C07 and C63: scalar helpers. *)
From Coq Require Import Reals Lra List.
From Verif Require Import Base Approx.
Import ListNotations.
Open Scope R_scope.

(** C07. Both comparisons are symmetric; the absolute one accepts exactly the pairs closer
    than the tolerance and is reflexive. *)
Theorem C07_isApproxAbs_spec :
  forall a b p : R,
  (isApproxAbs a b p <-> isApproxAbs b a p) /\ (0 < p -> isApproxAbs a a p) /\
  (isApproxAbs a b p <-> (b - p < a < b + p)).
Proof.
  intros a b p. unfold isApproxAbs. split; [rewrite (Rabs_minus_sym a b); reflexivity|]. split.
  - intros H. rewrite Rminus_eq_0, Rabs_R0. exact H.
  - split; intros H.
    + apply Rabs_def2 in H. lra.
    + apply Rabs_def1; lra.
Qed.
Print Assumptions C07_isApproxAbs_spec.

(** Missing for the full claim: reflexivity of the relative comparison at 0, which is false. *)
Theorem C07_isApprox_partial :
  forall a b p : R, (isApprox a b p <-> isApprox b a p) /\ (a <> 0 -> 0 < p -> isApprox a a p).
Proof. intros. split; [apply isApprox_sym | apply isApprox_refl]. Qed.
Print Assumptions C07_isApprox_partial.

Theorem C07_isApprox_reflexive_refuted :
  exists a : R, forall p : R, ~ isApprox a a p.
Proof. exists 0. exact isApprox_0. Qed.
Print Assumptions C07_isApprox_reflexive_refuted.

Example C07_example : isApprox 10 (10 + /10) (/100) /\ isApproxAbs 1 (3/2) 1 /\ ~ isApproxAbs 1 2 1.
Proof.
  unfold isApprox, isApproxAbs. repeat split.
  - rewrite Rabs_left1, Rabs_pos_eq by lra. lra.
  - rewrite Rabs_left1 by lra. lra.
  - rewrite Rabs_left1 by lra. lra.
Qed.

(** C63. clampScalar is the projection on the interval: inside the limits, the identity on
    the interval, and the nearest point of it. *)
Theorem C63_clamp_is_projection :
  forall x mx mn : R, mn <= mx ->
  mn <= clampScalar x mx mn <= mx /\
  (mn <= x <= mx -> clampScalar x mx mn = x) /\
  (forall y, mn <= y <= mx -> Rabs (clampScalar x mx mn - x) <= Rabs (y - x)).
Proof.
  intros x mx mn H. split; [apply clamp_in; exact H|]. split.
  - apply clamp_id.
  - intros y. apply clamp_nearest. exact H.
Qed.
Print Assumptions C63_clamp_is_projection.

Theorem C63_clamp_symmetric :
  forall x l : R, 0 <= l -> Rabs (clampScalar1 x l) <= l /\ (Rabs x <= l -> clampScalar1 x l = x).
Proof.
  intros x l H. unfold clampScalar1. split.
  - apply Rabs_le. apply clamp_in. lra.
  - intros Hx. apply clamp_id. unfold Rabs in Hx. destruct (Rcase_abs x); lra.
Qed.
Print Assumptions C63_clamp_symmetric.

Example C63_example : clampScalar1 5 2 = 2 /\ clampScalar1 (-5) 2 = -2 /\ clampScalar1 1 2 = 1.
Proof.
  unfold clampScalar1, clampScalar.
  repeat split; repeat match goal with |- context [Rlt_dec ?a ?b] => destruct (Rlt_dec a b) end; lra.
Qed.

(** The finite-time control does not drive every component: with the documented negative
    gains it pushes a resting positive position further away, for every such position... *)
Theorem C63_finite_time_control_refuted :
  forall x kp kv : R, 0 < x -> kp < 0 -> kv < 0 ->
  exists a, finiteTimeAccControl x 0 kp kv = Some a /\ 0 < a.
Proof. exact fta_rest_pushes_away. Qed.
Print Assumptions C63_finite_time_control_refuted.

(** ... it is not finite at the target position, ... *)
Theorem C63_finite_time_control_undefined_at_target :
  forall xd kp kv : R, finiteTimeAccControl 0 xd kp kv = None.
Proof.
  intros. unfold finiteTimeAccControl. rewrite Rabs_R0, sqrt_0.
  destruct (Req_EM_T (2 * 0) 0); [reflexivity|lra].
Qed.
Print Assumptions C63_finite_time_control_undefined_at_target.

(** ... and the vector version never computes its first component. *)
Theorem C63_finite_time_control_vector_first_component :
  forall (x0 xd0 : R) (x xd : list R) (kp kv : R),
  nth_error (finiteTimeAccControlVec (x0 :: x) (xd0 :: xd) kp kv) 0 = Some UB /\
  (forall i xi xdi, nth_error x i = Some xi -> nth_error xd i = Some xdi ->
     nth_error (finiteTimeAccControlVec (x0 :: x) (xd0 :: xd) kp kv) (S i)
     = Some (Ok (finiteTimeAccControl xi xdi kp kv))).
Proof.
  intros x0 xd0 x xd kp kv. split; [reflexivity|].
  intros i xi xdi. cbn [finiteTimeAccControlVec nth_error].
  revert x xd. induction i as [|i IH]; intros [|y x] [|yd xd]; cbn; try discriminate; auto.
  intros H1 H2. injection H1 as ->. injection H2 as ->. reflexivity.
Qed.
Print Assumptions C63_finite_time_control_vector_first_component.

Example C63_control_example : exists a, finiteTimeAccControl 1 0 (-1) (-1) = Some a /\ 0 < a.
Proof. apply fta_rest_pushes_away; lra. Qed.
