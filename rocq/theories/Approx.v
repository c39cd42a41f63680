(** Model of the scalar comparisons of definitions.hxx:674-682 and of the clamping and
    control helpers of miscellaneous-algorithms.hpp. Doubles are exact reals. *)
From Coq Require Import Reals Lra List.
Import ListNotations.
From Verif Require Import Base.
Open Scope R_scope.

(** definitions.hxx:674-677. *)
Definition isApprox (a b p : R) : Prop := Rabs (a - b) < Rabs (a + b) * p.
(** definitions.hxx:679-682. *)
Definition isApproxAbs (a b p : R) : Prop := Rabs (a - b) < p.

(** miscellaneous-algorithms.hpp:39-44 signum, as a real. *)
Definition signum (x : R) : R :=
  (if Rlt_dec 0 x then 1 else 0) - (if Rlt_dec x 0 then 1 else 0).

(** miscellaneous-algorithms.hpp:97-115 clampScalar(x,max,min). *)
Definition clampScalar (x mx mn : R) : R :=
  if Rlt_dec mx x then mx else if Rlt_dec x mn then mn else x.

(** miscellaneous-algorithms.hpp:123-127 clampScalar(x,limit). *)
Definition clampScalar1 (x limit : R) : R := clampScalar x limit (- limit).

(** miscellaneous-algorithms.hpp:149-156 finiteTimeAccControl(x,xd,kp,kv). Line 155 divides
    by 2*sqrt|x|: at x = 0 the double result is infinite or NaN, here [None]. *)
Definition finiteTimeAccControl (x xd kp kv : R) : option R :=
  let sax := sqrt (Rabs x) in
  let xdr := kp * signum x * sax in
  let y := xd - xdr in
  let ydr := - kv * signum y * sqrt (Rabs y) in
  if Req_EM_T (2 * sax) 0 then None else Some (ydr - kp * xd / (2 * sax)).

(** miscellaneous-algorithms.hpp:159-170, vector version. The result is freshly allocated
    and the loop starts at index 1: entry 0 is never written ([UB] when read). *)
Definition finiteTimeAccControlVec (x xd : list R) (kp kv : R) : list (outcome (option R)) :=
  match x, xd with
  | _ :: x', _ :: xd' =>
      UB :: map (fun p => Ok (finiteTimeAccControl (fst p) (snd p) kp kv)) (combine x' xd')
  | _, _ => []
  end.

Lemma isApprox_sym a b p : isApprox a b p <-> isApprox b a p.
Proof.
  unfold isApprox. rewrite (Rabs_minus_sym a b), (Rplus_comm a b). reflexivity.
Qed.

Lemma isApprox_refl a p : a <> 0 -> 0 < p -> isApprox a a p.
Proof.
  intros Ha Hp. unfold isApprox. rewrite Rminus_eq_0, Rabs_R0.
  apply Rmult_lt_0_compat; auto. apply Rabs_pos_lt. lra.
Qed.

Lemma isApprox_0 p : ~ isApprox 0 0 p.
Proof. unfold isApprox. rewrite Rminus_0_r, Rplus_0_r, Rabs_R0. lra. Qed.

Lemma clamp_in x mx mn : mn <= mx -> mn <= clampScalar x mx mn <= mx.
Proof. intros H. unfold clampScalar. destruct (Rlt_dec mx x); [lra|]. destruct (Rlt_dec x mn); lra. Qed.

Lemma clamp_id x mx mn : mn <= x <= mx -> clampScalar x mx mn = x.
Proof. intros H. unfold clampScalar. destruct (Rlt_dec mx x); [lra|]. destruct (Rlt_dec x mn); lra. Qed.

Lemma clamp_nearest x mx mn y : mn <= mx -> mn <= y <= mx ->
  Rabs (clampScalar x mx mn - x) <= Rabs (y - x).
Proof.
  intros H Hy. unfold clampScalar. destruct (Rlt_dec mx x); [|destruct (Rlt_dec x mn)].
  - rewrite !Rabs_left1 by lra. lra.
  - rewrite !Rabs_pos_eq by lra. lra.
  - rewrite Rminus_eq_0, Rabs_R0. apply Rabs_pos.
Qed.

Lemma signum_pos x : 0 < x -> signum x = 1.
Proof. intros H. unfold signum. destruct (Rlt_dec 0 x), (Rlt_dec x 0); lra. Qed.

Lemma fta_rest_pushes_away x kp kv : 0 < x -> kp < 0 -> kv < 0 ->
  exists a, finiteTimeAccControl x 0 kp kv = Some a /\ 0 < a.
Proof.
  intros Hx Hp Hv. unfold finiteTimeAccControl. rewrite (signum_pos x Hx).
  assert (Hs : 0 < sqrt (Rabs x)) by (apply sqrt_lt_R0; rewrite Rabs_pos_eq; lra).
  destruct (Req_EM_T (2 * sqrt (Rabs x)) 0); [lra|].
  eexists. split; [reflexivity|].
  assert (Hy : 0 < 0 - kp * 1 * sqrt (Rabs x)) by nra.
  rewrite (signum_pos _ Hy).
  assert (0 < sqrt (Rabs (0 - kp * 1 * sqrt (Rabs x)))).
  { apply sqrt_lt_R0. rewrite Rabs_pos_eq; lra. }
  unfold Rdiv. rewrite Rmult_0_r, Rmult_0_l. nra.
Qed.
