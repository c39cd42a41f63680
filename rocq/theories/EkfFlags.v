(** The feedthrough flags of the extended Kalman filter and the estimates of filters that differ in their inputs. *)
From Coq Require Import ZArith List Lia Bool.
From mathcomp Require Import all_ssreflect all_algebra.
From Verif Require Import Base Defs ZDO ZDOProofs MxLib Cholesky Kalman KFilter KFProofs.
Set Implicit Arguments.
Unset Strict Implicit.
Unset Printing Implicit Defensive.
Import Order.TTheory GRing.Theory Num.Theory.
Open Scope ring_scope.

(** extended-kalman-filter.hpp:130, 133: directInputOutputFeedthrough_ and directInputStateProcessFeedthrough_. *)
Record flags := mkFl { fl_out : bool; fl_state : bool }.
(** extended-kalman-filter.cpp:14-33, 35-54: the constructors with inputs; with p = 0 also the one of lines 5-12. *)
Definition flags_init (p : nat) (out st : bool) : flags := if (0 < p)%N then mkFl out st else mkFl false false.
(** extended-kalman-filter.cpp:70-76 setDirectInputOutputFeedthrough, 78-84 setDirectInputStateFeedthrough. *)
Inductive flag_op := FOut of bool | FState of bool.
Definition flag_step (p : nat) (o : flag_op) (f : flags) : flags :=
  if (0 < p)%N then match o with FOut b => mkFl b (fl_state f) | FState b => mkFl (fl_out f) b end else f.
Definition flags_run (p : nat) (ops : list flag_op) (f : flags) : flags := fold_left (fun f o => flag_step p o f) ops f.
(** The filter with the flags f: extended-kalman-filter.cpp:86-143 through kalman-filter-base.cpp:108-171. *)
Definition flagged_step (R : rcfType) (n nt m mt p : nat) f h ss dd (fl : flags) :=
  kf_step (@ekf_predict R n nt m mt p f h (fl_out fl) (fl_state fl)) ss dd.

Section S.
Context {X Y U E : Type}.
Lemma spec_inputs (st : @stepfun X Y U E) md ry ru1 ru2 N : forall e k x,
  (forall e j x oy, Z.le k j -> Z.lt j (Z.add k (Z.of_nat N)) -> st md e j x oy (ru1 j) (ru1 (Z.add j (Zpos xH))) = st md e j x oy (ru2 j) (ru2 (Z.add j (Zpos xH)))) ->
  est_spec st md ry ru1 N e k x = est_spec st md ry ru2 N e k x.
Proof.
elim: N => [|N IH] e k x H //=.
rewrite (H e k x); [|lia|lia].
case: (st _ _ _ _ _ _ _) => [[x1 e1]| | |] //=.
apply: IH => e2 j x2 oy H1 H2; apply: H; lia.
Qed.
End S.
