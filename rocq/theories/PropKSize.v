(** Properties C27 and C113 for the matrices of the Kalman filters. *)
From Coq Require Import ZArith List Bool Lia ssreflect.
From Verif Require Import Base KSize.
Import ListNotations.
Open Scope Z_scope.

(** C27. Sizes of the matrices of a Kalman filter, over all histories of setters, steps and
    size changes in Debug: each matrix is empty or has the current size. *)
Definition C27_fits (linear : bool) (s : ksz) : Prop :=
  (s_a s = (0, 0) \/ s_a s = (s_nt s, s_nt s)) /\ (s_c s = (0, 0) \/ s_c s = (s_mt s, s_nt s)) /\
  (s_q s = (0, 0) \/ s_q s = (s_nt s, s_nt s)) /\ (s_r s = (0, 0) \/ s_r s = (s_mt s, s_mt s)) /\
  (s_pr s = (0, 0) \/ s_pr s = (s_nt s, s_nt s)) /\
  (linear = true -> (s_b s = (0, 0) \/ s_b s = (s_n s, s_p s)) /\ (s_d s = (0, 0) \/ s_d s = (s_m s, s_p s))).

Theorem C27_kalman_matrices_fit :
  forall linear n nt m mt p ops s, s_run linear Debug ops (s_init n nt m mt p) = Ok s -> C27_fits linear s.
Proof.
move=> linear n nt m mt p ops s.
have : C27_fits linear (s_init n nt m mt p) by do 5!(split; first by left); split; left.
move: (s_init n nt m mt p) => s0; elim: ops s0 => [|o os IH] s0 H; first by case=> <-.
rewrite /s_run /=; case Es : (s_step _ _ _ _) => [s1| | |] //= Hr; apply: IH Hr.
have DE : forall a b, dim_eqb a b = true -> a = b.
  by move=> [a1 a2] [b1 b2] /andb_prop[/Z.eqb_eq /= -> /Z.eqb_eq /= ->].
case: s0 H Es => n0 nt0 m0 mt0 p0 a c q r pr b d xb yb x [/= Ha [Hc [Hq [Hr' [Hp Hl]]]]].
rewrite /C27_fits; case: o => [v|v|v|v|v|v|v| | |k| |n' nt'|m' mt'|p'] /=.
all: rewrite /boost_assert; unfold okA, okB, okC, okD, okR in *; simpl.
all: try (match goal with |- context [dim_eqb ?a ?b] => destruct (dim_eqb a b) eqn:E end; [|discriminate];
  apply DE in E; subst; cbn; intros [= <-]; cbn; intuition auto; fail).
- move=> [<-] /=; intuition auto.
- move=> [<-] /=; intuition auto.
- move=> [<-] /=; intuition auto.
- case: x => [k|] //; case: (_ && _) => //=; case: (_ && _) => // -[<-] /=; intuition auto.
- case: linear Hl => Hl.
    by case: (n' =? n0) => -[<-] //=; intuition auto.
  by case: (_ && _) => -[<-] //=; intuition auto.
- case: linear Hl => Hl.
    by case: (m' =? m0) => -[<-] //=; intuition auto.
  by case: (_ && _) => -[<-] //=; intuition auto.
- by case: (p' =? p0); [move=> [<-]; intuition auto|case: linear Hl => Hl -[<-] /=; intuition auto].
Qed.
Print Assumptions C27_kalman_matrices_fit.

(** Changing both sizes of a configured linear filter, configuring again and stepping. *)
Definition C27_cycle (n m p : Z) : list sop :=
  [SA (n, n); SC (m, n); SQ (n, n); SR (m, m); SP (n, n); SB (n, p); SSetState 0; SStep].
Example C27_example :
  exists s, s_run true Debug (C27_cycle 3 2 1 ++ SStateSize 5 5 :: SMeasSize 4 4 :: C27_cycle 5 4 1)
     (s_init 3 3 2 2 1) = Ok s /\ s_pr s = (5, 5).
Proof. by eexists; split. Qed.

(** C27 is false of the prediction caches of the extended filter: after a change of the state
    size, every matrix has the new size, yet the next step combines vectors of different sizes. *)
Theorem C27_ekf_cache_fits_refuted :
  exists ops s, s_run false Debug ops (s_init 3 3 2 2 0) = Ok s /\
   s_a s = (s_nt s, s_nt s) /\ s_c s = (s_mt s, s_nt s) /\ s_q s = (s_nt s, s_nt s) /\
   s_r s = (s_mt s, s_mt s) /\ s_pr s = (s_nt s, s_nt s) /\ s_x s = Some Z0 /\
   s_step false Debug SStep s = UB.
Proof.
exists [SA (3, 3); SC (2, 3); SQ (3, 3); SR (2, 2); SP (3, 3); SSetState 0; SStep;
    SStateSize 5 5; SA (5, 5); SC (2, 5); SQ (5, 5); SP (5, 5); SSetState 0].
by eexists; split; first by vm_compute; reflexivity.
Qed.
Print Assumptions C27_ekf_cache_fits_refuted.

(** C113. After reset(), whatever is called, no step is made before a covariance of the state is given (in
    Debug; a state without components needs none). *)
Definition C113_sets_covariance (o : sop) : bool := match o with SP _ => true | _ => false end.
Theorem C113_reset_forgets_covariance :
  forall linear n nt m mt p before after s, s_run linear Debug (before ++ SReset :: after) (s_init n nt m mt p) = Ok s ->
  existsb C113_sets_covariance after = false -> s_nt s <> 0 -> s_step linear Debug SStep s = AssertFail.
Proof.
move=> linear n nt m mt p before after s; rewrite /s_run orun_app.
case: (orun _ before _) => [s0| | |] //=; case Er : (s_step linear Debug SReset s0) => [s1| | |] //= H Ha Hn.
have P1 : s_pr s1 = d0 by case: s0 Er => n0 nt0 m0 mt0 p0 a c q r pr b d xb yb x /= [<-].
have : s_pr s = d0.
  clear Er Hn; elim: after s1 P1 H Ha => [|o os IH] s1 P1 /=; first by case=> <-.
  case Es : (s_step _ _ _ _) => [s2| | |] //= Hr Ha.
  have [Ho Hos] : C113_sets_covariance o = false /\ existsb C113_sets_covariance os = false by apply/orb_false_elim.
  apply: IH Hr Hos; clear Ha.
  case: s1 P1 Es => n0 nt0 m0 mt0 p0 a c q r pr b d xb yb x /= ->.
  case: o Ho => [v|v|v|v|v|v|v| | |k| |n' nt'|m' mt'|p'] //= _; rewrite /boost_assert.
  all: try (repeat match goal with |- context [if ?t then _ else _] => destruct t end; cbn; intros E; try discriminate; injection E as <-; reflexivity).
  case: x => [k|] //; case E : (_ && _) => //=; case: (_ && _) => // -[<-] /=.
  apply andb_prop in E; destruct E as [E _]; apply andb_prop in E; destruct E as [_ E]; rewrite /okA /dim_eqb /= in E.
  by apply andb_prop in E; destruct E as [E _]; destruct nt0.
case: s Hn {H} => n0 nt0 m0 mt0 p0 a c q r pr b d xb yb x /= Hn ->.
case: x => [k|] //; rewrite {3}/okA /dim_eqb /=.
by case: nt0 Hn => [|q0|q0] // _; rewrite /= !andb_false_r.
Qed.
Print Assumptions C113_reset_forgets_covariance.
Example C113_case : exists s, s_run true Debug (C27_cycle 3 2 1 ++ SReset :: [SSetState 4]) (s_init 3 3 2 2 1) = Ok s /\ s_nt s = 3 /\ s_x s = Some 4 /\
  exists s', s_run true Debug [SP (3, 3); SStep] s = Ok s'.
Proof. eexists. split; [vm_compute; reflexivity|]. split; [reflexivity|]. split; [reflexivity|]. eexists. vm_compute. reflexivity. Qed.
