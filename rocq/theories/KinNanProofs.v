(** Lemmas about estimates that are not numbers. *)
From Coq Require Import ZArith List Bool Lia.
From Verif Require Import Base KinObs SpecKin KinProofs KinInv KinNan.
Import ListNotations.
Open Scope Z_scope.

Section P.
Context {S Kn M C : Type} (s0 : S) (k0 : Kn) (kfirst : mode -> Kn -> outcome Kn) (kupd : mode -> Z -> Kn -> Kn -> outcome Kn) (mzero : M -> bool) (nan : S -> bool).
Notation obs := (obs S Kn M C).
Notation op := (ko_op S Kn M C).
Notation step := (kn_step s0 kfirst kupd mzero nan).
Notation run := (kn_run s0 kfirst kupd mzero nan).
Notation kn := (@kn S Kn M C).
Notation kstep := (ko_step s0 kfirst kupd mzero).
Notation krun := (ko_run s0 kfirst kupd mzero).

Definition is_update (o : op) : bool := match o with KUpdate _ => true | _ => false end.
Definition sets_state (o : op) : bool := match o with KSetKine _ _ | KSetBias _ _ | KSetWrench _ | KSetVector _ => true | _ => false end.

Lemma step_other md (o : op) n : is_update o = false -> step md o n = (do s <- kstep md o (n_obs n); Ok (mkKn s (n_old n))).
Proof. destruct o; try discriminate; reflexivity. Qed.
Lemma update_inv md e (n n' : kn) : kn_update nan md e n = Ok n' ->
  (o_kest (n_obs n) = o_kdata (n_obs n) /\ n' = n) \/
  (o_kest (n_obs n) <> o_kdata (n_obs n) /\ exists s, ko_prepare md (n_obs n) = Ok s /\ let x := e (o_ekf s) (o_meas s) in o_ekf (n_obs n') = x /\
    (has_nan nan x = false /\ n' = mkKn (ko_finish e s) x \/ has_nan nan x = true /\ md = Release /\ o_state (n_obs n') = n_old n /\ n_old n' = n_old n)).
Proof.
  unfold kn_update. destruct (Z.eqb_spec (o_kest (n_obs n)) (o_kdata (n_obs n))) as [H|H]; intros E.
  - left. injection E as <-. auto.
  - right. split; [exact H|]. apply obind_Ok_inv in E. destruct E as (s & Es & E). exists s. split; [exact Es|]. cbv zeta in *.
    apply obind_Ok_inv in E. destruct E as ([st old] & Eo & E). injection E as <-. cbn [n_obs]. split; [reflexivity|]. destruct (has_nan nan _) eqn:Hx.
    + right. apply obind_Ok_inv in Eo. destruct Eo as (c & Ec & Eo). injection Eo as <- <-. destruct md; [discriminate|]. injection Ec as <-. auto.
    + left. injection Eo as <- <-. auto.
Qed.
(** oldStateVector_ never holds a NaN. *)
Lemma step_old md (o : op) (n n' : kn) : has_nan nan (n_old n) = false -> step md o n = Ok n' -> has_nan nan (n_old n') = false.
Proof.
  intros H E. destruct (is_update o) eqn:Ho.
  - destruct o; try discriminate. cbn [kn_step] in E. apply update_inv in E. destruct E as [[_ ->]|(_ & s & _ & _ & [[Hx ->]|(_ & _ & _ & ->)])]; auto.
  - rewrite step_other in E by exact Ho. apply obind_Ok_inv in E. destruct E as (s & _ & E). injection E as <-. exact H.
Qed.
Lemma run_old md (h : list op) : forall n n', has_nan nan (n_old n) = false -> run md h n = Ok n' -> has_nan nan (n_old n') = false.
Proof.
  induction h as [|o h IH]; intros n n' H E; unfold kn_run in E; cbn [orun] in E.
  - injection E as <-. exact H.
  - apply obind_Ok_inv in E. destruct E as (n1 & E1 & E). eapply IH; [|exact E]. eapply step_old; eauto.
Qed.
Lemma init_old md maxC maxI ds di dw dp n : nan s0 = false -> kn_init s0 k0 md maxC maxI ds di dw dp = Ok (n : kn) -> has_nan nan (n_old n) = false.
Proof.
  intros H E. unfold kn_init in E. apply obind_Ok_inv in E. destruct E as (s & Es & E). injection E as <-. cbn [n_old].
  unfold ko_init in Es. apply obind_Ok_inv in Es. destruct Es as (u & _ & Es). injection Es as <-. cbn [o_state]. unfold has_nan.
  match goal with |- existsb nan (repeat _ ?k) = _ => induction k; cbn; [reflexivity|] end. now rewrite H.
Qed.
(** The filter keeps its estimate in the calls that do not set the state. *)
Lemma other_keeps_ekf md (o : op) s s' : is_update o = false -> sets_state o = false -> kstep md o s = Ok s' -> o_ekf s' = o_ekf s.
Proof.
  intros Hu Hs E. assert (St : o_ekf (ko_start s) = o_ekf s) by (unfold ko_start; destruct (_ =? _); cbn; auto).
  destruct o as [pv num st|n| |sig cov k num|w cov k n|k n|sig cov| |kv rf|b i|w|v|b|b|b| |e]; cbn [ko_step] in E; try discriminate.
  - apply obind_Ok_inv in E. destruct E as ([n s1] & E & Es). injection Es as <-. apply add_inv in E. destruct E as (n0 & c & x & _ & _ & _ & _ & _ & _ & _ & ->). reflexivity.
  - apply remove_inv in E. destruct E as (c & _ & _ & _ & ->). reflexivity.
  - injection E as <-. reflexivity.
  - apply obind_Ok_inv in E. destruct E as ([n s1] & E & Es). injection Es as <-. apply setIMU_inv in E. destruct E as (i & k' & _ & _ & _ & _ & _ & ->). exact St.
  - apply wrench_inv in E. destruct E as (c & k' & _ & _ & _ & _ & ->). exact St.
  - apply nosensor_inv in E. destruct E as (c & k' & _ & _ & _ & _ & ->). exact St.
  - injection E as <-. exact St.
  - injection E as <-. exact St.
  - injection E as <-. reflexivity.
  - injection E as <-. reflexivity.
  - injection E as <-. reflexivity.
  - injection E as <-. reflexivity.
Qed.
Lemma prepare_ekf md (s s' : obs) : ko_prepare md s = Ok s' -> o_ekf s' = o_ekf s.
Proof. intros E. apply prepare_shape in E. destruct E as ((y & r & p & -> & _) & _). reflexivity. Qed.
Definition propagates (o : op) : Prop := match o with KUpdate e => forall x y, has_nan nan x = true -> has_nan nan (e x y) = true | _ => True end.
Lemma stuck_step md (o : op) (n n' : kn) : sets_state o = false -> propagates o -> has_nan nan (o_ekf (n_obs n)) = true -> step md o n = Ok n' ->
  has_nan nan (o_ekf (n_obs n')) = true /\ n_old n' = n_old n.
Proof.
  intros Hs Hp Hn E. destruct (is_update o) eqn:Ho.
  - destruct o; try discriminate. cbn [kn_step propagates] in *. apply update_inv in E. destruct E as [[_ ->]|(_ & s & Es & Ex & E)]; [auto|].
    assert (Hx : has_nan nan (e (o_ekf s) (o_meas s)) = true) by (apply Hp; rewrite (prepare_ekf _ _ _ Es); exact Hn).
    cbv zeta in *. rewrite Ex. destruct E as [[Hx' _]|(_ & _ & _ & Eo)]; [congruence|]. auto.
  - rewrite step_other in E by exact Ho. apply obind_Ok_inv in E. destruct E as (s & Es & E). injection E as <-. cbn [n_obs n_old]. rewrite (other_keeps_ekf _ _ _ _ Ho Hs Es). auto.
Qed.
Lemma stuck_run md (h : list op) : forall n n', Forall (fun o => sets_state o = false) h -> Forall propagates h -> has_nan nan (o_ekf (n_obs n)) = true -> run md h n = Ok n' ->
  has_nan nan (o_ekf (n_obs n')) = true /\ n_old n' = n_old n.
Proof.
  induction h as [|o h IH]; intros n n' Hs Hp Hn E; unfold kn_run in E; cbn [orun] in E.
  - injection E as <-. auto.
  - inversion Hs; inversion Hp; subst. apply obind_Ok_inv in E. destruct E as (n1 & E1 & E). apply stuck_step in E1; auto. destruct E1 as [A B].
    destruct (IH _ _ H2 H6 A E) as [A' B']. split; congruence.
Qed.
(** Without updates oldStateVector_ does not change. *)
Lemma quiet_old md (h : list op) : forall n n', forallb (fun o => negb (is_update o)) h = true -> run md h n = Ok n' -> n_old n' = n_old n.
Proof.
  induction h as [|o h IH]; intros n n' H E; unfold kn_run in E; cbn [orun forallb] in *.
  - injection E as <-. reflexivity.
  - apply andb_prop in H. destruct H as [Ho H]. apply negb_true_iff in Ho. apply obind_Ok_inv in E. destruct E as (n1 & E1 & E).
    rewrite step_other in E1 by exact Ho. apply obind_Ok_inv in E1. destruct E1 as (s & _ & E1). injection E1 as <-. apply IH in E; auto.
Qed.
(** While the filter gives numbers, this is the observer of KinObs.v. *)
Definition numbers (o : op) : Prop := match o with KUpdate e => forall x y, has_nan nan (e x y) = false | _ => True end.
Lemma numbers_step md (o : op) (n : kn) : numbers o -> (do n' <- step md o n; Ok (n_obs n')) = kstep md o (n_obs n).
Proof.
  intros H. destruct (is_update o) eqn:Ho.
  - destruct o; try discriminate. cbn [kn_step ko_step numbers] in *. unfold kn_update, ko_update. destruct (_ =? _); [reflexivity|]. destruct (ko_prepare md (n_obs n)); cbn [obind]; try reflexivity.
    rewrite H. reflexivity.
  - rewrite step_other by exact Ho. destruct (kstep md o (n_obs n)); reflexivity.
Qed.
Lemma numbers_run md (h : list op) : Forall numbers h -> forall n, (do n' <- run md h n; Ok (n_obs n')) = krun md h (n_obs n).
Proof.
  induction 1 as [|o h Ho H IH]; intros n; unfold kn_run, ko_run; cbn [orun]; [reflexivity|].
  rewrite <- (numbers_step md o n Ho). destruct (step md o n); cbn [obind]; try reflexivity. apply IH.
Qed.
End P.
