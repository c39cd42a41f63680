(** Properties C150 and C151: the kinetics observer and estimates that are not numbers. *)
From Coq Require Import ZArith List Bool Lia.
From Verif Require Import Base KinObs SpecKin KinProofs KinInv KinNan KinNanProofs.
Import ListNotations.
Open Scope Z_scope.

Section P.
Context {S Kn M C : Type} (s0 : S) (k0 : Kn) (kfirst : mode -> Kn -> outcome Kn) (kupd : mode -> Z -> Kn -> Kn -> outcome Kn) (mzero : M -> bool) (nan : S -> bool).
Notation op := (ko_op S Kn M C).
Notation kn := (@kn S Kn M C).
Notation init := (kn_init (Kn := Kn) (M := M) (C := C) s0 k0).
Notation run := (kn_run s0 kfirst kupd mzero nan).
Notation krun := (ko_run s0 kfirst kupd mzero).
Implicit Types (n : kn) (h : list op).

(** ** C150 *)
(** Whatever the filter computes and whatever state the user sets, the state that an update returns holds no NaN. *)
Theorem C150_update_returns_numbers md maxC maxI ds di dw dp n h n1 e n2 : nan s0 = false ->
  init md maxC maxI ds di dw dp = Ok n -> run md h n = Ok n1 -> o_kest (n_obs n1) <> o_kdata (n_obs n1) -> run md [KUpdate e] n1 = Ok n2 ->
  forall x, In x (o_state (n_obs n2)) -> nan x = false.
Proof.
  intros Z0 E0 E Hk E2 x Hx. pose proof (run_old _ _ _ _ _ _ _ _ _ (init_old _ _ _ _ _ _ _ _ _ _ _ Z0 E0) E) as Ho.
  unfold kn_run in E2. cbn [orun kn_step] in E2. apply obind_Ok_inv in E2. destruct E2 as (n3 & E2 & E3). injection E3 as ->.
  apply update_inv in E2. destruct E2 as [[Hk' _]|(_ & s & _ & _ & H)]; [contradiction|].
  assert (F : has_nan nan (o_state (n_obs n2)) = false) by (destruct H as [[Hn ->]|(_ & _ & -> & _)]; [exact Hn|exact Ho]).
  unfold has_nan in F. destruct (nan x) eqn:Nx; [|reflexivity]. rewrite <- F. symmetry. apply existsb_exists. eauto.
Qed.
(** In Debug an update whose estimate holds a NaN stops the program. *)
Theorem C150_nan_stops_debug e n : o_kest (n_obs n) <> o_kdata (n_obs n) -> (forall x y, exists v, In v (e x y) /\ nan v = true) -> forall n', run Debug [KUpdate e] n <> Ok n'.
Proof.
  intros Hk He n' E. unfold kn_run in E. cbn [orun kn_step] in E. apply obind_Ok_inv in E. destruct E as (n3 & E2 & E3). apply update_inv in E2.
  destruct E2 as [[Hk' _]|(_ & s & _ & _ & [[Hn _]|(_ & Hm & _)])]; [contradiction| |discriminate].
  destruct (He (o_ekf s) (o_meas s)) as (v & Hv & Nv). unfold has_nan in Hn. assert (X : existsb nan (e (o_ekf s) (o_meas s)) = true) by (apply existsb_exists; eauto). congruence.
Qed.
(** While the filter gives numbers, nothing differs from the observer of C50 to C58, C147 to C149. *)
Theorem C150_numbers_as_before md maxC maxI ds di dw dp h :
  Forall (fun o => match o with KUpdate e => forall x y v, In v (e x y) -> nan v = false | _ => True end) h ->
  (do n <- init md maxC maxI ds di dw dp; do n' <- run md h n; Ok (n_obs n')) = (do s <- ko_init s0 k0 md maxC maxI ds di dw dp; krun md h s).
Proof.
  intros H. unfold kn_init. destruct (ko_init s0 k0 md maxC maxI ds di dw dp) as [s| | |]; cbn [obind]; try reflexivity. apply numbers_run.
  eapply Forall_impl; [|exact H]. intros o Ho. destruct o; cbn in *; auto. intros x y. destruct (has_nan nan (e x y)) eqn:F; [|reflexivity].
  apply existsb_exists in F. destruct F as (v & Hv & Nv). rewrite (Ho x y v Hv) in Nv. discriminate.
Qed.

(** ** C151 *)
(** A state set by the user after an update is lost when the next estimate holds a NaN (Release): the state returned is that of
    the earlier update. *)
Theorem C151_state_set_is_lost n e n1 h n2 e' n3 : o_kest (n_obs n) <> o_kdata (n_obs n) -> run Release [KUpdate e] n = Ok n1 -> (forall x y v, In v (e x y) -> nan v = false) ->
  forallb (fun o => negb (is_update o)) h = true -> run Release h n1 = Ok n2 -> o_kest (n_obs n2) <> o_kdata (n_obs n2) ->
  (forall x y, exists v, In v (e' x y) /\ nan v = true) -> run Release [KUpdate e'] n2 = Ok n3 -> o_state (n_obs n3) = o_state (n_obs n1).
Proof.
  intros Hk E1 He Hh E2 Hk2 He' E3. apply quiet_old in E2; [|exact Hh].
  unfold kn_run in E1, E3. cbn [orun kn_step] in E1, E3. apply obind_Ok_inv in E1. destruct E1 as (m1 & E1 & X). injection X as ->. apply obind_Ok_inv in E3. destruct E3 as (m3 & E3 & X). injection X as ->.
  assert (O1 : n_old n1 = o_state (n_obs n1)).
  { apply update_inv in E1. destruct E1 as [[Hk' _]|(_ & s & _ & _ & [[_ ->]|(Hn & _)])]; [contradiction|reflexivity|]. exfalso.
    apply existsb_exists in Hn. destruct Hn as (v & Hv & Nv). rewrite (He _ _ v Hv) in Nv. discriminate. }
  apply update_inv in E3. destruct E3 as [[Hk' _]|(_ & s & _ & _ & [[Hn _]|(_ & _ & -> & _)])]; [contradiction| |congruence].
  exfalso. destruct (He' (o_ekf s) (o_meas s)) as (v & Hv & Nv). unfold has_nan in Hn. assert (Y : existsb nan (e' (o_ekf s) (o_meas s)) = true) by (apply existsb_exists; eauto). congruence.
Qed.
(** The observer does not recover (Release). Once an estimate held a NaN, with a filter whose estimate holds a NaN when the previous
    one does, every later update returns the same state, whatever is reported and whatever contacts are added, until the user sets the state. *)
Theorem C151_never_recovers n e n1 h n2 e' n3 : o_kest (n_obs n) <> o_kdata (n_obs n) -> run Release [KUpdate e] n = Ok n1 -> (forall x y, exists v, In v (e x y) /\ nan v = true) ->
  Forall (fun o => match o with KSetKine _ _ | KSetBias _ _ | KSetWrench _ | KSetVector _ => False | KUpdate e => forall x y, existsb nan x = true -> existsb nan (e x y) = true | _ => True end) (h ++ [KUpdate e']) ->
  run Release h n1 = Ok n2 -> o_kest (n_obs n2) <> o_kdata (n_obs n2) -> run Release [KUpdate e'] n2 = Ok n3 -> o_state (n_obs n3) = o_state (n_obs n1).
Proof.
  intros Hk E1 He Hh E2 Hk2 E3. apply Forall_app in Hh. destruct Hh as [Hh He'].
  unfold kn_run in E1, E3. cbn [orun kn_step] in E1, E3. apply obind_Ok_inv in E1. destruct E1 as (m1 & E1 & X). injection X as ->. apply obind_Ok_inv in E3. destruct E3 as (m3 & E3 & X). injection X as ->.
  apply update_inv in E1. destruct E1 as [[Hk' _]|(_ & s & _ & Ex & E1)]; [contradiction|]. cbv zeta in *.
  assert (Hn : has_nan nan (e (o_ekf s) (o_meas s)) = true) by (destruct (He (o_ekf s) (o_meas s)) as (v & Hv & Nv); apply existsb_exists; eauto).
  destruct E1 as [[Hn' _]|(_ & _ & Es & Eo)]; [congruence|].
  apply (stuck_run s0 kfirst kupd mzero nan) in E2.
  - destruct E2 as [A B]. apply update_inv in E3. destruct E3 as [[Hk' _]|(_ & s' & Ep & _ & [[Hn' _]|(_ & _ & -> & _)])]; [contradiction| |congruence].
    exfalso. inversion He'; subst. cbn in H1. apply prepare_ekf in Ep. rewrite <- Ep in A. unfold has_nan in *. rewrite (H1 _ _ A) in Hn'. discriminate.
  - eapply Forall_impl; [|exact Hh]. intros o Ho. destruct o; try reflexivity; destruct Ho.
  - eapply Forall_impl; [|exact Hh]. intros o Ho. destruct o; cbn; auto.
  - rewrite Ex. exact Hn.
Qed.
(** After a state vector is set, the filter starts from it again: the next update that gives numbers is that of the observer of C50 to C58. *)
Theorem C151_set_state_recovers md n v n1 h n2 e n3 : run md [KSetVector v] n = Ok n1 ->
  Forall (fun o => match o with KSetKine _ _ | KSetBias _ _ | KSetWrench _ | KSetVector _ | KUpdate _ => False | _ => True end) h -> run md h n1 = Ok n2 ->
  o_kest (n_obs n2) <> o_kdata (n_obs n2) -> (forall x y v, In v (e x y) -> nan v = false) -> run md [KUpdate e] n2 = Ok n3 ->
  exists y, o_state (n_obs n3) = e v y.
Proof.
  intros E1 Hh E2 Hk He E3. unfold kn_run in E1, E3. cbn [orun kn_step] in E1, E3. apply obind_Ok_inv in E1. destruct E1 as (m1 & E1 & X). injection X as ->. apply obind_Ok_inv in E3. destruct E3 as (m3 & E3 & X). injection X as ->.
  apply obind_Ok_inv in E1. destruct E1 as (s & Es & E1). injection Es as <-. injection E1 as <-.
  assert (K : forall h n n', Forall (fun o => match o with KSetKine _ _ | KSetBias _ _ | KSetWrench _ | KSetVector _ | KUpdate _ => False | _ => True end) h -> run md h n = Ok n' -> o_ekf (n_obs n') = o_ekf (n_obs n)).
  { clear. induction h as [|o h IH]; intros n n' H E; unfold kn_run in E; cbn [orun] in E; [injection E as <-; reflexivity|]. inversion H; subst.
    apply obind_Ok_inv in E. destruct E as (n1 & E1 & E). apply IH in E; [|assumption]. rewrite E. clear E IH.
    assert (Ho : is_update o = false /\ sets_state o = false) by (destruct o; try contradiction; auto). destruct Ho as [Hu Hs].
    rewrite step_other in E1 by exact Hu. apply obind_Ok_inv in E1. destruct E1 as (s & Es & E1). injection E1 as <-. exact (other_keeps_ekf _ _ _ _ _ _ _ _ Hu Hs Es). }
  pose proof (K _ _ _ Hh E2) as Kx. cbn in Kx. apply update_inv in E3. destruct E3 as [[Hk' _]|(_ & s & Ep & _ & [[_ ->]|(Hn & _)])]; [contradiction| |].
  - cbn. exists (o_meas s). rewrite (prepare_ekf _ _ _ Ep), Kx. reflexivity.
  - exfalso. apply existsb_exists in Hn. destruct Hn as (w & Hw & Nw). rewrite (He _ _ w Hw) in Nw. discriminate.
Qed.
End P.

(** Scalars that are numbers or NaN; two IMUs report, the filter divides by zero at the second update, and later measurements are lost. *)
Definition nnan (x : option Z) : bool := match x with None => true | _ => false end.
Definition nrun md := kn_run (S := option Z) (Kn := unit) (M := Z) (C := Z) (Some 0) (fun _ k => Ok k) (fun _ _ _ k => Ok k) (Z.eqb 0) nnan md.
Definition ninit md := kn_init (S := option Z) (Kn := unit) (M := Z) (C := Z) (Some 0) tt md 1 1 (0, 0, 0, 0) (0, 0) 0 0.
Definition nimu v : ko_op (option Z) unit Z Z := KIMU (repeat (Some v) 6) None tt 0.
(** Adds the first measurement to every component. *)
Definition nfilter (x : list (option Z)) (y : list (option (option Z))) : list (option Z) :=
  match y with Some (Some v) :: _ => map (option_map (Z.add v)) x | _ => x end.
Definition nbad (x : list (option Z)) (y : list (option (option Z))) : list (option Z) := map (fun _ => None) x.
Example C150_case : exists n n1 n2 n3, ninit Release = Ok n /\ nrun Release [nimu 5; KUpdate nfilter] n = Ok n1 /\ o_state (n_obs n1) = repeat (Some 5) 35 /\
  nrun Release [nimu 6; KUpdate nbad] n1 = Ok n2 /\ o_state (n_obs n2) = repeat (Some 5) 35 /\ o_ekf (n_obs n2) = repeat None 35 /\
  nrun Release [nimu 7; KUpdate nfilter] n2 = Ok n3 /\ o_state (n_obs n3) = repeat (Some 5) 35.
Proof. do 4 eexists. repeat (split; [vm_compute; reflexivity|]). vm_compute. reflexivity. Qed.
Example C150_case_debug : exists n n1, ninit Debug = Ok n /\ nrun Debug [nimu 5; KUpdate nfilter; nimu 6] n = Ok n1 /\ nrun Debug [KUpdate nbad] n1 = AssertFail.
Proof. do 2 eexists. repeat (split; [vm_compute; reflexivity|]). vm_compute. reflexivity. Qed.
(** A state is set before the first update, whose estimate is not a number: the state returned is zero. Setting the state again recovers. *)
Example C151_case : exists n n1 n2 n3, ninit Release = Ok n /\ nrun Release [KSetVector (repeat (Some 1) 35); nimu 5] n = Ok n1 /\ nrun Release [KUpdate nbad] n1 = Ok n2 /\
  o_state (n_obs n2) = repeat (Some 0) 35 /\ nrun Release [KSetVector (repeat (Some 1) 35); nimu 8; KUpdate nfilter] n2 = Ok n3 /\ o_state (n_obs n3) = repeat (Some 9) 35.
Proof. do 4 eexists. repeat (split; [vm_compute; reflexivity|]). vm_compute. reflexivity. Qed.
(** Refuted: after an estimate that is not a number, a good filter and good measurements, the state returned is neither the estimate nor what the
    user set, but that of the construction; and it does not change however many good measurements follow. *)
Theorem C151_recovers_refuted : exists n n1 n2, ninit Release = Ok n /\ nrun Release [KSetVector (repeat (Some 1) 35); nimu 5; KUpdate nbad] n = Ok n1 /\ o_state (n_obs n1) = repeat (Some 0) 35 /\
  nrun Release [nimu 7; KUpdate nfilter; nimu 8; KUpdate nfilter] n1 = Ok n2 /\ o_state (n_obs n2) = repeat (Some 0) 35.
Proof. do 3 eexists. repeat (split; [vm_compute; reflexivity|]). vm_compute. reflexivity. Qed.
Print Assumptions C151_recovers_refuted.
Print Assumptions C150_update_returns_numbers.
Print Assumptions C150_nan_stops_debug.
Print Assumptions C150_numbers_as_before.
Print Assumptions C151_state_set_is_lost.
Print Assumptions C151_never_recovers.
Print Assumptions C151_set_state_recovers.
