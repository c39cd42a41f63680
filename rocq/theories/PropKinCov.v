(** Properties C55, C79 and C80: the covariances of the kinetics observer. *)
From mathcomp Require Import all_ssreflect all_algebra.
From Coq Require Import ZArith Lia List.
From Verif Require Import Base MxLib KinObs SpecKin KinProofs KinInv KinThms KinCov SpecKinCov KinCovProofs KinCovThms.
Set Implicit Arguments.
Unset Strict Implicit.
Unset Printing Implicit Defensive.
Import GRing.Theory Num.Theory.
Local Open Scope ring_scope.

Section Cov.
Variable R : rcfType.
(** Any scalars, kinematics, stiffness matrices and sensor covariances. *)
Context {S : Type} (s0 : S) {Kn : Type} (k0 : Kn) (kfirst : mode -> Kn -> outcome Kn) (kupd : mode -> Z -> Kn -> Kn -> outcome Kn).
Context {M : Type} (mzero : M -> bool) {C : Type}.
Variables maxC maxI : nat.
Notation nt := (tsize maxC maxI).
Notation kcov := (kcov R S Kn M C nt).
Notation op := (kc_op R S Kn M C nt).
Notation init := (kc_init R s0 k0).
Notation step := (kc_step s0 kfirst kupd mzero).
Notation run := (kc_run s0 kfirst kupd mzero).
Notation start md s := (fun c z => comp_start md true (kc_obs s) c = Ok z).
Implicit Types (s : kcov) (h : list op).
Notation NX := (Z.to_nat (stateSize (Z.of_nat maxC) (Z.of_nat maxI))).
(** States reached without clearContacts, by calls with arguments of the right sizes. *)
Definition reachable (md : mode) s : Prop := exists ds di dw dp s1 h,
  [/\ init md maxC maxI ds di dw dp = Ok s1, forallb (@no_clear S Kn M C) (obs_ops h), Forall (wf_op NX) (obs_ops h) & run md h s1 = Ok s].
Lemma reach_inv md s : reachable md s -> inv maxC maxI (kc_obs s) /\ (md = Debug -> (0 < maxI)%coq_nat).
Proof. by move=> [ds [di [dw [dp [s1 [h [E0 Hn Hw E]]]]]]]; have [] := reach E0 Hn Hw E. Qed.

(** ** C55 *)
(** Missing: the state setters with resetCovariance, see the refutations below (setStateKinematics
    without resetForces is here).
    The setters and resets of one block succeed, put the matrix at the place of the component in the
    tangent vector, clear its covariances with the rest, and change nothing else. *)
Theorem C55_block_isolated_partial md s (o : op) q c p : reachable md s ->
  target (kc_d s) o = Some (q, c, p) -> comp_exists (kc_obs s) c ->
  match o with @CKine _ _ _ _ _ _ m _ => m = 12%nat | CSetKine kv _ => length kv = 13%nat | _ => True end ->
  exists z s', [/\ comp_start md true (kc_obs s) c = Ok z, step md o s = Ok s',
    isolates z (projT2 p) (if q then kc_Q s else kc_P s) (if q then kc_Q s' else kc_P s')
    & (if q then kc_P s' else kc_Q s') = (if q then kc_P s else kc_Q s)].
Proof.
move=> /reach_inv[Hi Hm] Ht He Hw; have [||z [s' [E1 E2 E3 E4]]] := target_ok s0 kfirst kupd mzero Hi Hm Ht He.
- by move: Ht Hw; clear; case: o => // [m B|q' B i|q' B|q' n B|q'|q' i|q'|q' n|kv [] //] [_ <- <-].
- by move: Hw; case: (o).
by exists z, s'; split=> //; move: E4; case: (q).
Qed.
(** addContact puts the given (or default) matrices at the place of the new contact. *)
Theorem C55_add_contact md s pv num st (B Qc : 'M[R]_12) n s' : reachable md s -> length pv = 7%nat ->
  kc_addContact s0 mzero md pv num st B Qc s = Ok (n, s') ->
  exists z, [/\ comp_start md true (kc_obs s') (CCPos n) = Ok z, isolates z B (kc_P s) (kc_P s') & isolates z Qc (kc_Q s) (kc_Q s')].
Proof. by move=> /reach_inv[Hi Hm] HL E; apply: add_cov_ok E HL. Qed.
(** Whatever the calls, if the given matrices are positive semi-definite and the filter keeps the
    covariance so, the covariances stay symmetric and positive semi-definite. *)
Theorem C55_positive_semidefinite md ds di dw dp s h s' : init md maxC maxI ds di dw dp = Ok s ->
  Forall (@psd_op R S Kn M C nt) h -> run md h s = Ok s' -> psd (kc_P s') /\ psd (kc_Q s').
Proof. by move=> E0 Hp E; have [_ _ G] := init_ext E0; have [_ H] := run_ext E; have [] := H Hp G. Qed.
(** setGyroBias with resetCovariance = true: the block is written one index after the place of the
    bias, over the first entry of the next component. *)
Theorem C55_set_gyro_bias_refuted md s b i s' : reachable md s -> comp_exists (kc_obs s) (CGyro i) -> length b = 3%nat -> step md (CSetBias b i) s = Ok s' ->
  exists z, comp_start md true (kc_obs s) (CGyro i) = Ok z /\ isolates (z + 1) (d_gyro (kc_d s)) (kc_P s) (kc_P s').
Proof. by move=> /reach_inv[Hi Hm] [i0 i1] HL; rewrite (v_maxI _ _ _ Hi) in i1; apply: bias_shift. Qed.
(** setStateUnmodeledWrench with resetCovariance = true: the same, over the first entry of contact 0. *)
Theorem C55_set_wrench_refuted md s w s' : reachable md s -> step md (CSetWrench w) s = Ok s' ->
  exists z, comp_start md true (kc_obs s) CUForce = Ok z /\ isolates (z + 1) (d_unm (kc_d s)) (kc_P s) (kc_P s').
Proof. by move=> /reach_inv[Hi Hm]; apply: wrench_shift. Qed.
(** Without contacts in the state, this is past the end of the matrix: error. *)
Theorem C55_set_wrench_no_contact_refuted md s w : reachable md s -> maxC = 0%nat -> length w = 6%nat ->
  step md (CSetWrench w) s = match md with Debug => AssertFail | Release => UB end.
Proof. by move=> /reach_inv[Hi Hm] H0 HL; rewrite /= (wrench_no_contact Hi Hm H0 HL). Qed.
(** setStateKinematics with resetForces and resetCovariance fails as soon as there is a contact: the
    matrix is 12x12, the block 13x13. *)
Theorem C55_set_kinematics_refuted md s kv n : reachable md s -> List.In n (ko_getListOfContacts (kc_obs s)) -> length kv = 13%nat ->
  step md (CSetKine kv true) s = match md with Debug => AssertFail | Release => UB end.
Proof. by move=> /reach_inv[Hi Hm] Hn HL; rewrite /= (kine_reset_forces s0 md Hi Hn HL). Qed.

(** ** C79 *)
(** resetProcessCovarianceMat resets the block of every component. resetStateCovarianceMat: missing,
    the biases of the IMUs that did not report in the current iteration. *)
Theorem C79_reset_covariances_partial md s q : reachable md s -> exists s', step md (CRAll q) s = Ok s' /\
  resets (start md s) (groups (if q then zseq maxI else current_imus (kc_obs s)) q (kc_d s) (kc_obs s)) (if q then kc_Q s else kc_P s) (if q then kc_Q s' else kc_P s') /\
  (if q then kc_P s' else kc_Q s') = (if q then kc_P s else kc_Q s).
Proof.
move=> /reach_inv[Hi Hm]; have [X [E RX]] := reset_all_ok q Hi Hm; exists (with_M q X s); split; last by case: q E RX.
by rewrite /= -E; case: (q).
Qed.
(** Those keep the covariance they had. *)
Theorem C79_reset_state_covariance_refuted md s n u s' : reachable md s -> (0 <= n)%Z -> List.nth_error (o_imus (kc_obs s)) (Z.to_nat n) = Some u ->
  i_time u <> o_kdata (kc_obs s) -> step md (CRAll false) s = Ok s' ->
  exists z, comp_start md true (kc_obs s) (CGyro n) = Ok z /\ forall i j : 'I_nt, (z <= Z.of_nat i < z + 3)%Z -> (z <= Z.of_nat j < z + 3)%Z -> kc_P s' i j = kc_P s i j.
Proof. by move=> /reach_inv[Hi Hm] n0 Hu Ht E; apply: imu_kept Ht E. Qed.

(** ** C80 *)
(** The initial covariances, from the documented variances (the room of the contacts is zero). *)
Theorem C80_initial_covariances_partial md ds di dw dp s : init md maxC maxI ds di dw dp = Ok s ->
  let diag a b c d e f (i j : 'I_nt) : R := (if (i < 3)%nat then a else if (i < 6)%nat then b else if (i < 9)%nat then c else if (i < 12)%nat then d
    else if (i < 12 + 3 * maxI)%nat then e else if (i < 18 + 3 * maxI)%nat then f else 0) *+ (i == j) in
  forall i j, kc_P s i j = diag (10%:R ^- 4) (10%:R ^- 4) (10%:R ^- 6) (10%:R ^- 6) (10%:R ^- 10) (10%:R ^+ 100) i j /\
              kc_Q s i j = diag (10%:R ^- 8) (10%:R ^- 8) (10%:R ^- 8) (10%:R ^- 8) (10%:R ^- 12) (10%:R ^- 8) i j.
Proof.
move=> E diag i j; have [Ei _ _] := init_ext E; have Hi := init_inv _ _ _ _ _ _ _ _ _ _ Ei.
have Hm : md = Debug -> (0 < maxI)%coq_nat by move=> Em; subst md; apply: init_debug Ei.
have Hc : ko_getListOfContacts (kc_obs s) = nil.
  case El: (ko_getListOfContacts _) => [//|n l]; have : List.In n (ko_getListOfContacts (kc_obs s)) by rewrite El; left.
  move/list_iff => [_ [c [Hn Hs]]]; have [_ [_ Eo]] := obind_Ok_inv _ _ _ Ei; case: Eo Hn => <- /= Hn.
  by rewrite (nth_repeat _ _ _ _ Hn) in Hs.
have [s' [E' _ RP RQ]] := @init_mats R _ s0 _ k0 _ _ _ _ _ _ _ _ _ _ Ei; rewrite E in E'; case: E' => Es; subst s'.
by split; [apply: (group_diag Hi Hm Hc _ _ _ RP)|apply: (group_diag Hi Hm Hc _ _ _ RQ)].
Qed.
(** A contact added with the default covariances has a process variance of 1e100 for its force and
    torque (contactForceProcessVarianceDefault and contactTorqueProcessVarianceDefault are 1e-8). *)
Theorem C80_contact_process_variance_refuted md s pv num st f s' n : reachable md s -> length pv = 7%nat -> step md (COp (KAdd pv num st) f) s = Ok s' ->
  List.In n (ko_getListOfContacts (kc_obs s')) -> (forall m, List.In m (ko_getListOfContacts (kc_obs s)) -> m <> n) ->
  exists z, comp_start md true (kc_obs s') (CCForce n) = Ok z /\ forall i : 'I_nt, (z <= Z.of_nat i < z + 6)%Z -> kc_Q s' i i = 10%:R ^+ 100.
Proof.
move=> Hr HL E Hn Hnew; have [Hi Hm] := reach_inv Hr; have [r [E1 E2]] := obind_Ok_inv _ _ _ E; case: r E1 E2 => n' s'' E1 [Es]; rewrite /= in Es; subst s''.
have [z [Ez _ [I1 _ _]]] := add_cov_ok Hi E1 HL.
have Hi' : inv maxC maxI (kc_obs s').
  apply: (step_inv s0 kfirst kupd mzero md _ _ (KAdd pv num st) (kc_obs s)) => //.
  by have [] := step_ext E; rewrite /ko_run /= => E3 _; have [r [E4 E5]] := obind_Ok_inv _ _ _ E3; rewrite E4; case: E5 => ->.
have En : n' = n.
  have [[n1 o1] [E3 E4]] := obind_Ok_inv _ _ _ E1; have [m [c1 [x [_ [_ [_ [n00 [Ec [_ [_ Eo]]]]]]]]]] := add_inv _ _ _ _ _ _ _ _ _ E3.
  have [c [_ E5]] := obind_Ok_inv _ _ _ E4; have [s1 [E6 E7]] := obind_Ok_inv _ _ _ E5; have [s2 [E8 E9]] := obind_Ok_inv _ _ _ E7; case: E9 => En1 Es2; subst n1 s2.
  have Eo' : kc_obs s' = o1 by case: (set_cov_inv E6) E8 => X1 [-> _ _ _ _] E8; case: (set_cov_inv E8) => X2 [-> _ _ _ _].
  move: Hn; rewrite Eo' Eo => /list_iff[n0 [c' []]] /=; rewrite vec_set_nth; case: Nat.eqb_spec => [En _ _|_ Hc Hs]; first lia.
  by case: (Hnew n) => //; apply/list_iff; split=> //; exists c'.
subst n'; exists (z + 6)%Z; split.
  by move: Ez; rewrite !(comp_start_ok _ _ _ _ _ _ Hi' Hm) //= => -[<-].
move=> i Hz; have La : (Z.to_nat (Z.of_nat i - z) < 12)%nat by apply/ltP; lia.
have Ea : Z.of_nat i = (z + Z.of_nat (Ordinal La))%Z by rewrite /=; lia.
rewrite (I1 _ _ _ _ Ea Ea).
have -> : q_con (kc_d s) = q_con (the_defaults R).
  by case: Hr => ds [di [dw [dp [s1 [h [E0 _ _ Eh]]]]]]; have [_ <- _] := init_ext E0; apply: qcon_run Eh.
by rewrite !mxE eqxx mulr1n (@in_segF 0 3) ?(@in_segF 3 3) /=; [case: ifP|lia|lia].
Qed.
End Cov.

(** ** Concrete cases *)
Section Case.
Variable R : rcfType.
Definition xinit md maxC maxI := kc_init R (S := Z) (M := Z) (C := Z) 0%Z tt md maxC maxI (1, 2, 3, 4)%Z (10, 11)%Z 12%Z 13%Z.
Definition xoinit md maxC maxI := ko_init (S := Z) (M := Z) (C := Z) 0%Z tt md maxC maxI (1, 2, 3, 4)%Z (10, 11)%Z 12%Z 13%Z.
Definition xorun md h s := ko_run (S := Z) (Kn := unit) (M := Z) (C := Z) 0%Z (fun _ k => Ok k) (fun _ _ _ k => Ok k) (Z.eqb 0) md h s.
Definition xadd : ko_op Z unit Z Z := KAdd [:: 5; 6; 7; 0; 0; 0; 1]%Z (-1) (0, 0, 0, 0)%Z.
Definition ximu n : ko_op Z unit Z Z := KIMU [:: n; n; n; n; n; n] None tt n.
Notation xreach := (reachable 0%Z tt (fun _ k => Ok k) (fun _ _ _ k => Ok k) (Z.eqb 0)).
Lemma case_reach md maxC maxI h o o' : xoinit md maxC maxI = Ok o -> xorun md h o = Ok o' -> forallb (@no_clear Z unit Z Z) h -> Forall (wf_op (nx maxC maxI)) h ->
  exists s : kcov R Z unit Z Z (tsize maxC maxI), xreach md s /\ kc_obs s = o'.
Proof.
move=> E0 E Hn Hw; have [s [Es Eo _ _]] := init_mats R E0; subst o.
have [s' [Es' Eo']] := cops_ok id (init_inv _ _ _ _ _ _ _ _ _ _ E0) Hn Hw E.
exists s'; split=> //; exists (1, 2, 3, 4)%Z, (10, 11)%Z, 12%Z, 13%Z, s, (map (fun o => COp o id) h).
have -> : obs_ops (map (fun o => COp o (id : 'M[R]_(tsize maxC maxI) -> _)) h) = h by rewrite /obs_ops -map_comp; elim: (h) => //= a l ->.
by split.
Qed.
(** Two IMUs, of which only IMU 0 reported in the current iteration, and two contacts. *)
Example C55_case md : exists s : kcov R Z unit Z Z (tsize 2 2), xreach md s /\ ko_getListOfContacts (kc_obs s) = [:: 0; 1]%Z /\
  comp_exists (kc_obs s) (CGyro 1) /\ comp_start md true (kc_obs s) (CGyro 1) = Ok 15%Z /\ comp_start md true (kc_obs s) (CCPos 1) = Ok 36%Z /\
  current_imus (kc_obs s) = [:: 0%Z] /\ exists u, List.nth_error (o_imus (kc_obs s)) 1 = Some u /\ i_time u <> o_kdata (kc_obs s).
Proof.
have [o [o' [E1 E2 H]]] : exists o o', [/\ xoinit md 2 2 = Ok o, xorun md [:: xadd; xadd; ximu 0] o = Ok o' &
    ko_getListOfContacts o' = [:: 0; 1]%Z /\ comp_exists o' (CGyro 1) /\ comp_start md true o' (CGyro 1) = Ok 15%Z /\ comp_start md true o' (CCPos 1) = Ok 36%Z /\
    current_imus o' = [:: 0%Z] /\ exists u, List.nth_error (o_imus o') 1 = Some u /\ i_time u <> o_kdata o'].
  by case: md; (do 2!eexists; split; [vm_compute; reflexivity|vm_compute; reflexivity|]; split=> //; split; [by split|]; do 3!split=> //; eexists; split; [reflexivity|by []]).
have [|s [Hr Eo]] := case_reach E1 E2 isT; first by do !constructor.
by exists s; rewrite Eo.
Qed.
(** Zero matrices are accepted arguments of C55_positive_semidefinite. *)
Example C55_psd_case nt : Forall (@psd_op R Z unit Z Z nt) [:: COp xadd id; CContact false 0 0; CRAll false; COp (KUpdate (fun x _ => x)) id].
Proof. by repeat apply: Forall_cons => //; apply: psd0. Qed.
(** The refutations: setGyroBias and setStateUnmodeledWrench do succeed on that state. *)
Example C55_refuted_case md : exists s : kcov R Z unit Z Z (tsize 2 2), xreach md s /\
  (exists s', kc_setGyroBias md [:: 1; 2; 3]%Z 1 s = Ok s') /\ (exists s', kc_setStateUnmodeledWrench md [:: 1; 2; 3; 4; 5; 6]%Z s = Ok s').
Proof.
have [o E1] : exists o, xoinit md 2 2 = Ok o by case: md; eexists; vm_compute; reflexivity.
have [|//|//|s [Hr Eo]] := @case_reach md 2 2 [::] o o E1; first by [].
exists s; split=> //; have [Hi Hm] := reach_inv Hr; have Hnt := nt_eq 2 2.
have H1 : exists o', ko_setGyroBias md [:: 1; 2; 3]%Z 1 (kc_obs s) = Ok o' /\ gyroBiasIndex md (o_maxI o') 1 = Ok 16%Z.
  by rewrite Eo; case: (md) E1 => -[<-]; eexists; split; vm_compute; reflexivity.
have H2 : exists o', ko_setStateUnmodeledWrench md [:: 1; 2; 3; 4; 5; 6]%Z (kc_obs s) = Ok o' /\ unmodeledWrenchIndex md (o_maxI o') = Ok 19%Z.
  by rewrite Eo; case: (md) E1 => -[<-]; eexists; split; vm_compute; reflexivity.
split.
- have [o' [Eb Ez]] := H1; rewrite /kc_setGyroBias Eb; cbn [obind]; rewrite Ez; cbn [obind].
  have [|X [-> _]] := @set_cov_ok R Z unit Z Z (tsize 2 2) md false 3 (d_gyro (kc_d s)) 16%Z (with_obs o' s) ltac:(lia); first by rewrite Hnt; vm_compute.
  by eexists; reflexivity.
- have [o' [Eb Ez]] := H2; rewrite /kc_setStateUnmodeledWrench Eb; cbn [obind]; rewrite Ez; cbn [obind].
  have [|X [-> _]] := @set_cov_ok R Z unit Z Z (tsize 2 2) md false 6 (d_unm (kc_d s)) 19%Z (with_obs o' s) ltac:(lia); first by rewrite Hnt; vm_compute.
  by eexists; reflexivity.
Qed.
End Case.

Print Assumptions C55_block_isolated_partial.
Print Assumptions C55_add_contact.
Print Assumptions C55_positive_semidefinite.
Print Assumptions C55_set_gyro_bias_refuted.
Print Assumptions C55_set_wrench_refuted.
Print Assumptions C55_set_wrench_no_contact_refuted.
Print Assumptions C55_set_kinematics_refuted.
Print Assumptions C79_reset_covariances_partial.
Print Assumptions C79_reset_state_covariance_refuted.
Print Assumptions C80_initial_covariances_partial.
Print Assumptions C80_contact_process_variance_refuted.
