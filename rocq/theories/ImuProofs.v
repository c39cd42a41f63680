(** Proofs about the dynamical systems of an inertial unit (ImuSys.v). *)
From Coq Require Import ZArith List Bool Reals Lia Lra.
From Verif Require Import Base Vec3 Rot SpecRot RotProofs RotProofs3 OrientProofs Kine Sensors ImuSys SpecImu.
Import ListNotations.
Open Scope R_scope.
Set Default Proof Using "Type".

Lemma veqb_eq a b : veqb a b = true -> a = b.
Proof.
  unfold veqb. destruct (Req_EM_T (vx a) (vx b)), (Req_EM_T (vy a) (vy b)), (Req_EM_T (vz a) (vz b)); cbn; try discriminate.
  intros _. destruct a, b; cbn in *; now subst.
Qed.
Lemma rv_quat_v0 : rv_quat v0 = q1.
Proof. apply rv_small. pose proof epsA2_pos. u3. nra. Qed.
Lemma seg_pack p o v w a al : seg3 (pack p o v w a al) 0 = p /\ seg3 (pack p o v w a al) 3 = o /\ seg3 (pack p o v w a al) 6 = v /\
  seg3 (pack p o v w a al) 9 = w /\ seg3 (pack p o v w a al) 12 = a /\ seg3 (pack p o v w a al) 15 = al.
Proof. destruct p, o, v, w, a, al. repeat split. Qed.
Lemma pack_length p o v w a al : length (pack p o v w a al) = 18%nat.
Proof. reflexivity. Qed.
Lemma vsize_ok md n x : length x = n -> vsize md n x = Ok tt.
Proof. intros H. unfold vsize, eigen_assert. now rewrite H, Nat.eqb_refl. Qed.
Lemma vsize_inv md n x r : vsize md n x = Ok r -> length x = n.
Proof. unfold vsize, eigen_assert. destruct (Nat.eqb_spec (length x) n); [auto|destruct md; discriminate]. Qed.

(** The rotation of the vector extracted from a unit quaternion, and its size. *)
Lemma quat_rv_rot q : qn2 q = 1 -> rodrigues (quat_rv q) = qrot q.
Proof.
  intros H. destruct (quat_aa_ok q H) as [U E]. unfold quat_rv. rewrite <- aa_rodrigues by exact U. rewrite <- E. now destruct (quat_aa q).
Qed.
Lemma quat_rv_pi q : qn2 q = 1 -> vnorm (quat_rv q) <= PI.
Proof. intros H. destruct (quat_rv_norm q H) as [-> [_ ?]]. assumption. Qed.

Section P.
Variable nz : noises R.
Variable kd : ikind.
Implicit Types s : isys.

(** ** The cached quaternion *)
Definition coherent s : Prop := i_q s = rv_quat (i_ov s).
(** What only the other members determine. *)
Definition same_rest s s' : Prop := i_dt s' = i_dt s /\ i_sens s' = i_sens s /\ i_pn s' = i_pn s /\ i_pcalls s' = i_pcalls s /\ i_msize s' = i_msize s /\ i_contacts s' = i_contacts s.
Lemma cq_ok x s : coherent s -> exists s', computeQuaternion x s = (rv_quat x, s') /\ coherent s' /\ same_rest s s'.
Proof.
  intros H. unfold computeQuaternion. destruct (veqb (i_ov s) x) eqn:E.
  - apply veqb_eq in E. subst x. rewrite <- H. exists s. repeat split; auto.
  - eexists. split; [reflexivity|]. split; [reflexivity|]. repeat split.
Qed.
Definition wf s : Prop := coherent s /\ a_mat (i_sens s) = false /\ a_concat (i_sens s) = O /\
  match kd with KFix | KStab => i_msize s = (6 + 3 * length (i_contacts s))%nat | _ => True end.

(** ** The next state *)
Definition acc_used (x : list R) : V3 * V3 :=
  match kd with KStab => (stabilize (seg3 x 0) (seg3 x 6), stabilize (seg3 x 3) (seg3 x 9)) | _ => (seg3 x 12, seg3 x 15) end.
Definition acc_next (x u : list R) : V3 * V3 :=
  match kd with KImu => (seg3 u 0, seg3 u 3) | KMag => (v0, v0) | _ => acc_used x end.
Definition step_angle (dt : R) (x : list R) : V3 := vadd (vscal dt (seg3 x 9)) (vscal (1 / 2 * dt * dt) (snd (acc_used x))).
Definition next_of (dt : R) (x u : list R) : list R :=
  let a := fst (acc_used x) in let al := snd (acc_used x) in
  pack (vadd (seg3 x 0) (vadd (vscal dt (seg3 x 6)) (vscal (1 / 2 * dt * dt) a)))
    (quat_rv (qmul (rv_quat (step_angle dt x)) (rv_quat (seg3 x 3))))
    (vadd (seg3 x 6) (vscal dt a)) (vadd (seg3 x 9) (vscal dt al)) (fst (acc_next x u)) (snd (acc_next x u)).
Lemma vadd_v0_l v : vadd v0 v = v. Proof. c3. Qed.
Lemma next_ok md x u s : wf s -> length x = 18%nat -> (kd = KImu -> length u = 6%nat) -> exists s', wf s' /\ same_rest s s' /\
  i_stateDynamics nz kd md x u s = process_noise nz (next_of (i_dt s) x u) s'.
Proof.
  intros (C & W) Lx Lu. destruct (cq_ok (seg3 x 3) s C) as (s' & Eq & C' & D). exists s'.
  split; [|split; [exact D|]].
  { destruct D as (D1 & D2 & D3 & D4 & D5 & D6); unfold wf; rewrite D2, D5, D6. split; auto. }
  unfold i_stateDynamics. rewrite vsize_ok by exact Lx. cbn [obind].
  assert (match kd with KImu => vsize md 6 u | _ => Ok tt end = Ok tt) as ->.
  { destruct kd; auto. apply vsize_ok; auto. }
  cbn [obind]. rewrite Eq. destruct D as (Dt & _). rewrite Dt. unfold int_pv, int_qw, next_of, step_angle, acc_next, acc_used.
  destruct kd; cbn [fst snd]; rewrite ?vadd_v0_l; reflexivity.
Qed.

(** ** The predicted measurement *)
Definition signal (r : M3) (a w : V3) : list R :=
  vlist (accelerationMeasure a r) ++ vlist (rotationVelocityMeasure w r) ++ match kd with KMag => vlist (magneticFieldMeasure r) | _ => [] end.
Lemma quat_coeffs_l4 q l : quat_coeffs (l4 q ++ l) = q. Proof. now destruct q. Qed.
Lemma signal_fun md q a w : c_fun (i_class kd) md false (l4 q ++ vlist a ++ vlist w) = Ok (signal (qrot q) a w).
Proof. unfold signal. destruct q, a, w, kd; reflexivity. Qed.
Lemma sense_ok md q a w k s : a_mat (i_sens s) = false -> a_concat (i_sens s) = O ->
  match a_noise (i_sens s) with
  | None => exists sn, i_sense nz kd md q a w k s = Ok (signal (qrot q) a w, with_sens sn s) /\ a_mat sn = false /\ a_concat sn = O /\ a_noise sn = None /\ a_calls sn = a_calls (i_sens s)
  | Some id => exists sn, i_sense nz kd md q a w k s = (do y <- nz id (a_calls (i_sens s)) (signal (qrot q) a w); Ok (y, with_sens (sn y) s)) /\
      forall y, a_mat (sn y) = false /\ a_concat (sn y) = O /\ a_noise (sn y) = Some id /\ a_calls (sn y) = S (a_calls (i_sens s))
  end.
Proof.
  intros M C. unfold i_sense. destruct s as [dt ov qq sn pn pc ms cs]. destruct sn as [tm cc st dr ns ny sto buf no mat ca]. cbn [i_sens a_mat a_concat a_noise a_calls] in *. subst mat cc.
  assert (E : a_setState (i_class kd) md (l4 q ++ vlist a ++ vlist w) k (mkA tm 0 st dr ns ny sto buf no false ca) =
     Ok (mkA k 0 (l4 q ++ vlist a ++ vlist w) [] false ny false buf no false ca)).
  { unfold a_setState. destruct kd; reflexivity. }
  assert (F : a_computeNoiseless (i_class kd) md (mkA k 0 (l4 q ++ vlist a ++ vlist w) [] false ny false buf no false ca) =
     Ok (mkA k 0 (l4 q ++ vlist a ++ vlist w) [] false ny true (length (signal (qrot q) a w), Some (signal (qrot q) a w)) no false ca)).
  { unfold a_computeNoiseless. cbn [a_mat a_state a_concat a_time a_direct a_noisyStored a_noisy a_noise a_calls]. rewrite signal_fun. reflexivity. }
  destruct no as [id|].
  - eexists (fun y => _). split.
    + rewrite E. cbn [obind]. unfold a_getMeasurements. cbn [a_noise a_noisyStored]. unfold a_computeNoisy. cbn [a_stored].
      assert (boost_assert md (Nat.eqb (length (a_state (mkA k 0 (l4 q ++ vlist a ++ vlist w) [] false ny false buf (Some id) false ca)))
        (a_getStateSize (i_class kd) (mkA k 0 (l4 q ++ vlist a ++ vlist w) [] false ny false buf (Some id) false ca))) = Ok tt) as -> by (destruct kd, md; reflexivity).
      cbn [obind]. rewrite F. cbn [obind]. unfold a_readNoiseless. cbn [a_buf snd obind a_calls]. destruct (nz id ca _); reflexivity.
    + intros y. cbn. auto.
  - eexists. split.
    + rewrite E. cbn [obind]. unfold a_getMeasurements. cbn [a_noise a_stored]. rewrite F. reflexivity.
    + cbn. auto.
Qed.
(** The signal of the unit: orientation, acceleration and angular velocity of the unit. *)
Definition unit_of (x u : list R) : Q4 * V3 * V3 :=
  let q := rv_quat (seg3 x 3) in let r := qrot q in let w := seg3 x 9 in
  match kd with
  | KImu | KMag => (q, seg3 x 12, w)
  | _ => (qmul q (rv_quat (seg3 u 3)),
          vadd (vadd (vadd (mvec (mmul (madd (skew (seg3 x 15)) (mmul (skew w) (skew w))) r) (seg3 u 0)) (mvec (mmul (mscal 2 (skew w)) r) (seg3 u 6))) (seg3 x 12)) (mvec r (seg3 u 12)),
          vadd w (mvec r (seg3 u 9)))
  end.
Definition clean_of (x u : list R) : list R := let '(q, a, w) := unit_of x u in signal (qrot q) a w.
Definition virtual_of (x : list R) (cs : list V3) : list R :=
  match kd with KImu | KMag => [] | _ => concat (map (fun c => vlist (vsub (vadd (mvec (qrot (rv_quat (seg3 x 3))) c) (seg3 x 0)) c)) cs) end.
Definition same_but_sens s s' : Prop := i_dt s' = i_dt s /\ i_pn s' = i_pn s /\ i_pcalls s' = i_pcalls s /\ i_msize s' = i_msize s /\ i_contacts s' = i_contacts s.
Lemma meas_ok md x u k s : wf s -> keeps_size nz -> length x = 18%nat -> (kd = KFix \/ kd = KStab -> length u = 15%nat) ->
  match a_noise (i_sens s) with
  | None => exists s', i_measureDynamics nz kd md x u k s = Ok (clean_of x u ++ virtual_of x (i_contacts s), s') /\ wf s' /\ same_but_sens s s' /\
      a_noise (i_sens s') = None /\ a_calls (i_sens s') = a_calls (i_sens s)
  | Some id => exists s' : list R -> isys, i_measureDynamics nz kd md x u k s = (do y <- nz id (a_calls (i_sens s)) (clean_of x u); Ok (y ++ virtual_of x (i_contacts s), s' y)) /\
      forall y, length y = length (clean_of x u) -> wf (s' y) /\ same_but_sens s (s' y) /\ a_noise (i_sens (s' y)) = Some id /\ a_calls (i_sens (s' y)) = S (a_calls (i_sens s))
  end.
Proof.
  intros (C & M & Z & Sz) KS Lx Lu. unfold i_measureDynamics. rewrite vsize_ok by exact Lx. cbn [obind].
  destruct (cq_ok (seg3 x 3) s C) as (s1 & E1 & C1 & D1 & D2 & D3 & D4 & D5 & D6). rewrite E1.
  assert (Hsimple : kd = KImu \/ kd = KMag -> clean_of x u = signal (qrot (rv_quat (seg3 x 3))) (seg3 x 12) (seg3 x 9) /\ virtual_of x (i_contacts s) = []).
  { intros [E|E]; unfold clean_of, virtual_of, unit_of; rewrite E; auto. }
  destruct (cq_ok (seg3 u 3) s1 C1) as (s2 & E2 & C2 & F1 & F2 & F3 & F4 & F5 & F6).
  assert (S1 := sense_ok md (rv_quat (seg3 x 3)) (seg3 x 12) (seg3 x 9) k s1). rewrite D2 in S1. specialize (S1 M Z).
  assert (S2 := sense_ok md (fst (fst (unit_of x u))) (snd (fst (unit_of x u))) (snd (unit_of x u)) k s2). rewrite F2, D2 in S2. specialize (S2 M Z).
  assert (L6 : kd = KFix \/ kd = KStab -> length (clean_of x u) = 6%nat) by (intros [E|E]; unfold clean_of, unit_of, signal; rewrite E; reflexivity).
  assert (Cl : signal (qrot (fst (fst (unit_of x u)))) (snd (fst (unit_of x u))) (snd (unit_of x u)) = clean_of x u) by (unfold clean_of; now destruct (unit_of x u) as [[? ?] ?]).
  rewrite Cl in S2.
  destruct (a_noise (i_sens s)) as [id|].
  - destruct S1 as (sn1 & S1 & W1). destruct S2 as (sn2 & S2 & W2).
    destruct kd eqn:K.
    1,2: destruct Hsimple as [-> ->]; [auto|]; eexists; split; [rewrite S1; destruct (nz id _ _); cbn [obind]; rewrite ?app_nil_r; reflexivity|];
      intros y _; destruct (W1 y) as (? & ? & ? & ?); unfold wf, same_but_sens; rewrite K; cbn; repeat split; auto; congruence.
    all: rewrite vsize_ok by auto; cbn [obind]; rewrite E2; exists (fun y => with_sens (sn2 y) s2); split.
    1,3: unfold unit_of in S2; rewrite K in S2; cbn [fst snd] in S2; rewrite S2;
        destruct (nz id (a_calls (i_sens s)) (clean_of x u)) as [y| | | ] eqn:En; cbn [obind]; auto;
        apply KS in En; rewrite L6 in En by auto; cbn [with_sens i_contacts i_msize];
        rewrite En, F6, D6, F5, D5, Sz; unfold eigen_assert; rewrite Nat.eqb_refl; cbn [obind]; unfold virtual_of; rewrite K; reflexivity.
    all: intros y Ly; destruct (W2 y) as (? & ? & ? & ?); unfold wf, same_but_sens; rewrite K; cbn; rewrite F1, D1, F3, D3, F4, D4, F5, D5, F6, D6; repeat split; auto.
  - destruct S1 as (sn1 & S1 & W1). destruct S2 as (sn2 & S2 & W2).
    destruct kd eqn:K.
    1,2: destruct Hsimple as [-> ->]; [auto|]; eexists; split; [rewrite S1; rewrite ?app_nil_r; reflexivity|];
      destruct W1 as (? & ? & ? & ?); unfold wf, same_but_sens; rewrite K; cbn; repeat split; auto; congruence.
    all: rewrite vsize_ok by auto; cbn [obind]; rewrite E2; exists (with_sens sn2 s2); split.
    1,3: unfold unit_of in S2; rewrite K in S2; cbn [fst snd] in S2; rewrite S2; cbn [obind with_sens i_contacts i_msize];
        rewrite L6 by auto; rewrite F6, D6, F5, D5, Sz; unfold eigen_assert; rewrite Nat.eqb_refl; cbn [obind]; unfold virtual_of; rewrite K; reflexivity.
    all: destruct W2 as (? & ? & ? & ?); unfold wf, same_but_sens; rewrite K; cbn; rewrite F1, D1, F3, D3, F4, D4, F5, D5, F6, D6; repeat split; auto.
Qed.

(** ** Reachable systems *)
Lemma init_wf dt : wf (i_init kd dt).
Proof. unfold wf, coherent, i_init. cbn. rewrite rv_quat_v0. repeat split. destruct kd; auto. Qed.
Lemma state_inv md x u s y s' : i_stateDynamics nz kd md x u s = Ok (y, s') -> length x = 18%nat /\ (kd = KImu -> length u = 6%nat).
Proof.
  unfold i_stateDynamics. intros E. apply obind_Ok_inv in E. destruct E as (? & E1 & E). apply obind_Ok_inv in E. destruct E as (? & E2 & _).
  split; [eapply vsize_inv; eauto|]. intros K. rewrite K in E2. eapply vsize_inv; eauto.
Qed.
Lemma meas_inv md x u k s y s' : i_measureDynamics nz kd md x u k s = Ok (y, s') -> length x = 18%nat /\ (kd = KFix \/ kd = KStab -> length u = 15%nat).
Proof.
  unfold i_measureDynamics. intros E. apply obind_Ok_inv in E. destruct E as (? & E1 & E).
  split; [eapply vsize_inv; eauto|]. intros K. destruct (computeQuaternion (seg3 x 3) s) as [q s1].
  destruct K as [K|K]; rewrite K in E; apply obind_Ok_inv in E; destruct E as (? & E2 & _); eapply vsize_inv; eauto.
Qed.
Lemma step_wf md o s r s' : keeps_size nz -> wf s -> i_step nz kd md o s = Ok (r, s') -> wf s'.
Proof.
  intros KS W E. destruct o as [x u|x u k|o|o|dt|n|i c]; cbn [i_step] in E.
  - apply obind_Ok_inv in E. destruct E as ([y s1] & E1 & E). inversion E; subst r s1; clear E.
    destruct (state_inv _ _ _ _ _ _ E1) as [Lx Lu]. destruct (next_ok md x u s W Lx Lu) as (s2 & W2 & _ & E2). rewrite E2 in E1.
    unfold process_noise in E1. destruct (i_pn s2).
    + apply obind_Ok_inv in E1. destruct E1 as (y1 & _ & E1). inversion E1; subst. exact W2.
    + inversion E1; subst. exact W2.
  - apply obind_Ok_inv in E. destruct E as ([y s1] & E1 & E). inversion E; subst r s1; clear E.
    destruct (meas_inv _ _ _ _ _ _ _ E1) as [Lx Lu]. pose proof (meas_ok md x u k s W KS Lx Lu) as H. destruct (a_noise (i_sens s)).
    + destruct H as (s2 & H & G). rewrite H in E1. apply obind_Ok_inv in E1. destruct E1 as (y1 & En & E1). inversion E1; subst. apply G. eapply KS; eauto.
    + destruct H as (s2 & H & G & _). rewrite H in E1. inversion E1; subst. exact G.
  - inversion E; subst. exact W.
  - inversion E; subst. exact W.
  - inversion E; subst. exact W.
  - pose proof W as (C & M & Z & Sz). destruct kd eqn:K; inversion E; subst; try exact W; unfold wf; rewrite K; cbn; repeat split; auto;
    rewrite app_length, firstn_length, repeat_length; lia.
  - pose proof W as (C & M & Z & Sz). destruct kd eqn:K; try (inversion E; subst; exact W; fail);
    apply obind_Ok_inv in E; destruct E as (s1 & E1 & E); inversion E; subst; unfold i_setContactPosition in E1; apply obind_Ok_inv in E1; destruct E1 as (? & _ & E1);
    destruct (Nat.ltb i (length (i_contacts s))); inversion E1; subst; unfold wf; rewrite K; cbn; rewrite list_set_length; repeat split; auto.
Qed.
Lemma run_wf md ops : keeps_size nz -> forall s s', wf s -> i_run nz kd md ops s = Ok s' -> wf s'.
Proof.
  intros KS. induction ops as [|o os IH]; intros s s' W E; [inversion E; subst; exact W|]. cbn [i_run] in E.
  apply obind_Ok_inv in E. destruct E as ([r s1] & E1 & E). eauto using step_wf.
Qed.
Lemma reach_wf md dt ops s : keeps_size nz -> i_run nz kd md ops (i_init kd dt) = Ok s -> wf s.
Proof. intros KS. apply run_wf; [exact KS|apply init_wf]. Qed.
End P.
