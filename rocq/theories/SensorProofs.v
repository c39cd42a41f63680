(** Proofs about the simulated sensors. *)
From Coq Require Import ZArith List Lia Bool.
From Verif Require Import Base Sensors.
Import ListNotations.

Section P.
Context {A : Type}.
Variable C : sclass A.
Variable nz : noises A.
Notation asensor := (asensor A).
Implicit Types s : asensor.

(** Calls that do not change the state given to the sensor. *)
Definition reading (o : aop A) : bool := match o with AGet _ | ASetNoise _ | AResetNoise => true | _ => false end.

(** What is known between two setState calls: [st], [dr] the two parts of the state. *)
Definition cached (md : mode) (mat : bool) (c : nat) (st dr : list A) (n0 : nat) s : Prop :=
  a_mat s = mat /\ a_concat s = c /\ a_state s = st /\ a_direct s = dr /\
  (a_stored s = true -> exists m, c_fun C md mat st = Ok m /\ snd (a_buf s) = Some (m ++ dr)) /\
  (a_noisyStored s = false -> a_calls s = n0) /\
  (a_noisyStored s = true -> a_calls s = S n0 /\ exists m id, c_fun C md mat st = Ok m /\ nz id n0 (m ++ dr) = Ok (a_noisy s)).

Lemma noiseless_step md mat c st dr n0 s s' : (c = O -> dr = []) -> cached md mat c st dr n0 s ->
  a_computeNoiseless C md s = Ok s' ->
  cached md mat c st dr n0 s' /\ a_stored s' = true /\ a_noise s' = a_noise s /\ a_noisyStored s' = a_noisyStored s /\ a_noisy s' = a_noisy s /\ a_calls s' = a_calls s.
Proof.
  intros Hdr (Hm & Hc & Hs & Hd & Hst & Hn1 & Hn2). unfold a_computeNoiseless. rewrite Hm, Hs, Hd, Hc. intros E.
  apply obind_Ok_inv in E. destruct E as (m & Em & E). apply obind_Ok_inv in E. destruct E as (b & Eb & E).
  inversion E; subst s'; clear E. cbn.
  assert (Hb : b = m ++ dr).
  { destruct (Nat.ltb_spec 0 c).
    - apply obind_Ok_inv in Eb. destruct Eb as (_ & _ & Eb). inversion Eb. reflexivity.
    - inversion Eb. rewrite Hdr by lia. rewrite app_nil_r. reflexivity. }
  split; [|auto]. repeat (split; [cbn; assumption || reflexivity|]). cbn. split; [|split; assumption].
  intros _. exists m. split; [exact Em|]. now rewrite Hb.
Qed.

Lemma get_step md mat c st dr n0 noisy s y s' : (c = O -> dr = []) -> cached md mat c st dr n0 s ->
  a_getMeasurements C nz md noisy s = Ok (y, s') ->
  cached md mat c st dr n0 s' /\ a_noise s' = a_noise s /\
  (a_noisyStored s = true -> a_noisyStored s' = true /\ a_noisy s' = a_noisy s) /\
  (if noisy && match a_noise s with Some _ => true | None => false end
   then a_noisyStored s' = true /\ a_noisy s' = y
   else exists m, c_fun C md mat st = Ok m /\ y = m ++ dr).
Proof.
  intros Hdr Hc E.
  assert (HL : (do s0 <- (if a_stored s then Ok s else a_computeNoiseless C md s); do m <- a_readNoiseless s0; Ok (m, s0)) = Ok (y, s') ->
     cached md mat c st dr n0 s' /\ a_noise s' = a_noise s /\
     (a_noisyStored s = true -> a_noisyStored s' = true /\ a_noisy s' = a_noisy s) /\
     exists m, c_fun C md mat st = Ok m /\ y = m ++ dr).
  { clear E. intros E. apply obind_Ok_inv in E. destruct E as (s1 & E1 & E). apply obind_Ok_inv in E. destruct E as (m & Em & E).
    inversion E; subst m s1; clear E.
    assert (H1 : cached md mat c st dr n0 s' /\ a_stored s' = true /\ a_noise s' = a_noise s /\ a_noisyStored s' = a_noisyStored s /\ a_noisy s' = a_noisy s).
    { destruct (a_stored s) eqn:Es; [inversion E1; subst; auto|].
      destruct (noiseless_step _ _ _ _ _ _ _ _ Hdr Hc E1) as (? & ? & ? & ? & ? & ?). auto. }
    destruct H1 as (H1 & H2 & H3 & H4 & H5). split; [auto|]. split; [auto|]. split; [intros; rewrite H4, H5; auto|].
    destruct H1 as (_ & _ & _ & _ & Hst & _). destruct (Hst H2) as (m & G1 & G2). exists m. split; auto.
    unfold a_readNoiseless in Em. rewrite G2 in Em. congruence. }
  unfold a_getMeasurements in E. destruct noisy; [|exact (HL E)]. cbn [andb].
  destruct (a_noise s) as [id|] eqn:En; [|exact (HL E)].
  destruct (a_noisyStored s) eqn:Ens.
  - inversion E; subst. rewrite En, Ens. auto.
  - clear HL. apply obind_Ok_inv in E. destruct E as ([y1 s1] & E1 & E). inversion E; subst y s'; clear E.
    unfold a_computeNoisy in E1. apply obind_Ok_inv in E1. destruct E1 as (s2 & E2 & E1).
    apply obind_Ok_inv in E1. destruct E1 as (m & Em & E1). apply obind_Ok_inv in E1. destruct E1 as (y2 & Ey & E1). inversion E1; subst y2 s1; clear E1.
    assert (H1 : cached md mat c st dr n0 s2 /\ a_stored s2 = true /\ a_noise s2 = a_noise s /\ a_noisyStored s2 = a_noisyStored s).
    { destruct (a_stored s) eqn:Es; [inversion E2; subst; auto|]. apply obind_Ok_inv in E2. destruct E2 as (_ & _ & E2).
      destruct (noiseless_step _ _ _ _ _ _ _ _ Hdr Hc E2) as (? & ? & ? & ? & ? & ?). auto. }
    destruct H1 as ((G1 & G2 & G3 & G4 & G5 & G6 & G7) & H2 & H3 & H4). cbn.
    split; [|split; [congruence|split; [discriminate|auto]]].
    repeat (split; [cbn; assumption|]). cbn. split; [discriminate|]. intros _. rewrite Ens in H4. rewrite (G6 H4) in *. split; [reflexivity|].
    destruct (G5 H2) as (m' & M1 & M2). exists m', id. split; auto.
    unfold a_readNoiseless in Em. rewrite M2 in Em. inversion Em; subst. exact Ey.
Qed.

Lemma reads md mat c st dr n0 ops : (c = O -> dr = []) -> forallb reading ops = true -> forall s outs s',
  cached md mat c st dr n0 s -> a_run C nz md ops s = Ok (outs, s') ->
  cached md mat c st dr n0 s' /\
  (a_noisyStored s = true -> a_noisyStored s' = true /\ a_noisy s' = a_noisy s) /\
  (forall y, In (false, y) outs -> exists m, c_fun C md mat st = Ok m /\ y = m ++ dr) /\
  (forall y, In (true, y) outs -> a_noisyStored s' = true /\ a_noisy s' = y).
Proof.
  intros Hdr. induction ops as [|o ops IH]; intros Hr s outs s' Hc E.
  - cbn in E. inversion E; subst. split; [auto|]. split; [auto|]. split; intros ? [].
  - cbn [forallb] in Hr. apply andb_prop in Hr. destruct Hr as [Ho Hr].
    cbn [a_run] in E. apply obind_Ok_inv in E. destruct E as ([l s1] & E1 & E). apply obind_Ok_inv in E. destruct E as ([l' s2] & E2 & E).
    inversion E; subst outs s2; clear E.
    assert (H1 : cached md mat c st dr n0 s1 /\ (a_noisyStored s = true -> a_noisyStored s1 = true /\ a_noisy s1 = a_noisy s) /\
       (forall y, In (false, y) l -> exists m, c_fun C md mat st = Ok m /\ y = m ++ dr) /\
       (forall y, In (true, y) l -> a_noisyStored s1 = true /\ a_noisy s1 = y)).
    { destruct o as [v k|noisy|id| |b|n]; try discriminate Ho; cbn [a_step] in E1.
      - apply obind_Ok_inv in E1. destruct E1 as ([y s3] & E1 & E3). injection E3 as <- <-.
        destruct (get_step _ _ _ _ _ _ _ _ _ _ Hdr Hc E1) as (G1 & G2 & G3 & G4). split; [auto|]. split; [auto|].
        destruct (noisy && _); split; intros y0 [Ey|[]]; inversion Ey; subst; auto.
      - inversion E1; subst. split; [exact Hc|]. split; [auto|]. split; intros ? [].
      - inversion E1; subst. split; [exact Hc|]. split; [auto|]. split; intros ? []. }
    destruct H1 as (G1 & G2 & G3 & G4). destruct (IH Hr _ _ _ G1 E2) as (K1 & K2 & K3 & K4).
    split; [auto|]. split; [|split].
    + intros H. destruct (G2 H) as [H1 H2]. destruct (K2 H1) as [H3 H4]. split; congruence.
    + intros y Hy. apply in_app_or in Hy. destruct Hy; eauto.
    + intros y Hy. apply in_app_or in Hy. destruct Hy as [Hy|Hy]; [|auto].
      destruct (G4 _ Hy) as [H1 H2]. destruct (K2 H1) as [H3 H4]. split; congruence.
Qed.

Lemma setState_cached md v k s s1 : a_setState C md v k s = Ok s1 ->
  cached md (a_mat s) (a_concat s) (firstn (c_ssize C (a_mat s)) v) (skipn (length v - a_concat s) v) (a_calls s) s1 /\
  (a_concat s = O -> skipn (length v - a_concat s) v = []) /\ a_noise s1 = a_noise s /\ a_stored s1 = false /\ a_noisyStored s1 = false /\
  a_buf s1 = a_buf s /\ (c_ssize C (a_mat s) <= length v)%nat /\ (a_concat s <= length v)%nat.
Proof.
  unfold a_setState. intros E. apply obind_Ok_inv in E. destruct E as ([] & E1 & E). apply obind_Ok_inv in E. destruct E as ([] & E2 & E).
  assert (L1 : (a_concat s <= length v)%nat) by (destruct (Nat.leb_spec (a_concat s) (length v)); [auto|destruct md; discriminate]).
  assert (L2 : (c_ssize C (a_mat s) <= length v)%nat) by (destruct (Nat.leb_spec (c_ssize C (a_mat s)) (length v)); [auto|destruct md; discriminate]).
  inversion E; subst s1. split; [|split; [|cbn; repeat split; auto]].
  - repeat (split; [reflexivity|]). cbn. split; [discriminate|]. split; [auto|discriminate].
  - intros ->. rewrite Nat.sub_0_r. apply skipn_all.
Qed.

(** ** Nothing fails between reads *)
Definition sized s : Prop := (0 < a_concat s)%nat -> fst (a_buf s) = (c_msize C + a_concat s)%nat.
Lemma sized_computeNoiseless md s s' : sized s -> a_computeNoiseless C md s = Ok s' -> sized s' /\ a_concat s' = a_concat s.
Proof.
  intros Hs. unfold a_computeNoiseless. intros E. apply obind_Ok_inv in E. destruct E as (m & Em & E). apply obind_Ok_inv in E. destruct E as (b & Eb & E).
  inversion E; subst s'; clear E. split; [|reflexivity]. intros Hc. cbn [fst a_buf a_concat] in *. rewrite <- (Hs Hc).
  destruct (Nat.ltb_spec 0 (a_concat s)); [|lia]. apply obind_Ok_inv in Eb. destruct Eb as ([] & E1 & Eb). inversion Eb; subst b.
  rewrite app_length. destruct (Nat.eqb_spec (length m + length (a_direct s)) (fst (a_buf s))); [auto|destruct md; discriminate].
Qed.
Lemma sized_step md o s l s' : sized s -> a_step C nz md o s = Ok (l, s') -> sized s'.
Proof.
  intros Hs. destruct o as [v k|noisy|id| |b|n]; cbn [a_step]; intros E.
  - apply obind_Ok_inv in E. destruct E as (s1 & E1 & E). inversion E; subst. unfold a_setState in E1.
    apply obind_Ok_inv in E1. destruct E1 as (_ & _ & E1). apply obind_Ok_inv in E1. destruct E1 as (_ & _ & E1). inversion E1; subst. exact Hs.
  - apply obind_Ok_inv in E. destruct E as ([y s1] & E1 & E). inversion E; subst. clear E.
    assert (HL : (do s0 <- (if a_stored s then Ok s else a_computeNoiseless C md s); do m <- a_readNoiseless s0; Ok (m, s0)) = Ok (y, s') -> sized s').
    { intros E. apply obind_Ok_inv in E. destruct E as (s1 & E0 & E). apply obind_Ok_inv in E. destruct E as (m & _ & E). inversion E; subst.
      destruct (a_stored s); [inversion E0; subst; exact Hs|]. eapply sized_computeNoiseless; eauto. }
    unfold a_getMeasurements in E1. destruct noisy; [|auto]. destruct (a_noise s) as [id|]; [|auto].
    destruct (a_noisyStored s); [inversion E1; subst; exact Hs|].
    apply obind_Ok_inv in E1. destruct E1 as ([y1 s2] & E1 & E). inversion E; subst. clear E.
    unfold a_computeNoisy in E1. apply obind_Ok_inv in E1. destruct E1 as (s3 & E0 & E1). apply obind_Ok_inv in E1. destruct E1 as (m & _ & E1).
    apply obind_Ok_inv in E1. destruct E1 as (y2 & _ & E1). inversion E1; subst. clear E1.
    destruct (a_stored s); [inversion E0; subst; exact Hs|]. apply obind_Ok_inv in E0. destruct E0 as (_ & _ & E0).
    destruct (sized_computeNoiseless _ _ _ Hs E0) as [H _]. exact H.
  - inversion E; subst. exact Hs.
  - inversion E; subst. exact Hs.
  - inversion E; subst. exact Hs.
  - inversion E; subst. unfold sized, a_concatenate. cbn. intros _. destruct (Nat.eqb_spec (c_msize C + n) (fst (a_buf s))); auto.
Qed.
Lemma sized_run md ops : forall s l s', sized s -> a_run C nz md ops s = Ok (l, s') -> sized s'.
Proof.
  induction ops as [|o ops IH]; intros s l s' Hs E; cbn [a_run] in E; [inversion E; subst; exact Hs|].
  apply obind_Ok_inv in E. destruct E as ([l1 s1] & E1 & E). apply obind_Ok_inv in E. destruct E as ([l2 s2] & E2 & E). inversion E; subst.
  eapply IH; [|exact E2]. eapply sized_step; eauto.
Qed.

(** The concrete class works on states of its size; the noise sources do not fail. *)
Definition total_class (md : mode) : Prop :=
  forall mat v, length v = c_ssize C mat -> exists m, c_fun C md mat v = Ok m /\ length m = c_msize C.
Definition total_noise : Prop := forall id n v, exists y, nz id n v = Ok y.

Definition ready (md : mode) s : Prop := sized s /\ (a_stored s = true -> snd (a_buf s) <> None) /\
  length (a_state s) = c_ssize C (a_mat s) /\ length (a_direct s) = a_concat s /\
  (md = Release \/ a_concat s = O \/ a_stored s = true).

Lemma computeNoiseless_total md s : total_class md -> ready md s \/ (sized s /\ length (a_state s) = c_ssize C (a_mat s) /\ length (a_direct s) = a_concat s) ->
  exists s', a_computeNoiseless C md s = Ok s' /\ ready md s' /\ a_stored s' = true /\ a_noise s' = a_noise s /\ a_noisyStored s' = a_noisyStored s.
Proof.
  intros HC Hr. assert (Hr' : sized s /\ length (a_state s) = c_ssize C (a_mat s) /\ length (a_direct s) = a_concat s) by (destruct Hr as [(?&?&?&?&?)|?]; auto).
  clear Hr. destruct Hr' as (Hs & Hl & Hd).
  destruct (HC _ _ Hl) as (m & Em & Lm). unfold a_computeNoiseless. rewrite Em. cbn [obind].
  destruct (Nat.ltb_spec 0 (a_concat s)).
  - assert (E : (length m + length (a_direct s) =? fst (a_buf s))%nat = true) by (rewrite (Hs H), Lm, Hd; apply Nat.eqb_refl).
    rewrite E. cbn [eigen_assert obind]. eexists. split; [reflexivity|]. cbn. split; [|auto].
    split; [|cbn; repeat split; auto; discriminate]. intros _. cbn. rewrite app_length. lia.
  - cbn [obind]. eexists. split; [reflexivity|]. cbn. split; [|auto].
    split; [|cbn; repeat split; auto; discriminate]. intros Hc. cbn in *. lia.
Qed.
Lemma get_total md noisy s : total_class md -> total_noise -> ready md s -> exists y s', a_getMeasurements C nz md noisy s = Ok (y, s') /\ ready md s'.
Proof.
  intros HC HN Hr. pose proof Hr as (Hs & Hb & Hl & Hd & Hor).
  assert (HL : exists y s', (do s0 <- (if a_stored s then Ok s else a_computeNoiseless C md s); do m <- a_readNoiseless s0; Ok (m, s0)) = Ok (y, s') /\ ready md s').
  { destruct (a_stored s) eqn:Es.
    - cbn [obind]. unfold a_readNoiseless. destruct (snd (a_buf s)) eqn:E; [|destruct (Hb eq_refl eq_refl)]. cbn. eauto.
    - destruct (computeNoiseless_total md s HC (or_introl Hr)) as (s1 & E1 & R1 & S1 & _). rewrite E1. cbn [obind].
      unfold a_readNoiseless. destruct R1 as (? & B1 & R1). destruct (snd (a_buf s1)) eqn:E; [|destruct (B1 S1 eq_refl)]. cbn.
      eexists. eexists. split; [reflexivity|]. split; auto. split; [|auto]. intros _. rewrite E. discriminate. }
  unfold a_getMeasurements. destruct noisy; [|exact HL]. destruct (a_noise s) as [id|]; [|exact HL]. clear HL.
  destruct (a_noisyStored s); [eauto|]. unfold a_computeNoisy.
  assert (H1 : exists s1, (if a_stored s then Ok s else do _ <- boost_assert md (length (a_state s) =? a_getStateSize C s)%nat; a_computeNoiseless C md s) = Ok s1 /\
     ready md s1 /\ a_stored s1 = true).
  { destruct (a_stored s) eqn:Es; [eauto|].
    assert (E0 : boost_assert md (length (a_state s) =? a_getStateSize C s)%nat = Ok tt).
    { destruct Hor as [->|[H0|H0]]; [destruct (_ =? _)%nat; reflexivity| |discriminate].
      unfold a_getStateSize. rewrite H0, Nat.add_0_r, Hl, Nat.eqb_refl. reflexivity. }
    rewrite E0. cbn [obind]. destruct (computeNoiseless_total md s HC (or_introl Hr)) as (s1 & E1 & R1 & S1 & _). eauto. }
  destruct H1 as (s1 & E1 & R1 & S1). rewrite E1. cbn [obind]. pose proof R1 as (R2 & B1 & R3).
  unfold a_readNoiseless. destruct (snd (a_buf s1)) eqn:E; [|destruct (B1 S1 eq_refl)]. cbn [obind].
  destruct (HN id (a_calls s1) l) as (y & Ey). rewrite Ey. cbn [obind]. eexists. eexists. split; [reflexivity|].
  split; [exact R2|]. cbn. split; [|exact R3]. rewrite E. intros _. discriminate.
Qed.
Lemma reads_total md ops : total_class md -> total_noise -> forallb reading ops = true -> forall s, ready md s ->
  exists outs s', a_run C nz md ops s = Ok (outs, s') /\ length outs = length (filter (fun o => match o with AGet _ => true | _ => false end) ops).
Proof.
  intros HC HN. induction ops as [|o ops IH]; intros Hr s Hs.
  - exists [], s. split; reflexivity.
  - cbn [forallb] in Hr. apply andb_prop in Hr. destruct Hr as [Ho Hr]. cbn [a_run].
    destruct o as [v k|noisy|id| |b|n]; try discriminate Ho; cbn [a_step].
    + destruct (get_total md noisy s HC HN Hs) as (y & s1 & E1 & R1). rewrite E1. cbn [obind].
      destruct (IH Hr s1 R1) as (outs & s' & E & EL). rewrite E. cbn [obind]. eexists. eexists. split; [reflexivity|]. cbn. now rewrite EL.
    + destruct (IH Hr (a_setNoise (Some id) s) Hs) as (outs & s' & E & EL). cbn [obind]. rewrite E. cbn [obind]. eexists. eexists. split; [reflexivity|]. exact EL.
    + destruct (IH Hr (a_setNoise None s) Hs) as (outs & s' & E & EL). cbn [obind]. rewrite E. cbn [obind]. eexists. eexists. split; [reflexivity|]. exact EL.
Qed.
End P.

(** ** Orientations *)
From Coq Require Import Reals Lra.
From Verif Require Import Vec3.
Open Scope R_scope.
(** An orthogonal matrix. *)
Definition orthogonal (r : M3) : Prop := mmul r (mtr r) = m1.

Lemma orth_norm r v : orthogonal r -> vnorm (mvec (mtr r) v) = vnorm v.
Proof.
  intros H. unfold vnorm, vsq. rewrite mdot_tr, mtr_tr, <- mvec_mul, H, mvec_1. reflexivity.
Qed.
Lemma orth_dot r v w : orthogonal r -> vdot (mvec (mtr r) v) (mvec (mtr r) w) = vdot v w.
Proof. intros H. rewrite mdot_tr, mtr_tr, <- mvec_mul, H, mvec_1. reflexivity. Qed.
Lemma qrot_orth q : qn2 q = 1 -> orthogonal (qrot q).
Proof. intros H. apply qrot_so3, H. Qed.

(** The state vectors accepted by the inertial sensors. *)
Definition quat_state (q : Q4) (acc w : V3) : list R := [qx q; qy q; qz q; qw q] ++ vlist acc ++ vlist w.
Definition mat_state (r : M3) (acc w : V3) : list R := [m00 r; m10 r; m20 r; m01 r; m11 r; m21 r; m02 r; m12 r; m22 r] ++ vlist acc ++ vlist w.

