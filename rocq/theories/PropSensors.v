(** Properties of the simulated sensors: C45, C46. [reading], [total_class], [total_noise] [quat_state], [mat_state] are in
    SensorProofs.v. *)
From Coq Require Import ZArith List Lia Bool.
From Verif Require Import Base Sensors SensorProofs.
Import ListNotations.

(** ** C45 *)
(** From any state of any sensor, with any noise sources: after setState(v), over any sequence of
    reads and changes of noise source, every noiseless value is the sensor function of the first
    part of v followed by the last part of v, all noisy values are equal, they are one noisy version
    of that value, and the noise source is called at most once. *)
Theorem C45_one_measurement_per_state :
  forall (A : Type) (C : sclass A) (nz : noises A) md s v k ops s1 outs s',
  forallb reading ops = true ->
  a_setState C md v k s = Ok s1 ->
  a_run C nz md ops s1 = Ok (outs, s') ->
  let st := firstn (c_ssize C (a_mat s)) v in
  let tl := skipn (length v - a_concat s) v in
  (forall y, In (false, y) outs -> exists m, c_fun C md (a_mat s) st = Ok m /\ y = m ++ tl) /\
  (forall y, In (true, y) outs -> exists m id, c_fun C md (a_mat s) st = Ok m /\ nz id (a_calls s) (m ++ tl) = Ok y) /\
  (forall y y', In (true, y) outs -> In (true, y') outs -> y = y') /\
  (a_calls s <= a_calls s' <= S (a_calls s))%nat.
Proof.
  intros A C nz md s v k ops s1 outs s' Ho E1 E st tl.
  destruct (setState_cached C nz md v k s s1 E1) as (Hc & Hd & _).
  destruct (reads C nz md _ _ _ _ _ ops Hd Ho _ _ _ Hc E) as (K1 & K2 & K3 & K4).
  split; [exact K3|]. destruct K1 as (_ & _ & _ & _ & _ & N1 & N2). split; [|split].
  - intros y Hy. destruct (K4 y Hy) as [H1 H2]. destruct (N2 H1) as (_ & m & id & G1 & G2). exists m, id. rewrite H2 in G2. auto.
  - intros y y' Hy Hy'. destruct (K4 y Hy) as [_ H2]. destruct (K4 y' Hy') as [_ H2']. congruence.
  - destruct (a_noisyStored s') eqn:E2; [destruct (N2 eq_refl) as [-> _]; lia|rewrite (N1 eq_refl); lia].
Qed.
Print Assumptions C45_one_measurement_per_state.

(** A toy sensor with two states and one measurement, their sum, and noise sources adding
    10 id + n. *)
Definition toyC : sclass Z := mkSC (fun _ => 2%nat) 1 (fun _ _ v => match v with [a; b] => Ok [(a + b)%Z] | _ => UB end).
Definition toyN : noises Z := fun id n v => Ok (map (fun a => (a + 10 * Z.of_nat id + Z.of_nat n)%Z) v).
Example C45_ex : exists s, a_run toyC toyN Release
  [AConcat 2; ASetNoise 1; ASetState [1; 2; 3; 4]%Z 0; AGet true; ASetNoise 7; AGet true; AGet false; AResetNoise; AGet true; ASetNoise 7; ASetState [5; 6; 7; 8]%Z 1; AGet true] a_init =
  Ok ([(true, [13; 13; 14]); (true, [13; 13; 14]); (false, [3; 3; 4]); (false, [3; 3; 4]); (true, [82; 78; 79])]%Z, s).
Proof. eexists. vm_compute. reflexivity. Qed.

(** After any history, with a state vector long enough, reads never fail, provided the build is
    Release, or nothing is concatenated, or the first read is a noiseless one. The remaining case is
    the next theorem. *)
Theorem C45_reads_never_fail_partial :
  forall (A : Type) (C : sclass A) (nz : noises A) md h l s v k ops,
  total_class C md -> total_noise nz ->
  a_run C nz md h a_init = Ok (l, s) ->
  (c_ssize C (a_mat s) <= length v)%nat -> (a_concat s <= length v)%nat ->
  forallb reading ops = true ->
  (md = Release \/ a_concat s = O \/ hd_error ops = Some (AGet false)) ->
  exists outs s', a_run C nz md (ASetState v k :: ops) s = Ok (outs, s') /\
    length outs = length (filter (fun o => match o with AGet _ => true | _ => false end) ops).
Proof.
  intros A C nz md h l s v k ops HC HN Eh L1 L2 Ho Hcase.
  assert (Hs : sized C s). { apply (sized_run C nz md h a_init l s); [|exact Eh]. intros H. cbn in H. lia. }
  assert (E1 : exists s1, a_setState C md v k s = Ok s1).
  { unfold a_setState. rewrite (proj2 (Nat.leb_le _ _) L2), (proj2 (Nat.leb_le _ _) L1). cbn. eauto. }
  destruct E1 as (s1 & E1). cbn [a_run a_step]. rewrite E1. cbn [obind].
  destruct (setState_cached C nz md v k s s1 E1) as ((Hm & Hc & Hst & Hd & _) & _ & _ & Hs0 & Hn0 & Hb & _).
  assert (Hr0 : sized C s1 /\ length (a_state s1) = c_ssize C (a_mat s1) /\ length (a_direct s1) = a_concat s1).
  { split; [|split].
    - unfold sized. rewrite Hc, Hb. exact Hs.
    - rewrite Hst, Hm, firstn_length. lia.
    - rewrite Hd, Hc, skipn_length. lia. }
  assert (Hgo : forall ops s1, forallb reading ops = true -> ready C md s1 ->
    exists outs s', (do (l', s0) <- a_run C nz md ops s1; Ok ([] ++ l', s0)) = Ok (outs, s') /\
    length outs = length (filter (fun o => match o with AGet _ => true | _ => false end) ops)).
  { intros ops' s2 Ho' Hr. destruct (reads_total C nz md ops' HC HN Ho' s2 Hr) as (outs & s' & E & EL). rewrite E. cbn. eauto. }
  destruct Hcase as [H|[H|H]].
  - apply Hgo; [auto|]. destruct Hr0 as (R1 & R2 & R3). split; [auto|]. split; [rewrite Hs0; discriminate|]. split; [exact R2|]. split; [exact R3|]. left; exact H.
  - apply Hgo; [auto|]. destruct Hr0 as (R1 & R2 & R3). split; [auto|]. split; [rewrite Hs0; discriminate|]. split; [exact R2|]. split; [exact R3|]. right; left. rewrite Hc. exact H.
  - destruct ops as [|o ops]; [discriminate|]. injection H as ->. cbn [forallb reading andb] in Ho.
    cbn [a_run a_step]. unfold a_getMeasurements. rewrite Hs0.
    destruct (computeNoiseless_total C md s1 HC (or_intror Hr0)) as (s2 & E2 & R2 & S2 & _). rewrite E2. cbn [obind].
    unfold a_readNoiseless. pose proof R2 as (_ & B2 & _). destruct (snd (a_buf s2)) as [y|] eqn:Ey; [|destruct (B2 S2 eq_refl)].
    cbn [obind]. destruct (reads_total C nz md ops HC HN Ho s2 R2) as (outs & s' & E & EL). rewrite E. cbn [obind].
    eexists. eexists. split; [reflexivity|]. cbn. now rewrite EL.
Qed.
Print Assumptions C45_reads_never_fail_partial.
Example C45_total_ex : total_class toyC Debug /\ total_noise toyN /\ exists s,
  a_run toyC toyN Debug [AConcat 2; ASetNoise 1] a_init = Ok ([], s) /\
  omap fst (a_run toyC toyN Debug (ASetState [1; 2; 3; 4]%Z 0 :: [AGet false; AGet true]) s) = Ok [(false, [3; 3; 4]); (true, [13; 13; 14])]%Z.
Proof.
  split; [|split].
  - intros mat [|a [|b [|c v]]] H; try discriminate H. exists [(a + b)%Z]. split; reflexivity.
  - intros id n v. eexists. reflexivity.
  - eexists. split; vm_compute; reflexivity.
Qed.

(** In Debug, a noisy read right after setState with a concatenated part always fails: the assertion
    of computeNoisyMeasurement_ compares the size of the first part with the size of the whole
    state. This holds for every sensor, every state and every noise source. *)
Theorem C45_noisy_read_with_concatenation_refuted :
  forall (A : Type) (C : sclass A) (nz : noises A) s v k s1 id,
  (0 < a_concat s)%nat -> a_noise s = Some id ->
  a_setState C Debug v k s = Ok s1 -> a_getMeasurements C nz Debug true s1 = AssertFail.
Proof.
  intros A C nz s v k s1 id Hc Hn E1.
  destruct (setState_cached C nz Debug v k s s1 E1) as ((Hm & Hc1 & Hst & _) & _ & Hn1 & Hs0 & Hn0 & _ & L1 & _).
  unfold a_getMeasurements, a_computeNoisy. rewrite Hn1, Hn, Hn0, Hs0. unfold a_getStateSize. rewrite Hst, Hm, Hc1, firstn_length.
  destruct (Nat.eqb_spec (Nat.min (c_ssize C (a_mat s)) (length v)) (c_ssize C (a_mat s) + a_concat s)); [lia|]. reflexivity.
Qed.
Print Assumptions C45_noisy_read_with_concatenation_refuted.
Example C45_noisy_read_ex : exists s, omap snd (a_run toyC toyN Debug [AConcat 2; ASetNoise 1; ASetState [1; 2; 3; 4]%Z 0] a_init) = Ok s /\
  a_getMeasurements toyC toyN Debug true s = AssertFail /\ omap fst (a_getMeasurements toyC toyN Release true s) = Ok [13; 13; 14]%Z.
Proof. eexists. split; [vm_compute; reflexivity|]. split; vm_compute; reflexivity. Qed.

(** Changing the size of the concatenated part after a read leaves an uninitialised value marked as
    computed: the next noiseless read is undefined in both modes. *)
Theorem C45_concatenate_after_read_refuted :
  forall (A : Type) (C : sclass A) (nz : noises A) md s y s1 n,
  a_getMeasurements C nz md false s = Ok (y, s1) -> length y = (c_msize C + a_concat s)%nat -> n <> a_concat s ->
  fst (a_buf s1) = length y -> a_getMeasurements C nz md false (a_concatenate C n s1) = UB.
Proof.
  intros A C nz md s y s1 n E Hy Hn Hb.
  assert (Hst : a_stored s1 = true).
  { unfold a_getMeasurements in E. apply obind_Ok_inv in E. destruct E as (s2 & E1 & E). apply obind_Ok_inv in E. destruct E as (m & _ & E). inversion E; subst.
    destruct (a_stored s) eqn:Es; [inversion E1; subst; exact Es|]. unfold a_computeNoiseless in E1.
    apply obind_Ok_inv in E1. destruct E1 as (? & _ & E1). apply obind_Ok_inv in E1. destruct E1 as (? & _ & E1). inversion E1; subst. reflexivity. }
  unfold a_getMeasurements, a_concatenate. cbn [a_stored]. rewrite Hst. cbn [obind]. unfold a_readNoiseless. cbn [a_buf].
  rewrite Hb, Hy. destruct (Nat.eqb_spec (c_msize C + n) (c_msize C + a_concat s)); [lia|]. reflexivity.
Qed.
Print Assumptions C45_concatenate_after_read_refuted.
Example C45_concatenate_ex : forall md, exists s, omap fst (a_run toyC toyN md [ASetState [1; 2]%Z 0; AGet false] a_init) = Ok [(false, [3%Z])] /\
  omap snd (a_run toyC toyN md [ASetState [1; 2]%Z 0; AGet false] a_init) = Ok s /\ a_getMeasurements toyC toyN md false (a_concatenate toyC 1 s) = UB.
Proof. intros []; eexists; (split; [vm_compute; reflexivity|]); split; vm_compute; reflexivity. Qed.

(** ** C46 *)
From Coq Require Import Reals Lra Psatz.
From Verif Require Import Vec3 SpecRot.
Open Scope R_scope.

(** For every sensor state, every noise source, every orientation (a unit quaternion or an orthogonal matrix), every
    acceleration and angular velocity: the accelerometer and gyrometer outputs are the world vectors
    acc + g and w seen by an isometry, so norms and angles are preserved; at rest the accelerometer
    norm is 9.8. *)
Theorem C46_accelerometer_gyrometer_isometric :
  forall md nz s k mat v r acc w,
  a_concat s = O ->
  (mat = false /\ (exists q, qn2 q = 1 /\ v = quat_state q acc w /\ r = qrot q) \/
   mat = true /\ mmul r (mtr r) = m1 /\ v = mat_state r acc w) ->
  exists y s', a_run accgyro nz md [AMatrixMode mat; ASetState v k; AGet false] s = Ok ([(false, y)], s') /\
  length y = 6%nat /\
  mvec r (seg3 y 0) = vadd acc sgravity /\ mvec r (seg3 y 3) = w /\
  vnorm (seg3 y 0) = vnorm (vadd acc sgravity) /\ vnorm (seg3 y 3) = vnorm w /\
  vdot (seg3 y 0) (seg3 y 3) = vdot (vadd acc sgravity) w /\
  (acc = v0 -> vnorm (seg3 y 0) = 98 / 10).
Proof.
  intros md nz s k mat v r acc w Hc H.
  assert (Ho : orthogonal r).
  { destruct H as [(_ & q & Hq & _ & ->)|(_ & H & _)]; [now apply qrot_orth|exact H]. }
  assert (E : exists s', a_run accgyro nz md [AMatrixMode mat; ASetState v k; AGet false] s =
     Ok ([(false, vlist (accelerationMeasure acc r) ++ vlist (rotationVelocityMeasure w r))], s')).
  { destruct H as [(-> & q & Hq & -> & ->)|(-> & _ & ->)]; destruct s; cbn in Hc; subst; destruct acc, w;
    [destruct q|destruct r]; destruct md; cbn; eexists; reflexivity. }
  destruct E as (s' & E). exists (vlist (accelerationMeasure acc r) ++ vlist (rotationVelocityMeasure w r)), s'.
  split; [exact E|]. split; [reflexivity|].
  replace (seg3 _ 0) with (accelerationMeasure acc r) by (destruct (accelerationMeasure acc r); reflexivity).
  replace (seg3 _ 3) with (rotationVelocityMeasure w r) by (destruct (rotationVelocityMeasure w r); reflexivity).
  unfold accelerationMeasure, rotationVelocityMeasure.
  assert (Hb : forall x, mvec r (mvec (mtr r) x) = x) by (intros x; rewrite <- mvec_mul, Ho, mvec_1; reflexivity).
  split; [apply Hb|]. split; [apply Hb|]. split; [now apply orth_norm|]. split; [now apply orth_norm|]. split; [now apply orth_dot|].
  intros ->. rewrite orth_norm by auto. rewrite vadd_0_l. unfold vnorm, vsq, vdot, sgravity. cbn [vx vy vz].
  replace (0 * 0 + 0 * 0 + 98 / 10 * (98 / 10)) with (98 / 10 * (98 / 10)) by lra. apply sqrt_square. lra.
Qed.
Print Assumptions C46_accelerometer_gyrometer_isometric.
Example C46_ex : qn2 (mkQ (6/10) 0 (8/10) 0) = 1 /\ mmul (mkM 0 (-1) 0 1 0 0 0 0 1) (mtr (mkM 0 (-1) 0 1 0 0 0 0 1)) = m1 /\ a_concat (a_init (A := R)) = O.
Proof. split; [u3; lra|]. split; [u3; f_equal; ring|reflexivity]. Qed.

(** The same with the magnetometer: its output is the constant field of the algorithm seen by the
    isometry. *)
Theorem C46_magnetometer_isometric :
  forall md nz s k mat v r acc w,
  a_concat s = O ->
  (mat = false /\ (exists q, qn2 q = 1 /\ v = quat_state q acc w /\ r = qrot q) \/
   mat = true /\ mmul r (mtr r) = m1 /\ v = mat_state r acc w) ->
  exists y s', a_run accgyromag nz md [AMatrixMode mat; ASetState v k; AGet false] s = Ok ([(false, y)], s') /\
  length y = 9%nat /\
  mvec r (seg3 y 0) = vadd acc sgravity /\ mvec r (seg3 y 3) = w /\ mvec r (seg3 y 6) = mkV 0 28 (-337 / 10) /\
  vnorm (seg3 y 0) = vnorm (vadd acc sgravity) /\ vnorm (seg3 y 3) = vnorm w /\ vnorm (seg3 y 6) = vnorm (mkV 0 28 (-337 / 10)) /\
  (acc = v0 -> vdot (seg3 y 0) (seg3 y 6) = - (98 / 10) * (337 / 10)).
Proof.
  intros md nz s k mat v r acc w Hc H.
  assert (Ho : orthogonal r).
  { destruct H as [(_ & q & Hq & _ & ->)|(_ & H & _)]; [now apply qrot_orth|exact H]. }
  assert (E : exists s', a_run accgyromag nz md [AMatrixMode mat; ASetState v k; AGet false] s =
     Ok ([(false, vlist (accelerationMeasure acc r) ++ vlist (rotationVelocityMeasure w r) ++ vlist (magneticFieldMeasure r))], s')).
  { destruct H as [(-> & q & Hq & -> & ->)|(-> & _ & ->)]; destruct s; cbn in Hc; subst; destruct acc, w;
    [destruct q|destruct r]; destruct md; cbn; eexists; reflexivity. }
  destruct E as (s' & E). exists (vlist (accelerationMeasure acc r) ++ vlist (rotationVelocityMeasure w r) ++ vlist (magneticFieldMeasure r)), s'.
  split; [exact E|]. split; [reflexivity|].
  replace (seg3 _ 0) with (accelerationMeasure acc r) by (destruct (accelerationMeasure acc r); reflexivity).
  replace (seg3 _ 3) with (rotationVelocityMeasure w r) by (destruct (rotationVelocityMeasure w r); reflexivity).
  replace (seg3 _ 6) with (magneticFieldMeasure r) by (destruct (magneticFieldMeasure r); reflexivity).
  unfold accelerationMeasure, rotationVelocityMeasure, magneticFieldMeasure.
  assert (Hb : forall x, mvec r (mvec (mtr r) x) = x) by (intros x; rewrite <- mvec_mul, Ho, mvec_1; reflexivity).
  assert (He : earthField = mkV 0 28 (-337 / 10)) by (unfold earthField; f_equal; lra).
  rewrite He, !Hb, !orth_norm by auto. repeat (split; [reflexivity|]).
  intros ->. rewrite orth_dot, vadd_0_l by auto. unfold vdot, sgravity. cbn [vx vy vz]. lra.
Qed.
Print Assumptions C46_magnetometer_isometric.

(** The two ways of giving the orientation agree, and a quaternion and its opposite give the same
    measurement, unit or not. *)
Theorem C46_representations_agree :
  forall md nz s k q acc w,
  a_concat s = O ->
  exists y s1 s2 s3,
  a_run accgyromag nz md [AMatrixMode false; ASetState (quat_state q acc w) k; AGet false] s = Ok ([(false, y)], s1) /\
  a_run accgyromag nz md [AMatrixMode false; ASetState (quat_state (qneg q) acc w) k; AGet false] s = Ok ([(false, y)], s2) /\
  a_run accgyromag nz md [AMatrixMode true; ASetState (mat_state (qrot q) acc w) k; AGet false] s = Ok ([(false, y)], s3).
Proof.
  intros md nz s k q acc w Hc.
  assert (E' : forall r mat v, (mat = false /\ (exists q, v = quat_state q acc w /\ qrot q = r) \/ mat = true /\ v = mat_state r acc w) ->
     exists s', a_run accgyromag nz md [AMatrixMode mat; ASetState v k; AGet false] s =
     Ok ([(false, vlist (accelerationMeasure acc r) ++ vlist (rotationVelocityMeasure w r) ++ vlist (magneticFieldMeasure r))], s')).
  { intros r mat v [(-> & q' & -> & <-)|(-> & ->)]; destruct s; cbn in Hc; subst; destruct acc, w;
    [destruct q'|destruct r]; destruct md; cbn; eexists; reflexivity. }
  destruct (E' (qrot q) false (quat_state q acc w)) as (s1 & E1); [left; split; eauto|].
  destruct (E' (qrot q) false (quat_state (qneg q) acc w)) as (s2 & E2).
  { left. split; [reflexivity|]. exists (qneg q). split; [reflexivity|]. clear. destruct q. u3. f_equal; ring. }
  destruct (E' (qrot q) true (mat_state (qrot q) acc w)) as (s3 & E3); [right; auto|].
  eexists. exists s1, s2, s3. split; [exact E1|]. split; [exact E2|exact E3].
Qed.
Print Assumptions C46_representations_agree.
