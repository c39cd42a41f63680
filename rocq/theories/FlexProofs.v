(** Proofs about the model of the flexible base: the object behaves as a function of its settings. *)
From Coq Require Import ZArith List Bool Reals Lia Lra.
From Verif Require Import Base Vec3 Rot SpecRot RotProofs RotProofs3 SpecKine Kine Sensors ImuSys SpecImu ImuProofs KinDyn FlexSys SpecFlex.
Import ListNotations.
Open Scope R_scope.
Set Default Proof Using "Type".

Lemma ok_inj {A} (a b : A) : Ok a = Ok b -> a = b. Proof. now intros [= E]. Qed.
Ltac binv H := apply obind_Ok_inv in H; let a := fresh "a" in let E := fresh "E" in destruct H as (a & E & H).

(** ** The cached rotations *)
Definition cwf (k : cache) : Prop := length k = 4%nat /\ forall j, (j < 4)%nat -> snd (nth j k (v0, m1)) = rv_mat (fst (nth j k (v0, m1))).
Lemma rv_mat_0 : rv_mat v0 = m1.
Proof. rewrite rv_mat_quat, rv_quat_v0. unfold qrot, q1, m1. cbn. f_equal; ring. Qed.
Lemma cwf_init : cwf cache_init.
Proof. split; [reflexivity|]. intros j H. unfold cache_init. do 4 (destruct j as [|j]; [cbn; symmetry; apply rv_mat_0|]). lia. Qed.
Lemma nth_list_set {A} (i j : nat) (a d : A) l : (i < length l)%nat -> nth j (list_set i a l) d = if Nat.eqb j i then a else nth j l d.
Proof.
  revert i j. induction l as [|b l IH]; intros i j H; [cbn in H; lia|]. destruct i, j; cbn [list_set nth Nat.eqb]; auto. apply IH. cbn in H. lia.
Qed.
Lemma getrot_ok i x k : cwf k -> exists k', getrot i x k = (rv_mat x, k') /\ cwf k'.
Proof.
  intros [L C]. unfold getrot. assert (J : (Nat.min i 3 < 4)%nat) by lia. set (j := Nat.min i 3) in *. pose proof (C j J) as Cj. destruct (nth j k (v0, m1)) as [o r]. cbn [fst snd] in Cj.
  destruct (veqb o x) eqn:E.
  - apply veqb_eq in E. subst o. exists k. split; [now rewrite Cj|split; auto].
  - eexists. split; [reflexivity|]. split; [now rewrite list_set_length|]. intros j' H. rewrite nth_list_set by lia. destruct (Nat.eqb j' j); [reflexivity|now apply C].
Qed.

(** ** The forces and the step without caches *)
Fixpoint elast_p (md : mode) (c : fcfg) (r : M3) (p v th w : V3) (i : nat) (cs : list (V3 * V3 * V3)) (fc tc : list V3) : outcome (list V3 * list V3) :=
  match cs with
  | [] => Ok (fc, tc)
  | (cp, co, cv) :: cs =>
      do _ <- eigen_assert md (Nat.ltb i (length fc));
      elast_p md c r p v th w (S i) cs (list_set i (elast_force c (rv_mat co) r cp cv p v w) fc) (list_set i (elast_moment c (rv_mat co) r th w) tc)
  end.
Definition forces_p (md : mode) (c : fcfg) (cs : list (V3 * V3 * V3)) (p v th : V3) (r : M3) (w : V3) : outcome (list V3 * list V3) :=
  match f_model c with
  | CElastic => elast_p md c r p v th w 0 cs (repeat v0 nbModeledMax) (repeat v0 nbModeledMax)
  | CPendulum => let '(f, t) := ropes c r p v th w cs in Ok ([f; v0], [t; v0])
  | _ => Throw
  end.
Lemma elast_loop_ok md c r p v th w : forall cs i fc tc k, cwf k -> exists k', cwf k' /\
  elast_loop md c r p v th w i cs fc tc k = do q <- elast_p md c r p v th w i cs fc tc; Ok (q, k').
Proof.
  induction cs as [|[[cp co] cv] cs IH]; intros i fc tc k C.
  - exists k. split; [exact C|reflexivity].
  - cbn [elast_loop elast_p]. destruct (getrot_ok (i + 2) co k C) as (k1 & E & C1). rewrite E.
    destruct (eigen_assert md (Nat.ltb i (length fc))); cbn [obind]; try (exists k; split; [exact C|reflexivity]). now apply IH.
Qed.
Lemma forces_ok md c cs p v th r w k : cwf k -> exists k', cwf k' /\ forces md c cs p v th r w k = do q <- forces_p md c cs p v th r w; Ok (q, k').
Proof.
  intros C. unfold forces, forces_p. destruct (f_model c); try (exists k; split; [exact C|reflexivity]).
  now apply elast_loop_ok.
Qed.
Lemma elast_p_len md c r p v th w : forall cs i fc tc q, elast_p md c r p v th w i cs fc tc = Ok q -> length (fst q) = length fc /\ length (snd q) = length tc.
Proof.
  induction cs as [|[[cp co] cv] cs IH]; intros i fc tc q E; cbn [elast_p] in E.
  - inversion E; subst; auto.
  - binv E. apply IH in E. now rewrite !list_set_length in E.
Qed.
Lemma forces_p_len md c cs p v th r w q : forces_p md c cs p v th r w = Ok q -> length (fst q) = 2%nat /\ length (snd q) = 2%nat.
Proof.
  unfold forces_p. destruct (f_model c); try discriminate.
  - intros E. now apply elast_p_len in E.
  - destruct (ropes c r p v th w cs). intros E. inversion E. auto.
Qed.
(** The result of one step, as functions of the accelerations. *)
Definition moved (dt : R) (x : list R) (A Al : V3) : fbase :=
  let r' := mmul (rv_mat (vadd (vscal dt (seg3 x 9)) (vscal (1 / 2 * dt * dt) Al))) (rv_mat (seg3 x 3)) in
  mkFL (vadd (seg3 x 0) (vadd (vscal dt (seg3 x 6)) (vscal (1 / 2 * dt * dt) A))) (mat_rv r') (vadd (seg3 x 6) (vscal dt A)) (vadd (seg3 x 9) (vscal dt Al)).
Definition moved_r (dt : R) (x : list R) (Al : V3) : M3 := mmul (rv_mat (vadd (vscal dt (seg3 x 9)) (vscal (1 / 2 * dt * dt) Al))) (rv_mat (seg3 x 3)).
Definition acc_p (md : mode) (c : fcfg) (x u : list R) : outcome (V3 * V3) :=
  accel md c (body_of c x u) (seg3 x 0) (rv_mat (seg3 x 3)) (seg3 x 9) (efforts_f x) (efforts_t x).
Definition step_p (md : mode) (c : fcfg) (x u : list R) : outcome (fbase * list V3 * list V3) :=
  do (A, Al) <- acc_p md c x u;
  let l := moved (f_dt c) x A Al in
  do (fc, tc) <- forces_p md c (contacts_of (f_nc c) u) (l_p l) (l_v l) (l_th l) (moved_r (f_dt c) x Al) (l_w l);
  Ok (l, fc, tc).
Lemma euler_ok md c x u k : cwf k -> exists k', cwf k' /\
  euler md c (body_of c x u) (f_dt c) (base_of x) (efforts_f x) (efforts_t x) k = do q <- step_p md c x u; Ok (q, k').
Proof.
  intros C. unfold euler, step_p, acc_p. cbn [base_of l_p l_th l_v l_w]. destruct (getrot_ok 0 (seg3 x 3) k C) as (k1 & E & C1). rewrite E.
  destruct (accel _ _ _ _ _ _ _ _) as [[A Al]| | |]; cbn [obind]; try (exists k; split; [exact C|reflexivity]).
  unfold int_pv, int_mw. cbn [body_of b_cs].
  destruct (forces_ok md c (contacts_of (f_nc c) u) (l_p (moved (f_dt c) x A Al)) (l_v (moved (f_dt c) x A Al)) (l_th (moved (f_dt c) x A Al)) (moved_r (f_dt c) x Al) (l_w (moved (f_dt c) x A Al)) k1 C1) as (k2 & C2 & F).
  exists k2. split; [exact C2|]. unfold moved, moved_r in *. cbn [l_p l_v l_th l_w] in *. rewrite F.
  destruct (forces_p _ _ _ _ _ _ _ _) as [[fc tc]| | |]; reflexivity.
Qed.

(** ** The sensor in matrix mode *)
Definition swf (n : nat) (sn : asensor R) : Prop := a_mat sn = true /\ a_concat sn = n /\ ((0 < n)%nat -> fst (a_buf sn) = (6 + n)%nat).
Definition isignal (r : M3) (a w : V3) : list R := vlist (accelerationMeasure a r) ++ vlist (rotationVelocityMeasure w r).
Lemma firstn_app_eq {A} n (a b : list A) : length a = n -> firstn n (a ++ b) = a.
Proof. intros <-. rewrite firstn_app, Nat.sub_diag, firstn_O, app_nil_r. apply firstn_all. Qed.
Lemma skipn_app_eq {A} n (a b : list A) : length a = n -> skipn n (a ++ b) = b.
Proof. intros <-. rewrite skipn_app, skipn_all, Nat.sub_diag. reflexivity. Qed.
Lemma imu_fun md r a w : c_fun accgyro md true (mat_list r ++ vlist a ++ vlist w) = Ok (isignal r a w).
Proof. destruct r, a, w. reflexivity. Qed.
Section Sense.
Variable nz : noises R.
Definition sense (md : mode) (r : M3) (a w : V3) (d : list R) (t : Z) (sn : asensor R) : outcome (list R * asensor R) :=
  do sn <- a_setState accgyro md (mat_list r ++ vlist a ++ vlist w ++ d) t sn; a_getMeasurements accgyro nz md true sn.
Lemma sense_ok md r a w d t n sn : swf n sn -> length d = n ->
  match a_noise sn with
  | None => exists sn', sense md r a w d t sn = Ok (isignal r a w ++ d, sn') /\ swf n sn' /\ a_noise sn' = None /\ a_calls sn' = a_calls sn
  | Some id => if Nat.eqb n 0 || match md with Release => true | Debug => false end then
       exists sn' : list R -> asensor R, sense md r a w d t sn = (do y <- nz id (a_calls sn) (isignal r a w ++ d); Ok (y, sn' y)) /\
         forall y, swf n (sn' y) /\ a_noise (sn' y) = Some id /\ a_calls (sn' y) = S (a_calls sn)
     else sense md r a w d t sn = AssertFail
  end.
Proof.
  intros (M & Cn & B) Ld. unfold sense. destruct sn as [tm cc st dr ns ny sto buf no mat ca]. cbn [a_mat a_concat a_noise a_calls a_buf] in *. subst mat cc.
  assert (E : a_setState accgyro md (mat_list r ++ vlist a ++ vlist w ++ d) t (mkA tm n st dr ns ny sto buf no true ca) =
     Ok (mkA t n (mat_list r ++ vlist a ++ vlist w) d false ny false buf no true ca)).
  { unfold a_setState. cbn [a_concat a_mat c_ssize accgyro a_noisy a_buf a_noise a_calls].
    rewrite !app_assoc. rewrite !app_length. rewrite Ld. cbn [mat_list vlist length Nat.add].
    replace (Nat.leb n _) with true by (symmetry; apply Nat.leb_le; lia). cbn [eigen_assert obind Nat.leb].
    replace (S _ - n)%nat with 15%nat by lia.
    rewrite firstn_app_eq by reflexivity. rewrite skipn_app_eq by reflexivity. reflexivity. }
  assert (F : a_computeNoiseless accgyro md (mkA t n (mat_list r ++ vlist a ++ vlist w) d false ny false buf no true ca) =
     Ok (mkA t n (mat_list r ++ vlist a ++ vlist w) d false ny true (length (isignal r a w ++ d), Some (isignal r a w ++ d)) no true ca)).
  { unfold a_computeNoiseless. cbn [a_mat a_state a_concat a_time a_direct a_noisyStored a_noisy a_noise a_calls a_buf]. rewrite imu_fun. cbn [obind].
    destruct n as [|n].
    - cbn [Nat.ltb Nat.leb]. destruct d; [|discriminate]. cbn [obind]. rewrite app_nil_r. reflexivity.
    - cbn [Nat.ltb Nat.leb]. rewrite Ld, (B ltac:(lia)). unfold eigen_assert. rewrite Nat.eqb_refl. reflexivity. }
  assert (Lb : length (isignal r a w ++ d) = (6 + n)%nat) by (rewrite app_length, Ld; reflexivity).
  rewrite E. cbn [obind]. unfold a_getMeasurements. cbn [a_noise a_noisyStored a_stored].
  destruct no as [id|].
  - unfold a_computeNoisy. cbn [a_stored a_state].
    assert (G : a_getStateSize accgyro (mkA t n (mat_list r ++ vlist a ++ vlist w) d false ny false buf (Some id) true ca) = (15 + n)%nat) by reflexivity.
    rewrite G. change (length (mat_list r ++ vlist a ++ vlist w)) with 15%nat.
    destruct n as [|n].
    + cbn [Nat.eqb orb]. eexists (fun y => _). split.
      * match goal with |- context [boost_assert md ?b] => replace (boost_assert md b) with (Ok tt) by (destruct md; reflexivity) end. cbn [obind]. rewrite F. cbn [obind]. unfold a_readNoiseless. cbn [a_buf snd obind a_calls].
        destruct (nz id ca _); reflexivity.
      * intros y. cbn. repeat split. intros; lia.
    + cbn [Nat.eqb orb]. destruct md.
      * reflexivity.
      * exists (fun y => mkA t (S n) (mat_list r ++ vlist a ++ vlist w) d true y true (length (isignal r a w ++ d), Some (isignal r a w ++ d)) (Some id) true (S ca)). split.
        -- match goal with |- context [boost_assert Release ?b] => replace (boost_assert Release b) with (Ok tt) by (destruct b; reflexivity) end. cbn [obind]. rewrite F. cbn [obind]. unfold a_readNoiseless. cbn [a_buf snd obind a_calls]. destruct (nz id ca (isignal r a w ++ d)); reflexivity.
        -- intros y. cbn [a_mat a_concat a_buf a_noise a_calls fst]. repeat split. intros; exact Lb.
  - eexists. split; [rewrite F; reflexivity|]. cbn [a_mat a_concat a_buf a_noise a_calls fst]. repeat split. intros; exact Lb.
Qed.
End Sense.

(** ** The object *)
Definition fwf (s : fsys) : Prop := cwf (f_cache s) /\ length (f_fc s) = 2%nat /\ length (f_tc s) = 2%nat /\ swf (f_extra (f_cfg s)) (f_sens s).
Definition next_p (md : mode) (c : fcfg) (x u : list R) : outcome (list R) := do (l, fc, tc) <- step_p md c x u; Ok (f_pack c x l fc tc).
(** The orientation, acceleration and angular velocity of the inertial unit, and the direct part. *)
Definition meas_p (md : mode) (c : fcfg) (x u : list R) : outcome (M3 * V3 * V3 * list R) :=
  do (A, Al) <- acc_p md c x u;
  let r := rv_mat (seg3 x 3) in let w := seg3 x 9 in
  do d <- f_direct md c x r;
  Ok (mmul r (rv_mat (seg3 u 30)), vadd (vadd (mvec (mmul (mscal 2 (skew w)) r) (seg3 u 33)) (vadd A (mvec r (seg3 u 39)))) (mvec (mmul (madd (skew Al) (mmul (skew w) (skew w))) r) (seg3 u 27)),
      vadd w (mvec r (seg3 u 36)), d).
Section P.
Variable nz : noises R.
Implicit Types s : fsys.
Lemma state_ok md x u s : fwf s -> exists k', cwf k' /\
  f_stateDynamics nz md x u s = (do _ <- f_sizes md x u s; do (l, fc, tc) <- step_p md (f_cfg s) x u;
    f_noise nz (with_x x u (f_pack (f_cfg s) x l fc tc) (with_work k' fc tc true s))).
Proof.
  intros (C & _). destruct (euler_ok md (f_cfg s) x u (f_cache s) C) as (k' & C' & E). exists k'. split; [exact C'|].
  unfold f_stateDynamics. rewrite E. destruct (f_sizes md x u s); cbn [obind]; auto. destruct (step_p md (f_cfg s) x u) as [[[l fc] tc]| | |]; reflexivity.
Qed.
Lemma meas_ok md x u t s : fwf s -> exists k', cwf k' /\
  f_measureDynamics nz md x u t s = (do _ <- f_sizes md x u s; do _ <- boost_assert md (f_eff s); do _ <- (if f_eff s then Ok tt else UB);
    do (r, a, w, d) <- meas_p md (f_cfg s) x u; do (y, sn) <- sense nz md r a w d t (f_sens s);
    Ok (y, with_y x u t y sn (with_work k' (efforts_f x) (efforts_t x) true s))).
Proof.
  intros (C & _). destruct (getrot_ok 0 (seg3 x 3) (f_cache s) C) as (k1 & E1 & C1). destruct (getrot_ok 1 (seg3 u 30) k1 C1) as (k2 & E2 & C2). exists k2. split; [exact C2|].
  unfold f_measureDynamics, meas_p, acc_p, sense. rewrite E1, E2. destruct (f_sizes md x u s); cbn [obind]; auto.
  destruct (boost_assert md (f_eff s)); cbn [obind]; auto. destruct (f_eff s); cbn [obind]; auto.
  destruct (accel _ _ _ _ _ _ _ _) as [[A Al]| | |]; cbn [obind]; auto. destruct (f_direct md (f_cfg s) x (rv_mat (seg3 x 3))); cbn [obind]; auto.
  destruct (a_setState _ _ _ _ _); cbn [obind]; auto.
Qed.
Lemma sizes_inv md x u s r : f_sizes md x u s = Ok r -> length x = 35%nat /\ length u = f_isize (f_cfg s) /\ (48 + 12 * f_nc (f_cfg s) <= length u)%nat.
Proof.
  unfold f_sizes. intros E. binv E. binv E. apply vsize_inv in E0, E1. split; [assumption|]. split; [assumption|].
  unfold eigen_assert in E. destruct (Nat.leb _ _) eqn:Q; [|destruct md; discriminate]. now apply Nat.leb_le in Q.
Qed.
Lemma sizes_ok md x u s : length x = 35%nat -> length u = f_isize (f_cfg s) -> (48 + 12 * f_nc (f_cfg s) <= length u)%nat -> f_sizes md x u s = Ok tt.
Proof. intros Lx Lu Ln. unfold f_sizes. rewrite !vsize_ok by assumption. cbn [obind]. unfold eigen_assert. apply Nat.leb_le in Ln. now rewrite Ln. Qed.
Lemma direct_len md c x r d : length x = 35%nat -> f_direct md c x r = Ok d -> length d = f_extra c.
Proof.
  intros Lx. unfold f_direct, f_extra. intros E. binv E. apply ok_inj in E; subst d. rewrite app_length.
  destruct (f_force c).
  - binv E0. apply ok_inj in E0; subst a. unfold eigen_assert in E. destruct (Nat.leb _ _) eqn:Q; [|destruct md; discriminate]. apply Nat.leb_le in Q.
    rewrite firstn_length, skipn_length, Lx. destruct (f_abs c); cbn [app length vlist]; lia.
  - inversion E0; subst a. destruct (f_abs c); cbn [app length vlist]; lia.
Qed.
Lemma step_len md c x u l fc tc : step_p md c x u = Ok (l, fc, tc) -> length fc = 2%nat /\ length tc = 2%nat.
Proof. unfold step_p. intros E. binv E. destruct a as [A Al]. binv E. destruct a as [f t]. inversion E; subst. apply forces_p_len in E1. exact E1. Qed.
Lemma pack_len c x l fc tc : length x = 35%nat -> length (f_pack c x l fc tc) = 35%nat.
Proof. intros Lx. unfold f_pack. rewrite !app_length, skipn_length, Lx. destruct (f_unm c); reflexivity. Qed.

Lemma noise_inv s y s' : f_noise nz s = Ok (y, s') -> exists o n, s' = with_pn o n s.
Proof.
  unfold f_noise. destruct (f_pn s) as [id|] eqn:P; intros E.
  - binv E. inversion E; subst. eauto.
  - inversion E; subst. exists None, (f_pcalls s'). destruct s'. cbn in P. subst. reflexivity.
Qed.
Lemma state_inv md x u s y s' : fwf s -> f_stateDynamics nz md x u s = Ok (y, s') -> exists k' l fc tc o n, cwf k' /\ length x = 35%nat /\ length u = f_isize (f_cfg s) /\ (48 + 12 * f_nc (f_cfg s) <= length u)%nat /\
  step_p md (f_cfg s) x u = Ok (l, fc, tc) /\ s' = with_pn o n (with_x x u (f_pack (f_cfg s) x l fc tc) (with_work k' fc tc true s)).
Proof.
  intros W E. destruct (state_ok md x u s W) as (k' & C & Es). rewrite Es in E. binv E. apply sizes_inv in E0. binv E. destruct a0 as [[l fc] tc]. apply noise_inv in E. destruct E as (o & n & ->).
  exists k', l, fc, tc, o, n. tauto.
Qed.
Lemma state_wf md x u s y s' : fwf s -> f_stateDynamics nz md x u s = Ok (y, s') -> fwf s'.
Proof.
  intros W E. destruct (state_inv _ _ _ _ _ _ W E) as (k' & l & fc & tc & o & n & C & _ & _ & _ & Ep & ->). apply step_len in Ep. destruct W as (_ & _ & _ & Sw). unfold fwf. cbn. tauto.
Qed.
Lemma sense_wf md r a w d t n sn y sn' : swf n sn -> length d = n -> sense nz md r a w d t sn = Ok (y, sn') -> swf n sn' /\ a_noise sn' = a_noise sn.
Proof.
  intros Sw Ld E. pose proof (sense_ok nz md r a w d t n sn Sw Ld) as H. destruct (a_noise sn) as [id|].
  - destruct (Nat.eqb n 0 || _)%bool.
    + destruct H as (sn1 & H & G). rewrite H in E. binv E. inversion E; subst. destruct (G y) as (? & ? & _). auto.
    + rewrite H in E. discriminate.
  - destruct H as (sn1 & H & G & N & _). rewrite H in E. inversion E; subst. auto.
Qed.
Lemma meas_inv md x u t s y s' : fwf s -> f_measureDynamics nz md x u t s = Ok (y, s') -> exists k' r a w d sn, cwf k' /\ length x = 35%nat /\ length u = f_isize (f_cfg s) /\ (48 + 12 * f_nc (f_cfg s) <= length u)%nat /\
  f_eff s = true /\ meas_p md (f_cfg s) x u = Ok (r, a, w, d) /\ length d = f_extra (f_cfg s) /\ sense nz md r a w d t (f_sens s) = Ok (y, sn) /\
  s' = with_y x u t y sn (with_work k' (efforts_f x) (efforts_t x) true s).
Proof.
  intros W E. destruct (meas_ok md x u t s W) as (k' & C & Es). rewrite Es in E. binv E. apply sizes_inv in E0. binv E. binv E. destruct (f_eff s); [|discriminate].
  binv E. destruct a2 as [[[r a2] w] d]. binv E. destruct a3 as [y' sn]. inversion E; subst. exists k', r, a2, w, d, sn.
  assert (Ld : length d = f_extra (f_cfg s)).
  { unfold meas_p in E3. binv E3. destruct a3 as [A Al]. binv E3. inversion E3; subst. eapply direct_len; [|eassumption]. tauto. }
  tauto.
Qed.
Lemma meas_wf md x u t s y s' : fwf s -> f_measureDynamics nz md x u t s = Ok (y, s') -> fwf s'.
Proof.
  intros W E. destruct (meas_inv _ _ _ _ _ _ _ W E) as (k' & r & a & w & d & sn & C & _ & _ & _ & _ & _ & Ld & Es & ->). destruct W as (_ & _ & _ & Sw).
  destruct (sense_wf _ _ _ _ _ _ _ _ _ _ Sw Ld Es) as [G _]. unfold fwf. cbn. auto.
Qed.
Lemma fd_inv (f : list R -> fsys -> outcome (list R * fsys)) (Q : fsys -> Prop) : (forall x s y s', Q s -> f x s = Ok (y, s') -> Q s') ->
  forall md x0 y0 is s c s', Q s -> fd_cols f md x0 y0 is s = Ok (c, s') -> Q s'.
Proof.
  intros H md x0 y0. induction is as [|i is IH]; intros s c s' G E; cbn [fd_cols] in E.
  - inversion E; subst. exact G.
  - binv E. binv E. destruct a0 as [y s1]. binv E. binv E. destruct a1 as [cs s2]. inversion E; subst. eapply IH; [|eassumption]. eapply H; eassumption.
Qed.
Lemma update_wf s c : fwf s -> fwf (f_update c s).
Proof.
  intros (C & L1 & L2 & M & N & B). split; [exact C|]. split; [exact L1|]. split; [exact L2|]. split; [exact M|]. split; [reflexivity|]. intros _.
  unfold f_update, with_y, with_cfg, a_concatenate. cbn [f_sens a_buf f_cfg]. change (c_msize accgyro) with 6%nat.
  destruct (Nat.eqb_spec (6 + f_extra c) (fst (a_buf (f_sens s)))) as [E|E]; [symmetry; exact E|reflexivity].
Qed.
Lemma extra_setting o c : f_extra (f_setting o c) = f_extra c.
Proof. destruct c, o; reflexivity. Qed.
Lemma step_wf md o s r s' : fwf s -> f_step nz md o s = Ok (r, s') -> fwf s'.
Proof.
  intros W E. destruct o; cbn [f_step] in E.
  - binv E. destruct a. inversion E; subst. eapply state_wf; eassumption.
  - binv E. destruct a. inversion E; subst. eapply meas_wf; eassumption.
  - binv E. destruct a. inversion E; subst. unfold f_accelerations in E0. binv E0. destruct (getrot_ok 0 (seg3 x 3) (f_cache s) (proj1 W)) as (k1 & Ek & C1). rewrite Ek in E0. binv E0. destruct a0. inversion E0; subst. destruct W as (_ & _ & _ & Sw). unfold fwf. cbn. auto.
  - binv E. destruct a. inversion E; subst. unfold f_momentaForces in E0. binv E0. destruct (getrot_ok 0 (seg3 x 3) (f_cache s) (proj1 W)) as (k1 & Ek & C1). rewrite Ek in E0. binv E0. destruct a0. inversion E0; subst. destruct W as (_ & _ & _ & Sw). unfold fwf. cbn. auto.
  - binv E. destruct a. inversion E; subst. unfold f_momentaKinematics in E0. binv E0. destruct (getrot_ok 0 (seg3 x 3) (f_cache s) (proj1 W)) as (k1 & Ek & C1). rewrite Ek in E0. binv E0. destruct a0. inversion E0; subst. destruct W as (_ & _ & _ & Sw). unfold fwf. cbn. auto.
  - binv E. inversion E; subst. exact W.
  - binv E. destruct a. inversion E; subst. unfold f_forcesOf in E0. binv E0. binv E0. destruct (getrot_ok 0 (seg3 x 3) (f_cache s) (proj1 W)) as (k1 & Ek & C1). rewrite Ek in E0.
    destruct (forces_ok md (f_cfg s) (contacts_of (f_nc (f_cfg s)) u) (seg3 x 0) (seg3 x 6) (seg3 x 3) (rv_mat (seg3 x 3)) (seg3 x 9) k1 C1) as (k2 & C2 & F). rewrite F in E0.
    binv E0. binv E3. inversion E3; subst. destruct a2 as [fc tc]. apply forces_p_len in E4. binv E0. inversion E0; subst. destruct W as (_ & _ & _ & Sw). unfold fwf. cbn in *. tauto.
  - binv E. destruct a as [cs s1]. inversion E; subst. unfold f_stateJacobian in E0.
    assert (W0 : fwf (with_opxk1 (f_xk1 s) s)) by exact W.
    assert (I : forall (b : bool) is s0 c s1, fwf s0 -> (if b then fd_cols (fun x s => f_stateDynamics nz md x (f_uk s) s) md (f_xk s) (f_xk1 s) is s0 else Ok (map (fun i => (i, unit_col 35 i)) is, s0)) = Ok (c, s1) -> True) by auto.
    clear I.
    repeat (binv E0; match goal with p : (_ * fsys)%type |- _ => destruct p end).
    inversion E0; subst.
    assert (J : forall (b : bool) is s0 c s1, fwf s0 -> (if b then fd_cols (fun x s1 => f_stateDynamics nz md x (f_uk s) s1) md (f_xk s) (f_xk1 s) is s0 else Ok (map (fun i => (i, unit_col 35 i)) is, s0)) = Ok (c, s1) -> fwf s1).
    { intros b is s0 c0 s1 G X. destruct b; [|inversion X; subst; exact G]. eapply (fd_inv _ fwf); [|exact G|exact X]. intros x9 s9 y9 s9' G9 X9; cbv beta in X9; exact (state_wf _ _ _ _ _ _ G9 X9). }
    pose proof (J true _ _ _ _ W0 E1) as W1. pose proof (J _ _ _ _ _ W1 E2) as W2. pose proof (J _ _ _ _ _ W2 E3) as W3. pose proof (J _ _ _ _ _ W3 E4) as W4. exact W4.
  - binv E. destruct a as [cs s1]. inversion E; subst. unfold f_measureJacobian in E0.
    repeat (binv E0; match goal with p : (_ * fsys)%type |- _ => destruct p end).
    inversion E0; subst.
    assert (J : forall (b : bool) is s0 c s1, fwf s0 -> (if b then fd_cols (fun x s1 => f_measureDynamics nz md x (f_uf s) (f_kf s) s1) md (f_xf s) (f_yk s) is s0 else Ok (map (fun i => (i, repeat 0 (6 + f_extra (f_cfg s)))) is, s0)) = Ok (c, s1) -> fwf s1).
    { intros b is s0 c0 s1 G X. destruct b; [|inversion X; subst; exact G]. eapply (fd_inv _ fwf); [|exact G|exact X]. intros x9 s9 y9 s9' G9 X9; cbv beta in X9; exact (meas_wf _ _ _ _ _ _ _ G9 X9). }
    pose proof (J true _ _ _ _ W E1) as W1. pose proof (J _ _ _ _ _ W1 E2) as W2. pose proof (J _ _ _ _ _ W2 E3) as W3. pose proof (J _ _ _ _ _ W3 E4) as W4. exact W4.
  - inversion E; subst. destruct W as (C & L1 & L2 & Sw). unfold fwf. cbn. rewrite extra_setting. auto.
  - inversion E; subst. now apply update_wf.
  - inversion E; subst. now apply update_wf.
  - inversion E; subst. now apply update_wf.
  - inversion E; subst. exact W.
  - inversion E; subst. exact W.
  - inversion E; subst. exact W.
Qed.
Lemma init_wf dt : fwf (f_init dt).
Proof. repeat split; try apply cwf_init. intros H. cbn in H. lia. Qed.
Lemma run_wf md ops : forall s s', fwf s -> f_run nz md ops s = Ok s' -> fwf s'.
Proof.
  induction ops as [|o os IH]; intros s s' W E; [inversion E; subst; exact W|]. cbn [f_run] in E. binv E. destruct a as [r s1]. eauto using step_wf.
Qed.
Lemma reach_wf md dt ops s : f_run nz md ops (f_init dt) = Ok s -> fwf s.
Proof. apply run_wf, init_wf. Qed.
End P.
