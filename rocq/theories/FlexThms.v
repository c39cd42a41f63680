(** Lemmas for the properties of the flexible base. *)
From Coq Require Import ZArith List Bool Reals Lia Lra.
From Verif Require Import Base Vec3 Rot SpecRot RotProofs RotProofs2 RotProofs3 SpecKine KineProofs2 ExpDeriv Kine Sensors KinDyn KinDynMotion ImuSys SpecImu ImuProofs ImuThms FlexSys SpecFlex FlexDyn FlexProofs.
Import ListNotations.
Open Scope R_scope.
Set Default Proof Using "Type".

(** ** Totality *)
Lemma acc_total md c x u : (f_model c = CElastic -> (f_nc c <= 2)%nat) -> exists A Al, acc_p md c x u = Ok (A, Al).
Proof. intros H. unfold acc_p, accel. rewrite wrench_ok by exact H. cbn [obind]. eauto. Qed.
(** The efforts of the contacts at given kinematics. *)
Definition el_f (c : fcfg) (r : M3) (p v w : V3) (k : V3 * V3 * V3) : V3 := elast_force c (rv_mat (snd (fst k))) r (fst (fst k)) (snd k) p v w.
Definition el_t (c : fcfg) (r : M3) (th w : V3) (k : V3 * V3 * V3) : V3 := elast_moment c (rv_mat (snd (fst k))) r th w.
Definition pad (l : list V3) : list V3 := l ++ repeat v0 (2 - length l).
Lemma elast_p_ok md c r p v th w cs : (length cs <= 2)%nat -> elast_p md c r p v th w 0 cs (repeat v0 2) (repeat v0 2) = Ok (pad (map (el_f c r p v w) cs), pad (map (el_t c r th w) cs)).
Proof. intros H. destruct cs as [|[[]] [|[[]] [|]]]; try reflexivity. cbn in H. lia. Qed.
Lemma elast_p_many md c r p v th w cs : (2 < length cs)%nat -> elast_p md c r p v th w 0 cs (repeat v0 2) (repeat v0 2) = match md with Debug => AssertFail | Release => UB end.
Proof. intros H. destruct cs as [|[[]] [|[[]] [|[[]] cs]]]; cbn in H; try lia. destruct md; reflexivity. Qed.
Lemma contacts_len n u : length (contacts_of n u) = n.
Proof. unfold contacts_of. now rewrite map_length, seq_length. Qed.
Lemma forces_total md c u p v th r w : has_model c -> (f_model c = CElastic -> (f_nc c <= 2)%nat) -> exists fc tc, forces_p md c (contacts_of (f_nc c) u) p v th r w = Ok (fc, tc).
Proof.
  intros [M|M] H; unfold forces_p; rewrite M.
  - change nbModeledMax with 2%nat. rewrite elast_p_ok by (rewrite contacts_len; auto). eauto.
  - destruct (ropes c r p v th w (contacts_of (f_nc c) u)). eauto.
Qed.
Lemma step_total md c x u : has_model c -> (f_model c = CElastic -> (f_nc c <= 2)%nat) -> exists A Al fc tc, acc_p md c x u = Ok (A, Al) /\
  forces_p md c (contacts_of (f_nc c) u) (l_p (moved (f_dt c) x A Al)) (l_v (moved (f_dt c) x A Al)) (l_th (moved (f_dt c) x A Al)) (moved_r (f_dt c) x Al) (l_w (moved (f_dt c) x A Al)) = Ok (fc, tc) /\
  step_p md c x u = Ok (moved (f_dt c) x A Al, fc, tc) /\ next_p md c x u = Ok (f_pack c x (moved (f_dt c) x A Al) fc tc).
Proof.
  intros M H. destruct (acc_total md c x u H) as (A & Al & Ea).
  edestruct (forces_total md c u (l_p (moved (f_dt c) x A Al)) (l_v (moved (f_dt c) x A Al)) (l_th (moved (f_dt c) x A Al)) (moved_r (f_dt c) x Al) (l_w (moved (f_dt c) x A Al)) M H) as (fc & tc & Ef).
  exists A, Al, fc, tc. assert (Es : step_p md c x u = Ok (moved (f_dt c) x A Al, fc, tc)) by (unfold step_p; rewrite Ea; cbn [obind]; rewrite Ef; reflexivity).
  unfold next_p. rewrite Es. auto.
Qed.

(** ** What the calls return *)
Section R.
Variable nz : noises R.
Implicit Types s : fsys.
Lemma out_state md x u s : fwf s -> out (f_step nz md (FState x u) s) = do _ <- f_sizes md x u s; do y <- next_p md (f_cfg s) x u;
  match f_pn s with None => Ok (OVec y) | Some id => do y <- nz id (f_pcalls s) (f_opxk1 s); Ok (OVec y) end.
Proof.
  intros W. cbn [f_step]. destruct (state_ok nz md x u s W) as (k & C & E). rewrite E. destruct (f_sizes md x u s); cbn [obind out]; auto.
  unfold next_p. destruct (step_p md (f_cfg s) x u) as [[[l fc] tc]| | |]; cbn [obind out]; auto. unfold f_noise. cbn [with_x with_work f_pn f_pcalls f_opxk1 f_xk1].
  destruct (f_pn s); [|reflexivity]. destruct (nz _ _ _); reflexivity.
Qed.
Lemma out_acc md x u s : fwf s -> out (f_step nz md (FAcc x u) s) = do _ <- f_sizes md x u s; do (A, Al) <- acc_p md (f_cfg s) x u; Ok (OVec (vlist A ++ vlist Al)).
Proof.
  intros W. cbn [f_step]. unfold f_accelerations. destruct (getrot_ok 0 (seg3 x 3) (f_cache s) (proj1 W)) as (k & E & C). rewrite E. fold (acc_p md (f_cfg s) x u). destruct (f_sizes md x u s); cbn [obind out]; auto.
  destruct (acc_p md (f_cfg s) x u) as [[A Al]| | |]; reflexivity.
Qed.
Lemma out_forces md x u s : fwf s -> length x = 35%nat -> (48 + 12 * f_nc (f_cfg s) <= length u)%nat -> out (f_step nz md (FForcesOf x u) s) =
  do (fc, tc) <- forces_p md (f_cfg s) (contacts_of (f_nc (f_cfg s)) u) (seg3 x 0) (seg3 x 6) (seg3 x 3) (rv_mat (seg3 x 3)) (seg3 x 9);
  do _ <- eigen_assert md (Nat.leb (f_nc (f_cfg s)) 2);
  Ok (OVec (concat (map (fun i => vlist (nth i fc v0) ++ vlist (nth i tc v0)) (seq 0 (f_nc (f_cfg s)))))).
Proof.
  intros W Lx Lu. cbn [f_step]. unfold f_forcesOf. rewrite Lx. apply Nat.leb_le in Lu. rewrite Lu. cbn [Nat.leb eigen_assert obind].
  destruct (getrot_ok 0 (seg3 x 3) (f_cache s) (proj1 W)) as (k & E & C). rewrite E.
  destruct (forces_ok md (f_cfg s) (contacts_of (f_nc (f_cfg s)) u) (seg3 x 0) (seg3 x 6) (seg3 x 3) (rv_mat (seg3 x 3)) (seg3 x 9) k C) as (k2 & C2 & F). rewrite F.
  destruct (forces_p _ _ _ _ _ _ _ _) as [[fc tc]| | |]; cbn [obind out]; auto. unfold f_getForces. cbn [with_work f_cfg f_fc f_tc]. change nbModeledMax with 2%nat.
  destruct (eigen_assert md (Nat.leb (f_nc (f_cfg s)) 2)); reflexivity.
Qed.
Lemma out_momf md x u s : fwf s -> out (f_step nz md (FMomF x u) s) = do _ <- f_sizes md x u s;
  let b := body_of (f_cfg s) x u in let r := rv_mat (seg3 x 3) in
  do (f, t) <- wrench md (f_cfg s) b r (seg3 x 0) (efforts_f x) (efforts_t x);
  Ok (OVec (vlist (vsub f (vscal hrp2_m gravity)) ++ vlist (vsub t (mvec (mscal hrp2_m (skew (vadd (mvec r (b_c b)) (seg3 x 0)))) gravity)))).
Proof.
  intros W. cbn [f_step]. unfold f_momentaForces. destruct (getrot_ok 0 (seg3 x 3) (f_cache s) (proj1 W)) as (k & E & C). rewrite E. destruct (f_sizes md x u s); cbn [obind out]; auto.
  destruct (wrench _ _ _ _ _ _ _) as [[f t]| | |]; reflexivity.
Qed.
Lemma out_momk md x u s : fwf s -> out (f_step nz md (FMomK x u) s) = do _ <- f_sizes md x u s;
  let b := body_of (f_cfg s) x u in let r := rv_mat (seg3 x 3) in let p := seg3 x 0 in let w := seg3 x 9 in
  do (a, al) <- accel md (f_cfg s) b p r (seg3 x 6) (efforts_f x) (efforts_t x);
  let rc := mvec r (b_c b) in
  let h := vscal hrp2_m (vadd (vadd (vadd (vadd (mvec (mmul (skew al) r) (b_c b)) (mvec (mmul (skew2 w) r) (b_c b)))
                                        (mvec (mmul (mscal 2 (skew w)) r) (b_cd b))) (mvec r (b_cdd b))) a) in
  let sg := vadd (vadd (vadd (vadd (vadd (vadd (mvec (mmul (mmul (mmul (skew w) r) (b_I b)) (mtr r)) w) (mvec (mmul (mmul r (b_Id b)) (mtr r)) w))
                                  (mvec (mmul (mmul r (b_I b)) (mtr r)) al)) (mvec (mmul (skew w) r) (b_sg b))) (mvec r (b_sgd b)))
                  (mvec (skew p) h)) (mvec (mscal hrp2_m (skew rc)) a) in
  Ok (OVec (vlist h ++ vlist sg)).
Proof.
  intros W. cbn [f_step]. unfold f_momentaKinematics. destruct (getrot_ok 0 (seg3 x 3) (f_cache s) (proj1 W)) as (k & E & C). rewrite E. destruct (f_sizes md x u s); cbn [obind out]; auto.
  destruct (accel _ _ _ _ _ _ _ _) as [[a9 al]| | |]; reflexivity.
Qed.
Lemma out_meas md x u t s : fwf s -> out (f_step nz md (FMeas x u t) s) = do _ <- f_sizes md x u s; do _ <- boost_assert md (f_eff s); do _ <- (if f_eff s then Ok tt else UB);
  do (r, a, w, d) <- meas_p md (f_cfg s) x u;
  match a_noise (f_sens s) with
  | None => Ok (OVec (isignal r a w ++ d))
  | Some id => do _ <- boost_assert md (Nat.eqb (f_extra (f_cfg s)) 0); do y <- nz id (a_calls (f_sens s)) (isignal r a w ++ d); Ok (OVec y)
  end.
Proof.
  intros W. cbn [f_step]. destruct (meas_ok nz md x u t s W) as (k & C & E). rewrite E. destruct (f_sizes md x u s) as [a00| | |] eqn:Es; cbn [obind out]; auto.
  destruct (boost_assert md (f_eff s)); cbn [obind out]; auto. destruct (f_eff s); cbn [obind out]; auto.
  destruct (meas_p md (f_cfg s) x u) as [[[[r a0] w] d]| | |] eqn:Em; cbn [obind out]; auto.
  assert (Ld : length d = f_extra (f_cfg s)).
  { apply sizes_inv in Es. unfold meas_p in Em. binv Em. destruct a1 as [A Al]. binv Em. inversion Em; subst. eapply direct_len; [|eassumption]. tauto. }
  destruct W as (_ & _ & _ & Sw). pose proof (sense_ok nz md r a0 w d t _ _ Sw Ld) as H. destruct (a_noise (f_sens s)) as [id|].
  - destruct (Nat.eqb (f_extra (f_cfg s)) 0) eqn:Z; cbn [orb] in H.
    + destruct H as (sn & H & _). rewrite H. destruct md; cbn [boost_assert obind]; destruct (nz id _ _); reflexivity.
    + destruct md; cbn [boost_assert obind].
      * rewrite H. reflexivity.
      * destruct H as (sn & H & _). rewrite H. destruct (nz id _ _); reflexivity.
  - destruct H as (sn & H & _). rewrite H. reflexivity.
Qed.
End R.

(** ** Parts of the next state *)
Lemma seg3_app_r a b i n : length a = n -> seg3 (a ++ b) (n + i) = seg3 b i.
Proof. intros <-. unfold seg3, at_. rewrite !app_nth2 by lia. f_equal; f_equal; lia. Qed.
Lemma pack_parts c x l fc tc : length x = 35%nat -> let y := f_pack c x l fc tc in
  seg3 y 0 = l_p l /\ seg3 y 3 = l_th l /\ seg3 y 6 = l_v l /\ seg3 y 9 = l_w l /\ seg3 y 12 = nth 0 fc v0 /\ seg3 y 15 = nth 0 tc v0 /\ seg3 y 18 = nth 1 fc v0 /\ seg3 y 21 = nth 1 tc v0 /\
  seg3 y 24 = (if f_unm c then vscal (9999 / 10000) (seg3 x 24) else v0) /\ seg3 y 27 = (if f_unm c then vscal (9999 / 10000) (seg3 x 27) else v0) /\
  (forall i, (30 <= i < 35)%nat -> nth i y 0 = nth i x 0).
Proof.
  intros Lx y. unfold y, f_pack.
  assert (V : forall v, seg3 (vlist v) 0 = v) by (intros []; reflexivity).
  destruct l as [p th v w]. cbn [l_p l_th l_v l_w].
  destruct p, th, v, w, (nth 0 fc v0), (nth 0 tc v0), (nth 1 fc v0), (nth 1 tc v0). cbn [vlist app].
  repeat match goal with |- _ /\ _ => split end; try reflexivity; try (destruct (f_unm c); reflexivity).
  intros i Hi. do 35 (destruct x as [|? x]; [discriminate|]). destruct x; [|discriminate].
  do 30 (destruct i as [|i]; [lia|]). destruct (f_unm c); cbn [vlist vscal app repeat skipn nth]; reflexivity.
Qed.
Lemma mat_rv_rot m : so3 m -> rodrigues (mat_rv m) = m.
Proof. intros H. destruct (mat_quat_ok m H) as [U E]. change (mat_rv m) with (quat_rv (mat_quat m)). rewrite quat_rv_rot by exact U. exact E. Qed.
Lemma so3_mmul a b : so3 a -> so3 b -> so3 (mmul a b).
Proof. apply so3_mul. Qed.
Lemma moved_so3 dt x Al : so3 (moved_r dt x Al).
Proof. apply so3_mul; apply rv_mat_so3. Qed.
Lemma mat_rv_exact m : so3 m -> exact_rv (mat_rv m) -> rv_mat (mat_rv m) = m.
Proof. intros H E. rewrite (rv_rodrigues (mat_rv m)) by now apply exact_not_tiny. now apply mat_rv_rot. Qed.

(** The efforts in the next state are those that its position gives. *)
Lemma sizes_fits md x u s : fits (f_cfg s) x u -> f_sizes md x u s = Ok tt.
Proof. intros (A & B & C & _). apply sizes_ok; auto. Qed.
Lemma listed_efforts y fc tc n : (n <= 2)%nat -> length y = 35%nat -> seg3 y 12 = nth 0 fc v0 -> seg3 y 15 = nth 0 tc v0 -> seg3 y 18 = nth 1 fc v0 -> seg3 y 21 = nth 1 tc v0 ->
  concat (map (fun i => vlist (nth i fc v0) ++ vlist (nth i tc v0)) (seq 0 n)) = firstn (6 * n) (skipn 12 y).
Proof.
  intros Hn Ly A B C D. do 35 (destruct y as [|? y]; [discriminate|]). destruct y; [|discriminate]. unfold seg3, at_ in *. cbn [nth Nat.add] in *.
  destruct n as [|[|[|n]]]; [reflexivity| | |lia]; cbn [seq map concat app Nat.mul Nat.add]; rewrite <- ?A, <- ?B, <- ?C, <- ?D; reflexivity.
Qed.

(** ** Energy of the elastic contacts *)
Lemma vnorm_pos v : v <> v0 -> 0 < vnorm v.
Proof.
  intros H. unfold vnorm. apply sqrt_lt_R0. destruct (Req_dec (vsq v) 0) as [E|E]; [|assert (0 <= vsq v) by (destruct v; u3; nra); lra].
  exfalso. apply H. destruct v as [a b c]. unfold vsq in E. u3. f_equal; nra.
Qed.
Lemma left_jac_dot d e : d <> v0 -> vdot d (left_jac d e) = vdot d e.
Proof.
  intros H. pose proof (vnorm_pos d H) as N. assert (E : vnorm d * vnorm d = vdot d d) by (unfold vnorm; rewrite sqrt_sqrt; [reflexivity|destruct d; u3; nra]).
  unfold left_jac. set (n := vnorm d) in *. set (a := (n - sin n) / (n * n * n) * vdot d e).
  assert (E2 : vdot d (vadd (vadd (vscal a d) (vscal (sin n / n) e)) (vscal ((1 - cos n) / (n * n)) (vcross d e))) = a * vdot d d + sin n / n * vdot d e) by (clear; generalize (sin n / n) ((1 - cos n) / (n * n)); clearbody a; intros; destruct d, e; u3; ring).
  rewrite E2, <- E. unfold a. field. lra.
Qed.
Lemma rot_power mo th thd t : is_motion mo -> (forall s, mr mo s = rodrigues (th s)) -> vderiv th t thd -> vdot (th t) (mw mo t) = vdot (th t) thd.
Proof.
  intros Hm Er Dt. destruct (Req_dec (vsq (th t)) 0) as [Z|Z].
  - assert (th t = v0) as -> by (destruct (th t) as [a b c]; unfold vsq in Z; u3; f_equal; nra). destruct (mw mo t), thd. u3. ring.
  - assert (Nz : th t <> v0) by (intros E; apply Z; rewrite E; u3; ring).
    destruct (Hm t) as (S & _ & _ & P & _). pose proof (rodrigues_moving th t thd Dt Nz) as Q.
    pose proof (md_unique _ _ _ _ (md_ext _ _ _ _ P Er) Q) as E. rewrite <- Er in E.
    assert (mw mo t = left_jac (th t) thd) as ->.
    { apply skew_inj. rewrite <- (mmul_1_r (skew (mw mo t))), <- (mmul_1_r (skew (left_jac _ _))), <- (proj1 S), !mmul_assoc. now rewrite E. }
    now apply left_jac_dot.
Qed.
Lemma point_deriv mo c t : is_motion mo -> vderiv (fun s => vsub (vadd (mp mo s) (mvec (mr mo s) c)) c) t (vadd (mv mo t) (vcross (mw mo t) (mvec (mr mo t) c))).
Proof.
  intros Hm. destruct (Hm t) as (_ & P & _ & Q & _).
  assert (D : vderiv (fun s => vadd (mp mo s) (mvec (mr mo s) c)) t (vadd (mv mo t) (vcross (mw mo t) (mvec (mr mo t) c)))).
  { eapply vd_eq; [apply vd_add; [exact P|apply vd_mvec; [exact Q|apply vd_const]]|]. clear. destruct (mr mo t), (mw mo t), (mv mo t), c. u3. f_equal; ring. }
  destruct D as (X & Y & Z). destruct c as [c1 c2 c3]. split; [|split]; cbn [vsub vx vy vz] in *.
  - eapply dl_eq; [apply derivable_pt_lim_minus; [exact X|apply derivable_pt_lim_const]|ring].
  - eapply dl_eq; [apply derivable_pt_lim_minus; [exact Y|apply derivable_pt_lim_const]|ring].
  - eapply dl_eq; [apply derivable_pt_lim_minus; [exact Z|apply derivable_pt_lim_const]|ring].
Qed.
(** Turning back and forth, isotropic gains. *)
Lemma iso_turn r rc k v : so3 r -> so3 rc -> mvec (mmul r rc) (mvec (mmul (mmul (mneg (mscal k m1)) (mtr rc)) (mtr r)) v) = vscal (- k) v.
Proof.
  intros (S1 & _) (S2 & _).
  replace (mvec (mmul (mmul (mneg (mscal k m1)) (mtr rc)) (mtr r)) v) with (vscal (- k) (mvec (mtr rc) (mvec (mtr r) v))) by (rewrite <- !mvec_mul; generalize (mvec (mtr rc) (mvec (mtr r) v)); clear; intros; c3).
  replace (mvec (mmul r rc) (vscal (- k) (mvec (mtr rc) (mvec (mtr r) v)))) with (vscal (- k) (mvec (mmul r (mmul (mmul rc (mtr rc)) (mtr r))) v)).
  - rewrite S2. replace (mmul m1 (mtr r)) with (mtr r) by (clear; c3). rewrite S1. generalize (- k). clear. intros; c3.
  - rewrite !mvec_mul. generalize (- k) (mvec (mtr rc) (mvec (mtr r) v)). clear. intros; c3.
Qed.
Lemma dl_sum {A} (f : A -> R -> R) (d : A -> R) t l : (forall a, In a l -> derivable_pt_lim (f a) t (d a)) ->
  derivable_pt_lim (fun s => fold_right Rplus 0 (map (fun a => f a s) l)) t (fold_right Rplus 0 (map d l)).
Proof.
  induction l as [|a l IH]; intros H; cbn [map fold_right]; [apply derivable_pt_lim_const|]. apply (derivable_pt_lim_plus (f a)); [apply H; now left|]. apply IH. intros b Hb. apply H. now right.
Qed.
Lemma seg3_concat {A} (f g : A -> V3) l i d : (i < length l)%nat ->
  seg3 (concat (map (fun a => vlist (f a) ++ vlist (g a)) l)) (6 * i) = f (nth i l d) /\ seg3 (concat (map (fun a => vlist (f a) ++ vlist (g a)) l)) (6 * i + 3) = g (nth i l d).
Proof.
  revert i. induction l as [|a l IH]; intros i Hi; [cbn in Hi; lia|]. destruct i as [|i].
  - cbn [map concat nth Nat.mul Nat.add]. destruct (f a), (g a). cbn [vlist app]. split; reflexivity.
  - cbn [map concat nth]. replace (6 * S i)%nat with (6 + 6 * i)%nat by lia. rewrite <- Nat.add_assoc. rewrite !seg3_app_r by (destruct (f a), (g a); reflexivity). apply IH. cbn in Hi. lia.
Qed.
Lemma pad_nth (f : V3 * V3 * V3 -> V3) n u i : (i < n)%nat -> nth i (pad (map f (contacts_of n u))) v0 = f (contact_of u i).
Proof.
  intros H. unfold pad. rewrite app_nth1 by (rewrite map_length, contacts_len; exact H). unfold contacts_of. rewrite map_map.
  rewrite (nth_indep _ v0 (f (contact_of u 0))) by (rewrite map_length, seq_length; exact H). rewrite (map_nth (fun i => f (contact_of u i)) (seq 0 n) 0%nat). now rewrite seq_nth.
Qed.
Lemma sum_ext (f g : nat -> R) l : (forall i, In i l -> f i = g i) -> fold_right Rplus 0 (map f l) = fold_right Rplus 0 (map g l).
Proof. induction l as [|a l IH]; intros H; cbn [map fold_right]; [reflexivity|]. rewrite (H a) by now left. rewrite IH; [reflexivity|]. intros i Hi. apply H. now right. Qed.
Lemma sum_lin (f g : nat -> R) l : - fold_right Rplus 0 (map f l) - fold_right Rplus 0 (map g l) = fold_right Rplus 0 (map (fun i => - f i - g i) l).
Proof. induction l as [|a l IH]; cbn [map fold_right]; [ring|]. rewrite <- IH. ring. Qed.
Lemma elastic_out nz md s x u : fwf s -> fits (f_cfg s) x u -> let c := f_cfg s in f_model c = CElastic -> let r := rv_mat (seg3 x 3) in
  exists y, out (f_step nz md (FForcesOf x u) s) = Ok (OVec y) /\ length y = (6 * f_nc c)%nat /\
    forall i, (i < f_nc c)%nat -> let rc := rv_mat (seg3 u (51 + 12 * i)) in let p := seg3 u (48 + 12 * i) in
      seg3 y (6 * i) = elast_force c rc r p (seg3 u (54 + 12 * i)) (seg3 x 0) (seg3 x 6) (seg3 x 9) /\ seg3 y (6 * i + 3) = elast_moment c rc r (seg3 x 3) (seg3 x 9).
Proof.
  intros W F c M r. assert (Hn : (f_nc c <= 2)%nat) by (apply F; exact M).
  rewrite out_forces; [|exact W|apply F|apply F]. fold c. unfold forces_p. rewrite M. change nbModeledMax with 2%nat. rewrite elast_p_ok by (rewrite contacts_len; exact Hn). cbn [obind].
  apply Nat.leb_le in Hn. rewrite Hn. cbn [eigen_assert obind]. eexists. split; [reflexivity|]. split.
  { clear. generalize (pad (map (el_f c (rv_mat (seg3 x 3)) (seg3 x 0) (seg3 x 6) (seg3 x 9)) (contacts_of (f_nc c) u))) (pad (map (el_t c (rv_mat (seg3 x 3)) (seg3 x 3) (seg3 x 9)) (contacts_of (f_nc c) u))). intros fc tc.
    rewrite <- (seq_length (f_nc c) 0) at 2. induction (seq 0 (f_nc c)) as [|a l IH]; [reflexivity|]. cbn [map concat]. rewrite !app_length, IH. cbn [length]. unfold vlist. cbn [length]. lia. }
  intros i Hi.
  set (fc := pad (map (el_f c _ _ _ _) _)). set (tc := pad (map (el_t c _ _ _) _)).
  destruct (seg3_concat (fun i => nth i fc v0) (fun i => nth i tc v0) (seq 0 (f_nc c)) i 0%nat) as [E1 E2]; [now rewrite seq_length|].
  rewrite seq_nth in E1, E2 by exact Hi. cbn [Nat.add] in E1, E2. rewrite E1, E2. unfold fc, tc. rewrite !pad_nth by exact Hi. unfold el_f, el_t, contact_of. cbn [fst snd].
  replace (48 + 12 * i + 3)%nat with (51 + 12 * i)%nat by lia. replace (48 + 12 * i + 6)%nat with (54 + 12 * i)%nat by lia. split; reflexivity.
Qed.
Lemma vd_lin w t : vderiv (fun s => vscal s w) t w.
Proof. destruct w as [a b c]. split; [|split]; cbn [vscal vx vy vz]; (eapply dl_eq; [apply derivable_pt_lim_mult; [apply derivable_pt_lim_id|apply derivable_pt_lim_const]|cbv beta; ring]). Qed.
(** A function with derivative a t, or 0. *)
Lemma parabola f a : (forall t, derivable_pt_lim f t (a * t)) -> f 1 - f 0 = a / 2.
Proof.
  intros D. destruct (MVT_cor2 (fun t => f t - a / 2 * (t * t)) (fun t => a * t - a / 2 * (1 * t + t * 1)) 0 1) as (c & E & _); [lra| |cbv beta in E; nra].
  intros c _. apply derivable_pt_lim_minus; [apply D|]. apply derivable_pt_lim_scal, derivable_pt_lim_mult; apply derivable_pt_lim_id.
Qed.
Lemma still f a b : a < b -> (forall t, a <= t <= b -> derivable_pt_lim f t 0) -> f b = f a.
Proof. intros L D. destruct (MVT_cor2 f (fun _ => 0) a b L D) as (c & E & _). lra. Qed.
Lemma rodrigues_z a : rodrigues (mkV 0 0 a) = mkM (cos a) (- sin a) 0 (sin a) (cos a) 0 0 0 1.
Proof.
  unfold rodrigues. assert (N : vnorm (mkV 0 0 a) = Rabs a) by (unfold vnorm, vsq; u3; replace (0 * 0 + 0 * 0 + a * a) with (a²) by (unfold Rsqr; ring); apply sqrt_Rsqr_abs). rewrite N.
  destruct (Req_EM_T (Rabs a) 0) as [E|E].
  - assert (a = 0) as -> by (destruct (Req_dec a 0); [assumption|exfalso; now apply (Rabs_no_R0 a)]). rewrite cos_0, sin_0. unfold m1. f_equal; ring.
  - assert (Ha : a <> 0) by (intros ->; apply E, Rabs_R0).
    assert (Es : sin (Rabs a) / Rabs a = sin a / a) by (unfold Rabs; destruct (Rcase_abs a); [rewrite sin_neg; field; lra|reflexivity]).
    assert (Ec : (1 - cos (Rabs a)) / (Rabs a * Rabs a) = (1 - cos a) / (a * a)) by (unfold Rabs; destruct (Rcase_abs a); [rewrite cos_neg; field; lra|reflexivity]).
    rewrite Es, Ec. unfold skew. u3. f_equal; field; assumption.
Qed.

(** ** The Jacobians *)
Definition active (c : fcfg) (i : nat) : bool := if Nat.ltb i 24 then true else if Nat.ltb i 30 then f_unm c else if Nat.ltb i 32 then f_bias c else f_abs c.
Definition pert (dx : list R) (x : list R) (i : nat) : list R := list_set i (at_ x i + at_ dx i) x.
Lemma list_set_len {A} i (v : A) l : length (list_set i v l) = length l.
Proof. revert i. induction l as [|a l IH]; intros [|i]; cbn; auto. Qed.
Lemma fd_cols_gen (Inv : fsys -> Prop) (g : list R -> list R) f md x0 y0 dx : (forall x s, length x = 35%nat -> Inv s -> exists s', f x s = Ok (g x, s') /\ Inv s') ->
  (forall s, Inv s -> f_dx s = dx) -> (forall x, length x = 35%nat -> length (g x) = length y0) -> length x0 = 35%nat -> length dx = 35%nat ->
  forall is s, (forall i, In i is -> (i < 35)%nat) -> Inv s -> exists s', fd_cols f md x0 y0 is s = Ok (map (fun i => (i, ldiv (lsub (g (pert dx x0 i)) y0) (at_ dx i))) is, s') /\ Inv s'.
Proof.
  intros Hf Hd Hl Lx Ld is. induction is as [|i is IH]; intros s Hi I0; [exists s; split; [reflexivity|exact I0]|]. cbn [fd_cols map].
  assert (Hb : (Nat.ltb i (length x0) && Nat.ltb i (length (f_dx s)))%bool = true) by (rewrite (Hd s I0), Lx, Ld; assert (i < 35)%nat by (apply Hi; now left); apply andb_true_intro; split; now apply Nat.ltb_lt).
  rewrite Hb. cbn [eigen_assert obind]. rewrite (Hd s I0). fold (pert dx x0 i). destruct (Hf (pert dx x0 i) s) as (s1 & E & I1); [unfold pert; now rewrite list_set_len|exact I0|]. rewrite E. cbn [obind].
  rewrite Hl by (unfold pert; now rewrite list_set_len). rewrite Nat.eqb_refl. cbn [eigen_assert obind]. destruct (IH s1) as (s2 & E2 & I2); [intros; apply Hi; now right|exact I1|]. rewrite E2. cbn [obind]. exists s2. split; [reflexivity|exact I2].
Qed.
Definition unok {A} (d : A) (o : outcome A) : A := match o with Ok a => a | _ => d end.
Lemma seq35 : seq 0 35 = seq 0 24 ++ seq 24 6 ++ seq 30 2 ++ seq 32 3.
Proof. reflexivity. Qed.
Lemma blocks (Inv : fsys -> Prop) (c : fcfg) (blk : bool -> list nat -> fsys -> outcome (list (nat * list R) * fsys)) (fd un : nat -> list R) s :
  (forall b is s, (forall i, In i is -> (i < 35)%nat) -> Inv s -> exists s', blk b is s = Ok (map (fun i => (i, if b then fd i else un i)) is, s') /\ Inv s') -> Inv s ->
  exists s', (do (c1, s) <- blk true (seq 0 24) s; do (c2, s) <- blk (f_unm c) (seq 24 6) s; do (c3, s) <- blk (f_bias c) (seq 30 2) s; do (c4, s) <- blk (f_abs c) (seq 32 3) s; Ok (c1 ++ c2 ++ c3 ++ c4, s)) =
    Ok (map (fun i => (i, if active c i then fd i else un i)) (seq 0 35), s') /\ Inv s'.
Proof.
  intros H I0.
  assert (B : forall i, In i (seq 0 24) -> (i < 35)%nat) by (intros i Hi; apply in_seq in Hi; lia). assert (B2 : forall i, In i (seq 24 6) -> (i < 35)%nat) by (intros i Hi; apply in_seq in Hi; lia).
  assert (B3 : forall i, In i (seq 30 2) -> (i < 35)%nat) by (intros i Hi; apply in_seq in Hi; lia). assert (B4 : forall i, In i (seq 32 3) -> (i < 35)%nat) by (intros i Hi; apply in_seq in Hi; lia).
  destruct (H true (seq 0 24) s B I0) as (s1 & E1 & I1). destruct (H (f_unm c) (seq 24 6) s1 B2 I1) as (s2 & E2 & I2).
  destruct (H (f_bias c) (seq 30 2) s2 B3 I2) as (s3 & E3 & I3). destruct (H (f_abs c) (seq 32 3) s3 B4 I3) as (s4 & E4 & I4).
  exists s4. split; [|exact I4]. rewrite E1. cbn [obind]. rewrite E2. cbn [obind]. rewrite E3. cbn [obind]. rewrite E4. cbn [obind]. rewrite seq35, !map_app.
  assert (Q : forall b l, (forall i, In i l -> active c i = b) -> map (fun i => (i, if b then fd i else un i)) l = map (fun i => (i, if active c i then fd i else un i)) l).
  { intros b l Hl. apply map_ext_in. intros i Hi. now rewrite (Hl i Hi). }
  rewrite <- (Q true (seq 0 24)), <- (Q (f_unm c) (seq 24 6)), <- (Q (f_bias c) (seq 30 2)), <- (Q (f_abs c) (seq 32 3)); [reflexivity| | | |]; intros i Hi; apply in_seq in Hi; unfold active;
    repeat match goal with |- context [Nat.ltb i ?n] => destruct (Nat.ltb_spec i n); try lia end; reflexivity.
Qed.
Ltac unblock E :=
  repeat match goal with |- exists s', obind ?b _ = _ /\ _ => destruct b as [[? ?]| | |]; try discriminate E; cbn [obind] in E |- * end;
  apply ok_inj in E; pose proof (f_equal snd E) as Es; apply (f_equal fst) in E; cbn [fst snd] in E, Es; subst; rewrite <- E; eexists; split; [reflexivity|].
Section J.
Variable nz : noises R.
Lemma state_call md c x u s : fwf s -> f_cfg s = c -> f_pn s = None -> has_model c -> fits c x u ->
  exists s', f_stateDynamics nz md x u s = Ok (unok [] (next_p md c x u), s') /\ next_p md c x u = Ok (unok [] (next_p md c x u)) /\ fwf s' /\ f_cfg s' = c /\ f_pn s' = None /\ f_dx s' = f_dx s /\ f_xk s' = x /\ f_uk s' = u /\ f_xk1 s' = unok [] (next_p md c x u).
Proof.
  intros W Ec Np M F. destruct (step_total md c x u M (proj2 (proj2 (proj2 F)))) as (A & Al & fc & tc & _ & _ & Es & En). rewrite En. cbn [unok].
  destruct (state_ok nz md x u s W) as (k & C & E). rewrite sizes_fits in E by (now rewrite Ec). rewrite Ec, Es in E. cbn [obind] in E. unfold f_noise in E. cbn [with_x with_work f_pn] in E. rewrite Np in E.
  eexists. split; [exact E|]. split; [reflexivity|]. split; [eapply state_wf; eassumption|]. cbn [with_x with_work f_cfg f_pn f_dx f_xk f_uk f_xk1]. auto 10.
Qed.
Lemma state_jacobian md c x u dx s y : fwf s -> f_cfg s = c -> f_pn s = None -> has_model c -> fits c x u -> f_dx s = dx -> length dx = 35%nat -> f_xk s = x -> f_uk s = u -> f_xk1 s = y -> length y = 35%nat ->
  exists s', f_stateJacobian nz md s = Ok (map (fun i => (i, if active c i then ldiv (lsub (unok [] (next_p md c (pert dx x i) u)) y) (at_ dx i) else unit_col 35 i)) (seq 0 35), s') /\
    f_cfg s' = c /\ f_pn s' = None /\ f_dx s' = dx /\ f_xk s' = x /\ f_uk s' = u /\ f_xk1 s' = y.
Proof.
  intros W Ec Np M F Ed Ld Ex Eu Ey Ly. unfold f_stateJacobian. rewrite Ec, Ex, Eu, Ey.
  set (Inv := fun s => fwf s /\ f_cfg s = c /\ f_pn s = None /\ f_dx s = dx /\ f_uk s = u).
  assert (I0 : Inv (with_opxk1 y s)) by (unfold Inv; cbn; tauto).
  destruct (blocks Inv c (fun b is s => if b then fd_cols (fun x s => f_stateDynamics nz md x u s) md x y is s else Ok (map (fun i => (i, unit_col 35 i)) is, s))
    (fun i => ldiv (lsub (unok [] (next_p md c (pert dx x i) u)) y) (at_ dx i)) (unit_col 35) (with_opxk1 y s)) as (s' & E & Is); [|exact I0|].
  - intros b is q Hi Iq. destruct b; [|exists q; auto].
    apply (fd_cols_gen Inv (fun x => unok [] (next_p md c x u)) (fun x s => f_stateDynamics nz md x u s) md x y dx); auto.
    + intros x' q' Lx' (Q1 & Q2 & Q3 & Q4 & Q5). destruct (state_call md c x' u q' Q1 Q2 Q3 M) as (q2 & E & _ & T1 & T2 & T3 & T4 & _ & T5 & _); [split; [exact Lx'|apply F]|]. exists q2. split; [exact E|]. unfold Inv. rewrite T4. tauto.
    + unfold Inv. tauto.
    + intros x' Lx'. rewrite Ly. destruct (step_total md c x' u M (proj2 (proj2 (proj2 F)))) as (A & Al & fc & tc & _ & _ & Es & En). rewrite En. cbn [unok]. now apply pack_len.
    + apply F.
  - cbv beta iota in E. cbv beta iota zeta. unblock E; unfold Inv in Is; cbn; tauto.
Qed.
(** The measurement. *)
Definition meas_v (q : M3 * V3 * V3 * list R) : list R := let '(r, a, w, d) := q in isignal r a w ++ d.
Lemma meas_total md c x u : fits c x u -> (f_force c = true -> (f_nc c <= 3)%nat) -> exists q, meas_p md c x u = Ok q /\ length (meas_v q) = (6 + f_extra c)%nat.
Proof.
  intros F H. destruct (acc_total md c x u (proj2 (proj2 (proj2 F)))) as (A & Al & Ea). unfold meas_p. rewrite Ea. cbn [obind].
  destruct (f_direct md c x (rv_mat (seg3 x 3))) as [d| | |] eqn:Ed; [|exfalso..].
  - cbn [obind]. eexists. split; [reflexivity|]. cbn [meas_v]. unfold isignal, vlist. rewrite app_length. rewrite (direct_len md c x _ d (proj1 F) Ed). reflexivity.
  - unfold f_direct in Ed. destruct (f_force c); [assert (E35 : Nat.leb (12 + 6 * f_nc c) 35 = true) by (apply Nat.leb_le; specialize (H eq_refl); lia); rewrite E35 in Ed|]; discriminate.
  - unfold f_direct in Ed. destruct (f_force c); [assert (E35 : Nat.leb (12 + 6 * f_nc c) 35 = true) by (apply Nat.leb_le; specialize (H eq_refl); lia); rewrite E35 in Ed|]; discriminate.
  - unfold f_direct in Ed. destruct (f_force c); [assert (E35 : Nat.leb (12 + 6 * f_nc c) 35 = true) by (apply Nat.leb_le; specialize (H eq_refl); lia); rewrite E35 in Ed|]; discriminate.
Qed.
Definition mzero : M3 * V3 * V3 * list R := (m1, v0, v0, []).
Definition meas_of (md : mode) (c : fcfg) (u x : list R) : list R := meas_v (unok mzero (meas_p md c x u)).
Lemma meas_call md c x u k s : fwf s -> f_cfg s = c -> a_noise (f_sens s) = None -> f_eff s = true -> fits c x u -> (f_force c = true -> (f_nc c <= 3)%nat) ->
  exists s', f_measureDynamics nz md x u k s = Ok (meas_of md c u x, s') /\ length (meas_of md c u x) = (6 + f_extra c)%nat /\ fwf s' /\ f_cfg s' = c /\ a_noise (f_sens s') = None /\ f_eff s' = true /\ f_dx s' = f_dx s /\ f_xf s' = x /\ f_uf s' = u /\ f_kf s' = k /\ f_yk s' = meas_of md c u x.
Proof.
  intros W Ec Hn He F H. destruct (meas_total md c x u F H) as (q & Em & Lq).
  destruct (meas_ok nz md x u k s W) as (kc & C & E). pose proof (out_meas nz md x u k s W) as O. cbn [f_step] in O.
  rewrite sizes_fits in O, E by (now rewrite Ec). rewrite He, Ec, Em in *. unfold meas_of. rewrite Em. cbn [unok].
  replace (boost_assert md true) with (Ok tt) in * by (now destruct md). cbn [obind] in *. destruct q as [[[r a] w] d]. rewrite Hn in O.
  destruct (sense nz md r a w d k (f_sens s)) as [[y sn]| | |] eqn:Es; cbn [obind] in E; rewrite E in O; try discriminate O. cbn [obind out] in O. assert (y = isignal r a w ++ d) as -> by now inversion O.
  eexists. split; [exact E|]. split; [exact Lq|]. split; [eapply meas_wf; eassumption|].
  assert (Ld : length d = f_extra c). { unfold meas_p in Em. binv Em. destruct a0 as [A Al]. binv Em. inversion Em; subst. eapply direct_len; [|eassumption]. apply F. }
  cbn [with_y with_work f_cfg f_sens f_eff f_dx f_xf f_uf f_kf f_yk]. rewrite Ec. destruct W as (_ & _ & _ & Sw). rewrite Ec in Sw. destruct (sense_wf nz md r a w d k _ _ _ _ Sw Ld Es) as (_ & ->). repeat match goal with |- _ /\ _ => split end; auto.
Qed.
Lemma meas_jacobian md c x u k dx s y : fwf s -> f_cfg s = c -> a_noise (f_sens s) = None -> f_eff s = true -> fits c x u -> (f_force c = true -> (f_nc c <= 3)%nat) -> f_dx s = dx -> length dx = 35%nat ->
  f_xf s = x -> f_uf s = u -> f_kf s = k -> f_yk s = y -> length y = (6 + f_extra c)%nat ->
  exists s', f_measureJacobian nz md s = Ok (map (fun i => (i, if active c i then ldiv (lsub (meas_of md c u (pert dx x i)) y) (at_ dx i) else repeat 0 (6 + f_extra c))) (seq 0 35), s') /\
    f_cfg s' = c /\ a_noise (f_sens s') = None /\ f_eff s' = true /\ f_dx s' = dx /\ f_xf s' = x /\ f_uf s' = u /\ f_kf s' = k /\ f_yk s' = y.
Proof.
  intros W Ec Hn He F H Ed Ld Ex Eu Ek Ey Ly. unfold f_measureJacobian. rewrite Ec, Ex, Eu, Ek, Ey.
  set (Inv := fun s => fwf s /\ f_cfg s = c /\ a_noise (f_sens s) = None /\ f_eff s = true /\ f_dx s = dx /\ f_uf s = u /\ f_kf s = k).
  assert (I0 : Inv s) by (unfold Inv; tauto).
  destruct (blocks Inv c (fun b is s => if b then fd_cols (fun x s => f_measureDynamics nz md x u k s) md x y is s else Ok (map (fun i => (i, repeat 0 (6 + f_extra c))) is, s))
    (fun i => ldiv (lsub (meas_of md c u (pert dx x i)) y) (at_ dx i)) (fun _ => repeat 0 (6 + f_extra c)) s) as (s' & E & Is); [|exact I0|].
  - intros b is q Hi Iq. destruct b; [|exists q; auto].
    apply (fd_cols_gen Inv (meas_of md c u) (fun x s => f_measureDynamics nz md x u k s) md x y dx); auto.
    + intros x' q' Lx' (Q1 & Q2 & Q3 & Q4 & Q5 & Q6 & Q7). destruct (meas_call md c x' u k q' Q1 Q2 Q3 Q4) as (q2 & E & _ & T1 & T2 & T3 & T4 & T5 & _ & T6 & T7 & _); [split; [exact Lx'|apply F]|exact H|]. exists q2. split; [exact E|]. unfold Inv. rewrite T5. tauto.
    + unfold Inv. tauto.
    + intros x' Lx'. rewrite Ly. destruct (meas_total md c x' u) as (q' & Em & Lq); [split; [exact Lx'|apply F]|exact H|]. unfold meas_of. rewrite Em. exact Lq.
    + apply F.
  - cbv beta iota in E. cbv beta iota zeta. unblock E; unfold Inv in Is; cbn; tauto.
Qed.
End J.
Arguments meas_v : simpl never.
(** ** The settings along a history *)
Definition op_cfg (o : fop) (c : fcfg) : fcfg :=
  match o with FSet o => f_setting o c | FContacts n => set_contacts n c | FWithForce b => set_force b c | FWithAbs b => set_abs b c | _ => c end.
Lemma step_cfg nz md o s r s' : fwf s -> f_step nz md o s = Ok (r, s') -> f_cfg s' = op_cfg o (f_cfg s).
Proof.
  intros W E.
  assert (St : forall x u s y s', fwf s -> f_stateDynamics nz md x u s = Ok (y, s') -> fwf s' /\ f_cfg s' = f_cfg s).
  { intros x u q y q' Wq Eq. split; [eapply state_wf; eassumption|]. destruct (state_inv _ _ _ _ _ _ _ Wq Eq) as (k' & l & fc & tc & o' & n & _ & _ & _ & _ & _ & ->). reflexivity. }
  assert (Me : forall x u t s y s', fwf s -> f_measureDynamics nz md x u t s = Ok (y, s') -> fwf s' /\ f_cfg s' = f_cfg s).
  { intros x u t q y q' Wq Eq. split; [eapply meas_wf; eassumption|]. destruct (meas_inv _ _ _ _ _ _ _ _ Wq Eq) as (k' & r' & a & w & d & sn & _ & _ & _ & _ & _ & _ & _ & _ & ->). reflexivity. }
  destruct o; cbn [f_step op_cfg] in *.
  - binv E. destruct a. inversion E; subst. exact (proj2 (St _ _ _ _ _ W E0)).
  - binv E. destruct a. inversion E; subst. exact (proj2 (Me _ _ _ _ _ _ W E0)).
  - binv E. destruct a. inversion E; subst. unfold f_accelerations in E0. binv E0. destruct (getrot 0 (seg3 x 3) (f_cache s)). binv E0. destruct a0. inversion E0; subst. reflexivity.
  - binv E. destruct a. inversion E; subst. unfold f_momentaForces in E0. binv E0. destruct (getrot 0 (seg3 x 3) (f_cache s)). binv E0. destruct a0. inversion E0; subst. reflexivity.
  - binv E. destruct a. inversion E; subst. unfold f_momentaKinematics in E0. binv E0. destruct (getrot 0 (seg3 x 3) (f_cache s)). binv E0. destruct a0. inversion E0; subst. reflexivity.
  - binv E. inversion E; subst. reflexivity.
  - binv E. destruct a. inversion E; subst. unfold f_forcesOf in E0. binv E0. binv E0. destruct (getrot 0 (seg3 x 3) (f_cache s)). binv E0. destruct a1 as [[? ?] ?]. binv E0. inversion E0; subst. reflexivity.
  - binv E. destruct a as [cs s1]. inversion E; subst. unfold f_stateJacobian in E0.
    set (Q := fun q => fwf q /\ f_cfg q = f_cfg s).
    assert (W0 : Q (with_opxk1 (f_xk1 s) s)) by (split; [exact W|reflexivity]).
    repeat (binv E0; match goal with p : (_ * fsys)%type |- _ => destruct p end). inversion E0; subst.
    assert (J : forall (b : bool) is s0 c s1, Q s0 -> (if b then fd_cols (fun x s1 => f_stateDynamics nz md x (f_uk s) s1) md (f_xk s) (f_xk1 s) is s0 else Ok (map (fun i => (i, unit_col 35 i)) is, s0)) = Ok (c, s1) -> Q s1).
    { intros b is s0 c0 s1 G X. destruct b; [|inversion X; subst; exact G]. eapply (fd_inv _ Q); [|exact G|exact X].
      intros x9 s9 y9 s9' [G9 G9'] X9; cbv beta in X9. destruct (St _ _ _ _ _ G9 X9). split; [assumption|congruence]. }
    pose proof (J true _ _ _ _ W0 E1) as W1. pose proof (J _ _ _ _ _ W1 E2) as W2. pose proof (J _ _ _ _ _ W2 E3) as W3. pose proof (J _ _ _ _ _ W3 E4) as W4. exact (proj2 W4).
  - binv E. destruct a as [cs s1]. inversion E; subst. unfold f_measureJacobian in E0.
    set (Q := fun q => fwf q /\ f_cfg q = f_cfg s).
    assert (W0 : Q s) by (split; [exact W|reflexivity]).
    repeat (binv E0; match goal with p : (_ * fsys)%type |- _ => destruct p end). inversion E0; subst.
    assert (J : forall (b : bool) is s0 c s1, Q s0 -> (if b then fd_cols (fun x s1 => f_measureDynamics nz md x (f_uf s) (f_kf s) s1) md (f_xf s) (f_yk s) is s0 else Ok (map (fun i => (i, repeat 0 (6 + f_extra (f_cfg s)))) is, s0)) = Ok (c, s1) -> Q s1).
    { intros b is s0 c0 s1 G X. destruct b; [|inversion X; subst; exact G]. eapply (fd_inv _ Q); [|exact G|exact X].
      intros x9 s9 y9 s9' [G9 G9'] X9; cbv beta in X9. destruct (Me _ _ _ _ _ _ G9 X9). split; [assumption|congruence]. }
    pose proof (J true _ _ _ _ W0 E1) as W1. pose proof (J _ _ _ _ _ W1 E2) as W2. pose proof (J _ _ _ _ _ W2 E3) as W3. pose proof (J _ _ _ _ _ W3 E4) as W4. exact (proj2 W4).
  - inversion E; subst. reflexivity.
  - inversion E; subst. reflexivity.
  - inversion E; subst. reflexivity.
  - inversion E; subst. reflexivity.
  - inversion E; subst. reflexivity.
  - inversion E; subst. reflexivity.
  - inversion E; subst. reflexivity.
Qed.
Lemma run_cfg nz md ops : forall s s', fwf s -> f_run nz md ops s = Ok s' -> f_cfg s' = fold_left (fun c o => op_cfg o c) ops (f_cfg s).
Proof.
  induction ops as [|o os IH]; intros s s' W E; [inversion E; subst; reflexivity|]. cbn [f_run] in E. binv E. destruct a as [r s1].
  cbn [fold_left]. rewrite <- (step_cfg _ _ _ _ _ _ W E0). apply IH; [eapply step_wf; eassumption|exact E].
Qed.
(** A field that the operation [o] sets to [pick o], if any. *)
Lemma fold_field {A} (fd : fcfg -> A) (pick : fop -> option A) ops : (forall o c, fd (op_cfg o c) = match pick o with Some v => v | None => fd c end) ->
  forall c, fd (fold_left (fun c o => op_cfg o c) ops c) = fold_left (fun a o => match pick o with Some v => v | None => a end) ops (fd c).
Proof. intros H. induction ops as [|o os IH]; intros c; [reflexivity|]. cbn [fold_left]. now rewrite IH, H. Qed.
(** ** Entries that the dynamics does not use *)
Definition unused (c : fcfg) (i : nat) : Prop := (i = 30 \/ i = 31)%nat /\ f_bias c = false \/ (i = 32 \/ i = 33 \/ i = 34)%nat.
Lemma acc_unused md c x u i v : length x = 35%nat -> unused c i -> acc_p md c (list_set i v x) u = acc_p md c x u.
Proof.
  intros Lx Hi. do 35 (destruct x as [|? x]; [discriminate|]). destruct x; [|discriminate].
  destruct Hi as [[[->| ->] Hb]|[->|[->| ->]]]; unfold acc_p, body_of; rewrite ?Hb; reflexivity.
Qed.
Lemma at_set i v x k : (k < i)%nat -> at_ (list_set i v x) k = at_ x k.
Proof. unfold at_. revert i k. induction x as [|a x IH]; intros [|i] [|k] H; try lia; try reflexivity. cbn. apply IH. lia. Qed.
Lemma seg3_set i v x k : (k + 2 < i)%nat -> seg3 (list_set i v x) k = seg3 x k.
Proof. intros H. unfold seg3. now rewrite !at_set by lia. Qed.
Lemma unused_ge c i : unused c i -> (30 <= i)%nat.
Proof. unfold unused. lia. Qed.
Lemma list_set_app {A} (a b : list A) i v n : length a = n -> list_set (n + i) v (a ++ b) = a ++ list_set i v b.
Proof. intros <-. induction a as [|x a IH]; [reflexivity|]. cbn. now rewrite IH. Qed.
Lemma skipn_set {A} n i (v : A) l : skipn n (list_set (n + i) v l) = list_set i v (skipn n l).
Proof. revert l. induction n as [|n IH]; intros l; [reflexivity|]. destruct l as [|a l]; cbn; [now destruct i|apply IH]. Qed.
Lemma next_unused md c x u i v y : length x = 35%nat -> unused c i -> next_p md c x u = Ok y -> next_p md c (list_set i v x) u = Ok (list_set i v y).
Proof.
  intros Lx Hi E. pose proof (unused_ge c i Hi) as Ge. unfold next_p, step_p in *. rewrite acc_unused by assumption. destruct (acc_p md c x u) as [[A Al]| | |]; try discriminate. cbn [obind] in *.
  assert (Em : moved (f_dt c) (list_set i v x) A Al = moved (f_dt c) x A Al) by (unfold moved; now rewrite !seg3_set by lia).
  assert (Er : moved_r (f_dt c) (list_set i v x) Al = moved_r (f_dt c) x Al) by (unfold moved_r; now rewrite !seg3_set by lia).
  rewrite Em, Er. destruct (forces_p _ _ _ _ _ _ _ _) as [[fc tc]| | |]; try discriminate. cbn [obind] in *. apply ok_inj in E. subst y. f_equal. unfold f_pack. rewrite !seg3_set by lia.
  replace i with (30 + (i - 30))%nat by lia. rewrite skipn_set. rewrite !app_assoc. rewrite list_set_app; [reflexivity|]. rewrite !app_length. destruct (f_unm c); reflexivity.
Qed.
Lemma meas_unused md c x u i v : length x = 35%nat -> unused c i -> f_abs c = false \/ (i < 32)%nat -> meas_p md c (list_set i v x) u = meas_p md c x u.
Proof.
  intros Lx Hi Ha. unfold meas_p. rewrite acc_unused by assumption. destruct (acc_p md c x u) as [[A Al]| | |]; try reflexivity. cbn [obind].
  assert (Ed : f_direct md c (list_set i v x) (rv_mat (seg3 (list_set i v x) 3)) = f_direct md c x (rv_mat (seg3 x 3))).
  { do 35 (destruct x as [|? x]; [discriminate|]). destruct x; [|discriminate]. unfold f_direct.
    destruct (f_force c).
    - destruct (Nat.leb (12 + 6 * f_nc c) 35) eqn:E35; [|destruct md; reflexivity]. cbn [eigen_assert obind]. apply Nat.leb_le in E35. destruct (f_nc c) as [|[|[|[|n]]]]; [| | | |lia];
        (destruct (f_abs c); [destruct Ha as [Ha|Ha]; [discriminate|]|]); (destruct Hi as [[[->| ->] _]|[->|[->| ->]]]; try lia; reflexivity).
    - (destruct (f_abs c); [destruct Ha as [Ha|Ha]; [discriminate|]|]); (destruct Hi as [[[->| ->] _]|[->|[->| ->]]]; try lia; reflexivity). }
  rewrite Ed. destruct (f_direct md c x (rv_mat (seg3 x 3))) as [d| | |]; try reflexivity. cbn [obind].
  do 35 (destruct x as [|? x]; [discriminate|]). destruct x; [|discriminate]. destruct Hi as [[[->| ->] _]|[->|[->| ->]]]; reflexivity.
Qed.
Lemma quot_nth a b h j : length a = length b -> (j < length a)%nat -> nth j (ldiv (lsub a b) h) 0 = (nth j a 0 - nth j b 0) / h.
Proof.
  unfold ldiv, lsub. revert b j. induction a as [|p a IH]; intros [|q b] j L H; cbn in L, H; try lia. destruct j; [reflexivity|]. cbn [combine map nth]. apply IH; lia.
Qed.
Lemma quot_len a b h : length a = length b -> length (ldiv (lsub a b) h) = length a.
Proof. intros L. unfold ldiv, lsub. rewrite !map_length, combine_length. lia. Qed.
Lemma cols_nth (F : nat -> list R) i : (i < 35)%nat -> nth i (map snd (map (fun i => (i, F i)) (seq 0 35))) [] = F i.
Proof.
  intros H. rewrite map_map. cbn [snd]. rewrite (nth_indep _ [] (F 0%nat)) by (rewrite map_length, seq_length; exact H). rewrite (map_nth F (seq 0 35) 0%nat). now rewrite seq_nth.
Qed.
Lemma unit_col_nth n i j : (j < n)%nat -> nth j (unit_col n i) 0 = if Nat.eqb j i then 1 else 0.
Proof.
  intros H. unfold unit_col. rewrite (nth_indep _ 0 (if Nat.eqb 0 i then 1 else 0)) by (rewrite map_length, seq_length; exact H).
  rewrite (map_nth (fun j => if Nat.eqb j i then 1 else 0) (seq 0 n) 0%nat). now rewrite seq_nth.
Qed.
Lemma inactive_unused c i : (i < 35)%nat -> active c i = false -> (24 <= i < 30)%nat /\ f_unm c = false \/ unused c i /\ (f_abs c = false \/ (i < 32)%nat).
Proof.
  unfold active, unused. intros H. repeat match goal with |- context [Nat.ltb i ?n] => destruct (Nat.ltb_spec i n) end; try discriminate; intros E; try (left; split; [lia|exact E]); right.
  - assert (i = 30 \/ i = 31)%nat by lia. tauto.
  - assert (i = 32 \/ i = 33 \/ i = 34)%nat by lia. tauto.
Qed.
