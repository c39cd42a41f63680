(** Motions of frames: derivatives of composed, inverted and integrated kinematics. *)
From Coq Require Import Reals Lra Psatz List Bool.
From Verif Require Import Base Vec3 Rot SpecRot RotProofs RotProofs2 RotProofs3 Orient SpecOrient OrientProofs Kine SpecKine KineProofs.
Import ListNotations.
Open Scope R_scope.

Lemma dl_eq f t l l' : derivable_pt_lim f t l -> l = l' -> derivable_pt_lim f t l'.
Proof. now intros H <-. Qed.
Lemma dl_ext f g t l : derivable_pt_lim f t l -> (forall s, f s = g s) -> derivable_pt_lim g t l.
Proof. intros H E eps P. destruct (H eps P) as [d Hd]. exists d. intros h A B. rewrite <- !E. now apply Hd. Qed.
Lemma dl_plus f g t a b : derivable_pt_lim f t a -> derivable_pt_lim g t b -> derivable_pt_lim (fun s => f s + g s) t (a + b).
Proof. apply derivable_pt_lim_plus. Qed.
Lemma dl_minus f g t a b : derivable_pt_lim f t a -> derivable_pt_lim g t b -> derivable_pt_lim (fun s => f s - g s) t (a - b).
Proof. apply derivable_pt_lim_minus. Qed.
Lemma dl_opp f t a : derivable_pt_lim f t a -> derivable_pt_lim (fun s => - f s) t (- a).
Proof. apply derivable_pt_lim_opp. Qed.
Lemma dl_mult f g t a b : derivable_pt_lim f t a -> derivable_pt_lim g t b -> derivable_pt_lim (fun s => f s * g s) t (a * g t + f t * b).
Proof. apply derivable_pt_lim_mult. Qed.
Lemma dl_const c t : derivable_pt_lim (fun _ => c) t 0.
Proof. apply derivable_pt_lim_const. Qed.
Lemma dl_id t : derivable_pt_lim (fun s => s) t 1.
Proof. apply derivable_pt_lim_id. Qed.
Lemma dl_sin c t : derivable_pt_lim (fun s => sin (s * c)) t (cos (t * c) * c).
Proof.
  eapply dl_eq; [apply (derivable_pt_lim_comp (fun s => s * c) sin t c); [|apply derivable_pt_lim_sin]|ring].
  eapply dl_eq; [apply dl_mult; [apply dl_id|apply dl_const]|cbn; ring].
Qed.
Lemma dl_cos c t : derivable_pt_lim (fun s => cos (s * c)) t (- sin (t * c) * c).
Proof.
  eapply dl_eq; [apply (derivable_pt_lim_comp (fun s => s * c) cos t c); [|apply derivable_pt_lim_cos]|ring].
  eapply dl_eq; [apply dl_mult; [apply dl_id|apply dl_const]|cbn; ring].
Qed.

Ltac dl := repeat first [eassumption | apply dl_const | apply dl_plus | apply dl_minus | apply dl_opp | apply dl_mult].
Ltac dcomp := eapply dl_eq; [dl|cbn; ring].
Ltac vd := match goal with |- vderiv _ _ _ => split; [|split]; cbn; dcomp | |- mderiv _ _ _ => (split; [|split]; (split; [|split])); cbn; dcomp end.
Ltac vdd := repeat match goal with H : vderiv _ _ _ |- _ => destruct H as (? & ? & ?) | H : mderiv _ _ _ |- _ => destruct H as ((? & ? & ?) & (? & ? & ?) & (? & ? & ?)) end.

Lemma vd_add f g t a b : vderiv f t a -> vderiv g t b -> vderiv (fun s => vadd (f s) (g s)) t (vadd a b).
Proof. intros; vdd; vd. Qed.
Lemma vd_sub f g t a b : vderiv f t a -> vderiv g t b -> vderiv (fun s => vsub (f s) (g s)) t (vsub a b).
Proof. intros; vdd; vd. Qed.
Lemma vd_neg f t a : vderiv f t a -> vderiv (fun s => vneg (f s)) t (vneg a).
Proof. intros; vdd; vd. Qed.
Lemma vd_cross f g t a b : vderiv f t a -> vderiv g t b -> vderiv (fun s => vcross (f s) (g s)) t (vadd (vcross a (g t)) (vcross (f t) b)).
Proof. intros; vdd; vd. Qed.
Lemma vd_mvec f g t a b : mderiv f t a -> vderiv g t b -> vderiv (fun s => mvec (f s) (g s)) t (vadd (mvec a (g t)) (mvec (f t) b)).
Proof. intros; vdd; vd. Qed.
Lemma md_mul f g t a b : mderiv f t a -> mderiv g t b -> mderiv (fun s => mmul (f s) (g s)) t (madd (mmul a (g t)) (mmul (f t) b)).
Proof. intros; vdd; vd. Qed.
Lemma md_tr f t a : mderiv f t a -> mderiv (fun s => mtr (f s)) t (mtr a).
Proof. intros; vdd; vd. Qed.
Lemma vd_eq f t a b : vderiv f t a -> a = b -> vderiv f t b.
Proof. now intros H <-. Qed.
Lemma md_eq f t a b : mderiv f t a -> a = b -> mderiv f t b.
Proof. now intros H <-. Qed.
Lemma vd_scal c t (v : V3) : vderiv (fun s => vscal (s * c) v) t (vscal c v).
Proof. (split; [|split]); cbn; (eapply dl_eq; [apply dl_mult; [apply dl_mult; [apply dl_id|apply dl_const]|apply dl_const]|cbv beta; ring]). Qed.
Lemma vd_const c t : vderiv (fun _ => c) t v0.
Proof. (split; [|split]); apply dl_const. Qed.
Lemma md_const c t : mderiv (fun _ => c) t mz.
Proof. (split; [|split]; (split; [|split])); apply dl_const. Qed.

(** A rotation carries cross products: R [w]x = [R w]x R. *)
Lemma so3_skew r w : so3 r -> mmul r (skew w) = mmul (skew (mvec r w)) r.
Proof.
  intros S.
  assert (E : forall m n, (forall v, mvec m v = mvec n v) -> m = n).
  { intros m n H. pose proof (H ux) as X. pose proof (H uy) as Y. pose proof (H uz) as Z. destruct m, n; u3.
    injection X; injection Y; injection Z; intros; f_equal; lra. }
  apply E. intros v. rewrite !mvec_mul, !skew_cross. now apply so3_cross.
Qed.
Lemma skew_tr w : mtr (skew w) = skew (vneg w). Proof. c3. Qed.
Lemma skew_add v w : skew (vadd v w) = madd (skew v) (skew w). Proof. c3. Qed.
Lemma mmul_madd_l a b c : mmul (madd a b) c = madd (mmul a c) (mmul b c). Proof. c3. Qed.
Lemma madd_comm a b : madd a b = madd b a. Proof. c3. Qed.

(** The composed motion. *)
Definition mo_mul (a b : motion) : motion := mkMo
  (fun t => vadd (mvec (mr a t) (mp b t)) (mp a t)) (fun t => mmul (mr a t) (mr b t))
  (fun t => vadd (vadd (vcross (mw a t) (mvec (mr a t) (mp b t))) (mvec (mr a t) (mv b t))) (mv a t))
  (fun t => vadd (mvec (mr a t) (mw b t)) (mw a t))
  (fun t => vadd (vadd (vadd (mvec (mr a t) (ma b t)) (vcross (mal a t) (mvec (mr a t) (mp b t))))
     (vcross (mw a t) (vadd (vadd (vcross (mw a t) (mvec (mr a t) (mp b t))) (mvec (mr a t) (mv b t))) (mvec (mr a t) (mv b t))))) (ma a t))
  (fun t => vadd (vadd (mvec (mr a t) (mal b t)) (vcross (mw a t) (mvec (mr a t) (mw b t)))) (mal a t)).
Lemma mo_mul_motion a b : is_motion a -> is_motion b -> is_motion (mo_mul a b).
Proof.
  intros Ma Mb t. destruct (Ma t) as (Sa & P & V & Rm & W). destruct (Mb t) as (Sb & P' & V' & Rm' & W').
  cbn [mp mr mv mw ma mal mo_mul]. split; [now apply so3_mul|].
  pose proof (vd_mvec _ _ _ _ _ Rm P') as D1. rewrite mvec_mul, skew_cross in D1.
  pose proof (vd_mvec _ _ _ _ _ Rm V') as D2. rewrite mvec_mul, skew_cross in D2.
  pose proof (vd_mvec _ _ _ _ _ Rm W') as D3. rewrite mvec_mul, skew_cross in D3.
  split; [eapply vd_eq; [apply vd_add; [exact D1|exact P]|reflexivity]|].
  split.
  { eapply vd_eq; [apply vd_add; [apply vd_add; [apply vd_cross; [exact W|exact D1]|exact D2]|exact V]|]. gen3. clear. c3. }
  split.
  - eapply md_eq; [apply md_mul; [exact Rm|exact Rm']|]. rewrite mmul_assoc, (so3_skew _ _ Sa), skew_add, mmul_madd_l, !mmul_assoc.
    apply madd_comm.
  - eapply vd_eq; [apply vd_add; [exact D3|exact W]|]. gen3. clear. c3.
Qed.
(** The inverse motion. *)
Definition mo_inv (a : motion) : motion := mkMo
  (fun t => vneg (mvec (mtr (mr a t)) (mp a t))) (fun t => mtr (mr a t))
  (fun t => mvec (mtr (mr a t)) (vsub (vcross (mw a t) (mp a t)) (mv a t)))
  (fun t => vneg (mvec (mtr (mr a t)) (mw a t)))
  (fun t => mvec (mtr (mr a t)) (vadd (vsub (vcross (mw a t) (vsub (vscal 2 (mv a t)) (vcross (mw a t) (mp a t)))) (ma a t)) (vcross (mal a t) (mp a t))))
  (fun t => mvec (mtr (mr a t)) (vsub (vcross (mw a t) (mw a t)) (mal a t))).
Lemma mo_inv_motion a : is_motion a -> is_motion (mo_inv a).
Proof.
  intros Ma t. destruct (Ma t) as (Sa & P & V & Rm & W).
  cbn [mp mr mv mw ma mal mo_inv]. pose proof (so3_tr _ Sa) as St. split; [exact St|].
  pose proof (md_tr _ _ _ Rm) as T. rewrite mtr_mul, skew_tr in T.
  assert (D : forall f d, vderiv f t d -> vderiv (fun s => mvec (mtr (mr a s)) (f s)) t (mvec (mtr (mr a t)) (vadd (vneg (vcross (mw a t) (f t))) d))).
  { intros f d H. eapply vd_eq; [apply vd_mvec; [exact T|exact H]|]. rewrite mvec_mul, skew_cross, vcross_neg_l, mvec_add. reflexivity. }
  split; [eapply vd_eq; [apply vd_neg, (D _ _ P)|]; rewrite <- mvec_neg; f_equal; clear; c3|].
  split.
  { eapply vd_eq; [apply (D _ _ (vd_sub _ _ _ _ _ (vd_cross _ _ _ _ _ W P) V))|]. f_equal. clear; c3. }
  split.
  - eapply md_eq; [exact T|]. rewrite (so3_skew _ _ St), mvec_neg. reflexivity.
  - eapply vd_eq; [apply vd_neg, (D _ _ W)|]. rewrite <- mvec_neg. f_equal. clear; c3.
Qed.

(** Rotations about a fixed axis. *)
Lemma aa_mat_add s t u : vsq u = 1 -> mmul (aa_mat (s, u)) (aa_mat (t, u)) = aa_mat (s + t, u).
Proof.
  intros U. rewrite !aa_mat_quat by exact U. rewrite <- qrot_mul by now apply aa_quat_unit. f_equal. unfold aa_quat.
  replace ((s + t) / 2) with (s / 2 + t / 2) by field. rewrite sin_plus, cos_plus.
  generalize (sin (s / 2)) (sin (t / 2)) (cos (s / 2)) (cos (t / 2)); intros a b c d. destruct u as [x y z]; u3. f_equal; try ring.
  transitivity (c * d - a * b * (x * x + y * y + z * z)); [ring|rewrite U; ring].
Qed.
Lemma axis_of w : exists n u, vsq u = 1 /\ w = vscal n u.
Proof.
  destruct (Req_EM_T (vsq w) 0) as [Z|Z].
  - exists 0, uz. split; [c3|]. rewrite vscal_0. now apply vsq_0.
  - pose proof (vsq_nonneg w). exists (vnorm w), (vscal (/ vnorm w) w). split; [apply vsq_normal; lra|].
    rewrite vscal_scal, Rinv_r, vscal_1; [reflexivity|]. apply Rgt_not_eq, sqrt_lt_R0. lra.
Qed.
Lemma rodrigues_add s t w : mmul (rodrigues (vscal s w)) (rodrigues (vscal t w)) = rodrigues (vscal (s + t) w).
Proof.
  destruct (axis_of w) as (n & u & U & ->). rewrite !vscal_scal, <- !aa_rodrigues by exact U. rewrite aa_mat_add by exact U.
  f_equal. f_equal. ring.
Qed.
Lemma rodrigues_0 : rodrigues v0 = m1.
Proof. unfold rodrigues. rewrite vnorm_v0. now destruct (Req_EM_T 0 0). Qed.
Lemma mderiv_ext f g t d : mderiv f t d -> (forall s, f s = g s) -> mderiv g t d.
Proof.
  intros H E. destruct H as ((H1 & H2 & H3) & (H4 & H5 & H6) & (H7 & H8 & H9)).
  split; [|split]; (split; [|split]); (eapply dl_ext; [eassumption|intros s; cbv beta; now rewrite E]).
Qed.
Lemma aa_mat_deriv n u t : vsq u = 1 -> mderiv (fun s => aa_mat (s * n, u)) t (mmul (skew (vscal n u)) (aa_mat (t * n, u))).
Proof.
  intros U. pose proof (dl_sin n t) as S. pose proof (dl_cos n t) as C. destruct u as [x y z].
  (split; [|split]; (split; [|split])); cbn;
    (eapply dl_eq; [dl|]); cbv beta; generalize (sin (t * n)) (cos (t * n)); intros a b; clear S C; u3; try ring.
  all: match goal with |- ?l = ?r => assert (l - r = 0); [|lra] end.
  all: transitivity (a * n * (x * x + y * y + z * z - 1)); [ring|rewrite U; ring].
Qed.
(** The rotation about a constant angular velocity. *)
Lemma rodrigues_deriv w t : mderiv (fun s => rodrigues (vscal s w)) t (mmul (skew w) (rodrigues (vscal t w))).
Proof.
  destruct (axis_of w) as (n & u & U & ->). rewrite vscal_scal, <- aa_rodrigues by exact U.
  eapply mderiv_ext; [apply aa_mat_deriv, U|]. intros s. now rewrite vscal_scal, <- aa_rodrigues.
Qed.

(** The motion with constant acceleration and constant angular velocity. *)
Definition mo_const (p v a : V3) (r : M3) (w : V3) : motion := mkMo
  (fun t => vadd p (vadd (vscal t v) (vscal (t * t / 2) a))) (fun t => mmul (rodrigues (vscal t w)) r)
  (fun t => vadd v (vscal t a)) (fun _ => w) (fun _ => a) (fun _ => v0).
Lemma mo_const_motion p v a r w : so3 r -> is_motion (mo_const p v a r w).
Proof.
  intros S t. cbn [mp mr mv mw ma mal mo_const]. split; [apply so3_mul; [apply rodrigues_so3'|exact S]|].
  split.
  { (split; [|split]); cbn; (eapply dl_eq; [apply dl_plus; [apply dl_const|apply dl_plus; [apply dl_mult; [apply dl_id|apply dl_const]|
      apply dl_mult; [apply (dl_mult (fun s => s * s) (fun _ => / 2)); [apply (dl_mult (fun s => s) (fun s => s)); apply dl_id|apply dl_const]|apply dl_const]]]|cbv beta; field]). }
  split.
  { (split; [|split]); cbn; (eapply dl_eq; [apply dl_plus; [apply dl_const|apply dl_mult; [apply dl_id|apply dl_const]]|cbv beta; ring]). }
  split; [|apply vd_const].
  eapply md_eq; [apply md_mul; [apply rodrigues_deriv|apply md_const]|].
  rewrite mmul_assoc. generalize (mmul (mmul (skew w) (rodrigues (vscal t w))) r) (rodrigues (vscal t w)). clear. intros x y. c3.
Qed.

(** ** integrate *)
Definition g_v dt (v a : option V3) := match v, a with Some v, Some a => Some (vadd v (vscal dt a)) | Some v, None => Some v | None, _ => None end.
Definition g_p dt (p v a : option V3) := match p, v, a with
  | Some p, Some v, Some a => Some (vadd p (vadd (vscal dt v) (vscal (dt * dt / 2) a)))
  | Some p, Some v, None => Some (vadd p (vscal dt v)) | p, _, _ => p end.
Definition g_i dt (w al : option V3) := match w, al with
  | Some w, Some al => vadd (vscal dt w) (vscal (dt * dt / 2) al) | Some w, None => vscal dt w | None, _ => v0 end.
Lemma rv_mat_v0 : rv_mat v0 = m1.
Proof. rewrite rv_rodrigues by now right. apply rodrigues_0. Qed.
Lemma k_integrate_ok md dt k : coh (ko k) -> exists k', k_integrate md dt k = Ok k' /\ coh (ko k') /\
  kp k' = g_p dt (kp k) (kv k) (ka k) /\ kv k' = g_v dt (kv k) (ka k) /\ kw k' = g_v dt (kw k) (kal k) /\
  ka k' = ka k /\ kal k' = kal k /\ (rot (ko k) = None -> rot (ko k') = None) /\
  forall r, rot (ko k) = Some r -> rot (ko k') = Some (mmul (rv_mat (g_i dt (kw k) (kal k))) r).
Proof.
  intros H. unfold k_integrate.
  assert (G : forall v, exists o, (if o_isSet (ko k) then o_integrate md v (ko k) else Ok (ko k)) = Ok o /\ coh o /\
    (rot (ko k) = None -> rot o = None) /\ forall r, rot (ko k) = Some r -> rot o = Some (mmul (rv_mat v) r)).
  { intros v. destruct (rot (ko k)) as [r|] eqn:R.
    - assert (S : o_isSet (ko k) = true) by (apply rot_isSet; congruence). rewrite S.
      destruct (integrate_ok md v (ko k) r H R) as (o & E & A & B). exists o. rewrite E. split; [auto|]. split; [auto|]. split; [discriminate|].
      intros x X; injection X as <-; exact B.
    - assert (S : o_isSet (ko k) = false) by now apply rot_notSet. rewrite S. exists (ko k). split; [auto|]. split; [auto|]. split; [auto|]. discriminate. }
  assert (L : exists p v, (match kv k with
    | Some v => match ka k with
        | Some ac => (option_map (fun p => vadd p (vadd (vscal dt v) (vscal (dt * dt / 2) ac))) (kp k), Some (vadd v (vscal dt ac)))
        | None => (option_map (fun p => vadd p (vscal dt v)) (kp k), Some v)
        end
    | None => (kp k, None) end) = (p, v) /\ p = g_p dt (kp k) (kv k) (ka k) /\ v = g_v dt (kv k) (ka k)).
  { unfold g_p, g_v, option_map. destruct (kv k), (ka k), (kp k); do 2 eexists; (split; [reflexivity|]); auto. }
  destruct L as (p & v & EL & -> & ->). rewrite EL. unfold g_i.
  destruct (kw k) as [w|]; [destruct (kal k) as [l|]|]; cbn [obind].
  - destruct (G (vadd (vscal dt w) (vscal (dt * dt / 2) l))) as (o & E & A & B & C). rewrite E. cbn. eexists; split; [reflexivity|]. cbn. auto 12.
  - destruct (G (vscal dt w)) as (o & E & A & B & C). rewrite E. cbn. eexists; split; [reflexivity|]. cbn. auto 12.
  - eexists; split; [reflexivity|]. cbn. split; [auto|]. do 5 (split; [reflexivity|]). split; [auto|]. intros r R. now rewrite rv_mat_v0, mmul_1_l.
Qed.
(** Below this the code drops the rotation altogether. *)
Lemma rv_mat_line t w : t * vnorm w = 0 \/ epsA < Rabs t * vnorm w -> rv_mat (vscal t w) = rodrigues (vscal t w).
Proof.
  intros H. apply rv_rodrigues. pose proof epsA_pos. destruct H as [H|H].
  - right. apply Rmult_integral in H. destruct H as [-> |H]; [apply vscal_0|].
    assert (vsq w = 0) by (rewrite <- vnorm_sq, H; ring). rewrite (vsq_0 w) by auto. apply vscal_v0.
  - left. rewrite <- vnorm_scal in H. unfold tiny. rewrite <- vnorm_sq. nra.
Qed.
