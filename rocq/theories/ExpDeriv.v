(** The derivative of the rotation of a moving rotation vector. *)
From Coq Require Import Reals Lra.
From Verif Require Import Vec3 Rot SpecRot RotProofs RotProofs3 SpecKine KineProofs2.
Open Scope R_scope.

(** Two functions that agree around t. *)
Definition near (t : R) (P : R -> Prop) : Prop := exists r, 0 < r /\ forall s, Rabs (s - t) < r -> P s.
Lemma near_and t P Q : near t P -> near t Q -> near t (fun s => P s /\ Q s).
Proof.
  intros (r & Hr & A) (r' & Hr' & B). exists (Rmin r r'). split; [now apply Rmin_pos|]. intros s H.
  split; [apply A|apply B]; (eapply Rlt_le_trans; [exact H|]); [apply Rmin_l|apply Rmin_r].
Qed.
Lemma near_mono t (P Q : R -> Prop) : near t P -> (forall s, P s -> Q s) -> near t Q.
Proof. intros (r & Hr & A) H. exists r. auto. Qed.
Lemma near_at t (P : R -> Prop) : near t P -> P t.
Proof. intros (r & Hr & A). apply A. replace (t - t) with 0 by ring. now rewrite Rabs_R0. Qed.
Lemma dl_local f g t l : derivable_pt_lim f t l -> near t (fun s => f s = g s) -> derivable_pt_lim g t l.
Proof.
  intros D (r & Hr & E) e He. destruct (D e He) as (d & Hd). assert (M : 0 < Rmin d r) by (apply Rmin_pos; [apply cond_pos|exact Hr]).
  exists (mkposreal _ M). intros h H0 Hh. cbn in Hh.
  rewrite <- (E t), <- (E (t + h)).
  - apply Hd; [exact H0|]. eapply Rlt_le_trans; [exact Hh|apply Rmin_l].
  - replace (t + h - t) with h by ring. eapply Rlt_le_trans; [exact Hh|apply Rmin_r].
  - replace (t - t) with 0 by ring. now rewrite Rabs_R0.
Qed.
Lemma md_local f g t a : mderiv f t a -> near t (fun s => f s = g s) -> mderiv g t a.
Proof.
  intros ((?&?&?)&(?&?&?)&(?&?&?)) E. repeat split; eapply dl_local; try eassumption; (eapply near_mono; [exact E|]); intros s ->; reflexivity.
Qed.
Lemma vd_local f g t a : vderiv f t a -> near t (fun s => f s = g s) -> vderiv g t a.
Proof.
  intros (?&?&?) E. repeat split; eapply dl_local; try eassumption; (eapply near_mono; [exact E|]); intros s ->; reflexivity.
Qed.
(** A derivable function stays above what it is above of. *)
Lemma dl_above f t l c : derivable_pt_lim f t l -> c < f t -> near t (fun s => c < f s).
Proof.
  intros D H. assert (C : continuity_pt f t) by (apply derivable_continuous_pt; exists l; exact D).
  destruct (C (f t - c)) as (r & Hr & A); [lra|]. exists r. split; [exact Hr|]. intros s Hs.
  destruct (Req_dec s t) as [->|Hn]; [exact H|].
  specialize (A s). assert (B : Rabs (f s - f t) < f t - c).
  { apply A. split; [split; [exact I|auto]|exact Hs]. }
  apply Rabs_def2 in B. lra.
Qed.
Lemma dl_inv f t l : derivable_pt_lim f t l -> f t <> 0 -> derivable_pt_lim (fun s => / f s) t (- l / (f t * f t)).
Proof.
  intros D H. eapply dl_ext; [eapply dl_eq; [apply (derivable_pt_lim_div (fun _ => 1) f t 0 l (dl_const 1 t) D H)|]|].
  - unfold Rsqr. field. exact H.
  - intros s. unfold div_fct, Rdiv. ring.
Qed.
Lemma dl_sqrt f t l : derivable_pt_lim f t l -> 0 < f t -> derivable_pt_lim (fun s => sqrt (f s)) t (l / (2 * sqrt (f t))).
Proof.
  intros D H. eapply dl_eq; [apply (derivable_pt_lim_comp f sqrt t l _ D (derivable_pt_lim_sqrt (f t) H))|]. field. apply Rgt_not_eq, sqrt_lt_R0, H.
Qed.
Lemma dl_sin' f t l : derivable_pt_lim f t l -> derivable_pt_lim (fun s => sin (f s)) t (cos (f t) * l).
Proof. intros D. apply (derivable_pt_lim_comp f sin t l _ D (derivable_pt_lim_sin (f t))). Qed.
Lemma dl_cos' f t l : derivable_pt_lim f t l -> derivable_pt_lim (fun s => cos (f s)) t (- sin (f t) * l).
Proof. intros D. apply (derivable_pt_lim_comp f cos t l _ D (derivable_pt_lim_cos (f t))). Qed.

Lemma vsq_deriv V t d : vderiv V t d -> derivable_pt_lim (fun s => vsq (V s)) t (2 * vdot (V t) d).
Proof. intros (X & Y & Z). unfold vsq, vdot. eapply dl_eq; [dl|cbn; ring]. Qed.

(** The left Jacobian of the exponential. *)
Definition left_jac (d : V3) (e : V3) : V3 :=
  let n := vnorm d in
  vadd (vadd (vscal ((n - sin n) / (n * n * n) * vdot d e) d) (vscal (sin n / n) e)) (vscal ((1 - cos n) / (n * n)) (vcross d e)).
Lemma rodrigues_moving V t e : vderiv V t e -> V t <> v0 -> mderiv (fun s => rodrigues (V s)) t (mmul (skew (left_jac (V t) e)) (rodrigues (V t))).
Proof.
  intros D H0.
  assert (Np : 0 < vsq (V t)).
  { destruct (Req_dec (vsq (V t)) 0) as [E|E].
    - exfalso. apply H0. destruct (V t) as [x y z]. u3. assert (x = 0 /\ y = 0 /\ z = 0) as (-> & -> & ->) by (repeat split; nra). reflexivity.
    - assert (0 <= vsq (V t)) by (destruct (V t); u3; nra). lra. }
  pose proof (vsq_deriv V t e D) as DN. pose proof (dl_sqrt _ _ _ DN Np) as Dn.
  set (N := vsq (V t)) in *. set (n := sqrt N) in *. assert (Hn : 0 < n) by (apply sqrt_lt_R0, Np). assert (Hn2 : n * n = N) by (apply sqrt_sqrt; lra).
  set (sg := vdot (V t) e) in *.
  pose proof (dl_sin' _ _ _ Dn) as Ds. pose proof (dl_cos' _ _ _ Dn) as Dc. cbv beta in Ds, Dc. fold N n in Ds, Dc.
  assert (Di : derivable_pt_lim (fun s => / sqrt (vsq (V s))) t (- (2 * sg / (2 * n)) / (n * n))) by (apply (dl_inv _ _ _ Dn); change (n <> 0); lra).
  set (a := sin n / n). set (b := (1 - cos n) / (n * n)). set (k := / N).
  assert (DA : derivable_pt_lim (fun s => sin (sqrt (vsq (V s))) * / sqrt (vsq (V s))) t (sg * k * (1 - b * N - a))).
  { eapply dl_eq; [apply dl_mult; [exact Ds|exact Di]|]. cbv beta. fold N n. unfold a, b, k. rewrite <- Hn2. field. lra. }
  assert (DB : derivable_pt_lim (fun s => (1 - cos (sqrt (vsq (V s)))) * (/ sqrt (vsq (V s)) * / sqrt (vsq (V s)))) t (sg * k * (a - 2 * b))).
  { eapply dl_eq; [apply dl_mult; [apply dl_minus; [apply dl_const|exact Dc]|apply dl_mult; [exact Di|exact Di]]|]. cbv beta. fold N n. unfold a, b, k. rewrite <- Hn2. field. lra. }
  (* the formula holds around t *)
  apply md_local with (f := fun s => madd (madd m1 (mscal (sin (sqrt (vsq (V s))) * / sqrt (vsq (V s))) (skew (V s))))
     (mscal ((1 - cos (sqrt (vsq (V s)))) * (/ sqrt (vsq (V s)) * / sqrt (vsq (V s)))) (mmul (skew (V s)) (skew (V s))))).
  2:{ eapply near_mono; [apply (dl_above _ _ _ 0 DN Np)|]. cbv beta. intros s Hs. unfold rodrigues. change (vnorm (V s)) with (sqrt (vsq (V s))).
      destruct (Req_EM_T (sqrt (vsq (V s))) 0) as [E|E]; [apply sqrt_lt_R0 in Hs; lra|]. unfold Rdiv. now rewrite Rinv_mult. }
  (* its derivative *)
  assert (Ek : N * k = 1) by (unfold k; field; lra).
  assert (EP : a * a - 2 * b + b * b * N = 0).
  { unfold a, b. rewrite <- Hn2. pose proof (sc1 n) as S1. transitivity ((sin n * sin n + cos n * cos n - 1) / (n * n)); [field; lra|]. rewrite S1. field. lra. }
  assert (ER : rodrigues (V t) = madd (madd m1 (mscal a (skew (V t)))) (mscal b (mmul (skew (V t)) (skew (V t))))).
  { unfold rodrigues. change (vnorm (V t)) with n. destruct (Req_EM_T n 0); [lra|reflexivity]. }
  assert (EJ : left_jac (V t) e = vadd (vadd (vscal ((1 - a) * k * sg) (V t)) (vscal a e)) (vscal b (vcross (V t) e))).
  { unfold left_jac. change (vnorm (V t)) with n. fold sg. replace ((n - sin n) / (n * n * n) * sg) with ((1 - a) * k * sg); [reflexivity|]. unfold a, k. rewrite <- Hn2. field. lra. }
  rewrite ER, EJ.
  assert (Alg : mmul (skew (vadd (vadd (vscal ((1 - a) * k * sg) (V t)) (vscal a e)) (vscal b (vcross (V t) e))))
      (madd (madd m1 (mscal a (skew (V t)))) (mscal b (mmul (skew (V t)) (skew (V t))))) =
      madd (madd (mscal (sg * k * (1 - b * N - a)) (skew (V t))) (mscal a (skew e)))
        (madd (mscal (sg * k * (a - 2 * b)) (mmul (skew (V t)) (skew (V t)))) (mscal b (madd (mmul (skew (V t)) (skew e)) (mmul (skew e) (skew (V t))))))).
  { transitivity (madd (madd (madd (mscal (sg * k * (1 - b * N - a)) (skew (V t))) (mscal a (skew e)))
        (madd (mscal (sg * k * (a - 2 * b)) (mmul (skew (V t)) (skew (V t)))) (mscal b (madd (mmul (skew (V t)) (skew e)) (mmul (skew e) (skew (V t)))))))
      (madd (mscal (a * a - 2 * b + b * b * N) (msub (mmul (skew e) (skew (V t))) (mscal (k * sg) (mmul (skew (V t)) (skew (V t))))))
            (mscal ((N * k - 1) * sg) (madd (mscal (a * b) (skew (V t))) (mscal (b * b) (mmul (skew (V t)) (skew (V t)))))))).
    - clear - a. clearbody a b k. unfold sg, N. destruct (V t) as [x y z], e as [p q r]. clear. u3. f_equal; ring.
    - rewrite EP, Ek. destruct (V t) as [x y z], e as [p q r]. u3. f_equal; ring. }
  rewrite Alg. clear Alg ER EJ EP. destruct D as (X & Y & Z).
  assert (QA : sin (sqrt (vsq (V t))) * / sqrt (vsq (V t)) = a) by reflexivity.
  assert (QB : (1 - cos (sqrt (vsq (V t)))) * (/ sqrt (vsq (V t)) * / sqrt (vsq (V t))) = b) by (fold N n; unfold b; field; lra).
  set (fa := fun s => sin (sqrt (vsq (V s))) * / sqrt (vsq (V s))) in *. set (fb := fun s => (1 - cos (sqrt (vsq (V s)))) * (/ sqrt (vsq (V s)) * / sqrt (vsq (V s)))) in *.
  change (mderiv (fun s => madd (madd m1 (mscal (fa s) (skew (V s)))) (mscal (fb s) (mmul (skew (V s)) (skew (V s))))) t
     (madd (madd (mscal (sg * k * (1 - b * N - a)) (skew (V t))) (mscal a (skew e)))
        (madd (mscal (sg * k * (a - 2 * b)) (mmul (skew (V t)) (skew (V t)))) (mscal b (madd (mmul (skew (V t)) (skew e)) (mmul (skew e) (skew (V t)))))))).
  change (fa t = a) in QA. change (fb t = b) in QB. clearbody fa fb sg k a b. clear - DA DB X Y Z QA QB.
  (split; [|split]; (split; [|split])); cbn; (eapply dl_eq; [dl|]); cbv beta; rewrite ?QA, ?QB; ring.
Qed.
