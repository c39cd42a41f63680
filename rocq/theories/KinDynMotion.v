(** The balances of the kinetics observer for motions, and the uniqueness of velocities. *)
From Coq Require Import Reals Lra.
From Verif Require Import Base Vec3 Rot SpecRot RotProofs Orient SpecOrient OrientProofs Kine SpecKine KineProofs KineProofs2 KinDyn KinDynProofs KinDynMeas.
Open Scope R_scope.

Lemma vd_unique f t a b : vderiv f t a -> vderiv f t b -> a = b.
Proof. intros (A & B & C) (A' & B' & C'). destruct a, b. cbn in *. f_equal; eapply uniqueness_limite; eassumption. Qed.
Lemma vd_ext f g t a : vderiv f t a -> (forall u, f u = g u) -> vderiv g t a.
Proof. intros (A & B & C) E. split; [|split]; (eapply dl_ext; [eassumption|intros; cbv beta; now rewrite E]). Qed.
Lemma md_unique f t a b : mderiv f t a -> mderiv f t b -> a = b.
Proof. intros; vdd. destruct a, b. cbn in *. f_equal; eapply uniqueness_limite; eassumption. Qed.
Lemma md_ext f g t a : mderiv f t a -> (forall u, f u = g u) -> mderiv g t a.
Proof. intros H E. vdd. split; [|split]; (split; [|split]); (eapply dl_ext; [eassumption|intros; cbv beta; now rewrite E]). Qed.
Lemma skew_inj a b : skew a = skew b -> a = b.
Proof. destruct a, b. intros H. unfold skew in H. cbn in H. injection H. intros. f_equal; lra. Qed.
(** Two motions with the same positions and rotations are the same. *)
Lemma motion_unique a b : is_motion a -> is_motion b -> (forall u, mp a u = mp b u) -> (forall u, mr a u = mr b u) ->
  forall u, mv a u = mv b u /\ mw a u = mw b u /\ ma a u = ma b u /\ mal a u = mal b u.
Proof.
  intros Ha Hb Ep Er.
  assert (V : forall u, mv a u = mv b u).
  { intros u. destruct (Ha u) as (_ & P & _). destruct (Hb u) as (_ & P' & _). eapply vd_unique; [eapply vd_ext; [exact P|exact Ep]|exact P']. }
  assert (W : forall u, mw a u = mw b u).
  { intros u. destruct (Ha u) as (S & _ & _ & P & _). destruct (Hb u) as (_ & _ & _ & P' & _).
    pose proof (md_unique _ _ _ _ (md_ext _ _ _ _ P Er) P') as E. rewrite <- Er in E. apply skew_inj.
    rewrite <- (mmul_1_r (skew (mw a u))), <- (mmul_1_r (skew (mw b u))), <- (proj1 S), !mmul_assoc. now rewrite E. }
  intros u. destruct (Ha u) as (_ & _ & A & _ & L). destruct (Hb u) as (_ & _ & A' & _ & L').
  repeat split; auto; (eapply vd_unique; [eapply vd_ext; [eassumption|eassumption]|eassumption]).
Qed.

(** The angular momentum about the moving origin: its derivative. *)
Lemma momentum_deriv mo (Ic : R -> M3) (sc : R -> V3) t Id sgd m c cd cdd F T : is_motion mo -> mderiv Ic t Id -> vderiv sc t sgd ->
  m <> 0 -> mdet (madd (Ic t) (mscal m (skew2 c))) <> 0 -> let r := mr mo t in let wl := mvec (mtr r) (mw mo t) in
  let al := al_loc m c cd cdd (sc t) sgd (Ic t) Id wl F T in
  mal mo t = mvec r al -> ma mo t = vsub (mvec r (la_loc m c cd cdd wl F al)) gravity ->
  vderiv (fun u => mvec (mr mo u) (vadd (mvec (Ic u) (mvec (mtr (mr mo u)) (mw mo u))) (sc u))) t
    (vsub (mvec r T) (vcross (mvec r c) (vscal m (vadd (ma mo t) gravity)))).
Proof.
  intros Hm DI Ds Hz Hd r wl al Eal Ea. destruct (Hm t) as (S & _ & _ & DR & DW). fold r in S, DR.
  pose proof (vd_mvec _ _ _ _ _ (md_tr _ _ _ DR) DW) as D1. pose proof (vd_mvec _ _ _ _ _ DI D1) as D2.
  pose proof (vd_add _ _ _ _ _ D2 Ds) as D3. pose proof (vd_mvec _ _ _ _ _ DR D3) as D4. cbv beta in D4. fold r wl in D4.
  eapply vd_eq; [exact D4|]. clear D1 D2 D3 D4.
  assert (Z : vadd (mvec (mtr (mmul (skew (mw mo t)) r)) (mw mo t)) (mvec (mtr r) (mal mo t)) = al).
  { rewrite Eal, so3_tr_vec by exact S. rewrite mtr_mul, mvec_mul, skew_tr, skew_cross.
    replace (vcross (vneg (mw mo t)) (mw mo t)) with v0 by (generalize (mw mo t); clear; intros; c3). rewrite mvec_0. generalize al; clear; intros; c3. }
  rewrite Z. rewrite mvec_mul, skew_cross. rewrite <- (so3_vec_tr r (mw mo t)) by exact S. fold wl.
  rewrite <- (so3_cross r) by exact S.
  assert (A : vadd (ma mo t) gravity = mvec r (la_loc m c cd cdd wl F al)) by (rewrite Ea; generalize (mvec r (la_loc m c cd cdd wl F al)); clear; intros; c3).
  rewrite A, <- mvec_scal, <- (so3_cross r) by exact S.
  rewrite <- mvec_add. rewrite <- (euler_loc m c cd cdd (sc t) sgd (Ic t) Id wl F T Hz Hd). fold al.
  rewrite (mvec_add r _ (vcross c _)). generalize (mvec r (vcross c (vscal m (la_loc m c cd cdd wl F al)))). intros y.
  set (z1 := mvec (Ic t) wl). set (z2 := mvec (Ic t) al). set (z3 := mvec Id wl). clearbody z1 z2 z3. clear.
  assert (E : forall u v w : V3, vsub (vadd u v) v = u) by (intros; c3). rewrite E by exact y. f_equal. c3.
Qed.
(** The acceleration of the centre of mass. *)
Lemma com_deriv mo (cc ccd ccdd : R -> V3) t m F al : is_motion mo -> (forall u, vderiv cc u (ccd u)) -> (forall u, vderiv ccd u (ccdd u)) -> m <> 0 ->
  let r := mr mo t in let wl := mvec (mtr r) (mw mo t) in
  mal mo t = mvec r al -> ma mo t = vsub (mvec r (la_loc m (cc t) (ccd t) (ccdd t) wl F al)) gravity ->
  exists V G, (forall u, vderiv (fun u => vadd (mp mo u) (mvec (mr mo u) (cc u))) u (V u)) /\ vderiv V t G /\
    vscal m (vadd G gravity) = mvec r (vsub F (vscal m (vcross wl (vcross wl (cc t))))).
Proof.
  intros Hm D1 D2 Hz r wl Eal Ea.
  set (mc := mkMo cc (fun _ => m1) ccd (fun _ => v0) ccdd (fun _ => v0)).
  assert (Hc : is_motion mc).
  { intros u. cbn. split; [exact so3_1|]. split; [apply D1|]. split; [apply D2|]. split; [eapply md_eq; [apply md_const|c3]|apply vd_const]. }
  pose proof (mo_mul_motion _ _ Hm Hc) as Hg. exists (mv (mo_mul mo mc)), (ma (mo_mul mo mc) t). split; [|split].
  - intros u. destruct (Hg u) as (_ & P & _). eapply vd_ext; [exact P|]. intros u'. cbn. generalize (mvec (mr mo u') (cc u')) (mp mo u'). clear. intros; c3.
  - destruct (Hg t) as (_ & _ & P & _). exact P.
  - cbn [ma mo_mul mc mp mv]. destruct (Hm t) as (S & _). fold r. rewrite Eal, Ea. unfold wl. apply newton_loc; [exact S|exact Hz].
Qed.
