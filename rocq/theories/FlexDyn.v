(** The accelerations of the flexible base: factorisation, Newton's and Euler's equations. *)
From Coq Require Import ZArith List Bool Reals Lia Lra.
From Verif Require Import Base Vec3 Rot SpecRot RotProofs RotProofs3 SpecKine KineProofs2 Kine Sensors KinDyn KinDynProofs KinDynMotion ImuSys FlexSys SpecFlex.
Import ListNotations.
Open Scope R_scope.
Set Default Proof Using "Type".

(** ** The Cholesky factorisation *)
Definition sym (m : M3) : Prop := mtr m = m.
Lemma llt_solve m b : sym m -> pdef m -> mvec m (solve_upper (llt3 m) (solve_lower (llt3 m) b)) = b.
Proof.
  intros S P. destruct m as [a d e d' f g e' g' h]. unfold sym, mtr in S. cbn in S. injection S. intros. subst d' e' g'. clear S.
  assert (A : 0 < a).
  { specialize (P (mkV 1 0 0)). u3. assert (0 < 1 * (a * 1 + d * 0 + e * 0) + 0 * (d * 1 + f * 0 + g * 0) + 0 * (e * 1 + g * 0 + h * 0)) by (apply P; intros E; injection E; lra). lra. }
  assert (D : 0 < f - d * d / a).
  { specialize (P (mkV (- d / a) 1 0)). u3.
    match type of P with _ -> 0 < ?X => replace X with (f - d * d / a) in P by (field; lra) end. apply P. intros E. injection E. lra. }
  set (x1 := f - d * d / a) in *.
  assert (F : 0 < h - e * e / a - (g - e * d / a) * (g - e * d / a) / x1).
  { specialize (P (mkV ((- e + d * ((g - e * d / a) / x1)) / a) (- ((g - e * d / a) / x1)) 1)). u3.
    match type of P with _ -> 0 < ?X => replace X with (h - e * e / a - (g - e * d / a) * (g - e * d / a) / x1) in P end.
    - apply P. intros E. injection E. lra.
    - unfold x1. field. split; [|unfold x1 in D]; try lra. intros E. unfold x1 in D. apply (Rmult_lt_compat_r a) in D; [|lra].
      replace ((f - d * d / a) * a) with (f * a - d * d) in D by (field; lra). lra. }
  unfold llt3. cbn [m00 m01 m02 m10 m11 m12 m20 m21 m22].
  destruct (Rle_dec a 0) as [|_]; [lra|].
  pose proof (sqrt_lt_R0 a A) as Q0. pose proof (sqrt_sqrt a (Rlt_le _ _ A)) as R0. set (s0 := sqrt a) in *.
  assert (E1 : f - d / s0 * (d / s0) = x1) by (unfold x1; rewrite <- R0; field; lra). rewrite E1.
  destruct (Rle_dec x1 0) as [|_]; [lra|].
  pose proof (sqrt_lt_R0 x1 D) as Q1. pose proof (sqrt_sqrt x1 (Rlt_le _ _ D)) as R1. set (s1 := sqrt x1) in *.
  set (l21 := (g - e / s0 * (d / s0)) / s1).
  assert (E2 : h - (e / s0 * (e / s0) + l21 * l21) = h - e * e / a - (g - e * d / a) * (g - e * d / a) / x1).
  { unfold l21. rewrite <- R1, <- R0. field. lra. }
  rewrite E2. destruct (Rle_dec _ 0) as [|_]; [lra|]. rewrite <- E2 in *.
  pose proof (sqrt_lt_R0 _ F) as Q2. pose proof (sqrt_sqrt _ (Rlt_le _ _ F)) as R2. set (s2 := sqrt (h - (e / s0 * (e / s0) + l21 * l21))) in *.
  assert (Ef : f = s1 * s1 + d / s0 * (d / s0)) by lra. assert (Eh : h = s2 * s2 + (e / s0 * (e / s0) + l21 * l21)) by lra.
  assert (Eg : g = l21 * s1 + e / s0 * (d / s0)) by (unfold l21; field; lra).
  clearbody s0 s1 s2 l21. rewrite Ef, Eh, Eg, <- R0. destruct b as [b0 b1 b2]. clear - Q0 Q1 Q2.
  unfold solve_upper, solve_lower, mvec. cbn. f_equal; field; lra.
Qed.

(** The inertia about the centre of mass, in the world. *)
Lemma inertia_rot r I m c : so3 r -> madd (mmul (mmul r I) (mtr r)) (mscal m (skew2 (mvec r c))) = mmul (mmul r (madd I (mscal m (skew2 c)))) (mtr r).
Proof.
  intros S. assert (E : skew2 (mvec r c) = mmul (mmul r (skew2 c)) (mtr r)).
  { rewrite !skew2_skew. assert (K : skew (mvec r c) = mmul (mmul r (skew c)) (mtr r)).
    { rewrite so3_skew by exact S. destruct S as [S _]. rewrite <- mmul_assoc, S. c3. }
    rewrite K. rewrite <- !mmul_assoc. f_equal. rewrite !mmul_assoc. f_equal. f_equal. rewrite <- (mmul_assoc (skew c)). rewrite so3_tr_mul by exact S. now rewrite mmul_1_r. }
  rewrite E. clear. c3.
Qed.
Lemma pdef_rot r m : so3 r -> pdef m -> pdef (mmul (mmul r m) (mtr r)).
Proof.
  intros S P v Hv. assert (E : vdot v (mvec (mmul (mmul r m) (mtr r)) v) = vdot (mvec (mtr r) v) (mvec m (mvec (mtr r) v))).
  { rewrite !mvec_mul. generalize (mvec m (mvec (mtr r) v)). clear. c3. }
  rewrite E. apply P. intros Z. apply Hv. rewrite <- (so3_vec_tr r v) by exact S. rewrite Z. clear. c3.
Qed.
Lemma sym_rot r m : sym m -> sym (mmul (mmul r m) (mtr r)).
Proof. unfold sym. intros S. rewrite !mtr_mul, S. now rewrite mmul_assoc. Qed.
Lemma sym_com I m c : sym I -> sym (madd I (mscal m (skew2 c))).
Proof. unfold sym. intros S. rewrite <- S at 2. clear. c3. Qed.
Lemma tensor_sym u i : sym (tensor u i).
Proof. reflexivity. Qed.

(** ** The resultant of the contacts *)
Lemma wrench_contacts_ok md r p f t : forall cs fc tc, (length cs <= length fc)%nat -> length tc = length fc -> exists f' t', wrench_contacts md r p cs fc tc f t = Ok (f', t') /\
  f' = vadd f (sum_force (map (fun q => (vadd p (mvec r (fst (fst (fst q)))), mvec (mmul r (rv_mat (snd (fst (fst q))))) (fst (snd q)), mvec (mmul r (rv_mat (snd (fst (fst q))))) (snd (snd q)))) (combine cs (combine fc tc)))) /\
  t' = vadd t (sum_moment (map (fun q => (vadd p (mvec r (fst (fst (fst q)))), mvec (mmul r (rv_mat (snd (fst (fst q))))) (fst (snd q)), mvec (mmul r (rv_mat (snd (fst (fst q))))) (snd (snd q)))) (combine cs (combine fc tc)))).
Proof.
  intros cs. revert f t. induction cs as [|[[cp co] cv] cs IH]; intros f t fc tc L1 L2.
  - exists f, t. split; [reflexivity|]. cbn. split; clear; c3.
  - destruct fc as [|f0 fc]; [cbn in L1; lia|]. destruct tc as [|t0 tc]; [discriminate|]. cbn [length] in *. cbn [wrench_contacts combine map].
    destruct (IH (vadd f (mvec (mmul r (rv_mat co)) f0)) (vadd t (vadd (mvec (mmul r (rv_mat co)) t0) (vcross (vadd (mvec r cp) p) (mvec (mmul r (rv_mat co)) f0)))) fc tc) as (f' & t' & E & F & T); [lia|lia|]. exists f', t'. split; [exact E|].
    cbn [sum_force sum_moment fold_right fst snd]. fold sum_force. split; [rewrite F|rewrite T].
    + generalize (mvec (mmul r (rv_mat co)) f0). clear. unfold sum_force. match goal with |- context [fold_right ?a ?b ?c] => generalize (fold_right a b c) end. intros; c3.
    + rewrite (vadd_comm (mvec r cp) p). generalize (mvec (mmul r (rv_mat co)) f0) (mvec (mmul r (rv_mat co)) t0) (vadd p (mvec r cp)). clear. unfold sum_moment. match goal with |- context [fold_right ?a ?b ?c] => generalize (fold_right a b c) end. intros; c3.
Qed.
Lemma wrench_ok md c x u : (f_model c = CElastic -> (f_nc c <= 2)%nat) ->
  wrench md c (body_of c x u) (rv_mat (seg3 x 3)) (seg3 x 0) (efforts_f x) (efforts_t x) = Ok (sum_force (wrenches c x u), sum_moment (wrenches c x u)).
Proof.
  intros H. unfold wrench, wrenches. cbn [body_of b_fa b_ta b_fm b_tm b_cs]. set (r := rv_mat (seg3 x 3)). set (p := seg3 x 0).
  destruct (f_model c).
  2:{ specialize (H eq_refl).
      destruct (wrench_contacts_ok md r p (vadd (mvec r (seg3 u 42)) (seg3 x 24)) (vadd (vadd (mvec r (seg3 u 45)) (vcross p (mvec r (seg3 u 42)))) (seg3 x 27)) (contacts_of (f_nc c) u) (efforts_f x) (efforts_t x)) as (f' & t' & E & F & T); [| |rewrite E, F, T; clear E F T].
      - unfold contacts_of. rewrite map_length, seq_length. exact H.
      - reflexivity.
      - assert (X : map (fun q : V3 * V3 * V3 * (V3 * V3) => (vadd p (mvec r (fst (fst (fst q)))), mvec (mmul r (rv_mat (snd (fst (fst q))))) (fst (snd q)), mvec (mmul r (rv_mat (snd (fst (fst q))))) (snd (snd q)))) (combine (contacts_of (f_nc c) u) (combine (efforts_f x) (efforts_t x)))
          = map (fun i => (vadd p (mvec r (seg3 u (48 + 12 * i))), mvec (mmul r (rv_mat (seg3 u (51 + 12 * i)))) (seg3 x (12 + 6 * i)), mvec (mmul r (rv_mat (seg3 u (51 + 12 * i)))) (seg3 x (15 + 6 * i)))) (seq 0 (f_nc c))).
        { destruct (f_nc c) as [|[|[|n]]]; [reflexivity|reflexivity|reflexivity|lia]. }
        rewrite X. cbv zeta. match goal with |- context [map ?f ?l] => generalize (map f l) end. intros w. unfold sum_force, sum_moment. cbn [fold_right fst snd].
        match goal with |- Ok (vadd _ ?a, vadd _ ?b) = _ => generalize a b end. generalize (mvec r (seg3 u 42)) (mvec r (seg3 u 45)) (seg3 x 24) (seg3 x 27) p. clear. intros. f_equal. f_equal; c3. }
  all: unfold sum_force, sum_moment; cbn [fold_right fst snd efforts_f efforts_t nth]; generalize (mvec r (seg3 u 42)) (mvec r (seg3 u 45)) (seg3 x 24) (seg3 x 27) (seg3 x 12) (seg3 x 15) p; clear; intros; f_equal; f_equal; c3.
Qed.

(** ** The equations of the accelerations *)
(** For any wrench (F, T) on the robot. *)
Lemma accel_gen md c b p r w fc tc F T : f_mass c <> 0 -> so3 r -> wrench md c b r p fc tc = Ok (F, T) -> sym (b_I b) ->
  let m := f_mass c in let cm := b_c b in
  pdef (madd (b_I b) (mscal m (skew2 cm))) ->
  exists A Al, accel md c b p r w fc tc = Ok (A, Al) /\
    let rc := mvec r cm in
    let G := vadd (vadd (vadd (vadd A (vcross Al rc)) (vcross w (vcross w rc))) (vscal 2 (vcross w (mvec r (b_cd b))))) (mvec r (b_cdd b)) in
    vscal m (vadd G gravity) = F /\
    vadd (vadd (vadd (vadd (vadd (vadd (vcross p (vscal m G)) (vcross rc (vscal m A))) (vcross w (mvec (mmul (mmul r (b_I b)) (mtr r)) w)))
      (mvec (mmul (mmul r (b_Id b)) (mtr r)) w)) (mvec (mmul (mmul r (b_I b)) (mtr r)) Al)) (vcross w (mvec r (b_sg b)))) (mvec r (b_sgd b)) =
    vsub T (vcross (vadd p rc) (vscal m gravity)).
Proof.
  intros Hm S W SI m cm P. unfold accel. rewrite W. cbn [obind]. fold cm m.
  set (J := madd (mmul (mmul r (b_I b)) (mtr r)) (mscal m (skew2 (mvec r cm)))).
  assert (SJ : sym J) by (unfold J; rewrite inertia_rot by exact S; apply sym_rot, sym_com, SI).
  assert (PJ : pdef J) by (unfold J; rewrite inertia_rot by exact S; apply pdef_rot; [exact S|exact P]).
  do 2 eexists. split; [reflexivity|].
  match goal with |- context [solve_upper (llt3 J) (solve_lower (llt3 J) ?b)] => pose proof (llt_solve J b SJ PJ) as E; set (Al := solve_upper (llt3 J) (solve_lower (llt3 J) b)) in * end.
  clearbody Al. unfold J in E.
  set (rc := mvec r cm) in *.
  replace (mvec (madd (mmul (mmul r (b_I b)) (mtr r)) (mscal m (skew2 rc))) Al) with (vadd (mvec (mmul (mmul r (b_I b)) (mtr r)) Al) (mvec (mscal m (skew2 rc)) Al)) in E by (generalize (mmul (mmul r (b_I b)) (mtr r)); clear; c3).
  set (Iw := mvec (mmul (mmul r (b_I b)) (mtr r)) w) in *. set (Ia := mvec (mmul (mmul r (b_I b)) (mtr r)) Al) in *.
  rewrite !mvec_mul in *. fold rc in E |- *.
  replace (mvec (skew2 w) rc) with (vcross w (vcross w rc)) in * by (clear; c3).
  assert (Ei : mvec r (vadd (mvec (b_Id b) (mvec (mtr r) w)) (b_sgd b)) = vadd (mvec r (mvec (b_Id b) (mvec (mtr r) w))) (mvec r (b_sgd b))) by apply mvec_add.
  rewrite Ei in E. clear Ei.
  assert (K : mvec (mscal 2 (mmul (skew w) r)) (b_cd b) = vscal 2 (vcross w (mvec r (b_cd b)))) by (generalize (b_cd b); clear; c3).
  rewrite K in *. clear K.
  set (rv := mvec r (b_cd b)) in *. set (ra := mvec r (b_cdd b)) in *. set (rs := mvec r (b_sg b)) in *. set (rsd := mvec r (b_sgd b)) in *. set (rId := mvec r (mvec (b_Id b) (mvec (mtr r) w))) in *.
  change (m <> 0) in Hm. clearbody rc Iw Ia rv ra rs rsd rId m. clear - E Hm. rename F into Fs. rename T into Ts.
  split.
  - clear E. destruct Fs, ra, rv, w, rc, Al; unfold gravity; u3; f_equal; field; exact Hm.
  - assert (Fm : Fs = vscal m (vscal (/ m) Fs)) by (destruct Fs; u3; f_equal; field; exact Hm). set (Fm' := vscal (/ m) Fs) in *. clearbody Fm'. clear Fm Hm Fs.
    assert (Z : Ia = vsub (vadd Ia (mvec (mscal m (skew2 rc)) Al)) (mvec (mscal m (skew2 rc)) Al)) by (clear; c3). rewrite Z, E. clear Z E Ia.
    unfold gravity. c3.
Qed.
Lemma accel_ok md c x u w : f_mass c <> 0 -> (f_model c = CElastic -> (f_nc c <= 2)%nat) ->
  let m := f_mass c in let cm := com_of c x u in let r := rv_mat (seg3 x 3) in let p := seg3 x 0 in
  pdef (madd (tensor u 9) (mscal m (skew2 cm))) ->
  exists A Al, accel md c (body_of c x u) p r w (efforts_f x) (efforts_t x) = Ok (A, Al) /\
    let rc := mvec r cm in
    let G := vadd (vadd (vadd (vadd A (vcross Al rc)) (vcross w (vcross w rc))) (vscal 2 (vcross w (mvec r (seg3 u 3))))) (mvec r (seg3 u 6)) in
    vscal m (vadd G gravity) = sum_force (wrenches c x u) /\
    vadd (vadd (vadd (vadd (vadd (vadd (vcross p (vscal m G)) (vcross rc (vscal m A))) (vcross w (mvec (mmul (mmul r (tensor u 9)) (mtr r)) w)))
      (mvec (mmul (mmul r (tensor u 18)) (mtr r)) w)) (mvec (mmul (mmul r (tensor u 9)) (mtr r)) Al)) (vcross w (mvec r (seg3 u 15)))) (mvec r (seg3 u 24)) =
    vsub (sum_moment (wrenches c x u)) (vcross (vadd p rc) (vscal m gravity)).
Proof.
  intros Hm Hc m cm r p P. apply (accel_gen md c (body_of c x u) p r w (efforts_f x) (efforts_t x)); auto.
  - apply rv_mat_so3.
  - now apply wrench_ok.
  - apply tensor_sym.
Qed.

(** ** Along a motion *)
Lemma vd_cross f g t a b : vderiv f t a -> vderiv g t b -> vderiv (fun s => vcross (f s) (g s)) t (vadd (vcross a (g t)) (vcross (f t) b)).
Proof.
  intros (A1 & A2 & A3) (B1 & B2 & B3). split; [|split]; cbn [vx vy vz vcross vadd];
  (eapply dl_eq; [apply dl_minus; apply dl_mult; eassumption|]); cbv beta; ring.
Qed.
Lemma vd_scalc k f t a : vderiv f t a -> vderiv (fun s => vscal k (f s)) t (vscal k a).
Proof. intros (A1 & A2 & A3). split; [|split]; cbn [vx vy vz vscal]; (eapply dl_eq; [apply dl_mult; [apply (dl_const k)|eassumption]|]); cbv beta; ring. Qed.
Lemma newton_euler mo (cc ccd ccdd : R -> V3) (Ic : R -> M3) (sc V : R -> V3) t Id sgd m : is_motion mo ->
  (forall u, vderiv cc u (ccd u)) -> (forall u, vderiv ccd u (ccdd u)) -> mderiv Ic t Id -> vderiv sc t sgd ->
  (forall u, vderiv (fun u => vadd (mp mo u) (mvec (mr mo u) (cc u))) u (V u)) ->
  let r := mr mo t in let w := mw mo t in let rc := mvec r (cc t) in
  let G := vadd (vadd (vadd (vadd (ma mo t) (vcross (mal mo t) rc)) (vcross w (vcross w rc))) (vscal 2 (vcross w (mvec r (ccd t))))) (mvec r (ccdd t)) in
  vderiv V t G /\
  vderiv (ang_momentum m mo V cc Ic sc) t
    (vadd (vadd (vadd (vadd (vadd (vadd (vcross (mp mo t) (vscal m G)) (vcross rc (vscal m (ma mo t)))) (vcross w (mvec (mmul (mmul r (Ic t)) (mtr r)) w)))
      (mvec (mmul (mmul r Id) (mtr r)) w)) (mvec (mmul (mmul r (Ic t)) (mtr r)) (mal mo t))) (vcross w (mvec r (sc t)))) (mvec r sgd)).
Proof.
  intros Hm D1 D2 DI Ds DV r w rc G.
  set (mc := mkMo cc (fun _ => m1) ccd (fun _ => v0) ccdd (fun _ => v0)).
  assert (Hc : is_motion mc).
  { intros u. cbn. split; [exact so3_1|]. split; [apply D1|]. split; [apply D2|]. split; [eapply md_eq; [apply md_const|c3]|apply vd_const]. }
  pose proof (mo_mul_motion _ _ Hm Hc) as Hg.
  assert (EV : forall u, V u = mv (mo_mul mo mc) u).
  { intros u. destruct (Hg u) as (_ & P & _). eapply vd_unique; [apply DV|]. eapply vd_ext; [exact P|]. intros u'. cbn. generalize (mvec (mr mo u') (cc u')) (mp mo u'). clear. intros; c3. }
  assert (DG : vderiv V t G).
  { destruct (Hg t) as (_ & _ & P & _). eapply vd_eq; [eapply vd_ext; [exact P|intros; symmetry; apply EV]|].
    cbn [ma mo_mul mc mp mv]. unfold G, rc, r, w. generalize (mvec (mr mo t) (cc t)) (mvec (mr mo t) (ccd t)) (mvec (mr mo t) (ccdd t)) (mw mo t) (mal mo t) (ma mo t). clear. intros; c3. }
  split; [exact DG|].
  destruct (Hm t) as (S & Dp & Dv & DR & DW). fold r in S. 
  pose proof (vd_cross _ _ _ _ _ Dp (vd_scalc m _ _ _ DG)) as L1.
  pose proof (vd_cross _ _ _ _ _ (vd_mvec _ _ _ _ _ DR (D1 t)) (vd_scalc m _ _ _ Dv)) as L2.
  pose proof (vd_mvec _ _ _ _ _ (md_tr _ _ _ DR) DW) as K1. pose proof (vd_mvec _ _ _ _ _ DI K1) as K2.
  pose proof (vd_add _ _ _ _ _ K2 Ds) as K3. pose proof (vd_mvec _ _ _ _ _ DR K3) as L3. cbv beta in L1, L2, L3.
  pose proof (vd_add _ _ _ _ _ (vd_add _ _ _ _ _ L1 L2) L3) as L. clear K1 K2 K3 L1 L2 L3. unfold ang_momentum.
  eapply vd_eq; [exact L|]. clear L. cbv beta. fold r w.
  assert (Ev : V t = vadd (mv mo t) (vadd (vcross w rc) (mvec r (ccd t)))).
  { rewrite EV. cbn [mv mo_mul mc mp]. unfold rc, r, w. generalize (mvec (mr mo t) (cc t)) (mvec (mr mo t) (ccd t)) (mw mo t) (mv mo t). clear. intros; c3. }
  rewrite Ev. rewrite !mvec_mul.
  replace (mvec (mtr (mmul (skew w) r)) w) with v0 by (rewrite mtr_mul, mvec_mul; generalize r w; clear; c3).
  rewrite (vadd_0_l (mvec (mtr r) (mal mo t))). fold rc. rewrite !skew_cross.
  rewrite !mvec_add.
  generalize (mvec r (mvec (Ic t) (mvec (mtr r) w))) (mvec r (sc t)) (mvec r (mvec Id (mvec (mtr r) w))) (mvec r (mvec (Ic t) (mvec (mtr r) (mal mo t)))) (mvec r sgd) (mvec r (ccd t)).
  clearbody G rc w. generalize (mp mo t) (mv mo t) (ma mo t). clear. intros; c3.
Qed.
