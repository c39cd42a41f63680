(** Scaling all the standard deviations of the LIPM estimator. *)
From Coq Require Import ZArith List Lia.
From mathcomp Require Import all_ssreflect all_algebra.
From Verif Require Import Base Defs ZDO ZDORel MxLib Cholesky Kalman KFilter KFProofs LKFRel LipmFilter Lipm SpecLipm LipmProofs.
Set Implicit Arguments.
Unset Strict Implicit.
Unset Printing Implicit Defensive.
Import Order.TTheory GRing.Theory Num.Theory.
Open Scope ring_scope.

Section Scale.
Variable R : rcfType.
Variable k : R.
Hypothesis k0 : 0 < k.
Notation c := (k ^+ 2).
Lemma c0 : 0 < c. Proof. exact: exprn_gt0. Qed.

Notation RE' := (RE (@eq3 _) (@eq3 _) (@eq3 _) (@scl_psd R c (2 + 2)) (@scl_psd R c (2 + 2)) (@scl_pd R c 2) (@eq3 _) (@eq3 _) (@eq3 _) (@eq3 _) true).
Notation zr := (zrel3 (@eq3 _) (@eq3 _) (@eq3 _) RE').
Notation opr := (koprel3 (@eq3 _) (@eq3 _) (@eq3 _)
     (RS (@eq3 _) (@scl_psd R c (2 + 2)) (@scl_psd R c (2 + 2)) (@scl_pd R c 2) (@eq3 _) (@eq3 _) (@eq3 _))).

Definition lrel (l1 l2 l3 : lip R) : Prop :=
  l3 = l1 /\ [/\ l_om l2 = l_om l1, l_dt l2 = l_dt l1, l_pz l2 = l_pz l1, l_lim l2 = l_lim l1 & l_po l2 = l_po l1] /\
  [/\ l_A l2 = l_A l1, l_dr l2 = k * l_dr l1, l_zs l2 = k * l_zs l1, l_R l2 = c *: l_R l1 & l_Q l2 = c *: l_Q l1] /\
  psd (l_Q l1) /\ pd (l_R l1) /\ zr (l_f l1) (l_f l2) (l_f l1).

Lemma dblsq_scale d (x : R) : dblsq d (k * x) = c *: dblsq d x.
Proof. by rewrite /dblsq scale_scalar_mx; congr (_%:M); rewrite mulrACA -expr2. Qed.
Lemma sqdiag_scale d (v : 'cV[R]_d) : sqdiag (k *: v) = c *: sqdiag v.
Proof. by rewrite /sqdiag -linearZ /=; congr diag_mx; apply/rowP => i; rewrite !mxE exprMn. Qed.
Lemma lipQ_scale om dt zs dr : lipQ 2 om dt (k * zs) (k * dr) = c *: lipQ 2 om dt zs dr.
Proof.
rewrite /lipQ scale_block_mx !scaler0 -!dblsq_scale; congr block_mx; congr dblsq.
  by rewrite mulrCA.
by rewrite mulrA.
Qed.

Lemma ulZ (P : 'M[R]_(2 + 2)) : ulsubmx (c *: P) = c *: ulsubmx P.
Proof. by apply/matrixP => i j; rewrite !mxE. Qed.
Lemma drZ (P : 'M[R]_(2 + 2)) : drsubmx (c *: P) = c *: drsubmx P.
Proof. by apply/matrixP => i j; rewrite !mxE. Qed.

Lemma onf_rel md ops1 ops2 l1 l2 l3 : lrel l1 l2 l3 -> all3 opr ops1 ops2 ops1 ->
  orel3 lrel (onf md ops1 l1) (onf md ops2 l2) (onf md ops1 l3).
Proof.
move=> [-> [Hf [HA [pQ [pR Hz]]]]] Ho; rewrite /onf.
have H := lkf_run_scale md c0 Ho Hz.
case: (lkf_run md ops1 (l_f l1)) H => [f1| | |]; case: (lkf_run md ops2 (l_f l2)) => [f2| | |] //= H.
Qed.

Lemma scl_dblsq d (x : R) : scl_psd c (dblsq d x) (dblsq d (k * x)) (dblsq d x).
Proof. by split; [split=> //; exact: dblsq_scale|exact: psd_dblsq]. Qed.

Lemma lrel_state md l1 l2 l3 : lrel l1 l2 l3 -> orel3 (@eq3 _) (l_state md l1) (l_state md l2) (l_state md l3).
Proof. by move=> [-> [_ [_ [_ [_ [_ [_ [_ [_ [_ [_ [H _]]]]]]]]]]]]; exact: mrel3_get. Qed.
Lemma lrel_cov md l1 l2 l3 : lrel l1 l2 l3 -> orel3 (@scl_psd R c (2 + 2)) (l_cov md l1) (l_cov md l2) (l_cov md l3).
Proof.
move=> [-> [_ [_ [_ [_ [_ [_ [_ [_ [_ [_ [_ [_ [_ [[_ _ _ _ HP] _]]]]]]]]]]]]]]]; exact: need_rel HP.
Qed.

Lemma updABQ_rel md l1 l2 l3 : l3 = l1 ->
  [/\ l_om l2 = l_om l1, l_dt l2 = l_dt l1, l_pz l2 = l_pz l1, l_lim l2 = l_lim l1 & l_po l2 = l_po l1] ->
  [/\ l_A l2 = l_A l1, l_dr l2 = k * l_dr l1, l_zs l2 = k * l_zs l1 & l_R l2 = c *: l_R l1] ->
  pd (l_R l1) -> zr (l_f l1) (l_f l2) (l_f l1) -> orel3 lrel (l_updABQ md l1) (l_updABQ md l2) (l_updABQ md l3).
Proof.
move=> -> [e1 e2 e3 e4 e5] [f1 f2 f3 f4] pR Hz; rewrite /l_updABQ e1 e2 e3 e4 e5 f1 f2 f3 f4 lipQ_scale.
have pQ : psd (lipQ 2 (l_om l1) (l_dt l1) (l_zs l1) (l_dr l1)) by exact: psd_lipQ.
apply: onf_rel; first by do 4!split=> //.
constructor; first by apply: kr_s; constructor.
constructor; first by apply: kr_s; constructor.
constructor; last by constructor.
by apply: kr_s; constructor; split.
Qed.

Lemma onfP_rel md l1 l2 l3 P1 P2 : lrel l1 l2 l3 -> scl_psd c P1 P2 P1 ->
  orel3 lrel (onf md [:: KSt (SetP _ _ _ _ (Some P1))] l1) (onf md [:: KSt (SetP _ _ _ _ (Some P2))] l2) (onf md [:: KSt (SetP _ _ _ _ (Some P1))] l3).
Proof. by move=> HL HP; apply: onf_rel => //; constructor; last (by constructor); first [apply: kr_s; by constructor|apply: kr_z; by constructor]. Qed.
Lemma onfx_rel md l1 l2 l3 x : lrel l1 l2 l3 ->
  orel3 lrel (onf md [:: KZt (ZSetCurrentState x)] l1) (onf md [:: KZt (ZSetCurrentState x)] l2) (onf md [:: KZt (ZSetCurrentState x)] l3).
Proof. by move=> HL; apply: onf_rel => //; constructor; last (by constructor); first [apply: kr_s; by constructor|apply: kr_z; by constructor]. Qed.

Lemma setBias_rel md b l1 l2 l3 : lrel l1 l2 l3 -> orel3 lrel (l_setBias md b l1) (l_setBias md b l2) (l_setBias md b l3).
Proof. by move=> HL; apply: orel3_bind (lrel_state md HL) _ => x y z [-> ->]; exact: onfx_rel. Qed.
Lemma setDcm_rel md b l1 l2 l3 : lrel l1 l2 l3 -> orel3 lrel (l_setDcm md b l1) (l_setDcm md b l2) (l_setDcm md b l3).
Proof. by move=> HL; apply: orel3_bind (lrel_state md HL) _ => x y z [-> ->]; exact: onfx_rel. Qed.

Lemma update_rel md l1 l2 l3 : lrel l1 l2 l3 -> orel3 lrel (l_update md l1) (l_update md l2) (l_update md l3).
Proof.
move=> HL; have : orel3 lrel (onf md [:: KZt (@ZEstimate _ _ _)] l1) (onf md [:: KZt (@ZEstimate _ _ _)] l2) (onf md [:: KZt (@ZEstimate _ _ _)] l3).
  by apply: onf_rel => //; constructor; last (by constructor); first [apply: kr_s; by constructor|apply: kr_z; by constructor].
move/orel3_bind; apply=> {HL} {}l1 {}l2 {}l3 HL.
have [E3 [[_ _ _ El Ep] _]] := HL; subst l3; rewrite El Ep; cbv zeta.
case: ((0 < l_lim l1 0 0) || (0 < l_lim l1 1 0)) => //; case: ((0 < l_lim l1 0 0) && (0 < l_lim l1 1 0)) => //.
rewrite /l_getLocalBias /l_getBias Ep.
have HS : orel3 (@eq3 _) (obind (obind (l_state md l1) (fun x => Ok (dsubmx x))) (fun b => Ok ((l_po l1)^T *m b)))
   (obind (obind (l_state md l2) (fun x => Ok (dsubmx x))) (fun b => Ok ((l_po l1)^T *m b)))
   (obind (obind (l_state md l1) (fun x => Ok (dsubmx x))) (fun b => Ok ((l_po l1)^T *m b))).
  apply: (@orel3_bind _ _ _ _ _ _ (@eq3 _)); first by apply: orel3_bind (lrel_state md HL) _ => x y z [-> ->].
  by move=> x y z [-> ->].
apply: orel3_bind HS _ => lb y z [-> ->].
apply: orel3_bind (setBias_rel _ _ HL) _ => m1 m2 m3 HM.
rewrite /l_getDcm; apply: (@orel3_bind _ _ _ _ _ _ (@eq3 _)); first by apply: orel3_bind (lrel_state md HM) _ => a b d [-> ->].
move=> a b d [-> ->]; exact: setDcm_rel.
Qed.

Lemma step_rel md o l1 l2 l3 : im_set (z_x (l_f l1)) -> wfl l1 -> lrel l1 l2 l3 ->
  orel3 lrel (l_step md o l1) (l_step md (scale_op k o) l2) (l_step md o l3).
Proof.
move=> Hset Hw HL; have HL' := HL; case: HL' => [E3 [[e1 e2 e3 e4 e5] [[f1 f2 f3 f4 f5] [pQ [pR Hz]]]]].
subst l3; have E3 : l1 = l1 by [].
case: o => [dcm zmp yaw wb b0 ub|om|dt|dr|zs|ds|lim|b|b u|x1|x1 u||dcm zmp o]; cbn [l_step scale_op].
- rewrite /l_reset; apply: onf_rel; first by rewrite e1 e2 e4 f1 f2 f3 f4 f5; do 5!split=> //.
  constructor; first by apply: kr_z; constructor.
  constructor; first by apply: kr_z; constructor; case: wb.
  constructor; last by constructor.
  apply: kr_s; constructor; split; last first.
    by case: wb; [apply: psd_lipPbias|apply: psd_block]; try exact: psd_sqdiag; exact: pd_psd.
  split=> //; rewrite f4 sqdiag_scale; case: wb.
  - by rewrite /lipPbias scale_block_mx scalerDr !scalerN.
  - by rewrite scale_block_mx !scaler0.
- by apply: updABQ_rel => //=; rewrite ?f4; split.
- by apply: updABQ_rel => //=; rewrite ?f4; split.
- have [_ [v EQ]] := Hw; rewrite /l_setDrift f5 EQ scale_block_mx !block_mxKul !block_mxKur !block_mxKdl !scaler0.
  rewrite dblsq_scale; set Q1 := block_mx _ 0 0 (dblsq 2 dr).
  have -> : block_mx (c *: dblsq 2 (l_om l1 * l_dt l1 * l_zs l1)) 0 0 (c *: dblsq 2 dr) = c *: Q1.
    by rewrite /Q1 scale_block_mx !scaler0.
  have pQ1 : psd Q1 by exact: psd_lipQ.
  apply: onf_rel; first by do 5!split=> //=; rewrite ?f4.
  constructor; last by constructor.
  by apply: kr_s; constructor; split.
- by apply: updABQ_rel => //=; rewrite ?f4 ?f3; split.
- by [].
- by rewrite /= /l_setLim; do 5!split=> //=.
- exact: setBias_rel.
- rewrite /l_setBiasU; apply: orel3_bind (setBias_rel md b HL) _ => m1 m2 m3 H1.
  apply: orel3_bind (lrel_cov md H1) _ => P1 P2 P3 [[-> ->] pP]; apply: onfP_rel => //.
  split; last by apply: psd_setPbias => //; exact: psd_sqdiag.
  by split=> //; rewrite /setPbias scale_block_mx !scaler0 sqdiag_scale ulZ.
- exact: setDcm_rel.
- rewrite /l_setDcmU; apply: orel3_bind (setDcm_rel md x1 HL) _ => m1 m2 m3 H1.
  apply: orel3_bind (lrel_cov md H1) _ => P1 P2 P3 [[-> ->] pP]; apply: onfP_rel => //.
  split; last by apply: psd_setPdcm => //; exact: psd_sqdiag.
  by split=> //; rewrite /setPdcm scale_block_mx !scaler0 sqdiag_scale drZ.
- exact: update_rel.
- rewrite /l_setInputs; have [_ [_ [_ [_ [_ [_ [[Es _] [[Ey1 [_ Ey]] _]]]]]]]] := Hz.
  rewrite Es Hset.
  have Esz : ia_size (z_y (l_f l2)) = ia_size (z_y (l_f l1)).
    rewrite /ia_size; congr (Z.of_nat _); by elim: Ey => //= a b d la lb lc _ _ ->.
  rewrite Esz.
  have HU : orel3 lrel (if Z.ltb (Zpos xH) (ia_size (z_y (l_f l1))) then l_update md l1 else Ok l1)
      (if Z.ltb (Zpos xH) (ia_size (z_y (l_f l1))) then l_update md l2 else Ok l2)
      (if Z.ltb (Zpos xH) (ia_size (z_y (l_f l1))) then l_update md l1 else Ok l1).
    by case: ifP => _ //; exact: update_rel.
  apply: orel3_bind HU _ => {Hset Hw HL E3 e1 e2 e3 e4 e5 f1 f2 f3 f4 f5 pQ pR Hz Es Ey1 Ey Esz} {}l1 {}l2 l3 HL.
  have HL' := HL; case: HL' => [E3 [[e1 e2 e3 e4 e5] [[f1 f2 f3 f4 f5] [pQ [pR Hz]]]]]; subst l3.
  rewrite e3 e5 f1; apply: onf_rel; first by do 5!split=> //=; rewrite ?e1 ?e2 ?e4.
  constructor; first by apply: kr_z; constructor.
  constructor; first by apply: kr_z; constructor.
  constructor; last by constructor.
  by apply: kr_s; constructor.
Qed.

Lemma new_rel dt om dr ds zs lim z0 x0 b0 ux ub : ds != 0 ->
  lrel (newl dt om dr ds zs lim z0 x0 b0 ux ub)
       (newl dt om (k * dr) (k * ds) (k * zs) lim z0 x0 b0 (k *: ux) (k *: ub))
       (newl dt om dr ds zs lim z0 x0 b0 ux ub).
Proof.
move=> ds0; split=> //; split=> //; split.
  by split=> //=; [exact: dblsq_scale|exact: lipQ_scale].
have pQ : psd (lipQ 2 om dt zs dr) by exact: psd_lipQ.
have pR : pd (dblsq 2 ds : 'M[R]_2) by exact: pd_dblsq.
split=> //; split=> //.
do 6!split=> //.
split; first by do 4!split=> //.
split; first by do 2!split=> //; constructor.
split; first by do 2!split=> //; constructor.
split; last first.
  split=> //; split=> //; split; by [do 4!split=> //|].
split=> //=.
- by split=> //; split=> //; exact: lipQ_scale.
- by split=> //; split=> //; exact: dblsq_scale.
- split; last by apply: psd_block; exact: psd_sqdiag.
  by split=> //; rewrite scale_block_mx !scaler0 !sqdiag_scale.
Qed.

Lemma run_rel md ops c1 l1 l2 l3 : LIx l1 -> cfgrel c1 l1 -> lim_ok (c_lim c1) -> all (@op_lim_ok R) ops -> lrel l1 l2 l3 ->
  orel3 lrel (l_run md ops l1) (l_run md [seq scale_op k o | o <- ops] l2) (l_run md ops l3).
Proof.
elim: ops c1 l1 l2 l3 => [//|o ops IH] c1 l1 l2 l3 HL Hc Hl; case/andP=> Ho Hos HR.
have Hl' : lim_ok (l_lim l1) by case: Hc => _ [->].
have [l1' [E [HL1 Hc1]]] := step_ok md HL Hc Ho Hl'.
have Hl1 : lim_ok (c_lim (c_step o c1)) by case: o Ho {E Hc1 Hos} => //=.
have [Hset Hw] : im_set (z_x (l_f l1)) /\ wfl l1.
  case: HL => sh [x [t [ys [us [P HLI]]]]]; have [_ [_ [Hs _]]] := LI_state md HLI; split=> //.
  by case: HLI => e [].
have H := step_rel md o Hset Hw HR.
rewrite /l_run /=; move: H; rewrite E.
case: (l_step md (scale_op k o) l2) => [l2'| | |] //=; case: (l_step md o l3) => [l3'| | |] //= HR'.
exact: (IH _ _ _ _ HL1 Hc1 Hl1 Hos HR').
Qed.
End Scale.
