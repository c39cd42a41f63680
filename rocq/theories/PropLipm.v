(** Properties C42-C44 and C74-C76: the LIPM estimators of the divergent component of motion. *)
From Coq Require Import ZArith List.
From mathcomp Require Import all_ssreflect all_algebra.
From Verif Require Import Base Defs ZDO MxLib Kalman KFilter Lipm LipmFilter SpecLipm LipmProofs LipmScale LipmUnidim.
Set Implicit Arguments.
Unset Strict Implicit.
Unset Printing Implicit Defensive.
Import Order.TTheory GRing.Theory Num.Theory.
Open Scope ring_scope.
#[local] Opaque l_new l_run l_reset l_setInputs LI.

(** C75. Whatever the history of public calls after the construction, no call fails, in both
    build modes: the only conditions are a non-zero DCM error and two bias limits that are
    both active or both off. *)
Theorem C75_lipm_never_fails : forall (R : rcfType) md (dt om dr ds zs : R) (lim z0 x0 b0 ux ub : 'cV[R]_2) ops,
  ds != 0 -> lim_ok lim -> all (@op_lim_ok R) ops ->
  exists l l' x b lb, l_new md dt om dr ds zs lim z0 x0 b0 ux ub = Ok l /\ l_run md ops l = Ok l' /\
    l_getDcm md l' = Ok x /\ l_getBias md l' = Ok b /\ l_getLocalBias md l' = Ok lb.
Proof.
move=> R md dt om dr ds zs lim z0 x0 b0 ux ub ops d0 Hl Ho.
have [l [l' [[E E' [sh [x [t [ys [us [P HL]]]]]] _] _]]] := new_run_ok md dt om dr zs z0 x0 b0 ux ub d0 Hl Ho.
have [Ex _] := LI_state md HL.
exists l, l', (usubmx x), (dsubmx x), ((l_po l')^T *m dsubmx x).
by refine (conj E (conj E' _)); clear E E'; rewrite /l_getDcm /l_getLocalBias /l_getBias Ex.
Qed.
Print Assumptions C75_lipm_never_fails.

(** C42, what holds: at every moment the filter uses the natural frequency, the sampling time
    and the ZMP error that were set last. The covariance of the measurement stays that of the
    constructor and the drift is the one described by [c_bias]. Missing from the full claim: the
    setter of the DCM error has no effect and the drift is not kept (the refutations below). *)
Theorem C42_lipm_settings_in_filter_partial :
  forall (R : rcfType) md (dt om dr ds zs : R) (lim z0 x0 b0 ux ub : 'cV[R]_2) ops,
  ds != 0 -> lim_ok lim -> all (@op_lim_ok R) ops ->
  let c := c_run ops (c_new dt om dr ds zs lim) in
  exists l l' o, l_new md dt om dr ds zs lim z0 x0 b0 ux ub = Ok l /\ l_run md ops l = Ok l' /\
    [/\ kA (z_e (l_f l')) = Some (block_mx (1 + c_om c * c_dt c)%:M 0 0 o),
        kB (z_e (l_f l')) = Some (col_mx (- c_om c * c_dt c)%:M 0),
        kQ (z_e (l_f l')) = Some (block_mx ((c_om c * c_dt c * c_zs c) ^+ 2)%:M 0 0 (c_bias c ^+ 2)%:M) &
        kR (z_e (l_f l')) = Some (ds ^+ 2)%:M] /\
    ((forall v, ~ List.In (LDrift v) ops) -> c_bias c = dr * c_dt c).
Proof.
move=> R md dt om dr ds zs lim z0 x0 b0 ux ub ops d0 Hl Ho c.
have [l [l' [[E E' HL Hc] _]]] := new_run_ok md dt om dr zs z0 x0 b0 ux ub d0 Hl Ho.
have [o [EA EB EC EQ ER]] := LIx_filter HL.
have [[h1 h2 h3 h4 h5] [h6 h7 h8]] := Hc; rewrite -/c in h1, h2, h3, h4, h5, h8.
have eds : c_ds c = ds by rewrite /c; elim: (ops) (c_new _ _ _ _ _ _) (erefl : c_ds (c_new dt om dr ds zs lim) = ds) => [//|o' os IH] c' Hc'; apply: IH; case: o'.
exists l, l', o; refine (conj E (conj E' _)); clear E E' HL; split.
  by rewrite EA EB EQ ER h8 h5 h1 h2 eds /dblsq !expr2.
have : c_bias (c_new dt om dr ds zs lim) = dr * c_dt (c_new dt om dr ds zs lim) by [].
have : c_dr (c_new dt om dr ds zs lim) = dr by [].
rewrite /c; elim: (ops) (c_new _ _ _ _ _ _) => [//|o' os IH] c' Hd Hb Hn; apply: IH.
- by case: o' {Hn}.
- case: o' Hn => [? ? ? ? ? ?|?|?|v|?|?|?|?|? ?|?|? ?||? ? ?] //= Hn; rewrite ?Hd //; by case: (Hn v (or_introl erefl)).
- by move=> v Hv; apply: (Hn v); right.
Qed.
Print Assumptions C42_lipm_settings_in_filter_partial.

(** C42 refuted: setting the DCM error to 2 leaves the covariance of the measurement at 1. *)
Theorem C42_dcm_error_setter_refuted : forall (R : rcfType) md, exists l l' : lip R,
  l_new md 1 1 1 1 1 0 0 0 0 0 0 = Ok l /\ l_run md [:: LDs 2%:R] l = Ok l' /\
  kR (z_e (l_f l')) = Some 1%:M /\ kR (z_e (l_f l')) <> Some (2%:R ^+ 2)%:M.
Proof.
move=> R md; have [||l [l' [o [E [E' [[_ _ _ ER] _]]]]]] := @C42_lipm_settings_in_filter_partial R md 1 1 1 1 1 0 0 0 0 0 0 [:: LDs 2%:R] (oner_neq0 _).
- by rewrite /lim_ok !mxE eqxx.
- by [].
exists l, l'; refine (conj E (conj E' _)); clear E E'; rewrite ER expr1n; split=> // -[] /matrixP /(_ 0 0).
by rewrite !mxE !eqxx /= !mulr1n -natrX => /eqP; rewrite eq_sym -subr_eq0 -(natrB _ (isT : (1 <= 2 ^ 2)%N)) pnatr_eq0.
Qed.
Print Assumptions C42_dcm_error_setter_refuted.

(** C42 refuted: with a sampling time of 1/2, setting the drift per second to 3 gives a bias
    noise of 3 (not 3/2), and a later call setting the ZMP error brings back the drift of the
    constructor. *)
Theorem C42_drift_setter_refuted : forall (R : rcfType) md, exists l l1 l2 : lip R,
  l_new md 2%:R^-1 1 1 1 1 0 0 0 0 0 0 = Ok l /\ l_run md [:: LDrift 3%:R] l = Ok l1 /\ l_run md [:: LZs 1] l1 = Ok l2 /\
  (exists Q1 Q2, kQ (z_e (l_f l1)) = Some Q1 /\ kQ (z_e (l_f l2)) = Some Q2 /\
     drsubmx (m1 := 2) (n1 := 2) (m2 := 2) (n2 := 2) Q1 = (3%:R ^+ 2)%:M /\
     drsubmx (m1 := 2) (n1 := 2) (m2 := 2) (n2 := 2) Q1 <> ((3%:R * 2%:R^-1) ^+ 2)%:M /\
     drsubmx (m1 := 2) (n1 := 2) (m2 := 2) (n2 := 2) Q2 = (2%:R^-1 ^+ 2)%:M).
Proof.
move=> R md; have Hl : lim_ok (0 : 'cV[R]_2) by rewrite /lim_ok !mxE eqxx.
have [//|l [l1 [o [E [E1 [[_ _ EQ1 _] _]]]]]] := @C42_lipm_settings_in_filter_partial R md 2%:R^-1 1 1 1 1 0 0 0 0 0 0 [:: LDrift 3%:R] (oner_neq0 _) Hl.
have [//|l' [l2 [o2 [E' [E2 [[_ _ EQ2 _] _]]]]]] := @C42_lipm_settings_in_filter_partial R md 2%:R^-1 1 1 1 1 0 0 0 0 0 0 [:: LDrift 3%:R; LZs 1] (oner_neq0 _) Hl.
have [El] : Ok l = Ok l' by rewrite -E -E'.
subst l'.
have E12 : l_run md [:: LDrift 3%:R; LZs 1] l = obind (l_run md [:: LDrift 3%:R] l) (l_run md [:: LZs 1]).
  by rewrite !l_run_cons; case: l_step => //= ?; rewrite l_run_nil.
rewrite E12 E1 in E2; cbn [obind] in E2.
exists l, l1, l2; refine (conj E (conj E1 (conj E2 _))); clear E E' E1 E2 E12.
eexists; eexists; split; first exact: EQ1; split; first exact: EQ2.
rewrite !block_mxKdr /= mul1r; split=> //; split=> // /matrixP /(_ 0 0).
rewrite !mxE !eqxx /= !mulr1n exprMn => /eqP.
rewrite -[X in X == _]mulr1 eq_sym (inj_eq (mulfI _)) ?expf_neq0 ?pnatr_eq0 //.
by rewrite exprVn invr_eq1 -natrX -[1]/(1%:R) eqr_nat.
Qed.
Print Assumptions C42_drift_setter_refuted.

(** C43, first part: after any history with orthogonal orientations, an update leaves the local
    bias within the limits in force when both are active. *)
Theorem C43_local_bias_within_limits :
  forall (R : rcfType) md (dt om dr ds zs : R) (lim z0 x0 b0 ux ub : 'cV[R]_2) ops,
  ds != 0 -> lim_ok lim -> all (@op_lim_ok R) ops -> (forall o, List.In o ops -> op_orth o) ->
  let lim' := c_lim (c_run ops (c_new dt om dr ds zs lim)) in
  (forall i, 0 < lim' i 0) ->
  exists l l' lb, l_new md dt om dr ds zs lim z0 x0 b0 ux ub = Ok l /\ l_run md (ops ++ [:: LUpdate R]) l = Ok l' /\
    l_getLocalBias md l' = Ok lb /\ forall i, - lim' i 0 <= lb i 0 <= lim' i 0.
Proof.
move=> R md dt om dr ds zs lim z0 x0 b0 ux ub ops d0 Hl Ho Hor lim' Hpos.
have [l [l1 [[E E1 [sh [x [t [ys [us [P HL]]]]]] Hc] Hl']]] := new_run_ok md dt om dr zs z0 x0 b0 ux ub d0 Hl Ho.
have [_ [h6 h7 _]] := Hc.
have Hl1 : lim_ok (l_lim l1) by rewrite h6.
have Hoff : ~~ (0 < (0 : 'cV[R]_2) 0 0) && ~~ (0 < (0 : 'cV[R]_2) 1 0) by rewrite !mxE ltxx.
have [l' [l2 [x1 [E2 _ _ Ex Epo]]]] := update_both md HL Hl1 Hoff.
have [oo _] : orth (l_po l1).
  rewrite h7; apply: (c_run_orth _ Hor); clear; by split; rewrite trmx1 mulmx1.
have Hb : (0 < l_lim l1 0 0) && (0 < l_lim l1 1 0) by rewrite h6 !Hpos.
exists l, l'; eexists; split; first exact: E; split.
  by rewrite l_run_app E1; cbn [obind]; rewrite l_run_cons; cbn [l_step]; rewrite E2; exact: l_run_nil.
split; first by rewrite /l_getLocalBias /l_getBias Ex; cbn [obind]; rewrite Epo.
move=> i; rewrite /clampx Hb /= col_mxKd mulmxA oo mul1mx mxE h6; exact: clampS_bounds.
Qed.
Print Assumptions C43_local_bias_within_limits.

(** C43, second part, what holds: the clamp moves the sum of the estimates by (1 - Ro) times what
    it takes away from the local bias, with Ro the orientation in force; so the sum is that of
    the same update with the limits off when the orientation is the identity or the local bias
    is already inside; and the local bias becomes the nearest one inside. Missing: the sum is not preserved for other orientations (refuted below). *)
Theorem C43_clamp_preserves_sum_partial :
  forall (R : rcfType) md (dt om dr ds zs : R) (lim z0 x0 b0 ux ub : 'cV[R]_2) ops,
  ds != 0 -> lim_ok lim -> all (@op_lim_ok R) ops ->
  let c := c_run ops (c_new dt om dr ds zs lim) in
  (forall i, 0 < c_lim c i 0) -> orth (c_po c) ->
  exists l l1 l2 x1 d1 lb1 x2 d2 lb2, l_new md dt om dr ds zs lim z0 x0 b0 ux ub = Ok l /\
    l_run md (ops ++ [:: LLim 0; LUpdate R]) l = Ok l1 /\ l_run md (ops ++ [:: LUpdate R]) l = Ok l2 /\
    (l_getDcm md l1 = Ok x1 /\ l_getBias md l1 = Ok d1 /\ l_getLocalBias md l1 = Ok lb1) /\
    (l_getDcm md l2 = Ok x2 /\ l_getBias md l2 = Ok d2 /\ l_getLocalBias md l2 = Ok lb2) /\
    x2 + d2 = x1 + d1 + (1%:M - c_po c) *m (lb1 - lb2) /\
    (c_po c = 1%:M -> x2 + d2 = x1 + d1) /\
    ((forall i, - c_lim c i 0 <= lb1 i 0 <= c_lim c i 0) -> x2 = x1 /\ d2 = d1) /\
    forall i v, - c_lim c i 0 <= v <= c_lim c i 0 -> `|lb2 i 0 - lb1 i 0| <= `|v - lb1 i 0|.
Proof.
move=> R md dt om dr ds zs lim z0 x0 b0 ux ub ops d0 Hl Ho c Hpos [oo oo'].
have [l [l0 [[E E1 [sh [x [t [ys [us [P HL]]]]]] Hc] Hl']]] := new_run_ok md dt om dr zs z0 x0 b0 ux ub d0 Hl Ho.
have [_ [h6 h7 _]] := Hc; rewrite -/c in h6, h7.
have Hl1 : lim_ok (l_lim l0) by rewrite h6.
have Hoff : ~~ (0 < (0 : 'cV[R]_2) 0 0) && ~~ (0 < (0 : 'cV[R]_2) 1 0) by rewrite !mxE ltxx.
have [l2 [l1 [y [E2 E3 Ey1 Ey2 Epo]]]] := update_both md HL Hl1 Hoff.
have Hb : (0 < l_lim l0 0 0) && (0 < l_lim l0 1 0) by rewrite h6 !Hpos.
have Epo1 : l_po l1 = c_po c.
  have [l3 [? [? [? [? [? [E4 [_ [_ [[_ [_ _ Hp _ _]] [E5 _]]]]]]]]]]] := update_off md HL Hoff.
  by move: E5; rewrite E3 => -[_ _ _ _ _ _ _ _ _ ->]; rewrite Hp h7.
rewrite h6 h7 in Ey2 Epo.
pose lb := (c_po c)^T *m dsubmx y; pose cl := \col_i clampS (lb i 0) (c_lim c i 0).
have Eclamp : clampx (c_lim c) (c_po c) y = col_mx (usubmx y + lb - cl) (c_po c *m cl).
  by rewrite /clampx -h6 Hb h6.
exists l, (l_setLim 0 l1), l2, (usubmx y), (dsubmx y), lb, (usubmx y + lb - cl), (c_po c *m cl), cl.
have Hsum : usubmx y + lb - cl + c_po c *m cl = usubmx y + dsubmx y + (1%:M - c_po c) *m (lb - cl).
  rewrite mulmxBl mul1mx mulmxBr {3}/lb mulmxA oo' mul1mx.
  rewrite -!addrA; congr (_ + _); rewrite opprB [RHS]addrCA; congr (_ + _).
  by rewrite [RHS]addrCA; congr (_ + _); rewrite addrCA subrr addr0.
split; first exact: E; split.
  by rewrite l_run_app E1; cbn [obind]; rewrite !l_run_cons; cbn [obind l_step]; rewrite l_run_cons; cbn [l_step]; rewrite E3; exact: l_run_nil.
split.
  by rewrite l_run_app E1; cbn [obind]; rewrite l_run_cons; cbn [l_step]; rewrite E2; exact: l_run_nil.
clear HL E E1 E2 E3 Hc Hl' Ho; split; first by rewrite /l_getDcm /l_getLocalBias /l_getBias Ey1 /= Epo1.
split; first by rewrite /l_getDcm /l_getLocalBias /l_getBias Ey2 Eclamp; cbn [obind]; rewrite Epo col_mxKu col_mxKd mulmxA oo mul1mx.
split; first exact: Hsum.
clear Ey1 Ey2; split; first by rewrite Hsum => ->; rewrite subrr mul0mx addr0.
split; last by move=> i v Hv; rewrite [cl i 0]mxE; apply: clampS_near.
move=> Hin; have -> : cl = lb.
  apply/colP => i; rewrite mxE /clampS; have /andP[H1 H2] := Hin i.
  by rewrite !ltNge H1 H2.
by rewrite addrK /lb mulmxA oo' mul1mx.
Qed.
Print Assumptions C43_clamp_preserves_sum_partial.

(** The quarter turn. *)
Definition quarter (R : rcfType) : 'M[R]_2 := \matrix_(i, j) (if i == 0 then (if j == 0 then 0 else -1) else (if j == 0 then 1 else 0)).
Definition v2 (R : rcfType) (a b : R) : 'cV[R]_2 := \col_i (if i == 0 then a else b).
Lemma quarter_orth (R : rcfType) : orth (quarter R).
Proof.
split; apply/matrixP => i j; rewrite !mxE !big_ord_recl big_ord0 !mxE;
  case: i => [[|[|?]]] //= ?; case: j => [[|[|?]]] //= ?;
  by rewrite ?mulr0 ?mul0r ?mulr1 ?mul1r ?mulrN1 ?opprK ?addr0 ?add0r ?mulN1r ?subrr.
Qed.

Lemma quarter_local (R : rcfType) : (quarter R)^T *m v2 0 2%:R = v2 2%:R 0.
Proof.
apply/colP => i; rewrite !mxE !big_ord_recl big_ord0 !mxE; case: i => [[|[|?]]] //= ?;
by rewrite ?mulr0 ?mul0r ?mulr1 ?mul1r ?addr0 ?add0r.
Qed.
Lemma clamp_case (R : rcfType) : (\col_i clampS (v2 (2%:R : R) 0 i 0) (v2 1 1 i 0)) = v2 1 0.
Proof.
apply/colP => i; rewrite !mxE /clampS; case: i => [[|[|?]]] //= ?.
  by rewrite -[1]/(1%:R) ltr_nat.
by rewrite ltr10 ltNge oppr_le0 ler01.
Qed.
Lemma sum_case (R : rcfType) : 0 + v2 2%:R 0 - v2 1 0 + quarter R *m v2 1 0 = v2 1 1.
Proof.
apply/colP => i; rewrite !mxE !big_ord_recl big_ord0 !mxE; case: i => [[|[|?]]] //= ?.
  by rewrite mul0r mulr0 !addr0 add0r (natrD _ 1 1) addrK.
by rewrite mul1r mulr0 !addr0 subrr add0r.
Qed.

(** C43 refuted: with a yaw of 90 degrees, a bias of (0, 2) in the world and limits of 1, the
    update moves the sum of the estimates from (0, 2) to (1, 1). *)
Theorem C43_clamp_preserves_sum_refuted : forall (R : rcfType) md, exists (l l' : lip R) x d,
  l_new md 1 1 1 1 1 (v2 (1 : R) 1) 0 0 0 0 0 = Ok l /\
  l_run md [:: LReset 0 0 (quarter R) false (v2 0 2%:R) 0; LUpdate R] l = Ok l' /\
  l_getDcm md l' = Ok x /\ l_getBias md l' = Ok d /\ x + d = v2 1 1 /\ x + d <> v2 0 2%:R.
Proof.
move=> R md; have [l [E [HL [_ [elim _ _ _ _]]]]] := @new_ok R md 1 1 1 1 1 (v2 1 1) 0 0 0 0 0 (oner_neq0 _).
have [l1 [E1 [HL1 [_ [elim1 _ epo1 _ _]]]]] := reset_ok md 0 0 (quarter R) false (v2 0 2%:R) 0 HL.
have Hl1 : lim_ok (l_lim l1) by rewrite elim1 elim /lim_ok !mxE eqxx.
have [l2 [sh' [x' [t' [ys' [P' [E2 [HL2 [Es _]]]]]]]]] := update_ok md HL1 Hl1.
have Ex' : x' = col_mx 0 (v2 0 2%:R) by inversion Es.
have [Ex _] := LI_state md HL2.
have Hb : (0 < l_lim l1 0 0) && (0 < l_lim l1 1 0) by rewrite elim1 elim !mxE /= ltr01.
rewrite /clampx Hb Ex' col_mxKu col_mxKd epo1 elim1 elim /= in Ex.
rewrite quarter_local clamp_case in Ex.
exists l, l2, (0 + v2 2%:R 0 - v2 1 0), (quarter R *m v2 1 0).
split; first exact: E; split.
  by rewrite l_run_cons; cbn [l_step]; rewrite E1; cbn [obind]; rewrite l_run_cons; cbn [l_step]; rewrite E2; exact: l_run_nil.
rewrite /l_getDcm /l_getBias Ex; cbn [obind]; rewrite col_mxKu col_mxKd; clear; split; first by []; split; first by []; rewrite sum_case.
split=> // /colP /(_ 0); rewrite !mxE /= => /eqP; by rewrite oner_eq0.
Qed.
Print Assumptions C43_clamp_preserves_sum_refuted.

(** C43 refuted: with only one active limit the update reads a value that was never written. *)
Theorem C43_single_limit_refuted : forall (R : rcfType) md, exists l : lip R,
  l_new md 1 1 1 1 1 (v2 1 0) 0 0 0 0 0 = Ok l /\ l_run md [:: LUpdate R] l = UB.
Proof.
move=> R md; have [l [E [HL [_ [elim _ _ _ _]]]]] := @new_ok R md 1 1 1 1 1 (v2 1 0) 0 0 0 0 0 (oner_neq0 _).
have [l1 [sh' [x' [t' [ys' [P' [E1 [_ [_ [_ [elim1 _ _ _ _]]]]]]]]]]] := estimate_ok md HL.
exists l; split; first exact: E; rewrite l_run_cons; cbn [l_step]; rewrite /l_update E1; cbn [obind].
by rewrite elim1 elim !mxE /= ltr01 ltxx.
Qed.
Print Assumptions C43_single_limit_refuted.

(** C44. Multiplying all the standard deviations by the same positive factor does not change
    any estimate, whatever the history, also with active limits. *)
Theorem C44_lipm_noise_scale : forall (R : rcfType) md (k dt om dr ds zs : R) (lim z0 x0 b0 ux ub : 'cV[R]_2) ops,
  0 < k -> ds != 0 -> lim_ok lim -> all (@op_lim_ok R) ops ->
  exists l1 l2 l1' l2' x b lb,
    l_new md dt om dr ds zs lim z0 x0 b0 ux ub = Ok l1 /\ l_run md ops l1 = Ok l1' /\
    l_new md dt om (k * dr) (k * ds) (k * zs) lim z0 x0 b0 (k *: ux) (k *: ub) = Ok l2 /\
    l_run md [seq scale_op k o | o <- ops] l2 = Ok l2' /\
    (l_getDcm md l1' = Ok x /\ l_getDcm md l2' = Ok x) /\ (l_getBias md l1' = Ok b /\ l_getBias md l2' = Ok b) /\
    (l_getLocalBias md l1' = Ok lb /\ l_getLocalBias md l2' = Ok lb).
Proof.
move=> R md k dt om dr ds zs lim z0 x0 b0 ux ub ops k0 d0 Hl Ho.
have Hrel := new_rel k dt om dr zs lim z0 x0 b0 ux ub d0.
have [l [E [HL [[e1 e2 e3 e4 e5] [e6 e7 e8 e9 e10]]]]] := new_ok md dt om dr zs lim z0 x0 b0 ux ub d0.
have El : l = newl dt om dr ds zs lim z0 x0 b0 ux ub by move: E; rewrite new_eq => -[].
have HLx : LIx l by exists ShNone, (col_mx x0 b0), Z0, [::], [::], (block_mx (sqdiag ux) 0 0 (sqdiag ub)).
have Hc : cfgrel (c_new dt om dr ds zs lim) l by rewrite /cfgrel e1 e2 e3 e4 e6 e7 e8 e9; clear.
have [l1 [E1 [[sh [x [t [ys [us [P HL1]]]]]] _]]] := run_ok md HLx Hc Hl Ho.
rewrite -El in Hrel.
have Hr := run_rel k0 md HLx Hc Hl Ho Hrel.
rewrite E1 in Hr; case E2 : (l_run md [seq scale_op k o | o <- ops] _) Hr => [l2||| ] Hr; try (by clear -Hr; case: Hr).
have Hs := lrel_state md Hr; have [Ex _] := LI_state md HL1; rewrite Ex in Hs.
case Ex2 : (l_state md l2) Hs => [y||| ] Hs; try (by clear -Hs; case: Hs).
case: Hs => Ey _; rewrite Ey in Ex2.
have [_ [[_ _ _ _ Epo] _]] := Hr.
exists l, (newl dt om (k * dr) (k * ds) (k * zs) lim z0 x0 b0 (k *: ux) (k *: ub)), l1, l2, (usubmx x), (dsubmx x), ((l_po l1)^T *m dsubmx x).
refine (conj E (conj E1 (conj (new_eq _ _ _ _ _ _ _ _ _ _ _ _) (conj E2 _)))); clear E E1 E2 Hrel Hr HL HL1 HLx Hc; by rewrite /l_getDcm /l_getLocalBias /l_getBias Ex Ex2; cbn [obind]; rewrite Epo.
Qed.
Print Assumptions C44_lipm_noise_scale.

(** C74. The true DCM xi follows the pendulum with the true ZMP z, the bias is constant in the
    local frame, the orientation changes. After any history, a reset on the true DCM and bias
    followed by any number of samples, each with its update, estimates exactly the DCM and the
    bias, whatever the noise settings. *)
Theorem C74_lipm_exact_tracking :
  forall (R : rcfType) md (dt om dr ds zs : R) (lim z0 x0 b0 ux ub : 'cV[R]_2) ops
    (xi z : nat -> 'cV[R]_2) (o : nat -> 'M[R]_2) (bl u : 'cV[R]_2) n,
  ds != 0 -> lim_ok lim -> all (@op_lim_ok R) ops ->
  let c := c_run ops (c_new dt om dr ds zs lim) in
  (forall i, xi i.+1 = (1 + c_om c * c_dt c) *: xi i - (c_om c * c_dt c) *: z i) ->
  (forall i, orth (o i)) ->
  ((forall i, 0 < c_lim c i 0) -> forall i, - c_lim c i 0 <= bl i 0 <= c_lim c i 0) ->
  exists l l', l_new md dt om dr ds zs lim z0 x0 b0 ux ub = Ok l /\
    l_run md (ops ++ LReset (xi 0%N) (z 0%N) (o 0%N) false (o 0%N *m bl) u ::
                samples [seq (xi i + o i *m bl, z i, o i) | i <- iota 1 n]) l = Ok l' /\
    l_getDcm md l' = Ok (xi n) /\ l_getBias md l' = Ok (o n *m bl) /\ l_getLocalBias md l' = Ok bl.
Proof.
move=> R md dt om dr ds zs lim z0 x0 b0 ux ub ops xi z o bl u n d0 Hl Ho c dyn ort Hb.
have [l [l0 [[E E1 [sh [x [t [ys [us [P HL]]]]]] Hc] Hl']]] := new_run_ok md dt om dr zs z0 x0 b0 ux ub d0 Hl Ho.
have [[h1 h2 _ _ _] [h6 h7 _]] := Hc; rewrite -/c in h1, h2, h6, h7.
have [l1 [E2 [HL1 [[e1 e2 e3 e4 e5] [e6 e7 e8 e9 e10]]]]] := reset_ok md (xi 0%N) (z 0%N) (o 0%N) false (o 0%N *m bl) u HL.
have Hl1 : lim_ok (l_lim l1) by rewrite e6 h6.
have Hb1 : (0 < l_lim l1 0 0) && (0 < l_lim l1 1 0) -> forall i, - l_lim l1 i 0 <= bl i 0 <= l_lim l1 i 0.
  rewrite e6 h6 => /andP[H0 H1]; apply: Hb; clear -H0 H1; move=> [[|[|?]] Hi] //.
    by rewrite (_ : Ordinal Hi = 0) //; apply/val_inj.
  by rewrite (_ : Ordinal Hi = 1) //; apply/val_inj.
have [l2 [sh' [t' [ys' [us' [P' [E3 [HL2 Epo]]]]]]]] := samples_exact md dyn ort n HL1 (or_introl erefl) Hl1 Hb1 (etrans e1 h1) (etrans e2 h2) e5 e8.
have [Ex _] := LI_state md HL2.
exists l, l2; split; first exact: E; split.
  by rewrite l_run_app E1; cbn [obind]; rewrite l_run_cons; cbn [l_step]; rewrite E2; cbn [obind]; exact: E3.
rewrite /l_getDcm /l_getLocalBias /l_getBias Ex; cbn [obind]; rewrite col_mxKu col_mxKd Epo add0n.
clear -ort; by rewrite mulmxA; have [-> _] := ort n; rewrite mul1mx.
Qed.
Print Assumptions C74_lipm_exact_tracking.

(** C74 does not extend to samples given without an update in between: just after the
    construction, two consecutive calls of setInputs keep only the rotation of the second one, and
    an exactly known constant local bias (1, 0) is not rotated. *)
Theorem C74_two_inputs_then_update_refuted : forall (R : rcfType) md, exists l l' : lip R,
  l_new md 1 1 0 1 0 0 0 0 (v2 1 0) 0 0 = Ok l /\
  l_run md [:: LInputs (quarter R *m v2 1 0) 0 (quarter R); LInputs (quarter R *m v2 1 0) 0 (quarter R); LUpdate R] l = Ok l' /\
  l_getBias md l' = Ok (v2 1 0) /\ v2 1 0 <> quarter R *m v2 1 0.
Proof.
move=> R md; set q := quarter R *m v2 1 0.
have [l [E [HL [[e1 e2 e3 e4 e5] [elim eR epo eQ eA]]]]] := @new_ok R md 1 1 0 1 0 0 0 0 (v2 1 0) 0 0 (oner_neq0 _).
have Hl : lim_ok (l_lim l) by rewrite elim /lim_ok !mxE eqxx.
have [l1 [sh1 [x1 [t1 [ys1 [us1 [P1 [E1 [HL1 [H1 [_ [[f1 f2 f3 f4 f5] [elim1 eR1 epo1 eQ1 eA1]]]]]]]]]]]]] := inputs_ok md q 0 (quarter R) HL Hl.
have [? [? [? [? [? ?]]]]] := H1 isT; subst sh1 x1 t1 ys1 us1 P1.
have Hl1 : lim_ok (l_lim l1) by rewrite elim1.
have [l2 [sh2 [x2 [t2 [ys2 [us2 [P2 [E2 [HL2 [H2 [_ [[g1 g2 g3 g4 g5] [elim2 eR2 epo2 eQ2 eA2]]]]]]]]]]]]] := inputs_ok md q 0 (quarter R) HL1 Hl1.
have [? [? [? [? [? ?]]]]] := H2 isT; subst sh2 x2 t2 ys2 us2 P2.
have Hl2 : lim_ok (l_lim l2) by rewrite elim2.
have [l3 [sh' [x' [t' [ys' [P' [E3 [HL3 [Es _]]]]]]]]] := update_ok md HL2 Hl2.
have [Ex _] := LI_state md HL3.
have Hcl : clampx (l_lim l2) (l_po l2) x' = x' by rewrite /clampx elim2 elim1 elim !mxE ltxx.
rewrite Hcl in Ex.
have sq0 : sqdiag (0 : 'cV[R]_2) = 0 by apply/matrixP => i j; rewrite !mxE expr0n /= mul0rn.
have P0 : block_mx (sqdiag 0) 0 0 (sqdiag 0) = 0 :> 'M[R]_(2 + 2) by rewrite sq0 block_mx_const.
rewrite P0 in Es.
have Q0 : mQ (gm l2) = 0.
  by rewrite /= eQ2 eQ1 eQ /lipQ !mulr0 ?mul0r /dblsq !mul0r raddf0 block_mx_const.
have step0 x u y x3 P3 : step_to (gm l2) 0 x u y x3 P3 -> x3 = mA (gm l2) *m x + mB (gm l2) *m u /\ P3 = 0.
  rewrite /step_to Q0 mulmx0 mul0mx addr0 mulmx0 mul0mx add0r => -[K [[EK Su -> ->] _]].
  rewrite mul0mx in EK.
  have -> : K = 0 by rewrite -[K](mulmxK Su) EK mul0mx.
  by rewrite mul0mx addr0 /joseph mulmx0 !mul0mx addr0.
have A2 : mA (gm l2) = block_mx (dbl 2 (1 + 1 * 1)) 0 0 1%:M.
  rewrite /= eA2 f1 e1 f2 e2 epo1; by have [_ ->] := quarter_orth R.
have Eb : dsubmx x' = v2 1 0.
  inversion Es; subst.
  match goal with SA : step_to _ 0 _ _ _ ?x1 ?P1, SB : step_to _ ?P1 ?x1 _ _ x' _ |- _ =>
    have [Ea Eb] := step0 _ _ _ _ _ SA; rewrite Eb in SB; have [Ec _] := step0 _ _ _ _ _ SB end.
  rewrite Ec Ea A2 /= f5 e5 !mulmx0 !addr0 !mul_block_col !mul0mx !mul1mx !mulmx0 !add0r.
  by rewrite col_mxKd.
exists l, l3; split; first exact: E; split.
  rewrite l_run_cons; cbn [l_step]; rewrite E1; cbn [obind]; rewrite l_run_cons; cbn [l_step]; rewrite E2; cbn [obind].
  by rewrite l_run_cons; cbn [l_step]; rewrite E3; exact: l_run_nil.
split; first by rewrite /l_getBias Ex /= Eb.
move/colP/(_ 0); rewrite !mxE !big_ord_recl big_ord0 !mxE /= mul0r mulr0 !addr0 => /eqP; by rewrite oner_eq0.
Qed.
Print Assumptions C74_two_inputs_then_update_refuted.

(** C76. With the identity orientation and the limits off, the planar estimator is exactly two
    independent unidimensional estimators, one per axis, over any sequence of parameter changes,
    resettings of the bias and of the DCM, and samples. *)
Theorem C76_planar_is_two_unidimensional :
  forall (R : rcfType) md (dt om dr ds zs : R) (lim z0 x0 b0 ux ub : 'cV[R]_2) (ops : list (a_op R)),
  ds != 0 -> ~~ (0 < lim 0 0) && ~~ (0 < lim 1 0) ->
  exists l l' x b, l_new md dt om dr ds zs lim z0 x0 b0 ux ub = Ok l /\ l_run md (List.flat_map (@planar R) ops) l = Ok l' /\
    l_getDcm md l' = Ok x /\ l_getBias md l' = Ok b /\
    forall i, exists w w', u_new md dt om dr (x0 i 0) (z0 i 0) (b0 i 0) ds zs (ux i 0) (ub i 0) = Ok w /\
      u_run md (List.flat_map (@axis R i) ops) w = Ok w' /\ u_getDcm md w' = Ok (x i 0) /\ u_getBias md w' = Ok (b i 0).
Proof.
move=> R md dt om dr ds zs lim z0 x0 b0 ux ub ops d0 Hoff.
have H i := J_new i md dt om dr zs z0 x0 b0 ux ub d0 Hoff.
have [l [w0 [E _ J0]]] := H 0; have [l' [w0' [E' _ J0']]] := J_run md ops J0.
have [x [b [Ex Eb _ _]]] := J_get md J0'.
exists l, l', x, b; refine (conj E (conj E' (conj Ex (conj Eb _)))) => i.
have [l1 [w [E1 Ew J1]]] := H i; move: E1; rewrite E => -[El]; subst l1.
have [l1 [w' [E1 Ew' J1']]] := J_run md ops J1; move: E1; rewrite E' => -[El]; subst l1.
have [x' [b' [Ex' Eb' Hx Hb]]] := J_get md J1'.
move: Ex' Eb'; rewrite Ex Eb => -[?] [?]; subst x' b'.
by exists w, w'; exact: (conj Ew (conj Ew' (conj Hx Hb))).
Qed.
Print Assumptions C76_planar_is_two_unidimensional.

(** Concrete cases meeting the hypotheses. *)
Section Cases.
Variable R : rcfType.

(** A history with changing parameters, active limits, orientation changes. *)
Definition demo_ops : list (l_op R) :=
  [:: LOm 3%:R; LLim (v2 2%:R 2%:R); LInputs (v2 1 0) (v2 0 1) (quarter R); LUpdate R; LDt 2%:R^-1;
      LInputs (v2 1 1) (v2 0 1) 1%:M; LInputs (v2 1 1) (v2 0 1) (quarter R); LUpdate R; LBiasU (v2 1 0) (v2 1 1)].
Lemma demo_lim : all (@op_lim_ok R) demo_ops.
Proof. by rewrite /= /lim_ok !mxE /= eqxx. Qed.
Lemma zero_lim : lim_ok (0 : 'cV[R]_2).
Proof. by rewrite /lim_ok !mxE eqxx. Qed.

Example C75_case := @C75_lipm_never_fails R Debug 1 1 1 1 1 0 0 0 0 0 0 demo_ops (oner_neq0 _) zero_lim demo_lim.
Example C42_case := @C42_lipm_settings_in_filter_partial R Debug 1 1 1 1 1 0 0 0 0 0 0 demo_ops (oner_neq0 _) zero_lim demo_lim.
Example C44_case := @C44_lipm_noise_scale R Release 2%:R 1 1 1 1 1 0 0 0 0 0 0 demo_ops (ltr0Sn _ 1) (oner_neq0 _) zero_lim demo_lim.

Lemma demo_orth o : List.In o demo_ops -> op_orth o.
Proof.
have o1 : orth (1%:M : 'M[R]_2) by split; rewrite trmx1 mulmx1.
have q1 := quarter_orth R.
by rewrite /demo_ops /=; do 9!(case=> [<- //|]).
Qed.
Lemma demo_pos i : 0 < c_lim (c_run demo_ops (c_new 1 1 1 1 1 0)) i 0.
Proof. by rewrite /= !mxE; case: ifP; rewrite ltr0n. Qed.
Example C43_case := @C43_local_bias_within_limits R Debug 1 1 1 1 1 0 0 0 0 0 0 demo_ops (oner_neq0 _) zero_lim demo_lim demo_orth demo_pos.
Example C43_sum_case := @C43_clamp_preserves_sum_partial R Debug 1 1 1 1 1 0 0 0 0 0 0 demo_ops (oner_neq0 _) zero_lim demo_lim demo_pos (quarter_orth R).

(** A DCM of 3^i (omega = 2, dt = 1) with the ZMP at 0, turning by a quarter at every sample. *)
Example C74_case : exists l l', l_new Debug 1 2%:R 1 1 1 0 0 0 0 0 0 = Ok l /\
    l_run Debug ([::] ++ LReset (v2 (3%:R ^+ 0) 0) 0 (quarter R ^+ 0) false (quarter R ^+ 0 *m v2 (1 : R) 1) 0 ::
        samples [seq (v2 (3%:R ^+ i) 0 + quarter R ^+ i *m v2 1 1, 0, quarter R ^+ i) | i <- iota 1 5]) l = Ok l' /\
    l_getDcm Debug l' = Ok (v2 (3%:R ^+ 5) 0) /\ l_getBias Debug l' = Ok (quarter R ^+ 5 *m v2 1 1) /\ l_getLocalBias Debug l' = Ok (v2 1 1).
Proof.
apply: (@C74_lipm_exact_tracking R Debug 1 2%:R 1 1 1 0 0 0 0 0 0 [::] (fun i => v2 (3%:R ^+ i) 0) (fun _ => 0) (fun i => quarter R ^+ i) (v2 1 1) 0 5 (oner_neq0 _) zero_lim erefl).
- move=> i; rewrite /= mulr1 scaler0 subr0; apply/colP => j; rewrite !mxE; case: ifP => _; rewrite ?mulr0 //.
  by rewrite exprS -(natrD _ 1 2).
- elim=> [|i [IH1 IH2]]; first by rewrite expr0; split; rewrite trmx1 mulmx1.
  have [q1 q2] := quarter_orth R.
  rewrite exprS; split; rewrite -mulmxE trmx_mul.
    by rewrite -mulmxA (mulmxA (quarter R)^T) q1 mul1mx.
  by rewrite mulmxA -(mulmxA (quarter R)) IH2 mulmx1.
- by move=> /(_ 0); rewrite mxE ltxx.
Qed.
Lemma off_lim : ~~ (0 < (0 : 'cV[R]_2) 0 0) && ~~ (0 < (0 : 'cV[R]_2) 1 0).
Proof. by rewrite !mxE ltxx. Qed.
Example C76_case := @C76_planar_is_two_unidimensional R Debug 1 1 1 1 1 0 0 0 0 0 0
  [:: AOm 3%:R; ASample (v2 1 0) (v2 0 1); ABiasU (v2 1 1) (v2 1 1); ADrift 2%:R; ASample (v2 1 0) (v2 0 1)] (oner_neq0 _) off_lim.
End Cases.
