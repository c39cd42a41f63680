(** The planar LIPM estimator with a constant orientation decouples into two unidimensional
    estimators. *)
From Coq Require Import ZArith List Lia.
From mathcomp Require Import all_ssreflect all_algebra.
From Verif Require Import Base Defs ZDO MxLib Cholesky Kalman KFilter KFProofs LipmFilter Lipm SpecLipm LipmProofs.
Set Implicit Arguments.
Unset Strict Implicit.
Unset Printing Implicit Defensive.
Import Order.TTheory GRing.Theory Num.Theory.
Open Scope ring_scope.

(** A filter step seen through a projection that intertwines all the matrices. *)
Section Decouple.
Variable R : rcfType.
Variables (n m p n' m' p' : nat).
Variables (E : 'M[R]_(n', n)) (r : 'M[R]_(m', m)) (q : 'M[R]_(p', p)).

Definition tw (g : mats R n m p) (g' : mats R n' m' p') : Prop :=
  [/\ E *m mA g = mA g' *m E, E *m (mA g)^T = (mA g')^T *m E, r *m mC g = mC g' *m E & E *m (mC g)^T = (mC g')^T *m r] /\
  [/\ E *m mB g = mB g' *m q, E *m mQ g = mQ g' *m E & r *m mR g = mR g' *m r].

Lemma step_tw g g' P P' x u y x1 P1 x2 P2 : good g -> good g' -> psd P -> psd P' -> tw g g' -> E *m P = P' *m E ->
  step_to g P x u y x1 P1 -> step_to g' P' (E *m x) (q *m u) (r *m y) x2 P2 ->
  x2 = E *m x1 /\ E *m P1 = P2 *m E.
Proof.
move=> [pQ pR] [pQ' pR'] pP pP' [[tA tAt tC tCt] [tB tQ tR]] tP.
move=> [K [[KS uS -> ->] _]] [K' [[KS' uS' -> ->] _]].
set Pb := mA g *m P *m (mA g)^T + mQ g in KS uS *; set Pb' := mA g' *m P' *m (mA g')^T + mQ g' in KS' uS' *.
set S := mC g *m Pb *m (mC g)^T + mR g in KS uS; set S' := mC g' *m Pb' *m (mC g')^T + mR g' in KS' uS'.
have tPb : E *m Pb = Pb' *m E.
  by rewrite /Pb /Pb' mulmxDr mulmxDl tQ !mulmxA tA -(mulmxA (mA g')) tP -!mulmxA tAt.
have tS : r *m S = S' *m r.
  by rewrite /S /S' mulmxDr mulmxDl tR !mulmxA tC -(mulmxA (mC g')) tPb -!mulmxA tCt.
have sPb : sym Pb by apply: (psdD _ pQ).1; exact: psd_cong.
have sPb' : sym Pb' by apply: (psdD _ pQ').1; exact: psd_cong.
have sS : sym S by apply: symD; [exact: sym_cong|exact: pR.1].
have sS' : sym S' by apply: symD; [exact: sym_cong|exact: pR'.1].
have tK : E *m K = K' *m r.
  apply: (can_inj (mulmxK uS)).
  by rewrite -mulmxA KS -mulmxA tS !mulmxA tPb KS' -!mulmxA tCt.
have tKt : r *m K^T = K'^T *m E.
  apply: (can_inj (mulKmx uS')).
  have -> : S' *m (r *m K^T) = r *m (K *m S)^T by rewrite mulmxA -tS -mulmxA trmx_mul sS.
  have -> : S' *m (K'^T *m E) = (K' *m S')^T *m E by rewrite mulmxA trmx_mul sS'.
  by rewrite KS KS' !trmx_mul !trmxK sPb sPb' !mulmxA tC -(mulmxA (mC g')) tPb mulmxA.
have tx : E *m (mA g *m x + mB g *m u) = mA g' *m (E *m x) + mB g' *m (q *m u).
  by rewrite mulmxDr !mulmxA tA tB.
split.
  rewrite [in RHS]mulmxDr tx; congr (_ + _).
  by rewrite [in RHS]mulmxA tK -[in RHS]mulmxA; congr (K' *m _); rewrite [in RHS]mulmxBr; congr (_ - _); rewrite -tx [in RHS]mulmxA tC -mulmxA.
have t1 : E *m (1%:M - K *m mC g) = (1%:M - K' *m mC g') *m E.
  by rewrite mulmxBr mulmxBl mulmx1 mul1mx mulmxA tK -mulmxA tC mulmxA.
have trB k l (K0 : 'M[R]_(k, l)) (C0 : 'M[R]_(l, k)) : (1%:M - K0 *m C0)^T = 1%:M - C0^T *m K0^T.
  by rewrite linearB /= trmx1 trmx_mul.
have t2 : E *m (1%:M - K *m mC g)^T = (1%:M - K' *m mC g')^T *m E.
  by rewrite !trB mulmxBr mulmxBl mulmx1 mul1mx mulmxA tCt -mulmxA tKt mulmxA.
rewrite /joseph [in LHS]mulmxDr [in RHS]mulmxDl; congr (_ + _).
  by rewrite !mulmxA t1 -(mulmxA _ E Pb) tPb mulmxA -(mulmxA _ E) t2 mulmxA.
by rewrite !mulmxA tK -(mulmxA _ r) tR mulmxA -(mulmxA _ r) tKt mulmxA.
Qed.
End Decouple.

(** ** The unidimensional estimator *)
Section Unidim.
Variable R : rcfType.
Notation ulip := (ulip R).
Notation shaped := (@shaped R (1 + 1) 1 1).
Definition ugm (l : ulip) (v ds : R) : mats R (1 + 1) 1 1 :=
  mkM (block_mx (dbl 1 (1 + u_om l * u_dt l)) 0 0 1%:M) (lipB 1 (u_om l) (u_dt l)) (lipC R 1)
    (block_mx (dblsq 1 (u_om l * u_dt l * u_zs l)) 0 0 (dblsq 1 v)) (dblsq 1 ds).
Definition UI (l : ulip) v ds sh x t ys us (P : 'M[R]_(1 + 1)) : Prop :=
  exists e, [/\ shaped sh x t ys us e (u_f l), has e (ugm l v ds) P, ds != 0 & psd P].
Lemma UI_good l v ds : ds != 0 -> good (ugm l v ds).
Proof. by move=> d0; split; [exact: psd_lipQ|exact: pd_dblsq]. Qed.
Lemma p10 : (0 < 1)%N. Proof. by []. Qed.

Lemma u_new_ok md dt om dr x0 z0 b0 ds zs ux ub : ds != 0 -> exists l,
  u_new md dt om dr x0 z0 b0 ds zs ux ub = Ok l /\
  UI l (dr * dt) ds ShNone (col_mx (sc x0) (sc b0)) Z0 [::] [::] (block_mx (dblsq 1 ux) 0 0 (dblsq 1 ub)) /\
  [/\ u_om l = om, u_dt l = dt, u_dr l = dr, u_zs l = zs & u_pz l = z0].
Proof.
move=> ds0.
pose e := mkK (Some (block_mx (dbl 1 (1 + om * dt)) 0 0 1%:M)) (Some (lipC R 1)) (Some (lipQ 1 om dt zs dr)) (Some (dblsq 1 ds))
  (Some (block_mx (dblsq 1 ux) 0 0 (dblsq 1 ub))) (Some (lipB 1 om dt)) None im_empty im_empty None None : kfe R (1 + 1) (1 + 1) 1 1 1.
exists (mkUL om dt dr zs z0 (mkZ (Z.of_nat 2) (Z.of_nat 1) (Z.of_nat 1) (im_put (col_mx (sc x0) (sc b0)) Z0) ia_empty ia_empty e : lkf R 1)).
split; first by case: md.
split=> //; exists e; split=> //.
- by do 2!split=> //; exists Z0, Z0.
- by apply: psd_block; exact: psd_dblsq.
Qed.

Definition usame (l l' : ulip) : Prop :=
  [/\ u_om l' = u_om l, u_dt l' = u_dt l, u_dr l' = u_dr l, u_zs l' = u_zs l & u_pz l' = u_pz l].

Lemma UI_ugm l l' v ds : usame l l' -> ugm l' v ds = ugm l v ds.
Proof. by case=> e1 e2 _ e4 _; rewrite /ugm e1 e2 e4. Qed.

Lemma u_updABQ_ok md l0 l v ds sh x t ys us P : UI l0 v ds sh x t ys us P -> u_f l = u_f l0 ->
  exists l', u_updABQ md l = Ok l' /\ UI l' (u_dr l * u_dt l) ds sh x t ys us P /\ usame l l'.
Proof.
case=> e [Hs He d0 pP] Ef.
pose e' := k_set (SetQ _ _ _ _ (Some (lipQ 1 (u_om l) (u_dt l) (u_zs l) (u_dr l)))) (k_set (SetB _ _ _ (Some (lipB 1 (u_om l) (u_dt l))))
  (k_set (SetA _ _ _ _ (Some (block_mx (dbl 1 (1 + u_om l * u_dt l)) 0 0 1%:M))) e)).
have [Hs' Ee] := shaped_e e' Hs.
exists (mkUL (u_om l) (u_dt l) (u_dr l) (u_zs l) (u_pz l) (with_e (u_f l0) e')); split.
  by rewrite /u_updABQ /uonf /lkf_run /k_run /= Ef Ee.
split=> //; exists e'; split=> //.
by rewrite /e'; case: (e) He => a c q r pr b dd xb yb i gg [[/= _ _ -> _ ->] [-> ->]].
Qed.
Lemma u_onfP md l v ds sh x t ys us P P' : UI l v ds sh x t ys us P -> psd P' ->
  exists l', uonf md [:: KSu (SetP _ _ _ _ (Some P'))] l = Ok l' /\ UI l' v ds sh x t ys us P' /\ usame l l'.
Proof.
case=> e [Hs He d0 pP] pP'; pose e' := k_set (SetP _ _ _ _ (Some P')) e.
have [Hs' Ee] := shaped_e e' Hs.
exists (mkUL (u_om l) (u_dt l) (u_dr l) (u_zs l) (u_pz l) (with_e (u_f l) e')); split; first by rewrite /uonf /lkf_run /k_run /= Ee.
split=> //; exists e'; split=> //.
by rewrite /e'; case: (e) He => a c q r pr b dd xb yb i gg [[/= -> -> -> -> ->] [_ ->]].
Qed.
Lemma u_onf_setx md l v ds sh x t ys us P x' : UI l v ds sh x t ys us P ->
  exists l', uonf md [:: KZu (ZSetCurrentState x')] l = Ok l' /\ UI l' v ds sh x' t ys us P /\ usame l l'.
Proof.
case=> e [Hs He d0 pP].
have [Hx [s' [E Hs']]] := @shaped_x R (1 + 1) 1 1 sh x t ys us e (u_f l) x' md Hs.
exists (mkUL (u_om l) (u_dt l) (u_dr l) (u_zs l) (u_pz l) s'); split; first by rewrite /uonf /lkf_run /k_run /KZu; cbn [orun]; rewrite E.
by split=> //; exists e; split.
Qed.
Lemma UI_state md l v ds sh x t ys us P : UI l v ds sh x t ys us P -> u_state md l = Ok x /\ u_cov md l = Ok P /\
  kQ (z_e (u_f l)) = Some (mQ (ugm l v ds)).
Proof.
case=> e [Hs He d0 pP].
have [Hx _] := @shaped_x R (1 + 1) 1 1 sh x t ys us e (u_f l) x md Hs.
have [_ Ee] := shaped_e e Hs.
split; first by rewrite /u_state Hx; case: md.
split; first by rewrite /u_cov Ee; case: He => _ [-> _]; case: md.
by rewrite Ee; case: He => [[_ _ _ -> _] _].
Qed.
Lemma u_drift_ok md l v ds sh x t ys us P w : UI l v ds sh x t ys us P ->
  exists l', u_setDrift md w l = Ok l' /\ UI l' w ds sh x t ys us P /\ usame l l'.
Proof.
move=> HU; have [_ [_ EQ]] := UI_state md HU; case: HU => e [Hs He d0 pP].
rewrite /u_setDrift EQ /= block_mxKul block_mxKur block_mxKdl.
set Q := block_mx _ 0 0 _.
have [Hs2 Ee] := shaped_e (k_set (SetQ _ _ _ _ (Some Q)) e) Hs.
exists (mkUL (u_om l) (u_dt l) (u_dr l) (u_zs l) (u_pz l) (with_e (u_f l) (k_set (SetQ _ _ _ _ (Some Q)) e))); split.
  by rewrite /uonf /lkf_run /k_run /= Ee; case: (md).
split=> //; exists (k_set (SetQ _ _ _ _ (Some Q)) e); split=> //.
by case: (e) He => a c q r pr b dd xb yb i gg [[/= -> -> -> _ ->] [-> ->]].
Qed.

(** setInputs then update. *)
Lemma u_sample_ok md l v ds sh x t ys us P dcm zmp : UI l v ds sh x t ys us P -> sh = ShNone \/ sh = ShDone ->
  exists l' x' P', u_run md [:: UInputs dcm zmp; UUpdate R] l = Ok l' /\
   UI l' v ds ShDone x' (nxt t) [:: sc dcm] [::] P' /\ step_to (ugm l v ds) P x (sc (u_pz l)) (sc dcm) x' P' /\
    [/\ u_om l' = u_om l, u_dt l' = u_dt l, u_dr l' = u_dr l, u_zs l' = u_zs l & u_pz l' = zmp].
Proof.
move=> [e [Hs He d0 pP]] Hsh; have gg := UI_good l v d0.
have Hsh3 : sh = ShNone \/ sh = ShOne \/ sh = ShDone by case: Hsh => ->; [left|right; right].
have [s1 [E1 Hs1]] := push_ok p10 md (sc dcm) (sc (u_pz l)) Hsh3 Hs.
have Hnx : shaped ShNext x t (ys ++ [:: sc dcm]) (us ++ [:: sc (u_pz l)]) e s1 \/ shaped ShOne x t (ys ++ [:: sc dcm]) (us ++ [:: sc (u_pz l)]) e s1.
  by case: Hsh Hs1 => ->; [right|left].
have Eus : us = [::] by case: Hsh Hs => -> [_ []].
have Hlast : List.nth_error (ys ++ [:: sc dcm]) (length (ys ++ [:: sc dcm])).-1 = Some (sc dcm).
  case: Hsh Hs => -> [Hy _]; first by rewrite Hy.
  by case: ys Hy {Hs1 Hnx} => [|? [|? ?]].
have [x' [P' [e' [s' [E He' St Hs']]]]] := @estimate_next R _ _ _ p10 md x t _ _ e s1 (ugm l v ds) P gg pP He Hnx (sc (u_pz l)) (sc dcm) ltac:(by rewrite Eus) Hlast.
exists (mkUL (u_om l) (u_dt l) (u_dr l) (u_zs l) zmp s'), x', P'; split; last first.
  by split; [exists e'; split=> //; case: St => ? []|].
have Hy1 : ia_size (z_y s1) = Z.of_nat (length (ys ++ [:: sc dcm])) /\ ia_last (z_y s1) = nxt t /\ im_set (z_x s1) /\ im_k (z_x s1) = t.
  case: Hnx => [] [Ly [_ ->]]; rewrite /fs /ia_last /ia_size /=; rewrite Ly; (split; first by []); (split; first lia); by split.
rewrite /u_run /= /u_setInputs /uonf /KZu E1; cbn [obind u_update].
rewrite /u_update; cbn [u_f]; have [Esz [Elast _]] := Hy1; rewrite Esz Elast.
have -> : Z.ltb Z0 (Z.of_nat (length (ys ++ [:: sc dcm]))) = true by rewrite List.app_length /=; apply/Z.ltb_lt; lia.
have -> : boost_assert md true = Ok tt by case: (md).
cbn [obind]; rewrite /uonf; cbn [u_f].
have -> : lkf_run md [:: KZu (ZGetEstimate (nxt t))] s1 = Ok s'; last by [].
(* getEstimatedState(last) is estimateState() *)
move: E; rewrite /lkf_run /k_run /KZu; cbn [orun]; rewrite /k_step; cbn [resizes z_step].
rewrite /z_estimateState Esz Elast.
have -> : Z.ltb Z0 (Z.of_nat (length (ys ++ [:: sc dcm]))) = true by rewrite List.app_length /=; apply/Z.ltb_lt; lia.
have -> : boost_assert md true = Ok tt by case: (md).
cbn [obind]; case: (z_getEstimatedState _ _ _ _) => [[s2 x2]| | |] //=.
by case: (z_time _ _) => //= t2 [->].
Qed.
End Unidim.

(** ** Correspondence *)
Section Axis.
Variable R : rcfType.
Variable i : 'I_2.
Definition rr : 'M[R]_(1, 2) := delta_mx 0 i.
Definition EE : 'M[R]_(1 + 1, 2 + 2) := block_mx rr 0 0 rr.

Lemma rrv (v : 'cV[R]_2) : rr *m v = sc (v i 0).
Proof. by rewrite /rr -rowE; apply/matrixP => a b; rewrite !mxE !ord1 eqxx. Qed.
Lemma EEc (a b : 'cV[R]_2) : EE *m col_mx a b = col_mx (sc (a i 0)) (sc (b i 0)).
Proof. by rewrite mul_block_col !mul0mx addr0 add0r !rrv. Qed.
Lemma rrs (c : R) : rr *m c%:M = c%:M *m rr.
Proof. by rewrite mul_mx_scalar mul_scalar_mx. Qed.
Lemma rr_sqdiag (v : 'cV[R]_2) : rr *m sqdiag v = dblsq 1 (v i 0) *m rr.
Proof.
rewrite mul_scalar_mx /sqdiag; apply/matrixP => a b; rewrite mul_mx_diag !mxE.
by case: (b =P i) => [->|_]; rewrite ?andbT ?andbF /= ?mul0r ?mulr0 // mulrC expr2.
Qed.

Lemma tw_axis' a (om dt q1 q2 ds : R) :
  @tw R (2 + 2) 2 2 (1 + 1) 1 1 EE rr rr
   (mkM (block_mx (dbl 2 a) 0 0 1%:M) (lipB 2 om dt) (lipC R 2) (block_mx (dblsq 2 q1) 0 0 (dblsq 2 q2)) (dblsq 2 ds))
   (mkM (block_mx (dbl 1 a) 0 0 1%:M) (lipB 1 om dt) (lipC R 1) (block_mx (dblsq 1 q1) 0 0 (dblsq 1 q2)) (dblsq 1 ds)).
Proof.
have dg (x1 x2 : R) : EE *m block_mx (x1%:M : 'M[R]_2) 0 0 x2%:M = block_mx (x1%:M : 'M[R]_1) 0 0 x2%:M *m EE.
  by rewrite !mulmx_block !mul0mx !mulmx0 !addr0 !add0r !rrs.
split; split=> /=.
- exact: dg.
- by rewrite !tr_block_mx !trmx0 !tr_scalar_mx; exact: dg.
- by rewrite /lipC mul_mx_row mul_row_block !mulmx1 !mul1mx addr0 add0r.
- by rewrite /lipC !tr_row_mx !trmx1 mul_block_col mul_col_mx !mulmx1 !mul1mx addr0 add0r.
- by rewrite /lipB mul_block_col mul_col_mx !mul0mx !mulmx0 !addr0 rrs.
- exact: dg.
- exact: rrs.
Qed.

Lemma EEx (x : 'cV[R]_(2 + 2)) : usubmx (EE *m x) = sc (usubmx x i 0) /\ dsubmx (EE *m x) = sc (dsubmx x i 0).
Proof. by rewrite -{1 3}[x]vsubmxK EEc col_mxKu col_mxKd. Qed.
Lemma EEP (P : 'M[R]_(2 + 2)) (P1 : 'M[R]_(1 + 1)) : EE *m P = P1 *m EE ->
  rr *m ulsubmx P = ulsubmx P1 *m rr /\ rr *m drsubmx P = drsubmx P1 *m rr.
Proof.
rewrite -{1}[P]submxK -{1}[P1]submxK !mulmx_block !mul0mx !mulmx0 !addr0 !add0r.
by case/eq_block_mx.
Qed.
Lemma EEsetPbias (P : 'M[R]_(2 + 2)) (P1 : 'M[R]_(1 + 1)) u : EE *m P = P1 *m EE ->
  EE *m setPbias P (sqdiag u) = setPbias P1 (dblsq 1 (u i 0)) *m EE.
Proof. by case/EEP => H _; rewrite /setPbias !mulmx_block !mul0mx !mulmx0 !addr0 !add0r H rr_sqdiag. Qed.
Lemma EEsetPdcm (P : 'M[R]_(2 + 2)) (P1 : 'M[R]_(1 + 1)) u : EE *m P = P1 *m EE ->
  EE *m setPdcm P (sqdiag u) = setPdcm P1 (dblsq 1 (u i 0)) *m EE.
Proof. by case/EEP => _ H; rewrite /setPdcm !mulmx_block !mul0mx !mulmx0 !addr0 !add0r H rr_sqdiag. Qed.

(** The two estimators are in corresponding states. *)
Definition J (l : lip R) (w : ulip R) : Prop :=
  exists sh x t ys us P v ds yu uu Pu,
   [/\ LI l sh x t ys us P, UI w v ds sh (EE *m x) t yu uu Pu, EE *m P = Pu *m EE & sh = ShNone \/ sh = ShDone] /\
   [/\ u_om w = l_om l, u_dt w = l_dt l, u_dr w = l_dr l, u_zs w = l_zs l & u_pz w = l_pz l i 0] /\
   [/\ l_Q l = block_mx (dblsq 2 (l_om l * l_dt l * l_zs l)) 0 0 (dblsq 2 v), l_R l = dblsq 2 ds, l_po l = 1%:M &
      ~~ (0 < l_lim l 0 0) && ~~ (0 < l_lim l 1 0)].

Lemma lim_off (lim : 'cV[R]_2) : ~~ (0 < lim 0 0) && ~~ (0 < lim 1 0) -> lim_ok lim /\ forall o x, clampx lim o x = x.
Proof. by rewrite /lim_ok /clampx; case: (0 < lim 0 0); case: (0 < lim 1 0). Qed.

Lemma J_new md (dt om dr ds zs : R) (lim z0 x0 b0 ux ub : 'cV[R]_2) : ds != 0 -> ~~ (0 < lim 0 0) && ~~ (0 < lim 1 0) ->
  exists l w, [/\ l_new md dt om dr ds zs lim z0 x0 b0 ux ub = Ok l,
    u_new md dt om dr (x0 i 0) (z0 i 0) (b0 i 0) ds zs (ux i 0) (ub i 0) = Ok w & J l w].
Proof.
move=> d0 Hl; have [l [E [HL [[e1 e2 e3 e4 e5] [f1 f2 f3 f4 f5]]]]] := new_ok md dt om dr zs lim z0 x0 b0 ux ub d0.
have [w [Ew [HW [g1 g2 g3 g4 g5]]]] := u_new_ok md dt om dr (x0 i 0) (z0 i 0) (b0 i 0) zs (ux i 0) (ub i 0) d0.
exists l, w; split=> //.
exists ShNone, (col_mx x0 b0), Z0, [::], [::], (block_mx (sqdiag ux) 0 0 (sqdiag ub)), (dr * dt), ds, [::], [::], (block_mx (dblsq 1 (ux i 0)) 0 0 (dblsq 1 (ub i 0))).
split; first (split=> //; last by left).
- by rewrite EEc.
- by rewrite !mulmx_block !mul0mx !mulmx0 !addr0 !add0r !rr_sqdiag.
split; first by rewrite g1 g2 g3 g4 g5 e1 e2 e3 e4 e5.
by split=> //; rewrite ?f1 // f4 e1 e2 e4.
Qed.

Lemma run1 md o (l : lip R) : l_run md [:: o] l = l_step md o l.
Proof. by rewrite /l_run /=; case: (l_step md o l). Qed.
Lemma urun1 md o (l : ulip R) : u_run md [:: o] l = u_step md o l.
Proof. by rewrite /u_run /=; case: (u_step md o l). Qed.

Lemma J_step md o l w : J l w -> exists l' w', [/\ l_run md (planar o) l = Ok l', u_run md (axis i o) w = Ok w' & J l' w'].
Proof.
move=> [sh [x [t [ys [us [P [v [ds [yu [uu [Pu [[HL HU HP Hsh] [[g1 g2 g3 g4 g5] [h1 h2 h3 h4]]]]]]]]]]]]]].
have [Hlim Hclamp] := lim_off h4.
have [Est [Ecov _]] := LI_state md HL; have [Est' [Ecov' _]] := UI_state md HU.
have [Xu Xd] := EEx x.
have pP : psd P by case: HL => e [].
have pPu : psd Pu by case: HU => e [].
case: o => [om|dt|zs|dr|std|b|b u|x1|x1 u|dcm zmp]; rewrite /planar /axis ?run1 ?urun1; cbn [l_step u_step].
- have [l' [E [HL' [[a1 a2 a3 a4 a5] [b1 b2 b3 b4 b5]]]]] := @LI_updABQ R md l (mkL om (l_dt l) (l_dr l) (l_zs l) (l_pz l) (l_lim l) (l_f l) (l_A l) (l_R l) (l_Q l) (l_po l)) _ _ _ _ _ _ HL erefl erefl erefl.
  have [w' [E' [HU' [c1 c2 c3 c4 c5]]]] := @u_updABQ_ok R md w (mkUL om (u_dt w) (u_dr w) (u_zs w) (u_pz w) (u_f w)) _ _ _ _ _ _ _ _ HU erefl.
  cbn in a1, a2, a3, a4, a5, b1, b2, b3, b4, b5, c1, c2, c3, c4, c5, HU'.
  exists l', w'; split=> //.
  exists sh, x, t, ys, us, P, (u_dr w * u_dt w), ds, yu, uu, Pu; split; first by split.
  split; first by split; congruence.
  by split; rewrite ?b4 ?b1 //; [rewrite a1 a2 a4 g3 g2|congruence|congruence].
- have [l' [E [HL' [[a1 a2 a3 a4 a5] [b1 b2 b3 b4 b5]]]]] := @LI_updABQ R md l (mkL (l_om l) dt (l_dr l) (l_zs l) (l_pz l) (l_lim l) (l_f l) (l_A l) (l_R l) (l_Q l) (l_po l)) _ _ _ _ _ _ HL erefl erefl erefl.
  have [w' [E' [HU' [c1 c2 c3 c4 c5]]]] := @u_updABQ_ok R md w (mkUL (u_om w) dt (u_dr w) (u_zs w) (u_pz w) (u_f w)) _ _ _ _ _ _ _ _ HU erefl.
  cbn in a1, a2, a3, a4, a5, b1, b2, b3, b4, b5, c1, c2, c3, c4, c5, HU'.
  exists l', w'; split=> //.
  exists sh, x, t, ys, us, P, (u_dr w * dt), ds, yu, uu, Pu; split; first by split.
  split; first by split; congruence.
  by split; rewrite ?b4 ?b1 //; [rewrite a1 a2 a4 g3|congruence|congruence].
- have [l' [E [HL' [[a1 a2 a3 a4 a5] [b1 b2 b3 b4 b5]]]]] := @LI_updABQ R md l (mkL (l_om l) (l_dt l) (l_dr l) zs (l_pz l) (l_lim l) (l_f l) (l_A l) (l_R l) (l_Q l) (l_po l)) _ _ _ _ _ _ HL erefl erefl erefl.
  have [w' [E' [HU' [c1 c2 c3 c4 c5]]]] := @u_updABQ_ok R md w (mkUL (u_om w) (u_dt w) (u_dr w) zs (u_pz w) (u_f w)) _ _ _ _ _ _ _ _ HU erefl.
  cbn in a1, a2, a3, a4, a5, b1, b2, b3, b4, b5, c1, c2, c3, c4, c5, HU'.
  exists l', w'; split=> //.
  exists sh, x, t, ys, us, P, (u_dr w * u_dt w), ds, yu, uu, Pu; split; first by split.
  split; first by split; congruence.
  by split; rewrite ?b4 ?b1 //; [rewrite a1 a2 a4 g3 g2|congruence|congruence].
- have [w' [E' [HU' [c1 c2 c3 c4 c5]]]] := u_drift_ok md dr HU.
  rewrite /l_setDrift; set Q := block_mx (ulsubmx _) _ _ _.
  have EQ : Q = block_mx (dblsq 2 (l_om l * l_dt l * l_zs l)) 0 0 (dblsq 2 dr).
    by rewrite /Q h1 block_mxKul block_mxKur block_mxKdl.
  case: HL => e [Hs He pR _ [wA _]].
  have [Hs2 Ee] := shaped_e (k_set (SetQ _ _ _ _ (Some Q)) e) Hs.
  exists (mkL (l_om l) (l_dt l) (l_dr l) (l_zs l) (l_pz l) (l_lim l) (with_e (l_f l) (k_set (SetQ _ _ _ _ (Some Q)) e)) (l_A l) (l_R l) Q (l_po l)), w'.
  split=> //; first by rewrite /onf /lkf_run /k_run /= Ee.
  exists sh, x, t, ys, us, P, dr, ds, yu, uu, Pu; split; last by split; split=> //=; congruence.
  split=> //; exists (k_set (SetQ _ _ _ _ (Some Q)) e); split=> //.
    by case: (e) He => a c0 q r pr b dd xb yb j gg [[/= -> -> -> _ ->] [-> ->]].
  by split=> //; exists dr.
- by exists l, w; split=> //; exists sh, x, t, ys, us, P, v, ds, yu, uu, Pu; split.
- rewrite /l_setBias /u_setBias Est Est'; cbn [obind].
  have [l' [E [HL' [[a1 a2 a3 a4 a5] [b1 b2 b3 b4 b5]]]]] := onf_setx md (col_mx (usubmx x) b) HL.
  have [w' [E' [HU' [c1 c2 c3 c4 c5]]]] := u_onf_setx md (col_mx (usubmx (EE *m x)) (sc (b i 0))) HU.
  exists l', w'; split=> //; exists sh, (col_mx (usubmx x) b), t, ys, us, P, v, ds, yu, uu, Pu; split; first by split=> //; rewrite EEc -Xu.
  by split; split; congruence.
- rewrite /l_setBiasU /u_setBiasU /l_setBias /u_setBias Est Est'; cbn [obind].
  have [l' [E [HL' [[a1 a2 a3 a4 a5] [b1 b2 b3 b4 b5]]]]] := onf_setx md (col_mx (usubmx x) b) HL.
  have [w' [E' [HU' [c1 c2 c3 c4 c5]]]] := u_onf_setx md (col_mx (usubmx (EE *m x)) (sc (b i 0))) HU.
  rewrite E E'; cbn [obind].
  have [_ [Ec _]] := LI_state md HL'; have [_ [Ec' _]] := UI_state md HU'; rewrite Ec Ec'; cbn [obind].
  have [l2 [E2 [HL2 [[a1' a2' a3' a4' a5'] [b1' b2' b3' b4' b5']]]]] := onfP md HL' (psd_setPbias pP (psd_sqdiag u)).
  have [w2 [E2' [HU2 [c1' c2' c3' c4' c5']]]] := u_onfP md HU' (psd_setPbias pPu (psd_dblsq 1 (u i 0))).
  exists l2, w2; split=> //; exists sh, (col_mx (usubmx x) b), t, ys, us, (setPbias P (sqdiag u)), v, ds, yu, uu, (setPbias Pu (dblsq 1 (u i 0))); split.
    by split=> //; [rewrite EEc -Xu|exact: EEsetPbias].
  by split; split; congruence.
- rewrite /l_setDcm /u_setDcm Est Est'; cbn [obind].
  have [l' [E [HL' [[a1 a2 a3 a4 a5] [b1 b2 b3 b4 b5]]]]] := onf_setx md (col_mx x1 (dsubmx x)) HL.
  have [w' [E' [HU' [c1 c2 c3 c4 c5]]]] := u_onf_setx md (col_mx (sc (x1 i 0)) (dsubmx (EE *m x))) HU.
  exists l', w'; split=> //; exists sh, (col_mx x1 (dsubmx x)), t, ys, us, P, v, ds, yu, uu, Pu; split; first by split=> //; rewrite EEc -Xd.
  by split; split; congruence.
- rewrite /l_setDcmU /u_setDcmU /l_setDcm /u_setDcm Est Est'; cbn [obind].
  have [l' [E [HL' [[a1 a2 a3 a4 a5] [b1 b2 b3 b4 b5]]]]] := onf_setx md (col_mx x1 (dsubmx x)) HL.
  have [w' [E' [HU' [c1 c2 c3 c4 c5]]]] := u_onf_setx md (col_mx (sc (x1 i 0)) (dsubmx (EE *m x))) HU.
  rewrite E E'; cbn [obind].
  have [_ [Ec _]] := LI_state md HL'; have [_ [Ec' _]] := UI_state md HU'; rewrite Ec Ec'; cbn [obind].
  have [l2 [E2 [HL2 [[a1' a2' a3' a4' a5'] [b1' b2' b3' b4' b5']]]]] := onfP md HL' (psd_setPdcm pP (psd_sqdiag u)).
  have [w2 [E2' [HU2 [c1' c2' c3' c4' c5']]]] := u_onfP md HU' (psd_setPdcm pPu (psd_dblsq 1 (u i 0))).
  exists l2, w2; split=> //; exists sh, (col_mx x1 (dsubmx x)), t, ys, us, (setPdcm P (sqdiag u)), v, ds, yu, uu, (setPdcm Pu (dblsq 1 (u i 0))); split.
    by split=> //; [rewrite EEc -Xd|exact: EEsetPdcm].
  by split; split; congruence.
- have [l' [x' [P' [E [HL' [St [[a1 a2 a3 a4 a5] [b1 b2 b3 b4]]]]]]]] := sample_ok md dcm zmp 1%:M HL Hlim Hsh.
  have [w' [xu' [Pu' [E' [HU' [St' [c1 c2 c3 c4 c5]]]]]]] := u_sample_ok md (dcm i 0) (zmp i 0) HU Hsh.
  rewrite Hclamp in HL'.
  have gg : good (mkM (block_mx (dbl 2 (1 + l_om l * l_dt l)) 0 0 1%:M) (lipB 2 (l_om l) (l_dt l)) (lipC R 2) (block_mx (dblsq 2 (l_om l * l_dt l * l_zs l)) 0 0 (dblsq 2 v)) (dblsq 2 ds)).
    by split=> /=; [exact: psd_lipQ|apply: pd_dblsq; case: HU => e []].
  have gg' : good (ugm w v ds) by apply: UI_good; case: HU => e [].
  rewrite h1 h2 h3 trmx1 mulmx1 in St.
  rewrite g5 -!rrv in St'.
  have Htw := tw_axis' (1 + l_om l * l_dt l) (l_om l) (l_dt l) (l_om l * l_dt l * l_zs l) v ds.
  rewrite /ugm g1 g2 g4 in St' gg'.
  have [Ex EP] := step_tw gg gg' pP pPu Htw HP St St'.
  exists l', w'; split=> //.
  exists ShDone, x', (nxt t), [:: dcm], [::], P', v, ds, [:: sc (dcm i 0)], [::], Pu'; split.
    by split=> //; [rewrite -Ex|right].
  by split; split; congruence.
Qed.

Lemma J_run md ops l w : J l w -> exists l' w', [/\ l_run md (List.flat_map (@planar R) ops) l = Ok l',
   u_run md (List.flat_map (@axis R i) ops) w = Ok w' & J l' w'].
Proof.
elim: ops l w => [|o ops IH] l w HJ; first by exists l, w.
have [l1 [w1 [E1 E2 J1]]] := J_step md o HJ; have [l2 [w2 [E3 E4 J2]]] := IH _ _ J1.
exists l2, w2; split=> //; cbn [List.flat_map].
  by rewrite /l_run orun_app -/(l_run md _ _) E1.
by rewrite /u_run orun_app -/(u_run md _ _) E2.
Qed.
Lemma J_get md l w : J l w -> exists x b, [/\ l_getDcm md l = Ok x, l_getBias md l = Ok b,
   u_getDcm md w = Ok (x i 0) & u_getBias md w = Ok (b i 0)].
Proof.
move=> [sh [x [t [ys [us [P [v [ds [yu [uu [Pu [[HL HU HP Hsh] _]]]]]]]]]]]].
have [Est _] := LI_state md HL; have [Est' _] := UI_state md HU.
have [Xu Xd] := EEx x.
exists (usubmx x), (dsubmx x); rewrite /l_getDcm /l_getBias /u_getDcm /u_getBias Est Est' /= Xu Xd; split=> //; by rewrite !mxE.
Qed.
End Axis.
