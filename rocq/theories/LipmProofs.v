(** Reachable states of the planar LIPM estimator: it never fails, and what each call does. *)
From Coq Require Import ZArith List Lia.
From mathcomp Require Import all_ssreflect all_algebra.
From Verif Require Import Base Defs ZDO MxLib Cholesky Kalman KFilter KFProofs LipmFilter Lipm SpecLipm.
Set Implicit Arguments.
Unset Strict Implicit.
Unset Printing Implicit Defensive.
Import Order.TTheory GRing.Theory Num.Theory.
Open Scope ring_scope.

Section BlocksP.
Variable R : rcfType.
Variable d : nat.

Lemma psd_block (A B : 'M[R]_d) : psd A -> psd B -> psd (block_mx A 0 0 B).
Proof.
move=> pA pB.
have -> : block_mx A 0 0 B = col_mx 1%:M 0 *m A *m (col_mx 1%:M 0)^T + col_mx 0 1%:M *m B *m (col_mx 0 1%:M)^T.
  by rewrite !tr_col_mx !trmx1 !trmx0 -!mulmxA (mul_mx_row A) (mul_mx_row B) !mulmx1 !mulmx0 !mul_col_row !mul1mx !mul0mx ?mulmx0 add_block_mx !addr0 !add0r.
by apply: psdD; apply: psd_cong.
Qed.
Lemma psd_ul (P : 'M[R]_(d + d)) : psd P -> psd (ulsubmx P).
Proof.
move=> pP; have -> : ulsubmx P = row_mx 1%:M 0 *m P *m (row_mx 1%:M 0)^T.
  by rewrite -{2}[P]submxK mul_row_block tr_row_mx trmx1 trmx0 !mul1mx !mul0mx !addr0 mul_row_col mulmx1 mulmx0 addr0.
exact: psd_cong.
Qed.
Lemma psd_dr (P : 'M[R]_(d + d)) : psd P -> psd (drsubmx P).
Proof.
move=> pP; have -> : drsubmx P = row_mx 0 1%:M *m P *m (row_mx 0 1%:M)^T.
  by rewrite -{2}[P]submxK mul_row_block tr_row_mx trmx1 trmx0 !mul1mx !mul0mx !add0r mul_row_col mulmx1 mulmx0 add0r.
exact: psd_cong.
Qed.
Lemma psd_dblsq (x : R) : psd (dblsq d x).
Proof.
have -> : dblsq d x = x%:M *m (x%:M)^T by rewrite tr_scalar_mx -scalar_mxM.
exact: psd_gram.
Qed.
Lemma pd_dblsq (x : R) : x != 0 -> pd (dblsq d x).
Proof.
move=> x0; rewrite /dblsq -[X in X%:M]mulr1 -scale_scalar_mx; apply: pdZ (pd1 _ _).
by rewrite -expr2 lt_def sqrf_eq0 x0 sqr_ge0.
Qed.
Lemma psd_sqdiag (v : 'cV[R]_d) : psd (sqdiag v).
Proof.
have -> : sqdiag v = diag_mx v^T *m (diag_mx v^T)^T.
  rewrite tr_diag_mx mulmx_diag /sqdiag; congr diag_mx; apply/rowP => i; by rewrite !mxE expr2.
exact: psd_gram.
Qed.
Lemma psd_lipQ om dt zs v : psd (block_mx (dblsq d (om * dt * zs)) 0 0 (dblsq d v) : 'M[R]_(d + d)).
Proof. by apply: psd_block; apply: psd_dblsq. Qed.
Lemma psd_lipPbias (Rm B : 'M[R]_d) : psd Rm -> psd B -> psd (lipPbias Rm B).
Proof.
move=> pR pB; have -> : lipPbias Rm B = col_mx 1%:M (- 1%:M) *m B *m (col_mx 1%:M (- 1%:M))^T + block_mx Rm 0 0 0.
  rewrite tr_col_mx linearN /= !trmx1 -mulmxA (mul_mx_row B) mulmxN mulmx1 mul_col_row !mulNmx !mul1mx opprK.
  by rewrite add_block_mx !addr0.
by apply: psdD; [exact: psd_cong|apply: psd_block => //; exact: psd0].
Qed.
Lemma psd_setPbias (P : 'M[R]_(d + d)) (B : 'M[R]_d) : psd P -> psd B -> psd (setPbias P B).
Proof. by move=> pP pB; apply: psd_block => //; exact: psd_ul. Qed.
Lemma psd_setPdcm (P : 'M[R]_(d + d)) (B : 'M[R]_d) : psd P -> psd B -> psd (setPdcm P B).
Proof. by move=> pP pB; apply: psd_block => //; exact: psd_dr. Qed.
End BlocksP.

Section Planar.
Variable R : rcfType.
Notation lip := (lip R).
Notation shaped := (@shaped R (2 + 2) 2 2).

Definition gm (l : lip) : mats R (2 + 2) 2 2 :=
  mkM (l_A l) (lipB 2 (l_om l) (l_dt l)) (lipC R 2) (l_Q l) (l_R l).
Definition wfl (l : lip) : Prop :=
  (exists o, l_A l = block_mx (dbl 2 (1 + l_om l * l_dt l)) 0 0 o) /\
  (exists v, l_Q l = block_mx (dblsq 2 (l_om l * l_dt l * l_zs l)) 0 0 (dblsq 2 v)).

Definition LI (l : lip) sh x t ys us (P : 'M[R]_(2 + 2)) : Prop :=
  exists e, [/\ shaped sh x t ys us e (l_f l), has e (gm l) P, pd (l_R l), psd P & wfl l].
Lemma LI_good l sh x t ys us P : LI l sh x t ys us P -> good (gm l).
Proof.
case=> e [_ _ pR _ [_ [v EQ]]]; split=> //=; rewrite EQ; exact: psd_lipQ.
Qed.

Lemma p20 : (0 < 2)%N. Proof. by []. Qed.

(** The constructor. *)
Definition newA (om dt : R) : 'M[R]_(2 + 2) := block_mx (dbl 2 (1 + om * dt)) (ursubmx (1%:M : 'M[R]_(2 + 2))) (dlsubmx (1%:M : 'M[R]_(2 + 2))) (drsubmx (1%:M : 'M[R]_(2 + 2))).
Definition newe dt om dr ds zs ux ub : kfe R (2 + 2) (2 + 2) 2 2 2 :=
  mkK (Some (newA om dt)) (Some (lipC R 2)) (Some (lipQ 2 om dt zs dr)) (Some (dblsq 2 ds)) (Some (block_mx (sqdiag ux) 0 0 (sqdiag ub)))
  (Some (lipB 2 om dt)) None im_empty im_empty None None.
Definition newl dt om dr ds zs lim z0 x0 b0 ux ub : lip :=
  mkL om dt dr zs z0 lim (mkZ (Z.of_nat 4) (Z.of_nat 2) (Z.of_nat 2) (im_put (col_mx x0 b0) Z0) ia_empty ia_empty (newe dt om dr ds zs ux ub) : lkf R 2)
   (newA om dt) (dblsq 2 ds) (lipQ 2 om dt zs dr) 1%:M.
Lemma newA_eq om dt : newA om dt = block_mx (dbl 2 (1 + om * dt)) 0 0 1%:M.
Proof. by rewrite /newA (scalar_mx_block 2 2 1) block_mxKur block_mxKdl block_mxKdr. Qed.
Lemma new_eq md dt om dr ds zs lim z0 x0 b0 ux ub :
  l_new md dt om dr ds zs lim z0 x0 b0 ux ub = Ok (newl dt om dr ds zs lim z0 x0 b0 ux ub).
Proof. by case: md. Qed.
Lemma new_ok md dt om dr ds zs lim z0 x0 b0 ux ub : ds != 0 -> exists l,
  l_new md dt om dr ds zs lim z0 x0 b0 ux ub = Ok l /\
  LI l ShNone (col_mx x0 b0) Z0 [::] [::] (block_mx (sqdiag ux) 0 0 (sqdiag ub)) /\
  [/\ l_om l = om, l_dt l = dt, l_dr l = dr, l_zs l = zs & l_pz l = z0] /\
  [/\ l_lim l = lim, l_R l = dblsq 2 ds, l_po l = 1%:M, l_Q l = lipQ 2 om dt zs dr &
      l_A l = block_mx (dbl 2 (1 + om * dt)) 0 0 1%:M].
Proof.
move=> ds0; exists (newl dt om dr ds zs lim z0 x0 b0 ux ub); split; first exact: new_eq.
split; last by split=> //; split=> //=; rewrite newA_eq.
exists (newe dt om dr ds zs ux ub); split=> //.
- by do 2!split=> //; exists Z0, Z0.
- exact: pd_dblsq.
- by apply: psd_block; apply: psd_sqdiag.
- by split; [exists 1%:M; rewrite -newA_eq|exists (dr * dt)].
Qed.

(** Setter calls on the filter. *)
Lemma wfl_A l : wfl l -> ursubmx (l_A l) = 0 /\ dlsubmx (l_A l) = 0.
Proof. by case=> [[o ->] _]; rewrite block_mxKur block_mxKdl. Qed.

Definition same_but_f (l l' : lip) : Prop :=
  [/\ l_om l' = l_om l, l_dt l' = l_dt l, l_dr l' = l_dr l, l_zs l' = l_zs l & l_pz l' = l_pz l] /\
  [/\ l_lim l' = l_lim l, l_R l' = l_R l, l_po l' = l_po l, l_Q l' = l_Q l & l_A l' = l_A l].

Lemma updABQ_ok md l sh x t ys us P e : shaped sh x t ys us e (l_f l) ->
  kC e = Some (lipC R 2) -> kR e = Some (l_R l) -> kP e = Some P -> kD e = None -> pd (l_R l) -> psd P ->
  ursubmx (l_A l) = 0 -> dlsubmx (l_A l) = 0 ->
  exists l', l_updABQ md l = Ok l' /\ LI l' sh x t ys us P /\
   [/\ l_om l' = l_om l, l_dt l' = l_dt l, l_dr l' = l_dr l, l_zs l' = l_zs l & l_pz l' = l_pz l] /\
   [/\ l_lim l' = l_lim l, l_R l' = l_R l, l_po l' = l_po l, l_Q l' = lipQ 2 (l_om l) (l_dt l) (l_zs l) (l_dr l) &
       drsubmx (l_A l') = drsubmx (l_A l)].
Proof.
move=> Hs EC ER EP ED pR pP U0 D0.
pose A : 'M[R]_(2 + 2) := block_mx (dbl 2 (1 + l_om l * l_dt l)) 0 0 (drsubmx (l_A l)).
pose Q := lipQ 2 (l_om l) (l_dt l) (l_zs l) (l_dr l).
pose e' := k_set (SetQ _ _ _ _ (Some Q)) (k_set (SetB _ _ _ (Some (lipB 2 (l_om l) (l_dt l)))) (k_set (SetA _ _ _ _ (Some A)) e)).
have [Hs' Ee] := shaped_e e' Hs.
exists (mkL (l_om l) (l_dt l) (l_dr l) (l_zs l) (l_pz l) (l_lim l) (with_e (l_f l) e') A (l_R l) Q (l_po l)).
split; first by rewrite /l_updABQ U0 D0 -/A -/Q /onf /lkf_run /k_run /= Ee.
split; last by rewrite /= /A block_mxKdr.
exists e'; split=> //; first by rewrite /e'; case: (e) EC ER EP ED => a c q r pr b dd xb yb i gg /= -> -> -> ->.
by split; [exists (drsubmx (l_A l))|exists (l_dr l * l_dt l)].
Qed.

Lemma onfP md l sh x t ys us P P' : LI l sh x t ys us P -> psd P' ->
  exists l', onf md [:: KSt (SetP _ _ _ _ (Some P'))] l = Ok l' /\ LI l' sh x t ys us P' /\ same_but_f l l'.
Proof.
case=> e [Hs He pR pP wf] pP'; pose e' := k_set (SetP _ _ _ _ (Some P')) e.
have [Hs' Ee] := shaped_e e' Hs.
exists (with_f l (with_e (l_f l) e')); split; first by rewrite /onf /lkf_run /k_run /= Ee.
split=> //; exists e'; split=> //.
by rewrite /e'; case: (e) He => a c q r pr b dd xb yb i gg [[/= -> -> -> -> ->] [_ ->]].
Qed.

Lemma onf_setx md l sh x t ys us P x' : LI l sh x t ys us P ->
  exists l', onf md [:: KZt (ZSetCurrentState x')] l = Ok l' /\ LI l' sh x' t ys us P /\ same_but_f l l'.
Proof.
case=> e [Hs He pR pP wf].
have [Hx [s' [E Hs']]] := @shaped_x R (2 + 2) 2 2 sh x t ys us e (l_f l) x' md Hs.
exists (with_f l s'); split; first by rewrite /onf /lkf_run /k_run /KZt; cbn [orun]; rewrite E.
by split=> //; exists e; split.
Qed.

Lemma LI_state md l sh x t ys us P : LI l sh x t ys us P -> l_state md l = Ok x /\ l_cov md l = Ok P /\
  im_set (z_x (l_f l)) = true /\ ia_size (z_y (l_f l)) = Z.of_nat (length ys).
Proof.
case=> e [Hs He pR pP wf].
have [Hx _] := @shaped_x R (2 + 2) 2 2 sh x t ys us e (l_f l) x md Hs.
have [_ Ee] := shaped_e e Hs.
split; first by rewrite /l_state Hx; case: md.
split; first by rewrite /l_cov Ee; case: He => _ [-> _]; case: md.
split; first by rewrite Hx.
move: Hs {Hx Ee He}; case: sh => [].
- by case=> -> [_ [ky [ku ->]]].
- by case=> _ [_ ->].
- by case=> _ [_ ->].
- by case=> _ [_ [ku ->]].
- by case=> _ [_ ->].
Qed.

(** What an estimation does. *)
Inductive est (g : mats R (2 + 2) 2 2) : shape -> 'cV[R]_(2 + 2) -> Z -> seq 'cV[R]_2 -> seq 'cV[R]_2 -> 'M[R]_(2 + 2) ->
    shape -> 'cV[R]_(2 + 2) -> Z -> seq 'cV[R]_2 -> 'M[R]_(2 + 2) -> Prop :=
| est0 x t P : est g ShNone x t [::] [::] P ShNone x t [::] P
| est3 x t y P : est g ShDone x t [:: y] [::] P ShDone x t [:: y] P
| est1 x t y u P x' P' : step_to g P x u y x' P' -> est g ShOne x t [:: y] [:: u] P ShDone x' (nxt t) [:: y] P'
| est4 x t y0 y u P x' P' : step_to g P x u y x' P' -> est g ShNext x t [:: y0; y] [:: u] P ShDone x' (nxt t) [:: y] P'
| est2 x t y1 y2 u1 u2 P x1 P1 x2 P2 : step_to g P x u1 y1 x1 P1 -> step_to g P1 x1 u2 y2 x2 P2 ->
    est g ShTwo x t [:: y1; y2] [:: u1; u2] P ShDone x2 (nxt (nxt t)) [:: y2] P2.

Lemma estimate_ok md l sh x t ys us P : LI l sh x t ys us P ->
  exists l' sh' x' t' ys' P', onf md [:: KZt (@ZEstimate _ _ _)] l = Ok l' /\ LI l' sh' x' t' ys' [::] P' /\
    est (gm l) sh x t ys us P sh' x' t' ys' P' /\ same_but_f l l'.
Proof.
move=> HL; have gg := LI_good HL; case: HL => e [Hs He pR pP wf].
have onfE s' : k_step (@lkf_predict R (2 + 2) 2 2) (@vsum R _) (@vdiff R _) md (KZ _ _ (@ZEstimate _ _ _)) (l_f l) = Ok s' ->
    onf md [:: KZt (@ZEstimate _ _ _)] l = Ok (with_f l s').
  by move=> E; rewrite /onf /lkf_run /k_run /KZt; cbn [orun]; rewrite E.
case: sh Hs => Hs.
- exists (with_f l (l_f l)), ShNone, x, t, [::], P; split; first by apply: onfE; apply: (estimate_idle p20 md (or_introl erefl) Hs).
  case: Hs => [Ey [Eu Hs]]; split; last by rewrite Ey Eu; split=> //; constructor.
  by exists e; split.
- have Hs0 := Hs; case: Hs0 => [Ly [Lu _]]; case: ys Ly Hs => [|y [|? ?]] // _; case: us Lu => [|u [|? ?]] // _ Hs.
  have [x' [P' [e' [s' [E He' St Hs']]]]] := @estimate_next R _ _ _ p20 md x t _ _ e (l_f l) (gm l) P gg pP He (or_intror Hs) u y erefl erefl.
  exists (with_f l s'), ShDone, x', (nxt t), [:: y], P'; split; first exact: onfE.
  split; last by split=> //; apply: est1.
  by exists e'; split=> //; case: St => ? [].
- have Hs0 := Hs; case: Hs0 => [Ly [Lu _]]; case: ys Ly Hs => [|y1 [|y2 [|? ?]]] // _; case: us Lu => [|u1 [|u2 [|? ?]]] // _ Hs.
  have [x1 [P1 [x' [P' [e' [s' [E He' S1 S2 Hs']]]]]]] := @estimate_two R _ _ _ p20 md x t _ _ _ _ e (l_f l) (gm l) P gg pP He Hs.
  exists (with_f l s'), ShDone, x', (nxt (nxt t)), [:: y2], P'; split; first exact: onfE.
  split; last by split=> //; apply: est2 S1 S2.
  by exists e'; split=> //; case: S2 => ? [].
- have Hs0 := Hs; case: Hs0 => [Ly [Eu _]]; case: ys Ly Hs => [|y [|? ?]] // _; rewrite Eu => Hs.
  exists (with_f l (l_f l)), ShDone, x, t, [:: y], P; split; first by apply: onfE; apply: (estimate_idle p20 md (or_intror erefl) Hs).
  split; last by split=> //; apply: est3.
  by exists e; split.
- have Hs0 := Hs; case: Hs0 => [Ly [Lu _]]; case: ys Ly Hs => [|y0 [|y [|? ?]]] // _; case: us Lu => [|u [|? ?]] // _ Hs.
  have [x' [P' [e' [s' [E He' St Hs']]]]] := @estimate_next R _ _ _ p20 md x t _ _ e (l_f l) (gm l) P gg pP He (or_introl Hs) u y erefl erefl.
  exists (with_f l s'), ShDone, x', (nxt t), [:: y], P'; split; first exact: onfE.
  split; last by split=> //; apply: est4.
  by exists e'; split=> //; case: St => ? [].
Qed.

Definition clampx (lim : 'cV[R]_2) (po : 'M[R]_2) (x : 'cV[R]_(2 + 2)) : 'cV[R]_(2 + 2) :=
  if (0 < lim 0 0) && (0 < lim 1 0) then
    let lb := po^T *m dsubmx x in let c := \col_i clampS (lb i 0) (lim i 0) in
    col_mx (usubmx x + lb - c) (po *m c)
  else x.

Lemma same_trans (l l1 l2 : lip) : same_but_f l l1 -> same_but_f l1 l2 -> same_but_f l l2.
Proof. by move=> [[a1 a2 a3 a4 a5] [b1 b2 b3 b4 b5]] [[c1 c2 c3 c4 c5] [d1 d2 d3 d4 d5]]; split; split; congruence. Qed.
Lemma same_refl (l : lip) : same_but_f l l. Proof. by []. Qed.

Lemma update_ok md l sh x t ys us P : LI l sh x t ys us P -> lim_ok (l_lim l) ->
  exists l' sh' x' t' ys' P', l_update md l = Ok l' /\ LI l' sh' (clampx (l_lim l) (l_po l) x') t' ys' [::] P' /\
    est (gm l) sh x t ys us P sh' x' t' ys' P' /\ same_but_f l l'.
Proof.
move=> HL Hlim; have [l1 [sh' [x' [t' [ys' [P' [E [L1 [Es S1]]]]]]]]] := estimate_ok md HL.
rewrite /l_update E; cbn [obind].
have [_ [Elim _ Epo _ _]] := S1; rewrite /lim_ok in Hlim.
rewrite Elim; case: ifP => Hor.
  have Hand : (0 < l_lim l 0 0) && (0 < l_lim l 1 0).
    by move: Hor; rewrite (eqP Hlim) orbb andbb.
  rewrite Hand; have [Ex _] := LI_state md L1.
  rewrite /l_getLocalBias /l_getBias Ex; cbn [obind].
  rewrite Epo ?Elim; set lb := (l_po l)^T *m dsubmx x'; set c := \col_i _.
  have [l2 [E2 [L2 S2]]] := onf_setx md (col_mx (usubmx x') (l_po l *m c)) L1.
  rewrite {1}/l_setBias Ex; cbn [obind]; rewrite E2; cbn [obind].
  have [Ex2 _] := LI_state md L2.
  rewrite /l_getDcm Ex2; cbn [obind]; rewrite col_mxKu.
  have [l3 [E3 [L3 S3]]] := onf_setx md (col_mx (usubmx x' + lb - c) (l_po l *m c)) L2.
  rewrite /l_setDcm Ex2; cbn [obind]; rewrite col_mxKd E3.
  exists l3, sh', x', t', ys', P'; split=> //; split; first by rewrite /clampx Hand.
  by split=> //; exact: same_trans S1 (same_trans S2 S3).
exists l1, sh', x', t', ys', P'; split=> //; split; last by split.
rewrite /clampx; move: Hor; by case: (0 < l_lim l 0 0).
Qed.

(** Pushing the data of one sample. *)
Lemma push_in md l sh x t ys us P dcm zmp o : LI l sh x t ys us P ->
  sh = ShNone \/ sh = ShOne \/ sh = ShDone ->
  let A := block_mx (ulsubmx (l_A l)) (ursubmx (l_A l)) (dlsubmx (l_A l)) (o *m (l_po l)^T) in
  exists l', onf md [:: KZt (ZPushMeas dcm); KZt (ZPushInput (l_pz l)); KSt (SetA _ _ _ _ (Some A))]
      (mkL (l_om l) (l_dt l) (l_dr l) (l_zs l) zmp (l_lim l) (l_f l) A (l_R l) (l_Q l) o) = Ok l' /\
    LI l' (sh_push sh) x t (ys ++ [:: dcm]) (us ++ [:: l_pz l]) P /\
    [/\ l_om l' = l_om l, l_dt l' = l_dt l, l_dr l' = l_dr l, l_zs l' = l_zs l & l_pz l' = zmp] /\
    [/\ l_lim l' = l_lim l, l_R l' = l_R l, l_po l' = o, l_Q l' = l_Q l &
        l_A l' = block_mx (dbl 2 (1 + l_om l * l_dt l)) 0 0 (o *m (l_po l)^T)].
Proof.
move=> [e [Hs He pR pP [[o' EA] EQ]]] Hsh A.
have EA' : A = block_mx (dbl 2 (1 + l_om l * l_dt l)) 0 0 (o *m (l_po l)^T).
  by rewrite /A EA block_mxKul block_mxKur block_mxKdl.
have [s' [E Hs']] := push_ok p20 md dcm (l_pz l) Hsh Hs.
have [Hs2 Ee] := shaped_e (k_set (SetA _ _ _ _ (Some A)) e) Hs'.
exists (mkL (l_om l) (l_dt l) (l_dr l) (l_zs l) zmp (l_lim l) (with_e s' (k_set (SetA _ _ _ _ (Some A)) e)) A (l_R l) (l_Q l) o).
split.
  rewrite /onf; rewrite [lkf_run md _ _](_ : _ = obind (lkf_run md [:: KZ _ _ (ZPushMeas dcm); KZ _ _ (ZPushInput (l_pz l))] (l_f l))
    (fun s => Ok (with_e s (k_set (SetA _ _ _ _ (Some A)) (z_e s))))); first by rewrite E; cbn [obind]; rewrite Ee.
  exact: (orun_app _ [:: KZ _ _ (ZPushMeas dcm); KZ _ _ (ZPushInput (l_pz l))] [:: KS (SetA _ _ _ _ (Some A))]).
split; last by split.
exists (k_set (SetA _ _ _ _ (Some A)) e); split=> //.
  by case: (e) He => a c q r pr b dd xb yb i gg [[/= _ -> -> -> ->] [-> ->]].
by split; [exists (o *m (l_po l)^T)|].
Qed.

Lemma inputs_ok md l sh x t ys us P dcm zmp o : LI l sh x t ys us P -> lim_ok (l_lim l) ->
  exists l' sh1 x1 t1 ys1 us1 P1, l_setInputs md dcm zmp o l = Ok l' /\
    LI l' (sh_push sh1) x1 t1 (ys1 ++ [:: dcm]) (us1 ++ [:: l_pz l]) P1 /\
    ((length ys <= 1)%N -> sh1 = sh /\ x1 = x /\ t1 = t /\ ys1 = ys /\ us1 = us /\ P1 = P) /\
    ((1 < length ys)%N -> exists x', sh1 = ShDone /\ x1 = clampx (l_lim l) (l_po l) x' /\ us1 = [::] /\
        est (gm l) sh x t ys us P ShDone x' t1 ys1 P1) /\
    [/\ l_om l' = l_om l, l_dt l' = l_dt l, l_dr l' = l_dr l, l_zs l' = l_zs l & l_pz l' = zmp] /\
    [/\ l_lim l' = l_lim l, l_R l' = l_R l, l_po l' = o, l_Q l' = l_Q l &
        l_A l' = block_mx (dbl 2 (1 + l_om l * l_dt l)) 0 0 (o *m (l_po l)^T)].
Proof.
move=> HL Hlim; have [_ [_ [Hset Hsz]]] := LI_state md HL.
rewrite /l_setInputs Hset Hsz.
case: (ltnP 1 (length ys)) => Hl.
- have -> : Z.ltb (Zpos xH) (Z.of_nat (length ys)) = true by apply/Z.ltb_lt; move/ssrnat.ltP: Hl; lia.
  have [l1 [sh' [x' [t' [ys' [P' [E [L1 [Es S1]]]]]]]]] := update_ok md HL Hlim.
  rewrite E; cbn [obind].
  have Esh : sh' = ShDone by case: Es Hl.
  subst sh'; have [l2 [E2 [L2 [S2 S3]]]] := push_in md dcm zmp o L1 (or_intror (or_intror erefl)).
  rewrite E2; exists l2, ShDone, (clampx (l_lim l) (l_po l) x'), t', ys', [::], P'; split=> //.
  have [[e1 e2 e3 e4 e5] [e6 e7 e8 e9 e10]] := S1.
  rewrite e5 in L2; split=> //; split; first by [].
  split; first by move=> _; exists x'.
  by case: S2 => -> -> -> -> ->; case: S3 => -> -> -> -> ->; rewrite e1 e2 e8.
- have -> : Z.ltb (Zpos xH) (Z.of_nat (length ys)) = false by apply/Z.ltb_ge; move/ssrnat.leP: Hl; lia.
  cbn [obind].
  have Hsh : sh = ShNone \/ sh = ShOne \/ sh = ShDone.
    case: HL => e [Hs _ _ _ _]; case: sh Hs; try by [left|right; left|right; right].
    - by case=> Ly; rewrite Ly in Hl.
    - by case=> Ly; rewrite Ly in Hl.
  have [l2 [E2 [L2 [S2 S3]]]] := push_in md dcm zmp o HL Hsh.
  rewrite E2; exists l2, sh, x, t, ys, us, P; do 3!split=> //.
Qed.

Lemma reset_ok md l sh x t ys us P dcm zmp yaw wb b0 ub : LI l sh x t ys us P ->
  exists l', l_reset md dcm zmp yaw wb b0 ub l = Ok l' /\
    LI l' ShNone (if wb then col_mx (dcm - b0) b0 else col_mx dcm b0) Z0 [::] [::]
      (if wb then lipPbias (l_R l) (sqdiag ub) else block_mx (l_R l) 0 0 (sqdiag ub)) /\
    [/\ l_om l' = l_om l, l_dt l' = l_dt l, l_dr l' = l_dr l, l_zs l' = l_zs l & l_pz l' = zmp] /\
    [/\ l_lim l' = l_lim l, l_R l' = l_R l, l_po l' = yaw, l_Q l' = l_Q l & l_A l' = l_A l].
Proof.
move=> HL.
rewrite /l_reset; set x1 := (if wb then _ else _); set P1 := (if wb then lipPbias _ _ else _).
  have pR : pd (l_R l) by case: HL => e [].
  have pP1 : psd P1.
    rewrite /P1; case: (wb); [apply: psd_lipPbias|apply: psd_block]; try exact: psd_sqdiag; exact: pd_psd.
  case: HL => e [Hs He _ pP wf].
  have [s' [E Hs']] := shaped_reset p20 x1 Z0 md Hs.
  have [Hs2 Ee] := shaped_e (k_set (SetP _ _ _ _ (Some P1)) (k_set (SetP _ _ _ _ None) e)) Hs'.
  exists (mkL (l_om l) (l_dt l) (l_dr l) (l_zs l) zmp (l_lim l) (with_e s' (k_set (SetP _ _ _ _ (Some P1)) (k_set (SetP _ _ _ _ None) e))) (l_A l) (l_R l) (l_Q l) yaw).
  split.
    rewrite /onf; rewrite [lkf_run md _ _](_ : _ = obind (lkf_run md [:: KZ _ _ (@ZReset _ _ _); KZ _ _ (ZSetState x1 Z0)] (l_f l))
       (fun s => Ok (with_e s (k_set (SetP _ _ _ _ (Some P1)) (z_e s))))); first by rewrite E; cbn [obind]; rewrite Ee.
    exact: (orun_app _ [:: KZ _ _ (@ZReset _ _ _); KZ _ _ (ZSetState x1 Z0)] [:: KS (SetP _ _ _ _ (Some P1))]).
  split; last by [].
  exists (k_set (SetP _ _ _ _ (Some P1)) (k_set (SetP _ _ _ _ None) e)); split=> //.
  by case: (e) He => a c0 q r pr b dd xb yb i gg [[/= -> -> -> -> ->] [_ ->]].
Qed.

(** Any call keeps the estimator in a good state, with the expected configuration. *)
Definition cfgrel (c : lcfg R) (l : lip) : Prop :=
  [/\ l_om l = c_om c, l_dt l = c_dt c, l_zs l = c_zs c, l_dr l = c_dr c & l_R l = dblsq 2 (c_ds c)] /\
  [/\ l_lim l = c_lim c, l_po l = c_po c &
      l_Q l = block_mx (dblsq 2 (c_om c * c_dt c * c_zs c)) 0 0 (dblsq 2 (c_bias c))].
Definition LIx (l : lip) : Prop := exists sh x t ys us P, LI l sh x t ys us P.

Lemma LI_updABQ md l0 l sh x t ys us P : LI l0 sh x t ys us P -> l_f l = l_f l0 -> l_A l = l_A l0 -> l_R l = l_R l0 ->
  exists l', l_updABQ md l = Ok l' /\ LI l' sh x t ys us P /\
   [/\ l_om l' = l_om l, l_dt l' = l_dt l, l_dr l' = l_dr l, l_zs l' = l_zs l & l_pz l' = l_pz l] /\
   [/\ l_lim l' = l_lim l, l_R l' = l_R l, l_po l' = l_po l, l_Q l' = lipQ 2 (l_om l) (l_dt l) (l_zs l) (l_dr l) &
       drsubmx (l_A l') = drsubmx (l_A l)].
Proof.
case=> e [Hs [[EA EB EC EQ ER] [EP ED]] pR pP wf] Ef EA' ER'; have [U0 D0] := wfl_A wf.
by apply: (updABQ_ok md (e := e)); rewrite ?Ef ?EA' ?ER'.
Qed.

Lemma same_cfg c l l' : same_but_f l l' -> cfgrel c l -> cfgrel c l'.
Proof. by move=> [[e1 e2 e3 e4 e5] [e6 e7 e8 e9 e10]] [[h1 h2 h3 h4 h5] [h6 h7 h8]]; split; split; congruence. Qed.

Lemma step_ok md o c l : LIx l -> cfgrel c l -> op_lim_ok o -> lim_ok (l_lim l) ->
  exists l', l_step md o l = Ok l' /\ LIx l' /\ cfgrel (c_step o c) l'.
Proof.
move=> [sh [x [t [ys [us [P HL]]]]]] Hc Ho Hl.
have [Est [Ecov _]] := LI_state md HL.
have cE : cfgrel c l -> [/\ l_om l = c_om c, l_dt l = c_dt c, l_zs l = c_zs c, l_dr l = c_dr c & l_R l = dblsq 2 (c_ds c)] /\
  [/\ l_lim l = c_lim c, l_po l = c_po c &
      l_Q l = block_mx (dblsq 2 (c_om c * c_dt c * c_zs c)) 0 0 (dblsq 2 (c_bias c))] by [].
have [[h1 h2 h3 h4 h5] [h6 h7 h8]] := cE Hc.
case: o Ho => [dcm zmp yaw wb b0 ub|om|dt|dr|zs|ds|lim|b|b u|x1|x1 u||dcm zmp o] Ho; cbn [l_step c_step].
- have [l' [E [HL' [[e1 e2 e3 e4 e5] [e6 e7 e8 e9 e10]]]]] := reset_ok md dcm zmp yaw wb b0 ub HL.
  exists l'; split=> //; split; last by split; split=> /=; congruence.
  by do 6!eexists; exact: HL'.
- have [l' [E [HL' [[e1 e2 e3 e4 e5] [e6 e7 e8 e9 e10]]]]] := @LI_updABQ md l (mkL om (l_dt l) (l_dr l) (l_zs l) (l_pz l) (l_lim l) (l_f l) (l_A l) (l_R l) (l_Q l) (l_po l)) _ _ _ _ _ _ HL erefl erefl erefl.
  exists l'; split=> //; split; first by exists sh, x, t, ys, us, P.
  by cbn in e1, e2, e3, e4, e6, e7, e8, e9; split; split=> /=; rewrite ?e9 ?/lipQ -?h1 -?h2 -?h3 -?h4; congruence.
- have [l' [E [HL' [[e1 e2 e3 e4 e5] [e6 e7 e8 e9 e10]]]]] := @LI_updABQ md l (mkL (l_om l) dt (l_dr l) (l_zs l) (l_pz l) (l_lim l) (l_f l) (l_A l) (l_R l) (l_Q l) (l_po l)) _ _ _ _ _ _ HL erefl erefl erefl.
  exists l'; split=> //; split; first by exists sh, x, t, ys, us, P.
  by cbn in e1, e2, e3, e4, e6, e7, e8, e9; split; split=> /=; rewrite ?e9 ?/lipQ -?h1 -?h2 -?h3 -?h4; congruence.
- rewrite /l_setDrift; set Q := block_mx (ulsubmx _) _ _ _.
  have EQ : Q = block_mx (dblsq 2 (l_om l * l_dt l * l_zs l)) 0 0 (dblsq 2 dr).
    by rewrite /Q h8 block_mxKul block_mxKur block_mxKdl h1 h2 h3.
  case: HL => e [Hs He pR pP [wA _]].
  have [Hs2 Ee] := shaped_e (k_set (SetQ _ _ _ _ (Some Q)) e) Hs.
  exists (mkL (l_om l) (l_dt l) (l_dr l) (l_zs l) (l_pz l) (l_lim l) (with_e (l_f l) (k_set (SetQ _ _ _ _ (Some Q)) e)) (l_A l) (l_R l) Q (l_po l)).
  split; first by rewrite /onf /lkf_run /k_run /= Ee.
  split; last by split; split=> //=; rewrite EQ h1 h2 h3.
  exists sh, x, t, ys, us, P; exists (k_set (SetQ _ _ _ _ (Some Q)) e); split=> //.
    by case: (e) He => a c0 q r pr b dd xb yb i gg [[/= -> -> -> _ ->] [-> ->]].
  by split=> //; exists dr.
- have [l' [E [HL' [[e1 e2 e3 e4 e5] [e6 e7 e8 e9 e10]]]]] := @LI_updABQ md l (mkL (l_om l) (l_dt l) (l_dr l) zs (l_pz l) (l_lim l) (l_f l) (l_A l) (l_R l) (l_Q l) (l_po l)) _ _ _ _ _ _ HL erefl erefl erefl.
  exists l'; split=> //; split; first by exists sh, x, t, ys, us, P.
  by cbn in e1, e2, e3, e4, e6, e7, e8, e9; split; split=> /=; rewrite ?e9 ?/lipQ -?h1 -?h2 -?h3 -?h4; congruence.
- by exists l; split=> //; split=> //; exists sh, x, t, ys, us, P.
- exists (l_setLim lim l); split=> //; split; last by split; split.
  by exists sh, x, t, ys, us, P.
- rewrite /l_setBias Est; cbn [obind]; have [l' [E [HL' S']]] := onf_setx md (col_mx (usubmx x) b) HL.
  exists l'; split=> //; split; last exact: same_cfg S' Hc.
  by exists sh, (col_mx (usubmx x) b), t, ys, us, P.
- rewrite /l_setBiasU /l_setBias Est; cbn [obind]; have [l' [E [HL' S']]] := onf_setx md (col_mx (usubmx x) b) HL.
  rewrite E; cbn [obind]; have [_ [Ecov' _]] := LI_state md HL'; rewrite Ecov'; cbn [obind].
  have pP : psd P by case: HL => e [].
  have [l2 [E2 [HL2 S2]]] := onfP md HL' (psd_setPbias pP (psd_sqdiag u)).
  exists l2; split=> //; split; last exact: same_cfg S2 (same_cfg S' Hc).
  by exists sh, (col_mx (usubmx x) b), t, ys, us, (setPbias P (sqdiag u)).
- rewrite /l_setDcm Est; cbn [obind]; have [l' [E [HL' S']]] := onf_setx md (col_mx x1 (dsubmx x)) HL.
  exists l'; split=> //; split; last exact: same_cfg S' Hc.
  by exists sh, (col_mx x1 (dsubmx x)), t, ys, us, P.
- rewrite /l_setDcmU /l_setDcm Est; cbn [obind]; have [l' [E [HL' S']]] := onf_setx md (col_mx x1 (dsubmx x)) HL.
  rewrite E; cbn [obind]; have [_ [Ecov' _]] := LI_state md HL'; rewrite Ecov'; cbn [obind].
  have pP : psd P by case: HL => e [].
  have [l2 [E2 [HL2 S2]]] := onfP md HL' (psd_setPdcm pP (psd_sqdiag u)).
  exists l2; split=> //; split; last exact: same_cfg S2 (same_cfg S' Hc).
  by exists sh, (col_mx x1 (dsubmx x)), t, ys, us, (setPdcm P (sqdiag u)).
- have [l' [sh' [x' [t' [ys' [P' [E [L' [_ S']]]]]]]]] := update_ok md HL Hl.
  exists l'; split=> //; split; last exact: same_cfg S' Hc.
  by exists sh', (clampx (l_lim l) (l_po l) x'), t', ys', [::], P'.
- have [l' [sh1 [x1 [t1 [ys1 [us1 [P1 [E [L' [_ [_ [[e1 e2 e3 e4 e5] [e6 e7 e8 e9 e10]]]]]]]]]]]]] := inputs_ok md dcm zmp o HL Hl.
  exists l'; split=> //; split; last by split; split=> /=; congruence.
  by exists (sh_push sh1), x1, t1, (ys1 ++ [:: dcm]), (us1 ++ [:: l_pz l]), P1.
Qed.

Lemma run_ok md ops c l : LIx l -> cfgrel c l -> lim_ok (c_lim c) -> all (@op_lim_ok R) ops ->
  exists l', l_run md ops l = Ok l' /\ LIx l' /\ cfgrel (c_run ops c) l' /\ lim_ok (c_lim (c_run ops c)).
Proof.
elim: ops c l => [|o ops IH] c l HL Hc Hl; first by exists l.
case/andP=> Ho Hos; have Hl' : lim_ok (l_lim l) by case: Hc => _ [->].
have [l1 [E [HL1 Hc1]]] := step_ok md HL Hc Ho Hl'.
have Hl1 : lim_ok (c_lim (c_step o c)) by case: o Ho {E Hc1 Hos} => //=.
have [l2 [E2 H2]] := IH _ _ HL1 Hc1 Hl1 Hos.
by exists l2; rewrite /l_run /=; rewrite E; cbn [obind].
Qed.

(** From the constructor. *)
Lemma new_run_ok md dt om dr ds zs lim z0 x0 b0 ux ub ops : ds != 0 -> lim_ok lim -> all (@op_lim_ok R) ops ->
  exists l l', [/\ l_new md dt om dr ds zs lim z0 x0 b0 ux ub = Ok l, l_run md ops l = Ok l', LIx l' &
    cfgrel (c_run ops (c_new dt om dr ds zs lim)) l'] /\ lim_ok (c_lim (c_run ops (c_new dt om dr ds zs lim))).
Proof.
move=> ds0 Hl Ho; have [l [E [HL [[e1 e2 e3 e4 e5] [e6 e7 e8 e9 e10]]]]] := new_ok md dt om dr zs lim z0 x0 b0 ux ub ds0.
have [l' [E' [HL' [Hc' Hl']]]] := @run_ok md ops (c_new dt om dr ds zs lim) l (ex_intro _ ShNone (ex_intro _ (col_mx x0 b0) (ex_intro _ Z0 (ex_intro _ [::] (ex_intro _ [::] (ex_intro _ _ HL)))))) (conj (And5 e1 e2 e4 e3 e7) (And3 e6 e8 e9)) Hl Ho.
by exists l, l'.
Qed.

(** One sample followed by an update. *)
Lemma sample_ok md l sh x t ys us P dcm zmp o : LI l sh x t ys us P -> lim_ok (l_lim l) -> sh = ShNone \/ sh = ShDone ->
  exists l' x' P', l_run md [:: LInputs dcm zmp o; LUpdate R] l = Ok l' /\
   LI l' ShDone (clampx (l_lim l) o x') (nxt t) [:: dcm] [::] P' /\
   step_to (mkM (block_mx (dbl 2 (1 + l_om l * l_dt l)) 0 0 (o *m (l_po l)^T)) (lipB 2 (l_om l) (l_dt l)) (lipC R 2) (l_Q l) (l_R l))
     P x (l_pz l) dcm x' P' /\
    [/\ l_om l' = l_om l, l_dt l' = l_dt l, l_dr l' = l_dr l, l_zs l' = l_zs l & l_pz l' = zmp] /\
    [/\ l_lim l' = l_lim l, l_R l' = l_R l, l_po l' = o & l_Q l' = l_Q l].
Proof.
move=> HL Hlim Hsh.
have [l1 [sh1 [x1 [t1 [ys1 [us1 [P1 [E1 [L1 [Hn [_ [F1 G1]]]]]]]]]]]] := inputs_ok md dcm zmp o HL Hlim.
have [Eus Hys] : us = [::] /\ (length ys <= 1)%N.
  case: HL => e [Hs _ _ _ _]; case: Hsh Hs => -> [Hy [Hu _]]; first by rewrite Hy.
  by split=> //; rewrite Hy.
have [e1 [e2 [e3 [e4 [e5 e6]]]]] := Hn Hys.
have Hlim1 : lim_ok (l_lim l1) by case: G1 => ->.
have [l2 [sh2 [x2 [t2 [ys2 [P2 [E2 [L2 [Es S2]]]]]]]]] := update_ok md L1 Hlim1.
have Egm : gm l1 = mkM (block_mx (dbl 2 (1 + l_om l * l_dt l)) 0 0 (o *m (l_po l)^T)) (lipB 2 (l_om l) (l_dt l)) (lipC R 2) (l_Q l) (l_R l).
  by rewrite /gm; case: F1 => -> -> _ _ _; case: G1 => _ -> _ -> ->.
move: Es; rewrite Egm e1 e2 e3 e4 e5 e6 Eus => Es.
have [Elim1 Epo1] : l_lim l1 = l_lim l /\ l_po l1 = o by case: G1.
rewrite Elim1 Epo1 in L2.
have Hres : sh2 = ShDone /\ t2 = nxt t /\ ys2 = [:: dcm] /\ step_to (mkM (block_mx (dbl 2 (1 + l_om l * l_dt l)) 0 0 (o *m (l_po l)^T)) (lipB 2 (l_om l) (l_dt l)) (lipC R 2) (l_Q l) (l_R l)) P x (l_pz l) dcm x2 P2.
  case: Hsh => Esh; rewrite Esh in Es HL; case: HL => e [[Hy _] _ _ _ _].
  - by rewrite Hy in Es; inversion Es; subst.
  - case: ys Hy Es {Hys Hn e4} => [|y [|? ?]] // _ Es; by inversion Es; subst.
case: Hres => Esh [Et [Eys St]]; subst sh2 t2 ys2.
exists l2, x2, P2; split; first by rewrite /l_run /=; rewrite E1; cbn [obind]; rewrite E2.
split=> //; split=> //.
case: S2 => [[a1 a2 a3 a4 a5] [b1 b2 b3 b4 b5]]; case: F1 => f1 f2 f3 f4 f5; case: G1 => g1 g2 g3 g4 g5.
by split; split; congruence.
Qed.

Lemma clampx_id (lim : 'cV[R]_2) (o : 'M[R]_2) (xi bl : 'cV[R]_2) : orth o ->
  ((0 < lim 0 0) && (0 < lim 1 0) -> forall i, - lim i 0 <= bl i 0 <= lim i 0) ->
  clampx lim o (col_mx xi (o *m bl)) = col_mx xi (o *m bl).
Proof.
move=> [oo _] Hb; rewrite /clampx; case: ifP => // Hl; have {}Hb := Hb Hl.
rewrite col_mxKd col_mxKu mulmxA oo mul1mx.
have -> : \col_i clampS (bl i 0) (lim i 0) = bl.
  apply/colP => i; rewrite !mxE /clampS; have /andP[H1 H2] := Hb i.
  by rewrite !ltNge H1 H2.
by rewrite addrK.
Qed.

(** Exact estimates stay exact. *)
Lemma step_exact (g : mats R (2 + 2) 2 2) P x u y x' P' : step_to g P x u y x' P' ->
  y = mC g *m (mA g *m x + mB g *m u) -> x' = mA g *m x + mB g *m u :> 'cV[R]_(2 + 2).
Proof. by move=> [K [[_ _ -> _] _]] ->; rewrite subrr mulmx0 addr0. Qed.

Lemma samples_exact md om dt (xi z : nat -> 'cV[R]_2) (o : nat -> 'M[R]_2) (bl : 'cV[R]_2) :
  (forall i, xi i.+1 = (1 + om * dt) *: xi i - (om * dt) *: z i) -> (forall i, orth (o i)) ->
  forall k j l sh t ys us P, LI l sh (col_mx (xi j) (o j *m bl)) t ys us P -> sh = ShNone \/ sh = ShDone ->
    lim_ok (l_lim l) -> ((0 < l_lim l 0 0) && (0 < l_lim l 1 0) -> forall i, - l_lim l i 0 <= bl i 0 <= l_lim l i 0) ->
    l_om l = om -> l_dt l = dt -> l_pz l = z j -> l_po l = o j ->
  exists l' sh' t' ys' us' P', l_run md (samples [seq (xi i + o i *m bl, z i, o i) | i <- iota j.+1 k]) l = Ok l' /\
    LI l' sh' (col_mx (xi (j + k)%N) (o (j + k)%N *m bl)) t' ys' us' P' /\ l_po l' = o (j + k)%N.
Proof.
move=> dyn ort k; elim: k => [|k IH] j l sh t ys us P HL Hsh Hl Hb Eom Edt Epz Epo.
  by exists l, sh, t, ys, us, P; rewrite addn0.
have [l1 [x' [P' [E1 [L1 [St [F1 G1]]]]]]] := sample_ok md (xi j.+1 + o j.+1 *m bl) (z j.+1) (o j.+1) HL Hl Hsh.
have Ex : x' = col_mx (xi j.+1) (o j.+1 *m bl).
  have Epred : block_mx (dbl 2 (1 + l_om l * l_dt l)) 0 0 (o j.+1 *m (l_po l)^T) *m col_mx (xi j) (o j *m bl) + lipB 2 (l_om l) (l_dt l) *m l_pz l
    = col_mx (xi j.+1) (o j.+1 *m bl).
    rewrite mul_block_col !mul0mx addr0 add0r /lipB mul_col_mx mul0mx add_col_mx addr0 Eom Edt Epz Epo.
    rewrite mulmxA -(mulmxA (o j.+1)) (ort j).1 mulmx1 /dbl !mul_scalar_mx dyn.
    by rewrite mulNr scaleNr.
  by rewrite (step_exact St) /= ?Epred // /lipC mul_row_col !mul1mx.
have [e1 e2 e3 e4 e5] := F1; have [g1 g2 g3 g4] := G1.
rewrite Ex (clampx_id _ (ort j.+1) Hb) in L1.
have Hl1 : lim_ok (l_lim l1) by rewrite g1.
have Hb1 : (0 < l_lim l1 0 0) && (0 < l_lim l1 1 0) -> forall i, - l_lim l1 i 0 <= bl i 0 <= l_lim l1 i 0 by rewrite g1.
have [l2 [sh2 [t2 [ys2 [us2 [P2 [E2 H2]]]]]]] := IH j.+1 l1 ShDone _ _ _ _ L1 (or_intror erefl) Hl1 Hb1 (etrans e1 Eom) (etrans e2 Edt) e5 g3.
exists l2, sh2, t2, ys2, us2, P2; rewrite addnS -addSn; split=> //.
have -> : l_run md (samples [seq (xi i + o i *m bl, z i, o i) | i <- iota j.+1 k.+1]) l =
   obind (l_run md [:: LInputs (xi j.+1 + o j.+1 *m bl) (z j.+1) (o j.+1); LUpdate R] l)
     (l_run md (samples [seq (xi i + o i *m bl, z i, o i) | i <- iota j.+2 k])).
  exact: (orun_app _ [:: LInputs (xi j.+1 + o j.+1 *m bl) (z j.+1) (o j.+1); LUpdate R]).
by rewrite E1.
Qed.

(** The update with the clamp compared with the same update with the limits off. *)
Lemma update_off md l sh x t ys us P (lim0 : 'cV[R]_2) : LI l sh x t ys us P -> ~~ (0 < lim0 0 0) && ~~ (0 < lim0 1 0) ->
  exists l1 sh' x' t' ys' P', onf md [:: KZt (@ZEstimate _ _ _)] l = Ok l1 /\ LI l1 sh' x' t' ys' [::] P' /\
    est (gm l) sh x t ys us P sh' x' t' ys' P' /\ same_but_f l l1 /\
    l_update md (l_setLim lim0 l) = Ok (l_setLim lim0 l1) /\ LI (l_setLim lim0 l1) sh' x' t' ys' [::] P'.
Proof.
move=> HL Hoff; have [l1 [sh' [x' [t' [ys' [P' [E [L1 [Es S1]]]]]]]]] := estimate_ok md HL.
exists l1, sh', x', t', ys', P'; split=> //; split=> //; split=> //; split=> //; split; last exact: L1.
rewrite /l_update; have -> : onf md [:: KZt (@ZEstimate _ _ _)] (l_setLim lim0 l) = Ok (l_setLim lim0 l1).
  by move: E; rewrite /onf; cbn [l_setLim l_f]; case: lkf_run => //= f [<-].
cbn [obind l_setLim l_lim]; by move: Hoff; case: (0 < lim0 0 0); case: (0 < lim0 1 0).
Qed.
Lemma update_both md l sh x t ys us P (lim0 : 'cV[R]_2) : LI l sh x t ys us P -> lim_ok (l_lim l) -> ~~ (0 < lim0 0 0) && ~~ (0 < lim0 1 0) ->
  exists l' l1 x1, [/\ l_update md l = Ok l', l_update md (l_setLim lim0 l) = Ok (l_setLim lim0 l1),
    l_state md (l_setLim lim0 l1) = Ok x1, l_state md l' = Ok (clampx (l_lim l) (l_po l) x1) & l_po l' = l_po l].
Proof.
move=> HL Hlim Hoff; have [l1 [sh' [x' [t' [ys' [P' [E [L1 [Es [S1 [E1 L1']]]]]]]]]]] := update_off md HL Hoff.
rewrite /l_update E; cbn [obind]; rewrite -/(l_update _ _).
have [_ [Elim _ Epo _ _]] := S1; rewrite /lim_ok in Hlim.
have [Ex1 _] := LI_state md L1'.
rewrite Elim; case: ifP => Hor.
  have Hand : (0 < l_lim l 0 0) && (0 < l_lim l 1 0).
    by move: Hor; rewrite (eqP Hlim) orbb andbb.
  rewrite Hand; have [Ex _] := LI_state md L1.
  rewrite /l_getLocalBias /l_getBias Ex; cbn [obind].
  rewrite Epo ?Elim; set lb := (l_po l)^T *m dsubmx x'; set c := \col_i _.
  have [l2 [E2 [L2 S2]]] := onf_setx md (col_mx (usubmx x') (l_po l *m c)) L1.
  rewrite {1}/l_setBias Ex; cbn [obind]; rewrite E2; cbn [obind].
  have [Ex2 _] := LI_state md L2.
  rewrite /l_getDcm Ex2; cbn [obind]; rewrite col_mxKu.
  have [l3 [E3 [L3 S3]]] := onf_setx md (col_mx (usubmx x' + lb - c) (l_po l *m c)) L2.
  rewrite /l_setDcm Ex2; cbn [obind]; rewrite col_mxKd E3.
  have [Ex3 _] := LI_state md L3.
  exists l3, l1, x'; split=> //; first by rewrite Ex3 /clampx Hand.
  by case: S3 => _ [_ _ -> _ _]; case: S2 => _ [_ _ -> _ _].
have [Ex _] := LI_state md L1.
exists l1, l1, x'; split=> //; rewrite Ex /clampx; move: Hor; by case: (0 < l_lim l 0 0).
Qed.

Lemma clampS_bounds (x lim : R) : 0 < lim -> - lim <= clampS x lim <= lim.
Proof.
move=> l0; have nl : - lim <= lim by apply: le_trans (ltW l0); rewrite oppr_le0 ltW.
rewrite /clampS; case: ltP => [_|H1]; first by rewrite nl lexx.
by case: ltP => [_|H2]; [rewrite nl lexx|rewrite H1 H2].
Qed.

Lemma clampS_near (x lim v : R) : 0 < lim -> - lim <= v <= lim -> `|clampS x lim - x| <= `|v - x|.
Proof.
move=> l0 /andP[v1 v2]; rewrite /clampS; case: ltP => [H|H1].
  have vx := le_trans v2 (ltW H).
  by rewrite [`|lim - x|]ler0_norm ?subr_le0 ?(ltW H) // [`|v - x|]ler0_norm ?subr_le0 // ler_opp2 ler_add2r.
case: ltP => [H|H2]; last by rewrite subrr normr0.
have vx := le_trans (ltW H) v1.
by rewrite [`|- lim - x|]ger0_norm ?subr_ge0 ?(ltW H) // [`|v - x|]ger0_norm ?subr_ge0 // ler_add2r.
Qed.

Lemma c_run_orth ops (c : lcfg R) : orth (c_po c) -> (forall o, List.In o ops -> op_orth o) -> orth (c_po (c_run ops c)).
Proof.
elim: ops c => [//|o ops IH] c Hc Ho; apply: IH; last by move=> o' Ho'; apply: Ho; right.
by have := Ho o (or_introl erefl); case: o {Ho} => /=.
Qed.

(** What the filter contains. *)
Lemma LIx_filter l : LIx l -> exists o, [/\ kA (z_e (l_f l)) = Some (block_mx (dbl 2 (1 + l_om l * l_dt l)) 0 0 o),
  kB (z_e (l_f l)) = Some (lipB 2 (l_om l) (l_dt l)), kC (z_e (l_f l)) = Some (lipC R 2), kQ (z_e (l_f l)) = Some (l_Q l) &
  kR (z_e (l_f l)) = Some (l_R l)].
Proof.
move=> [sh [x [t [ys [us [P [e [Hs [[EA EB EC EQ ER] _] _ _ [[o EAo] _]]]]]]]]].
by have [_ ->] := shaped_e e Hs; exists o; split=> //; rewrite EA /= EAo.
Qed.

Lemma l_run_app md (a b : list (l_op R)) l : l_run md (a ++ b) l = obind (l_run md a l) (l_run md b).
Proof. exact: (orun_app (l_step md) a b l). Qed.
Lemma l_run_cons md o (a : list (l_op R)) l : l_run md (o :: a) l = obind (l_step md o l) (l_run md a).
Proof. by []. Qed.
Lemma l_run_nil md (l : lip) : l_run md [::] l = Ok l.
Proof. by []. Qed.
End Planar.
