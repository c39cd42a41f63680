(** Errors of the LIPM estimator with noisy data. *)
From Coq Require Import ZArith List Lia.
From mathcomp Require Import all_ssreflect all_algebra.
From Verif Require Import Base Defs ZDO MxLib Cholesky Kalman KFilter KFProofs Lipm SpecLipm LipmFilter LipmProofs KalmanLS KalmanLSThms KalmanBound.
Set Implicit Arguments.
Unset Strict Implicit.
Unset Printing Implicit Defensive.
Import Order.TTheory GRing.Theory Num.Theory.
Open Scope ring_scope.

Section Blocks.
Variable R : rcfType.
Lemma sqnN n (v : 'cV[R]_n) : sqn (- v) = sqn v.
Proof. by apply: eq_bigr => i _; rewrite mxE sqrrN. Qed.
Lemma sqn_tr n (v : 'cV[R]_n) : sqn v = (v^T *m v) 0 0.
Proof. by rewrite mxE; apply: eq_bigr => i _; rewrite mxE expr2. Qed.
Lemma sqn_orth (o : 'M[R]_2) v : orth o -> sqn (o *m v) = sqn v.
Proof. by case=> oo _; rewrite !sqn_tr trmx_mul -mulmxA (mulmxA o^T) oo mul1mx. Qed.
Lemma within_factor n q (F : 'M[R]_(n, q)) (z : 'cV[R]_q) : within (F *m F^T) (F *m z) (sqn z).
Proof. by have := within_cong F (within_1 z); rewrite mulmx1. Qed.
Lemma within_dblsq d (s : R) (v : 'cV[R]_d) : within (dblsq d s) (s *: v) (sqn v).
Proof. by have := within_factor s%:M v; rewrite tr_scalar_mx -scalar_mxM mul_scalar_mx. Qed.
Lemma within_sqdiag d (u b : 'cV[R]_d) : within (sqdiag u) (\col_i (u i 0 * b i 0)) (sqn b).
Proof.
have := within_factor (diag_mx u^T) b.
have -> : diag_mx u^T *m (diag_mx u^T)^T = sqdiag u.
  by rewrite tr_diag_mx mulmx_diag; congr diag_mx; apply/rowP => i; rewrite !mxE expr2.
have -> : diag_mx u^T *m b = \col_i (u i 0 * b i 0); last by [].
by apply/colP => i; rewrite mul_diag_mx !mxE.
Qed.
Lemma qf_block d (P Q : 'M[R]_d) (g : 'cV[R]_(d + d)) : qf (block_mx P 0 0 Q) g = qf P (usubmx g) + qf Q (dsubmx g).
Proof.
rewrite -{1}[g]vsubmxK /qf tr_col_mx mul_row_block !mulmx0 addr0 add0r mul_row_col mxE.
by [].
Qed.
Lemma within_block d (P Q : 'M[R]_d) e f c c' : psd P -> psd Q -> 0 <= c -> 0 <= c' -> within P e c -> within Q f c' -> within (block_mx P 0 0 Q) (col_mx e f) (c + c').
Proof.
move=> pP pQ c0 c1 He Hf g; rewrite qf_block -{1}[g]vsubmxK tr_col_mx mul_row_col mxE.
by apply: num_cs; [apply: pP.2|apply: pQ.2| | |apply: He|apply: Hf].
Qed.

(** The initial errors after a reset on measurements. *)
Lemma within_reset (ds : R) (dcm b0 ub xi bt v be : 'cV[R]_2) (wb : bool) :
  dcm = xi + (if wb then bt else 0) + ds *: v -> bt = b0 + \col_i (ub i 0 * be i 0) ->
  within (if wb then lipPbias (dblsq 2 ds) (sqdiag ub) else block_mx (dblsq 2 ds) 0 0 (sqdiag ub))
    (col_mx xi bt - (if wb then col_mx (dcm - b0) b0 else col_mx dcm b0)) (sqn v + sqn be).
Proof.
move=> Ed Eb; set u := \col_i _ in Eb.
have W : within (block_mx (dblsq 2 ds) 0 0 (sqdiag ub)) (col_mx (ds *: (- v)) u) (sqn v + sqn be).
  apply: within_block; [exact: psd_dblsq|exact: psd_sqdiag|exact: sqn_ge0|exact: sqn_ge0| |exact: within_sqdiag].
  by rewrite -(sqnN v); exact: within_dblsq.
case: wb Ed => Ed.
- have := within_cong (block_mx 1%:M (- 1%:M) 0 1%:M) W.
  have -> : block_mx 1%:M (- 1%:M) 0 1%:M *m block_mx (dblsq 2 ds) 0 0 (sqdiag ub) *m (block_mx 1%:M (- 1%:M) 0 1%:M)^T = lipPbias (dblsq 2 ds) (sqdiag ub).
    rewrite tr_block_mx !mulmx_block !trmx0 !linearN /= !trmx1 !mulmx0 !mul0mx !mulmx1 !mul1mx !mulNmx ?mulmxN ?mul1mx ?mulmx1 ?addr0 ?add0r ?opprK.
    by rewrite /lipPbias addrC.
  have -> : block_mx 1%:M (- 1%:M) 0 1%:M *m col_mx (ds *: - v) u = col_mx xi bt - col_mx (dcm - b0) b0; last by [].
  rewrite mul_block_col mulNmx !mul1mx mul0mx add0r opp_col_mx add_col_mx; congr col_mx; last by rewrite Eb addrC addKr.
  rewrite Ed Eb scalerN; set d := ds *: v.
  have -> : xi + (b0 + u) + d - b0 = xi + (u + d) by rewrite [b0 + u]addrC addrA addrAC addrK addrA.
  by rewrite opprD addrA subrr add0r opprD addrC.
- have -> : col_mx xi bt - col_mx dcm b0 = col_mx (ds *: - v) u; last by [].
  rewrite opp_col_mx add_col_mx; congr col_mx; last by rewrite Eb addrC addKr.
  by rewrite Ed addr0 opprD addrA subrr add0r scalerN.
Qed.
End Blocks.

Section Run.
Variable R : rcfType.
(** After a correction, the variance of the predicted measurement is not larger than that of the measurement noise. *)
Lemma step_fit n m p (g : mats R n m p) P x u y x' P' : good g -> psd P -> step_to g P x u y x' P' -> loewner (mC g *m P' *m (mC g)^T) (mR g).
Proof.
move=> [pQ pR] pP [K [[KS Su _ ->] _]] v; set Pb := _ + mQ g in KS Su *; set C := mC g in KS Su *; set Rm := mR g in KS Su pR *; set S := _ + Rm in KS Su.
have pPb : psd Pb by apply: psdD => //; apply: psd_cong.
have pS : pd S by apply: pdD => //; apply: psd_cong.
have ES : S = k_inoCov C Rm Pb by rewrite /k_inoCov addrC mulmxA.
have EP : joseph C Rm Pb K = (1%:M - K *m C) *m Pb by rewrite -(covUpdate_joseph pPb.1 pR.1 (etrans (congr1 (mulmx K) (esym ES)) KS)) /k_covUpdate mulNmx addrC.
have E1 : (1%:M - K *m C) *m Pb *m C^T = K *m Rm by rewrite mulmxBl mul1mx mulmxBl -KS /S mulmxDr !mulmxA addrAC subrr add0r.
have E2 : C *m K = 1%:M - Rm *m invmx S.
  have -> : C *m K = (C *m K *m S) *m invmx S by rewrite mulmxK.
  have -> : C *m K *m S = S - Rm by rewrite -mulmxA KS /S mulmxA addrK.
  by rewrite mulmxBl mulmxV.
have -> : C *m joseph C Rm Pb K *m C^T = Rm - Rm *m invmx S *m Rm^T by rewrite EP -mulmxA E1 mulmxA E2 mulmxBl mul1mx pR.1.
by rewrite qfB ger_addl oppr_le0; apply: (psd_cong Rm (pd_psd (pd_inv pS))).2.
Qed.
Definition fits (ds : R) (P : 'M[R]_(2 + 2)) : Prop := forall g : 'cV[R]_2, qf P (col_mx g g) <= ds ^+ 2 * sqn g.
Lemma samples_within md (om dt zs bs ds : R) (xi z ze bl d v : nat -> 'cV[R]_2) (o : nat -> 'M[R]_2) :
  (forall i, xi i.+1 = (1 + om * dt) *: xi i - (om * dt) *: (z i + zs *: ze i)) -> (forall i, bl i.+1 = bl i + bs *: d i) -> (forall i, orth (o i)) ->
  forall k j l sh x t ys us P c (b : bool), LI l sh x t ys us P -> (b -> fits ds P) -> sh = ShNone \/ sh = ShDone -> (forall i, l_lim l i 0 <= 0) ->
    l_om l = om -> l_dt l = dt -> l_pz l = z j -> l_po l = o j -> l_Q l = block_mx (dblsq 2 (om * dt * zs)) 0 0 (dblsq 2 bs) -> l_R l = dblsq 2 ds ->
    0 <= c -> within P (col_mx (xi j) (o j *m bl j) - x) c ->
  exists l' sh' x' t' ys' us' P', l_run md (samples [seq (xi i + o i *m bl i + ds *: v i, z i, o i) | i <- iota j.+1 k]) l = Ok l' /\
    LI l' sh' x' t' ys' us' P' /\ (b || (0 < k)%N -> fits ds P') /\
    within P' (col_mx (xi (j + k)%N) (o (j + k)%N *m bl (j + k)%N) - x') (c + \sum_(i < k) (sqn (ze (j + i)%N) + sqn (d (j + i)%N) + sqn (v (j + i).+1))).
Proof.
move=> dyn drift ort k; elim: k => [|k IH] j l sh x t ys us P c b HL Hb Hsh Hl Eom Edt Epz Epo EQ ER c0 H0.
  by exists l, sh, x, t, ys, us, P; rewrite addn0 big_ord0 addr0 orbF.
have Hoff i : (0 < l_lim l i 0) = false by apply/negbTE; rewrite -leNgt.
have Hl2 : lim_ok (l_lim l) by rewrite /lim_ok !Hoff.
have [l1 [x' [P' [E1 [L1 [St [F1 G1]]]]]]] := sample_ok md (xi j.+1 + o j.+1 *m bl j.+1 + ds *: v j.+1) (z j.+1) (o j.+1) HL Hl2 Hsh.
have [e1 e2 e3 e4 e5] := F1; have [g1 g2 g3 g4] := G1.
rewrite /clampx Hoff /= in L1.
have pP : psd P by case: HL => e [].
have pR : psd (dblsq 2 ds) by apply: psd_dblsq.
have pQ : psd (block_mx (dblsq 2 (om * dt * zs)) 0 0 (dblsq 2 bs) : 'M[R]_(2 + 2)) by exact: psd_lipQ.
have Hf : fits ds P'.
  have pR' : pd (dblsq 2 ds) by rewrite -ER; case: HL => e [].
  have Hg : good (mkM (block_mx (dbl 2 (1 + l_om l * l_dt l)) 0 0 (o j.+1 *m (l_po l)^T)) (lipB 2 (l_om l) (l_dt l)) (lipC R 2) (l_Q l) (l_R l)) by split=> /=; rewrite ?EQ ?ER.
  move=> g; have := step_fit Hg pP St g; rewrite /= qf_cong ER /lipC tr_row_mx trmx1 mul_col_mx !mul1mx.
  by rewrite /dblsq -(scalemx1 _ (ds * ds)) qfZ qf_scalar expr2.
have H1 : within P' (col_mx (xi j.+1) (o j.+1 *m bl j.+1) - x') (c + (sqn (ze j) + sqn (d j)) + sqn (v j.+1)).
  case: St => K [[_ _ -> ->] _] /=; rewrite EQ ER Eom Edt Epz Epo.
  set A := block_mx _ _ _ (o j.+1 *m _).
  have Hw : within (block_mx (dblsq 2 (om * dt * zs)) 0 0 (dblsq 2 bs)) (col_mx ((om * dt * zs) *: - ze j) (bs *: (o j.+1 *m d j))) (sqn (ze j) + sqn (d j)).
    rewrite -(sqnN (ze j)) -(sqn_orth (d j) (ort j.+1)); apply: within_block; try exact: sqn_ge0; try exact: psd_dblsq; exact: within_dblsq.
  have := within_step A (lipC R 2) K (lipB 2 om dt *m z j) 0 pP pQ pR c0 (addr_ge0 (sqn_ge0 _) (sqn_ge0 _)) (sqn_ge0 _) H0 Hw (within_dblsq ds (v j.+1)).
  have -> : A *m col_mx (xi j) (o j *m bl j) + lipB 2 om dt *m z j + col_mx ((om * dt * zs) *: - ze j) (bs *: (o j.+1 *m d j)) = col_mx (xi j.+1) (o j.+1 *m bl j.+1).
    rewrite /A mul_block_col !mul0mx addr0 add0r /lipB mul_col_mx mul0mx !add_col_mx addr0; congr col_mx.
      by rewrite dyn /dbl !mul_scalar_mx mulNr scaleNr scalerDr scalerN scalerA opprD addrA.
    by rewrite mulmxA -(mulmxA (o j.+1)) (ort j).1 mulmx1 drift mulmxDr scalemxAr.
  have -> : k_pbar A (block_mx (dblsq 2 (om * dt * zs)) 0 0 (dblsq 2 bs)) P = A *m P *m A^T + block_mx (dblsq 2 (om * dt * zs)) 0 0 (dblsq 2 bs) by rewrite /k_pbar addrC mulmxA.
  by rewrite /= !addr0 {1}/lipC mul_row_col !mul1mx.
have c1 : 0 <= c + (sqn (ze j) + sqn (d j)) + sqn (v j.+1) by rewrite !addr_ge0 // sqn_ge0.
have Hl1 : forall i, l_lim l1 i 0 <= 0 by rewrite g1.
have [l2 [sh2 [x2 [t2 [ys2 [us2 [P2 [E2 [HL2 [Hf2 H2]]]]]]]]]] := IH j.+1 l1 ShDone _ _ _ _ _ _ true L1 (fun=> Hf) (or_intror erefl) Hl1 (etrans e1 Eom) (etrans e2 Edt) e5 g3 (etrans g4 EQ) (etrans g2 ER) c1 H1.
exists l2, sh2, x2, t2, ys2, us2, P2; rewrite (addnS j k) -(addSn j k); split; last first.
  split=> //; split; first by move=> _; apply: Hf2.
  rewrite big_ord_recl addn0 !addrA in H2 *.
  by rewrite (eq_bigr (fun i : 'I_k => sqn (ze (j.+1 + i)%N) + sqn (d (j.+1 + i)%N) + sqn (v (j.+1 + i).+1))) // => i _; rewrite /= /bump /= add1n addnS.
rewrite -E2; have -> : l_run md (samples [seq (xi i + o i *m bl i + ds *: v i, z i, o i) | i <- iota j.+1 k.+1]) l =
   obind (l_run md [:: LInputs (xi j.+1 + o j.+1 *m bl j.+1 + ds *: v j.+1) (z j.+1) (o j.+1); LUpdate R] l)
     (l_run md (samples [seq (xi i + o i *m bl i + ds *: v i, z i, o i) | i <- iota j.+2 k])).
  exact: (orun_app _ [:: LInputs (xi j.+1 + o j.+1 *m bl j.+1 + ds *: v j.+1) (z j.+1) (o j.+1); LUpdate R]).
by rewrite E1.
Qed.
End Run.
