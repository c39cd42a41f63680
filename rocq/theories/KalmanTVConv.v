(** Convergence of the linear filter with matrices that change. *)
From Coq Require Import ZArith List Lia.
From mathcomp Require Import all_ssreflect all_algebra.
From mathcomp Require Import ring.
From Verif Require Import Base Defs ZDO MxLib Cholesky Kalman KFilter KFProofs KalmanLS KalmanLSThms KalmanBound KalmanTV KalmanConv LipmBound LipmConv.
Set Implicit Arguments.
Unset Strict Implicit.
Unset Printing Implicit Defensive.
Import Order.TTheory GRing.Theory Num.Theory.
Open Scope ring_scope.

Section Ent.
Variable R : rcfType.
(** Bounds on the coefficients give bounds on the norms. *)
Lemma ent_sqn p q (M : 'M[R]_(p, q)) (b : R) : (forall j k, M j k ^+ 2 <= b) -> forall x : 'cV[R]_q, sqn (M *m x) <= (p%:R * (q%:R * b)) * sqn x.
Proof.
move=> HM x; rewrite {1}/sqn.
have H j : (M *m x) j 0 ^+ 2 <= q%:R * b * sqn x.
  have := within_1 x (row j M)^T; rewrite trmxK qf1 -row_mul mxE => H; apply: (le_trans H).
  apply: ler_wpmul2r; first exact: sqn_ge0.
  rewrite /sqn mulr_natl; apply: (le_trans (_ : _ <= \sum_(i < q) b)); last by rewrite sumr_const card_ord.
  by apply: ler_sum => i _; rewrite !mxE.
apply: (le_trans (_ : _ <= \sum_(j < p) q%:R * b * sqn x)); first by apply: ler_sum => j _; exact: H.
by rewrite sumr_const card_ord -[X in X <= _]mulr_natl mulrA.
Qed.
Lemma ent_sqn_tr p q (M : 'M[R]_(p, q)) (b : R) : (forall j k, M j k ^+ 2 <= b) -> forall x : 'cV[R]_p, sqn (M^T *m x) <= (q%:R * (p%:R * b)) * sqn x.
Proof. by move=> HM; apply: ent_sqn => j k; rewrite mxE. Qed.
Lemma ent_ge0 p q (M : 'M[R]_(p, q)) (b : R) : (forall j k, M j k ^+ 2 <= b) -> 0 <= p%:R * (q%:R * b).
Proof.
case: p M => [|p] M HM; first by rewrite mul0r.
apply: mulr_ge0; first exact: ler0n.
case: q M HM => [|q] M HM; first by rewrite mul0r.
by apply: mulr_ge0; [exact: ler0n|apply: le_trans (HM 0 0); exact: sqr_ge0].
Qed.
Lemma ent_qf n (M : 'M[R]_n) (b : R) : (forall j k, M j k ^+ 2 <= b) -> forall x, qf M x <= (1 + n%:R * (n%:R * b)) * sqn x.
Proof.
move=> HM x; have H := ent_sqn HM x; have H1 := within_1 (M *m x) x; rewrite qf1 -/(qf M x) in H1.
have -> : qf M x = (x^T *m (M *m x)) 0 0 by rewrite /qf mulmxA.
set t := (_ *m _) 0 0 in H1 *.
have [t0|t0] := lerP t 0; first by apply: (le_trans t0); apply: (le_trans (sqn_ge0 (M *m x))); apply: (le_trans H); rewrite mulrDl mul1r ler_addr sqn_ge0.
have : t ^+ 2 <= ((1 + n%:R * (n%:R * b)) * sqn x) ^+ 2.
  apply: (le_trans H1); rewrite exprMn [_ * sqn x ^+ 2]mulrC expr2 -mulrA; apply: ler_wpmul2l; first exact: sqn_ge0.
  apply: (le_trans H); rewrite [X in X <= _]mulrC; apply: ler_wpmul2l; first exact: sqn_ge0.
  have := ent_ge0 HM; set k := n%:R * (n%:R * b) => k0.
  rewrite -subr_ge0; have -> : (1 + k) ^+ 2 - k = 1 + k + k ^+ 2 by ring.
  by rewrite !addr_ge0 // ?ler01 ?sqr_ge0.
rewrite ler_sqr // ?nnegrE; first exact: ltW.
apply: (le_trans (sqn_ge0 (M *m x))); apply: (le_trans H); rewrite mulrDl mul1r ler_addr; exact: sqn_ge0.
Qed.
End Ent.

Section Obs.
Variable R : rcfType.
Variables (n L : nat) (F : nat -> 'M[R]_n) (fb r : R).
Hypothesis fb0 : 0 <= fb.
Hypothesis Hfb : forall i x, sqn ((F i)^T *m x) <= fb * sqn x.
Hypotheses (r0 : 0 <= r) (r1 : r < 1).
Hypothesis Hr : forall (e : nat -> 'cV[R]_n) i, (forall k, (i <= k)%N -> e k.+1 = F k *m e k) -> sqn (e (i + L.+1)%N) <= r * sqn (e i).
Fixpoint Phi (j i : nat) {struct i} : 'M[R]_n :=
  match j, i with
  | 0%N, _ => 1%:M
  | j.+1, 0%N => 0
  | j.+1, i.+1 => F i *m Phi j i
  end.
Lemma Phi0 i : Phi 0 i = 1%:M. Proof. by case: i. Qed.
Lemma PhiS j i : Phi j.+1 i.+1 = F i *m Phi j i. Proof. by []. Qed.
Lemma Phi_lt j i : (i < j)%N -> Phi j i = 0.
Proof. by elim: i j => [|i IH] [|j] //= H; rewrite IH // mulmx0. Qed.
Lemma Phi_shrink k x : sqn (Phi L.+1 k *m x) <= r * sqn x.
Proof.
have [H|H] := ltnP k L.+1.
  rewrite Phi_lt // mul0mx; apply: le_trans (_ : 0 <= _); last by apply: mulr_ge0 => //; exact: sqn_ge0.
  by rewrite /sqn big1 // => i _; rewrite mxE expr0n.
have := @Hr (fun j => Phi (j - (k - L.+1)) j *m x) (k - L.+1)%N; rewrite subnK // subnn Phi0 mul1mx subKn //; apply.
by move=> j Hj; rewrite subSn // PhiS mulmxA.
Qed.
Lemma Phi_bound j i x : sqn ((Phi j i)^T *m x) <= fb ^+ j * sqn x.
Proof.
elim: i j x => [|i IH] [|j] x.
- by rewrite Phi0 trmx1 mul1mx expr0 mul1r.
- rewrite Phi_lt // trmx0 mul0mx; apply: le_trans (_ : 0 <= _); last by apply: mulr_ge0; [exact: exprn_ge0|exact: sqn_ge0].
  by rewrite /sqn big1 // => k _; rewrite mxE expr0n.
- by rewrite Phi0 trmx1 mul1mx expr0 mul1r.
rewrite PhiS trmx_mul -mulmxA exprSr -mulrA; apply: (le_trans (IH _ _)); apply: ler_wpmul2l; [exact: exprn_ge0|exact: Hfb].
Qed.
Definition Vt (i : nat) : 'M[R]_n := \sum_(j < L.+1) Phi j i *m (Phi j i)^T.
Definition vt : R := \sum_(j < L.+1) fb ^+ j.
Lemma qfVt i x : qf (Vt i) x = \sum_(j < L.+1) sqn ((Phi j i)^T *m x).
Proof. by rewrite /Vt qf_sum; apply: eq_bigr => j _; rewrite qf_FF. Qed.
Lemma Vt_ge i x : sqn x <= qf (Vt i) x.
Proof. by rewrite qfVt big_ord_recl Phi0 trmx1 mul1mx ler_addl sumr_ge0 // => j _; exact: sqn_ge0. Qed.
Lemma Vt_le i x : qf (Vt i) x <= vt * sqn x.
Proof. by rewrite qfVt /vt mulr_suml; apply: ler_sum => j _; exact: Phi_bound. Qed.
Lemma vt1 : 1 <= vt.
Proof. by rewrite /vt big_ord_recl expr0 ler_addl sumr_ge0 // => j _; exact: exprn_ge0. Qed.
Lemma Vt_shrink i : loewner (F i *m Vt i *m (F i)^T) ((1 - (1 - r) / vt) *: Vt i.+1).
Proof.
move=> x; have v0 : 0 < vt by exact: lt_le_trans ltr01 vt1.
have E : qf (F i *m Vt i *m (F i)^T) x = qf (Vt i.+1) x - sqn x + sqn ((Phi L.+1 i.+1)^T *m x).
  rewrite qf_cong !qfVt [in RHS]big_ord_recl Phi0 trmx1 mul1mx [sqn x + _ - _]addrAC subrr add0r.
  under eq_bigr => j _ do rewrite mulmxA -trmx_mul -PhiS.
  by rewrite big_ord_recr.
rewrite E qfZ mulrBl mul1r -addrA ler_add2l.
have H1 := contract_tr r0 (Phi_shrink i.+1) x; have H2 := Vt_le i.+1 x.
apply: (le_trans (_ : _ <= - sqn x + r * sqn x)); first by rewrite ler_add2l.
have -> : - sqn x + r * sqn x = - ((1 - r) * sqn x) by ring.
rewrite ler_opp2 -mulrA; apply: ler_wpmul2l; first by rewrite subr_ge0; apply: ltW.
by rewrite mulrC ler_pdivr_mulr // mulrC.
Qed.
End Obs.

(** The steps of the filter. The constants depend on the bounds only. *)
Lemma conv_tv (R : rcfType) (n m L : nat) (b l r : R) : 0 <= b -> 0 < l -> 0 <= r -> r < 1 -> exists rho c1 c2 c3 : R, 0 <= rho /\ rho < 1 /\ 0 <= c3 /\
  forall N (A Q P : nat -> 'M[R]_n) (C : nat -> 'M[R]_(m, n)) (Rm : nat -> 'M[R]_m) (G K : nat -> 'M[R]_(n, m)) (x xt w f : nat -> 'cV[R]_n) (y v h : nat -> 'cV[R]_m) q, 0 <= q ->
  (forall i, psd (Q i) /\ pd (Rm i)) -> psd (P 0%N) ->
  (forall i j k, A i j k ^+ 2 <= b) -> (forall i j k, C i j k ^+ 2 <= b) -> (forall i j k, G i j k ^+ 2 <= b) ->
  (forall i j k, Q i j k ^+ 2 <= b) -> (forall i j k, Rm i j k ^+ 2 <= b) -> (forall j k, P 0%N j k ^+ 2 <= b) ->
  (forall i z, l * sqn z <= qf (Q i) z) -> (forall i z, l * sqn z <= qf (Rm i) z) -> (forall z, l * sqn z <= qf (P 0%N) z) ->
  (forall (e : nat -> 'cV[R]_n) i, (forall k, (i <= k)%N -> e k.+1 = (1%:M - G k *m C k) *m A k *m e k) -> sqn (e (i + L.+1)%N) <= r * sqn (e i)) ->
  (forall i, (i < N)%N -> kstep (x i) (P i) (A i) (Q i) (C i) (Rm i) (f i) (h i) (y i) (K i) (x i.+1) (P i.+1)) ->
  (forall i, (i < N)%N -> xt i.+1 = A i *m xt i + f i + w i) -> (forall i, (i < N)%N -> y i = C i *m xt i.+1 + h i + v i) ->
  (forall i, (i < N)%N -> sqn (w i) <= q) -> (forall i, (i < N)%N -> sqn (v i) <= q) ->
  sqn (xt N - x N) <= c1 * rho ^+ N * sqn (xt 0%N - x 0%N) + c2 * q /\ forall g, qf (P N) g <= c3 * sqn g.
Proof.
move=> b0 l0 r0 r1.
have nn k1 k2 : 0 <= (k1%:R * (k2%:R * b) : R) by do 2!(apply: mulr_ge0; first exact: ler0n).
pose ab := n%:R * (n%:R * b); pose gb := m%:R * (n%:R * b); pose cb := n%:R * (m%:R * b).
have ab0 : 0 <= ab by apply: nn. have gb0 : 0 <= gb by apply: nn. have cb0 : 0 <= cb by apply: nn.
pose kb := 2%:R + 2%:R * (cb * gb).
have kb0 : 0 <= kb by apply: addr_ge0; [exact: ler0n|apply: mulr_ge0; [exact: ler0n|exact: mulr_ge0]].
pose fb := ab * kb; have fb0 : 0 <= fb by exact: mulr_ge0.
pose qb := 1 + n%:R * (n%:R * b); pose rb := 1 + m%:R * (m%:R * b).
have qb0 : 0 <= qb by apply: addr_ge0; [exact: ler01|exact: nn]. have rb0 : 0 <= rb by apply: addr_ge0; [exact: ler01|exact: nn].
pose J0 := qb * kb + rb * gb; have J00 : 0 <= J0 by apply: addr_ge0; exact: mulr_ge0.
pose vv : R := vt L fb; have v1 : 1 <= vv by exact: vt1. have v0 : 0 < vv by exact: lt_le_trans ltr01 v1.
have r2 : 0 < 1 - r by rewrite subr_gt0.
pose c := qb + J0 / ((1 - r) / vv).
have rv0 : 0 < (1 - r) / vv by exact: divr_gt0.
have c0 : 0 <= c by apply: addr_ge0 => //; apply: divr_ge0 => //; apply: ltW.
pose dd := c * (vv * (ab * l^-1)).
have li0 : 0 <= l^-1 by rewrite invr_ge0; apply: ltW.
have dd0 : 0 <= dd by apply: mulr_ge0 => //; apply: mulr_ge0; [apply: ltW|apply: mulr_ge0].
pose rr := dd / (1 + dd); have dd1 : 0 < 1 + dd by rewrite ltr_paddr // ltr01.
have rr0 : 0 <= rr by apply: divr_ge0 => //; apply: ltW.
have rr1 : 0 < 1 - rr by rewrite subr_gt0 /rr ltr_pdivr_mulr // mul1r ltr_addr ltr01.
pose dl := (1 - rr) / 4%:R; have dl0 : 0 < dl by apply: divr_gt0 => //; rewrite ltr0n.
pose rho := (1 + dl) ^+ 2 * rr.
have rho0 : 0 <= rho by apply: mulr_ge0 => //; apply: sqr_ge0.
have rho1 : rho < 1 by apply: rho_lt1.
have rho2 : 0 < 1 - rho by rewrite subr_gt0.
pose kap := ((1 + dl) * ((1 + dl^-1) * l^-1) + (1 + dl^-1) * l^-1) / (1 - rho).
have [d1 d2] : 0 <= 1 + dl /\ 0 <= 1 + dl^-1 by split; apply: addr_ge0; rewrite ?ler01 ?invr_ge0 // ltW.
have kap0 : 0 <= kap by apply: divr_ge0; [apply: addr_ge0; [apply: mulr_ge0 => //|]; apply: mulr_ge0|apply: ltW].
pose c4 := c * vv; have c40 : 0 <= c4 by apply: mulr_ge0 => //; apply: ltW.
exists rho, (c4 * l^-1), (c4 * kap), c4; split=> //; split=> //; split=> //.
move=> N A Q P C Rm G K x xt w f y v h q q0 pQR pP HA HC HG HQ HR HP LQ LR LP HF Hs Hx Hy Hw Hv.
have Lw k (M : 'M[R]_k) (z : 'cV[R]_k) : (forall z, l * sqn z <= qf M z) -> within M z (l^-1 * sqn z).
  move=> H; apply: within_Z; apply: (within_loe (sqn_ge0 _) _ (within_1 z)) => g.
  by rewrite qf1 qfZ mulrC ler_pdivl_mulr // mulrC.
pose F i := (1%:M - G i *m C i) *m A i.
have HGT i z : sqn ((G i)^T *m z) <= gb * sqn z by apply: ent_sqn_tr.
have HK i z : sqn ((1%:M - G i *m C i)^T *m z) <= kb * sqn z.
  rewrite linearB /= trmx1 mulmxBl mul1mx trmx_mul -mulmxA; apply: (le_trans (sqnB2 _ _)).
  rewrite /kb mulrDl ler_add2l -mulrA; apply: ler_wpmul2l; first exact: ler0n.
  rewrite -mulrA; apply: (le_trans (ent_sqn_tr (HC i) _)); apply: ler_wpmul2l => //.
have HFb i z : sqn ((F i)^T *m z) <= fb * sqn z.
  rewrite /F trmx_mul -mulmxA /fb -mulrA; apply: (le_trans (ent_sqn_tr (HA i) _)); apply: ler_wpmul2l => //.
have HJ i z : qf (joseph (C i) (Rm i) (Q i) (G i)) z <= J0 * sqn z.
  rewrite /joseph qfD !qf_cong /J0 mulrDl -(mulrA qb) -(mulrA rb); apply: ler_add.
    apply: (le_trans (ent_qf (HQ i) _)); apply: ler_wpmul2l; [exact: qb0|exact: HK].
  apply: (le_trans (ent_qf (HR i) _)); apply: ler_wpmul2l; [exact: rb0|exact: HGT].
pose V i := Vt L F i.
set S := sqn (xt 0%N - x 0%N); have S0 : 0 <= S by apply: sqn_ge0.
have Inv i : (i <= N)%N -> psd (P i) /\ loewner (P i) (c *: V i) /\ within (P i) (xt i - x i) (rho ^+ i * (l^-1 * S) + kap * q).
  elim: i => [|i IH] Hi.
    split=> //; split.
      move=> z; rewrite qfZ; apply: (le_trans (ent_qf HP z)); rewrite -/qb.
      apply: (le_trans (_ : _ <= c * sqn z)); last by apply: ler_wpmul2l => //; exact: Vt_ge.
      by apply: ler_wpmul2r; [exact: sqn_ge0|rewrite ler_addl; apply: divr_ge0 => //; apply: ltW].
    by rewrite expr0 mul1r; apply: (within_le pP _ (Lw _ _ _ LP)); rewrite ler_addl; apply: mulr_ge0.
  have [pPi [HPi HWi]] := IH (ltnW Hi); have [pQ pR] := pQR i.
  have [KS Ex EPn] := Hs i Hi; have pPb := k_pbar_psd (A i) pQ pPi.
  have pPn : psd (P i.+1) by rewrite EPn; apply: joseph_psd' => //; exact: pd_psd.
  split=> //; split.
    rewrite EPn; apply: (cov_bound2 pQ pR pPi c0 KS (Vt_shrink fb0 HFb r0 r1 HF i) _ HPi).
    move=> z; apply: (le_trans (HJ i z)); rewrite qfZ opprB addrCA subrr addr0 -/vv.
    apply: (le_trans (_ : _ <= J0 * qf (V i.+1) z)); first by apply: ler_wpmul2l => //; exact: Vt_ge.
    apply: ler_wpmul2r; first by apply: le_trans (Vt_ge L F i.+1 z); exact: sqn_ge0.
    by rewrite /c mulrDr mulrCA divff ?gt_eqF // mulr1 ler_addr; apply: mulr_ge0 => //; apply: ltW.
  have Hsh : loewner (A i *m P i *m (A i)^T) (rr *: k_pbar (A i) (Q i) (P i)).
    apply: (share dd0 HPi); move=> z; rewrite !qfZ qf_cong /dd -mulrA; apply: ler_wpmul2l => //.
    apply: (le_trans (Vt_le L fb0 HFb i _)).
    rewrite -/vv -mulrA; apply: ler_wpmul2l; first exact: ltW.
    apply: (le_trans (ent_sqn_tr (HA i) _)); rewrite -(mulrA ab); apply: ler_wpmul2l => //.
    by rewrite mulrC ler_pdivl_mulr // mulrC.
  have Ww : within (Q i) (w i) (l^-1 * q) by apply: (within_le pQ _ (Lw _ _ _ (LQ i))); apply: ler_wpmul2l => //; exact: Hw.
  have Wv : within (Rm i) (v i) (l^-1 * q) by apply: (within_le (pd_psd pR) _ (Lw _ _ _ (LR i))); apply: ler_wpmul2l => //; exact: Hv.
  have cc : 0 <= rho ^+ i * (l^-1 * S) + kap * q by apply: addr_ge0; apply: mulr_ge0 => //; [apply: exprn_ge0|apply: mulr_ge0].
  have := conv_step (C i) (K i) (f i) (h i) pPi pQ (pd_psd pR) cc (mulr_ge0 li0 q0) (mulr_ge0 li0 q0) dl0 rr0 Hsh HWi Ww Wv.
  rewrite /= -EPn -(Hx i Hi) -(Hy i Hi) -Ex.
  have -> : (1 + dl) * ((1 + dl) * (rr * (rho ^+ i * (l^-1 * S) + kap * q)) + (1 + dl^-1) * (l^-1 * q)) + (1 + dl^-1) * (l^-1 * q) = rho ^+ i.+1 * (l^-1 * S) + kap * q; last by [].
  by rewrite exprS -mulrA; apply: num_rec; apply: kap_fix.
have [pPN [HPN HWN]] := Inv N (leqnn N).
have Fin g : qf (P N) g <= c4 * sqn g.
  apply: (le_trans (HPN g)); rewrite qfZ /c4 -mulrA; apply: ler_wpmul2l => //; exact: Vt_le.
split=> //.
have := HWN (xt N - x N); set z := xt N - x N; rewrite -sqn_tr.
move=> H.
have [->|zn] := eqVneq (sqn z) 0.
  by apply: addr_ge0; apply: mulr_ge0 => //; [apply: mulr_ge0; [apply: mulr_ge0|apply: exprn_ge0]|apply: mulr_ge0].
have zp : 0 < sqn z by rewrite lt_def zn sqn_ge0.
rewrite -(ler_pmul2l zp) -expr2; apply: (le_trans H).
have -> : sqn z * (c4 * l^-1 * rho ^+ N * S + c4 * kap * q) = c4 * sqn z * (rho ^+ N * (l^-1 * S) + kap * q).
  by rewrite -num_arr.
apply: ler_wpmul2r; last by apply: Fin.
by apply: addr_ge0; apply: mulr_ge0 => //; [apply: exprn_ge0|apply: mulr_ge0].
Qed.
