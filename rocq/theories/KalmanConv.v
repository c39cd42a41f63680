(** Convergence of the linear Kalman filter: lemmas for C165. *)
From Coq Require Import ZArith List Lia.
From mathcomp Require Import all_ssreflect all_algebra ring.
From Verif Require Import Base Defs ZDO ZDOProofs MxLib Cholesky Kalman KFilter KFProofs KalmanLS KalmanLSThms KalmanBound.
Set Implicit Arguments.
Unset Strict Implicit.
Unset Printing Implicit Defensive.
Import Order.TTheory GRing.Theory Num.Theory.
Open Scope ring_scope.

Section Dom.
Variable R : rcfType.

Lemma sqnE n (v : 'cV[R]_n) : sqn v = qf 1%:M v.
Proof. by rewrite qf_scalar. Qed.

Lemma within_loe n (P P' : 'M[R]_n) e c : 0 <= c -> loewner P P' -> within P e c -> within P' e c.
Proof. by move=> c0 H He g; apply: (le_trans (He g)); apply: ler_wpmul2r. Qed.
Lemma within_Z n (P : 'M[R]_n) a e c : within (a *: P) e c -> within P e (a * c).
Proof. by move=> H g; move: (H g); rewrite qfZ mulrCA mulrA. Qed.

Lemma num_sum (x y d : R) : 0 < d -> (x + y) ^+ 2 <= (1 + d) * x ^+ 2 + (1 + d^-1) * y ^+ 2.
Proof.
move=> d0; rewrite -subr_ge0; have -> : (1 + d) * x ^+ 2 + (1 + d^-1) * y ^+ 2 - (x + y) ^+ 2 = d^-1 * (d * x - y) ^+ 2.
  by field; rewrite gt_eqF.
by apply: mulr_ge0; [rewrite invr_ge0 ltW|apply: sqr_ge0].
Qed.
Lemma num_cauchy (p l q : R) : 0 < q -> p - l * (l / q) *+ 2 + q * (l / q) ^+ 2 = p - l ^+ 2 / q.
Proof. by move=> q0; field; rewrite gt_eqF. Qed.

Lemma within_sum n (P : 'M[R]_n) e f a b d : 0 < d -> within P e a -> within P f b -> within P (e + f) ((1 + d) * a + (1 + d^-1) * b).
Proof.
move=> d0 He Hf g; rewrite mulmxDr mxDE; apply: (le_trans (num_sum _ _ d0)).
have d1 : 0 <= 1 + d by apply: addr_ge0; [exact: ler01|exact: ltW].
have d2 : 0 <= 1 + d^-1 by apply: addr_ge0; [exact: ler01|rewrite invr_ge0 ltW].
rewrite mulrDr [qf P g * ((1 + d) * a)]mulrCA [qf P g * ((1 + d^-1) * b)]mulrCA; apply: ler_add; apply: ler_wpmul2l => //.
Qed.

Lemma qf_sc n (P : 'M[R]_n) t z : qf P (t *: z) = t ^+ 2 * qf P z.
Proof. by rewrite /qf -scalemxAr mxZE linearZ /= -!scalemxAl mxZE mulrA expr2. Qed.

(** The error of a vector in the norm of a positive definite matrix. *)
Lemma within_pd n (P : 'M[R]_n) e : pd P -> within P e (qf (invmx P) e).
Proof.
move=> pP g; have S := pd_psd pP.
have E t : 0 <= qf P g - (g^T *m e) 0 0 * t *+ 2 + qf (invmx P) e * t ^+ 2.
  have <- : qf P (g - t *: (invmx P *m e)) = qf P g - (g^T *m e) 0 0 * t *+ 2 + qf (invmx P) e * t ^+ 2.
    rewrite qf_sub; last by case: S.
    have -> : bf P g (t *: (invmx P *m e)) = (g^T *m e) 0 0 * t.
      by rewrite /bf -scalemxAr mxZE -mulmxA (mulKVmx (pd_unit pP)) mulrC.
    by congr (_ + _); rewrite qf_sc mulrC; congr (_ * _); rewrite -[e in RHS](mulKVmx (pd_unit pP)) qf_inv.
  by case: S.
set q := qf (invmx P) e in E *; set l := (g^T *m e) 0 0 in E *.
have q0 : 0 <= q by have [_] := pd_psd (pd_inv pP); apply.
have [ez|en] := eqVneq e 0; first by rewrite /q /l ez mulmx0 mx0E qf0 expr0n mulr0.
have qp : 0 < q by have [_] := pd_inv pP; apply.
have := E (l / q); rewrite (num_cauchy _ _ qp).
by rewrite subr_ge0 ler_pdivr_mulr.
Qed.

(** A positive definite matrix dominates any other one. *)
Lemma sqn_dom n (V : 'M[R]_n) : pd V -> exists c, 0 <= c /\ forall x : 'cV[R]_n, sqn x <= c * qf V x.
Proof.
move=> pV; exists (\sum_i invmx V i i); split.
  by apply: sumr_ge0 => i _; apply: ltW; apply: pd_diag_gt0; apply: pd_inv.
move=> x; rewrite /sqn mulr_suml; apply: ler_sum => i _.
have := within_pd (delta_mx i 0) pV x; rewrite qf_delta [qf V x * _]mulrC.
have -> : (x^T *m (delta_mx i 0 : 'cV[R]_n)) 0 0 = x i 0 by rewrite -colE !mxE.
by [].
Qed.

Lemma dom1 n (M : 'M[R]_n) : exists c, 0 <= c /\ forall x : 'cV[R]_n, qf M x <= c * sqn x.
Proof.
exists (\sum_i \sum_j `|M i j|); split; first by apply: sumr_ge0 => i _; apply: sumr_ge0 => j _.
move=> x; have -> : qf M x = \sum_i \sum_j x i 0 * M i j * x j 0.
  rewrite /qf mxE exchange_big /=; apply: eq_bigr => j _; rewrite mxE mulr_suml.
  by apply: eq_bigr => i _; rewrite mxE.
rewrite mulr_suml; apply: ler_sum => i _; rewrite mulr_suml; apply: ler_sum => j _.
have Hi k : x k 0 ^+ 2 <= sqn x by rewrite /sqn (bigD1 k) //= ler_addl; apply: sumr_ge0 => ? _; apply: sqr_ge0.
have Hb : `|x i 0| * `|x j 0| <= sqn x.
  have H0 : 0 <= (`|x i 0| - `|x j 0|) ^+ 2 by apply: sqr_ge0.
  have H1 := Hi i; have H2 := Hi j; rewrite -real_normK ?num_real // in H1; rewrite -[x j 0 ^+ 2]real_normK ?num_real // in H2.
  have : `|x i 0| * `|x j 0| *+ 2 <= sqn x *+ 2.
    rewrite [sqn x *+ 2]mulr2n; apply: (le_trans _ (ler_add H1 H2)).
    by rewrite -subr_ge0; move: H0; rewrite sqrrB addrAC.
  by rewrite ler_pmuln2r.
apply: (le_trans (ler_norm _)); rewrite !normrM mulrAC mulrC.
by apply: ler_wpmul2l => //.
Qed.

Lemma dom n (V M : 'M[R]_n) : pd V -> exists c, 0 <= c /\ loewner M (c *: V).
Proof.
move=> pV; have [c [c0 Hc]] := sqn_dom pV; have [d [d0 Hd]] := dom1 M.
exists (d * c); split; first exact: mulr_ge0.
by move=> x; rewrite qfZ -mulrA; apply: (le_trans (Hd x)); apply: ler_wpmul2l => //.
Qed.
End Dom.

Section Conv.
Variable R : rcfType.
Variables (n m : nat).

(** The covariance stays below a matrix that shrinks under an observer of gain G. *)
Lemma cov_bound (A Q P V : 'M[R]_n) (C : 'M[R]_(m, n)) Rm (K G : 'M[R]_(n, m)) c r : psd Q -> pd Rm -> psd P -> 0 <= c ->
  K *m k_inoCov C Rm (k_pbar A Q P) = k_pbar A Q P *m C^T ->
  loewner (((1%:M - G *m C) *m A) *m V *m ((1%:M - G *m C) *m A)^T) (r *: V) -> loewner (joseph C Rm Q G) ((1 - r) * c *: V) ->
  loewner P (c *: V) -> loewner (joseph C Rm (k_pbar A Q P) K) (c *: V).
Proof.
move=> pQ pR pP c0 KS HF HN HP x.
apply: (le_trans (@joseph_opt R n m C Rm _ K G pR (k_pbar_psd A pQ pP) KS x)).
have -> : qf (joseph C Rm (k_pbar A Q P) G) x = qf P (((1%:M - G *m C) *m A)^T *m x) + qf (joseph C Rm Q G) x.
  rewrite /joseph /k_pbar !qfD !qf_cong qfD mulmxA qf_cong trmx_mul !mulmxA -!addrA [RHS]addrCA; congr (_ + _).
have H1 := HP (((1%:M - G *m C) *m A)^T *m x); have H2 := HF x; have H3 := HN x.
rewrite qfZ in H1; rewrite qf_cong qfZ in H2; rewrite qfZ in H3.
apply: (le_trans (ler_add H1 H3)); rewrite qfZ.
have -> : c * qf V x = c * (r * qf V x) + (1 - r) * c * qf V x by rewrite mulrBl mul1r mulrBl mulrCA mulrA addrC subrK.
by rewrite ler_add2r; apply: ler_wpmul2l.
Qed.

(** One step when the disturbances of the prediction are a fixed part of its covariance. *)
Lemma conv_step (A Q P : 'M[R]_n) (C : 'M[R]_(m, n)) Rm (K : 'M[R]_(n, m)) x xt f h w v c cw cv r d : psd P -> psd Q -> psd Rm -> 0 <= c -> 0 <= cw -> 0 <= cv -> 0 < d -> 0 <= r ->
  loewner (A *m P *m A^T) (r *: k_pbar A Q P) ->
  within P (xt - x) c -> within Q w cw -> within Rm v cv ->
  let xt' := A *m xt + f + w in let xb := A *m x + f in let y := C *m xt' + h + v in
  within (joseph C Rm (k_pbar A Q P) K) (xt' - (xb + K *m (y - (C *m xb + h)))) ((1 + d) * ((1 + d) * (r * c) + (1 + d^-1) * cw) + (1 + d^-1) * cv).
Proof.
move=> pP pQ pR c0 w0 v0 d0 r0 Hr He Hw Hv xt' xb y.
have E : xt' - (xb + K *m (y - (C *m xb + h))) = (1%:M - K *m C) *m (A *m (xt - x) + w) + (- K) *m v.
  have Z (T : zmodType) (a b p q : T) : a + p + q - (b + p) = a - b + q by rewrite [a + p + q]addrAC opprD addrACA subrr addr0 addrAC.
  have -> : A *m (xt - x) + w = xt' - xb by rewrite /xt' /xb Z mulmxBr.
  have -> : y - (C *m xb + h) = C *m (xt' - xb) + v by rewrite /y Z mulmxBr.
  by rewrite opprD addrA; set g := xt' - xb; rewrite mulmxBl mul1mx mulNmx mulmxDr opprD addrA mulmxA.
have pPb := k_pbar_psd A pQ pP.
have [d1 d2] : 0 <= 1 + d /\ 0 <= 1 + d^-1 by split; apply: addr_ge0; rewrite ?ler01 ?invr_ge0 // ltW.
rewrite E /joseph; apply: within_sum => //.
- apply: (@within_loe _ _ ((1%:M - K *m C) *m k_pbar A Q P *m (1%:M - K *m C)^T)).
  + by apply: addr_ge0; apply: mulr_ge0 => //; apply: mulr_ge0.
  + by move=> g; rewrite qfD ler_addl; have [_] := psd_cong K pR; apply.
  apply: within_cong; apply: within_sum => //.
  + by apply: within_Z; apply: (within_loe c0 Hr); apply: within_cong.
  + by apply: (within_loe w0 _ Hw) => g; rewrite /k_pbar qfD ler_addl mulmxA; have [_] := psd_cong A pP; apply.
- apply: (@within_loe _ _ ((- K) *m Rm *m (- K)^T)) => //; last exact: within_cong.
  by move=> g; rewrite linearN /= !mulNmx mulmxN opprK qfD ler_addr; have [_] := psd_cong (1%:M - K *m C) pPb; apply.
Qed.

(** The share of the disturbances. *)
Lemma share (A Q P V : 'M[R]_n) c d : 0 <= d -> loewner P (c *: V) -> loewner (c *: (A *m V *m A^T)) (d *: Q) ->
  loewner (A *m P *m A^T) (d / (1 + d) *: k_pbar A Q P).
Proof.
move=> d0 HP HQ x; have d1 : 0 < 1 + d by rewrite ltr_paddr // ltr01.
rewrite qfZ /k_pbar qfD mulmxA mulrAC ler_pdivl_mulr // mulrDr mulr1 mulrDr [qf _ x * d]mulrC ler_add2r.
have := HQ x; rewrite !qfZ; apply: le_trans.
by rewrite !qf_cong -qfZ; apply: HP.
Qed.
End Conv.

Section EstConv.
Variable R : rcfType.
Variables (n m p : nat).
Notation kfe := (kfe R n n m m p).

Lemma num_rec (r d cw cv a b : R) : (1 + d) ^+ 2 * r * b + ((1 + d) * ((1 + d^-1) * cw) + (1 + d^-1) * cv) = b ->
  (1 + d) * ((1 + d) * (r * (a + b)) + (1 + d^-1) * cw) + (1 + d^-1) * cv = (1 + d) ^+ 2 * r * a + b.
Proof. by move=> H; rewrite -{2}H; ring. Qed.

Lemma est_conv md N (A C Q Rm V : _) (G : 'M[R]_(n, m)) c r d rr cw cv b : forall (e : kfe) k x ry ru x' e' P,
  kA e = Some A -> kC e = Some C -> kQ e = Some Q -> kR e = Some Rm -> kP e = Some P -> psd Q -> pd Rm -> psd P -> 0 <= c ->
  loewner (((1%:M - G *m C) *m A) *m V *m ((1%:M - G *m C) *m A)^T) (r *: V) -> loewner (joseph C Rm Q G) ((1 - r) * c *: V) ->
  (forall P, psd P -> loewner P (c *: V) -> loewner (A *m P *m A^T) (rr *: k_pbar A Q P)) ->
  0 < d -> 0 <= rr -> 0 <= cw -> 0 <= cv -> 0 <= b -> (1 + d) ^+ 2 * rr * b + ((1 + d) * ((1 + d^-1) * cw) + (1 + d^-1) * cv) = b ->
  loewner P (c *: V) ->
  est_spec (@lkf_step R n m p) md ry ru N e k x = Ok (x', e') ->
  let f i := orz (kB e) *m uval 0 (ru (Z.add k (Z.of_nat i))) in
  let h i := orz (kD e) *m uval 0 (ru (Z.add k (Z.of_nat i.+1))) in
  exists P', [/\ kP e' = Some P', psd P', loewner P' (c *: V) & forall (xt w : nat -> 'cV[R]_n) (v : nat -> 'cV[R]_m) a, 0 <= a ->
  within P (xt 0%N - x) (a + b) -> (forall i, (i < N)%N -> xt i.+1 = A *m xt i + f i + w i) -> (forall i, (i < N)%N -> within Q (w i) cw) ->
  (forall i, (i < N)%N -> ry (Z.add k (Z.of_nat i.+1)) = Ok (C *m xt i.+1 + h i + v i)) -> (forall i, (i < N)%N -> within Rm (v i) cv) ->
  within P' (xt N - x') (((1 + d) ^+ 2 * rr) ^+ N * a + b)].
Proof.
elim: N => [|N IH] e k x ry ru x' e' P EA EC EQ ER EP pQ pR pP c0 HF HN Hsh d0 rr0 cw0 cv0 b0 Hb HP /=.
  by case=> <- <-; exists P; split=> // xt w v a _ H _ _ _ _; rewrite expr0 mul1r.
case Es : (lkf_step md e k x _ _ _) => [[x1 e1]| | |] //= Eest.
have := lkf_step_val EA EC EQ ER EP pQ pR pP Es.
case=> y0 [K [Ey KS Ex1 [[EA1 EC1 EQ1 ER1] [EB1 ED1 EP1 _]]]].
rewrite EA in EA1; rewrite EC in EC1; rewrite EQ in EQ1; rewrite ER in ER1.
have pPb := pbar_psd A pQ pP; have pP1 := joseph_psd' C K (pd_psd pR) pPb.
have HP1 := cov_bound pQ pR pP c0 KS HF HN HP.
have [P' [EP' pP' HP' H']] := IH e1 (Z.add k 1) x1 ry ru x' e' _ EA1 EC1 EQ1 ER1 EP1 pQ pR pP1 c0 HF HN Hsh d0 rr0 cw0 cv0 b0 Hb HP1 Eest.
exists P'; split=> // xt w v a a0 H0 Hx Hw Hy Hv.
have k1 : (Z.add k (Z.of_nat 1)) = (Z.add k 1) by [].
have k0 : (Z.add k (Z.of_nat 0)) = k by rewrite Z.add_0_r.
have := Hy 0%N isT; rewrite k1 Ey => -[Ey0].
have := conv_step C K (orz (kB e) *m uval 0 (ru k)) (orz (kD e) *m uval 0 (ru (Z.add k 1))) pP pQ (pd_psd pR) (addr_ge0 a0 b0) cw0 cv0 d0 rr0 (Hsh _ pP HP) H0 (Hw 0%N isT) (Hv 0%N isT).
rewrite /=.
have := Hx 0%N isT; rewrite k0 => <-; rewrite -Ey0 -Ex1 (num_rec _ Hb) => H1.
rewrite exprSr -mulrA.
apply: (H' (fun i => xt i.+1) (fun i => w i.+1) (fun i => v i.+1) _ _ H1).
- by apply: mulr_ge0 => //; apply: mulr_ge0 => //; apply: sqr_ge0.
- by move=> i Hi; rewrite zsucc EB1; apply: Hx.
- by move=> i Hi; apply: Hw.
- by move=> i Hi; rewrite !zsucc ED1; apply: Hy.
- by move=> i Hi; apply: Hv.
Qed.
End EstConv.

(** From an observer whose error shrinks in L + 1 steps to a norm that shrinks at each step. *)
Section Lyap.
Variable R : rcfType.
Variables (n : nat) (F : 'M[R]_n).
Definition pw (i : nat) : 'M[R]_n := iter i (mulmx F) 1%:M.
Definition lyap (L : nat) : 'M[R]_n := \sum_(i < L) pw i *m (pw i)^T.

Lemma pwE i (e : 'cV[R]_n) : iter i (mulmx F) e = pw i *m e.
Proof. by elim: i => [|i IH]; rewrite ?mul1mx // /pw /= -/(pw i) IH mulmxA. Qed.

Lemma qf_gram (M : 'M[R]_n) x : qf (M *m M^T) x = sqn (M^T *m x).
Proof. by rewrite sqnE -qf_cong mulmx1. Qed.

Lemma qf_sum L (f : 'I_L -> 'M[R]_n) x : qf (\sum_i f i) x = \sum_i qf (f i) x.
Proof. by elim/big_rec2: _ => [|i a b _ <-]; rewrite ?qfD // /qf mulmx0 mul0mx mxE. Qed.

Lemma lyap_pd L : pd (lyap L.+1).
Proof.
rewrite /lyap big_ord_recl /= mul1mx trmx1 addrC; apply: pdD; last exact: pd1.
by elim/big_rec: _ => [|i M _ pM]; [apply: psd0|apply: psdD => //; apply: psd_gram].
Qed.

Lemma contract_tr (M : 'M[R]_n) r : 0 <= r -> (forall e, sqn (M *m e) <= r * sqn e) -> forall x, sqn (M^T *m x) <= r * sqn x.
Proof.
move=> r0 H x; set s := sqn _; have s0 : 0 <= s by apply: sqn_ge0.
have [->|sn] := eqVneq s 0; first by apply: mulr_ge0 => //; apply: sqn_ge0.
have sp : 0 < s by rewrite lt_def sn.
have E : (x^T *m (M *m (M^T *m x))) 0 0 = s by rewrite /s sqnE /qf mulmx1 trmx_mul trmxK !mulmxA.
have := within_1 (M *m (M^T *m x)) x; rewrite E -sqnE expr2 => H1.
have := le_trans H1 (ler_wpmul2l (sqn_ge0 x) (H (M^T *m x))); rewrite -/s mulrA ler_pmul2r //.
by rewrite mulrC.
Qed.

Lemma lyap_shrink L r : 0 <= r -> r < 1 -> (forall e, sqn (iter L.+1 (mulmx F) e) <= r * sqn e) ->
  exists r', r' < 1 /\ loewner (F *m lyap L.+1 *m F^T) (r' *: lyap L.+1).
Proof.
move=> r0 r1 H; have [c [c0 Hc]] := dom1 (lyap L.+1).
have c1 : 0 < 1 + c by rewrite ltr_paddr // ltr01.
exists (1 - (1 - r) / (1 + c)); split; first by rewrite ltr_subl_addl ltr_addr divr_gt0 // subr_gt0.
move=> x; rewrite qfZ mulrBl mul1r.
have E : qf (F *m lyap L.+1 *m F^T) x = qf (lyap L.+1) x - sqn x + sqn ((pw L.+1)^T *m x).
  rewrite /lyap mulmx_sumr mulmx_suml !qf_sum [in RHS]big_ord_recl big_ord_recr /=.
  rewrite (eq_bigr (fun i : 'I_L => qf (pw (lift ord0 i) *m (pw (lift ord0 i))^T) x)); last first.
    by move=> i _; rewrite lift0 /pw iterS -/(pw i) trmx_mul !mulmxA.
  have -> : qf (1%:M *m 1%:M^T) x = sqn x by rewrite qf_gram trmx1 mul1mx.
  have -> : qf (F *m (pw L *m (pw L)^T) *m F^T) x = sqn ((pw L.+1)^T *m x) by rewrite -qf_gram /pw /= -/(pw L) trmx_mul !mulmxA.
  by rewrite [sqn x + _]addrC addrK.
rewrite E -addrA ler_add2l.
have H1 : sqn ((pw L.+1)^T *m x) <= r * sqn x by apply: contract_tr => // e; rewrite -pwE.
have H2 : qf (lyap L.+1) x <= (1 + c) * sqn x.
  by apply: (le_trans (Hc x)); apply: ler_wpmul2r; [apply: sqn_ge0|rewrite ler_addr ler01].
have H3 : (1 - r) / (1 + c) * qf (lyap L.+1) x <= (1 - r) * sqn x.
  rewrite mulrAC ler_pdivr_mulr // -mulrA [sqn x * _]mulrC; apply: ler_wpmul2l => //; by rewrite subr_ge0 ltW.
rewrite addrC; apply: (@le_trans _ _ (r * sqn x - sqn x)); first by rewrite ler_add2r.
by rewrite ler_oppr opprB (le_trans H3) // mulrBl mul1r.
Qed.
End Lyap.

Section Num.
Variable R : rcfType.
Lemma rho_lt1 (rr : R) : 0 <= rr -> 0 < 1 - rr -> (1 + (1 - rr) / 4%:R) ^+ 2 * rr < 1.
Proof.
move=> r0 r1; set e := (1 - rr) / 4%:R; have e0 : 0 < e by apply: divr_gt0 => //; rewrite ltr0n.
have E : rr = 1 - (e + e + e + e).
  have -> : e + e + e + e = e *+ 4 by rewrite !mulrS mulr0n addr0 !addrA.
  by rewrite -mulr_natr /e divfK ?pnatr_eq0 // opprB addrC subrK.
clearbody e; subst rr; rewrite -subr_gt0.
have -> : 1 - (1 + e) ^+ 2 * (1 - (e + e + e + e)) = e + e + (e * e + e * e + e * e) + (e * e + e * e + e * e) + e * e + (e * e * e + e * e * e) + (e * e * e + e * e * e) by ring.
by do ?apply: addr_gt0 => //; do ?apply: mulr_gt0.
Qed.

Lemma kap_fix (d rr : R) : 0 < d -> 0 < 1 - (1 + d) ^+ 2 * rr -> forall tq tv q : R,
  (1 + d) ^+ 2 * rr * (((1 + d) * ((1 + d^-1) * tq) + (1 + d^-1) * tv) / (1 - (1 + d) ^+ 2 * rr) * q) + ((1 + d) * ((1 + d^-1) * (tq * q)) + (1 + d^-1) * (tv * q)) =
  ((1 + d) * ((1 + d^-1) * tq) + (1 + d^-1) * tv) / (1 - (1 + d) ^+ 2 * rr) * q.
Proof.
move=> d0; set t := (1 + d) ^+ 2 * rr; set i := d^-1 => t0 tq tv q; clearbody t i.
by field; rewrite gt_eqF.
Qed.

Lemma num_arr (c4 t0 r S kap q z : R) : c4 * z * (r * (t0 * S) + kap * q) = z * (c4 * t0 * r * S + c4 * kap * q).
Proof. by ring. Qed.
End Num.

Lemma time_in (k0 k : Z) (i : nat) : (i < Z.to_nat (Z.sub k k0))%N -> Z.le k0 (Z.add k0 (Z.of_nat i)) /\ Z.lt (Z.add k0 (Z.of_nat i)) k.
Proof. by move=> /ssrnat.ltP Hi; split; lia. Qed.
Lemma time_end (k0 k : Z) : Z.lt k0 k -> Z.add k0 (Z.of_nat (Z.to_nat (Z.sub k k0))) = k.
Proof. by move=> H; lia. Qed.
