(** Errors measured by the covariance reported, in every direction; covariances may be singular. *)
From Coq Require Import ZArith List Lia.
From mathcomp Require Import all_ssreflect all_algebra.
From Verif Require Import Base Defs ZDO ZDOProofs MxLib Cholesky Kalman KFilter KFProofs KalmanLS KalmanLSThms.
Set Implicit Arguments.
Unset Strict Implicit.
Unset Printing Implicit Defensive.
Import Order.TTheory GRing.Theory Num.Theory.
Open Scope ring_scope.

Section Within.
Variable R : rcfType.

(** In every direction g, the square of the component of e is at most the variance of P in this direction times c. *)
Definition within n (P : 'M[R]_n) (e : 'cV[R]_n) (c : R) : Prop := forall g : 'cV[R]_n, ((g^T *m e) 0 0) ^+ 2 <= qf P g * c.
(** The square of the length. *)
Definition sqn n (v : 'cV[R]_n) : R := \sum_i v i 0 ^+ 2.
Lemma sqn_ge0 n (v : 'cV[R]_n) : 0 <= sqn v.
Proof. by apply: sumr_ge0 => i _; apply: sqr_ge0. Qed.

Lemma num_cs (a b p q c d : R) : 0 <= p -> 0 <= q -> 0 <= c -> 0 <= d -> a ^+ 2 <= p * c -> b ^+ 2 <= q * d -> (a + b) ^+ 2 <= (p + q) * (c + d).
Proof.
move=> p0 q0 c0 d0 Ha Hb.
have H : a * b *+ 2 <= p * d + q * c.
  have H0 : 0 <= p * d + q * c by apply: addr_ge0; apply: mulr_ge0.
  case: (lerP (a * b *+ 2) 0) => [H|H]; first exact: le_trans H H0.
  rewrite -ler_sqr ?nnegrE ?(ltW H) //.
  have H1 : (a * b *+ 2) ^+ 2 = a ^+ 2 * b ^+ 2 *+ 4 by rewrite exprMn_n exprMn.
  have H2 : a ^+ 2 * b ^+ 2 <= p * c * (q * d) by apply: ler_pmul => //; apply: sqr_ge0.
  rewrite H1; apply: (le_trans (y := p * c * (q * d) *+ 4)); first by rewrite ler_muln2r /= H2.
  rewrite -subr_ge0; have -> : (p * d + q * c) ^+ 2 - p * c * (q * d) *+ 4 = (p * d - q * c) ^+ 2.
    rewrite sqrrD sqrrB; have -> : p * c * (q * d) = p * d * (q * c) by rewrite mulrACA [c * d]mulrC mulrACA.
    set u := p * d; set v := q * c; rewrite (mulrnDr _ 2 2) opprD addrA.
    by rewrite [u ^+ 2 + _ + _]addrAC addrK addrAC.
  exact: sqr_ge0.
have -> : (p + q) * (c + d) = p * c + (p * d + q * c) + q * d by rewrite mulrDl !mulrDr !addrA.
rewrite sqrrD; by apply: ler_add => //; apply: ler_add.
Qed.

Lemma within_add n (P Q : 'M[R]_n) e f c d : psd P -> psd Q -> 0 <= c -> 0 <= d -> within P e c -> within Q f d -> within (P + Q) (e + f) (c + d).
Proof.
move=> pP pQ c0 d0 He Hf g; rewrite mulmxDr mxE qfD; apply: num_cs; by [apply: pP.2|apply: pQ.2|apply: He|apply: Hf|].
Qed.
Lemma within_cong n m (P : 'M[R]_n) (A : 'M[R]_(m, n)) e c : within P e c -> within (A *m P *m A^T) (A *m e) c.
Proof. by move=> He g; rewrite qf_cong mulmxA; have := He (A^T *m g); rewrite trmx_mul trmxK. Qed.
Lemma within_le n (P : 'M[R]_n) e c d : psd P -> c <= d -> within P e c -> within P e d.
Proof. by move=> pP H He g; apply: (le_trans (He g)); apply: ler_wpmul2l => //; apply: pP.2. Qed.
Lemma within_0 n (P : 'M[R]_n) : within P 0 0.
Proof. by move=> g; rewrite mulmx0 mxE expr0n mulr0. Qed.

(** Cauchy-Schwarz. *)
Lemma within_1 n (v : 'cV[R]_n) : within 1%:M v (sqn v).
Proof.
move=> g; rewrite qf_scalar mxE; rewrite (eq_bigr (fun i => g i 0 * v i 0)); last by move=> i _; rewrite mxE.
rewrite /sqn; elim: n g v => [|n IH] g v; first by rewrite !big_ord0 expr0n mul0r.
rewrite !big_ord_recl; apply: num_cs; try exact: sqr_ge0; try (by apply: sumr_ge0 => i _; apply: sqr_ge0).
  by rewrite exprMn.
have := IH (\col_i g (lift ord0 i) 0) (\col_i v (lift ord0 i) 0).
by rewrite !(eq_bigr _ (fun i _ => congr1 (fun x => x ^+ 2) (mxE _ _ i 0))) (eq_bigr (fun i => g (lift ord0 i) 0 * v (lift ord0 i) 0)) // => i _; rewrite !mxE.
Qed.

(** One step of the filter, whatever its gain. *)
Lemma within_step n m (A Q P : 'M[R]_n) (C : 'M[R]_(m, n)) Rm (K : 'M[R]_(n, m)) x xt f h w v c cw cv : psd P -> psd Q -> psd Rm -> 0 <= c -> 0 <= cw -> 0 <= cv ->
  within P (xt - x) c -> within Q w cw -> within Rm v cv ->
  let xt' := A *m xt + f + w in let xb := A *m x + f in let y := C *m xt' + h + v in
  within (joseph C Rm (k_pbar A Q P) K) (xt' - (xb + K *m (y - (C *m xb + h)))) (c + cw + cv).
Proof.
move=> pP pQ pR c0 w0 v0 He Hw Hv xt' xb y.
have E : xt' - (xb + K *m (y - (C *m xb + h))) = (1%:M - K *m C) *m (A *m (xt - x) + w) + (- K) *m v.
  have Z (V : zmodType) (a b p q : V) : a + p + q - (b + p) = a - b + q by rewrite [a + p + q]addrAC opprD addrACA subrr addr0 addrAC.
  have -> : A *m (xt - x) + w = xt' - xb by rewrite /xt' /xb Z mulmxBr.
  have -> : y - (C *m xb + h) = C *m (xt' - xb) + v by rewrite /y Z mulmxBr.
  by rewrite opprD addrA; set d := xt' - xb; rewrite mulmxBl mul1mx mulNmx mulmxDr opprD addrA mulmxA.
rewrite E /joseph.
have EK : K *m Rm *m K^T = (- K) *m Rm *m (- K)^T by rewrite linearN /= !mulNmx mulmxN opprK.
rewrite EK; apply: within_add => //.
- by apply: psd_cong; rewrite /k_pbar addrC mulmxA; apply: psdD => //; apply: psd_cong.
- exact: psd_cong.
- exact: addr_ge0.
- apply: within_cong; rewrite /k_pbar [Q + _]addrC mulmxA; apply: within_add => //; [exact: psd_cong|exact: within_cong].
- exact: within_cong.
Qed.
End Within.

Section Est.
Variable R : rcfType.
Variables (n m p : nat).
Notation kfe := (kfe R n n m m p).

Lemma joseph_psd' (C : 'M[R]_(m, n)) Rm (Pb : 'M[R]_n) K : psd Rm -> psd Pb -> psd (joseph C Rm Pb K).
Proof. by move=> pR pP; apply: psdD; apply: psd_cong. Qed.
Lemma pbar_psd (A Q P : 'M[R]_n) : psd Q -> psd P -> psd (k_pbar A Q P).
Proof. by move=> pQ pP; rewrite /k_pbar mulmxA; apply: psdD => //; apply: psd_cong. Qed.

(** An estimation of N steps of a true system xt with disturbances w and measurement errors v. *)
Lemma est_within md N : forall (e : kfe) k x ry ru x' e' A C Q Rm P,
  kA e = Some A -> kC e = Some C -> kQ e = Some Q -> kR e = Some Rm -> kP e = Some P -> psd Q -> pd Rm -> psd P ->
  est_spec (@lkf_step R n m p) md ry ru N e k x = Ok (x', e') ->
  let f i := orz (kB e) *m uval 0 (ru (Z.add k (Z.of_nat i))) in
  let h i := orz (kD e) *m uval 0 (ru (Z.add k (Z.of_nat i.+1))) in
  forall (xt w : nat -> 'cV[R]_n) (v : nat -> 'cV[R]_m) c (cw cv : nat -> R), 0 <= c -> (forall i, 0 <= cw i) -> (forall i, 0 <= cv i) ->
  within P (xt 0%N - x) c -> (forall i, (i < N)%N -> xt i.+1 = A *m xt i + f i + w i) -> (forall i, (i < N)%N -> within Q (w i) (cw i)) ->
  (forall i, (i < N)%N -> ry (Z.add k (Z.of_nat i.+1)) = Ok (C *m xt i.+1 + h i + v i)) -> (forall i, (i < N)%N -> within Rm (v i) (cv i)) ->
  exists P', [/\ kP e' = Some P', psd P' & within P' (xt N - x') (c + \sum_(i < N) (cw i + cv i))].
Proof.
elim: N => [|N IH] e k x ry ru x' e' A C Q Rm P EA EC EQ ER EP pQ pR pP /=.
  by case=> <- <- xt w v c cw cv _ _ _ H0 _ _ _ _; exists P; split=> //; rewrite big_ord0 addr0.
case Es : (lkf_step md e k x _ _ _) => [[x1 e1]| | |] //= Eest xt w v c cw cv c0 w0 v0 H0 Hx Hw Hy Hv.
have := lkf_step_val EA EC EQ ER EP pQ pR pP Es.
case=> y0 [K [Ey KS Ex1 [[EA1 EC1 EQ1 ER1] [EB1 ED1 EP1 _]]]].
rewrite EA in EA1; rewrite EC in EC1; rewrite EQ in EQ1; rewrite ER in ER1.
have pPb := pbar_psd A pQ pP; have pP1 := joseph_psd' C K (pd_psd pR) pPb.
have k1 : (Z.add k (Z.of_nat 1)) = (Z.add k 1) by [].
have k0 : (Z.add k (Z.of_nat 0)) = k by rewrite Z.add_0_r.
have := Hy 0%N isT; rewrite k1 Ey => -[Ey0].
have := within_step A C K (orz (kB e) *m uval 0 (ru k)) (orz (kD e) *m uval 0 (ru (Z.add k 1))) pP pQ (pd_psd pR) c0 (w0 0%N) (v0 0%N) H0 (Hw 0%N isT) (Hv 0%N isT).
rewrite /=.
have := Hx 0%N isT; rewrite k0 => <-; rewrite -Ey0 -Ex1 => H1.
have [|||||||P' [EP' pP' H']] := IH e1 (Z.add k 1) x1 ry ru x' e' A C Q Rm _ EA1 EC1 EQ1 ER1 EP1 pQ pR pP1 Eest
   (fun i => xt i.+1) (fun i => w i.+1) (fun i => v i.+1) _ (fun i => cw i.+1) (fun i => cv i.+1) _ _ _ H1.
- by apply: addr_ge0 => //; apply: addr_ge0.
- by move=> i.
- by move=> i.
- by move=> i Hi; rewrite zsucc EB1; apply: Hx.
- by move=> i Hi; apply: Hw.
- by move=> i Hi; rewrite !zsucc ED1; apply: Hy.
- by move=> i Hi; apply: Hv.
by exists P'; split=> //; rewrite big_ord_recl !addrA.
Qed.
End Est.
