(** Kalman steps and least squares: completing squares. *)
From Coq Require Import ZArith List.
From mathcomp Require Import all_ssreflect all_algebra.
From Verif Require Import MxLib Kalman.
Set Implicit Arguments.
Unset Strict Implicit.
Unset Printing Implicit Defensive.
Import Order.TTheory GRing.Theory Num.Theory.
Open Scope ring_scope.

Section Forms.
Variable R : rcfType.
(** Identities of numbers. *)
Lemma num_predict (a b g p1 q1 : R) : ((b - g) + a *+ 2 + p1 + (g - a *+ 2 + q1) : R) = b + (p1 + q1).
Proof. by rewrite addrACA; congr (_ + _); rewrite addrACA subrK subrr addr0. Qed.
Lemma num_correct (a b c g s : R) : (a + (b - c *+ 2 + g) : R) = a + g - c *+ 2 + (b - s) + s.
Proof. by rewrite !addrA subrK -!addrA; congr (_ + _); rewrite addrC addrCA -!addrA addrCA; congr (_ + _); rewrite addrC. Qed.

Definition bf n (A : 'M[R]_n) (x y : 'cV[R]_n) : R := (x^T *m A *m y) 0 0.
Lemma bf_sym n (A : 'M[R]_n) x y : sym A -> bf A x y = bf A y x.
Proof. by move=> sA; rewrite /bf -[in LHS](trmxK (x^T *m A *m y)) [in LHS]mxE !trmx_mul trmxK sA mulmxA. Qed.
Lemma qf_add n (A : 'M[R]_n) x y : sym A -> qf A (x + y) = qf A x + bf A x y *+ 2 + qf A y.
Proof.
move=> sA; rewrite /qf; have -> : (x + y)^T = x^T + y^T by rewrite linearD.
rewrite !mulmxDl !mulmxDr !mxDE -!/(bf A _ _) -/(qf A x) -/(qf A y).
by rewrite (bf_sym y x sA) mulr2n !addrA.
Qed.
Lemma qf_sub n (A : 'M[R]_n) x y : sym A -> qf A (x - y) = qf A x - bf A x y *+ 2 + qf A y.
Proof.
move=> sA; have EN : (- y)^T = - y^T by rewrite linearN.
rewrite qf_add //; congr (_ + _ + _); last by rewrite /qf EN !mulNmx mulmxN opprK.
by rewrite /bf mulmxN mxE mulNrn.
Qed.
Lemma qf_inv n (P : 'M[R]_n) g : pd P -> qf (invmx P) (P *m g) = qf P g.
Proof. by move=> pP; rewrite /qf trmx_mul pP.1 -(mulmxA _ _ (invmx P)) mulmxV ?pd_unit // mulmx1 mulmxA. Qed.
Lemma bf_inv n (P : 'M[R]_n) g x : pd P -> bf (invmx P) (P *m g) x = (g^T *m x) 0 0.
Proof. by move=> pP; rewrite /bf trmx_mul pP.1 -(mulmxA _ _ (invmx P)) mulmxV ?pd_unit // mulmx1. Qed.

(** Prediction: what remains of the cost when the previous state is free. *)
Lemma predict_ls n (P Q A : 'M[R]_n) (e w : 'cV[R]_n) : pd P -> pd Q -> let Pb := k_pbar A Q P in
  let e0 := P *m (A^T *m (invmx Pb *m w)) in
  qf (invmx P) e + qf (invmx Q) (w - A *m e) =
  qf (invmx Pb) w + (qf (invmx P) (e - e0) + qf (invmx Q) (A *m (e - e0))).
Proof.
move=> pP pQ Pb e0.
have pPb : pd Pb by rewrite /Pb /k_pbar addrC mulmxA; apply: pdD => //; apply: psd_cong; apply: pd_psd.
pose g := invmx Pb *m w; pose d := e - e0.
have Ew : w = Pb *m g by rewrite /g mulmxA mulmxV ?pd_unit // mul1mx.
have Er : w - A *m e0 = Q *m g.
  by rewrite Ew /e0 -/g /Pb /k_pbar mulmxDl !mulmxA addrK.
have Ee : e = e0 + d by rewrite /d addrC subrK.
have Ed : w - A *m e = Q *m g - A *m d by rewrite -Er Ee mulmxDr opprD addrA.
rewrite Ed -/d {1}Ee qf_add; last exact: (pd_inv pP).1.
rewrite (@qf_sub _ (invmx Q)); last exact: (pd_inv pQ).1.
rewrite {1 2}/e0 -/g !qf_inv // !bf_inv // Ew qf_inv //.
rewrite trmx_mul trmxK -(mulmxA g^T A d).
have -> : qf P (A^T *m g) = qf Pb g - qf Q g.
  by rewrite /Pb /k_pbar qfD addrC addKr mulmxA qf_cong.
exact: num_predict.
Qed.

(** Correction: completing the square. *)
Lemma correct_ls n m (C : 'M[R]_(m, n)) Rm (Pb : 'M[R]_n) (K : 'M[R]_(n, m)) : pd Rm -> pd Pb -> let S := k_inoCov C Rm Pb in
  K *m S = Pb *m C^T -> let P' := joseph C Rm Pb K in
  [/\ pd P', invmx P' = invmx Pb + C^T *m invmx Rm *m C, K = P' *m (C^T *m invmx Rm) &
     forall (e : 'cV[R]_n) (r : 'cV[R]_m), qf (invmx Pb) e + qf (invmx Rm) (r - C *m e) = qf (invmx P') (e - K *m r) + qf (invmx S) r].
Proof.
move=> pR pP S KS P'.
have pS : pd S := k_inoCov_pd C pR (pd_psd pP).
have EP : P' = (1%:M - K *m C) *m Pb by rewrite /P' -(covUpdate_joseph pP.1 pR.1 KS) /k_covUpdate mulNmx addrC.
have EK : (1%:M - K *m C) *m Pb *m C^T = K *m Rm.
  by rewrite mulmxBl mul1mx mulmxBl -KS /S /k_inoCov mulmxDr !mulmxA addrK.
pose M := invmx Pb + C^T *m invmx Rm *m C.
have PM : P' *m M = 1%:M.
  rewrite EP /M mulmxDr -mulmxA mulmxV ?pd_unit // mulmx1 !mulmxA EK -(mulmxA K Rm) mulmxV ?pd_unit // mulmx1.
  by rewrite subrK.
have pM : pd M.
  rewrite /M addrC; apply: pdD (pd_inv pP); rewrite -{2}(trmxK C); apply: psd_cong; apply: pd_psd; exact: pd_inv.
have uM := pd_unit pM.
have P'M : P' = invmx M by rewrite -[P'](mulmxK uM) PM mul1mx.
have MP : invmx P' = M by rewrite P'M invmxK.
have pP' : pd P' by rewrite P'M; apply: pd_inv.
have K2 : K = P' *m (C^T *m invmx Rm).
  by rewrite mulmxA EP EK -mulmxA mulmxV ?pd_unit // mulmx1.
split=> // e r.
have MP1 : M *m P' = 1%:M by rewrite P'M mulmxV.
have MK : M *m K = C^T *m invmx Rm by rewrite {1}K2 (mulmxA M P') MP1 mul1mx.
have sR := (pd_inv pR).1; have sM := pM.1.
have E1 : qf M e = qf (invmx Pb) e + qf (invmx Rm) (C *m e).
  by rewrite /M qfD; congr (_ + _); have := qf_cong (invmx Rm) C^T e; rewrite trmxK.
have E2 : bf M e (K *m r) = bf (invmx Rm) r (C *m e).
  by rewrite (bf_sym _ _ sR) /bf trmx_mul -(mulmxA _ M) (mulmxA M K) MK !mulmxA.
have E3 : qf M (K *m r) = qf (invmx Rm) r - qf (invmx S) r.
  rewrite -qfB /qf trmx_mul -(mulmxA _ M) (mulmxA M K) MK !mulmxA.
  have -> : r^T *m K^T *m C^T = r^T *m (1%:M - invmx S *m Rm).
    rewrite -mulmxA; congr (_ *m _).
    have sS := pS.1.
    have -> : K^T = invmx S *m (C *m Pb).
      have KS' : S *m K^T = C *m Pb by rewrite -[S]sS -trmx_mul KS trmx_mul trmxK pP.1.
      by rewrite -KS' mulmxA mulVmx ?pd_unit // mul1mx.
    rewrite -mulmxA.
    have -> : C *m Pb *m C^T = S - Rm by rewrite /S /k_inoCov mulmxA addrAC subrr add0r.
    by rewrite mulmxBr mulVmx ?pd_unit.
  by rewrite -!mulmxA (mulmxA _ (invmx Rm)) mulmxBl mul1mx -(mulmxA _ Rm) mulmxV ?pd_unit // mulmx1.
by rewrite MP (qf_sub r _ sR) (qf_sub e _ sM) E1 E2 E3; apply: num_correct.
Qed.
End Forms.
