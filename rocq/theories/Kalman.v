(** The covariance and gain computations of KalmanFilterBase::oneStepEstimation_. *)
From mathcomp Require Import all_ssreflect all_algebra.
From mathcomp Require Import ring.
From Verif Require Import MxLib Cholesky.
Set Implicit Arguments.
Unset Strict Implicit.
Unset Printing Implicit Defensive.
Import Order.TTheory GRing.Theory Num.Theory.
Open Scope ring_scope.

Section Core.
Variable R : rcfType.
Variables (n m : nat).  (* tangent sizes nt_ and mt_ *)
Implicit Types (A P Q : 'M[R]_n) (C : 'M[R]_(m, n)) (Rm S : 'M[R]_m) (K : 'M[R]_(n, m)).

(** src/kalman-filter-base.cpp:122: oc_.pbar = q_ + a_ * (pr_ * a_.transpose()). *)
Definition k_pbar A Q P : 'M[R]_n := Q + A *m (P *m A^T).
(** src/kalman-filter-base.cpp:126: oc_.inoMeasCov = r_ + c_ * (oc_.pbar * c_.transpose()). *)
Definition k_inoCov C Rm (Pb : 'M[R]_n) : 'M[R]_m := Rm + C *m (Pb *m C^T).
(** src/kalman-filter-base.cpp:137: kGain = pbar * (c_.transpose() * inoMeasCovInverse). *)
Definition k_gain C (Pb : 'M[R]_n) (Si : 'M[R]_m) : 'M[R]_(n, m) := Pb *m (C^T *m Si).
(** src/kalman-filter-base.cpp:163-165: pr_ = -kGain * c_; diagonal += 1; pr_ *= pbar. *)
Definition k_covUpdate C K (Pb : 'M[R]_n) : 'M[R]_n := (- K *m C + 1%:M) *m Pb.
(** src/kalman-filter-base.cpp:168: pr_ = (pr_ + pr_.transpose()) * 0.5. *)
Definition k_symmetrize (P : 'M[R]_n) : 'M[R]_n := 2%:R^-1 *: (P + P^T).

(** src/kalman-filter-base.cpp:122-137 and 163-168: predicted covariance, gain and updated
    covariance; None when the triangular solves divide by zero. *)
Definition k_cov A C Q Rm P : option ('M[R]_(n, m) * 'M[R]_n) :=
  let Pb := k_pbar A Q P in
  match chol_inverse (k_inoCov C Rm Pb) with
  | None => None
  | Some Si => let K := k_gain C Pb Si in Some (K, k_symmetrize (k_covUpdate C K Pb))
  end.

(** ** Algebra *)

(** The Joseph form: error covariance after an update with an arbitrary gain G. *)
Definition joseph C Rm (Pb : 'M[R]_n) (G : 'M[R]_(n, m)) : 'M[R]_n :=
  (1%:M - G *m C) *m Pb *m (1%:M - G *m C)^T + G *m Rm *m G^T.

Lemma k_symmetrize_sym (P : 'M[R]_n) : sym (k_symmetrize P).
Proof. by rewrite /sym /k_symmetrize linearZ linearD /= trmxK addrC. Qed.

Lemma k_symmetrize_id (P : 'M[R]_n) : sym P -> k_symmetrize P = P.
Proof.
rewrite /sym /k_symmetrize => ->; rewrite -mulr2n -scaler_nat scalerA mulVf ?scale1r //.
by rewrite pnatr_eq0.
Qed.

Lemma k_cov_sym A C Q Rm P K P' : k_cov A C Q Rm P = Some (K, P') -> sym P'.
Proof.
rewrite /k_cov; case: chol_inverse => [Si|] // [_ <-]; exact: k_symmetrize_sym.
Qed.

Lemma k_pbar_psd A Q P : psd Q -> psd P -> psd (k_pbar A Q P).
Proof. by move=> pQ pP; apply: psdD => //; rewrite mulmxA; apply: psd_cong. Qed.

Lemma k_pbar_sym A Q P : sym Q -> sym P -> sym (k_pbar A Q P).
Proof. by move=> sQ sP; apply: symD => //; rewrite mulmxA; apply: sym_cong. Qed.

Lemma k_inoCov_pd C Rm (Pb : 'M[R]_n) : pd Rm -> psd Pb -> pd (k_inoCov C Rm Pb).
Proof. by move=> pR pP; rewrite /k_inoCov addrC; apply: pdD => //; rewrite mulmxA; apply: psd_cong. Qed.

(** The exact gain. *)
Lemma k_gain_eq C Rm (Pb : 'M[R]_n) : pd (k_inoCov C Rm Pb) ->
  let K := k_gain C Pb (invmx (k_inoCov C Rm Pb)) in
  K *m k_inoCov C Rm Pb = Pb *m C^T /\
  forall K', K' *m k_inoCov C Rm Pb = Pb *m C^T -> K' = K.
Proof.
move=> pS; have uS := pd_unit pS => K.
have KS : K *m k_inoCov C Rm Pb = Pb *m C^T by rewrite /K /k_gain -!mulmxA mulVmx // mulmx1.
by split=> // K' K'S; rewrite -[K'](mulmxK uS) K'S -KS mulmxK.
Qed.

(** Completing the square. *)
Lemma joseph_square C Rm (Pb : 'M[R]_n) (K G : 'M[R]_(n, m)) : sym Pb -> sym Rm ->
  K *m k_inoCov C Rm Pb = Pb *m C^T ->
  joseph C Rm Pb G = joseph C Rm Pb K + (G - K) *m k_inoCov C Rm Pb *m (G - K)^T.
Proof.
move=> sP sR KS; set S := k_inoCov C Rm Pb in KS *.
have sS : sym S.
  by apply: symD => //; rewrite mulmxA; apply: sym_cong.
have SK : S *m K^T = C *m Pb.
  by rewrite -{1}sS -trmx_mul KS trmx_mul trmxK sP.
have J : forall G, joseph C Rm Pb G = Pb - G *m C *m Pb - Pb *m C^T *m G^T + G *m S *m G^T.
  move=> G0; rewrite /joseph linearB /= trmx1 trmx_mul mulmxBr mulmx1 !mulmxBl mul1mx.
  by rewrite /S /k_inoCov mulmxDr mulmxDl !mulmxA; apply/matrixP => i j; rewrite ?(mxDE, mxNE, mxZE, mx0E); mxgen; ring.
rewrite !J linearB /= mulmxBr !mulmxBl KS -[G *m S *m K^T]mulmxA SK mulmxA.
have -> : K *m C *m Pb = Pb *m C^T *m K^T by rewrite -mulmxA -SK mulmxA KS.
mxring.
Qed.

(** The updated covariance equals the Joseph form of the gain, hence the symmetrisation is
    exact. *)
Lemma covUpdate_joseph C Rm (Pb : 'M[R]_n) K : sym Pb -> sym Rm ->
  K *m k_inoCov C Rm Pb = Pb *m C^T -> k_covUpdate C K Pb = joseph C Rm Pb K.
Proof.
move=> sP sR KS; rewrite /joseph /k_covUpdate linearB /= trmx1 trmx_mul mulmxBr mulmx1.
have -> : (1%:M - K *m C) *m Pb *m (C^T *m K^T) = K *m Rm *m K^T.
  rewrite mulmxBl mulmxBl mul1mx mulmxA -KS /k_inoCov mulmxDr mulmxDl !mulmxA addrK //.
by rewrite subrK addrC mulNmx.
Qed.

Lemma joseph_psd C Rm (Pb : 'M[R]_n) G : psd Pb -> psd Rm -> psd (joseph C Rm Pb G).
Proof. by move=> pP pR; apply: psdD; apply: psd_cong. Qed.

(** All in one: what a covariance step computes from good covariances. *)
Lemma k_cov_spec A C Q Rm P : psd Q -> pd Rm -> psd P ->
  let Pb := k_pbar A Q P in let S := k_inoCov C Rm Pb in
  exists K, [/\ k_cov A C Q Rm P = Some (K, joseph C Rm Pb K),
     K *m S = Pb *m C^T, pd S & psd Pb].
Proof.
move=> pQ pR pP Pb S.
have pPb : psd Pb := k_pbar_psd A pQ pP.
have pS : pd S := k_inoCov_pd C pR pPb.
have [KS _] := k_gain_eq pS.
exists (k_gain C Pb (invmx S)); split=> //.
rewrite /k_cov -/Pb -/S chol_inverse_pd // (covUpdate_joseph pPb.1 pR.1 KS).
by rewrite k_symmetrize_id //; apply: (joseph_psd _ _ pPb (pd_psd pR)).1.
Qed.
End Core.
