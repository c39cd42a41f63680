(** Properties of the Gaussian noise: C64, C77, C78. [sized] and [expectation] are in
    NoiseProofs.v. *)
From mathcomp Require Import all_ssreflect all_algebra.
From Verif Require Import Base MxLib Cholesky Noise NoiseProofs.
Set Implicit Arguments.
Unset Strict Implicit.
Unset Printing Implicit Defensive.
Import Order.TTheory GRing.Theory Num.Theory.
Open Scope ring_scope.

(** ** C64 *)
(** After any history without a custom sum, once a positive definite covariance P and a bias b of
    the current dimension are set, in either order, getNoisy(v) is v + b + S z where z are the
    standard draws of the call and S S^T = P; it never fails and keeps the size. *)
Theorem C64_noise_is_affine :
  forall (R : rcfType) md d0 h (g : gwn R) (P : 'M[R]_(g_dim g)) (b : 'cV[R]_(g_dim g)),
  all (fun o => if o is GSum _ then false else true) h ->
  g_run Debug h (g_new R d0) = Ok g -> pd P ->
  exists S : 'M[R]_(g_dim g), S *m S^T = P /\
  (exists g', g_run md [:: GCov (dm P); GBias (dv b)] g = Ok g' /\
     forall z (v : 'cV[R]_(g_dim g)), g_getNoisy md z (dv v) g' = Ok (dv (v + (S *m (\col_(i < g_dim g) z i) + b)))) /\
  (exists g', g_run md [:: GBias (dv b); GCov (dm P)] g = Ok g' /\
     forall z (v : 'cV[R]_(g_dim g)), g_getNoisy md z (dv v) g' = Ok (dv (v + (S *m (\col_(i < g_dim g) z i) + b)))).
Proof.
move=> R md d0 h g P b Hh Er pP.
have [d [S0 [b0 Hs]]] := run_sized (new_sized R d0) Er.
have Hn := no_sum Hh (erefl : g_sum (g_new R d0) = None) Er.
case: (Hs) => Hd _ _; subst d.
have [_ LL _] := llt_correct pP.
exists (lowpart (llt P).2); split=> //; split.
  have [g1 E1 [H1 N1]] := setCov_sized md P Hs; have [g2 E2 [H2 N2]] := setBias_sized md b H1.
  exists g2; split; first by rewrite /g_run /= E1 /= E2.
  by move=> z v; apply: getNoisy_sized => //; rewrite N2 N1.
have [g1 E1 [H1 N1]] := setBias_sized md b Hs; have [g2 E2 [H2 N2]] := setCov_sized md P H1.
exists g2; split; first by rewrite /g_run /= E1 /= E2.
by move=> z v; apply: getNoisy_sized => //; rewrite N2 N1.
Qed.
Print Assumptions C64_noise_is_affine.
Example C64_ex : forall R : rcfType,
  g_run Debug [:: GDim R 2; GStd (dm (2%:R%:M : 'M[R]_2))] (g_new R 5) = Ok (mkG 2 (dm (2%:R%:M : 'M[R]_2)) (dv (0 : 'cV[R]_2)) None) /\
  pd (3%:R%:M : 'M[R]_2).
Proof.
move=> R; split; first by [].
have -> : (3%:R%:M : 'M[R]_2) = 3%:R *: 1%:M by rewrite scalemx1.
by apply: pdZ; [rewrite ltr0n|exact: pd1].
Qed.

(** Mean and covariance: for draws that are centred, of unit variance and uncorrelated under a linear
    expectation, the noise has mean b and covariance P. *)
Theorem C64_noise_mean_and_covariance :
  forall (R : rcfType) md d0 h (g : gwn R) (P : 'M[R]_(g_dim g)) (b v : 'cV[R]_(g_dim g))
    (Om : Type) (E : expectation R Om) (z : Om -> nat -> R) g',
  all (fun o => if o is GSum _ then false else true) h ->
  g_run Debug h (g_new R d0) = Ok g -> pd P ->
  (forall i : 'I_(g_dim g), ex E (fun w => z w i) = 0) ->
  (forall i j : 'I_(g_dim g), ex E (fun w => z w i * z w j) = (i == j)%:R) ->
  g_run md [:: GCov (dm P); GBias (dv b)] g = Ok g' ->
  exists noisy : Om -> 'cV[R]_(g_dim g),
  (forall w, g_getNoisy md (z w) (dv v) g' = Ok (dv (noisy w))) /\
  (forall i, ex E (fun w => noisy w i 0 - v i 0) = b i 0) /\
  (forall i j, ex E (fun w => (noisy w i 0 - v i 0 - b i 0) * (noisy w j 0 - v j 0 - b j 0)) = P i j).
Proof.
move=> R md d0 h g P b v Om E z g' Hh Er pP Hm Hc Eg.
have [S [SS [[g1 [E1 H1]] _]]] := C64_noise_is_affine md b Hh Er pP.
have [{}Eg] : Ok g1 = Ok g' by rewrite -E1 -Eg. subst g1.
have [A1 A2] := ex_affine S b Hm Hc.
exists (fun w => v + (S *m (\col_(i < g_dim g) z w i) + b)); split; first by move=> w; exact: H1.
have sub : forall (x y : 'cV[R]_(g_dim g)) i, (x + y) i 0 - x i 0 = y i 0 by move=> x y i; rewrite mxDE addrC addKr.
split=> [i|i j].
  rewrite -(A1 i); apply: ex_ext => w; exact: sub.
rewrite -SS -(A2 i j); apply: ex_ext => w; by rewrite !sub.
Qed.
Print Assumptions C64_noise_mean_and_covariance.
(** A fair coin gives such draws in dimension one. *)
Example C64_mean_ex : forall R : rcfType, exists (E : expectation R bool) (z : bool -> nat -> R),
  (forall i : 'I_1, ex E (fun w => z w i) = 0) /\ (forall i j : 'I_1, ex E (fun w => z w i * z w j) = (i == j)%:R).
Proof.
move=> R.
pose e (f : bool -> R) := (f true + f false) / 2%:R.
have two : (2%:R : R) != 0 by rewrite pnatr_eq0.
have e1 : forall f h, (forall w, f w = h w) -> e f = e h by move=> f h H; rewrite /e !H.
have e2 : forall f h, e (fun w => f w + h w) = e f + e h by move=> f h; rewrite /e -mulrDl addrACA.
have e3 : forall c f, e (fun w => c * f w) = c * e f by move=> c f; rewrite /e -mulrDr mulrA.
have e4 : e (fun _ => 1) = 1 by rewrite /e -(natrD R 1 1) divff.
exists (mkE e1 e2 e3 e4), (fun w _ => if w then 1 else -1); split=> [i|i j] /=; rewrite /e.
  by rewrite subrr mul0r.
by rewrite mulrNN mulr1 -(natrD R 1 1) divff // !ord1 eqxx.
Qed.

(** ** C77 *)
(** setCovarianceMatrix documents that a positive semi-definite covariance is accepted. It is not:
    the status of the factorisation is ignored and the noise then has another covariance. *)
Theorem C77_semidefinite_covariance_refuted :
  forall (R : rcfType) md, exists (P : 'M[R]_2) (S : 'M[R]_2) g,
  psd P /\ g_run md [:: GCov (dm P)] (g_new R 2) = Ok g /\ (forall z (v : 'cV[R]_2), g_getNoisy md z (dv v) g = Ok (dv (v + (S *m (\col_(i < 2) z i) + 0)))) /\ S *m S^T != P.
Proof.
move=> R md; pose D : 'rV[R]_2 := \row_j (if j == 0 then 0 else 2%:R).
pose P : 'M[R]_2 := diag_mx D *m (diag_mx D)^T.
have PE : P = diag_mx (\row_j (if j == 0 then 0 else 4%:R)).
  rewrite /P tr_diag_mx mulmx_diag; congr diag_mx; apply/rowP => j; rewrite !mxE.
  by case: eqP => _; rewrite ?mul0r // -natrM.
have EP : llt P = (true, P).
  rewrite /llt enum_ordSl /=.
  have -> : llt_step (false, P) ord0 = (true, P).
    rewrite /llt_step /= /llt_pivot big_pred0 // subr0.
    have -> : P ord0 ord0 = 0 by rewrite PE !mxE eqxx mulr1n.
    by rewrite lexx.
  by elim: (map _ _) => //= a l ->.
have EL : lowpart P = P.
  apply/matrixP => i j; rewrite [lowpart _ _ _]mxE; case: leqP => // ij.
  have /negbTE nij : i != j by apply: contraTN ij => /eqP ->; rewrite ltnn.
  by rewrite PE !mxE nij mulr0n.
have [g Eg [Hg Ng]] := setCov_sized md P (new_sized R 2).
exists P, P, g; split; first exact: psd_gram.
split; first by rewrite /g_run /orun /g_step Eg.
split.
  move=> z v; apply: getNoisy_sized => //; move: Hg; by rewrite EP /= EL.
apply/negP => /eqP /matrixP /(_ (lift ord0 ord0) (lift ord0 ord0)).
rewrite PE tr_diag_mx mulmx_diag !mxE eqxx /= !mulr1n -natrM => /eqP.
by rewrite eqr_nat.
Qed.
Print Assumptions C77_semidefinite_covariance_refuted.

(** ** C78 *)
(** A custom sum makes sense when the noise lives in a tangent space of another dimension than the
    state. In Debug getNoisy always fails then, whatever the noise, the sum and the state. *)
Theorem C78_tangent_noise_refuted :
  forall (R : rcfType) (g : gwn R) f z n (v : 'cV[R]_n), n != g_dim g ->
  g_getNoisy Debug z (dv v) (g_setSum f g) = AssertFail.
Proof. by move=> R g f z n v /negbTE H; rewrite /g_getNoisy /g_checkVector /= H. Qed.
Print Assumptions C78_tangent_noise_refuted.
Example C78_ex : forall R : rcfType, (4 != g_dim (g_new R 3))%N. Proof. by []. Qed.
