(** The Cholesky based inverse used by the Kalman filters. *)
From mathcomp Require Import all_ssreflect all_algebra.
From Verif Require Import MxLib.
Set Implicit Arguments.
Unset Strict Implicit.
Unset Printing Implicit Defensive.
Import Order.TTheory GRing.Theory Num.Theory.
Open Scope ring_scope.

Section Chol.
Variable R : rcfType.

(** Eigen::LLT::compute as called at src/kalman-filter-base.cpp:130 (unblocked algorithm;
    Eigen switches to a blocked variant of the same factorisation from size 32 on).
    Pivot of column k: A(k,k) - squaredNorm of the k first coefficients of row k. *)
Definition llt_pivot n (A : 'M[R]_n) (k : 'I_n) : R :=
  A k k - \sum_(l < n | (l < k)%N) A k l ^+ 2.

(** Same algorithm: A(k,k) = x; A21 = (A21 - A20 * A10^T) / x; nothing else is written. *)
Definition llt_update n (A : 'M[R]_n) (k : 'I_n) (x : R) : 'M[R]_n :=
  \matrix_(i, j)
    if j == k then
      if i == k then x
      else if (k < i)%N then (A i k - \sum_(l < n | (l < k)%N) A i l * A k l) / x
      else A i j
    else A i j.

(** One turn of the loop; the boolean records the early exit (info() == NumericalIssue),
    which the filter never reads. *)
Definition llt_step n (s : bool * 'M[R]_n) (k : 'I_n) : bool * 'M[R]_n :=
  if s.1 then s else
  let x := llt_pivot s.2 k in
  if x <= 0 then (true, s.2) else (false, llt_update s.2 k (Num.sqrt x)).

Definition llt n (A : 'M[R]_n) : bool * 'M[R]_n := foldl (@llt_step n) (false, A) (enum 'I_n).

(** matrixL(), src/kalman-filter-base.cpp:133-134: the lower triangle of the factor. *)
Definition lowpart n (A : 'M[R]_n) : 'M[R]_n := \matrix_(i, j) if (j <= i)%N then A i j else 0.

(** matrixL().solveInPlace(X), src/kalman-filter-base.cpp:133: forward substitution.
    Defined behaviour requires non-zero diagonal coefficients, see [solvable]. *)
Definition fwd_step n p (L : 'M[R]_n) (X : 'M[R]_(n, p)) (k : 'I_n) : 'M[R]_(n, p) :=
  \matrix_(i, j) if i == k then (X k j - \sum_(l < n | (l < k)%N) L k l * X l j) / L k k else X i j.
Definition fwd n p (L : 'M[R]_n) (X : 'M[R]_(n, p)) := foldl (fwd_step L) X (enum 'I_n).

(** matrixL().transpose().solveInPlace(X), src/kalman-filter-base.cpp:134: backward substitution. *)
Definition bwd_step n p (U : 'M[R]_n) (X : 'M[R]_(n, p)) (k : 'I_n) : 'M[R]_(n, p) :=
  \matrix_(i, j) if i == k then (X k j - \sum_(l < n | (k < l)%N) U k l * X l j) / U k k else X i j.
Definition bwd n p (U : 'M[R]_n) (X : 'M[R]_(n, p)) := foldl (bwd_step U) X (rev (enum 'I_n)).

(** No division by zero occurs in the solves. *)
Definition solvable n (L : 'M[R]_n) : bool := [forall i, L i i != 0].

(** src/kalman-filter-base.cpp:130-134; None when a solve divides by zero (the code then
    goes on with infinite or NaN coefficients, which the model does not represent). *)
Definition chol_inverse n (S : 'M[R]_n) : option 'M[R]_n :=
  let L := lowpart (llt S).2 in
  if solvable L then Some (bwd L^T (fwd L 1%:M)) else None.

(** ** Proofs *)

Lemma fwd_correct n p (L : 'M[R]_n) (B : 'M[R]_(n, p)) : solvable L ->
  lowpart L *m fwd L B = B.
Proof.
move=> /forallP dL.
pose I k (X : 'M[R]_(n, p)) := (forall (i : 'I_n) j, (i < k)%N ->
    \sum_(l < n | (l <= i)%N) L i l * X l j = B i j) /\ (forall (i : 'I_n) j, (k <= i)%N -> X i j = B i j).
have [H _] : I n (fwd L B).
  apply: foldl_enum_ord => [|k X [IH1 IH2]]; first by split.
  split=> [i j lik|i j lki].
  - have Hold : forall l : 'I_n, (l < k)%N -> fwd_step L X k l j = X l j.
      by move=> l lk; rewrite mxE; case: eqP => // e; rewrite e ltnn in lk.
    case: (ltngtP i k) => [ltik|ltki|/val_inj eik].
    + rewrite -(IH1 _ _ ltik); apply: eq_bigr => l li; rewrite Hold //; exact: leq_ltn_trans li ltik.
    + by move: lik; rewrite ltnS leqNgt ltki.
    + rewrite eik (bigD1 k) ?leqnn //= mxE eqxx mulrCA divff ?mulr1 ?dL //.
      rewrite IH2 // -[RHS](subrK (\sum_(l < n | (l < k)%N) L k l * X l j)); congr (_ + _).
      apply: eq_big => [l|l]; first by rewrite ltn_neqAle andbC.
      by case/andP=> lk nlk; rewrite Hold // ltn_neqAle nlk.
  - rewrite mxE ifN ?IH2 //; first exact: ltnW.
    by apply/eqP => e; rewrite e ltnn in lki.
apply/matrixP => i j; rewrite mxE -(H i j) // [RHS]big_mkcond /=.
by apply: eq_bigr => l _; rewrite mxE; case: ifP => // _; rewrite mul0r.
Qed.

(** Upper triangle. *)
Definition uppart n (A : 'M[R]_n) : 'M[R]_n := \matrix_(i, j) if (i <= j)%N then A i j else 0.

Lemma bwd_correct n p (U : 'M[R]_n) (B : 'M[R]_(n, p)) : solvable U ->
  uppart U *m bwd U B = B.
Proof.
move=> /forallP dL.
pose I k (X : 'M[R]_(n, p)) := (forall (i : 'I_n) j, (k <= i)%N ->
    \sum_(l < n | (i <= l)%N) U i l * X l j = B i j) /\ (forall (i : 'I_n) j, (i < k)%N -> X i j = B i j).
have [H _] : I 0%N (bwd U B).
  apply: foldl_rev_enum_ord => [|k X [IH1 IH2]].
    by split=> // i j; rewrite leqNgt ltn_ord.
  split=> [i j lki|i j lik].
  - have Hold : forall l : 'I_n, (k < l)%N -> bwd_step U X k l j = X l j.
      by move=> l lk; rewrite mxE; case: eqP => // e; rewrite e ltnn in lk.
    case: (ltngtP i k) => [ltik|ltki|/val_inj eik].
    + by move: lki; rewrite leqNgt ltik.
    + rewrite -(IH1 _ _ ltki); apply: eq_bigr => l li; rewrite Hold //; exact: leq_trans ltki li.
    + rewrite eik (bigD1 k) ?leqnn //= mxE eqxx mulrCA divff ?mulr1 ?dL //.
      rewrite IH2 // -[RHS](subrK (\sum_(l < n | (k < l)%N) U k l * X l j)); congr (_ + _).
      apply: eq_big => [l|l]; first by rewrite ltn_neqAle andbC eq_sym.
      by case/andP=> lk nlk; rewrite Hold // ltn_neqAle eq_sym nlk.
  - rewrite mxE ifN ?IH2 //; first exact: ltnW.
    by apply/eqP => e; rewrite e ltnn in lik.
apply/matrixP => i j; rewrite mxE -(H i j) // [RHS]big_mkcond /=.
by apply: eq_bigr => l _; rewrite mxE; case: ifP => // _; rewrite mul0r.
Qed.

(** State of the factorisation after k columns. *)
Definition llt_inv n (A : 'M[R]_n) k (s : bool * 'M[R]_n) : Prop :=
  [/\ s.1 = false,
      forall i j : 'I_n, (j < k)%N -> (j <= i)%N ->
        \sum_(l < n | (l <= j)%N) s.2 i l * s.2 j l = A i j,
      forall j : 'I_n, (j < k)%N -> 0 < s.2 j j &
      forall i j : 'I_n, (k <= j)%N -> s.2 i j = A i j].

(** The partially factorised matrix, with identity columns from k on. *)
Definition partialL n k (M : 'M[R]_n) : 'M[R]_n :=
  \matrix_(i, j) if (j < k)%N then (if (j <= i)%N then M i j else 0) else (i == j)%:R.

Definition schur n k (A M : 'M[R]_n) : 'M[R]_n :=
  \matrix_(i, j) if (k <= i)%N && (k <= j)%N then A i j - \sum_(l < n | (l < k)%N) M i l * M j l
                 else (i == j)%:R.

Lemma partial_fact n k (A : 'M[R]_n) s : sym A -> llt_inv A k s ->
  A = partialL k s.2 *m schur k A s.2 *m (partialL k s.2)^T.
Proof.
move=> sA [_ H1 _ H3]; set M := s.2 in H1 H3 *.
have symE : forall i j, A i j = A j i by move=> i j; rewrite -[in LHS]sA mxE.
have E : forall i j, (partialL k M *m schur k A M *m (partialL k M)^T) i j =
  \sum_(l < n | (l < k)%N) partialL k M i l * partialL k M j l +
  (if (k <= i)%N && (k <= j)%N then A i j - \sum_(l < n | (l < k)%N) M i l * M j l else 0).
  move=> i j; rewrite mxE.
  have PS : forall m, (partialL k M *m schur k A M) i m =
     if (m < k)%N then partialL k M i m else
     if (k <= i)%N then A i m - \sum_(l < n | (l < k)%N) M i l * M m l else 0.
    move=> m; rewrite mxE; case: (ltnP m k) => mk.
    + rewrite (bigD1 m) //= big1 ?addr0 => [|l lm].
        by rewrite [schur _ _ _ _ _]mxE [(k <= m)%N]leqNgt mk /= eqxx mulr1.
      by rewrite [schur _ _ _ _ _]mxE [(k <= m)%N]leqNgt mk andbF (negPf lm) mulr0.
    + case: (leqP k i) => ki.
      * rewrite (bigD1 i) //= big1 ?addr0 => [|l li].
          by rewrite [partialL _ _ _ _]mxE [schur _ _ _ _ _]mxE ltnNge ki /= eqxx mul1r mk.
        rewrite [schur _ _ _ _ _]mxE mk andbT; case: (leqP k l) => kl.
          by rewrite mxE ltnNge kl /= eq_sym (negPf li) mul0r.
        rewrite [(l == m)](_ : _ = false) ?mulr0 //; apply/eqP => e; by rewrite e ltnNge mk in kl.
      * rewrite big1 // => l _; rewrite [schur _ _ _ _ _]mxE mk andbT; case: (leqP k l) => kl.
          rewrite mxE ltnNge kl /= [(i == l)](_ : _ = false) ?mul0r //.
          by apply/eqP => e; rewrite e ltnNge kl in ki.
        rewrite [(l == m)](_ : _ = false) ?mulr0 //; apply/eqP => e; by rewrite e ltnNge mk in kl.
  rewrite (bigID (fun l : 'I_n => (l < k)%N)) /=; congr (_ + _).
    by apply: eq_bigr => l lk; rewrite PS lk [(_^T)%R _ _]mxE.
  case: (leqP k j) => kj; last first.
    rewrite andbF big1 // => l kl; rewrite [(_^T)%R _ _]mxE [partialL _ _ _ _]mxE (negPf kl).
    rewrite [(j == l)](_ : _ = false) ?mulr0 //; apply/eqP => e; by rewrite -e kj in kl.
  rewrite (bigD1 j) /= ?ltnNge ?kj //= big1 ?addr0 => [|l /andP[kl lj]]; last first.
    by rewrite [(_^T)%R _ _]mxE [partialL _ _ _ _]mxE (negPf kl) eq_sym (negPf lj) mulr0.
  by rewrite PS ltnNge kj /= [(_^T)%R _ _]mxE [partialL _ _ _ _]mxE ltnNge kj /= eqxx mulr1 andbT.
have low : forall i j : 'I_n, (j < k)%N -> (j <= i)%N ->
    \sum_(l < n | (l < k)%N) partialL k M i l * partialL k M j l = A i j.
  move=> i j jk ji; rewrite -(H1 i j jk ji) big_mkcond [RHS]big_mkcond /=.
  apply: eq_bigr => l _; case: (ltnP l k) => lk.
  - rewrite ![partialL _ _ _ _]mxE lk; case: (leqP l j) => lj; last by rewrite mulr0.
    by rewrite (leq_trans lj ji).
  - by rewrite leqNgt (leq_trans jk lk).
apply/matrixP => i j; rewrite E.
case: (leqP k i) => ki; case: (leqP k j) => kj /=.
- rewrite [X in X + _](_ : _ = \sum_(l < n | (l < k)%N) M i l * M j l); first by rewrite addrC subrK.
  apply: eq_bigr => l lk; rewrite ![partialL _ _ _ _]mxE lk.
  by rewrite (leq_trans (ltnW lk) ki) (leq_trans (ltnW lk) kj).
- by rewrite addr0 low // (leq_trans (ltnW kj) ki).
- rewrite addr0 symE -(low j i) ?(leq_trans (ltnW ki) kj) //.
  by apply: eq_bigr => l _; rewrite mulrC.
- rewrite addr0; case: (leqP j i) => ji; first by rewrite low.
  by rewrite symE -(low j i ki (ltnW ji)); apply: eq_bigr => l _; rewrite mulrC.
Qed.

Lemma partialL_unit n k (M : 'M[R]_n) : (forall j : 'I_n, (j < k)%N -> 0 < M j j) ->
  partialL k M \in unitmx.
Proof.
move=> H; rewrite unitmxE det_trig.
  rewrite unitfE; apply/prodf_neq0 => i _; rewrite mxE; case: ifP => ik.
    by rewrite leqnn gt_eqF // H.
  by rewrite eqxx oner_eq0.
apply/is_trig_mxP => i j ij; rewrite mxE; case: ifP => _; first by rewrite leqNgt ij.
by rewrite [(i == j)](_ : _ = false) //; apply/eqP => e; rewrite e ltnn in ij.
Qed.

Lemma llt_pivot_gt0 n (A : 'M[R]_n) (k : 'I_n) s : pd A -> llt_inv A k s -> 0 < llt_pivot s.2 k.
Proof.
move=> pA inv; have [_ _ H2 H3] := inv.
have F := partial_fact pA.1 inv; have U := partialL_unit H2.
set P := partialL _ _ in F U; set D := schur _ _ _ in F.
have pD : pd D.
  have -> : D = invmx P *m A *m (invmx P)^T.
    rewrite {1}F trmx_inv !mulmxA mulVmx // mul1mx -mulmxA mulmxV ?mulmx1 //.
    by rewrite unitmx_tr.
  by apply: pd_cong => //; rewrite unitmx_inv.
have := pd_diag_gt0 k pD; rewrite mxE leqnn /= /llt_pivot H3 //.
Qed.

Lemma llt_inv_step n (A : 'M[R]_n) (k : 'I_n) s : pd A -> llt_inv A k s -> llt_inv A k.+1 (llt_step s k).
Proof.
move=> pA inv; have piv := llt_pivot_gt0 pA inv.
case: (inv) => H0 H1 H2 H3; rewrite /llt_step H0 leNgt piv /=.
set x := Num.sqrt _.
have x0 : 0 < x by rewrite sqrtr_gt0.
have xx : x * x = llt_pivot s.2 k by rewrite -expr2 sqr_sqrtr // ltW.
have old : forall i (l : 'I_n), (l < k)%N -> llt_update s.2 k x i l = s.2 i l.
  by move=> i l lk; rewrite mxE; case: eqP => // e; rewrite e ltnn in lk.
split=> //= [i j jk ji|j jk|i j kj].
- case: (ltngtP j k) => [ltjk|ltkj|/val_inj ejk].
  + rewrite -(H1 i j) //; apply: eq_bigr => l lj; rewrite !old //; exact: leq_ltn_trans lj ltjk.
  + by move: jk; rewrite ltnS leqNgt ltkj.
  + rewrite ejk in ji *.
    rewrite (bigD1 k) ?leqnn //= [X in _ + X](_ : _ = \sum_(l < n | (l < k)%N) s.2 i l * s.2 k l).
      have -> : llt_update s.2 k x k k = x by rewrite mxE !eqxx.
      rewrite mxE eqxx; case: (eqVneq i k) => [->|nik].
        rewrite xx /llt_pivot -[RHS](H3 k k) // -addrA [X in _ + X](_ : _ = 0) ?addr0 //.
        by rewrite addrC; apply/eqP; rewrite subr_eq0; apply/eqP; apply: eq_bigr => l _; rewrite expr2.
      rewrite (_ : (k < i)%N) ?ltn_neqAle ?ji ?andbT; last by rewrite eq_sym.
      rewrite divfK ?gt_eqF // subrK; exact: H3.
    apply: eq_big => [l|l]; first by rewrite ltn_neqAle andbC.
    by case/andP=> lk nlk; rewrite !old // ltn_neqAle nlk.
- case: (ltngtP j k) => [ltjk|ltkj|/val_inj ->].
  + by rewrite old // H2.
  + by move: jk; rewrite ltnS leqNgt ltkj.
  + by rewrite mxE !eqxx.
- rewrite mxE ifN; first by apply: H3; apply: ltnW.
  by apply/eqP => e; rewrite e ltnn in kj.
Qed.

Lemma llt_correct n (A : 'M[R]_n) : pd A ->
  [/\ (llt A).1 = false, lowpart (llt A).2 *m (lowpart (llt A).2)^T = A &
      forall i, 0 < lowpart (llt A).2 i i].
Proof.
move=> pA; have [H0 H1 H2 _] : llt_inv A n (llt A).
  apply: foldl_enum_ord; last by move=> k s; exact: llt_inv_step.
  by split.
have symE : forall i j, A i j = A j i by move=> i j; rewrite -[in LHS]pA.1 mxE.
split=> // [|i]; last by rewrite mxE leqnn H2.
have low : forall i j : 'I_n, (j <= i)%N -> (lowpart (llt A).2 *m (lowpart (llt A).2)^T) i j = A i j.
  move=> i j ji; rewrite mxE -(H1 i j) // [RHS]big_mkcond; apply: eq_bigr => l _.
  rewrite [(_^T)%R _ _]mxE ![lowpart _ _ _]mxE; case: (leqP l j) => lj; last by rewrite mulr0.
  by rewrite (leq_trans lj ji).
apply/matrixP => i j; case: (leqP j i) => ji; first exact: low.
rewrite symE -(low j i (ltnW ji)); set M := _ *m _.
have trE : forall (B : 'M[R]_n) a b, B^T a b = B b a by move=> B a b; rewrite mxE.
by rewrite -trE /M trmx_mul trmxK.
Qed.

Lemma lowpart_id n (A : 'M[R]_n) : lowpart (lowpart A) = lowpart A.
Proof. by apply/matrixP => i j; rewrite !mxE; case: (j <= i)%N. Qed.
Lemma uppart_tr n (A : 'M[R]_n) : uppart (lowpart A)^T = (lowpart A)^T.
Proof. by apply/matrixP => i j; rewrite !mxE; case: (i <= j)%N. Qed.

(** Whenever the solves divide by no zero they invert L L^T. *)
Lemma chol_solve n (L : 'M[R]_n) : lowpart L = L -> solvable L ->
  (L *m L^T) *m bwd L^T (fwd L 1%:M) = 1%:M.
Proof.
move=> eL sL.
have sT : solvable L^T by apply/forallP => i; rewrite mxE; exact: (forallP sL).
have := @bwd_correct _ _ L^T (fwd L 1%:M) sT; rewrite -{1}eL uppart_tr eL => H.
by rewrite -mulmxA H -{1}eL fwd_correct.
Qed.

Lemma chol_inverse_pd n (S : 'M[R]_n) : pd S -> chol_inverse S = Some (invmx S).
Proof.
move=> pS; have [_ LL d] := llt_correct pS; rewrite /chol_inverse.
have sL : solvable (lowpart (llt S).2) by apply/forallP => i; rewrite gt_eqF.
rewrite sL; congr Some.
have := chol_solve (lowpart_id _) sL; rewrite LL => H.
by rewrite -[LHS](mulKmx (pd_unit pS)) H mulmx1.
Qed.
End Chol.
