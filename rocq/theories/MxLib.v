(** Matrices: loops over rows and columns, quadratic forms, positive (semi-)definiteness.
    Doubles are elements of an arbitrary real closed field here (ordered field with square
    roots); no axiom is used. *)
From mathcomp Require Import all_ssreflect all_algebra.
From mathcomp Require Import ring.
Set Implicit Arguments.
Unset Strict Implicit.
Unset Printing Implicit Defensive.
Import Order.TTheory GRing.Theory Num.Theory.
Open Scope ring_scope.

Section Loops.
Variable (T : Type).

(** Invariant rule for [for(k=0;k<n;++k) s = f(s,k)]. *)
Lemma foldl_enum_ord n (f : T -> 'I_n -> T) (s0 : T) (I : nat -> T -> Prop) :
  I 0%N s0 -> (forall (k : 'I_n) s, I k s -> I k.+1 (f s k)) -> I n (foldl f s0 (enum 'I_n)).
Proof.
move=> I0 IS.
suff H : forall m, (m <= n)%N -> I m (foldl f s0 (take m (enum 'I_n))).
  have := H n (leqnn n). by rewrite take_oversize // size_enum_ord.
elim=> [|m IH] lemn; first by rewrite take0.
have ltmn : (m < n)%N by [].
rewrite (take_nth (Ordinal ltmn)) ?size_enum_ord // -cats1 foldl_cat /=.
have -> : nth (Ordinal ltmn) (enum 'I_n) m = Ordinal ltmn.
  by apply: val_inj; rewrite /= nth_enum_ord.
by apply: (IS (Ordinal ltmn)); apply: IH; apply: ltnW.
Qed.

(** Invariant rule for [for(k=n-1;k>=0;--k) s = f(s,k)]: [I m] after the indices >= m. *)
Lemma foldl_rev_enum_ord n (f : T -> 'I_n -> T) (s0 : T) (I : nat -> T -> Prop) :
  I n s0 -> (forall (k : 'I_n) s, I k.+1 s -> I k (f s k)) -> I 0%N (foldl f s0 (rev (enum 'I_n))).
Proof.
move=> I0 IS.
suff H : forall m, (m <= n)%N -> I (n - m)%N (foldl f s0 (take m (rev (enum 'I_n)))).
  have := H n (leqnn n). by rewrite subnn take_oversize // size_rev size_enum_ord.
elim=> [|m IH] lemn; first by rewrite take0 subn0.
have ltmn : (n - m.+1 < n)%N by rewrite ltn_subrL /= (leq_trans _ lemn).
rewrite (take_nth (Ordinal ltmn)) ?size_rev ?size_enum_ord // -cats1 foldl_cat /=.
have -> : nth (Ordinal ltmn) (rev (enum 'I_n)) m = Ordinal ltmn.
  apply: val_inj; rewrite /= nth_rev ?size_enum_ord // nth_enum_ord //.
apply: (IS (Ordinal ltmn)) => /=; rewrite subnSK //; apply: IH; exact: ltnW.
Qed.
End Loops.

Section Quad.
Variable R : rcfType.

(** The quadratic form x^T A x. *)
Definition qf n (A : 'M[R]_n) (x : 'cV[R]_n) : R := (x^T *m A *m x) 0 0.
Definition sym n (A : 'M[R]_n) : Prop := A^T = A.
(** Symmetric positive semi-definite and positive definite matrices. *)
Definition psd n (A : 'M[R]_n) : Prop := sym A /\ forall x, 0 <= qf A x.
Definition pd n (A : 'M[R]_n) : Prop := sym A /\ forall x, x != 0 -> 0 < qf A x.
(** Loewner order. *)
Definition loewner n (A B : 'M[R]_n) : Prop := forall x, qf A x <= qf B x.

Lemma qfD n (A B : 'M[R]_n) x : qf (A + B) x = qf A x + qf B x.
Proof. by rewrite /qf mulmxDr mulmxDl mxE. Qed.
Lemma qfN n (A : 'M[R]_n) x : qf (- A) x = - qf A x.
Proof. by rewrite /qf mulmxN mulNmx mxE. Qed.
Lemma qfB n (A B : 'M[R]_n) x : qf (A - B) x = qf A x - qf B x.
Proof. by rewrite qfD qfN. Qed.
Lemma qfZ n c (A : 'M[R]_n) x : qf (c *: A) x = c * qf A x.
Proof. by rewrite /qf -scalemxAr -scalemxAl mxE. Qed.
Lemma qf0 n (A : 'M[R]_n) : qf A 0 = 0.
Proof. by rewrite /qf mulmx0 mxE. Qed.
Lemma qf_cong n m (A : 'M[R]_n) (B : 'M[R]_(m, n)) x :
  qf (B *m A *m B^T) x = qf A (B^T *m x).
Proof. by rewrite /qf trmx_mul trmxK !mulmxA. Qed.
Lemma qf_tr n (A : 'M[R]_n) x : qf A^T x = qf A x.
Proof.
rewrite /qf -[in RHS](trmxK (x^T *m A *m x)) [in RHS]mxE.
by rewrite !trmx_mul trmxK mulmxA.
Qed.
Lemma qf_delta n (A : 'M[R]_n) i : qf A (delta_mx i 0) = A i i.
Proof.
by rewrite /qf trmx_delta -rowE -colE !mxE.
Qed.
Lemma qf_scalar n (x : 'cV[R]_n) : qf 1%:M x = \sum_i x i 0 ^+ 2.
Proof. by rewrite /qf mulmx1 mxE; apply: eq_bigr => i _; rewrite mxE expr2. Qed.
Lemma qf1_ge0 n (x : 'cV[R]_n) : 0 <= qf 1%:M x.
Proof. by rewrite qf_scalar; apply: sumr_ge0 => i _; apply: sqr_ge0. Qed.
Lemma qf1_eq0 n (x : 'cV[R]_n) : (qf 1%:M x == 0) = (x == 0).
Proof.
apply/eqP/eqP => [|->]; last by rewrite qf0.
rewrite qf_scalar => /eqP; rewrite psumr_eq0 => [|i _]; last exact: sqr_ge0.
move=> /allP H; apply/colP => i; rewrite mxE; apply/eqP.
by have := H i (mem_index_enum i); rewrite sqrf_eq0.
Qed.

Lemma sym1 n : sym (1%:M : 'M[R]_n). Proof. exact: trmx1. Qed.
Lemma sym0 n : sym (0 : 'M[R]_n). Proof. exact: trmx0. Qed.
Lemma symD n (A B : 'M[R]_n) : sym A -> sym B -> sym (A + B).
Proof. by rewrite /sym => sA sB; rewrite linearD /= sA sB. Qed.
Lemma symZ n c (A : 'M[R]_n) : sym A -> sym (c *: A).
Proof. by rewrite /sym => sA; rewrite linearZ /= sA. Qed.
Lemma sym_cong n m (A : 'M[R]_n) (B : 'M[R]_(m, n)) : sym A -> sym (B *m A *m B^T).
Proof. by rewrite /sym => sA; rewrite !trmx_mul trmxK sA mulmxA. Qed.

Lemma psd0 n : psd (0 : 'M[R]_n).
Proof. by split=> [|x]; [apply: sym0|rewrite /qf mulmx0 mul0mx mxE]. Qed.
Lemma pd1 n : pd (1%:M : 'M[R]_n).
Proof. by split=> [|x x0]; [apply: sym1|rewrite lt_neqAle qf1_ge0 eq_sym qf1_eq0 x0]. Qed.
Lemma pd_psd n (A : 'M[R]_n) : pd A -> psd A.
Proof.
case=> sA pA; split=> // x; have [->|x0] := eqVneq x 0; first by rewrite qf0.
exact: ltW (pA _ x0).
Qed.
Lemma psdD n (A B : 'M[R]_n) : psd A -> psd B -> psd (A + B).
Proof. case=> sA pA [sB pB]; split=> [|x]; [exact: symD|rewrite qfD addr_ge0 //]. Qed.
Lemma pdD n (A B : 'M[R]_n) : psd A -> pd B -> pd (A + B).
Proof. case=> sA pA [sB pB]; split=> [|x x0]; [exact: symD|rewrite qfD ltr_paddl ?pA ?pB //]. Qed.
Lemma psdZ n c (A : 'M[R]_n) : 0 <= c -> psd A -> psd (c *: A).
Proof. by move=> c0 [sA pA]; split=> [|x]; [exact: symZ|rewrite qfZ mulr_ge0]. Qed.
Lemma pdZ n c (A : 'M[R]_n) : 0 < c -> pd A -> pd (c *: A).
Proof. by move=> c0 [sA pA]; split=> [|x x0]; [exact: symZ|rewrite qfZ mulr_gt0 ?pA]. Qed.
Lemma psd_cong n m (A : 'M[R]_n) (B : 'M[R]_(m, n)) : psd A -> psd (B *m A *m B^T).
Proof. by case=> sA pA; split=> [|x]; [exact: sym_cong|rewrite qf_cong]. Qed.
Lemma psd_gram n m (B : 'M[R]_(m, n)) : psd (B *m B^T).
Proof. have := psd_cong B (pd_psd (pd1 n)). by rewrite mulmx1. Qed.
Lemma pd_cong n (A B : 'M[R]_n) : B \in unitmx -> pd A -> pd (B *m A *m B^T).
Proof.
move=> uB [sA pA]; split=> [|x x0]; first exact: sym_cong.
rewrite qf_cong; apply: pA; apply: contra x0 => /eqP e.
by rewrite -(mulKmx (_ : B^T \in unitmx) x) ?unitmx_tr // e mulmx0.
Qed.
Lemma pd_unit n (A : 'M[R]_n) : pd A -> A \in unitmx.
Proof.
case=> sA pA; rewrite -row_free_unit -kermx_eq0; apply/rowV0P => v /sub_kermxP vA.
apply/eqP; case: (eqVneq v 0) => // v0.
have : v^T != 0 by rewrite -trmx0 (inj_eq trmx_inj).
by move=> /pA; rewrite /qf trmxK vA mul0mx mxE ltxx.
Qed.
Lemma pd_inv n (A : 'M[R]_n) : pd A -> pd (invmx A).
Proof.
move=> pA; have uA := pd_unit pA; have sA := pA.1.
have si : sym (invmx A) by rewrite /sym trmx_inv sA.
rewrite -[invmx A](_ : invmx A *m A *m (invmx A)^T = _); last by rewrite mulVmx // mul1mx si.
by apply: pd_cong => //; rewrite unitmx_inv.
Qed.
Lemma pd_diag_gt0 n (A : 'M[R]_n) i : pd A -> 0 < A i i.
Proof.
case=> _ pA; rewrite -qf_delta; apply: pA; apply/eqP => /colP /(_ i).
by rewrite !mxE !eqxx => /eqP; rewrite oner_eq0.
Qed.
Lemma loewner_refl n (A : 'M[R]_n) : loewner A A. Proof. by move=> x. Qed.
Lemma loewner_trans n (A B C : 'M[R]_n) : loewner A B -> loewner B C -> loewner A C.
Proof. by move=> AB BC x; apply: le_trans (AB x) (BC x). Qed.

(** The symmetric part. *)
Lemma sym_half n (A : 'M[R]_n) : sym ((A + A^T) *+ 2 : 'M[R]_n) .
Proof. by rewrite /sym linearMn linearD /= trmxK addrC. Qed.
End Quad.

Section Entry.
Variable R : rcfType.
Lemma mxDE n m (A B : 'M[R]_(n, m)) i j : (A + B) i j = A i j + B i j. Proof. by rewrite mxE. Qed.
Lemma mxNE n m (A : 'M[R]_(n, m)) i j : (- A) i j = - A i j. Proof. by rewrite mxE. Qed.
Lemma mxZE n m c (A : 'M[R]_(n, m)) i j : (c *: A) i j = c * A i j. Proof. by rewrite mxE. Qed.
Lemma mx0E n m i j : (0 : 'M[R]_(n, m)) i j = 0. Proof. by rewrite mxE. Qed.
End Entry.

(** Equalities between linear combinations of matrix monomials. *)
Ltac mxgen := repeat match goal with |- context [fun_of_matrix ?A ?i ?j] =>
  let x := fresh "x" in set x := (fun_of_matrix A i j); clearbody x end.
Ltac mxring := apply/matrixP => ? ?; rewrite ?(mxDE, mxNE, mxZE, mx0E); mxgen; ring.
