(** Proofs about the Gaussian noise. *)
From mathcomp Require Import all_ssreflect all_algebra.
From Verif Require Import Base MxLib Cholesky Noise.
Set Implicit Arguments.
Unset Strict Implicit.
Unset Printing Implicit Defensive.
Import Order.TTheory GRing.Theory Num.Theory.
Open Scope ring_scope.

Section P.
Variable R : rcfType.
Implicit Types (g : gwn R) (md : mode).

Lemma asm_id m n (A : 'M[R]_(m, n)) : asm m n (dm A) = A.
Proof. exact: conform_mx_id. Qed.
Lemma asv_id n (v : 'cV[R]_n) : asv n (dv v) = v.
Proof. exact: conform_mx_id. Qed.

(** All sizes are the dimension. *)
Definition sized d (S : 'M[R]_d) (b : 'cV[R]_d) g : Prop := [/\ g_dim g = d, g_std g = dm S & g_bias g = dv b].

Lemma getNoisy_sized md d (S : 'M[R]_d) b g z (v : 'cV[R]_d) : sized S b g -> g_sum g = None ->
  g_getNoisy md z (dv v) g = Ok (dv (v + (S *m (\col_(i < d) z i) + b))).
Proof.
case: g => d' st bi su [/= -> -> ->] ->.
rewrite /g_getNoisy /g_checkVector /gaussianVector /= /cols_ /rows_ /= !eqxx /=.
by rewrite /defaultSum /= eqxx /= asv_id asm_id asv_id.
Qed.
Lemma setCov_sized md d (S P : 'M[R]_d) b g : sized S b g -> exists2 g', g_setCov md (dm P) g = Ok g' &
  sized (lowpart (llt P).2) b g' /\ g_sum g' = g_sum g.
Proof.
case: g => d' st bi su [/= -> -> ->].
rewrite /g_setCov /g_checkMatrix /= /cols_ /rows_ /= !eqxx /= asm_id. by eexists; [reflexivity|].
Qed.
Lemma setStd_sized md d (S S' : 'M[R]_d) b g : sized S b g -> exists2 g', g_setStd md (dm S') g = Ok g' &
  sized S' b g' /\ g_sum g' = g_sum g.
Proof.
case: g => d' st bi su [/= -> -> ->].
rewrite /g_setStd /g_checkMatrix /= /cols_ /rows_ /= !eqxx /=. by eexists; [reflexivity|].
Qed.
Lemma setBias_sized md d (S : 'M[R]_d) b b' g : sized S b g -> exists2 g', g_setBias md (dv b') g = Ok g' &
  sized S b' g' /\ g_sum g' = g_sum g.
Proof.
case: g => d' st bi su [/= -> -> ->].
rewrite /g_setBias /g_checkVector /= !eqxx /=. by eexists; [reflexivity|].
Qed.

(** In Debug every history keeps the sizes. *)
Lemma step_sized o d (S : 'M[R]_d) b g g' : sized S b g -> g_step Debug o g = Ok g' ->
  exists d', exists S' : 'M[R]_d', exists b', sized S' b' g'.
Proof.
move=> Hs; case: (Hs) => Hd HS Hb; case: o => [A|A|c|d'|f] /=.
- rewrite /g_setStd /g_checkMatrix Hd; case: A => -[m n] A; rewrite /rows_ /cols_ /=.
  case: eqP => [Em|]; case: eqP => [En|] //=; subst m n => -[<-].
  by exists d, A, b; split.
- rewrite /g_setCov /g_checkMatrix Hd; case: A => -[m n] A; rewrite /rows_ /cols_ /=.
  case: eqP => [Em|]; case: eqP => [En|] //=; subst m n; rewrite eqxx /= => -[<-].
  exists d, (lowpart (llt (asm d d (dm A))).2), b; split => //.
- rewrite /g_setBias /g_checkVector Hd; case: c => n c /=.
  case: eqP => [En|] //=; subst n => -[<-]. by exists d, S, c; split.
- move=> -[<-]. by exists d', 1%:M, 0; split.
- move=> -[<-]. by exists d, S, b; split.
Qed.
Lemma run_sized ops : forall g g' d (S : 'M[R]_d) b, sized S b g -> g_run Debug ops g = Ok g' ->
  exists d', exists S' : 'M[R]_d', exists b', sized S' b' g'.
Proof.
elim: ops => [|o ops IH] g g' d S b Hs; rewrite /g_run.
  by move=> /= [<-]; exists d, S, b.
move=> E; have [g1 [E1 E2]] := obind_Ok_inv _ _ _ E; have [d1 [S1 [b1 H1]]] := step_sized Hs E1.
exact: (IH _ _ _ _ _ H1 E2).
Qed.
Lemma new_sized d : sized (1%:M : 'M[R]_d) 0 (g_new R d).
Proof. by split. Qed.
Lemma no_sum ops : forall g g', all (fun o => if o is GSum _ then false else true) ops -> g_sum g = None ->
  g_run Debug ops g = Ok g' -> g_sum g' = None.
Proof.
elim: ops => [|o ops IH] g g' /=; rewrite /g_run /=; first by move=> _ Hg [<-].
move=> /andP [Ho Ha] Hg E; have [g1 [E1 E2]] := obind_Ok_inv _ _ _ E; apply: (IH g1) => //.
case: o Ho E1 {E} => [A|A|c|d'|f] //= _; rewrite ?/g_setStd ?/g_setCov ?/g_setBias ?/g_setDim.
- by case: (g_checkMatrix _ _ _) => //= _ [<-].
- by case: (g_checkMatrix _ _ _) => //= _; case: (size_check _ _) => //= _ [<-].
- by case: (g_checkVector _ _ _) => //= _ [<-].
- by move=> [<-].
Qed.

(** ** Expectation *)
(** A linear expectation on functions of an outcome. *)
Record expectation (Om : Type) := mkE {
  ex : (Om -> R) -> R;
  ex_ext : forall f h, (forall w, f w = h w) -> ex f = ex h;
  ex_add : forall f h, ex (fun w => f w + h w) = ex f + ex h;
  ex_scal : forall c f, ex (fun w => c * f w) = c * ex f;
  ex_one : ex (fun _ => 1) = 1 }.
Lemma ex_const Om (E : expectation Om) c : ex E (fun _ => c) = c.
Proof. by rewrite -[RHS]mulr1 -(ex_one E) -ex_scal; apply: ex_ext => w; rewrite mulr1. Qed.
Lemma ex_sum Om (E : expectation Om) (I : Type) (r : seq I) (f : I -> Om -> R) :
  ex E (fun w => \sum_(i <- r) f i w) = \sum_(i <- r) ex E (f i).
Proof.
elim: r => [|i r IH].
  rewrite big_nil -[RHS](ex_const E 0); apply: ex_ext => w; by rewrite big_nil.
rewrite big_cons -IH -ex_add; apply: ex_ext => w; by rewrite big_cons.
Qed.

(** Mean and covariance of an affine image of a standard vector. *)
Lemma ex_affine Om (E : expectation Om) d (S : 'M[R]_d) (b : 'cV[R]_d) (z : Om -> nat -> R) :
  (forall i : 'I_d, ex E (fun w => z w i) = 0) ->
  (forall i j : 'I_d, ex E (fun w => z w i * z w j) = (i == j)%:R) ->
  (forall i, ex E (fun w => (S *m (\col_(k < d) z w k) + b) i 0) = b i 0) /\
  (forall i j, ex E (fun w => ((S *m (\col_(k < d) z w k) + b) i 0 - b i 0) * ((S *m (\col_(k < d) z w k) + b) j 0 - b j 0)) = (S *m S^T) i j).
Proof.
move=> Hm Hc.
have HS : forall w i, (S *m (\col_(k < d) z w k)) i 0 = \sum_k S i k * z w k.
  by move=> w i; rewrite mxE; apply: eq_bigr => k _; rewrite mxE.
split=> [i|i j].
  rewrite (@ex_ext _ E _ (fun w => (\sum_k S i k * z w k) + b i 0)); last by move=> w; rewrite mxDE HS.
  rewrite ex_add ex_const ex_sum big1 ?add0r // => k _; by rewrite ex_scal Hm mulr0.
rewrite (@ex_ext _ E _ (fun w => \sum_k \sum_l (S i k * S j l) * (z w k * z w l))); last first.
  move=> w; rewrite !mxDE !HS !addrK big_distrl /=; apply: eq_bigr => k _.
  rewrite big_distrr /=; apply: eq_bigr => l _; by rewrite mulrACA.
rewrite ex_sum mxE; apply: eq_bigr => k _; rewrite ex_sum (bigD1 k) //= big1 ?addr0.
  by rewrite ex_scal Hc eqxx mulr1 [(_^T)%R _ _]mxE.
move=> l lk; by rewrite ex_scal Hc eq_sym (negbTE lk) mulr0.
Qed.
End P.
