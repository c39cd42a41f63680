(** The linear filter and least squares, over any number of steps. *)
From Coq Require Import ZArith List Lia.
From mathcomp Require Import all_ssreflect all_algebra.
From Verif Require Import Base Defs ZDO ZDOProofs MxLib Cholesky Kalman KFilter KFProofs KalmanLS.
Set Implicit Arguments.
Unset Strict Implicit.
Unset Printing Implicit Defensive.
Import Order.TTheory GRing.Theory Num.Theory.
Open Scope ring_scope.

Section LS.
Variable R : rcfType.
Variables (n m p : nat).
Notation kfe := (kfe R n n m m p).
Notation U := 'cV[R]_p.

(** The value read, zero when there is none. *)
Definition uval T (z : T) (o : outcome T) : T := if o is Ok v then v else z.
Definition orz a b (o : option 'M[R]_(a, b)) : 'M[R]_(a, b) := if o is Some M then M else 0.

Lemma lkf_predict_val md (e : kfe) k x u0 u1 xy A C : kA e = Some A -> kC e = Some C -> lkf_predict md e k x u0 u1 = Ok xy ->
  let xb := A *m x + orz (kB e) *m uval 0 u0 in
  xy = (im_put xb (nxt k), im_put (C *m xb + orz (kD e) *m uval 0 u1) (nxt k)).
Proof.
move=> EA EC; rewrite /lkf_predict EA EC /=.
case: (boost_assert _ _) => //= _.
case Ex : (if (0 < p)%N then _ else _) => [xb| | |] //=.
have -> : A *m x + orz (kB e) *m uval 0 u0 = xb.
  move: Ex; case: ltnP => Hp.
    case EB : (kB e) => [B|] /=; last by case: (md).
    case: ifP => [/eqP -> [<-]|_]; first by rewrite mul0mx addr0.
    by case: u0 => //= u [<-].
  case=> <-; have E0 : orz (kB e) *m uval 0 u0 = 0.
    rewrite (_ : uval 0 u0 = 0) ?mulmx0 //; apply/colP => -[i Hi].
    by exfalso; move: (leq_trans Hi Hp); rewrite ltn0.
  by rewrite E0 addr0.
case ED : (kD e) => [D|] /=; last by case=> <-; rewrite mul0mx addr0.
case: ifP => [_|Hc].
  by case: u1 => //= u [<-].
case=> <-; have -> : D *m uval 0 u1 = 0; last by rewrite addr0.
move/negbT: Hc; rewrite negb_and negbK => /orP [Hp|/eqP ->]; last by rewrite mul0mx.
rewrite (_ : uval 0 u1 = 0) ?mulmx0 //; apply/colP => -[i Hi].
by exfalso; move: Hp; rewrite -leqNgt => Hp; move: (leq_trans Hi Hp); rewrite ltn0.
Qed.

(** One step with good covariances. *)
Lemma lkf_step_val md (e : kfe) k x oy u0 u1 x' e' A C Q Rm P :
  kA e = Some A -> kC e = Some C -> kQ e = Some Q -> kR e = Some Rm -> kP e = Some P -> psd Q -> pd Rm -> psd P ->
  lkf_step md e k x oy u0 u1 = Ok (x', e') ->
  let Pb := k_pbar A Q P in let xb := A *m x + orz (kB e) *m uval 0 u0 in
  exists y K, [/\ oy = Ok y, K *m k_inoCov C Rm Pb = Pb *m C^T,
    x' = xb + K *m (y - (C *m xb + orz (kD e) *m uval 0 u1)) &
    [/\ kA e' = kA e, kC e' = kC e, kQ e' = kQ e & kR e' = kR e] /\
    [/\ kB e' = kB e, kD e' = kD e, kP e' = Some (joseph C Rm Pb K) & kgain e' = Some K]].
Proof.
move=> EA EC EQ ER EP pQ pR pP /kf_step_inv.
rewrite EA EC EQ ER EP => -[A' [C' [Q' [Rm' [P0 [[[<-] [<-] [<-] [<-] [<-]]]]]]]].
case=> K [P' [xy [xb [yb [y [[Ek Ep Ex Ey Eo] [-> ->]]]]]]].
have [K0 [E KS _ _]] := k_cov_spec A C pQ pR pP.
move: Ek; rewrite E => -[EK EP']; subst K0 P'.
move: (lkf_predict_val EA EC Ep) => Exy; rewrite {}Exy /= in Ex Ey.
have G : forall T (v : T) kk, im_get md (im_put v kk) = Ok v by move=> T v kk; rewrite /im_get /=; case: (md).
rewrite !G in Ex Ey; case: Ex => <-; case: Ey => <-.
exists y, K; split=> //; case: (e) EA EC EQ ER EP => /= *; by split.
Qed.

(** The weighted squares of a sequence of states: the initial one, the disturbances and the measurement errors. *)
Definition cost (x0 : 'cV[R]_n) (P A Q : 'M[R]_n) (C : 'M[R]_(m, n)) (Rm : 'M[R]_m) (f : nat -> 'cV[R]_n) (h : nat -> 'cV[R]_m) (y : nat -> 'cV[R]_m)
    (N : nat) (xs : nat -> 'cV[R]_n) : R :=
  qf (invmx P) (xs 0%N - x0) +
  \sum_(i < N) (qf (invmx Q) (xs i.+1 - (A *m xs i + f i)) + qf (invmx Rm) (y i - (C *m xs i.+1 + h i))).

Lemma shift3 (V : zmodType) (a b c f : V) : a - (b + f) = (a - (c + f)) - (b - c).
Proof. by rewrite opprB !opprD [- c - f]addrC !addrA subrK addrAC. Qed.

Lemma cost_step x0 P A Q C Rm f h y N xs K : pd P -> pd Q -> pd Rm ->
  let Pb := k_pbar A Q P in let S := k_inoCov C Rm Pb in K *m S = Pb *m C^T ->
  let xb := A *m x0 + f 0%N in let r := y 0%N - (C *m xb + h 0%N) in let x1 := xb + K *m r in
  let e0 := P *m (A^T *m (invmx Pb *m (xs 1%N - xb))) in let d := xs 0%N - x0 - e0 in
  cost x0 P A Q C Rm f h y N.+1 xs = qf (invmx S) r + (qf (invmx P) d + qf (invmx Q) (A *m d)) +
    cost x1 (joseph C Rm Pb K) A Q C Rm (fun i => f i.+1) (fun i => h i.+1) (fun i => y i.+1) N (fun i => xs i.+1).
Proof.
move=> pP pQ pR Pb S KS xb r x1 e0 d.
have pPb : pd Pb by rewrite /Pb /k_pbar addrC mulmxA; apply: pdD => //; apply: psd_cong; apply: pd_psd.
rewrite /cost big_ord_recl /= !addrA.
have -> : xs 1%N - (A *m xs 0%N + f 0%N) = (xs 1%N - xb) - A *m (xs 0%N - x0).
  by rewrite mulmxBr /xb -shift3.
rewrite (predict_ls A _ _ pP pQ) -/Pb -/e0 -/d.
have -> : y 0%N - (C *m xs 1%N + h 0%N) = r - C *m (xs 1%N - xb).
  by rewrite /r mulmxBr -shift3.
have [_ _ _ E] := correct_ls pR pPb KS.
set a := qf (invmx Pb) _; set b := qf (invmx P) d + _; set c := \sum_(i < N) _.
have E1 := E (xs 1%N - xb) r; rewrite -/a -/S in E1.
have -> : xs 1%N - x1 = xs 1%N - xb - K *m r by rewrite /x1 opprD addrA.
set q := qf _ (xs 1%N - xb - K *m r) in E1 *; congr (_ + _).
by rewrite addrAC E1 -(addrA (qf (invmx S) r)) -/b [RHS]addrC addrA.
Qed.

Lemma cost_ext x0 P A Q C Rm f h y f' h' y' N xs : (forall i, f i = f' i) -> (forall i, h i = h' i) -> (forall i, y i = y' i) ->
  cost x0 P A Q C Rm f h y N xs = cost x0 P A Q C Rm f' h' y' N xs.
Proof. by move=> Ef Eh Ey; rewrite /cost; congr (_ + _); apply: eq_bigr => i _; rewrite Ef Eh Ey. Qed.

Lemma zsucc (k : Z) i : Z.add (Z.add k 1) (Z.of_nat i) = (Z.add k (Z.of_nat i.+1)).
Proof. by rewrite Nat2Z.inj_succ; lia. Qed.

(** What an estimation of N steps returns, in terms of the least cost of the sequences of states. *)
Lemma est_ls md N : forall (e : kfe) k x ry ru x' e' A C Q Rm P,
  kA e = Some A -> kC e = Some C -> kQ e = Some Q -> kR e = Some Rm -> kP e = Some P -> pd Q -> pd Rm -> pd P ->
  est_spec (@lkf_step R n m p) md ry ru N e k x = Ok (x', e') ->
  let f i := orz (kB e) *m uval 0 (ru (Z.add k (Z.of_nat i))) in
  let h i := orz (kD e) *m uval 0 (ru (Z.add k (Z.of_nat i.+1))) in
  let y i := uval 0 (ry (Z.add k (Z.of_nat i.+1))) in
  (forall i, (i < N)%N -> ry (Z.add k (Z.of_nat i.+1)) = Ok (y i)) /\
  exists P' c, [/\ kP e' = Some P', pd P',
    (forall xs, c + qf (invmx P') (xs N - x') <= cost x P A Q C Rm f h y N xs) &
    (forall z, exists xs, xs N = z /\ cost x P A Q C Rm f h y N xs = c + qf (invmx P') (z - x'))].
Proof.
elim: N => [|N IH] e k x ry ru x' e' A C Q Rm P EA EC EQ ER EP pQ pR pP /=.
  case=> <- <-; split=> //; exists P, 0; split=> //.
    by move=> xs; rewrite /cost big_ord0 add0r addr0.
  by move=> z; exists (fun=> z); rewrite /cost big_ord0 add0r addr0.
case Es : (lkf_step md e k x _ _ _) => [[x1 e1]| | |] //= Eest.
have := lkf_step_val EA EC EQ ER EP (pd_psd pQ) pR (pd_psd pP) Es.
case=> y0 [K [Ey KS Ex1 [[EA1 EC1 EQ1 ER1] [EB1 ED1 EP1 _]]]].
set Pb := k_pbar A Q P in KS Ex1 EP1.
have pPb : pd Pb by rewrite /Pb /k_pbar addrC mulmxA; apply: pdD => //; apply: psd_cong; apply: pd_psd.
have [pP1 _ _ _] := correct_ls pR pPb KS.
rewrite EA in EA1; rewrite EC in EC1; rewrite EQ in EQ1; rewrite ER in ER1.
have := IH e1 (Z.add k 1) x1 ry ru x' e' A C Q Rm _ EA1 EC1 EQ1 ER1 EP1 pQ pR pP1 Eest.
rewrite EB1 ED1 => -[Hy [P' [c [EP' pP' Hlow Hatt]]]].
set f := fun i => orz (kB e) *m _; set h := fun i => orz (kD e) *m _; set y := fun i => uval 0 _.
have k1 : (Z.add k (Z.of_nat 1)) = (Z.add k 1) by [].
have k0 : (Z.add k (Z.of_nat 0)) = k by rewrite Z.add_0_r.
split.
  case=> [|i] Hi; first by rewrite /y k1 Ey.
  by rewrite /y -zsucc Hy.
have Ex1' : x1 = A *m x + f 0%N + K *m (y 0%N - (C *m (A *m x + f 0%N) + h 0%N)).
  by rewrite /f /h /y k0 k1 Ey.
have CS := fun xs => cost_step x f h y N xs pP pQ pR KS.
set S := k_inoCov C Rm Pb in CS; set r := y 0%N - (C *m (A *m x + f 0%N) + h 0%N) in Ex1' CS.
exists P', (c + qf (invmx S) r); split=> //.
- move=> xs; rewrite CS -/Pb -/r -Ex1'; set g := cost _ _ _ _ _ _ _ _ _ _ _.
  have Hl := Hlow (fun i => xs i.+1).
  have Eg : cost x1 (joseph C Rm Pb K) A Q C Rm (fun i => orz (kB e) *m uval 0 (ru (Z.add (Z.add k 1) (Z.of_nat i)))) (fun i => orz (kD e) *m uval 0 (ru (Z.add (Z.add k 1) (Z.of_nat i.+1))))
     (fun i => uval 0 (ry (Z.add (Z.add k 1) (Z.of_nat i.+1)))) N (fun i => xs i.+1) = g.
    by apply: cost_ext => i; rewrite /f /h /y zsucc.
  rewrite {}Eg in Hl; rewrite [c + _]addrC -!addrA ler_add2l; apply: (le_trans Hl).
  rewrite addrA ler_addr addr_ge0 //.
    by case: (pd_psd (pd_inv pP)) => _; apply.
  by case: (pd_psd (pd_inv pQ)) => _; apply.
- move=> z; have [xs' [Ez Hz]] := Hatt z.
  pose xs i := if i is j.+1 then xs' j else x + P *m (A^T *m (invmx Pb *m (xs' 0%N - (A *m x + f 0%N)))).
  exists xs; split=> //; rewrite CS -/Pb -/r -Ex1' /=.
  rewrite [x + _]addrC addrK subrr mulmx0 !qf0 !addr0.
  rewrite [c + _]addrC -addrA; congr (_ + _); rewrite -Hz.
  by apply: cost_ext => i; rewrite /f /h /y zsucc.
Qed.
End LS.

(** Order of the covariances. *)
Section Mono.
Variable R : rcfType.
Variables (n m : nat).

Lemma pbar_mono (A Q1 Q2 P1 P2 : 'M[R]_n) : loewner Q1 Q2 -> loewner P1 P2 -> loewner (k_pbar A Q1 P1) (k_pbar A Q2 P2).
Proof. by move=> hQ hP x; rewrite /k_pbar !qfD !mulmxA !qf_cong ler_add. Qed.

Lemma joseph_mono C (R1 R2 : 'M[R]_m) (P1 P2 : 'M[R]_n) G : loewner R1 R2 -> loewner P1 P2 -> loewner (joseph C R1 P1 G) (joseph C R2 P2 G).
Proof. by move=> hR hP x; rewrite /joseph !qfD !qf_cong ler_add. Qed.

Lemma joseph_opt C (Rm : 'M[R]_m) (Pb : 'M[R]_n) K G : pd Rm -> psd Pb -> K *m k_inoCov C Rm Pb = Pb *m C^T -> loewner (joseph C Rm Pb K) (joseph C Rm Pb G).
Proof.
move=> pR pP KS x; rewrite (joseph_square G pP.1 pR.1 KS) qfD qf_cong ler_addl.
by apply: (pd_psd (k_inoCov_pd C pR pP)).2.
Qed.

(** Q, R and P ordered: the covariances after a correction are ordered. *)
Lemma k_cov_mono (A Q1 Q2 P1 P2 : 'M[R]_n) C (R1 R2 : 'M[R]_m) K1 K2 P1' P2' : psd Q1 -> psd Q2 -> pd R1 -> pd R2 -> psd P1 -> psd P2 ->
  loewner Q1 Q2 -> loewner R1 R2 -> loewner P1 P2 -> k_cov A C Q1 R1 P1 = Some (K1, P1') -> k_cov A C Q2 R2 P2 = Some (K2, P2') ->
  [/\ loewner P1' P2', psd P1' & psd P2'].
Proof.
move=> pQ1 pQ2 pR1 pR2 pP1 pP2 hQ hR hP.
have [L1 [-> K1S _ pB1]] := k_cov_spec A C pQ1 pR1 pP1; have [L2 [-> _ _ pB2]] := k_cov_spec A C pQ2 pR2 pP2.
case=> _ <- [_ <-]; split; try by apply: joseph_psd => //; apply: pd_psd.
move=> x; apply: (le_trans (joseph_opt L2 pR1 pB1 K1S x)).
by apply: joseph_mono => //; apply: pbar_mono.
Qed.

Definition good1 p (e : kfe R n n m m p) A C Q Rm P :=
  [/\ kA e = Some A, kC e = Some C, kQ e = Some Q, kR e = Some Rm & kP e = Some P] /\ [/\ psd Q, pd Rm & psd P].

Lemma lkf_step_cov p md (e : kfe R n n m m p) k x oy u0 u1 x' e' A C Q Rm P : good1 e A C Q Rm P -> lkf_step md e k x oy u0 u1 = Ok (x', e') ->
  exists K P', k_cov A C Q Rm P = Some (K, P') /\ good1 e' A C Q Rm P'.
Proof.
move=> [[EA EC EQ ER EP] [pQ pR pP]] /kf_step_inv.
rewrite EA EC EQ ER EP => -[A' [C' [Q' [Rm' [P0 [[[<-] [<-] [<-] [<-] [<-]]]]]]]].
case=> K [P' [xy [xb [yb [y [[Ek _ _ _ _] [_ ->]]]]]]].
exists K, P'; split=> //; split; first by case: (e) EA EC EQ ER.
split=> //; have [L [E _ _ pB]] := k_cov_spec A C pQ pR pP; move: Ek; rewrite E => -[_ <-].
by apply: joseph_psd => //; apply: pd_psd.
Qed.

Lemma est_mono p1 p2 md1 md2 N : forall (e1 : kfe R n n m m p1) (e2 : kfe R n n m m p2) k1 k2 x1 x2 ry1 ry2 ru1 ru2 x1' x2' e1' e2' A C Q1 Q2 R1 R2 P1 P2,
  good1 e1 A C Q1 R1 P1 -> good1 e2 A C Q2 R2 P2 -> loewner Q1 Q2 -> loewner R1 R2 -> loewner P1 P2 ->
  est_spec (@lkf_step R n m p1) md1 ry1 ru1 N e1 k1 x1 = Ok (x1', e1') ->
  est_spec (@lkf_step R n m p2) md2 ry2 ru2 N e2 k2 x2 = Ok (x2', e2') ->
  exists P1' P2', [/\ kP e1' = Some P1', kP e2' = Some P2' & loewner P1' P2'].
Proof.
elim: N => [|N IH] e1 e2 k1 k2 x1 x2 ry1 ry2 ru1 ru2 x1' x2' e1' e2' A C Q1 Q2 R1 R2 P1 P2 g1 g2 hQ hR hP /=.
  move=> [_ <-] [_ <-]; exists P1, P2; split=> //; [exact: (let: conj (And5 _ _ _ _ h) _ := g1 in h)|exact: (let: conj (And5 _ _ _ _ h) _ := g2 in h)].
case E1 : (lkf_step md1 _ _ _ _ _ _) => [[y1 f1]| | |] //= H1.
case E2 : (lkf_step md2 _ _ _ _ _ _) => [[y2 f2]| | |] //= H2.
have [K1 [P1' [C1 g1']]] := lkf_step_cov g1 E1; have [K2 [P2' [C2 g2']]] := lkf_step_cov g2 E2.
apply: (IH _ _ _ _ _ _ _ _ _ _ _ _ _ _ _ _ _ _ _ _ _ _ g1' g2' hQ hR _ H1 H2).
case: (g1) => _ [pQ1 pR1 pP1]; case: (g2) => _ [pQ2 pR2 pP2].
by case: (k_cov_mono pQ1 pQ2 pR1 pR2 pP1 pP2 hQ hR hP C1 C2).
Qed.
End Mono.

(** Two sensors together and one after the other. *)
Section Split.
Variable R : rcfType.
Variables (n m1 m2 : nat).

Lemma invmx_block (R1 : 'M[R]_m1) (R2 : 'M[R]_m2) : pd R1 -> pd R2 -> invmx (block_mx R1 0 0 R2) = block_mx (invmx R1) 0 0 (invmx R2).
Proof.
move=> p1 p2; have E : block_mx R1 0 0 R2 *m block_mx (invmx R1) 0 0 (invmx R2) = 1%:M.
  by rewrite mulmx_block !mulmx0 !mul0mx !addr0 !add0r !mulmxV ?(pd_unit p1) ?(pd_unit p2) // -scalar_mx_block.
have [u _] := mulmx1_unit E.
by rewrite -[LHS]mulmx1 -E mulKmx.
Qed.

Lemma pd_block (R1 : 'M[R]_m1) (R2 : 'M[R]_m2) : pd R1 -> pd R2 -> pd (block_mx R1 0 0 R2).
Proof.
move=> [s1 p1] [s2 p2]; split; first by rewrite /sym tr_block_mx !trmx0 s1 s2.
move=> x xn0; rewrite -[x]vsubmxK; set a := usubmx x; set b := dsubmx x.
have -> : qf (block_mx R1 0 0 R2) (col_mx a b) = qf R1 a + qf R2 b.
  by rewrite /qf -!mulmxA mul_block_col !mul0mx addr0 add0r tr_col_mx mul_row_col mxE.
have q1 : 0 <= qf R1 a by case: (eqVneq a 0) => [->|/p1/ltW //]; rewrite qf0.
have q2 : 0 <= qf R2 b by case: (eqVneq b 0) => [->|/p2/ltW //]; rewrite qf0.
case: (eqVneq a 0) => [a0|/p1 h]; last by rewrite ltr_paddr.
case: (eqVneq b 0) => [b0|/p2 h]; last by rewrite ltr_paddl.
by move: xn0; rewrite -[x]vsubmxK -/a -/b a0 b0 col_mx0 eqxx.
Qed.

(** The correction with both equals the corrections in turn: covariance and state. *)
Lemma split_correct C1 C2 (R1 : 'M[R]_m1) (R2 : 'M[R]_m2) (Pb : 'M[R]_n) K K1 K2 : pd R1 -> pd R2 -> pd Pb ->
  let C := col_mx C1 C2 in let Rm := block_mx R1 0 0 R2 in let P1 := joseph C1 R1 Pb K1 in
  K *m k_inoCov C Rm Pb = Pb *m C^T -> K1 *m k_inoCov C1 R1 Pb = Pb *m C1^T -> K2 *m k_inoCov C2 R2 P1 = P1 *m C2^T ->
  joseph C Rm Pb K = joseph C2 R2 P1 K2 /\
  forall (xb : 'cV[R]_n) (y1 h1 : 'cV[R]_m1) (y2 h2 : 'cV[R]_m2), xb + K *m (col_mx y1 y2 - (C *m xb + col_mx h1 h2)) =
    let x1 := xb + K1 *m (y1 - (C1 *m xb + h1)) in x1 + K2 *m (y2 - (C2 *m x1 + h2)).
Proof.
move=> p1 p2 pPb C Rm P1 KS K1S K2S.
have [pP iP EK _] := correct_ls (pd_block p1 p2) pPb KS.
have [pP1 iP1 EK1 _] := correct_ls p1 pPb K1S.
have [pP2 iP2 EK2 _] := correct_ls p2 pP1 K2S.
set P := joseph C Rm Pb K in pP iP EK *; rewrite -/P1 in pP1 iP1 EK1 iP2.
set P2 := joseph C2 R2 P1 K2 in pP2 iP2 EK2 *.
have EC : C^T *m invmx Rm = row_mx (C1^T *m invmx R1) (C2^T *m invmx R2).
  by rewrite /Rm invmx_block // tr_col_mx mul_row_block !mulmx0 addr0 add0r.
have EI : invmx P = invmx P2.
  by rewrite iP iP2 iP1 EC mul_row_col addrA.
have EP : P = P2 by rewrite -(invmxK P) EI invmxK.
split=> // xb y1 h1 y2 h2; cbv zeta; set x1 := xb + K1 *m (y1 - (C1 *m xb + h1)).
have -> : col_mx y1 y2 - (C *m xb + col_mx h1 h2) = col_mx (y1 - (C1 *m xb + h1)) (y2 - (C2 *m xb + h2)).
  by rewrite /C mul_col_mx add_col_mx opp_col_mx add_col_mx.
set r1 := y1 - _; set r2 := y2 - (C2 *m xb + h2).
have EK1' : P2 *m (C1^T *m invmx R1) = K1 - K2 *m C2 *m K1.
  have -> : P2 = (1%:M - K2 *m C2) *m P1.
    by rewrite /P2 -(covUpdate_joseph pP1.1 p2.1 K2S) /k_covUpdate addrC mulNmx.
  by rewrite -mulmxA -EK1 mulmxBl mul1mx.
rewrite EK EC EP mul_mx_row mul_row_col EK1' -EK2.
have -> : y2 - (C2 *m x1 + h2) = r2 - C2 *m (K1 *m r1).
  rewrite /x1 /r2 mulmxDr -[C2 *m xb + _ + h2]addrAC opprD addrA //.
rewrite /x1 -/r1; clearbody r1 r2; rewrite mulmxBl (mulmxBr K2) !mulmxA -!addrA; congr (_ + (_ + _)); by rewrite addrC.
Qed.
End Split.

(** A step with all matrices and data given succeeds. *)
Lemma lkf_step_ex (R : rcfType) (n m p : nat) md (e : kfe R n n m m p) k x y u v A B C Q Rm P :
  kA e = Some A -> kB e = Some B -> kC e = Some C -> kQ e = Some Q -> kR e = Some Rm -> kP e = Some P -> psd Q -> pd Rm -> psd P ->
  exists r, lkf_step md e k x (Ok y) (Ok u) (Ok v) = Ok r.
Proof.
move=> EA EB EC EQ ER EP pQ pR pP.
have [K [E _ _ _]] := k_cov_spec A C pQ pR pP.
have B1 : boost_assert md true = Ok tt by case: (md).
have X : exists xb yb, lkf_predict md e k x (Ok u) (Ok v) = Ok (im_put xb (nxt k), im_put yb (nxt k)).
  rewrite /lkf_predict EA EB EC /= ?B1 /=; set xb := if (0 < p)%N then _ else _.
  have [w ->] : exists w, xb = Ok w by rewrite /xb; case: (0 < p)%N; [case: ifP => _|]; eexists.
  by rewrite /=; case: (kD e) => [D|]; [case: ifP => _|]; do 2 eexists.
have [xb [yb Ep]] := X.
rewrite /lkf_step /kf_step EA EC EQ ER EP /= ?B1 /= Ep /= /im_get /= ?B1 /= E /=.
by eexists.
Qed.

Lemma est_ex (R : rcfType) (n m p : nat) md N : forall (e : kfe R n n m m p) k x ry ru A B C Q Rm P,
  kA e = Some A -> kB e = Some B -> kC e = Some C -> kQ e = Some Q -> kR e = Some Rm -> kP e = Some P -> psd Q -> pd Rm -> psd P ->
  (forall i, (i < N)%N -> exists y, ry (Z.add k (Z.of_nat i.+1)) = Ok y) -> (forall i, (i <= N)%N -> exists u, ru (Z.add k (Z.of_nat i)) = Ok u) ->
  exists r, est_spec (@lkf_step R n m p) md ry ru N e k x = Ok r.
Proof.
elim: N => [|N IH] e k x ry ru A B C Q Rm P EA EB EC EQ ER EP pQ pR pP Hy Hu /=; first by eexists.
have [y Ey] := Hy 0%N isT; have [u Eu] := Hu 0%N isT; have [v Ev] := Hu 1%N isT.
have k0 : Z.add k (Z.of_nat 0) = k by rewrite Z.add_0_r.
have k1 : Z.add k (Z.of_nat 1) = Z.add k 1 by [].
rewrite k0 in Eu; rewrite k1 in Ey Ev; rewrite Ey Eu Ev.
have [[x1 e1] Es] := @lkf_step_ex R n m p md e k x y u v A B C Q Rm P EA EB EC EQ ER EP pQ pR pP.
rewrite Es /=.
have [y0 [K [_ _ _ [[EA1 EC1 EQ1 ER1] [EB1 _ EP1 _]]]]] := lkf_step_val EA EC EQ ER EP pQ pR pP Es.
have pB : psd (k_pbar A Q P) by have [K' [_ _ _ ?]] := k_cov_spec A C pQ pR pP.
apply: (IH e1 _ _ _ _ A B C Q Rm (joseph C Rm (k_pbar A Q P) K)); rewrite ?EA1 ?EB1 ?EC1 ?EQ1 ?ER1 //.
- by apply: joseph_psd => //; apply: pd_psd.
- by move=> i Hi; rewrite zsucc; apply: Hy.
- by move=> i Hi; rewrite zsucc; apply: Hu.
Qed.
