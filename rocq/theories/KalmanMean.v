(** Lemmas: the information form of the filter for a state that moves by known steps only (A = 1, Q = 0). *)
From Coq Require Import ZArith List Lia.
From mathcomp Require Import all_ssreflect all_algebra.
From mathcomp Require Import ring.
From Verif Require Import Base Defs ZDO ZDOProofs MxLib Kalman KFilter KFProofs KalmanLS KalmanLSThms.
Set Implicit Arguments.
Unset Strict Implicit.
Unset Printing Implicit Defensive.
Import Order.TTheory GRing.Theory Num.Theory.
Open Scope ring_scope.

Section Info.
Variables (R : rcfType) (n m : nat).
Lemma info_step (C : 'M[R]_(m, n)) (Rm : 'M[R]_m) (P : 'M[R]_n) (K : 'M[R]_(n, m)) : pd Rm -> pd P -> K *m k_inoCov C Rm P = P *m C^T ->
  let P1 := joseph C Rm P K in [/\ pd P1, invmx P1 = invmx P + C^T *m invmx Rm *m C & invmx P1 *m K = C^T *m invmx Rm].
Proof.
move=> pR pP KS P1; have uR := pd_unit pR; have uP := pd_unit pP.
have E1 : P1 = P - K *m C *m P.
  by rewrite /P1 -(covUpdate_joseph (proj1 pP) (proj1 pR) KS) /k_covUpdate mulmxDl mul1mx !mulNmx addrC.
have PC : P1 *m C^T = K *m Rm.
  by rewrite E1 mulmxBl -KS /k_inoCov mulmxDr -!mulmxA addrK.
have I1 : P1 *m (invmx P + C^T *m invmx Rm *m C) = 1%:M.
  rewrite mulmxDr !mulmxA PC -(mulmxA K) mulmxV // mulmx1 E1 mulmxBl -mulmxA mulmxV // mulmx1.
  by rewrite subrK.
have [u1 u2] := mulmx1_unit I1.
have EI : invmx P1 = invmx P + C^T *m invmx Rm *m C by rewrite -[LHS]mulmx1 -I1 mulmxA mulVmx // mul1mx.
have pI : pd (invmx P1).
  rewrite EI addrC; apply: pdD; last exact: pd_inv.
  by rewrite -{2}[C]trmxK; apply: psd_cong; apply: pd_psd; exact: pd_inv.
split=> //; first by rewrite -[P1]invmxK; exact: pd_inv.
by rewrite -[K](mulmxK uR) -PC !mulmxA mulVmx // mul1mx.
Qed.
End Info.

Section Est.
Variables (R : rcfType) (n m p : nat).
Notation kfe := (kfe R n n m m p).
Lemma est_info md N : forall (e : kfe) k x ry ru x' e' C Rm P (d : 'cV[R]_n),
  kA e = Some 1%:M -> kC e = Some C -> kQ e = Some 0 -> kR e = Some Rm -> kP e = Some P -> pd Rm -> pd P ->
  est_spec (@lkf_step R n m p) md ry ru N e k x = Ok (x', e') ->
  let f i := orz (kB e) *m uval 0 (ru (Z.add k (Z.of_nat i))) in
  let h i := orz (kD e) *m uval 0 (ru (Z.add k (Z.of_nat i.+1))) in
  let y i := uval 0 (ry (Z.add k (Z.of_nat i.+1))) in
  exists P', [/\ kP e' = Some P', pd P', invmx P' = invmx P + (C^T *m invmx Rm *m C) *+ N &
    invmx P' *m (x' - (d + \sum_(j < N) f j)) = invmx P *m (x - d) + C^T *m invmx Rm *m \sum_(i < N) (y i - h i - C *m (d + \sum_(j < i.+1) f j))].
Proof.
elim: N => [|N IH] e k x ry ru x' e' C Rm P d EA EC EQ ER EP pR pP /=.
  by case=> <- <-; exists P; split=> //; rewrite ?mulr0n ?addr0 // !big_ord0 addr0 mulmx0 addr0.
case Es : (lkf_step md e k x _ _ _) => [[x1 e1]| | |] //= Eest.
have := lkf_step_val EA EC EQ ER EP (psd0 R n) pR (pd_psd pP) Es.
case=> y0 [K [Ey KS Ex1 [[EA1 EC1 EQ1 ER1] [EB1 ED1 EP1 _]]]].
have Eb : k_pbar 1%:M 0 P = P by rewrite /k_pbar trmx1 mulmx1 mul1mx add0r.
rewrite Eb in KS EP1; rewrite EA in EA1; rewrite EC in EC1; rewrite EQ in EQ1; rewrite ER in ER1.
have [pP1 EI EK] := info_step pR pP KS.
set f0 := orz (kB e) *m uval 0 (ru (Z.add k (Z.of_nat 0))).
have [P' [EP' pP' EI' Ex']] := IH e1 (Z.add k 1) x1 ry ru x' e' C Rm _ (d + f0) EA1 EC1 EQ1 ER1 EP1 pR pP1 Eest.
exists P'; split=> //; first by rewrite EI' EI -addrA mulrS.
rewrite big_ord_recl addrA.
have EF (j : nat) : orz (kB e1) *m uval 0 (ru (Z.add (Z.add k 1) (Z.of_nat j))) = orz (kB e) *m uval 0 (ru (Z.add k (Z.of_nat j.+1))) by rewrite EB1 zsucc.
rewrite (eq_bigr (fun j : 'I_N => orz (kB e1) *m uval 0 (ru (Z.add (Z.add k 1) (Z.of_nat j))))); last by move=> j _; rewrite EF.
rewrite Ex'; clear Ex' IH.
rewrite big_ord_recl [X in _ + _ *m (_ - _ - _ *m (_ + X) + _)]big_ord_recl big_ord0 addr0 -/f0.
have -> : \sum_(i < N) (uval 0 (ry (Z.add k (Z.of_nat (bump 0 i).+1))) - orz (kD e) *m uval 0 (ru (Z.add k (Z.of_nat (bump 0 i).+1))) -
     C *m (d + \sum_(j < (bump 0 i).+1) orz (kB e) *m uval 0 (ru (Z.add k (Z.of_nat j))))) =
   \sum_(i < N) (uval 0 (ry (Z.add (Z.add k 1) (Z.of_nat i.+1))) - orz (kD e1) *m uval 0 (ru (Z.add (Z.add k 1) (Z.of_nat i.+1))) -
     C *m (d + f0 + \sum_(j < i.+1) orz (kB e1) *m uval 0 (ru (Z.add (Z.add k 1) (Z.of_nat j))))).
  apply: eq_bigr => i _; rewrite !zsucc ED1 big_ord_recl -/f0 addrA.
  by congr (_ - _ - _ *m (_ + _)); apply: eq_bigr => j _; rewrite EF.
rewrite mulmxDr addrA; congr (_ + _).
have k0 : Z.add k (Z.of_nat 0) = k by rewrite Z.add_0_r.
have k1 : Z.add k (Z.of_nat 1) = Z.add k 1 by [].
have Ef : orz (kB e) *m uval 0 (ru k) = f0 by rewrite /f0 k0.
rewrite Ex1 k1 Ey /= Ef mul1mx.
set hh := orz (kD e) *m _.
have -> : x + f0 + K *m (y0 - (C *m (x + f0) + hh)) - (d + f0) = (x - d) + K *m (y0 - (C *m (x + f0) + hh)).
  have Z (V : zmodType) (a b c g : V) : a + b + c - (g + b) = (a - g) + c by rewrite opprD addrA addrAC [a + b + c]addrAC addrK addrAC.
  exact: Z.
rewrite (mulmxDr _ (x - d)) mulmxA EK EI mulmxDl -addrA; congr (_ + _).
rewrite -!mulmxA -!mulmxDr; congr (_ *m (_ *m _)).
rewrite !mulmxDr mulmxN.
mxring.
Qed.
End Est.

Lemma big_iota1 (V : zmodType) (F : nat -> V) N : \sum_(i <- iota 1 N) F i = \sum_(i < N) F i.+1.
Proof. by rewrite -[1%N]addn0 iotaDl big_map -[in LHS](subn0 N) big_mkord; apply: eq_bigr => i _; rewrite add1n. Qed.
Lemma pd_scalar (R : rcfType) n (a : R) : 0 < a -> pd (a%:M : 'M[R]_n).
Proof. by move=> a0; rewrite -scalemx1; apply: pdZ => //; exact: pd1. Qed.
Lemma num_mean (R : rcfType) (a r x z v N : R) : a != 0 -> r != 0 -> r + N * a != 0 -> (a^-1 + r^-1 * N) * x = a^-1 * z + r^-1 * v -> x = (r * z + a * v) / (r + N * a).
Proof.
move=> a0 r0 d0 H; apply: (canRL (mulfK d0)).
have Ha := divff a0; have Hr := divff r0; set ai := a^-1 in H Ha; set ri := r^-1 in H Hr.
transitivity ((a * ai) * (r * x) + (r * ri) * (x * (N * a))); first by rewrite Ha Hr; ring.
transitivity (a * r * ((ai + ri * N) * x)); first by ring.
rewrite H; transitivity ((a * ai) * (r * z) + (r * ri) * (a * v)); first by ring.
by rewrite Ha Hr !mul1r.
Qed.
