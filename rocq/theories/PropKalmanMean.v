(** Property C161: the estimate of a quantity that is constant, or moved by known steps, is the weighted mean of its measurements. *)
From Coq Require Import ZArith List Lia.
From mathcomp Require Import all_ssreflect all_algebra.
From mathcomp Require Import ring.
From Verif Require Import Base Defs ZDO ZDOProofs ZDOInv MxLib Cholesky Kalman KFilter KFProofs KalmanLS KalmanLSThms KalmanMean.
Set Implicit Arguments.
Unset Strict Implicit.
Unset Printing Implicit Defensive.
Import Order.TTheory GRing.Theory Num.Theory.
Open Scope ring_scope.

(** ** C161 *)
(** A = 1 and Q = 0: the state moves by the steps B u only, by [moved i] after i steps. The inverse of the covariance grows by C' R^-1 C at each measurement, and the
    estimate without the steps is the mean of the initial state and of the measurements (each without the steps made before it), weighted with the inverses of the covariances.
    The equation determines the estimate, P' being invertible. *)
Theorem C161_weighted_mean (R : rcfType) (n m p : nat) md (s s' : zdo 'cV[R]_n 'cV[R]_m 'cV[R]_p (kfe R n n m m p))
    (k0 k : Z) (x x' : 'cV[R]_n) (P : 'M[R]_n) (B : 'M[R]_(n, p)) (C : 'M[R]_(m, n)) (D : 'M[R]_(m, p)) (Rm : 'M[R]_m) (y : Z -> 'cV[R]_m) (u : Z -> 'cV[R]_p) :
  kA (z_e s) = Some 1%:M -> kB (z_e s) = Some B -> kC (z_e s) = Some C -> kD (z_e s) = Some D \/ kD (z_e s) = None /\ D = 0 ->
  kQ (z_e s) = Some 0 -> kR (z_e s) = Some Rm -> kP (z_e s) = Some P -> pd Rm -> pd P ->
  state_at s k0 x -> Z.lt k0 k -> covered (@lkf_step R n m p) k0 k s ->
  (forall t, y t = match ia_get md (z_y s) t with Ok v => v | _ => 0 end) -> (forall t, u t = match ia_get md (z_u s) t with Ok v => v | _ => 0 end) ->
  z_getEstimatedState (local_step (@lkf_step R n m p)) md k s = Ok (s', x') ->
  let N := Z.to_nat (Z.sub k k0) in
  let time i := Z.add k0 (Z.of_nat i) in
  let moved i := \sum_(j < i) (B *m u (time j)) in
  exists P', [/\ kP (z_e s') = Some P', pd P', invmx P' = invmx P + (C^T *m invmx Rm *m C) *+ N &
    invmx P' *m (x' - moved N) = invmx P *m x + C^T *m invmx Rm *m \sum_(i < N) (y (time i.+1) - D *m u (time i.+1) - C *m moved i.+1)].
Proof.
move=> EA EB EC ED EQ ER EP pR pP Hx Hk Hc Hy Hu Eg N time moved; move: Eg.
rewrite (getEstimatedState_spec _ md s k0 k x Hx Hk Hc).
case E : (est_spec _ _ _ _ _ _ _ _) => [[x1 e1]| | |] //; rewrite [obind _ _]/=; case=> Es' Ex'; subst s' x'.
have := est_info 0 EA EC EQ ER EP pR pP E; rewrite -/N /= => -[P' [EP' pP' EI Ex]].
have Em i : \sum_(j < i) orz (kB (z_e s)) *m uval 0 (ia_get md (z_u s) (Z.add k0 (Z.of_nat j))) = moved i.
  by apply: eq_bigr => j _; rewrite EB Hu.
exists P'; split=> //; move: Ex; rewrite Em add0r subr0 => ->; congr (_ + _ *m _).
apply: eq_bigr => i _; rewrite Em add0r Hy Hu -/(time i.+1); congr (_ - _ - _); case: ED => [->|[-> ->]] //=.
Qed.

(** Two filters with the same covariances and no input matrices, with the same initial estimate and the same measurements in any two orders, give the same estimate and the same
    covariance. *)
Theorem C161_order_does_not_matter (R : rcfType) (n m p : nat) md (s1 s2 s1' s2' : zdo 'cV[R]_n 'cV[R]_m 'cV[R]_p (kfe R n n m m p))
    (k1 k2 : Z) (N : nat) (x x1' x2' : 'cV[R]_n) (P : 'M[R]_n) (C : 'M[R]_(m, n)) (Rm : 'M[R]_m) :
  (forall s, s = s1 \/ s = s2 -> [/\ kA (z_e s) = Some 1%:M, kB (z_e s) = Some 0, kC (z_e s) = Some C & kD (z_e s) = None] /\
     [/\ kQ (z_e s) = Some 0, kR (z_e s) = Some Rm & kP (z_e s) = Some P]) -> pd Rm -> pd P -> (0 < N)%N ->
  state_at s1 k1 x -> state_at s2 k2 x -> covered (@lkf_step R n m p) k1 (Z.add k1 (Z.of_nat N)) s1 -> covered (@lkf_step R n m p) k2 (Z.add k2 (Z.of_nat N)) s2 ->
  perm_eq [seq uval 0 (ia_get md (z_y s1) (Z.add k1 (Z.of_nat i))) | i <- iota 1 N] [seq uval 0 (ia_get md (z_y s2) (Z.add k2 (Z.of_nat i))) | i <- iota 1 N] ->
  z_getEstimatedState (local_step (@lkf_step R n m p)) md (Z.add k1 (Z.of_nat N)) s1 = Ok (s1', x1') ->
  z_getEstimatedState (local_step (@lkf_step R n m p)) md (Z.add k2 (Z.of_nat N)) s2 = Ok (s2', x2') ->
  x1' = x2' /\ kP (z_e s1') = kP (z_e s2').
Proof.
move=> Hs pR pP N0 Hx1 Hx2 Hc1 Hc2 Hp E1 E2.
have [[A1 B1 C1 D1] [Q1 R1 P1]] := Hs s1 (or_introl erefl); have [[A2 B2 C2 D2] [Q2 R2 P2]] := Hs s2 (or_intror erefl).
have L (k : Z) : Z.lt k (Z.add k (Z.of_nat N)) by move/ssrnat.ltP: N0; lia.
have EN (k : Z) : Z.to_nat (Z.sub (Z.add k (Z.of_nat N)) k) = N by lia.
pose y1 t := uval 0 (ia_get md (z_y s1) t); pose u1 t := uval 0 (ia_get md (z_u s1) t).
pose y2 t := uval 0 (ia_get md (z_y s2) t); pose u2 t := uval 0 (ia_get md (z_u s2) t).
have := @C161_weighted_mean R n m p md s1 s1' k1 _ x x1' P 0 C 0 Rm y1 u1 A1 B1 C1 (or_intror (conj D1 erefl)) Q1 R1 P1 pR pP Hx1 (L k1) Hc1 (fun=> erefl) (fun=> erefl) E1.
have := @C161_weighted_mean R n m p md s2 s2' k2 _ x x2' P 0 C 0 Rm y2 u2 A2 B2 C2 (or_intror (conj D2 erefl)) Q2 R2 P2 pR pP Hx2 (L k2) Hc2 (fun=> erefl) (fun=> erefl) E2.
rewrite !EN; lazy zeta => -[P2' [EP2 pP2 EI2 X2]] [P1' [EP1 pP1 EI1 X1]].
have EP : P1' = P2' by rewrite -[P1']invmxK EI1 -EI2 invmxK.
split; last by rewrite EP1 EP2 EP.
have Z0 (j : nat) (k : Z) (uu : Z -> 'cV[R]_p) : \sum_(i < j) ((0 : 'M[R]_(n, p)) *m uu (Z.add k (Z.of_nat i))) = 0 by apply: big1 => i _; rewrite mul0mx.
have ES (yy : Z -> 'cV[R]_m) k (uu : Z -> 'cV[R]_p) :
    \sum_(i < N) (yy (Z.add k (Z.of_nat i.+1)) - (0 : 'M[R]_(m, p)) *m uu (Z.add k (Z.of_nat i.+1)) - C *m \sum_(j < i.+1) ((0 : 'M[R]_(n, p)) *m uu (Z.add k (Z.of_nat j)))) =
    \sum_(v <- [seq yy (Z.add k (Z.of_nat i)) | i <- iota 1 N]) v.
  by rewrite big_map big_iota1; apply: eq_bigr => i _; rewrite Z0 mul0mx mulmx0 !subr0.
move: X1 X2; rewrite (ES y1 k1 u1) (ES y2 k2 u2) (Z0 N k1 u1) (Z0 N k2 u2) !subr0.
rewrite (perm_big _ Hp) /= -EP => X1 X2.
have u := pd_unit pP1.
by rewrite -[x1']mul1mx -[x2']mul1mx -(mulmxV u) -!mulmxA X1 X2.
Qed.

(** A number measured N times with the variance r, known at first with the variance a. *)
Theorem C161_number (R : rcfType) (p : nat) md (s s' : zdo 'cV[R]_1 'cV[R]_1 'cV[R]_p (kfe R 1 1 1 1 p)) (k : Z) (N : nat) (x x' : 'cV[R]_1) (a r : R) :
  kA (z_e s) = Some 1%:M -> kB (z_e s) = Some 0 -> kC (z_e s) = Some 1%:M -> kD (z_e s) = None ->
  kQ (z_e s) = Some 0 -> kR (z_e s) = Some r%:M -> kP (z_e s) = Some a%:M -> 0 < r -> 0 < a -> (0 < N)%N ->
  state_at s k x -> covered (@lkf_step R 1 1 p) k (Z.add k (Z.of_nat N)) s ->
  z_getEstimatedState (local_step (@lkf_step R 1 1 p)) md (Z.add k (Z.of_nat N)) s = Ok (s', x') ->
  let sum := \sum_(i < N) uval 0 (ia_get md (z_y s) (Z.add k (Z.of_nat i.+1))) 0 0 in
  x' 0 0 = (r * x 0 0 + a * sum) / (r + N%:R * a) /\ kP (z_e s') = Some (r * a / (r + N%:R * a))%:M.
Proof.
move=> EA EB EC ED EQ ER EP r0 a0 N0 Hx Hc E sum.
have L : Z.lt k (Z.add k (Z.of_nat N)) by move/ssrnat.ltP: N0; lia.
have EN : Z.to_nat (Z.sub (Z.add k (Z.of_nat N)) k) = N by lia.
pose y t := uval 0 (ia_get md (z_y s) t); pose u t := uval 0 (ia_get md (z_u s) t).
have := @C161_weighted_mean R 1 1 p md s s' k _ x x' a%:M 0 1%:M 0 r%:M y u EA EB EC (or_intror (conj ED erefl)) EQ ER EP (pd_scalar 1 r0) (pd_scalar 1 a0) Hx L Hc (fun=> erefl) (fun=> erefl) E.
rewrite EN; lazy zeta => -[P' [EP' pP' EI X]].
have d0 : r + N%:R * a != 0 by apply: lt0r_neq0; rewrite ltr_paddr // mulr_ge0 // ?ler0n // ltW.
have an : a != 0 by apply: lt0r_neq0.
have rn : r != 0 by apply: lt0r_neq0.
have EI' : invmx P' = (a^-1 + r^-1 * N%:R)%:M.
  by rewrite EI trmx1 mul1mx mulmx1 !invmx_scalar; apply/matrixP => i j; rewrite !ord1 mxDE mulmxnE !mxE eqxx !mulr1n mulr_natr.
have Z0 (j : nat) (uu : Z -> 'cV[R]_p) : \sum_(i < j) ((0 : 'M[R]_(1, p)) *m uu (Z.add k (Z.of_nat i))) = 0 by apply: big1 => i _; rewrite mul0mx.
split.
- apply: num_mean => //; move: X; rewrite EI' (Z0 N u) subr0 trmx1 mul1mx !invmx_scalar !mul_scalar_mx .
  rewrite (eq_bigr (fun i : 'I_N => y (Z.add k (Z.of_nat i.+1)))); last by move=> i _; rewrite (Z0 i.+1 u) mul0mx mulmx0 !subr0.
  by move=> /matrixP /(_ 0 0); rewrite !mxE => ->; rewrite summxE.
- rewrite EP' -[P']invmxK EI' invmx_scalar; congr (Some _%:M).
  have -> : a^-1 + r^-1 * N%:R = (r + N%:R * a) / (r * a).
    by field; rewrite an rn.
  by rewrite invf_div.
Qed.

(** ** Concrete cases *)
(** A number known as 0 with the variance 1 and measured as 1, 2 and 6 with the variance 1 is estimated as 9/4 with the variance 1/4, and the same in another order. *)
Section Case.
Variable R : rcfType.
Let s (ys : seq 'cV[R]_1) : zdo 'cV[R]_1 'cV[R]_1 'cV[R]_1 (kfe R 1 1 1 1 1) :=
  mkZ (Z.of_nat 1) (Z.of_nat 1) (Zpos xH) (im_put 0 Z0) (mkIarr (Zpos xH) ys) (mkIarr Z0 [:: 0; 0; 0; 0])
    (mkK (Some 1%:M) (Some 1%:M) (Some 0) (Some 1%:M) (Some 1%:M) (Some 0) None im_empty im_empty None None).
Lemma case_cov a b c : covered (@lkf_step R 1 1 1) Z0 (Z.of_nat 3) (s [:: a; b; c]).
Proof. by split=> //; split=> //; right; split=> //; left. Qed.
Lemma case_ex a b c : exists r, z_getEstimatedState (local_step (@lkf_step R 1 1 1)) Debug (Z.of_nat 3) (s [:: a; b; c]) = Ok r.
Proof.
rewrite (getEstimatedState_spec _ Debug (s [:: a; b; c]) Z0 (Z.of_nat 3) 0 erefl erefl (case_cov a b c)).
have := @est_ex R 1 1 1 Debug (Z.to_nat (Z.sub (Z.of_nat 3) Z0)) (z_e (s [:: a; b; c])) Z0 0 (ia_get Debug (z_y (s [:: a; b; c]))) (ia_get Debug (z_u (s [:: a; b; c])))
     1%:M 0 1%:M 0 1%:M 1%:M erefl erefl erefl erefl erefl erefl (psd0 R 1) (pd1 R 1) (pd_psd (pd1 R 1)).
case.
- by case=> [|[|[|[|i]]]] //= _; eexists; reflexivity.
- by case=> [|[|[|[|i]]]] //= _; eexists; reflexivity.
- by move=> r ->; eexists; reflexivity.
Qed.
Example C161_number_case : exists s' x', z_getEstimatedState (local_step (@lkf_step R 1 1 1)) Debug (Z.of_nat 3) (s [:: 1%:M; 2%:R%:M; 6%:R%:M]) = Ok (s', x') /\
  x' 0 0 = 9%:R / 4%:R /\ kP (z_e s') = Some (4%:R^-1)%:M.
Proof.
case: (case_ex 1%:M 2%:R%:M 6%:R%:M) => -[s' x'] E; exists s', x'; split=> //.
have [-> ->] := @C161_number R 1 Debug (s [:: 1%:M; 2%:R%:M; 6%:R%:M]) s' Z0 3 0 x' 1 1 erefl erefl erefl erefl erefl erefl erefl ltr01 ltr01 isT erefl (case_cov _ _ _) E.
rewrite !big_ord_recl big_ord0 /= !mxE eqxx !mulr1n.
by split; [congr (_ / _); ring|congr (Some _%:M); rewrite mulr1 mul1r; congr (_^-1); ring].
Qed.
Example C161_order_case (a b c : 'cV[R]_1) : exists s1 s2 x1 x2, z_getEstimatedState (local_step (@lkf_step R 1 1 1)) Debug (Z.of_nat 3) (s [:: a; b; c]) = Ok (s1, x1) /\
  z_getEstimatedState (local_step (@lkf_step R 1 1 1)) Debug (Z.of_nat 3) (s [:: c; a; b]) = Ok (s2, x2) /\ x1 = x2 /\ kP (z_e s1) = kP (z_e s2).
Proof.
case: (case_ex a b c) => -[s1 x1] E1; case: (case_ex c a b) => -[s2 x2] E2; exists s1, s2, x1, x2; split=> //; split=> //.
apply: (@C161_order_does_not_matter R 1 1 1 Debug (s [:: a; b; c]) (s [:: c; a; b]) s1 s2 Z0 Z0 3 0 x1 x2 1%:M 1%:M 1%:M _ (pd1 R 1) (pd1 R 1) isT erefl erefl (case_cov _ _ _) (case_cov _ _ _) _ E1 E2).
  by move=> z [->|->]; split; split.
by rewrite /=; apply/permP => f /=; rewrite !addn0 addnA addnC addnA.
Qed.
End Case.

Print Assumptions C161_weighted_mean.
Print Assumptions C161_order_does_not_matter.
Print Assumptions C161_number.
