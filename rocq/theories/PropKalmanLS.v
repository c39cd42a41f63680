(** Properties C152 to C155: what the estimates of the linear Kalman filter are, over any number of steps. *)
From Coq Require Import ZArith List Lia.
From mathcomp Require Import all_ssreflect all_algebra.
From Verif Require Import Base Defs ZDO ZDOProofs ZDOInv MxLib Cholesky Kalman KFilter KFProofs KalmanLS KalmanLSThms.
Set Implicit Arguments.
Unset Strict Implicit.
Unset Printing Implicit Defensive.
Import Order.TTheory GRing.Theory Num.Theory.
Open Scope ring_scope.

(** ** C152 *)
(** The state at k0 is x with covariance P; y t and u t are the measurements and inputs recorded (an input not recorded counts as zero). The
    estimate at k is the last state of the sequence of states xs k0 .. xs k with the least weighted sum of squares J: distance of the first state to
    x, disturbances and measurement errors. The inverse of the covariance reported is the curvature of the cost of a last state. *)
Theorem C152_estimate_is_least_squares (R : rcfType) (n m p : nat) md (s s' : zdo 'cV[R]_n 'cV[R]_m 'cV[R]_p (kfe R n n m m p))
    (k0 k : Z) (x x' : 'cV[R]_n) (A Q P : 'M[R]_n) (B : 'M[R]_(n, p)) (C : 'M[R]_(m, n)) (D : 'M[R]_(m, p)) (Rm : 'M[R]_m) (y : Z -> 'cV[R]_m) (u : Z -> 'cV[R]_p) :
  kA (z_e s) = Some A -> kB (z_e s) = Some B -> kC (z_e s) = Some C -> kD (z_e s) = Some D \/ kD (z_e s) = None /\ D = 0 ->
  kQ (z_e s) = Some Q -> kR (z_e s) = Some Rm -> kP (z_e s) = Some P -> pd Q -> pd Rm -> pd P ->
  state_at s k0 x -> Z.lt k0 k -> covered (@lkf_step R n m p) k0 k s ->
  (forall t, y t = match ia_get md (z_y s) t with Ok v => v | _ => 0 end) -> (forall t, u t = match ia_get md (z_u s) t with Ok v => v | _ => 0 end) ->
  z_getEstimatedState (local_step (@lkf_step R n m p)) md k s = Ok (s', x') ->
  let N := Z.to_nat (Z.sub k k0) in
  let time i := Z.add k0 (Z.of_nat i) in
  let J (xs : nat -> 'cV[R]_n) := qf (invmx P) (xs 0%N - x) +
     \sum_(i < N) (qf (invmx Q) (xs i.+1 - (A *m xs i + B *m u (time i))) + qf (invmx Rm) (y (time i.+1) - (C *m xs i.+1 + D *m u (time i.+1)))) in
  (forall t, Z.lt k0 t -> Z.le t k -> ia_get md (z_y s) t = Ok (y t)) /\
  exists P' xs, [/\ kP (z_e s') = Some P', pd P', xs N = x',
    forall xs2, J xs + qf (invmx P') (xs2 N - x') <= J xs2 &
    forall z, exists xs2, xs2 N = z /\ J xs2 = J xs + qf (invmx P') (z - x')].
Proof.
move=> EA EB EC ED EQ ER EP pQ pR pP Hx Hk Hc Hy Hu Eg N time J; move: Eg.
rewrite (getEstimatedState_spec _ md s k0 k x Hx Hk Hc).
case E : (est_spec _ _ _ _ _ _ _ _) => [[x1 e1]| | |] //; rewrite [obind _ _]/=; case=> Es' Ex'; subst s' x'.
have := est_ls EA EC EQ ER EP pQ pR pP E; rewrite -/N.
set f := fun i => _; set h := fun i => _; set yy := fun i => _.
case=> Hrec [P' [c [EP' pP' Hlow Hatt]]].
have EJ xs : J xs = cost x P A Q C Rm f h yy N xs.
  rewrite /J /cost; congr (_ + _); apply: eq_bigr => i _; rewrite /f /h /yy /time Hy !Hu EB.
  congr (_ + _); congr (qf _ (_ - (_ + _))); case: ED => [->|[-> ->]] //=.
split.
  move=> t H1 H2; pose i := Z.to_nat (Z.sub t (Z.add k0 1)).
  have Et : t = Z.add k0 (Z.of_nat i.+1) by rewrite /i Nat2Z.inj_succ; lia.
  have Hi : (i < N)%N by apply/ssrnat.ltP; rewrite /i /N; lia.
  by rewrite Hy {2}Et Et (Hrec i Hi).
have [xs [Exs Jxs]] := Hatt x1.
have Ec : J xs = c by rewrite EJ Jxs subrr qf0 addr0.
exists P', xs; split=> //; first by move=> xs2; rewrite Ec EJ; apply: Hlow.
by move=> z; have [xs2 [E2 J2]] := Hatt z; exists xs2; rewrite Ec EJ.
Qed.

(** ** C153 *)
(** Two sensors with independent noises: one step with both measurements gives the state and the covariance of a step with the first one
    followed by a step at the same time (A = 1, B = 0, Q = 0) with the second one. *)
Theorem C153_sensors_together_or_in_turn (R : rcfType) (n m1 m2 p : nat) md (e : kfe R n n (m1 + m2) (m1 + m2) p) (e1 : kfe R n n m1 m1 p)
    (A Q P : 'M[R]_n) B C1 C2 D1 D2 R1 R2 k x y1 y2 u v : pd Q -> psd P -> pd R1 -> pd R2 ->
  kA e = Some A -> kB e = Some B -> kC e = Some (col_mx C1 C2) -> kD e = Some (col_mx D1 D2) -> kQ e = Some Q -> kR e = Some (block_mx R1 0 0 R2) -> kP e = Some P ->
  kA e1 = Some A -> kB e1 = Some B -> kC e1 = Some C1 -> kD e1 = Some D1 -> kQ e1 = Some Q -> kR e1 = Some R1 -> kP e1 = Some P ->
  exists x' e' x1 e1', lkf_step md e k x (Ok (col_mx y1 y2)) (Ok u) (Ok v) = Ok (x', e') /\ lkf_step md e1 k x (Ok y1) (Ok u) (Ok v) = Ok (x1, e1') /\
    forall e2 : kfe R n n m2 m2 p, kA e2 = Some 1%:M -> kB e2 = Some 0 -> kC e2 = Some C2 -> kD e2 = Some D2 -> kQ e2 = Some 0 -> kR e2 = Some R2 -> kP e2 = kP e1' ->
      exists e2', lkf_step md e2 k x1 (Ok y2) (Ok u) (Ok v) = Ok (x', e2') /\ kP e2' = kP e'.
Proof.
move=> pQ pP p1 p2 EA EB EC ED EQ ER EP FA FB FC FD FQ FR FP.
have pR := pd_block p1 p2.
have [[x' e'] S] := @lkf_step_ex R n _ p md e k x (col_mx y1 y2) u v _ _ _ _ _ _ EA EB EC EQ ER EP (pd_psd pQ) pR pP.
have [[x1 e1'] S1] := @lkf_step_ex R n _ p md e1 k x y1 u v _ _ _ _ _ _ FA FB FC FQ FR FP (pd_psd pQ) p1 pP.
exists x', e', x1, e1'; split=> //; split=> // e2 GA GB GC GD GQ GR GP.
have [y [K [[Ey] KS Ex [_ [_ _ EP' _]]]]] := lkf_step_val EA EC EQ ER EP (pd_psd pQ) pR pP S.
have [y' [K1 [[Ey'] K1S Ex1 [_ [_ _ EP1 _]]]]] := lkf_step_val FA FC FQ FR FP (pd_psd pQ) p1 pP S1; subst y y'.
set Pb := k_pbar A Q P in KS K1S EP' EP1.
have pPb : pd Pb by rewrite /Pb /k_pbar addrC mulmxA; apply: pdD => //; apply: psd_cong.
set P1 := joseph C1 R1 Pb K1 in EP1; rewrite EP1 in GP.
have [pP1 _ _ _] := correct_ls p1 pPb K1S; rewrite -/P1 in pP1.
have [[x2 e2'] S2] := @lkf_step_ex R n _ p md e2 k x1 y2 u v _ _ _ _ _ _ GA GB GC GQ GR GP (psd0 R n) p2 (pd_psd pP1).
have [y'' [K2 [[Ey''] K2S Ex2 [_ [_ _ EP2 _]]]]] := lkf_step_val GA GC GQ GR GP (psd0 R n) p2 (pd_psd pP1) S2; subst y''.
have EPb : k_pbar 1%:M 0 P1 = P1 by rewrite /k_pbar add0r mul1mx trmx1 mulmx1.
rewrite EPb in K2S EP2.
have [EJ EX] := split_correct p1 p2 pPb KS K1S K2S.
have Ex' : x2 = x'.
  rewrite Ex Ex2 EB ED GB GD /= mul0mx addr0 mul1mx (mul_col_mx D1) EX /= -/P1 Ex1 FB FD //.
by exists e2'; rewrite S2 Ex' EP2 EP' EJ.
Qed.

(** ** C154 *)
(** A true system with disturbances w and measurement errors v, any sequences: the error of the estimate, weighted by the inverse of the covariance
    reported, is at most the weighted sum of squares of the initial error, the disturbances and the measurement errors. *)
Theorem C154_error_bounded_by_noise (R : rcfType) (n m p : nat) md (s s' : zdo 'cV[R]_n 'cV[R]_m 'cV[R]_p (kfe R n n m m p))
    (k0 k : Z) (x x' : 'cV[R]_n) (A Q P : 'M[R]_n) (B : 'M[R]_(n, p)) (C : 'M[R]_(m, n)) (D : 'M[R]_(m, p)) (Rm : 'M[R]_m) (xt w : Z -> 'cV[R]_n) (v : Z -> 'cV[R]_m) (u : Z -> 'cV[R]_p) :
  kA (z_e s) = Some A -> kB (z_e s) = Some B -> kC (z_e s) = Some C -> kD (z_e s) = Some D \/ kD (z_e s) = None /\ D = 0 ->
  kQ (z_e s) = Some Q -> kR (z_e s) = Some Rm -> kP (z_e s) = Some P -> pd Q -> pd Rm -> pd P ->
  state_at s k0 x -> Z.lt k0 k -> covered (@lkf_step R n m p) k0 k s ->
  (forall t, u t = match ia_get md (z_u s) t with Ok v => v | _ => 0 end) ->
  (forall t, Z.le k0 t -> Z.lt t k -> xt (Z.add t 1) = A *m xt t + B *m u t + w t) ->
  (forall t, Z.lt k0 t -> Z.le t k -> ia_get md (z_y s) t = Ok (C *m xt t + D *m u t + v t)) ->
  z_getEstimatedState (local_step (@lkf_step R n m p)) md k s = Ok (s', x') ->
  exists P', [/\ kP (z_e s') = Some P', pd P' & qf (invmx P') (xt k - x') <= qf (invmx P) (xt k0 - x) +
     \sum_(i < Z.to_nat (Z.sub k k0)) (qf (invmx Q) (w (Z.add k0 (Z.of_nat i))) + qf (invmx Rm) (v (Z.add k0 (Z.of_nat i.+1))))].
Proof.
move=> EA EB EC ED EQ ER EP pQ pR pP Hx Hk Hc Hu Hxt Hyt E.
pose y t := match ia_get md (z_y s) t with Ok v => v | _ => 0 end.
have := @C152_estimate_is_least_squares R n m p md s s' k0 k x x' A Q P B C D Rm y u EA EB EC ED EQ ER EP pQ pR pP Hx Hk Hc (fun=> erefl) Hu E.
set N := Z.to_nat _; case=> _ [P' [xs [EP' pP' Exs Hmin _]]]; exists P'; split=> //.
have := Hmin (fun i => xt (Z.add k0 (Z.of_nat i))); rewrite {2}/N.
have -> : Z.add k0 (Z.of_nat (Z.to_nat (Z.sub k k0))) = k by lia.
rewrite Z.add_0_r => H; apply: (le_trans _ (le_trans H _)).
- rewrite ler_addr; apply: addr_ge0; first by apply: (pd_psd (pd_inv pP)).2.
  by apply: sumr_ge0 => i _; apply: addr_ge0; [apply: (pd_psd (pd_inv pQ)).2|apply: (pd_psd (pd_inv pR)).2].
- rewrite ler_add2l; apply: ler_sum => i _.
  have Hi : (i < N)%coq_nat by apply/ssrnat.ltP.
  have -> : Z.add k0 (Z.of_nat i.+1) = Z.add (Z.add k0 (Z.of_nat i)) 1 by rewrite Nat2Z.inj_succ; lia.
  rewrite /y Hyt; [|move: Hi; rewrite /N; lia|move: Hi; rewrite /N; lia].
  rewrite {1}Hxt; [|move: Hi; rewrite /N; lia|move: Hi; rewrite /N; lia].
  by rewrite [_ + w _]addrC addrK [_ + v _]addrC addrK.
Qed.

(** ** C155 *)
(** Two filters with the same A and C, possibly different data, inputs and modes, after the same number of steps: when the noises and the initial
    covariance given to the first one are not larger than those given to the second, its covariance is not larger. *)
Theorem C155_covariance_monotone (R : rcfType) (n m p1 p2 : nat) md1 md2 (s1 s1' : zdo 'cV[R]_n 'cV[R]_m 'cV[R]_p1 (kfe R n n m m p1))
    (s2 s2' : zdo 'cV[R]_n 'cV[R]_m 'cV[R]_p2 (kfe R n n m m p2)) (k1 k2 K1 K2 : Z) x1 x2 x1' x2' (A : 'M[R]_n) C Q1 Q2 R1 R2 P1 P2 :
  kA (z_e s1) = Some A -> kC (z_e s1) = Some C -> kQ (z_e s1) = Some Q1 -> kR (z_e s1) = Some R1 -> kP (z_e s1) = Some P1 ->
  kA (z_e s2) = Some A -> kC (z_e s2) = Some C -> kQ (z_e s2) = Some Q2 -> kR (z_e s2) = Some R2 -> kP (z_e s2) = Some P2 ->
  psd Q1 -> psd Q2 -> pd R1 -> pd R2 -> psd P1 -> psd P2 ->
  (forall x, qf Q1 x <= qf Q2 x) -> (forall x, qf R1 x <= qf R2 x) -> (forall x, qf P1 x <= qf P2 x) ->
  state_at s1 k1 x1 -> state_at s2 k2 x2 -> Z.lt k1 K1 -> Z.sub K1 k1 = Z.sub K2 k2 -> covered (@lkf_step R n m p1) k1 K1 s1 -> covered (@lkf_step R n m p2) k2 K2 s2 ->
  z_getEstimatedState (local_step (@lkf_step R n m p1)) md1 K1 s1 = Ok (s1', x1') -> z_getEstimatedState (local_step (@lkf_step R n m p2)) md2 K2 s2 = Ok (s2', x2') ->
  exists P1' P2', [/\ kP (z_e s1') = Some P1', kP (z_e s2') = Some P2' & forall x, qf P1' x <= qf P2' x].
Proof.
move=> EA EC EQ ER EP FA FC FQ FR FP pQ1 pQ2 pR1 pR2 pP1 pP2 hQ hR hP H1 H2 Hk Hd Hc1 Hc2.
have Hk2 : Z.lt k2 K2 by lia.
rewrite (getEstimatedState_spec _ md1 s1 k1 K1 x1 H1 Hk Hc1) (getEstimatedState_spec _ md2 s2 k2 K2 x2 H2 Hk2 Hc2) -Hd.
case E1 : (est_spec _ _ _ _ _ _ _ _) => [[a1 e1]| | |] //= [<- _].
case E2 : (est_spec _ _ _ _ _ _ _ _) => [[a2 e2]| | |] //= [<- _] /=.
by apply: (est_mono (A := A) (C := C) _ _ hQ hR hP E1 E2).
Qed.

(** Two measurements and three inputs recorded, any data, any C and B; the hypotheses of C152, C154 and C155 hold (for C154 the data are those of
    any system: w and v are what is left). *)
Definition ls_demo (R : rcfType) (c : R) (B : 'M[R]_(3, 1)) (C : 'M[R]_(2, 3)) (x : 'cV[R]_3) (y1 y2 : 'cV[R]_2) (u0 u1 u2 : 'cV[R]_1) : zdo 'cV[R]_3 'cV[R]_2 'cV[R]_1 (kfe R 3 3 2 2 1) :=
  mkZ (Z.of_nat 3) (Z.of_nat 2) (Zpos xH) (im_put x Z0) (mkIarr (Zpos xH) [:: y1; y2]) (mkIarr Z0 [:: u0; u1; u2])
    (mkK (Some 1%:M) (Some C) (Some c%:M) (Some 1%:M) (Some 1%:M) (Some B) (Some 0) im_empty im_empty None None).
Example C152_C154_C155_case (R : rcfType) (c : R) B C x y1 y2 u0 u1 u2 : 0 < c ->
  let s := ls_demo c B C x y1 y2 u0 u1 u2 in
  [/\ state_at s Z0 x, covered (@lkf_step R 3 2 1) Z0 (Z.of_nat 2) s, pd (c%:M : 'M[R]_3), (forall x, qf (1%:M : 'M[R]_3) x <= qf (1 + c)%:M x) &
    exists r, z_getEstimatedState (local_step (@lkf_step R 3 2 1)) Debug (Z.of_nat 2) s = Ok r].
Proof.
move=> c0 s; have Hc : covered (@lkf_step R 3 2 1) Z0 (Z.of_nat 2) s by split=> //; split=> //; right; split=> //; left.
have pc : pd (c%:M : 'M[R]_3).
  rewrite -scalemx1; split; first by apply: symZ; apply: sym1.
  by move=> z zn0; rewrite qfZ pmulr_lgt0 //; apply: (pd1 R 3).2.
split=> //.
  move=> z; rewrite -(scalemx1 _ (1 + c)) qfZ mulrDl mul1r ler_addl; apply: mulr_ge0; first exact: ltW.
  exact: qf1_ge0.
rewrite (getEstimatedState_spec _ Debug s Z0 (Z.of_nat 2) x erefl erefl Hc).
have := @est_ex R 3 2 1 Debug (Z.to_nat (Z.sub (Z.of_nat 2) Z0)) (z_e s) Z0 x (ia_get Debug (z_y s)) (ia_get Debug (z_u s))
   1%:M B C c%:M 1%:M 1%:M erefl erefl erefl erefl erefl erefl (pd_psd pc) (pd1 R 2) (pd_psd (pd1 R 3)).
case.
- by case=> [|[|[|i]]] //= _; eexists; reflexivity.
- by case=> [|[|[|i]]] //= _; eexists; reflexivity.
- by move=> r ->; eexists; reflexivity.
Qed.
(** The hypotheses of C153 only ask for matrices: here a position sensor of the first axis and one of the sum, starting from a known state. *)
Example C153_case (R : rcfType) (x : 'cV[R]_2) (y1 y2 : 'cV[R]_1) : let C1 := delta_mx 0 0 : 'M[R]_(1, 2) in let C2 := const_mx 1 : 'M[R]_(1, 2) in
  let e := mkK (Some 1%:M) (Some (col_mx C1 C2)) (Some 1%:M) (Some (block_mx 1%:M 0 0 1%:M)) (Some 0) (Some 0) (Some (col_mx 0 0)) im_empty im_empty None None : kfe R 2 2 (1 + 1) (1 + 1) 0 in
  let e1 := mkK (Some 1%:M) (Some C1) (Some 1%:M) (Some 1%:M) (Some 0) (Some 0) (Some 0) im_empty im_empty None None : kfe R 2 2 1 1 0 in
  exists x' e' x1 e1', lkf_step Debug e Z0 x (Ok (col_mx y1 y2)) (Ok 0) (Ok 0) = Ok (x', e') /\ lkf_step Debug e1 Z0 x (Ok y1) (Ok 0) (Ok 0) = Ok (x1, e1') /\
  forall e2 : kfe R 2 2 1 1 0, kA e2 = Some 1%:M -> kB e2 = Some 0 -> kC e2 = Some C2 -> kD e2 = Some 0 -> kQ e2 = Some 0 -> kR e2 = Some 1%:M -> kP e2 = kP e1' ->
      exists e2', lkf_step Debug e2 Z0 x1 (Ok y2) (Ok 0) (Ok 0) = Ok (x', e2') /\ kP e2' = kP e'.
Proof.
move=> C1 C2 e e1.
by apply: (@C153_sensors_together_or_in_turn R 2 1 1 0 Debug e e1 1%:M 1%:M 0 0 C1 C2 0 0 1%:M 1%:M Z0 x y1 y2 0 0 (pd1 R 2) (psd0 R 2) (pd1 R 1) (pd1 R 1)).
Qed.

Print Assumptions C152_estimate_is_least_squares.
Print Assumptions C153_sensors_together_or_in_turn.
Print Assumptions C154_error_bounded_by_noise.
Print Assumptions C155_covariance_monotone.
