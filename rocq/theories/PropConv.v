(** C165: the linear Kalman filter converges whenever some observer with a constant gain does. *)
From Coq Require Import ZArith List Lia Bool.
From mathcomp Require Import all_ssreflect all_algebra.
From Verif Require Import Base Defs ZDO ZDOInv ZDOProofs MxLib Cholesky Kalman KFilter KFProofs KalmanLS KalmanLSThms KalmanBound KalmanTV KalmanConv PropTV.
Set Implicit Arguments.
Unset Strict Implicit.
Unset Printing Implicit Defensive.
Import Order.TTheory GRing.Theory Num.Theory.
Open Scope ring_scope.

(** ** C165 *)
(** (1 - G C) A is how the error of the observer with the constant gain G evolves; let it be multiplied by at most r < 1 (in square) in some number
    L + 1 of steps. Then there are constants, which depend on the matrices and on the initial covariance only, such that for every system of any inputs,
    every number of steps, every true trajectory with disturbances and measurement errors of squared norm at most q and every initial estimate: the
    squared error is at most c1 rho^N times the initial one plus c2 q, and the covariance reported is at most c3. *)
Theorem C165_error_converges (R : rcfType) (n m L : nat) (A Q P : 'M[R]_n) (C : 'M[R]_(m, n)) (Rm : 'M[R]_m) (G : 'M[R]_(n, m)) (r : R) :
  pd Q -> pd Rm -> pd P -> 0 <= r -> r < 1 ->
  (forall e : 'cV[R]_n, \sum_i (iter L.+1 (mulmx ((1%:M - G *m C) *m A)) e) i 0 ^+ 2 <= r * \sum_i e i 0 ^+ 2) ->
  exists rho c1 c2 c3 : R, 0 <= rho /\ rho < 1 /\
  forall (p : nat) md (s s' : zdo 'cV[R]_n 'cV[R]_m 'cV[R]_p (kfe R n n m m p)) (k0 k : Z) (x x' : 'cV[R]_n) (B : 'M[R]_(n, p)) (D : 'M[R]_(m, p)) (u : Z -> 'cV[R]_p),
  kA (z_e s) = Some A -> kB (z_e s) = Some B -> kC (z_e s) = Some C -> kD (z_e s) = Some D \/ kD (z_e s) = None /\ D = 0 ->
  kQ (z_e s) = Some Q -> kR (z_e s) = Some Rm -> kP (z_e s) = Some P ->
  state_at s k0 x -> Z.lt k0 k -> covered (@lkf_step R n m p) k0 k s ->
  (forall t, u t = match ia_get md (z_u s) t with Ok v => v | _ => 0 end) ->
  z_getEstimatedState (local_step (@lkf_step R n m p)) md k s = Ok (s', x') ->
  (exists P', kP (z_e s') = Some P' /\ psd P' /\ forall g, qf P' g <= c3 * \sum_i g i 0 ^+ 2) /\
  forall (xt w : Z -> 'cV[R]_n) (v : Z -> 'cV[R]_m) (q : R), 0 <= q ->
  (forall t, \sum_i w t i 0 ^+ 2 <= q) -> (forall t, \sum_i v t i 0 ^+ 2 <= q) ->
  (forall t, Z.le k0 t -> Z.lt t k -> xt (Z.add t 1) = A *m xt t + B *m u t + w t) ->
  (forall t, Z.le k0 t -> Z.lt t k -> ia_get md (z_y s) (Z.add t 1) = Ok (C *m xt (Z.add t 1) + D *m u (Z.add t 1) + v (Z.add t 1))) ->
  \sum_i (xt k - x') i 0 ^+ 2 <= c1 * rho ^+ Z.to_nat (Z.sub k k0) * (\sum_i (xt k0 - x) i 0 ^+ 2) + c2 * q.
Proof.
move=> pQ pR pP r0 r1 HF.
have [r' [r'1 HV]] := lyap_shrink r0 r1 HF; set V := lyap _ _ in HV.
have pV : pd V := lyap_pd _ _.
have [cN [cN0 HN]] := dom (joseph C Rm Q G) pV.
have [cP [cP0 HP]] := dom P pV.
have r'2 : 0 < 1 - r' by rewrite subr_gt0.
pose c := cP + cN / (1 - r').
have c0 : 0 <= c by apply: addr_ge0 => //; apply: divr_ge0 => //; apply: ltW.
have V0 x : 0 <= qf V x by case: (pd_psd pV) => _; apply.
have HPc : loewner P (c *: V).
  by move=> x; apply: (le_trans (HP x)); rewrite !qfZ; apply: ler_wpmul2r => //; rewrite ler_addl; apply: divr_ge0 => //; apply: ltW.
have HNc : loewner (joseph C Rm Q G) ((1 - r') * c *: V).
  move=> x; apply: (le_trans (HN x)); rewrite !qfZ; apply: ler_wpmul2r => //.
  by rewrite mulrDr mulrCA divff ?gt_eqF // mulr1 ler_addr; apply: mulr_ge0 => //; apply: ltW.
have [dd [dd0 Hdd]] := dom (c *: (A *m V *m A^T)) pQ.
pose rr := dd / (1 + dd); have dd1 : 0 < 1 + dd by rewrite ltr_paddr // ltr01.
have rr0 : 0 <= rr by apply: divr_ge0 => //; apply: ltW.
have rr1 : 0 < 1 - rr by rewrite subr_gt0 /rr ltr_pdivr_mulr // mul1r ltr_addr ltr01.
have Hsh P0 : psd P0 -> loewner P0 (c *: V) -> loewner (A *m P0 *m A^T) (rr *: k_pbar A Q P0) by move=> _ H; apply: (share dd0 H Hdd).
pose d := (1 - rr) / 4%:R; have d0 : 0 < d by apply: divr_gt0 => //; rewrite ltr0n.
pose rho := (1 + d) ^+ 2 * rr.
have rho0 : 0 <= rho by apply: mulr_ge0 => //; apply: sqr_ge0.
have rho1 : rho < 1 by apply: rho_lt1.
have rho2 : 0 < 1 - rho by rewrite subr_gt0.
have [t0 [t00 H0]] := dom 1%:M pP.
have [tq [tq0 Hq]] := dom 1%:M pQ.
have [tv [tv0 Hv]] := dom 1%:M pR.
have [c4 [c40 H4]] := dom1 (c *: V).
pose kap := ((1 + d) * ((1 + d^-1) * tq) + (1 + d^-1) * tv) / (1 - rho).
have [d1 d2] : 0 <= 1 + d /\ 0 <= 1 + d^-1 by split; apply: addr_ge0; rewrite ?ler01 ?invr_ge0 // ltW.
have kap0 : 0 <= kap by apply: divr_ge0; [apply: addr_ge0; [apply: mulr_ge0 => //|]; apply: mulr_ge0|apply: ltW].
exists rho, (c4 * t0), (c4 * kap), c4; split=> //; split=> //.
move=> p md s s' k0 k x x' B D u EA EB EC ED EQ ER EP Hx Hk Hc Hu; rewrite (getEstimatedState_spec _ md s k0 k x Hx Hk Hc).
set N := Z.to_nat _.
case E : (est_spec _ _ _ _ _ _ _ _) => [[x1 e1]| | |] //; rewrite [obind _ _]/=; case=> Es' Ex'; subst s' x'.
have Est q : 0 <= q -> _ := fun q0 => @est_conv R n m p md N A C Q Rm V G c r' d rr (tq * q) (tv * q) (kap * q) (z_e s) k0 x _ _ x1 e1 P EA EC EQ ER EP
  (pd_psd pQ) pR (pd_psd pP) c0 HV HNc Hsh d0 rr0 (mulr_ge0 tq0 q0) (mulr_ge0 tv0 q0) (mulr_ge0 kap0 q0) (kap_fix d0 rho2 tq tv q) HPc E.
have Fin (P' : 'M[R]_n) (g : 'cV[R]_n) : loewner P' (c *: V) -> qf P' g <= c4 * sqn g by move=> HP'; apply: (le_trans (HP' g)); apply: H4.
split.
  by have [P' [EP' pP' HP' _]] := Est 0 (lexx 0); exists P'; split=> //; split=> // g; apply: Fin.
move=> xt w v q q0 Hw Hvn Hxt Hyt; have [P' [EP' pP' HP' HW]] := Est q q0.
have W1 l (M : 'M[R]_l) t (z : 'cV[R]_l) : 0 <= t -> loewner 1%:M (t *: M) -> within M z (t * sqn z).
  by move=> t1 H; apply: within_Z; apply: (within_loe _ H); [apply: sqn_ge0|apply: within_1].
have tS i : Z.add k0 (Z.of_nat i.+1) = Z.add (Z.add k0 (Z.of_nat i)) 1 by rewrite Nat2Z.inj_succ -Z.add_assoc.
have tN i : (i < N)%N -> Z.le k0 (Z.add k0 (Z.of_nat i)) /\ Z.lt (Z.add k0 (Z.of_nat i)) k.
  exact: time_in.
have : within P' (xt k - x1) (rho ^+ N * (t0 * sqn (xt k0 - x)) + kap * q).
  have := HW (fun i => xt (Z.add k0 (Z.of_nat i))) (fun i => w (Z.add k0 (Z.of_nat i))) (fun i => v (Z.add k0 (Z.of_nat i.+1))) (t0 * sqn (xt k0 - x)).
  have -> : Z.add k0 (Z.of_nat N) = k by apply: time_end.
  rewrite Z.add_0_r; apply.
  - by apply: mulr_ge0 => //; apply: sqn_ge0.
  - by apply: (within_le (pd_psd pP) _ (W1 _ P t0 _ t00 H0)); rewrite ler_addl; apply: mulr_ge0.
  - by move=> i /tN[H1 H2]; rewrite tS Hxt // Hu EB.
  - by move=> i _; apply: (within_le (pd_psd pQ) _ (W1 _ Q tq _ tq0 Hq)); apply: ler_wpmul2l => //; exact: Hw.
  - by move=> i /tN[H1 H2]; rewrite tS Hyt // Hu; case: ED => [->|[-> ->]] /=; rewrite ?tS.
  - by move=> i _; apply: (within_le (pd_psd pR) _ (W1 _ Rm tv _ tv0 Hv)); apply: ler_wpmul2l => //; exact: Hvn.
move=> HWf.
have := HWf (xt k - x1); set z := xt k - x1; have -> : (z^T *m z) 0 0 = sqn z by rewrite sqnE /qf mulmx1.
move=> H; change (sqn z <= c4 * t0 * rho ^+ N * sqn (xt k0 - x) + c4 * kap * q).
have [->|zn] := eqVneq (sqn z) 0.
  by apply: addr_ge0; apply: mulr_ge0 => //; [apply: mulr_ge0; [apply: mulr_ge0|apply: exprn_ge0]|apply: sqn_ge0|apply: mulr_ge0].
have zp : 0 < sqn z by rewrite lt_def zn sqn_ge0.
rewrite -(ler_pmul2l zp) -expr2; apply: (le_trans H).
set S := sqn _; have S0 : 0 <= S by apply: sqn_ge0.
have -> : sqn z * (c4 * t0 * rho ^+ N * S + c4 * kap * q) = c4 * sqn z * (rho ^+ N * (t0 * S) + kap * q).
  by rewrite -num_arr.
apply: ler_wpmul2r; last by apply: Fin.
by apply: addr_ge0; apply: mulr_ge0 => //; [apply: exprn_ge0|apply: mulr_ge0].
Qed.

(** A case: a position and a velocity, the position is measured; the gain (1, 1) corrects any error in two steps. One estimation of it. *)
Example C165_case (R : rcfType) : let A := 1%:M + delta_mx 0 1 : 'M[R]_2 in let C := delta_mx 0 0 : 'M[R]_(1, 2) in let G := delta_mx 0 0 + delta_mx 1 0 : 'M[R]_(2, 1) in
  (forall e : 'cV[R]_2, \sum_i (iter 2 (mulmx ((1%:M - G *m C) *m A)) e) i 0 ^+ 2 <= 0 * \sum_i e i 0 ^+ 2) /\
  exists (s s' : zdo 'cV[R]_2 'cV[R]_1 'cV[R]_1 (kfe R 2 2 1 1 1)) x x',
  [/\ kA (z_e s) = Some A, kB (z_e s) = Some 0, kC (z_e s) = Some C, kD (z_e s) = Some 0 & kQ (z_e s) = Some 1%:M] /\
  [/\ kR (z_e s) = Some 1%:M, kP (z_e s) = Some 1%:M, state_at s Z0 x, covered (@lkf_step R 2 1 1) Z0 (Zpos 1) s & z_getEstimatedState (local_step (@lkf_step R 2 1 1)) Debug (Zpos 1) s = Ok (s', x')] /\
  exists v : 'cV[R]_1, ia_get Debug (z_y s) (Z.add 0 1) = Ok (C *m (A *m const_mx 1) + v).
Proof.
move=> A C G; split.
  have F2 : ((1%:M - G *m C) *m A) *m ((1%:M - G *m C) *m A) = 0.
    have E1 : (1%:M : 'M[R]_2) = delta_mx 0 0 + delta_mx 1 1.
      by apply/matrixP=> i j; rewrite !mxE; case: i => [[|[|i]] Hi] //; case: j => [[|[|j]] Hj] //=; rewrite ?addr0 ?add0r.
    have EG : G *m C = delta_mx 0 0 + delta_mx 1 0 by rewrite /G /C mulmxDl !mul_delta_mx.
    have -> : (1%:M - G *m C) *m A = - delta_mx 1 0.
      rewrite EG /A E1 mulmxBl !mulmxDl !mulmxDr !mul_delta_mx_cond /= !mulr0n !mulr1n ?addr0 ?add0r.
      by apply/matrixP=> i j; rewrite !mxE; case: i => [[|[|i]] Hi] //; case: j => [[|[|j]] Hj] //=; rewrite ?addr0 ?add0r ?oppr0 ?subr0 ?subrr ?addrK ?sub0r ?opprD ?addrA ?subrr ?sub0r.
    by rewrite mulNmx mulmxN opprK mul_delta_mx_cond mulr0n.
  by move=> e; rewrite mul0r /= mulmxA F2 mul0mx big1 // => i _; rewrite mxE expr0n.
have [s [t [ops [x [Hx [_ [HP [Hr [Hm Hn]]]]]]]]] := @C164_states R 2 1 0 1 Debug Z0 0 1%:M (fun=> A) (fun=> 1%:M) (fun=> 0) (fun=> C) (fun=> 0) (fun=> 1%:M) (fun=> 0) (fun=> 0) (pd1 R 2) (fun=> pd1 R 2) (fun=> pd1 R 1).
have [Hb Hrun Hc Hg] := Hr 0%N isT; have [EA EB EC ED] := Hm 0%N isT; have [EQ ER _ _] := Hn 0%N isT.
have [Ex EP] := between_keeps Hb Hrun.
exists (t 0%N), (s 1%N), (x 0%N), (x 1%N); split=> //; split.
  by split=> //; [rewrite EP|rewrite /state_at Ex].
have [Hy _] := C164_estimate_is_least_squares Hx HP (pd1 R 2) Hr Hm Hn (fun=> erefl) (fun=> erefl) (fun=> erefl).
by have := Hy 0%N isT; move: (match _ with Ok w => w | _ => 0 end) => y0 E; exists (y0 - C *m (A *m const_mx 1)); rewrite addrC subrK.
Qed.

(** Without any observer that converges there is no bound: a constant quantity that drifts and is not measured has the covariance N + 1 after N steps. *)
Example C165_unobserved (R : rcfType) (N : nat) : exists s, 
  lkf_run Debug (@tv_program R 1 1 0 Z0 0 1%:M (fun=> 1%:M) (fun=> 1%:M) (fun=> 0) (fun=> 0) (fun=> 0) (fun=> 1%:M) (fun=> 0) (fun=> 0) N) (@lkf_init R 1 1 1) = Ok s /\
  kP (z_e s) = Some (N.+1%:R%:M).
Proof.
have [s [X [P [K [E [_ _ _ _ _ _ HP] _ P0 Hk]]]]] := @tv_run R 1 1 0 Debug Z0 0 1%:M (fun=> 1%:M) (fun=> 1%:M) (fun=> 0) (fun=> 0) (fun=> 0) (fun=> 1%:M) (fun=> 0) (fun=> 0) N
  (pd_psd (pd1 R 1)) (fun=> pd_psd (pd1 R 1)) (fun=> pd1 R 1).
exists s; split=> //; rewrite HP; congr Some.
suff H i : (i <= N)%N -> P i = i.+1%:R%:M by exact: H.
elim: i => [|i IH] Hi; first by rewrite P0.
have [KS _ ->] := Hk i Hi; rewrite /joseph mulmx0 subr0 mul1mx trmx1 mulmx1.
have -> : K i = 0 by move: KS; rewrite /k_inoCov trmx0 !mulmx0 addr0 mulmx1.
rewrite !mul0mx addr0 /k_pbar trmx1 mulmx1 mul1mx (IH (ltnW Hi)).
by apply/matrixP=> a b; rewrite !mxE -mulrnDl -mulrS.
Qed.

Print Assumptions C165_error_converges.
Print Assumptions C165_case.
Print Assumptions C165_unobserved.
