(** Properties C154 (covariances possibly singular) and C159: the errors of the filters are bounded by those of their data. *)
From Coq Require Import ZArith List Lia.
From mathcomp Require Import all_ssreflect all_algebra.
From Verif Require Import Base Defs ZDO ZDOProofs ZDOInv MxLib Cholesky Kalman KFilter KFProofs Lipm SpecLipm LipmFilter LipmProofs KalmanLS KalmanLSThms KalmanBound LipmBound PropLipm.
Set Implicit Arguments.
Unset Strict Implicit.
Unset Printing Implicit Defensive.
Import Order.TTheory GRing.Theory Num.Theory.
Open Scope ring_scope.

(** ** C154 *)
(** The covariances Q, R and P are FF', GG' and HH'. The true system is disturbed by F w, measured with errors G v and starts at the distance H z0 of
    the initial estimate, for any sequences w and v. In every direction g, the square of the error is at most the variance reported times the
    sum of the squares of z0, w and v. *)
Theorem C154_error_in_every_direction (R : rcfType) (n m p q r l : nat) md (s s' : zdo 'cV[R]_n 'cV[R]_m 'cV[R]_p (kfe R n n m m p))
    (k0 k : Z) (x x' : 'cV[R]_n) (A : 'M[R]_n) (F : 'M[R]_(n, q)) (H : 'M[R]_(n, l)) (B : 'M[R]_(n, p)) (C : 'M[R]_(m, n)) (D : 'M[R]_(m, p)) (G : 'M[R]_(m, r))
    (z0 : 'cV[R]_l) (xt : Z -> 'cV[R]_n) (w : Z -> 'cV[R]_q) (v : Z -> 'cV[R]_r) (u : Z -> 'cV[R]_p) :
  kA (z_e s) = Some A -> kB (z_e s) = Some B -> kC (z_e s) = Some C -> kD (z_e s) = Some D \/ kD (z_e s) = None /\ D = 0 ->
  kQ (z_e s) = Some (F *m F^T) -> kR (z_e s) = Some (G *m G^T) -> kP (z_e s) = Some (H *m H^T) -> pd (G *m G^T) ->
  state_at s k0 x -> Z.lt k0 k -> covered (@lkf_step R n m p) k0 k s ->
  (forall t, u t = match ia_get md (z_u s) t with Ok v => v | _ => 0 end) ->
  xt k0 = x + H *m z0 -> (forall t, Z.le k0 t -> Z.lt t k -> xt (Z.add t 1) = A *m xt t + B *m u t + F *m w t) ->
  (forall t, Z.lt k0 t -> Z.le t k -> ia_get md (z_y s) t = Ok (C *m xt t + D *m u t + G *m v t)) ->
  z_getEstimatedState (local_step (@lkf_step R n m p)) md k s = Ok (s', x') ->
  exists P', kP (z_e s') = Some P' /\ forall g : 'cV[R]_n, ((g^T *m (xt k - x')) 0 0) ^+ 2 <= qf P' g *
     (sqn z0 + \sum_(i < Z.to_nat (Z.sub k k0)) (sqn (w (Z.add k0 (Z.of_nat i))) + sqn (v (Z.add k0 (Z.of_nat i.+1))))).
Proof.
move=> EA EB EC ED EQ ER EP pR Hx Hk Hc Hu H0 Hxt Hyt.
rewrite (getEstimatedState_spec _ md s k0 k x Hx Hk Hc).
case E : (est_spec _ _ _ _ _ _ _ _) => [[x1 e1]| | |] //; rewrite [obind _ _]/=; case=> Es' Ex'; subst s' x'.
set N := Z.to_nat (Z.sub k k0) in E *; pose time i := Z.add k0 (Z.of_nat i).
have EN : time N = k by rewrite /time /N; lia.
have ES i : time i.+1 = Z.add (time i) 1 by rewrite /time Nat2Z.inj_succ; lia.
have Hi i : (i < N)%N -> Z.le k0 (time i) /\ Z.lt (time i) k by move/ssrnat.ltP; rewrite /time /N; lia.
have := est_within EA EC EQ ER EP (psd_gram F) pR (psd_gram H) E.
move/(_ (fun i => xt (time i)) (fun i => F *m w (time i)) (fun i => G *m v (time i.+1)) (sqn z0) (fun i => sqn (w (time i))) (fun i => sqn (v (time i.+1)))).
case; try by move=> *; exact: sqn_ge0.
- by rewrite /time Z.add_0_r H0 [x + _]addrC addrK; exact: within_factor.
- by move=> i /Hi [h1 h2]; rewrite ES Hxt // Hu EB.
- by move=> i _; exact: within_factor.
- move=> i /Hi [h1 h2]; rewrite -/(time i.+1) Hyt ?ES; [|lia|lia]; rewrite -ES Hu; congr (Ok (_ + _ + _)); case: ED => [->|[-> ->]] //=.
- by move=> i _; exact: within_factor.
- by rewrite EN => P' [EP' _ HP']; exists P'.
Qed.

(** ** C159 *)
(** After any history, with the limits of the bias off, resetWithMeasurements and n samples, each with its update. The true DCM xi follows
    the pendulum with the true ZMP, which differs from the one given by zs * ze; the true bias, constant in the local frame, drifts by (bias drift) * d; the
    measured DCM has the error ds * v; the initial bias has the error ub * be. Then, in every direction, the square of the error of the estimated DCM and
    bias is at most the variance reported by the filter times the sum of the squares of these normalised errors, and the variance of the sum of the DCM and the
    bias is at most ds^2. *)
Theorem C159_lipm_errors : forall (R : rcfType) md (dt om dr ds zs : R) (lim z0 x0 b0 ux ub : 'cV[R]_2) ops (xi z ze bl d v : nat -> 'cV[R]_2) (o : nat -> 'M[R]_2) (wb : bool) (bi u be : 'cV[R]_2) n,
  ds != 0 -> lim_ok lim -> all (@op_lim_ok R) ops ->
  let c := c_run ops (c_new dt om dr ds zs lim) in
  (forall i, c_lim c i 0 <= 0) ->
  (forall i, xi i.+1 = (1 + c_om c * c_dt c) *: xi i - (c_om c * c_dt c) *: (z i + c_zs c *: ze i)) ->
  (forall i, bl i.+1 = bl i + c_bias c *: d i) -> (forall i, orth (o i)) ->
  o 0%N *m bl 0%N = bi + \col_i (u i 0 * be i 0) ->
  exists l l' x b P, l_new md dt om dr ds zs lim z0 x0 b0 ux ub = Ok l /\
    l_run md (ops ++ LReset (xi 0%N + (if wb then o 0%N *m bl 0%N else 0) + c_ds c *: v 0%N) (z 0%N) (o 0%N) wb bi u ::
                samples [seq (xi i + o i *m bl i + c_ds c *: v i, z i, o i) | i <- iota 1 n]) l = Ok l' /\
    l_getDcm md l' = Ok x /\ l_getBias md l' = Ok b /\ l_cov md l' = Ok P /\
    let budget := sqn (v 0%N) + sqn be + \sum_(i < n) (sqn (ze i) + sqn (d i) + sqn (v i.+1)) in
    (forall g h : 'cV[R]_2, ((g^T *m (xi n - x) + h^T *m (o n *m bl n - b)) 0 0) ^+ 2 <= qf P (col_mx g h) * budget) /\
    ((0 < n)%N -> sqn (xi n + o n *m bl n - (x + b)) <= c_ds c ^+ 2 * budget).
Proof.
move=> R md dt om dr ds zs lim z0 x0 b0 ux ub ops xi z ze bl d v o wb bi u be n d0 Hl Ho c Hoff dyn drift ort Hb.
have [l [l0 [[E E1 [sh [x [t [ys [us [P HL]]]]]] Hc] Hl']]] := new_run_ok md dt om dr zs z0 x0 b0 ux ub d0 Hl Ho.
have [[h1 h2 h3 _ h5] [h6 h7 h8]] := Hc; rewrite -/c in h1, h2, h3, h5, h6, h7, h8.
set dcm := xi 0%N + _ + _.
have [l1 [E2 [HL1 [[e1 e2 e3 e4 e5] [e6 e7 e8 e9 e10]]]]] := reset_ok md dcm (z 0%N) (o 0%N) wb bi u HL.
have W0 := within_reset (erefl : dcm = xi 0%N + (if wb then o 0%N *m bl 0%N else 0) + c_ds c *: v 0%N) Hb.
rewrite -h5 in W0.
have c0 : 0 <= sqn (v 0%N) + sqn be by apply: addr_ge0; exact: sqn_ge0.
have Hl1 : forall i, l_lim l1 i 0 <= 0 by rewrite e6 h6.
have [l2 [sh' [x' [t' [ys' [us' [P' [E3 [HL2 [Hf Wn]]]]]]]]]] := samples_within md v dyn drift ort n (b := false) HL1 (fun H : false => False_rect _ (notF H)) (or_introl erefl) Hl1 (etrans e1 h1) (etrans e2 h2) e5 e8 (etrans e9 h8) (etrans e7 h5) c0 W0.
have [Ex [Ec _]] := LI_state md HL2.
exists l, l2, (usubmx x'), (dsubmx x'), P'; split; first exact: E; split.
  by rewrite l_run_app E1; cbn [obind]; rewrite l_run_cons; cbn [l_step]; rewrite E2; cbn [obind]; exact: E3.
rewrite /l_getDcm /l_getBias Ex; cbn [obind]; do 3!split=> //.
rewrite -{1}[x']vsubmxK opp_col_mx add_col_mx add0n in Wn.
have W g h : ((g^T *m (xi n - usubmx x') + h^T *m (o n *m bl n - dsubmx x')) 0 0) ^+ 2 <= qf P' (col_mx g h) * (sqn (v 0%N) + sqn be + \sum_(i < n) (sqn (ze i) + sqn (d i) + sqn (v i.+1))).
  by have := Wn (col_mx g h); rewrite tr_col_mx mul_row_col.
split=> // n0; set e := xi n + _ - _; set bud := _ + \sum_(i < n) _ in W *.
have Ee : e = (xi n - usubmx x') + (o n *m bl n - dsubmx x') by rewrite /e opprD addrACA.
have := W e e; rewrite -mulmxDr -Ee -sqn_tr => H2.
have bud0 : 0 <= bud by rewrite /bud addr_ge0 // sumr_ge0 // => i _; rewrite !addr_ge0 // sqn_ge0.
have H3 : sqn e ^+ 2 <= c_ds c ^+ 2 * sqn e * bud by apply: (le_trans H2); apply: ler_wpmul2r => //; apply: Hf.
case: (lerP (sqn e) 0) => [He|He]; first by apply: (le_trans He); apply: mulr_ge0 => //; apply: sqr_ge0.
by rewrite -(ler_pmul2l He) -expr2 mulrCA mulrA.
Qed.

(** ** Concrete cases *)
(** Two measurements and three inputs of a system whose second and third components are not disturbed and whose initial state is known but for the first
    component: Q and P are singular. *)
Section Case154.
Variable R : rcfType.
Variables (B : 'M[R]_(3, 1)) (C : 'M[R]_(2, 3)) (x : 'cV[R]_3) (u0 u1 u2 z0 w0 w1 : 'cV[R]_1) (v1 v2 : 'cV[R]_2).
Let F : 'M[R]_(3, 1) := delta_mx 0 0.
Let xt0 := x + F *m z0.
Let xt1 := 1%:M *m xt0 + B *m u0 + F *m w0.
Let xt2 := 1%:M *m xt1 + B *m u1 + F *m w1.
Let s : zdo 'cV[R]_3 'cV[R]_2 'cV[R]_1 (kfe R 3 3 2 2 1) :=
  mkZ (Z.of_nat 3) (Z.of_nat 2) (Zpos xH) (im_put x Z0) (mkIarr (Zpos xH) [:: C *m xt1 + 0 *m u1 + 1%:M *m v1; C *m xt2 + 0 *m u2 + 1%:M *m v2]) (mkIarr Z0 [:: u0; u1; u2])
    (mkK (Some 1%:M) (Some C) (Some (F *m F^T)) (Some (1%:M *m 1%:M^T)) (Some (F *m F^T)) (Some B) (Some 0) im_empty im_empty None None).
Example C154_direction_case : exists s' x' P', z_getEstimatedState (local_step (@lkf_step R 3 2 1)) Debug (Z.of_nat 2) s = Ok (s', x') /\ kP (z_e s') = Some P' /\
  forall g : 'cV[R]_3, ((g^T *m (xt2 - x')) 0 0) ^+ 2 <= qf P' g * (sqn z0 + (sqn w0 + sqn v1 + (sqn w1 + sqn v2))).
Proof.
have Hc : covered (@lkf_step R 3 2 1) Z0 (Z.of_nat 2) s by split=> //; split=> //; right; split=> //; left.
have pR : pd ((1%:M : 'M[R]_2) *m 1%:M^T) by rewrite trmx1 mulmx1; exact: pd1.
have [r Er] : exists r, z_getEstimatedState (local_step (@lkf_step R 3 2 1)) Debug (Z.of_nat 2) s = Ok r.
  rewrite (getEstimatedState_spec _ Debug s Z0 (Z.of_nat 2) x erefl erefl Hc).
  have := @est_ex R 3 2 1 Debug (Z.to_nat (Z.sub (Z.of_nat 2) Z0)) (z_e s) Z0 x (ia_get Debug (z_y s)) (ia_get Debug (z_u s))
     1%:M B C (F *m F^T) (1%:M *m 1%:M^T) (F *m F^T) erefl erefl erefl erefl erefl erefl (psd_gram F) pR (psd_gram F).
  case.
  - by case=> [|[|[|i]]] //= _; eexists; reflexivity.
  - by case=> [|[|[|i]]] //= _; eexists; reflexivity.
  - by move=> r ->; eexists; reflexivity.
case: r Er => s' x' Er.
pose xt t := if Z.eqb t Z0 then xt0 else if Z.eqb t (Zpos xH) then xt1 else xt2.
pose w t := if Z.eqb t Z0 then w0 else w1.
pose v t := if Z.eqb t (Zpos xH) then v1 else v2.
pose u t := match ia_get Debug (z_u s) t with Ok v => v | _ => 0 end.
have T t : Z.le Z0 t -> Z.lt t (Z.of_nat 2) -> t = Z0 \/ t = Zpos xH by lia.
have [||P' [EP HP]] := @C154_error_in_every_direction R 3 2 1 1 2 1 Debug s s' Z0 (Z.of_nat 2) x x' 1%:M F F B C 0 1%:M z0 xt w v u
   erefl erefl erefl (or_introl erefl) erefl erefl erefl pR erefl erefl Hc (fun=> erefl) erefl _ _ Er.
- by move=> t h1 h2; case: (T t h1 h2) => ->.
- move=> t h1 h2; have [->|->] : t = Zpos xH \/ t = Zpos (xO xH) by lia.
    by [].
  by [].
exists s', x', P'; split=> //; split=> // g; have := HP g.
by rewrite (_ : Z.to_nat (Z.sub (Z.of_nat 2) Z0) = 2%N) // !big_ord_recl big_ord0 addr0.
Qed.
End Case154.

(** A DCM of 3^i whose ZMP is given with an error of 1, a bias of (1, 1) in the local frame estimated as 0 at first, the DCM measured with an error of 1, the robot
    turning by a quarter at every sample. *)
Example C159_case (R : rcfType) : exists l l' x b P, l_new Debug 1 2%:R 1 1 1 0 0 0 0 0 0 = Ok l /\
    l_run Debug ([::] ++ LReset (v2 (3%:R ^+ 0) 0 + quarter R ^+ 0 *m v2 (1 : R) 1 + 1 *: v2 1 0) (v2 (-1) 0) (quarter R ^+ 0) true 0 (v2 1 1) ::
        samples [seq (v2 (3%:R ^+ i) 0 + quarter R ^+ i *m v2 1 1 + 1 *: v2 1 0, v2 (-1) 0, quarter R ^+ i) | i <- iota 1 5]) l = Ok l' /\
    l_getDcm Debug l' = Ok x /\ l_getBias Debug l' = Ok b /\ l_cov Debug l' = Ok P /\
    (forall g h : 'cV[R]_2, ((g^T *m (v2 (3%:R ^+ 5) 0 - x) + h^T *m (quarter R ^+ 5 *m v2 1 1 - b)) 0 0) ^+ 2 <= qf P (col_mx g h) * 13%:R) /\
    sqn (v2 (3%:R ^+ 5) 0 + quarter R ^+ 5 *m v2 1 1 - (x + b)) <= 13%:R.
Proof.
have [||||||||l [l' [x [b [P [H1 [H2 [H3 [H4 [H5 [H6 H7]]]]]]]]]]] := @C159_lipm_errors R Debug 1 2%:R 1 1 1 0 0 0 0 0 0 [::] (fun i => v2 (3%:R ^+ i) 0) (fun _ => v2 (-1) 0) (fun _ => v2 1 0) (fun _ => v2 1 1) (fun _ => 0)
   (fun _ => v2 1 0) (fun i => quarter R ^+ i) true 0 (v2 1 1) (v2 1 1) 5.
- exact: oner_neq0.
- by rewrite /lim_ok !mxE eqxx.
- by [].
- by move=> i; rewrite mxE.
- move=> i; rewrite /= mulr1 scale1r; apply/colP => j; rewrite !mxE; case: ifP => _; rewrite ?mulr0 ?addr0 ?subr0 ?mulr0 ?addNr ?mulr0 ?subr0 //.
  by rewrite exprS -(natrD _ 1 2).
- by move=> i; rewrite scaler0 addr0.
- elim=> [|i [IH1 IH2]]; first by rewrite expr0; split; rewrite trmx1 mulmx1.
  have [q1 q2] := quarter_orth R.
  rewrite exprS; split; rewrite -mulmxE trmx_mul.
    by rewrite -mulmxA (mulmxA (quarter R)^T) q1 mul1mx.
  by rewrite mulmxA -(mulmxA (quarter R)) IH2 mulmx1.
- rewrite expr0 mul1mx add0r; apply/colP => j; rewrite !mxE; by case: ifP; rewrite mulr1.
have S1 : sqn (v2 1 0 : 'cV[R]_2) = 1 by rewrite /sqn !big_ord_recl big_ord0 !mxE /= expr1n expr0n !addr0.
have S2 : sqn (v2 1 1 : 'cV[R]_2) = 2%:R by rewrite /sqn !big_ord_recl big_ord0 !mxE /= !expr1n addr0.
have S0 : sqn (0 : 'cV[R]_2) = 0 by rewrite /sqn !big_ord_recl big_ord0 !mxE /= !expr0n !addr0.
exists l, l', x, b, P; do 5!(split; first by []).
have EB : 1 + 2%:R + \sum_(i < 5) (1 + 0 + 1) = 13%:R :> R.
  by rewrite addr0 sumr_const card_ord -(natrD _ 1 1) -mulrnA -(natrD _ 1 2) -natrD.
rewrite S1 S2 S0 {}EB in H6 H7; split=> //.
by have := H7 isT; rewrite expr1n mul1r.
Qed.

Print Assumptions C154_error_in_every_direction.
Print Assumptions C159_lipm_errors.
