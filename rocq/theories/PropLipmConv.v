(** C166: the LIPM estimators converge. *)
From Coq Require Import ZArith List Lia.
From mathcomp Require Import all_ssreflect all_algebra.
From Verif Require Import Base Defs ZDO MxLib Cholesky Kalman KFilter KFProofs Lipm SpecLipm LipmFilter LipmProofs KalmanLS KalmanLSThms KalmanBound KalmanConv LipmBound LipmUnidim LipmConv LipmUReset PropLipm.
Set Implicit Arguments.
Unset Strict Implicit.
Unset Printing Implicit Defensive.
Import Order.TTheory GRing.Theory Num.Theory.
Open Scope ring_scope.

(** ** C166 *)
(** There are constants that depend on the parameters only, such that after any history, with the limits of the bias off, a reset with any measurement and
    any initial bias, and n samples, each with its update and any orientation: the true DCM xi follows the pendulum with the true ZMP, which differs from the
    one given by ze; the true bias bl, in the local frame, drifts by d; the measured DCM has the error v; ze, d and v have a squared norm of at most q. Then
    the squared error of the DCM and the bias is at most c1 rho^n times that after the reset, plus c2 q, and the covariance reported is at most c3. *)
Theorem C166_lipm_converges : forall (R : rcfType) (om dt zs bs ds : R) (u : 'cV[R]_2) (wb : bool),
  0 < om * dt -> zs != 0 -> bs != 0 -> ds != 0 -> (forall i, u i 0 != 0) ->
  exists rho c1 c2 c3 : R, 0 <= rho /\ rho < 1 /\
  forall md (dt0 om0 dr0 ds0 zs0 : R) (lim z0 x0 b0 ux ub : 'cV[R]_2) ops (xi z ze bl d v : nat -> 'cV[R]_2) (o : nat -> 'M[R]_2) (dcm bi : 'cV[R]_2) n q,
  ds0 != 0 -> lim_ok lim -> all (@op_lim_ok R) ops ->
  let c := c_run ops (c_new dt0 om0 dr0 ds0 zs0 lim) in
  c_om c = om -> c_dt c = dt -> c_zs c = zs -> c_bias c = bs -> c_ds c = ds -> (forall i, c_lim c i 0 <= 0) ->
  (forall i, xi i.+1 = (1 + om * dt) *: xi i - (om * dt) *: (z i + ze i)) ->
  (forall i, bl i.+1 = bl i + d i) -> (forall i, orth (o i)) ->
  0 <= q -> (forall i, sqn (ze i) <= q) -> (forall i, sqn (d i) <= q) -> (forall i, sqn (v i) <= q) ->
  exists l l' x b P, l_new md dt0 om0 dr0 ds0 zs0 lim z0 x0 b0 ux ub = Ok l /\
    l_run md (ops ++ LReset dcm (z 0%N) (o 0%N) wb bi u :: samples [seq (xi i + o i *m bl i + v i, z i, o i) | i <- iota 1 n]) l = Ok l' /\
    l_getDcm md l' = Ok x /\ l_getBias md l' = Ok b /\ l_cov md l' = Ok P /\
    sqn (xi n - x) + sqn (o n *m bl n - b) <=
      c1 * rho ^+ n * (sqn (xi 0%N - (if wb then dcm - bi else dcm)) + sqn (o 0%N *m bl 0%N - bi)) + c2 * q /\
    forall g, qf P g <= c3 * sqn g.
Proof.
move=> R om dt zs bs ds u wb od zs0 bs0 ds0 u0.
have a1 : 1 < 1 + om * dt by rewrite ltr_addl.
pose Q : 'M[R]_(2 + 2) := block_mx (dblsq 2 (om * dt * zs)) 0 0 (dblsq 2 bs).
have pQ : pd Q by apply: pd_lip => //; rewrite mulf_neq0 // gt_eqF.
have pR : pd (dblsq 2 ds) by apply: pd_dblsq.
pose P0 := if wb then lipPbias (dblsq 2 ds) (sqdiag u) else block_mx (dblsq 2 ds) 0 0 (sqdiag u).
have pP : pd P0 by rewrite /P0; case: (wb); [apply: pd_bias|apply: pd_block] => //; exact: pd_sqdiag.
have [rho [c1 [c2 [c3 [r0 [r1 H]]]]]] := lip_conv a1 pQ pR pP.
exists rho, c1, (c2 * ((om * dt) ^+ 2 + 1)), c3; split=> //; split=> //.
move=> md dt0 om0 dr0 dsi zsi lim z0 x0 b0 ux ub ops xi z ze bl d v o dcm bi n q dsi0 Hlim Ho c Eom Edt Ezs Ebs Eds Hoff dyn drift ort q0 Hze Hd Hv.
have [l [l0 [[E E1 [sh [x [t [ys [us [P HL]]]]]] Hc] Hl']]] := new_run_ok md dt0 om0 dr0 zsi z0 x0 b0 ux ub dsi0 Hlim Ho.
have [[h1 h2 h3 _ h5] [h6 h7 h8]] := Hc; rewrite -/c in h1, h2, h3, h5, h6, h7, h8.
rewrite Eom Edt Ezs Ebs Eds in h1 h2 h5 h8.
have [l1 [E2 [HL1 [[e1 e2 e3 e4 e5] [e6 e7 e8 e9 e10]]]]] := reset_ok md dcm (z 0%N) (o 0%N) wb bi u HL.
rewrite h5 -/P0 in HL1.
have Hl1 : forall i, l_lim l1 i 0 <= 0 by rewrite e6 h6.
have [l2 [sh2 [t2 [ys2 [us2 [X [Ps [E3 EX EPs Hst HL2]]]]]]]] := samples_steps md (fun i => xi i + o i *m bl i + v i) n HL1 (or_introl erefl) Hl1 (etrans e1 h1) (etrans e2 h2) e5 e8 (etrans e9 h8) (etrans e7 h5).
have [Ex [Ec _]] := LI_state md HL2.
exists l, l2, (usubmx (X n)), (dsubmx (X n)), (Ps n); split; first exact: E; split.
  by rewrite l_run_app E1; cbn [obind]; rewrite l_run_cons; cbn [l_step]; rewrite E2; cbn [obind]; exact: E3.
rewrite /l_getDcm /l_getBias Ex; cbn [obind]; do 3!split=> //.
pose q' := ((om * dt) ^+ 2 + 1) * q.
have k0 : 0 <= (om * dt) ^+ 2 by exact: sqr_ge0.
have q'0 : 0 <= q' by apply: mulr_ge0 => //; apply: addr_ge0 => //; exact: ler01.
have := H _ (lipB 2 om dt) n X (fun i => col_mx (xi i) (o i *m bl i)) (fun i => col_mx (- (om * dt) *: ze i) (o i.+1 *m d i)) Ps z
  (fun i => xi i.+1 + o i.+1 *m bl i.+1 + v i.+1) (fun i => v i.+1) (fun i => o i.+1 *m (o i)^T) q' q'0 EPs.
case.
- by move=> i; have [p1 p2] := ort i; have [p3 p4] := ort i.+1; split; rewrite trmx_mul trmxK -mulmxA; [rewrite (mulmxA (o i.+1)^T) p3 mul1mx|rewrite (mulmxA (o i)^T) p1 mul1mx].
- by move=> i Hi; have := Hst i Hi; rewrite !add0n.
- move=> i _; rewrite /An /lipB mul_block_col mul_col_mx !mul0mx addr0 add0r !add_col_mx addr0; congr col_mx.
    by rewrite dyn /dbl !mul_scalar_mx mulNr scalerDr !scaleNr opprD addrA.
  by rewrite mulmxA -(mulmxA (o i.+1)) (ort i).1 mulmx1 drift mulmxDr.
- by move=> i _; rewrite /lipC mul_row_col !mul1mx.
- move=> i _; rewrite sqn_col sqnZ sqrrN sqn_orth; last exact: ort.
  by rewrite /q' mulrDl mul1r; apply: ler_add => //; apply: ler_wpmul2l.
- by move=> i _; apply: (le_trans (Hv _)); rewrite /q' mulrDl mul1r ler_addr; apply: mulr_ge0.
move=> HE HP; split=> //.
move: HE; rewrite EX -{1}[X n]vsubmxK !opp_col_mx !add_col_mx sqn_col /q' mulrA.
by case: (wb); rewrite ?opp_col_mx ?add_col_mx sqn_col.
Qed.

(** The unidimensional estimator, from its construction. *)
Theorem C166_unidim_converges : forall (R : rcfType) (om dt zs dr ds ux ub : R),
  0 < om * dt -> zs != 0 -> dr != 0 -> ds != 0 -> ux != 0 -> ub != 0 ->
  exists rho c1 c2 c3 : R, 0 <= rho /\ rho < 1 /\
  forall md (x0 b0 : R) (xi z ze b d v : nat -> R) n q,
  (forall i, xi i.+1 = (1 + om * dt) * xi i - om * dt * (z i + ze i)) ->
  (forall i, b i.+1 = b i + d i) ->
  0 <= q -> (forall i, ze i ^+ 2 <= q) -> (forall i, d i ^+ 2 <= q) -> (forall i, v i ^+ 2 <= q) ->
  exists l l' x bh P, u_new md dt om dr x0 (z 0%N) b0 ds zs ux ub = Ok l /\
    u_run md (usamples [seq (xi i + b i + v i, z i) | i <- iota 1 n]) l = Ok l' /\
    u_getDcm md l' = Ok x /\ u_getBias md l' = Ok bh /\ u_cov md l' = Ok P /\
    (xi n - x) ^+ 2 + (b n - bh) ^+ 2 <= c1 * rho ^+ n * ((xi 0%N - x0) ^+ 2 + (b 0%N - b0) ^+ 2) + c2 * q /\
    forall g, qf P g <= c3 * sqn g.
Proof.
move=> R om dt zs dr ds ux ub od zs0 dr0 ds0 ux0 ub0.
have a1 : 1 < 1 + om * dt by rewrite ltr_addl.
have dt0 : dt != 0 by apply: contraTneq od => ->; rewrite mulr0 ltxx.
pose Q : 'M[R]_(1 + 1) := block_mx (dblsq 1 (om * dt * zs)) 0 0 (dblsq 1 (dr * dt)).
have pQ : pd Q by apply: pd_lip; rewrite mulf_neq0 // gt_eqF.
have pR : pd (dblsq 1 ds) by apply: pd_dblsq.
have pP : pd (block_mx (dblsq 1 ux) 0 0 (dblsq 1 ub)) by apply: pd_lip.
have [rho [c1 [c2 [c3 [r0 [r1 H]]]]]] := lip_conv a1 pQ pR pP.
exists rho, c1, (c2 * ((om * dt) ^+ 2 + 1)), c3; split=> //; split=> //.
move=> md x0 b0 xi z ze b d v n q dyn drift q0 Hze Hd Hv.
have [l [E [HU [e1 e2 e3 e4 e5]]]] := @u_new_ok R md dt om dr x0 (z 0%N) b0 ds zs ux ub ds0.
have [l2 [sh2 [t2 [ys2 [us2 [X [Ps [E3 EX EPs Hst HL2]]]]]]]] := usamples_steps md (fun i => xi i + b i + v i) n HU (or_introl erefl) e1 e2 e4 e5.
have [Ex [Ec _]] := UI_state md HL2.
exists l, l2, (usubmx (X n) 0 0), (dsubmx (X n) 0 0), (Ps n); split; first exact: E; split; first exact: E3.
rewrite /u_getDcm /u_getBias Ex; cbn [obind]; do 3!split=> //.
pose q' := ((om * dt) ^+ 2 + 1) * q.
have k0 : 0 <= (om * dt) ^+ 2 by exact: sqr_ge0.
have q'0 : 0 <= q' by apply: mulr_ge0 => //; apply: addr_ge0 => //; exact: ler01.
have Sc (x : R) : sqn (sc x) = x ^+ 2 by rewrite /sqn big_ord1 /sc !mxE eqxx mulr1n.
have := H _ (lipB 1 om dt) n X (fun i => col_mx (sc (xi i)) (sc (b i))) (fun i => col_mx (sc (- (om * dt) * ze i)) (sc (d i))) Ps (fun i => sc (z i))
  (fun i => sc (xi i.+1 + b i.+1 + v i.+1)) (fun i => sc (v i.+1)) (fun=> 1%:M) q' q'0 EPs.
case.
- by move=> i; split; rewrite trmx1 mulmx1.
- by move=> i Hi; have := Hst i Hi; rewrite !add0n.
- move=> i _; rewrite /An /lipB mul_block_col mul_col_mx !mul0mx addr0 add0r mul1mx !add_col_mx addr0 /sc /dbl -!scalar_mxM -!raddfD /=; congr (col_mx _%:M _%:M) => //.
  by rewrite dyn !mulNr mulrDr opprD addrA.
- by move=> i _; rewrite /lipC mul_row_col !mul1mx /sc -!raddfD.
- move=> i _; rewrite sqn_col !Sc exprMn sqrrN.
  by rewrite /q' mulrDl mul1r; apply: ler_add => //; apply: ler_wpmul2l.
- by move=> i _; rewrite Sc; apply: (le_trans (Hv _)); rewrite /q' mulrDl mul1r ler_addr; apply: mulr_ge0.
move=> HE HP; split=> //.
have S1 (z1 : R) (w1 : 'cV[R]_1) : sqn (sc z1 - w1) = (z1 - w1 0 0) ^+ 2 by rewrite /sqn big_ord1 /sc !mxE eqxx mulr1n.
move: HE; rewrite EX -{1}[X n]vsubmxK !opp_col_mx !add_col_mx !sqn_col /q' mulrA !S1.
by rewrite /sc !mxE !eqxx !mulr1n.
Qed.

(** The same after any calls of the unidimensional estimator (the configuration is changed at will, the bias and the DCM are set, samples are processed) and a
    reset with any measurement and any initial bias, counting from the reset. *)
Theorem C166_unidim_reset_converges : forall (R : rcfType) (om dt zs dr ds ub : R) (wb : bool),
  0 < om * dt -> zs != 0 -> dr != 0 -> ds != 0 -> ub != 0 ->
  exists rho c1 c2 c3 : R, 0 <= rho /\ rho < 1 /\
  forall md (dt0 om0 dr0 z0 ds0 zs0 : R) (x0 b0 ux0 ub0 : R) (ops : list (a_op R)) (i : 'I_2) l l0 (dcm bi : R) (xi z ze b d v : nat -> R) n q,
  ds0 != 0 -> u_new md dt0 om0 dr0 x0 z0 b0 ds0 zs0 ux0 ub0 = Ok l ->
  u_run md (List.flat_map (@axis R i) ops) l = Ok l0 -> u_om l0 = om -> u_dt l0 = dt ->
  (forall k, xi k.+1 = (1 + om * dt) * xi k - om * dt * (z k + ze k)) ->
  (forall k, b k.+1 = b k + d k) ->
  0 <= q -> (forall k, ze k ^+ 2 <= q) -> (forall k, d k ^+ 2 <= q) -> (forall k, v k ^+ 2 <= q) ->
  exists l' x bh P,
    u_run md (UReset dcm (z 0%N) wb dr ds zs bi ub :: usamples [seq (xi k + b k + v k, z k) | k <- iota 1 n]) l0 = Ok l' /\
    u_getDcm md l' = Ok x /\ u_getBias md l' = Ok bh /\ u_cov md l' = Ok P /\
    (xi n - x) ^+ 2 + (b n - bh) ^+ 2 <=
      c1 * rho ^+ n * ((xi 0%N - (if wb then dcm - bi else dcm)) ^+ 2 + (b 0%N - bi) ^+ 2) + c2 * q /\
    forall g, qf P g <= c3 * sqn g.
Proof.
move=> R om dt zs dr ds ub wb od zs0 dr0 ds0 ub0.
have a1 : 1 < 1 + om * dt by rewrite ltr_addl.
have dt0 : dt != 0 by apply: contraTneq od => ->; rewrite mulr0 ltxx.
pose Q : 'M[R]_(1 + 1) := block_mx (dblsq 1 (om * dt * zs)) 0 0 (dblsq 1 (dr * dt)).
have pQ : pd Q by apply: pd_lip; rewrite mulf_neq0 // gt_eqF.
have pR : pd (dblsq 1 ds) by apply: pd_dblsq.
pose P0 := if wb then lipPbias (dblsq 1 ds) (dblsq 1 ub) else block_mx (dblsq 1 ds) 0 0 (dblsq 1 ub).
have pP : pd P0 by rewrite /P0; case: (wb); [apply: pd_bias; exact: pd_dblsq|exact: pd_lip].
have [rho [c1 [c2 [c3 [r0 [r1 H]]]]]] := lip_conv a1 pQ pR pP.
exists rho, c1, (c2 * ((om * dt) ^+ 2 + 1)), c3; split=> //; split=> //.
move=> md dti omi dri zi dsi zsi x0 b0 ux0 ubi ops j li l dcm bi xi z ze b d v n q dsi0 Enew Erun Eom Edt dyn drift q0 Hze Hd Hv.
have [lp [wp [_ Ew HJ]]] := @J_new R j md dti omi dri dsi zsi 0 (\col__ zi) (\col__ x0) (\col__ b0) (\col__ ux0) (\col__ ubi) dsi0 ltac:(by rewrite !mxE ltxx).
rewrite !mxE Enew in Ew; case: Ew => Ew; rewrite -Ew in HJ.
have [lp' [wp' [_ Ew' [sh [? [t [? [? [? [w [dso [ys [us [Pu [[_ HUo _ _] _]]]]]]]]]]]]]]] := J_run md ops HJ.
rewrite Erun in Ew'; case: Ew' => Ew'; rewrite -Ew' in HUo.
have [l1 [E [HU [e1 e2 e3 e4 e5]]]] := u_reset_ok md dcm (z 0%N) wb dr zs bi ub HUo ds0.
rewrite Edt -/P0 in HU e2; rewrite Eom in e1.
have [l2 [sh2 [t2 [ys2 [us2 [X [Ps [E3 EX EPs Hst HL2]]]]]]]] := usamples_steps md (fun i => xi i + b i + v i) n HU (or_introl erefl) e1 e2 e4 e5.
have [Ex [Ec _]] := UI_state md HL2.
exists l2, (usubmx (X n) 0 0), (dsubmx (X n) 0 0), (Ps n); split.
  by rewrite -E3 /u_run; cbn [orun u_step]; rewrite E; cbn [obind].
rewrite /u_getDcm /u_getBias Ex; cbn [obind]; do 3!split=> //.
pose q' := ((om * dt) ^+ 2 + 1) * q.
have k0 : 0 <= (om * dt) ^+ 2 by exact: sqr_ge0.
have q'0 : 0 <= q' by apply: mulr_ge0 => //; apply: addr_ge0 => //; exact: ler01.
have Sc (x : R) : sqn (sc x) = x ^+ 2 by rewrite /sqn big_ord1 /sc !mxE eqxx mulr1n.
have := H _ (lipB 1 om dt) n X (fun i => col_mx (sc (xi i)) (sc (b i))) (fun i => col_mx (sc (- (om * dt) * ze i)) (sc (d i))) Ps (fun i => sc (z i))
  (fun i => sc (xi i.+1 + b i.+1 + v i.+1)) (fun i => sc (v i.+1)) (fun=> 1%:M) q' q'0 EPs.
case.
- by move=> i; split; rewrite trmx1 mulmx1.
- by move=> i Hi; have := Hst i Hi; rewrite !add0n.
- move=> i _; rewrite /An /lipB mul_block_col mul_col_mx !mul0mx addr0 add0r mul1mx !add_col_mx addr0 /sc /dbl -!scalar_mxM -!raddfD /=; congr (col_mx _%:M _%:M) => //.
  by rewrite dyn !mulNr mulrDr opprD addrA.
- by move=> i _; rewrite /lipC mul_row_col !mul1mx /sc -!raddfD.
- move=> i _; rewrite sqn_col !Sc exprMn sqrrN.
  by rewrite /q' mulrDl mul1r; apply: ler_add => //; apply: ler_wpmul2l.
- by move=> i _; rewrite Sc; apply: (le_trans (Hv _)); rewrite /q' mulrDl mul1r ler_addr; apply: mulr_ge0.
move=> HE HP; split=> //.
have S1 (z1 : R) (w1 : 'cV[R]_1) : sqn (sc z1 - w1) = (z1 - w1 0 0) ^+ 2 by rewrite /sqn big_ord1 /sc !mxE eqxx mulr1n.
have -> : (xi 0%N - (if wb then dcm - bi else dcm)) ^+ 2 + (b 0%N - bi) ^+ 2 = sqn (col_mx (sc (xi 0%N)) (sc (b 0%N)) - X 0%N).
  by rewrite EX; case: (wb); rewrite opp_col_mx add_col_mx sqn_col !S1 /sc !mxE !eqxx !mulr1n.
move: HE; rewrite -{1}[X n]vsubmxK !opp_col_mx !add_col_mx !sqn_col /q' mulrA !S1 //.
Qed.

(** A case: at rest above a ZMP at the origin while the bias of the measured DCM is 1 and the robot turns by a quarter at each sample; the estimator starts
    with no bias. Without noise the error tends to 0. *)
Example C166_case (R : rcfType) : exists rho c1 : R, 0 <= rho /\ rho < 1 /\ forall n, exists l l' x b,
  l_new Debug (1 : R) 2%:R 1 1 1 0 0 0 0 0 0 = Ok l /\
  l_run Debug (LReset 0 0 1%:M false 0 (v2 1 1) :: samples [seq (quarter R ^+ i *m v2 1 1, 0, quarter R ^+ i) | i <- iota 1 n]) l = Ok l' /\
  l_getDcm Debug l' = Ok x /\ l_getBias Debug l' = Ok b /\
  sqn x + sqn (quarter R ^+ n *m v2 1 1 - b) <= c1 * rho ^+ n.
Proof.
have Hu i : (v2 1 1 : 'cV[R]_2) i 0 != 0 by rewrite mxE; case: ifP; rewrite oner_neq0.
have o0 : 0 < 2%:R * 1 :> R by rewrite mulr1 ltr0n.
have Z0 : sqn (0 : 'cV[R]_2) = 0 by rewrite /sqn big1 // => i _; rewrite mxE expr0n.
have [rho [c1 [c2 [c3 [r0 [r1 H]]]]]] := @C166_lipm_converges R 2%:R 1 1 1 1 (v2 1 1) false o0 (oner_neq0 R) (oner_neq0 R) (oner_neq0 R) Hu.
exists rho, (c1 * sqn (v2 1 1 : 'cV[R]_2)); split=> //; split=> // n.
have [||||||||||||||||l [l' [x [b [P [H1 [H2 [H3 [H4 [H5 [H6 _]]]]]]]]]]] := H Debug 1 2%:R 1 1 1 0 0 0 0 0 0 [::] (fun=> 0) (fun=> 0) (fun=> 0) (fun=> v2 1 1) (fun=> 0) (fun=> 0) (fun i => quarter R ^+ i) 0 0 n 0.
all: try by [].
all: try by move=> *; rewrite ?Z0 ?lexx ?mxE ?addr0 ?scaler0 ?subr0.
all: try exact: oner_neq0.
- by rewrite /lim_ok !mxE eqxx.
- by rewrite /c_bias /= ?mulr1.
- elim=> [|i [IH1 IH2]]; first by rewrite expr0; split; rewrite trmx1 mulmx1.
  have [q1 q2] := quarter_orth R.
  rewrite exprS; split; rewrite -mulmxE trmx_mul.
    by rewrite -mulmxA (mulmxA (quarter R)^T) q1 mul1mx.
  by rewrite mulmxA -(mulmxA (quarter R)) IH2 mulmx1.
exists l, l', x, b; split=> //; split.
  rewrite -H2; congr l_run; rewrite /=; congr (_ :: samples _); apply: eq_map => i.
  by rewrite add0r addr0.
split=> //; split=> //; move: H6.
by rewrite sub0r sqnN subrr Z0 add0r expr0 mul1mx subr0 mulr0 addr0 mulrAC.
Qed.

(** A case of the third theorem: an estimator that has processed a sample with a false bias is reset. *)
Example C166_unidim_case (R : rcfType) : exists rho c1 : R, 0 <= rho /\ rho < 1 /\ forall n, exists l l0 l' x b,
  u_new Debug (1 : R) 2%:R 1 0 0 7%:R 1 1 1 1 = Ok l /\ u_run Debug [:: UInputs 3%:R 0; UUpdate R] l = Ok l0 /\
  u_run Debug (UReset 1 0 false 1 1 1 0 1 :: usamples [seq (1, 0) | k <- iota 1 n]) l0 = Ok l' /\ u_getDcm Debug l' = Ok x /\ u_getBias Debug l' = Ok b /\
  x ^+ 2 + (1 - b) ^+ 2 <= c1 * rho ^+ n.
Proof.
have o0 : 0 < 2%:R * 1 :> R by rewrite mulr1 ltr0n.
have n1 := oner_neq0 R.
have [rho [c1 [c2 [c3 [r0 [r1 H]]]]]] := @C166_unidim_reset_converges R 2%:R 1 1 1 1 1 false o0 n1 n1 n1 n1.
exists rho, (c1 * 2%:R); split; first exact: r0; split; first exact: r1; move=> n.
have [l [E [HU [e1 e2 e3 e4 e5]]]] := @u_new_ok R Debug 1 2%:R 1 0 0 7%:R 1 1 1 1 n1.
have [l0 [x0 [P0 [E0 [_ [_ [f1 f2 f3 f4 f5]]]]]]] := u_sample_ok Debug 3%:R 0 HU (or_introl erefl).
have Z2 : (0 : R) ^+ 2 <= 0 by rewrite expr0n lexx.
have Er : u_run Debug (List.flat_map (@axis R 0) [:: ASample (\col__ 3%:R) 0]) l = Ok l0 by rewrite -E0 /= !mxE.
have [||l' [x [b [P [H1 [H2 [H3 [_ [H4 _]]]]]]]]] := H Debug 1 2%:R 1 0 1 1 0 7%:R 1 1 _ 0 l l0 1 0 (fun=> 0) (fun=> 0) (fun=> 0) (fun=> 1) (fun=> 0) (fun=> 0) n 0 n1 E Er (etrans f1 e1) (etrans f2 e2) _ _ (lexx 0) (fun=> Z2) (fun=> Z2) (fun=> Z2).
- by move=> k; rewrite mulr0 addr0 mulr0 subr0.
- by move=> k; rewrite addr0.
exists l, l0, l', x, b; split; first exact: E; split; first exact: E0; split.
  by rewrite -H1 add0r addr0.
split; first exact: H2; split; first exact: H3; move: H4.
by rewrite !sub0r !sqrrN subr0 !expr1n mulr0 addr0 mulrAC.
Qed.

Print Assumptions C166_lipm_converges.
Print Assumptions C166_unidim_converges.
Print Assumptions C166_unidim_reset_converges.
Print Assumptions C166_case.
Print Assumptions C166_unidim_case.
