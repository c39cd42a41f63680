(** C159: the errors of the unidimensional LIPM estimator are bounded by those of its data. *)
From Coq Require Import ZArith List Lia.
From mathcomp Require Import all_ssreflect all_algebra.
From Verif Require Import Base Defs ZDO MxLib Cholesky Kalman KFilter KFProofs Lipm SpecLipm LipmFilter LipmProofs KalmanLS KalmanLSThms KalmanBound KalmanConv LipmBound LipmUnidim LipmConv PropLipm.
Set Implicit Arguments.
Unset Strict Implicit.
Unset Printing Implicit Defensive.
Import Order.TTheory GRing.Theory Num.Theory.
Open Scope ring_scope.

(** ** C159 *)
(** The true DCM xi follows the pendulum with a ZMP that differs from the one given by zs ze, the true bias b drifts by (dr dt) d, the measured DCM has the
    error ds v, and the estimator starts with errors ux ex and ub eb. After n samples, each with its update, the squared error in any direction (g, h) is at
    most the variance reported for that direction times the sum of the squares of the normalised errors, and the estimated DCM plus bias is as close to the
    true one as a measurement. *)
Theorem C159_unidim_errors : forall (R : rcfType) md (om dt zs dr ds ux ub x0 b0 : R) (xi z ze b d v : nat -> R) (ex eb : R) n,
  ds != 0 ->
  (forall i, xi i.+1 = (1 + om * dt) * xi i - om * dt * (z i + zs * ze i)) ->
  (forall i, b i.+1 = b i + dr * dt * d i) ->
  xi 0%N = x0 + ux * ex -> b 0%N = b0 + ub * eb ->
  exists l l' x bh P, u_new md dt om dr x0 (z 0%N) b0 ds zs ux ub = Ok l /\
    u_run md (usamples [seq (xi i + b i + ds * v i, z i) | i <- iota 1 n]) l = Ok l' /\
    u_getDcm md l' = Ok x /\ u_getBias md l' = Ok bh /\ u_cov md l' = Ok P /\
    let budget := ex ^+ 2 + eb ^+ 2 + \sum_(i < n) (ze i ^+ 2 + d i ^+ 2 + v i.+1 ^+ 2) in
    (forall g h, (g * (xi n - x) + h * (b n - bh)) ^+ 2 <= qf P (col_mx g%:M h%:M : 'cV_(1 + 1)) * budget) /\
    ((0 < n)%N -> (xi n + b n - (x + bh)) ^+ 2 <= ds ^+ 2 * budget).
Proof.
move=> R md om dt zs dr ds ux ub x0 b0 xi z ze b d v ex eb n ds0 dyn drift Ex0 Eb0.
have [l [E [HU [e1 e2 e3 e4 e5]]]] := @u_new_ok R md dt om dr x0 (z 0%N) b0 ds zs ux ub ds0.
have [l2 [sh2 [t2 [ys2 [us2 [X [Ps [E3 EX EPs Hst HL2]]]]]]]] := usamples_steps md (fun i => xi i + b i + ds * v i) n HU (or_introl erefl) e1 e2 e4 e5.
have [Ex [Ec _]] := UI_state md HL2.
exists l, l2, (usubmx (X n) 0 0), (dsubmx (X n) 0 0), (Ps n); split; first exact: E; split; first exact: E3.
rewrite /u_getDcm /u_getBias Ex; cbn [obind]; do 3!split=> //.
have Sc (y : R) : sqn (sc y) = y ^+ 2 by rewrite /sqn big_ord1 /sc !mxE eqxx mulr1n.
have sZ (a y : R) : a *: sc y = sc (a * y) by rewrite /sc scale_scalar_mx.
pose Q : 'M[R]_(1 + 1) := block_mx (dblsq 1 (om * dt * zs)) 0 0 (dblsq 1 (dr * dt)).
have pQ : psd Q by exact: psd_lipQ.
have pR : psd (dblsq 1 ds : 'M[R]_1) by exact: psd_dblsq.
have pR' : pd (dblsq 1 ds : 'M[R]_1) by exact: pd_dblsq.
have pPs i : (i <= n)%N -> psd (Ps i).
  case: i => [|i] Hi; last by have [K [_ ?]] := Hst i Hi.
  by rewrite EPs; apply: psd_block; exact: psd_dblsq.
pose xt i : 'cV[R]_(1 + 1) := col_mx (sc (xi i)) (sc (b i)).
pose bud k := ex ^+ 2 + eb ^+ 2 + \sum_(i < k) (ze i ^+ 2 + d i ^+ 2 + v i.+1 ^+ 2).
have bud0 k : 0 <= bud k by rewrite /bud !addr_ge0 ?sqr_ge0 // sumr_ge0 // => i _; rewrite !addr_ge0 // sqr_ge0.
have W k : (k <= n)%N -> within (Ps k) (xt k - X k) (bud k).
  elim: k => [_|k IH Hk].
    rewrite /bud big_ord0 addr0 EPs EX /xt opp_col_mx add_col_mx Ex0 Eb0 /sc !raddfD /= [x0%:M + _]addrC addrK [b0%:M + _]addrC addrK -!/(sc _) -!sZ -!Sc.
    by apply: within_block; try exact: sqn_ge0; try exact: psd_dblsq; exact: within_dblsq.
  have [K [[_ _ -> ->] _]] := Hst k Hk; rewrite /= !add0n.
  set A := An _ _.
  have Hw : within Q (col_mx ((om * dt * zs) *: sc (- ze k)) ((dr * dt) *: sc (d k))) (ze k ^+ 2 + d k ^+ 2).
    rewrite -sqrrN -!Sc; apply: within_block; try exact: sqn_ge0; try exact: psd_dblsq; exact: within_dblsq.
  have := within_step A (lipC R 1) K (lipB 1 om dt *m sc (z k)) 0 (pPs k (ltnW Hk)) pQ pR (bud0 k) (addr_ge0 (sqr_ge0 _) (sqr_ge0 _)) (sqn_ge0 _) (IH (ltnW Hk)) Hw (within_dblsq ds (sc (v k.+1))).
  have -> : A *m xt k + lipB 1 om dt *m sc (z k) + col_mx ((om * dt * zs) *: sc (- ze k)) ((dr * dt) *: sc (d k)) = xt k.+1.
    rewrite /A /xt /An /lipB mul_block_col mul_col_mx !mul0mx addr0 add0r mul1mx !add_col_mx addr0 !sZ /sc /dbl -!scalar_mxM -!raddfD /=; congr (col_mx _%:M _%:M); last by rewrite drift.
    by rewrite dyn mulrDr opprD addrA mulrN (mulrA (om * dt)) !mulNr.
  have -> : k_pbar A Q (Ps k) = A *m Ps k *m A^T + Q by rewrite /k_pbar addrC mulmxA.
  have -> : bud k.+1 = bud k + (ze k ^+ 2 + d k ^+ 2) + sqn (sc (v k.+1)) by rewrite /bud big_ord_recr /= Sc !addrA.
  by rewrite /= !addr0 {1}/lipC mul_row_col !mul1mx sZ /sc -!raddfD.
have WW (g h : R) : (g * (xi n - usubmx (X n) 0 0) + h * (b n - dsubmx (X n) 0 0)) ^+ 2 <= qf (Ps n) (col_mx g%:M h%:M : 'cV_(1 + 1)) * bud n.
  have := W n (leqnn n) (col_mx g%:M h%:M).
  rewrite -{1}[X n]vsubmxK /xt opp_col_mx add_col_mx tr_col_mx mul_row_col !tr_scalar_mx !mul_scalar_mx.
  by rewrite /sc !mxE !eqxx !mulr1n.
split=> // n0; set e := xi n + b n - _.
have Ee : e = (xi n - usubmx (X n) 0 0) + (b n - dsubmx (X n) 0 0) by rewrite /e opprD addrACA.
have := WW 1 1; rewrite !mul1r -Ee => H2; apply: (le_trans H2); apply: ler_wpmul2r => //.
have [n' En] : exists n', n = n'.+1 by exists n.-1; rewrite prednK.
have Hn : (n' < n)%N by rewrite En.
have Hg : good (mkM (An (1 + om * dt) 1%:M) (lipB 1 om dt) (lipC R 1) Q (dblsq 1 ds)) by split.
have := step_fit Hg (pPs n' (ltnW Hn)) (Hst n' Hn) 1%:M; rewrite -En /= qf_cong /lipC tr_row_mx trmx1 mul_col_mx !mul1mx.
by rewrite /dblsq -(scalemx1 _ (ds * ds)) qfZ qf_scalar big_ord1 [(1%:M : 'M_1) 0 0]mxE eqxx mulr1n expr1n mulr1 expr2.
Qed.

(** A case: at rest above a ZMP at the origin with a bias of 1, while the estimator starts with no bias, is told a ZMP of 1 at the first sample, and measures the
    DCM with an error of 1 at the third. *)
Example C159_unidim_case (R : rcfType) : exists l l' x b P, u_new Debug (1 : R) 2%:R 1 0 1 0 1 1 1 1 = Ok l /\
  u_run Debug (usamples [:: (1, 0); (1, 0); (2%:R, 0)]) l = Ok l' /\ u_getDcm Debug l' = Ok x /\ u_getBias Debug l' = Ok b /\ u_cov Debug l' = Ok P /\
  (forall g h, (g * (0 - x) + h * (1 - b)) ^+ 2 <= qf P (col_mx g%:M h%:M : 'cV_(1 + 1)) * 3%:R) /\ (1 - (x + b)) ^+ 2 <= 3%:R.
Proof.
have [|||||l [l' [x [b [P [H1 [H2 [H3 [H4 [H5 [H6 H7]]]]]]]]]]] := @C159_unidim_errors R Debug 2%:R 1 1 1 1 1 1 0 0 (fun=> 0) (fun i => if i is 0%N then 1 else 0)
  (fun i => if i is 0%N then - 1 else 0) (fun=> 1) (fun=> 0) (fun i => if i == 3%N then 1 else 0) 0 1 3%N.
- exact: oner_neq0.
- by case=> [|i]; rewrite /= mul1r ?subrr ?addr0 !mulr0 subr0.
- by move=> i; rewrite mulr0 addr0.
- by rewrite mulr0 addr0.
- by rewrite mulr1 add0r.
have B : 0 ^+ 2 + 1 ^+ 2 + \sum_(i < 3) ((if val i is 0%N then - 1 else 0) ^+ 2 + 0 ^+ 2 + (if (val i).+1 == 3%N then 1 else 0) ^+ 2) = 3%:R :> R.
  by rewrite !big_ord_recl big_ord0 /= sqrrN !expr1n !expr0n /= !add0r !addr0.
exists l, l', x, b, P; split=> //; split.
  by rewrite -H2 /= !mulr0 mulr1 !add0r !addr0.
do 3!split=> //; split=> [g h|].
  by have := H6 g h; rewrite B.
by have := H7 isT; rewrite B add0r expr1n mul1r.
Qed.

Print Assumptions C159_unidim_errors.
Print Assumptions C159_unidim_case.
