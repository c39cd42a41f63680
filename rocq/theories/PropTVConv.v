(** C167: the linear Kalman filter with matrices that change at each step converges whenever some observer does. *)
From Coq Require Import ZArith List Lia.
From mathcomp Require Import all_ssreflect all_algebra.
From Verif Require Import Base Defs ZDO ZDOInv ZDOProofs MxLib Cholesky Kalman KFilter KFProofs KalmanLS KalmanLSThms KalmanBound KalmanTV KalmanConv LipmBound LipmConv KalmanTVConv.
Set Implicit Arguments.
Unset Strict Implicit.
Unset Printing Implicit Defensive.
Import Order.TTheory GRing.Theory Num.Theory.
Open Scope ring_scope.

(** ** C167 *)
(** Let the squared coefficients of all the matrices be at most b, the covariances Q, R and the initial one be at least l, and let the errors of the observer
    with the gains G i, started at any time, be multiplied by at most r < 1 (in square) in L + 1 steps. Then the constants, which depend on the sizes and on
    b, l, r and L only and not on the system, are such that the program that sets the matrices, an input and a measurement and asks for the estimate at
    each step never fails, its squared error after N steps is at most c1 rho^N times the initial one plus c2 times the bound q on the disturbances and the
    measurement errors, and the covariance reported is at most c3. *)
Theorem C167_error_converges (R : rcfType) (n m L : nat) (b l r : R) : 0 <= b -> 0 < l -> 0 <= r -> r < 1 ->
  exists rho c1 c2 c3 : R, 0 <= rho /\ rho < 1 /\
  forall (p N : nat) md (k0 : Z) (x0 : 'cV[R]_n) (P : 'M[R]_n) (A Q : nat -> 'M[R]_n) (B : nat -> 'M[R]_(n, p.+1)) (C : nat -> 'M[R]_(m, n)) (D : nat -> 'M[R]_(m, p.+1))
    (Rm : nat -> 'M[R]_m) (G : nat -> 'M[R]_(n, m)) (u : nat -> 'cV[R]_p.+1) (xt w : nat -> 'cV[R]_n) (v : nat -> 'cV[R]_m) (q : R),
  P^T = P -> (forall i, (Q i)^T = Q i) -> (forall i, (Rm i)^T = Rm i) ->
  (forall i j k, A i j k ^+ 2 <= b) -> (forall i j k, C i j k ^+ 2 <= b) -> (forall i j k, G i j k ^+ 2 <= b) ->
  (forall i j k, Q i j k ^+ 2 <= b) -> (forall i j k, Rm i j k ^+ 2 <= b) -> (forall j k, P j k ^+ 2 <= b) ->
  (forall i z, l * sqn z <= qf (Q i) z) -> (forall i z, l * sqn z <= qf (Rm i) z) -> (forall z, l * sqn z <= qf P z) ->
  (forall (e : nat -> 'cV[R]_n) i, (forall k, (i <= k)%N -> e k.+1 = (1%:M - G k *m C k) *m A k *m e k) -> sqn (e (i + L.+1)%N) <= r * sqn (e i)) ->
  (forall i, xt i.+1 = A i *m xt i + B i *m u i + w i) -> 0 <= q -> (forall i, sqn (w i) <= q) -> (forall i, sqn (v i) <= q) ->
  let time i := Z.add k0 (Z.of_nat i) in
  let kz := @KZ R n n m m p.+1 in let ks := @KS R n n m m p.+1 in
  let cycle i := [:: ks (@SetA R n n m m p.+1 (Some (A i))); ks (@SetB R n n m m p.+1 (Some (B i))); ks (@SetC R n n m m p.+1 (Some (C i)));
      ks (@SetD R n n m m p.+1 (Some (D i))); ks (@SetQ R n n m m p.+1 (Some (Q i))); ks (@SetR R n n m m p.+1 (Some (Rm i)));
      kz (ZSetInput (u i.+1) (time i.+1)); kz (ZSetMeas (C i *m xt i.+1 + D i *m u i.+1 + v i) (time i.+1)); kz (@ZGetEstimate _ _ _ (time i.+1))] in
  let program := [:: kz (ZSetState x0 k0); ks (@SetP R n n m m p.+1 (Some P)); kz (ZSetInput (u 0%N) k0)] ++ flatten [seq cycle i | i <- iota 0 N] in
  exists s x' P', [/\ lkf_run md program (@lkf_init R n m p.+1) = Ok s, state_at s (time N) x', kP (z_e s) = Some P',
    sqn (xt N - x') <= c1 * rho ^+ N * sqn (xt 0%N - x0) + c2 * q & forall g, qf P' g <= c3 * sqn g].
Proof.
move=> b0 l0 r0 r1; have [rho [c1 [c2 [c3 [h0 [h1 [_ H]]]]]]] := @conv_tv R n m L b l r b0 l0 r0 r1.
exists rho, c1, c2, c3; split=> //; split=> //.
move=> p N md k0 x0 P A Q B C D Rm G u xt w v q sP sQ sR HA HC HG HQ HR HP LQ LR LP HF Hx q0 Hw Hv time kz ks cycle program.
have pdl k (M : 'M[R]_k) : M^T = M -> (forall z, l * sqn z <= qf M z) -> pd M.
  move=> sM HM; split=> // z z0; apply: lt_le_trans (HM z); apply: mulr_gt0 => //.
  by rewrite lt_def sqn_ge0 andbT; apply: contra z0 => /eqP E; apply/eqP; apply: sqn0; rewrite E.
have pP := pdl _ _ sP LP; have pQ i := pdl _ _ (sQ i) (LQ i); have pR i := pdl _ _ (sR i) (LR i).
have [s [X [Pf [K [Er [_ _ _ Hxs _ _ HPs] EX EP Hk]]]]] := @tv_run R n m p md k0 x0 P A Q B C D Rm u (fun i => C i *m xt i.+1 + D i *m u i.+1 + v i) N (pd_psd pP) (fun i => pd_psd (pQ i)) pR.
exists s, (X N), (Pf N).
have [] := H N A Q Pf C Rm G K X xt w (fun i => B i *m u i) (fun i => C i *m xt i.+1 + D i *m u i.+1 + v i) v (fun i => D i *m u i.+1) q q0.
all: rewrite ?EP ?EX //.
- by move=> i; split; [apply: pd_psd|].
- exact: pd_psd.
Qed.

(** A case: a body of constant velocity whose position is measured without error at periods 1 and 2 in turn; the estimator starts at rest at the origin. Its
    error tends to 0. *)
Section Case.
Variable R : rcfType.
Let dt (i : nat) : R := if odd i then 1 else 2%:R.
Let A i : 'M[R]_2 := 1%:M + dt i *: delta_mx 0 1.
Let C : 'M[R]_(1, 2) := delta_mx 0 0.
Let G i : 'M[R]_(2, 1) := delta_mx 0 0 + (dt i)^-1 *: delta_mx 1 0.
Lemma case_F i : (1%:M - G i *m C) *m A i = - (dt i)^-1 *: delta_mx 1 0.
Proof.
have d0 : dt i != 0 by rewrite /dt; case: odd; rewrite ?oner_neq0 ?pnatr_eq0.
apply/matrixP => j k; rewrite /G /A /C mulmxBl mul1mx mulmxDl mul_delta_mx -scalemxAl mul_delta_mx !mxE !big_ord_recl big_ord0 !mxE.
by case: j => [[|[|j]] Hj] //; case: k => [[|[|k]] Hk] //=; rewrite ?mulr0n ?mulr1n ?mulr0 ?mulr1 ?mul0r ?mul1r ?addr0 ?add0r ?subr0 ?sub0r ?mulNr ?mulr1 ?mul1r ?subrr ?oppr0 ?mulr0 ?oppr0 ?mulVf // ?addr0 ?subrr.
Qed.
Lemma case_ent (x : R) : x = 0 \/ x = 1 \/ x = 2%:R \/ x = 2%:R^-1 -> x ^+ 2 <= 4%:R.
Proof.
have b1 : 1 <= 4%:R :> R by rewrite ler1n.
case=> [->|[->|[->|->]]]; rewrite ?expr0n ?expr1n ?ler0n //; first by rewrite -natrX.
by rewrite exprVn; apply: le_trans b1; rewrite invf_le1 -?natrX ?ler1n ?ltr0n.
Qed.
Example C167_case : exists rho c1 : R, 0 <= rho /\ rho < 1 /\ forall N (xt : nat -> 'cV[R]_2), (forall i, xt i.+1 = A i *m xt i) ->
  exists s x', lkf_run Debug (@tv_program R 2 1 0 Z0 0 1%:M A (fun=> 1%:M) (fun=> 0) (fun=> C) (fun=> 0) (fun=> 1%:M) (fun=> 0) (fun i => C *m xt i.+1) N) (@lkf_init R 2 1 1) = Ok s /\
    state_at s (Z.of_nat N) x' /\ sqn (xt N - x') <= c1 * rho ^+ N * sqn (xt 0%N).
Proof.
have [rho [c1 [c2 [c3 [r0 [r1 H]]]]]] := @C167_error_converges R 2 1 1 4%:R 1 0 (ler0n _ 4) ltr01 (lexx 0) ltr01.
exists rho, c1; split=> //; split=> // N xt Hxt.
have S0 k : sqn (0 : 'cV[R]_k) = 0 by rewrite /sqn big1 // => i _; rewrite mxE expr0n.
have I1 k (j1 k1 : 'I_k) : (1%:M : 'M[R]_k) j1 k1 ^+ 2 <= 4%:R by apply: case_ent; rewrite mxE; case: (_ == _); [right; left|left].
have [|||||||||||||||||s [x' [P' [H1 H2 _ H3 _]]]] := H 0%N N Debug Z0 0 1%:M A (fun=> 1%:M) (fun=> 0) (fun=> C) (fun=> 0) (fun=> 1%:M) G (fun=> 0) xt (fun=> 0) (fun=> 0) 0.
all: try by move=> *; rewrite ?trmx1 ?S0 ?qf1 ?mul1r ?mulmx0 ?addr0.
all: try by move=> *; apply: I1.
- move=> i j k; apply: case_ent; rewrite /A /dt !mxE; case: odd; case: j => [[|[|j]] Hj] //; case: k => [[|[|k]] Hk] //=;
    rewrite ?mulr0n ?mulr1n ?mulr0 ?mulr1 ?addr0 ?add0r; by [left|right; left|right; right; left].
- by move=> _ j k; apply: case_ent; rewrite /C !mxE; case: (_ && _); [right; left|left].
- move=> i j k; apply: case_ent; rewrite /G /dt !mxE; case: odd; case: j => [[|[|j]] Hj] //; case: k => [[|k] Hk] //=;
    rewrite ?mulr0n ?mulr1n ?mulr0 ?mulr1 ?addr0 ?add0r ?invr1; by [left|right; left|right; right; right].
- move=> e i He; rewrite mul0r addn2 He ?leqW // He // !case_F -!scalemxAl -scalemxAr mulmxA mul_delta_mx_0 // mul0mx !scaler0 S0 //.
- exact: lexx.
exists s, x'; rewrite subr0 mulr0 addr0 in H3; split=> //.
rewrite -H1; congr lkf_run; rewrite /tv_program; congr (_ ++ flatten _); apply: eq_map => i.
by rewrite mulmx0 !addr0.
Qed.
End Case.

Print Assumptions C167_error_converges.
Print Assumptions C167_case.
