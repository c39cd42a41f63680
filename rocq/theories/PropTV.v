(** C164: the linear Kalman filter whose matrices and noise covariances are changed between the steps. *)
From Coq Require Import ZArith List Lia Bool.
From mathcomp Require Import all_ssreflect all_algebra.
From Verif Require Import Base Defs ZDO ZDOInv ZDOProofs MxLib Cholesky Kalman KFilter KFProofs KalmanLS KalmanLSThms KalmanTV.
Set Implicit Arguments.
Unset Strict Implicit.
Unset Printing Implicit Defensive.
Import Order.TTheory GRing.Theory Num.Theory.
Open Scope ring_scope.

(** ** C164 *)
(** Before the estimation of each step, any calls of the setters of A, B, C, D, Q, R and of the calls that record or clear measurements and inputs
    (ops i, from s i to t i). A i .. Rm i are the matrices then in the filter, y i the measurement read at the time i + 1, u i and v i the inputs read
    at the times i and i + 1 (one that is not recorded counts as zero; v i is u i.+1 unless the calls in between change that input). The estimate at
    the end is the last state of the sequence of states with the least sum of squares J, each term weighted with the matrices of its step. *)
Theorem C164_estimate_is_least_squares (R : rcfType) (n m p N : nat) md (k0 : Z) (s t : nat -> zdo 'cV[R]_n 'cV[R]_m 'cV[R]_p (kfe R n n m m p))
    (ops : nat -> list (kop R n n m m p)) (x : nat -> 'cV[R]_n) (P : 'M[R]_n) (A Q : nat -> 'M[R]_n) (B : nat -> 'M[R]_(n, p)) (C : nat -> 'M[R]_(m, n))
    (D : nat -> 'M[R]_(m, p)) (Rm : nat -> 'M[R]_m) (y : nat -> 'cV[R]_m) (u v : nat -> 'cV[R]_p) :
  let time i := Z.add k0 (Z.of_nat i) in
  state_at (s 0%N) k0 (x 0%N) -> kP (z_e (s 0%N)) = Some P -> pd P ->
  (forall i, (i < N)%N -> [/\ Forall (@between R n m p) (ops i), lkf_run md (ops i) (s i) = Ok (t i), covered (@lkf_step R n m p) (time i) (time i.+1) (t i) &
    z_getEstimatedState (local_step (@lkf_step R n m p)) md (time i.+1) (t i) = Ok (s i.+1, x i.+1)]) ->
  (forall i, (i < N)%N -> [/\ kA (z_e (t i)) = Some (A i), kB (z_e (t i)) = Some (B i), kC (z_e (t i)) = Some (C i) & kD (z_e (t i)) = Some (D i)]) ->
  (forall i, (i < N)%N -> [/\ kQ (z_e (t i)) = Some (Q i), kR (z_e (t i)) = Some (Rm i), pd (Q i) & pd (Rm i)]) ->
  (forall i, y i = match ia_get md (z_y (t i)) (time i.+1) with Ok w => w | _ => 0 end) ->
  (forall i, u i = match ia_get md (z_u (t i)) (time i) with Ok w => w | _ => 0 end) ->
  (forall i, v i = match ia_get md (z_u (t i)) (time i.+1) with Ok w => w | _ => 0 end) ->
  let J (xs : nat -> 'cV[R]_n) := qf (invmx P) (xs 0%N - x 0%N) +
     \sum_(i < N) (qf (invmx (Q i)) (xs i.+1 - (A i *m xs i + B i *m u i)) + qf (invmx (Rm i)) (y i - (C i *m xs i.+1 + D i *m v i))) in
  (forall i, (i < N)%N -> ia_get md (z_y (t i)) (time i.+1) = Ok (y i)) /\
  exists P' xs, [/\ kP (z_e (s N)) = Some P', pd P', xs N = x N,
    forall xs2, J xs + qf (invmx P') (xs2 N - x N) <= J xs2 &
    forall z, exists xs2, xs2 N = z /\ J xs2 = J xs + qf (invmx P') (z - x N)].
Proof.
move=> time Hx0 HP0 pP Hc Hm Hn Hy Hu Hv J.
have Et i : time i.+1 = Z.add (time i) 1 by rewrite /time Nat2Z.inj_succ -Z.add_assoc.
pose Pf i := orz (kP (z_e (s i))).
have Step i : (i < N)%N -> z_x (s i) = im_put (x i) (time i) -> kP (z_e (s i)) = Some (Pf i) -> psd (Pf i) ->
  ia_get md (z_y (t i)) (time i.+1) = Ok (y i) /\ z_x (s i.+1) = im_put (x i.+1) (time i.+1) /\ kP (z_e (s i.+1)) = Some (Pf i.+1) /\
  exists K, kstep (x i) (Pf i) (A i) (Q i) (C i) (Rm i) (B i *m u i) (D i *m v i) (y i) K (x i.+1) (Pf i.+1).
  move=> Hi Ex EP pPi; have [Hb Hr Hcov Hg] := Hc i Hi; have [EA EB EC ED] := Hm i Hi; have [EQ ER pQ pR] := Hn i Hi.
  have [Ext EPt] := between_keeps Hb Hr; rewrite Ex in Ext; rewrite EP in EPt.
  move: Hcov Hg; rewrite Et => Hcov Hg.
  have [y0 [K [P1 [Ey0 EP1 Ex1 St]]]] := est_one EA EC EQ ER EPt (pd_psd pQ) pR pPi Ext Hcov Hg.
  have Ey : y i = y0 by rewrite Hy Et Ey0.
  have EPf : Pf i.+1 = P1 by rewrite /Pf EP1.
  split; [by rewrite Ey|split=> //; split; [by rewrite EPf|exists K]].
  by rewrite EPf Ey Hu Hv Et; move: St; rewrite EB ED.
have Inv i : (i <= N)%N -> [/\ z_x (s i) = im_put (x i) (time i), kP (z_e (s i)) = Some (Pf i) & psd (Pf i)].
  elim: i => [|i IH] Hi.
    by rewrite /Pf HP0 Hx0 /time Z.add_0_r; split=> //=; apply: pd_psd.
  have [Ex EP pPi] := IH (ltnW Hi); have [_ [Ex1 [EP1 [K [_ _ Ej]]]]] := Step i Hi Ex EP pPi.
  split=> //; rewrite Ej; have [_ _ pQ pR] := Hn i Hi.
  by apply: joseph_psd; [apply: k_pbar_psd => //; apply: pd_psd|apply: pd_psd].
split=> [i Hi|]; first by have [Ex EP pPi] := Inv i (ltnW Hi); have [] := Step i Hi Ex EP pPi.
have HK : exists K : nat -> 'M[R]_(n, m), forall i, (i < N)%N -> kstep (x i) (Pf i) (A i) (Q i) (C i) (Rm i) (B i *m u i) (D i *m v i) (y i) (K i) (x i.+1) (Pf i.+1).
  have Ex i : (i < N)%N -> exists K, kstep (x i) (Pf i) (A i) (Q i) (C i) (Rm i) (B i *m u i) (D i *m v i) (y i) K (x i.+1) (Pf i.+1).
    by move=> Hi; have [Ex EP pPi] := Inv i (ltnW Hi); have [_ [_ [_ ?]]] := Step i Hi Ex EP pPi.
  elim: N Ex {Hc Hm Hn J Step Inv} => [|N' IH] Ex; first by exists (fun=> 0).
  have [K HK] := IH (fun i Hi => Ex i (ltnW Hi)); have [K' HK'] := Ex N' (ltnSn N').
  exists (fun i => if (i < N')%N then K i else K') => i; rewrite ltnS => Hi.
  by case: ltngtP Hi => // [Hi _|-> _]; [apply: HK|].
have [K {}HK] := HK.
have EP0 : Pf 0%N = P by rewrite /Pf HP0.
have [pN [c [Hlow Hatt]]] : pd (Pf N) /\ exists c, (forall xs, c + qf (invmx (Pf N)) (xs N - x N) <= J xs) /\
    (forall z, exists xs, xs N = z /\ J xs = c + qf (invmx (Pf N)) (z - x N)).
  have := @chain_ls R n m N A Q Pf C Rm (fun i => B i *m u i) (fun i => D i *m v i) y x K; rewrite EP0; apply=> // i Hi.
  by have [_ _ pQ pR] := Hn i Hi; split=> //; apply: HK.
have [xs [Exs Jxs]] := Hatt (x N); rewrite subrr qf0 addr0 in Jxs.
have [_ EPN _] := Inv N (leqnn N).
by exists (Pf N), xs; split=> // [xs2|z]; rewrite Jxs.
Qed.

(** The errors: a true system that follows the matrices of each step with disturbances w i and measurement errors e i, any sequences. *)
Theorem C164_error_bounded_by_noise (R : rcfType) (n m p N : nat) md (k0 : Z) (s t : nat -> zdo 'cV[R]_n 'cV[R]_m 'cV[R]_p (kfe R n n m m p))
    (ops : nat -> list (kop R n n m m p)) (x : nat -> 'cV[R]_n) (P : 'M[R]_n) (A Q : nat -> 'M[R]_n) (B : nat -> 'M[R]_(n, p)) (C : nat -> 'M[R]_(m, n))
    (D : nat -> 'M[R]_(m, p)) (Rm : nat -> 'M[R]_m) (u v : nat -> 'cV[R]_p) (xt w : nat -> 'cV[R]_n) (e : nat -> 'cV[R]_m) :
  let time i := Z.add k0 (Z.of_nat i) in
  state_at (s 0%N) k0 (x 0%N) -> kP (z_e (s 0%N)) = Some P -> pd P ->
  (forall i, (i < N)%N -> [/\ Forall (@between R n m p) (ops i), lkf_run md (ops i) (s i) = Ok (t i), covered (@lkf_step R n m p) (time i) (time i.+1) (t i) &
    z_getEstimatedState (local_step (@lkf_step R n m p)) md (time i.+1) (t i) = Ok (s i.+1, x i.+1)]) ->
  (forall i, (i < N)%N -> [/\ kA (z_e (t i)) = Some (A i), kB (z_e (t i)) = Some (B i), kC (z_e (t i)) = Some (C i) & kD (z_e (t i)) = Some (D i)]) ->
  (forall i, (i < N)%N -> [/\ kQ (z_e (t i)) = Some (Q i), kR (z_e (t i)) = Some (Rm i), pd (Q i) & pd (Rm i)]) ->
  (forall i, u i = match ia_get md (z_u (t i)) (time i) with Ok w => w | _ => 0 end) ->
  (forall i, v i = match ia_get md (z_u (t i)) (time i.+1) with Ok w => w | _ => 0 end) ->
  (forall i, (i < N)%N -> xt i.+1 = A i *m xt i + B i *m u i + w i) ->
  (forall i, (i < N)%N -> ia_get md (z_y (t i)) (time i.+1) = Ok (C i *m xt i.+1 + D i *m v i + e i)) ->
  exists P', [/\ kP (z_e (s N)) = Some P', pd P' &
    qf (invmx P') (xt N - x N) <= qf (invmx P) (xt 0%N - x 0%N) + \sum_(i < N) (qf (invmx (Q i)) (w i) + qf (invmx (Rm i)) (e i))].
Proof.
move=> time Hx0 HP0 pP Hc Hm Hn Hu Hv Hxt Hyt.
pose y i := match ia_get md (z_y (t i)) (time i.+1) with Ok w => w | _ => 0 end.
have [Hy [P' [xs [EP' pP' _ Hmin _]]]] := @C164_estimate_is_least_squares R n m p N md k0 s t ops x P A Q B C D Rm y u v Hx0 HP0 pP Hc Hm Hn (fun=> erefl) Hu Hv.
exists P'; split=> //; apply: (le_trans _ (le_trans (Hmin xt) _)).
- rewrite ler_addr; apply: addr_ge0; first by apply: (pd_psd (pd_inv pP)).2.
  by apply: sumr_ge0 => i _; have [_ _ pQ pR] := Hn i (ltn_ord i); apply: addr_ge0; [apply: (pd_psd (pd_inv pQ)).2|apply: (pd_psd (pd_inv pR)).2].
- rewrite ler_add2l; apply: ler_sum => i _.
  rewrite /y Hyt // Hxt //.
  by rewrite [_ + w _]addrC addrK [_ + e _]addrC addrK.
Qed.

(** The same for a program: whatever the matrices, inputs and measurements given at each step, it never fails, in debug and in release, and its
    estimate is that of least squares. *)
Theorem C164_program (R : rcfType) (n m p N : nat) md (k0 : Z) (x0 : 'cV[R]_n) (P : 'M[R]_n) (A Q : nat -> 'M[R]_n) (B : nat -> 'M[R]_(n, p.+1)) (C : nat -> 'M[R]_(m, n))
    (D : nat -> 'M[R]_(m, p.+1)) (Rm : nat -> 'M[R]_m) (u : nat -> 'cV[R]_p.+1) (y : nat -> 'cV[R]_m) :
  pd P -> (forall i, pd (Q i)) -> (forall i, pd (Rm i)) ->
  let time i := Z.add k0 (Z.of_nat i) in
  let kz := @KZ R n n m m p.+1 in let ks := @KS R n n m m p.+1 in
  let cycle i := [:: ks (@SetA R n n m m p.+1 (Some (A i))); ks (@SetB R n n m m p.+1 (Some (B i))); ks (@SetC R n n m m p.+1 (Some (C i)));
      ks (@SetD R n n m m p.+1 (Some (D i))); ks (@SetQ R n n m m p.+1 (Some (Q i))); ks (@SetR R n n m m p.+1 (Some (Rm i)));
      kz (ZSetInput (u i.+1) (time i.+1)); kz (ZSetMeas (y i) (time i.+1)); kz (@ZGetEstimate _ _ _ (time i.+1))] in
  let program := [:: kz (ZSetState x0 k0); ks (@SetP R n n m m p.+1 (Some P)); kz (ZSetInput (u 0%N) k0)] ++ flatten [seq cycle i | i <- iota 0 N] in
  let J (xs : nat -> 'cV[R]_n) := qf (invmx P) (xs 0%N - x0) +
     \sum_(i < N) (qf (invmx (Q i)) (xs i.+1 - (A i *m xs i + B i *m u i)) + qf (invmx (Rm i)) (y i - (C i *m xs i.+1 + D i *m u i.+1))) in
  exists s x' P' xs, [/\ lkf_run md program (@lkf_init R n m p.+1) = Ok s, state_at s (time N) x', kP (z_e s) = Some P' /\ pd P', xs N = x' &
    (forall xs2, J xs + qf (invmx P') (xs2 N - x') <= J xs2) /\ (forall z, exists xs2, xs2 N = z /\ J xs2 = J xs + qf (invmx P') (z - x'))].
Proof.
move=> pP pQ pR time kz ks cycle program J.
have [s [X [Pf [K [Er [_ _ _ Hx _ _ HP] EX EP Hk]]]]] := @tv_run R n m p md k0 x0 P A Q B C D Rm u y N (pd_psd pP) (fun i => pd_psd (pQ i)) pR.
have [pN [c [Hlow Hatt]]] : pd (Pf N) /\ exists c, (forall xs, c + qf (invmx (Pf N)) (xs N - X N) <= J xs) /\
    (forall z, exists xs, xs N = z /\ J xs = c + qf (invmx (Pf N)) (z - X N)).
  have := @chain_ls R n m N A Q Pf C Rm (fun i => B i *m u i) (fun i => D i *m u i.+1) y X K; rewrite EP EX; apply=> // i Hi.
  by split=> //; apply: Hk.
have [xs [Exs Jxs]] := Hatt (X N); rewrite subrr qf0 addr0 in Jxs.
by exists s, (X N), (Pf N), xs; split=> //; split=> // [xs2|z]; rewrite Jxs.
Qed.

(** A case: a sensor that measures one coordinate in turn, and a prediction that alternates, over any number of steps. *)
Example C164_case (R : rcfType) (N : nat) : exists s x' P', [/\
  lkf_run Debug (@tv_program R 2 1 0 (Zpos 5) 0 1%:M (fun i => if odd i then 1%:M else 2%:R%:M) (fun=> 1%:M) (fun=> 0) (fun i => if odd i then delta_mx 0 0 else delta_mx 0 1)
    (fun=> 0) (fun=> 1%:M) (fun=> 0) (fun=> const_mx 1) N) (@lkf_init R 2 1 1) = Ok s, state_at s (Z.add 5 (Z.of_nat N)) x' & kP (z_e s) = Some P' /\ pd P'].
Proof.
have [s [x' [P' [xs [E H [HP pP'] _ _]]]]] := @C164_program R 2 1 0 N Debug (Zpos 5) 0 1%:M (fun i => if odd i then 1%:M else 2%:R%:M) (fun=> 1%:M) (fun=> 0)
  (fun i => if odd i then delta_mx 0 0 else delta_mx 0 1) (fun=> 0) (fun=> 1%:M) (fun=> 0) (fun=> const_mx 1) (pd1 R 2) (fun=> pd1 R 2) (fun=> pd1 R 1).
by exists s, x', P'.
Qed.

(** The hypotheses of the first two theorems, met by the states of such a program, for any number of steps and any matrices and data. *)
Example C164_states (R : rcfType) (n m p N : nat) md (k0 : Z) (x0 : 'cV[R]_n) (P : 'M[R]_n) (A Q : nat -> 'M[R]_n) (B : nat -> 'M[R]_(n, p.+1)) (C : nat -> 'M[R]_(m, n))
    (D : nat -> 'M[R]_(m, p.+1)) (Rm : nat -> 'M[R]_m) (u : nat -> 'cV[R]_p.+1) (y : nat -> 'cV[R]_m) : pd P -> (forall i, pd (Q i)) -> (forall i, pd (Rm i)) ->
  let time i := Z.add k0 (Z.of_nat i) in
  exists s t ops x, state_at (s 0%N) k0 (x 0%N) /\ x 0%N = x0 /\ kP (z_e (s 0%N)) = Some P /\
  (forall i, (i < N)%N -> [/\ Forall (@between R n m p.+1) (ops i), lkf_run md (ops i) (s i) = Ok (t i), covered (@lkf_step R n m p.+1) (time i) (time i.+1) (t i) &
    z_getEstimatedState (local_step (@lkf_step R n m p.+1)) md (time i.+1) (t i) = Ok (s i.+1, x i.+1)]) /\
  (forall i, (i < N)%N -> [/\ kA (z_e (t i)) = Some (A i), kB (z_e (t i)) = Some (B i), kC (z_e (t i)) = Some (C i) & kD (z_e (t i)) = Some (D i)]) /\
  (forall i, (i < N)%N -> [/\ kQ (z_e (t i)) = Some (Q i), kR (z_e (t i)) = Some (Rm i), pd (Q i) & pd (Rm i)]).
Proof.
move=> pP pQ pR time; have [s0 [_ H0]] := @tv_init R n m p md k0 x0 P A Q B C D Rm u y.
have [s [t [X [Es EX H]]]] := @tv_states R n m p md k0 x0 P A Q B C D Rm u y N s0 (pd_psd pP) (fun i => pd_psd (pQ i)) pR H0.
exists s, t, (tv_data k0 A Q B C D Rm u y), X.
split; [|split=> //; split; [|split; [|split]]].
- by rewrite /state_at Es EX (ti_x H0) /tv_time Z.add_0_r.
- by rewrite Es (ti_P H0).
- by move=> i Hi; have [Er [Eg Ec] _] := H i Hi; split=> //; apply: tv_data_between.
- by move=> i Hi; have [_ _ []] := H i Hi.
- by move=> i Hi; have [_ _ [_ _ _ _ []]] := H i Hi.
Qed.

Print Assumptions C164_estimate_is_least_squares.
Print Assumptions C164_error_bounded_by_noise.
Print Assumptions C164_program.
Print Assumptions C164_case.
Print Assumptions C164_states.
