(** Property C123: components that an extended Kalman filter never corrects. *)
From Coq Require Import ZArith List.
From mathcomp Require Import all_ssreflect all_algebra.
From Verif Require Import Base Defs ZDO ZDORel ZDOTime MxLib Cholesky Kalman KFilter KFProofs Frozen.
Set Implicit Arguments.
Unset Strict Implicit.
Unset Printing Implicit Defensive.
Import Order.TTheory GRing.Theory Num.Theory.
Open Scope ring_scope.

(** C123. An extended filter with vector arithmetic on the states (any arithmetic on the
    measurements), a model that carries component i over unchanged, and any history of public
    calls, with any measurements, inputs, measurement matrices and noises, such that: row i of
    every A given is zero off the diagonal; row and column i of every Q and every P given are
    zero; every state given has value b at component i. After the history the estimate still
    has value b at component i, and row and column i of the covariance are still zero. *)
Theorem C123_component_without_uncertainty_is_never_corrected :
  forall (R : rcfType) (n m mt p : nat) (f : 'cV[R]_n -> 'cV[R]_p -> Z -> 'cV[R]_n)
         (h : 'cV[R]_n -> 'cV[R]_p -> Z -> 'cV[R]_m) ff_out ff_state mdiff (i : 'I_n) (b : R)
         (ops : list (kop R n n m mt p)) s',
  (forall x u k, (f x u k) i 0 = x i 0) ->
  List.Forall (fun o => match o with
    | KZ (ZSetState x _) => x i 0 = b
    | KZ (ZSetCurrentState x) => x i 0 = b
    | KS (SetA (Some A)) => forall j, j != i -> A i j = 0
    | KS (SetQ (Some Q)) => forall j, Q i j = 0 /\ Q j i = 0
    | KS (SetP (Some P)) => forall j, P i j = 0 /\ P j i = 0
    | _ => True
    end) ops ->
  k_run (ekf_predict f h ff_out ff_state) (@vsum R n) mdiff Debug ops (kf_init R n n m mt p) = Ok s' ->
  (forall x, im_get Debug (z_x s') = Ok x -> x i 0 = b) /\
  (forall P, kP (z_e s') = Some P -> forall j, P i j = 0 /\ P j i = 0).
Proof.
move=> R n m mt p f h ffo ffs mdiff i b ops s' Hf Ho Hr.
have Ho' : List.Forall (@mute_op R n m p mt i b) ops.
  apply: List.Forall_impl Ho => o; by case: o => [[]|[[]|[]|[]|[]|[]|[]|[]]|].
have Hp := fun e k x u v xy => @ekf_predict_keeps R n m p mt i b f h ffo ffs e k x u v xy Hf.
have [Hx [_ [_ [_ _ HP _]]]] := frozen_run Hp (frozen_init _ _ _ _ _) Ho' Hr.
split; last exact: HP.
move=> x; rewrite /im_get /boost_assert; case: ifP => //= Hs; case Ev : (im_v _) => [v|] // [<-].
exact: Hx Hs _ Ev.
Qed.
Print Assumptions C123_component_without_uncertainty_is_never_corrected.

(** Two components, any measurement matrix, the first one uncertain and the second one not: the
    history runs, one measurement is used. *)
Example C123_example (R : rcfType) (C : 'M[R]_(2, 2)) (x : 'cV[R]_2) (y : 'cV[R]_2) :
  let Q := diag_mx (\row_j (j == 0)%:R : 'rV[R]_2) in
  List.Forall (fun o => match o with
    | KZ (ZSetState z _) => z 1 0 = x 1 0
    | KZ (ZSetCurrentState z) => z 1 0 = x 1 0
    | KS (SetA (Some A)) => forall j, j != 1 -> A 1 j = 0
    | KS (SetQ (Some Q)) => forall j, Q 1 j = 0 /\ Q j 1 = 0
    | KS (SetP (Some P)) => forall j, P 1 j = 0 /\ P j 1 = 0
    | _ => True
    end) (hold_ops C Q x y) /\
  exists s', k_run (ekf_predict (fun x _ _ => x) (fun x _ _ => C *m x) false false) (@vsum R 2) (@vdiff R 2) Debug
    (hold_ops C Q x y) (kf_init R 2 2 2 2 0) = Ok s' /\ im_k (z_x s') = Zpos xH.
Proof.
move=> Q; split; last first.
  apply: hold_runs; split; first by rewrite /sym tr_diag_mx.
  move=> v; rewrite /qf mxE; apply: sumr_ge0 => j _; rewrite mul_mx_diag !mxE.
  case: (j == 0) => /=; last by rewrite mulr0 mul0r.
  by rewrite mulr1 -expr2 sqr_ge0.
have Q0 : forall j, Q 1 j = 0 /\ Q j 1 = 0.
  by move=> j; rewrite /Q !mxE; split; [rewrite mul0rn|case: eqP => [->|]; rewrite ?mul0rn ?mulr0n].
rewrite /hold_ops; do 8?[apply: List.Forall_cons => //].
by move=> j /negPf j1; rewrite mxE eq_sym j1.
Qed.
