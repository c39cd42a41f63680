(** Finite-difference Jacobians of the extended Kalman filter
    (src/extended-kalman-filter.cpp:145-207). *)
From Coq Require Import ZArith List Lia.
From mathcomp Require Import all_ssreflect all_algebra.
From mathcomp Require Import ring.
From Verif Require Import Base Defs ZDO MxLib Kalman KFilter KFProofs EKFProofs.
Set Implicit Arguments.
Unset Strict Implicit.
Unset Printing Implicit Defensive.
Import Order.TTheory GRing.Theory Num.Theory.
Open Scope ring_scope.

Section Jac.
Variable R : rcfType.
Variables (n nt m mt p : nat).
Notation X := 'cV[R]_n.
Notation Y := 'cV[R]_m.
Notation U := 'cV[R]_p.
Notation kfe := (kfe R n nt m mt p).
Notation kf := (zdo X Y U kfe).
Variable f : X -> U -> Z -> X.
Variable h : X -> U -> Z -> Y.
Variables (ff_out ff_state : bool).
(** stateSum and stateDifference of the arithmetics object. *)
Variable ssum : X -> 'cV[R]_nt -> X.
Variable sdiff : X -> X -> 'cV[R]_nt.

(** xbar_ := v (IndexedMatrix set), extended-kalman-filter.cpp:101. *)
Definition k_with_xbar (e : kfe) (xb : imat X) : kfe := k_with_pred e (xb, kybar e).

(** extended-kalman-filter.cpp:86-105 prediction_(k+1) on its own. *)
Definition ekf_statepred (e : kfe) (k : Z) (x : X) (u0 : outcome U) : outcome (imat X) :=
  if im_set (kxbar e) && Z.eqb (im_k (kxbar e)) (nxt k) then Ok (kxbar e)
  else do u <- (if (0 < p)%N && ff_state then u0 else Ok 0); Ok (im_put (f x u k) (nxt k)).

(** The perturbation dx_i e_i (lines 165-166 and 198-199). *)
Definition pert (dx : 'cV[R]_nt) (i : 'I_nt) : 'cV[R]_nt := \col_l if l == i then dx i 0 else 0.

(** extended-kalman-filter.cpp:145-180 getAMatrixFD. With p = 0, opt.u_ is the empty vector. *)
Definition ekf_getA (md : mode) (dx : 'cV[R]_nt) (s : kf) : outcome (kf * 'M[R]_nt) :=
  do k <- z_time md (s : zdo X Y U kfe);
  do x <- im_get md (z_x s);
  do xb <- ekf_statepred (z_e s) k x (ia_get md (z_u s) k);
  do xbv <- im_get md xb;
  do u <- (if (0 < p)%N && ff_state then ia_get md (z_u s) k else Ok 0);
  Ok (with_e s (k_with_xbar (z_e s) xb),
      \matrix_(i, j) (sdiff (f (ssum x (pert dx j)) u k) xbv i 0 / dx j 0)).

(** extended-kalman-filter.cpp:182-207 getCMatrixFD. The matrix is m_ x nt_ and the difference
    of measurements is the plain one (line 203), whatever the arithmetics. *)
Definition ekf_getC (md : mode) (dx : 'cV[R]_nt) (s : kf) : outcome (kf * 'M[R]_(m, nt)) :=
  do k <- z_time md (s : zdo X Y U kfe);
  do x <- im_get md (z_x s);
  do xy <- ekf_predict f h ff_out ff_state md (z_e s) k x (ia_get md (z_u s) k) (ia_get md (z_u s) (nxt k));
  do xbv <- im_get md xy.1;
  do ybv <- im_get md xy.2;
  let u1 := ia_get md (z_u s) (nxt k) in
  do _ <- (if (0 < p)%N && (0 < nt)%N then boost_assert md (~~ ff_out || is_ok u1) else Ok tt);
  let uv := if (0 < p)%N then (match u1 with Ok u => u | _ => 0 end) else 0 in
  Ok (with_e s (k_with_pred (z_e s) (im_put xbv (nxt k), xy.2)),
      \matrix_(i, j) ((h (ssum xbv (pert dx j)) uv (nxt k) - ybv) i 0 / dx j 0)).

End Jac.

(** ** Affine models, default arithmetics *)
Section Aff.
Variable R : rcfType.
Variables (n m p : nat).
Notation kfe := (kfe R n n m m p).
Notation kf := (zdo 'cV[R]_n 'cV[R]_m 'cV[R]_p kfe).

Lemma mulmx_pert q (M : 'M[R]_(q, n)) dx j : M *m pert dx j = dx j 0 *: col j M.
Proof.
apply/colP => i; rewrite !mxE (bigD1 j) //= big1 ?addr0 => [|l lj].
  by rewrite mxE eqxx mulrC.
by rewrite mxE (negPf lj) mulr0.
Qed.

Variables (A : 'M[R]_n) (b : 'cV[R]_p -> Z -> 'cV[R]_n) (C : 'M[R]_(m, n)) (d : 'cV[R]_p -> Z -> 'cV[R]_m).
Variables (ff_out ff_state : bool).
Definition aff_f x u k := A *m x + b u k.
Definition aff_h x u k := C *m x + d u k.
Definition sub (x y : 'cV[R]_n) : 'cV[R]_n := x - y.

Notation getA := (ekf_getA aff_f ff_state (@vsum R n) sub).
Notation getC := (ekf_getC aff_f aff_h ff_out ff_state (@vsum R n)).

(** Whatever the cache holds: the Jacobian plus the error of the cached prediction divided by
    the steps. *)
Lemma getA_value md (dx : 'cV[R]_n) (s : kf) s' M x : (forall j, dx j 0 != 0) -> im_get md (z_x s) = Ok x ->
  getA md dx s = Ok (s', M) ->
  exists u xb, im_get md (kxbar (z_e s')) = Ok xb /\
   ((if (0 < p)%N && ff_state then ia_get md (z_u s) (im_k (z_x s)) else Ok 0) = Ok u) /\
   s' = with_e s (z_e s') /\
   M = A + \matrix_(i, j) ((A *m x + b u (im_k (z_x s)) - xb) i 0 / dx j 0).
Proof.
move=> dx0 Ex; rewrite /ekf_getA Ex /z_time /im_time; case: (boost_assert _ _) => //= _.
case Ep : (ekf_statepred _ _ _ _ _) => [xbm| | |] //=; case Eb : (im_get md xbm) => [xb| | |] //=.
case Eu : (if _ then _ else _) => [u| | |] //= [<- <-]; exists u, xb; split; last first.
  split=> //; split=> //; apply/matrixP => i j; rewrite [LHS]mxE [RHS]mxE [X in _ = _ + X]mxE.
  rewrite /sub /aff_f /vsum mulmxDr mulmx_pert !mxDE !mxNE mxZE [(col j A) i 0]mxE.
  have := dx0 j; mxgen; move=> xj0; field; exact: xj0.
by case: (z_e s).
Qed.

(** With no prediction cached for a later time, the Jacobian is exact and only the cached
    prediction changes. *)
Lemma getA_exact md (dx : 'cV[R]_n) (s : kf) s' M : (forall j, dx j 0 != 0) ->
  cached_upto (z_e s) (im_k (z_x s)) -> getA md dx s = Ok (s', M) -> M = A.
Proof.
move=> dx0 Hc H; have [x Ex] : exists x, im_get md (z_x s) = Ok x.
  by move: H; rewrite /ekf_getA; case: (z_time _ _) => //= k; case: (im_get md (z_x s)) => //= x _; exists x.
have [u [xb [Exb [Eu [_ ->]]]]] := getA_value dx0 Ex H.
suff -> : xb = A *m x + b u (im_k (z_x s)).
  rewrite subrr; apply/matrixP => i j; rewrite !mxE; mxgen; ring.
move: H; rewrite /ekf_getA Ex /z_time /im_time; case: (boost_assert _ _) => //= _.
rewrite /ekf_statepred.
have -> : im_set (kxbar (z_e s)) && Z.eqb (im_k (kxbar (z_e s))) (nxt (im_k (z_x s))) = false.
  case Es : (im_set _) => //=; have := Hc.1 Es => Hle; apply/Z.eqb_neq; lia.
rewrite Eu /= => -[Es' _]; move: Exb; rewrite -Es' /= /k_with_xbar.
by case: (z_e s) => a c q r pr b' d' xb' yb' i g /= [<-].
Qed.

Lemma getC_exact md (dx : 'cV[R]_n) (s : kf) s' M : (forall j, dx j 0 != 0) ->
  cached_upto (z_e s) (im_k (z_x s)) -> getC md dx s = Ok (s', M) -> M = C.
Proof.
move=> dx0 Hc; rewrite /ekf_getC /z_time /im_time; case: (boost_assert _ _) => //= _.
case: (im_get md (z_x s)) => //= x; rewrite ekf_predict_fresh // /ekf_fresh.
case: (if _ then ia_get _ _ _ else _) => //= u; rewrite /ekf_sensor.
set u1 := ia_get _ _ _.
have key : forall u', M = \matrix_(i, j) ((aff_h (vsum (aff_f x u (im_k (z_x s))) (pert dx j)) u' (nxt (im_k (z_x s))) - aff_h (aff_f x u (im_k (z_x s))) u' (nxt (im_k (z_x s)))) i 0 / dx j 0) -> M = C.
  move=> u' ->; apply/matrixP => i j; rewrite [LHS]mxE /aff_h /vsum mulmxDr mulmx_pert !mxDE !mxNE mxZE [(col j C) i 0]mxE !mxDE.
  have := dx0 j; mxgen; move=> xj0; field; exact: xj0.
case: ifP => p0 /=.
  case: (boost_assert _ _) => [[]| | |] //=; case: ifP => _ -[_ EM]; exact: (key (match u1 with Ok u => u | _ => 0 end)).
by case=> _ EM; apply: (key 0).
Qed.
End Aff.
