(** Extended Kalman filter: the cache of predictions, and comparison with the linear filter. *)
From Coq Require Import ZArith List Lia.
From mathcomp Require Import all_ssreflect all_algebra.
From Verif Require Import Base Defs ZDO ZDORel ZDOTime MxLib Cholesky Kalman KFilter KFProofs LKFRel.
Set Implicit Arguments.
Unset Strict Implicit.
Unset Printing Implicit Defensive.
Import Order.TTheory GRing.Theory Num.Theory.
Open Scope ring_scope.

Section Eq.
Context {X Y U E : Type}.
Variables (st1 st2 : @stepfun X Y U E) (md : mode) (J : zdo X Y U E -> Prop).
Hypothesis H1 : forall s, J s -> local_step st1 md s = local_step st2 md s.
Hypothesis H2 : forall s s', J s -> local_step st2 md s = Ok s' -> J s'.
Hypothesis H3 : forall s y, J s -> J (with_y s y).
Hypothesis H4 : forall s u, J s -> J (with_u s u).

Lemma z_iter_J k s s' : J s -> z_iter (local_step st2) md k s = Ok s' -> J s'.
Proof.
move=> Js; rewrite /z_iter; case E2 : (local_step st2 md s) => [s1| | |] //=.
have J1 := H2 Js E2; case: (Z.ltb _ _) => /=.
  case: (ia_popFront _ _) => //= y'; case: (Z.ltb _ _) => [|[<-]]; last exact: H3.
  case: (Z.ltb _ _) => [|[<-]]; last exact: H3.
  by case: (ia_popFront _ _) => //= u' [<-]; apply: H4; exact: H3.
case: (Z.ltb _ _) => [|[<-] //]; case: (Z.ltb _ _) => [|[<-] //].
by case: (ia_popFront _ _) => //= u' [<-]; exact: H4.
Qed.

Lemma z_iter_eq k s : J s -> z_iter (local_step st1) md k s = z_iter (local_step st2) md k s.
Proof. by move=> Js; rewrite /z_iter H1. Qed.

Lemma oiter_eqJ k i s : J s ->
  oiter i (z_iter (local_step st1) md k) s = oiter i (z_iter (local_step st2) md k) s /\
  forall s', oiter i (z_iter (local_step st2) md k) s = Ok s' -> J s'.
Proof.
elim: i s => [|i IH] s Js /=; first by split=> // s' [<-].
rewrite z_iter_eq //; case Ei : (z_iter _ md k s) => [s1| | |] //=; exact: IH (z_iter_J Js Ei).
Qed.

Lemma getEst_eqJ k s : J s ->
  z_getEstimatedState (local_step st1) md k s = z_getEstimatedState (local_step st2) md k s /\
  forall r, z_getEstimatedState (local_step st2) md k s = Ok r -> J r.1.
Proof.
move=> Js; rewrite /z_getEstimatedState; case: (boost_assert _ _) => //= _; case: (z_time _ _) => //= k0.
case: (boost_assert _ _) => //= _.
have [E1 E2] := oiter_eqJ k (Z.to_nat (Z.sub k k0)) Js; rewrite E1; split=> // r.
case Eo : (oiter _ _ _) => [s1| | |] //=; case: (im_get _ _) => //= x [<-] /=; exact: E2.
Qed.

(** The same for every call, when J only constrains the derived class state and the time. *)
Variables (sx : X -> Z) (sy : Y -> Z) (su : U -> Z) (Q : E -> Z -> Prop).
Hypothesis JQ : forall s, J s <-> Q (z_e s) (im_k (z_x s)).

Lemma z_step_eqJ o s : J s -> (forall x k, o = ZSetState x k -> Q (z_e s) k) ->
  z_step sx sy su (local_step st1) md o s = z_step sx sy su (local_step st2) md o s /\
  forall s', z_step sx sy su (local_step st2) md o s = Ok s' -> J s'.
Proof.
move=> Js.
have Hk s' : z_e s' = z_e s -> im_k (z_x s') = im_k (z_x s) -> J s'.
  by move=> e1 e2; apply/JQ; rewrite e1 e2; apply/JQ.
case: o => [x k|x| |y k|y| |u k|u| | |k|k|k| |k] Ho; rewrite /z_step;
  try by split=> // s' [<-]; exact: Hk.
- split=> // s'; rewrite /z_setState /z_time /im_time; case: (boost_assert _ _) => //= _.
  by rewrite Z.ltb_irrefl; case: (Z.ltb _ _) => [] [<-]; apply/JQ; exact: (Ho _ _ erefl).
- by split=> // s'; rewrite /z_setCurrentState; do 2!(case: (boost_assert _ _) => //= _); case=> <-; exact: Hk.
- split=> // s'; rewrite /z_setMeasurement; case: (boost_assert _ _) => //= _.
  by case: (if _ then _ else _) => //= _; case: (ia_setValue _ _ _ _) => //= y' [<-]; exact: Hk.
- split=> // s'; rewrite /z_pushMeasurement; case: (boost_assert _ _) => //= _.
  case: ifP => _; first by case=> <-; exact: Hk.
  case: (boost_assert _ _) => //= _; case: (im_time _ _) => //= t; by case: (ia_setValue _ _ _ _) => //= y' [<-]; exact: Hk.
- split=> // s'; rewrite /z_setInput; case: ifP => _; last by case=> <-.
  case: (boost_assert _ _) => //= _.
  by case: (if _ then _ else _) => //= _; case: (ia_setValue _ _ _ _) => //= y' [<-]; exact: Hk.
- split=> // s'; rewrite /z_pushInput; case: ifP => _; last by case=> <-.
  case: (boost_assert _ _) => //= _; case: ifP => _; first by case=> <-; exact: Hk.
  case: (boost_assert _ _) => //= _; case: (im_time _ _) => //= t; by case: (ia_setValue _ _ _ _) => //= y' [<-]; exact: Hk.
- by split=> // s' [<-]; rewrite /z_setStateSize; case: ifP => // _; exact: Hk.
- by split=> // s' [<-]; rewrite /z_setMeasureSize; case: ifP => // _; exact: Hk.
- by split=> // s' [<-]; rewrite /z_setInputSize; case: ifP => // _; exact: Hk.
- rewrite /z_estimateState /omap; case: (Z.ltb _ _); rewrite [obind (Ok _) _]/=; last first.
    by split=> // s'; case: (z_time _ _) => //= t [<-].
  have [Eg0 Hj] := getEst_eqJ (ia_last (z_y s)) Js.
  rewrite (_ : boost_assert md true = Ok tt) // [obind (Ok tt) _]/= ![obind (Ok (ia_last _)) _]/= Eg0.
  split=> // s'; case Eg : (z_getEstimatedState _ _ _ _) => [r| | |] //=.
  by case: (z_time _ _) => //= t [<-]; exact: Hj Eg.
- rewrite /omap; have [-> Hj] := getEst_eqJ k Js; split=> // s'.
  by case Eg : (z_getEstimatedState _ _ _ _) => [r| | |] //= [<-]; exact: Hj Eg.
Qed.
End Eq.

Section EKF.
Variable R : rcfType.
Variables (n nt m mt p : nat).
Notation X := 'cV[R]_n.
Notation Y := 'cV[R]_m.
Notation U := 'cV[R]_p.
Notation kfe := (kfe R n nt m mt p).
Notation kf := (zdo X Y U kfe).
Variable f : X -> U -> Z -> X.
Variable h : X -> U -> Z -> Y.
Variables (ff_out ff_state : bool).
Variable ssum : X -> 'cV[R]_nt -> X.
Variable mdiff : Y -> Y -> 'cV[R]_mt.

(** The prediction recomputed at every step: the specification of prediction_() and
    predictSensor_() without their caches. *)
Definition ekf_fresh : @predfun R n nt m mt p := fun md e k x u0 u1 =>
  do u <- (if (0 < p)%N && ff_state then u0 else Ok 0);
  do y <- ekf_sensor h ff_out md (f x u k) (nxt k) u1;
  Ok (im_put (f x u k) (nxt k), im_put y (nxt k)).

Notation pc := (@ekf_predict R n nt m mt p f h ff_out ff_state).

(** No cached prediction is for a time after k. *)
Definition cached_upto (e : kfe) (k : Z) : Prop :=
  (im_set (kxbar e) -> Z.le (im_k (kxbar e)) k) /\ (im_set (kybar e) -> Z.le (im_k (kybar e)) k).

Lemma ekf_predict_fresh md e k x u0 u1 : cached_upto e k ->
  pc md e k x u0 u1 = ekf_fresh md e k x u0 u1.
Proof.
case=> Hx Hy; rewrite /ekf_predict /ekf_fresh.
have -> : im_set (kxbar e) && Z.eqb (im_k (kxbar e)) (nxt k) = false.
  case Es : (im_set _) => //=; have := Hx Es => H; apply/Z.eqb_neq; lia.
have -> : im_set (kybar e) && Z.eqb (im_k (kybar e)) (nxt k) = false.
  case Es : (im_set _) => //=; have := Hy Es => H; apply/Z.eqb_neq; lia.
case: (if _ then u0 else _) => //= u; rewrite /im_get /=; case: (ekf_sensor _ _ _ _ _ _) => //=.
Qed.

Definition Jc (s : kf) : Prop := cached_upto (z_e s) (im_k (z_x s)).

Lemma kf_step_fresh_cached md e k x y u v x' e' :
  kf_step ekf_fresh ssum mdiff md e k x y u v = Ok (x', e') -> cached_upto e' (nxt k).
Proof.
case/kf_step_inv=> A' [C' [Q' [Rm' [P' [_]]]]].
case=> K [P'' [xy [xb [yb [y' [[_ Ep _ _ _] [_ ->]]]]]]].
move: Ep; rewrite /ekf_fresh; case: (if _ then u else _) => //= u'; case: (ekf_sensor _ _ _ _ _ _) => //= z [<-].
by case: e => *; split=> _ /=; lia.
Qed.

Lemma local_fresh md s : Jc s ->
  local_step (kf_step pc ssum mdiff) md s = local_step (kf_step ekf_fresh ssum mdiff) md s.
Proof.
move=> Js; rewrite /local_step /z_time /im_time; case: (boost_assert _ _) => //= _.
case: (im_get _ _) => //= x; congr obind; rewrite /kf_step.
by rewrite ekf_predict_fresh.
Qed.

Lemma local_Jc md s s' : local_step (kf_step ekf_fresh ssum mdiff) md s = Ok s' -> Jc s'.
Proof.
rewrite /local_step; case: (z_time _ _) => //= k; case: (im_get _ _) => //= x.
case Es : (kf_step _ _ _ _ _ _ _ _ _ _) => [[x' e']| | |] //= [<-]; exact: kf_step_fresh_cached Es.
Qed.

(** Calls that leave no prediction for a later time in the caches. *)
Definition no_stale (s : kf) (o : kop R n nt m mt p) : Prop :=
  match o with
  | KZ (ZSetState _ k) => cached_upto (z_e s) k
  | KPredict => False
  | _ => True
  end.

Lemma k_step_fresh md o s : Jc s -> no_stale s o ->
  k_step pc ssum mdiff md o s = k_step ekf_fresh ssum mdiff md o s /\
  forall s', k_step ekf_fresh ssum mdiff md o s = Ok s' -> Jc s'.
Proof.
move=> Js; case: o => [o|ks|] Ho; rewrite /k_step; last by [].
  2: by split=> // s' [<-]; move: Js; rewrite /Jc /=; case: (z_e s) => a c q r pr b d xb yb i g; case: (ks).
case Hr : (resizes o); first by split.
have HE : z_step (@sxn R n) (@sym_ R m) (@sup R p) (local_step (kf_step pc ssum mdiff)) md o s =
          z_step (@sxn R n) (@sym_ R m) (@sup R p) (local_step (kf_step ekf_fresh ssum mdiff)) md o s /\
   forall s', z_step (@sxn R n) (@sym_ R m) (@sup R p) (local_step (kf_step ekf_fresh ssum mdiff)) md o s = Ok s' -> Jc s'.
  apply: (@z_step_eqJ _ _ _ _ _ _ md Jc (@local_fresh md) (fun s s' _ => @local_Jc md s s')
     (fun s y Js => Js) (fun s u Js => Js) _ _ _ cached_upto (fun s => iff_refl _) o s Js).
  by move=> x k eo; move: Ho; rewrite eo.
case: HE => -> Hj; split=> // s'.
case Es : (z_step _ _ _ _ _ _ _) => [s1| | |] //=.
have J1 := Hj _ Es.
have J2 : Jc (with_e s1 (k_set (SetP n m mt p None) (z_e s1))) by move: J1; rewrite /Jc /=; case: (z_e s1).
by case: (o) => [x k|x| |y k|y| |u k|u| | |k|k|k| |k] [<-].
Qed.

Fixpoint no_stale_history md ops s : Prop :=
  match ops with
  | nil => True
  | o :: os => no_stale s o /\
      match k_step pc ssum mdiff md o s with Ok s' => no_stale_history md os s' | _ => True end
  end.

Lemma ekf_run_fresh md ops s : Jc s -> no_stale_history md ops s ->
  k_run pc ssum mdiff md ops s = k_run ekf_fresh ssum mdiff md ops s.
Proof.
elim: ops s => [//|o os IH] s Js /= [Ho Hos]; rewrite /k_run /=.
have [E Hj] := k_step_fresh md Js Ho; rewrite E in Hos *.
case Es : (k_step _ _ _ _ _ _) Hos => [s1| | |] //= Hos; exact: IH (Hj _ Es) Hos.
Qed.

(** A prediction cached for the next time makes the step ignore the state. *)
Lemma ekf_step_stale md e k x x' y u0 u1 :
  im_set (kxbar e) -> im_k (kxbar e) = nxt k ->
  kf_step pc ssum mdiff md e k x y u0 u1 = kf_step pc ssum mdiff md e k x' y u0 u1.
Proof. by rewrite /kf_step /ekf_predict => -> ->; rewrite Z.eqb_refl. Qed.
End EKF.

(** ** The extended filter on a linear model *)
Section Lin.
Variable R : rcfType.
Variables (n m p : nat).
Notation kfe := (kfe R n n m m p).
Variables (A : 'M[R]_n) (B : 'M[R]_(n, p)) (C : 'M[R]_(m, n)) (D : 'M[R]_(m, p)).
Definition lin_f (x : 'cV[R]_n) (u : 'cV[R]_p) (_ : Z) := A *m x + B *m u.
Definition lin_h (x : 'cV[R]_n) (u : 'cV[R]_p) (_ : Z) := C *m x + D *m u.

Definition lin_mats (e : kfe) : Prop :=
  [/\ forall M, kA e = Some M -> M = A, forall M, kC e = Some M -> M = C, kB e = Some B &
      kD e = Some D].

(** Setter calls allowed: the model matrices are those of the functor. *)
Definition lin_set (ks : kset R n n m m p) : Prop :=
  match ks with
  | SetA (Some M) => M = A
  | SetC (Some M) => M = C
  | SetB b => b = Some B
  | SetD d => d = Some D
  | _ => True
  end.
Notation lp := (@lkf_predict R n m p).
Notation ep := (@ekf_fresh R n n m m p lin_f lin_h (D != 0) (B != 0)).

Lemma p0u : (0 < p)%N = false -> forall (w : 'cV[R]_p), w = 0.
Proof. by move=> p0 w; apply/matrixP => i; have := ltn_ord i; rewrite (leq_trans _ (ltn_ord i)) // in p0. Qed.

(** Debug reads either succeed or fail by assertion. *)
Definition dread {T} (o : outcome T) := match o with Ok _ | AssertFail => True | _ => False end.

Lemma ia_get_dread {T} (a : iarr T) t : dread (ia_get Debug a t).
Proof.
rewrite /ia_get /boost_assert; case E : (ia_checkIndex a t) => //=; rewrite /ia_at.
move: E; rewrite /ia_checkIndex /ia_size => /andP[/andP[_ /Z.leb_le H1] /Z.ltb_lt H2].
move/Z.leb_le: (H1) => ->; case En : (nth_error _ _) => [v|] //.
by move/nth_error_None: En; lia.
Qed.

Lemma lin_pred e k x u v : lin_mats e -> kA e = Some A -> kC e = Some C -> dread u -> dread v ->
  lp Debug e k x u v = ep Debug e k x u v.
Proof.
case=> _ _ EB ED EA EC du dv; rewrite /ekf_fresh /lkf_predict EA EC EB ED /= /lin_f.
have Hs : forall xb, ekf_sensor lin_h (D != 0) Debug xb (nxt k) v =
   (if (0 < p)%N && (D != 0) then do u0 <- v; Ok (C *m xb + D *m u0) else Ok (C *m xb)).
  move=> xb; rewrite /ekf_sensor /lin_h; case: ifP => p0 /=; last by rewrite mulmx0 addr0.
  case D0 : (D == 0) => /=; last by case: v dv.
  by rewrite (eqP D0) mul0mx addr0.
case p0 : (0 < p)%N => /=; last by rewrite mulmx0 addr0 Hs p0.
case B0 : (B == 0) => /=; first by rewrite mulmx0 addr0 Hs p0.
by case: u du => //= a _; rewrite Hs p0.
Qed.

Lemma lin_step e k x y u v : lin_mats e -> dread u -> dread v ->
  lkf_step Debug e k x y u v = kf_step ep (@vsum R n) (@vdiff R m) Debug e k x y u v.
Proof.
move=> He du dv; rewrite /lkf_step /kf_step; case: (boost_assert _ _) => //= _.
case: (He) => mA mC _ _.
case EA : (kA e) => [M|] //=; case EC : (kC e) => [N|] //=.
case: (kQ e) => //= Q; case: (kR e) => //= Rm; case: (kP e) => //= P.
by rewrite (lin_pred k x He) // ?EA ?EC; rewrite ?(mA _ EA) ?(mC _ EC).
Qed.

Notation kf := (zdo 'cV[R]_n 'cV[R]_m 'cV[R]_p kfe).
Definition Jl (s : kf) : Prop := lin_mats (z_e s).

Lemma lin_local s : Jl s ->
  local_step (@lkf_step R n m p) Debug s = local_step (kf_step ep (@vsum R n) (@vdiff R m)) Debug s.
Proof.
move=> Js; rewrite /local_step; case: (z_time _ _) => //= k; case: (im_get _ _) => //= x.
by rewrite lin_step //; exact: ia_get_dread.
Qed.

Lemma lin_local_J s s' : Jl s -> local_step (kf_step ep (@vsum R n) (@vdiff R m)) Debug s = Ok s' -> Jl s'.
Proof.
rewrite /local_step /Jl => Js; case: (z_time _ _) => //= k; case: (im_get _ _) => //= x.
case Es : (kf_step _ _ _ _ _ _ _ _ _ _) => [[x' e']| | |] //= [<-] /=.
move/kf_step_inv: Es; case=> A' [C' [Q' [Rm' [P' [_]]]]].
case=> K [P'' [xy [xb [yb [y' [_ [_ ->]]]]]]].
by move: Js; case: (z_e s) => a c q r pr b d xb' yb' i g; case.
Qed.

(** Calls: model matrices as in the functor, no explicit prediction. *)
Definition lin_op (o : kop R n n m m p) : Prop :=
  match o with KS ks => lin_set ks | KPredict => False | _ => True end.

Lemma lin_k_step o s : Jl s -> lin_op o ->
  k_step lp (@vsum R n) (@vdiff R m) Debug o s = k_step ep (@vsum R n) (@vdiff R m) Debug o s /\
  forall s', k_step ep (@vsum R n) (@vdiff R m) Debug o s = Ok s' -> Jl s'.
Proof.
move=> Js; case: o => [o|ks|] Ho; rewrite /k_step; last by [].
  2: split=> // s' [<-]; move: Js Ho; rewrite /Jl /=; case: (z_e s) => a c q r pr b d xb yb i g [].
  2: by rewrite /lin_mats /= => mA mC eb ed; case: (ks) => [] [M|] //= hM; split=> //; try (by move=> ? []); move=> ? [<-].
case Hr : (resizes o); first by split.
have [-> Hj] := @z_step_eqJ _ _ _ _ _ _ Debug Jl lin_local lin_local_J
     (fun s y Js => Js) (fun s u Js => Js) (@sxn R n) (@sym_ R m) (@sup R p) (fun e _ => lin_mats e)
     (fun s => iff_refl _) o s Js (fun _ _ _ => Js).
split=> // s'; case Es : (z_step _ _ _ _ _ _ _) => [s1| | |] //=.
have J1 := Hj _ Es.
have J2 : Jl (with_e s1 (k_set (SetP n m m p None) (z_e s1))) by move: J1; rewrite /Jl /=; case: (z_e s1).
by case: (o) => [x k|x| |y k|y| |u k|u| | |k|k|k| |k] [<-].
Qed.

Lemma lin_run ops s : Jl s -> List.Forall lin_op ops ->
  lkf_run Debug ops s = k_run ep (@vsum R n) (@vdiff R m) Debug ops s.
Proof.
move=> Js Ho; elim: Ho s Js => [//|o os Hop _ IH] s Js; rewrite /lkf_run /k_run /=.
have [-> Hj] := lin_k_step Js Hop.
case Es : (k_step _ _ _ _ _ _) => [s1| | |] //=; exact: IH (Hj _ Es).
Qed.
End Lin.
