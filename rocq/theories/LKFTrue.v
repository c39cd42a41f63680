(** Linear Kalman filter fed with the data of a noise-free linear system. *)
From Coq Require Import ZArith List.
From mathcomp Require Import all_ssreflect all_algebra.
From Verif Require Import Base Defs ZDO ZDORel ZDOTime MxLib Cholesky Kalman KFilter KFProofs LKFRel.
Set Implicit Arguments.
Unset Strict Implicit.
Unset Printing Implicit Defensive.
Import Order.TTheory GRing.Theory Num.Theory.
Open Scope ring_scope.

Section Truth.
Variable R : rcfType.
Variables (n m p : nat).
Variables (A : 'M[R]_n) (B : 'M[R]_(n, p)) (C : 'M[R]_(m, n)) (D : 'M[R]_(m, p)).
(** The trajectory, inputs and measurements of the true system. *)
Variables (xt : Z -> 'cV[R]_n) (ut : Z -> 'cV[R]_p) (yt : Z -> 'cV[R]_m).

(** A setter call gives the true model matrices; covariances are arbitrary. *)
Definition true_set (ks : kset R n n m m p) : Prop :=
  match ks with
  | SetA (Some A') => A' = A
  | SetC (Some C') => C' = C
  | SetB (Some B') => B' = B
  | SetD (Some D') => D' = D
  | SetD None => D = 0
  | _ => True
  end.

(** A call gives the true data for the time index it is recorded at. *)
Definition true_op (s : zdo 'cV[R]_n 'cV[R]_m 'cV[R]_p (kfe R n n m m p)) (o : kop R n n m m p) : Prop :=
  match o with
  | KZ o => top_ok (fun k x => x = xt k) (fun k y => y = yt k) (fun k u => u = ut k) s o
  | KS ks => true_set ks
  | KPredict => True
  end.

Fixpoint true_history ops s : Prop :=
  match ops with
  | nil => True
  | o :: os => true_op s o /\
      match k_step (@lkf_predict R n m p) (@vsum R n) (@vdiff R m) Debug o s with
      | Ok s' => true_history os s'
      | _ => True
      end
  end.

Definition true_mats (e : kfe R n n m m p) : Prop :=
  [/\ forall M, kA e = Some M -> M = A, forall M, kB e = Some M -> M = B,
      forall M, kC e = Some M -> M = C, forall M, kD e = Some M -> M = D & kD e = None -> D = 0].

Hypothesis dyn : forall k, xt (nxt k) = A *m xt k + B *m ut k.
Hypothesis meas : forall k, yt k = C *m xt k + D *m ut k.

Lemma lkf_predict_true e k x u v xy : true_mats e -> x = xt k ->
  (forall a, u = Ok a -> a = ut k) -> (forall a, v = Ok a -> a = ut (nxt k)) ->
  lkf_predict Debug e k x u v = Ok xy -> xy = (im_put (xt (nxt k)) (nxt k), im_put (yt (nxt k)) (nxt k)).
Proof.
case=> mA mB mC mD mD0 -> Hu Hv; rewrite /lkf_predict.
case EA : (kA e) => [A'|] //=; rewrite (mA _ EA).
case EB : (kB e) => [B'|] //=; rewrite (mB _ EB).
case EC : (kC e) => [C'|] //=; rewrite (mC _ EC).
have p0u : (0 < p)%N = false -> forall (w : 'cV[R]_p), w = 0.
  by move=> p0 w; apply/matrixP => i; have := ltn_ord i; rewrite (leq_trans _ (ltn_ord i)) // in p0.
have Hxb : forall xb, (if (0 < p)%N then if B == 0 then Ok (A *m xt k) else do u0 <- u; Ok (A *m xt k + B *m u0) else Ok (A *m xt k)) = Ok xb ->
   xb = xt (nxt k).
  move=> xb; case: ifP => p0.
    case: eqP => [B0 [<-]|_]; first by rewrite dyn B0 mul0mx addr0.
    by case: u Hu => //= a Ha [<-]; rewrite (Ha a erefl) dyn.
  by case=> <-; rewrite dyn (p0u p0 (ut k)) mulmx0 addr0.
case Exb : (if (0 < p)%N then _ else _) => [xb| | |] //=; rewrite (Hxb _ Exb).
case ED : (kD e) => [D'|]; last first.
  by case=> <-; rewrite meas (mD0 ED) mul0mx addr0.
rewrite (mD _ ED); case: ifP => [/andP[p0 D0]|p0D].
  by case: v Hv => //= a Ha [<-]; rewrite (Ha a erefl) meas.
case=> <-; rewrite meas; move: p0D; case: (boolP (0 < p)%N) => [_ /eqP ->|/negPf p0 _]; first by rewrite mul0mx addr0.
by rewrite (p0u p0 (ut (nxt k))) mulmx0 addr0.
Qed.

Lemma lkf_step_true e k x y u v x' e' : true_mats e -> x = xt k ->
  (forall a, y = Ok a -> a = yt (nxt k)) -> (forall a, u = Ok a -> a = ut k) ->
  (forall a, v = Ok a -> a = ut (nxt k)) ->
  lkf_step Debug e k x y u v = Ok (x', e') -> x' = xt (nxt k) /\ true_mats e'.
Proof.
move=> He Hx Hy Hu Hv /kf_step_inv.
case=> A' [C' [Q' [Rm' [P' [_]]]]].
case=> K [P'' [xy [xb [yb [y' [[Ek Ep Ex Ey Ey'] [-> ->]]]]]]].
rewrite (lkf_predict_true He Hx Hu Hv Ep) in Ex Ey *.
move: Ex Ey => /= [<-] [<-]; rewrite (Hy _ Ey') /vsum /vdiff subrr mulmx0 addr0; split=> //.
by case: e He {Ep} => a c q r pr b d xb0 yb0 i g [].
Qed.

Notation PX := (fun k x => x = xt k).
Notation PY := (fun k y => y = yt k).
Notation PU := (fun k u => u = ut k).
Notation J := (tinv PX PY PU true_mats).

Lemma k_step_true o s s' : J s -> true_op s o ->
  k_step (@lkf_predict R n m p) (@vsum R n) (@vdiff R m) Debug o s = Ok s' -> J s'.
Proof.
case: o => [o|ks|] Js /= Ho.
- case: ifP => // _; case Es : (z_step _ _ _ _ _ _ _) => [s1| | |] //= H.
  have J1 : J s1.
    apply: (z_step_tinv _ _ _ PX PY PU true_mats _ _ _ _ _ Js Ho Es).
    by move=> e k x y u v x' e' He Hx Hy Hu Hv; exact: lkf_step_true.
  have J2 : J (with_e s1 (k_set (SetP n m m p None) (z_e s1))).
    by case: J1 => Hx [Hy [Hu He]]; split=> //; split=> //; split=> //=; case: (z_e s1) He.
  by case: o Es H Ho {Js} => [x k|x| |y k|y| |u k|u| | |k|k|k| |k] Es [<-] _.
- case=> <-; case: Js => Hx [Hy [Hu He]]; split=> //; split=> //; split=> //=.
  case: (z_e s) He => a c q r pr b d xb yb i g [H1 H2 H3 H4 H5].
  case: ks Ho => [] [M|] //=; rewrite /true_mats /= => HM; split=> // M' [<-] //.
- rewrite /k_predict; case: (z_time _ s) => //= k; case: (im_get _ _) => //= x.
  case: (lkf_predict _ _ _ _ _ _) => //= xy [<-].
  by case: Js => Hx [Hy [Hu He]]; split=> //; split=> //; split=> //=; case: (z_e s) He.
Qed.

Lemma lkf_run_true ops s s' : J s -> true_history ops s -> lkf_run Debug ops s = Ok s' -> J s'.
Proof.
elim: ops s => [|o os IH] s Js /=; first by move=> _ [<-].
case=> Ho Hos; rewrite /lkf_run /k_run /=.
case Es : (k_step _ _ _ _ _ _) Hos => [s1| | |] //= Hos H.
exact: IH (k_step_true Js Ho Es) Hos H.
Qed.
End Truth.
