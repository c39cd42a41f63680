(** Components of the state that a Kalman filter never corrects. *)
From Coq Require Import ZArith List.
From mathcomp Require Import all_ssreflect all_algebra.
From Verif Require Import Base Defs ZDO ZDORel ZDOTime MxLib Cholesky Kalman KFilter KFProofs.
Set Implicit Arguments.
Unset Strict Implicit.
Unset Printing Implicit Defensive.
Import Order.TTheory GRing.Theory Num.Theory.
Open Scope ring_scope.

(** Row and column i are zero. *)
Definition mute {R : rcfType} {n} (i : 'I_n) (M : 'M[R]_n) : Prop := forall j, M i j = 0 /\ M j i = 0.
(** Row i is a multiple of the i-th unit row. *)
Definition alone {R : rcfType} {n} (i : 'I_n) (M : 'M[R]_n) : Prop := forall j, j != i -> M i j = 0.

Section Cov.
Variable R : rcfType.
Variables (n m : nat).
Variable i : 'I_n.

Lemma mute_pbar (A Q P : 'M[R]_n) : alone i A -> mute i Q -> mute i P -> mute i (k_pbar A Q P).
Proof.
move=> HA HQ HP j; rewrite /k_pbar !mxE (HQ j).1 (HQ j).2 !add0r; split.
- rewrite big1 // => k _; have [->|ki] := eqVneq k i; last by rewrite HA // mul0r.
  by rewrite mxE big1 ?mulr0 // => l _; rewrite (HP l).1 mul0r.
- rewrite big1 // => k _; rewrite mxE big1 ?mulr0 // => l _.
  have [->|li] := eqVneq l i; first by rewrite (HP k).2 mul0r.
  by rewrite !mxE HA // mulr0.
Qed.

Lemma mute_gain (C : 'M[R]_(m, n)) (Pb : 'M[R]_n) (Si : 'M[R]_m) j : mute i Pb -> k_gain C Pb Si i j = 0.
Proof. by move=> H; rewrite /k_gain mxE big1 // => k _; rewrite (H k).1 mul0r. Qed.

Lemma mute_cov (A Q P : 'M[R]_n) (C : 'M[R]_(m, n)) Rm K P' : alone i A -> mute i Q -> mute i P ->
  k_cov A C Q Rm P = Some (K, P') -> (forall j, K i j = 0) /\ mute i P'.
Proof.
move=> HA HQ HP; have Hb := mute_pbar HA HQ HP; rewrite /k_cov.
case: chol_inverse => [Si|] // [<- <-]; split; first by move=> j; exact: mute_gain.
have U : mute i (k_covUpdate C (k_gain C (k_pbar A Q P) Si) (k_pbar A Q P)).
  move=> j; rewrite /k_covUpdate; split; rewrite mxE big1 // => k _; last by rewrite (Hb k).2 mulr0.
  have [->|ki] := eqVneq k i; first by rewrite (Hb j).1 mulr0.
  rewrite mxE [(1%:M : 'M_n) _ _]mxE eq_sym (negPf ki) addr0 mxE big1 ?mul0r // => l _.
  by rewrite mxE mute_gain // oppr0 mul0r.
by move: (k_covUpdate _ _ _) U => M U j; rewrite /k_symmetrize !mxE (U j).1 (U j).2 addr0 mulr0.
Qed.
End Cov.

Section Frozen.
Variable R : rcfType.
Variables (n m p : nat).
Variable mt : nat.
Variable mdiff : 'cV[R]_m -> 'cV[R]_m -> 'cV[R]_mt.
Variable predict : @predfun R n n m mt p.
Variable i : 'I_n.
Variable b : R.
Notation kfe := (kfe R n n m mt p).
Notation st := (zdo 'cV[R]_n 'cV[R]_m 'cV[R]_p kfe).

(** What a setter gives: the dynamics leave component i to itself, and it has no process
    noise and no uncertainty. *)
Definition mute_set (ks : kset R n n m mt p) : Prop :=
  match ks with
  | SetA (Some A) => alone i A
  | SetQ (Some Q) => mute i Q
  | SetP (Some P) => mute i P
  | _ => True
  end.

(** States given have value b at component i. *)
Definition mute_op (o : kop R n n m mt p) : Prop :=
  match o with
  | KZ (ZSetState x _) => x i 0 = b
  | KZ (ZSetCurrentState x) => x i 0 = b
  | KS ks => mute_set ks
  | _ => True
  end.

Definition mute_e (e : kfe) : Prop :=
  [/\ forall M, kA e = Some M -> alone i M, forall M, kQ e = Some M -> mute i M,
      forall M, kP e = Some M -> mute i M & forall v, im_v (kxbar e) = Some v -> v i 0 = b].

Hypothesis Hp : forall e k (x : 'cV[R]_n) u v xy, mute_e e -> x i 0 = b -> predict Debug e k x u v = Ok xy ->
  forall w, im_v xy.1 = Some w -> w i 0 = b.

Notation step := (kf_step predict (@vsum R n) mdiff).

Lemma frozen_step e k (x : 'cV[R]_n) y u v (x' : 'cV[R]_n) e' : mute_e e -> x i 0 = b ->
  step Debug e k x y u v = Ok (x', e') -> x' i 0 = b /\ mute_e e'.
Proof.
move=> He Hx /kf_step_inv.
case=> A [C [Q [Rm [P [[EA EC EQ ER EP]]]]]].
case=> K [P' [xy [xb [yb [y' [[Ek Ep Ex Ey Ey'] [-> ->]]]]]]].
have Hxy := Hp He Hx Ep.
case: He => HA HQ HP Hb; have [K0 P0] := mute_cov (HA _ EA) (HQ _ EQ) (HP _ EP) Ek; split.
  rewrite /vsum mxE [X in _ + X]mxE big1 ?addr0; last by move=> j _; rewrite K0 mul0r.
  move: Ex; rewrite /im_get; case: (boost_assert _ _) => //= _; case E : (im_v _) => [w|] // [<-]; exact: Hxy.
case: e {Ek Ep Hb} EA EC EQ ER EP HA HQ HP => a c q r pr bb d xb0 yb0 ii g /= _ _ _ _ _ HA HQ HP.
by split=> //= M [<-].
Qed.

Notation J := (tinv (fun _ (x : 'cV[R]_n) => x i 0 = b) (fun _ _ => True) (fun _ _ => True) mute_e).

Lemma frozen_op o (s s' : st) : J s -> mute_op o ->
  k_step predict (@vsum R n) mdiff Debug o s = Ok s' -> J s'.
Proof.
case: o => [o|ks|] Js /= Ho.
- case: ifP => // _; case Es : (z_step _ _ _ _ _ _ _) => [s1| | |] //= H.
  have J1 : J s1.
    apply: (z_step_tinv _ _ _ (fun _ (x : 'cV[R]_n) => x i 0 = b) (fun _ _ => True) (fun _ _ => True) mute_e _ _ _ _ _ Js _ Es).
      by move=> e k x y u v x' e' He Hx _ _ _; exact: frozen_step.
    by case: o Ho {Es H}.
  have J2 : J (with_e s1 (k_set (SetP n m mt p None) (z_e s1))).
    by case: J1 => Hx [Hy [Hu He]]; split=> //; split=> //; split=> //=; case: (z_e s1) He => ? ? ? ? ? ? ? ? ? ? ? [].
  by case: o Es H Ho {Js} => [x k|x| |y k|y| |u k|u| | |k|k|k| |k] Es [<-] _.
- case=> <-; case: Js => Hx [Hy [Hu He]]; split=> //; split=> //; split=> //=.
  case: (z_e s) He => a c q r pr bb d xb yb ii g [/= H1 H2 H3 H4].
  by case: ks Ho => [] [M|] //= HM; split=> //= M' [<-].
- rewrite /k_predict; case: (z_time _ s) => //= k; rewrite /im_get /boost_assert; case: ifP => //= Hs.
  case Ex : (im_v _) => [x|] //=.
  case Ep : (predict _ _ _ _ _ _) => [xy| | |] //= [<-].
  case: Js => Hx [Hy [Hu He]]; split=> //; split=> //; split=> //=.
  have Hw := Hp He (Hx Hs _ Ex) Ep.
  by case: (z_e s) He Hw {Ep} => ? ? ? ? ? ? ? ? ? ? ? [] /=.
Qed.

Lemma frozen_run ops (s s' : st) : J s -> List.Forall mute_op ops ->
  k_run predict (@vsum R n) mdiff Debug ops s = Ok s' -> J s'.
Proof.
elim: ops s => [|o os IH] s Js /= H; first by case=> <-.
rewrite /k_run /=; case Es : (k_step _ _ _ _ _ _) => [s1| | |] //= Hr.
by inversion H; subst; apply: IH Hr => //; apply: frozen_op Es.
Qed.

Lemma frozen_init : J (kf_init R n n m mt p).
Proof.
split; first by [].
split; first by case.
by split; first by case.
Qed.
End Frozen.

(** The extended filter: the dynamics keep component i. *)
Lemma ekf_predict_keeps (R : rcfType) (n m p mt : nat) (i : 'I_n) b (f : 'cV[R]_n -> _) h ffo ffs e k (x : 'cV[R]_n) u v xy :
  (forall (x : 'cV[R]_n) u k, (f x u k : 'cV[R]_n) i 0 = x i 0) -> @mute_e R n m p mt i b e -> x i 0 = b ->
  ekf_predict f h ffo ffs Debug e k x u v = Ok xy -> forall w, im_v xy.1 = Some w -> w i 0 = b.
Proof.
move=> Hf [_ _ _ Hb] Hx; rewrite /ekf_predict.
case: ifP => _ /=.
  case: (if _ then _ else _) => //= yb [<-] /=; exact: Hb.
case: (if _ then u else _) => //= u'.
case: (if _ then _ else _) => //= yb [<-] /= w [<-]; by rewrite Hf.
Qed.

(** ** Example run *)
(** An extended filter with constant dynamics, any linear measurement, process noise and
    initial covariance Q. *)
Definition hold_ops (R : rcfType) n m (C : 'M[R]_(m, n)) (Q : 'M[R]_n) (x : 'cV[R]_n) (y : 'cV[R]_m) :
  list (kop R n n m m 0) :=
  [:: KS (SetA _ _ _ _ (Some 1%:M)); KS (SetC _ _ _ (Some C)); KS (SetQ _ _ _ _ (Some Q));
      KS (SetR _ _ _ _ (Some 1%:M)); KS (SetP _ _ _ _ (Some Q));
      KZ _ _ (ZSetState x Z0); KZ _ _ (ZPushMeas y); KZ _ _ ZEstimate].

Lemma hold_runs (R : rcfType) n m (C : 'M[R]_(m, n)) (Q : 'M[R]_n) (x : 'cV[R]_n) (y : 'cV[R]_m) : psd Q ->
  exists s', k_run (ekf_predict (fun x _ _ => x) (fun x _ _ => C *m x) false false) (@vsum R n) (@vdiff R m) Debug
    (hold_ops C Q x y) (kf_init R n n m m 0) = Ok s' /\ im_k (z_x s') = Zpos xH.
Proof.
move=> pQ; have [K [E _ _ _]] := @k_cov_spec R n m 1%:M C Q 1%:M Q pQ (pd1 R m) pQ.
pose e0 := mkK (Some 1%:M) (Some C) (Some Q) (Some 1%:M) (Some Q) None None im_empty im_empty
   None None : kfe R n n m m 0.
pose s0 := mkZ (Z.of_nat n) (Z.of_nat m) Z0 im_empty ia_empty ia_empty e0
   : zdo 'cV[R]_n 'cV[R]_m 'cV[R]_0 (kfe R n n m m 0).
pose s1 := mkZ (Z.of_nat n) (Z.of_nat m) Z0 (im_put x Z0) ia_empty ia_empty e0
   : zdo 'cV[R]_n 'cV[R]_m 'cV[R]_0 (kfe R n n m m 0).
pose s2 := mkZ (Z.of_nat n) (Z.of_nat m) Z0 (im_put x Z0) (mkIarr (Zpos xH) (y :: nil)) ia_empty e0
   : zdo 'cV[R]_n 'cV[R]_m 'cV[R]_0 (kfe R n n m m 0).
pose stp := k_step (ekf_predict (fun (x : 'cV[R]_n) (_ : 'cV[R]_0) (_ : Z) => x) (fun (x : 'cV[R]_n) (_ : 'cV[R]_0) (_ : Z) => C *m x) false false) (@vsum R n) (@vdiff R m) Debug.
have H1 : stp (KZ _ _ (ZSetState x Z0)) s0 = Ok s1.
  by rewrite /stp /k_step /= /z_setState /sxn Z.eqb_refl.
have H2 : stp (KZ _ _ (ZPushMeas y)) s1 = Ok s2.
  by rewrite /stp /k_step /= /z_pushMeasurement /sym_ Z.eqb_refl.
have [s3 [H3 H4]] : exists s3, stp (KZ _ _ ZEstimate) s2 = Ok s3 /\ im_k (z_x s3) = Zpos xH.
  rewrite /stp /k_step /= /z_estimateState /= /z_getEstimatedState /= /z_iter /= /local_step /= /kf_step /=.
  by rewrite E; eexists; split; first by reflexivity.
exists s3; split=> //.
rewrite /k_run -/stp.
rewrite (_ : orun stp _ _ = obind (stp (KZ _ _ (ZSetState x Z0)) s0)
   (fun s => obind (stp (KZ _ _ (ZPushMeas y)) s) (fun s => obind (stp (KZ _ _ ZEstimate) s) (fun s => Ok s)))); last by [].
move: H1 H2 H3; clearbody stp => H1 H2 H3.
by rewrite H1 /= H2 /= H3.
Qed.
