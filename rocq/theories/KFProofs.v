(** Invariants and relations over histories of Kalman filter calls. *)
From Coq Require Import ZArith List.
From mathcomp Require Import all_ssreflect all_algebra.
From Verif Require Import Base Defs ZDO ZDORel MxLib Cholesky Kalman KFilter.
Set Implicit Arguments.
Unset Strict Implicit.
Unset Printing Implicit Defensive.
Import Order.TTheory GRing.Theory Num.Theory.
Open Scope ring_scope.

Definition eq3 {T} (a b c : T) : Prop := b = a /\ c = a.

Lemma all3_eq {T} (l : list T) : all3 eq3 l l l.
Proof. by elim: l => [|a l IH]; constructor. Qed.
Lemma irel3_eq {T} (a : iarr T) : irel3 eq3 a a a.
Proof. by split=> //; split=> //; exact: all3_eq. Qed.
Lemma mrel3_eq {T} (a : imat T) : mrel3 eq3 a a a.
Proof. by do 4!split=> //; case: (im_v a). Qed.
Lemma oprel3_eq {X Y U} (o : z_op X Y U) : oprel3 eq3 eq3 eq3 o o o.
Proof. by case: o; constructor. Qed.

(** Invariants of the extra state of a zero-delay observer. *)
Lemma z_step_E_inv {X Y U E : Type} (sx : X -> Z) (sy : Y -> Z) (su : U -> Z)
  (st : @stepfun X Y U E) (I : E -> Prop) md o (s s' : zdo X Y U E) :
  (forall e k x y u v r, I e -> st md e k x y u v = Ok r -> I r.2) ->
  z_step sx sy su (local_step st) md o s = Ok s' -> I (z_e s) -> I (z_e s').
Proof.
move=> Hst H Is.
pose RE := fun e1 e2 e3 : E => I e1 /\ eq3 e1 e2 e3.
have Hs : zrel3 eq3 eq3 eq3 RE s s s.
  by do 6!split=> //; split; [exact: mrel3_eq|split; [exact: irel3_eq|split; [exact: irel3_eq|]]].
have Hr : steprel3 eq3 eq3 eq3 RE st st st md.
  move=> e1 e2 e3 k x1 x2 x3 y1 y2 y3 u1 u2 u3 v1 v2 v3 [Ie [-> ->]] [-> ->] Hy Hu Hv.
  have E3 : forall T (a b c : outcome T), orel3 eq3 a b c -> b = a /\ c = a.
    by move=> T [a| | |] [b| | |] [c| | |] //= [-> ->].
  have [-> ->] := E3 _ _ _ _ Hy; have [-> ->] := E3 _ _ _ _ Hu; have [-> ->] := E3 _ _ _ _ Hv.
  case Er : (st md e1 k x1 y1 u1 v1) => [r| | |] //=; split=> //; split=> //; exact: Hst Ie Er.
have G : forall T (f : T -> Z) a b c, eq3 a b c -> f b = f a /\ f c = f a by move=> T f a b c [-> ->].
have := @z_step_rel _ _ _ _ _ _ _ _ _ _ _ _ sx sx sx sy sy sy su su su eq3 eq3 eq3 RE
  (@G _ sx) (@G _ sy) (@G _ su) st st st md o o o s s s Hr (oprel3_eq o) Hs.
rewrite H /= => HR; by case: HR => _ [_] [_] [_] [_] [_] [_] [_] [_] [].
Qed.

Section Inv.
Variable R : rcfType.
Variables (n nt m mt p : nat).
Variable predict : @predfun R n nt m mt p.
Variable ssum : 'cV[R]_n -> 'cV[R]_nt -> 'cV[R]_n.
Variable mdiff : 'cV[R]_m -> 'cV[R]_m -> 'cV[R]_mt.
Notation kfe := (kfe R n nt m mt p).
Notation kf := (zdo 'cV[R]_n 'cV[R]_m 'cV[R]_p kfe).
Notation kf_step := (kf_step predict ssum mdiff).

(** What a successful step returns. *)
Lemma kf_step_inv md (e : kfe) k x oy u0 u1 x' e' : kf_step md e k x oy u0 u1 = Ok (x', e') ->
  exists A C Q Rm P, [/\ kA e = Some A, kC e = Some C, kQ e = Some Q, kR e = Some Rm & kP e = Some P] /\
  exists K P' xy xb yb y, [/\ k_cov A C Q Rm P = Some (K, P'), predict md e k x u0 u1 = Ok xy,
     im_get md xy.1 = Ok xb, im_get md xy.2 = Ok yb & oy = Ok y] /\
     x' = ssum xb (K *m mdiff y yb) /\
     e' = k_with_res (k_with_pred e xy) P' (K *m mdiff y yb) K.
Proof.
rewrite /KFilter.kf_step; case: (boost_assert _ _) => //= _.
case: (kA e) => [A|]; last by case: md.
case: (kC e) => [C|]; last by case: md.
case: (kQ e) => [Q|]; last by case: md.
case: (kR e) => [Rm|]; last by case: md.
case: (kP e) => [P|]; last by case: md.
rewrite /=; case Ep : (predict md e k x u0 u1) => [xy| | |] //=.
case Ex : (im_get md xy.1) => [xb| | |] //=; case Ey : (im_get md xy.2) => [yb| | |] //=.
case: oy => [y| | |] //=; case Ek : (k_cov A C Q Rm P) => [[K P']|] //= [<- <-].
exists A, C, Q, Rm, P; split=> //; exists K, P', xy, xb, yb, y; by split.
Qed.

(** The covariance state: everything except the cached predictions and results. *)
Variable I : option 'M[R]_nt -> option 'M[R]_(mt, nt) -> option 'M[R]_nt -> option 'M[R]_mt ->
             option 'M[R]_nt -> Prop.
Definition Ie (e : kfe) := I (kA e) (kC e) (kQ e) (kR e) (kP e).

Hypothesis Istep : forall A C Q Rm P K P', I (Some A) (Some C) (Some Q) (Some Rm) (Some P) ->
  k_cov A C Q Rm P = Some (K, P') -> I (Some A) (Some C) (Some Q) (Some Rm) (Some P').
Hypothesis Iclear : forall a c q r pr, I a c q r pr -> I a c q r None.

(** A history all of whose setter calls preserve [I]. *)
Definition allowed (o : kop R n nt m mt p) : Prop :=
  match o with KS ks => forall e, Ie e -> Ie (k_set ks e) | _ => True end.

Lemma k_step_E_inv md o (s s' : kf) : allowed o ->
  k_step predict ssum mdiff md o s = Ok s' -> Ie (z_e s) -> Ie (z_e s').
Proof.
case: o => [o|ks|] /= Ho.
- case: ifP => // _; case Es : (z_step _ _ _ _ _ _ _) => [s1| | |] //= H Is.
  have I1 : Ie (z_e s1).
    apply: (z_step_E_inv _ Es Is) => e k x y u v [x' e'] I0 /kf_step_inv.
    case=> A [C [Q [Rm [P [[EA EC EQ ER EP] [K [P' [xy [xb [yb [y' [[Ek _ _ _ _] [_ ->]]]]]]]]]]]]].
    move: I0; rewrite /Ie EA EC EQ ER EP => I0.
    have := Istep I0 Ek; by case: e EA EC EQ ER EP => a c q r pr b d xb' yb' i g /= -> -> -> -> _.
  case: o Es H Ho => [x k|x| |y k|y| |u k|u| | |k|k|k| |k] Es [<-] _ //=.
  + by move: I1; rewrite /Ie; case: (z_e s1) => /= a c q r pr *; apply: (Iclear (pr := pr)).
  + by move: I1; rewrite /Ie; case: (z_e s1) => /= a c q r pr *; apply: (Iclear (pr := pr)).
- by move=> [<-] /=; apply: Ho.
- rewrite /k_predict; case: (z_time md s) => //= k; case: (im_get _ _) => //= x.
  case: (predict _ _ _ _ _ _) => //= xy [<-] /=; rewrite /Ie.
  by case: (z_e s).
Qed.

Lemma k_run_E_inv md ops (s s' : kf) : List.Forall allowed ops ->
  k_run predict ssum mdiff md ops s = Ok s' -> Ie (z_e s) -> Ie (z_e s').
Proof.
move=> Ho; elim: Ho s => [|o os Ao _ IH] s /=; first by case=> <-.
rewrite /k_run /=; case Es : (k_step _ _ _ _ _ _) => [s1| | |] //= H Is.
exact: IH H (k_step_E_inv Ao Es Is).
Qed.
End Inv.

(** ** Relations between three filters *)
Section Rel.
Variable R : rcfType.
Variables (n nt m mt p : nat).
Notation X := 'cV[R]_n.
Notation Y := 'cV[R]_m.
Notation U := 'cV[R]_p.
Notation kfe := (kfe R n nt m mt p).
Notation kf := (zdo X Y U kfe).
Variables (pr1 pr2 pr3 : @predfun R n nt m mt p).
Variables (ss1 ss2 ss3 : X -> 'cV[R]_nt -> X).
Variables (md1 md2 md3 : Y -> Y -> 'cV[R]_mt).
Variables (RX : X -> X -> X -> Prop) (RY : Y -> Y -> Y -> Prop) (RU : U -> U -> U -> Prop).
Variable RE : kfe -> kfe -> kfe -> Prop.
(** Related setter calls. *)
Variable RS : kset R n nt m mt p -> kset R n nt m mt p -> kset R n nt m mt p -> Prop.

Inductive koprel3 : kop R n nt m mt p -> kop R n nt m mt p -> kop R n nt m mt p -> Prop :=
| kr_z o1 o2 o3 : oprel3 RX RY RU o1 o2 o3 -> koprel3 (KZ _ _ o1) (KZ _ _ o2) (KZ _ _ o3)
| kr_s k1 k2 k3 : RS k1 k2 k3 -> koprel3 (KS k1) (KS k2) (KS k3)
| kr_p : koprel3 (KPredict _ _ _ _ _ _) (KPredict _ _ _ _ _ _) (KPredict _ _ _ _ _ _).

Variable md : mode.
Hypothesis Hstep : steprel3 RX RY RU RE (kf_step pr1 ss1 md1) (kf_step pr2 ss2 md2) (kf_step pr3 ss3 md3) md.
Hypothesis Hpred : forall e1 e2 e3 k x1 x2 x3 u1 u2 u3 v1 v2 v3,
  RE e1 e2 e3 -> RX x1 x2 x3 -> orel3 RU u1 u2 u3 -> orel3 RU v1 v2 v3 ->
  orel3 (fun a b c => RE (k_with_pred e1 a) (k_with_pred e2 b) (k_with_pred e3 c))
        (pr1 md e1 k x1 u1 v1) (pr2 md e2 k x2 u2 v2) (pr3 md e3 k x3 u3 v3).
Hypothesis Hset : forall k1 k2 k3 e1 e2 e3, RS k1 k2 k3 -> RE e1 e2 e3 ->
  RE (k_set k1 e1) (k_set k2 e2) (k_set k3 e3).
Hypothesis Hclear : forall e1 e2 e3, RE e1 e2 e3 ->
  RE (k_set (SetP _ _ _ _ None) e1) (k_set (SetP _ _ _ _ None) e2) (k_set (SetP _ _ _ _ None) e3).

Notation zr := (zrel3 RX RY RU RE).

Lemma k_step_rel o1 o2 o3 (s1 s2 s3 : kf) : koprel3 o1 o2 o3 -> zr s1 s2 s3 ->
  orel3 zr (k_step pr1 ss1 md1 md o1 s1) (k_step pr2 ss2 md2 md o2 s2) (k_step pr3 ss3 md3 md o3 s3).
Proof.
case=> [a b c Ho|k1 k2 k3 Hk|] Hs.
- have Hc : forall T (f : T -> Z) z (P : T -> T -> T -> Prop), (forall x, f x = z) ->
      forall x y w, P x y w -> f y = f x /\ f w = f x by move=> T f z P Hz x y w _; rewrite !Hz.
  have H := @z_step_rel _ _ _ _ _ _ _ _ _ _ _ _
    (@sxn R n) (@sxn R n) (@sxn R n) (@sym_ R m) (@sym_ R m) (@sym_ R m) (@sup R p) (@sup R p) (@sup R p)
    RX RY RU RE (Hc _ _ (Z.of_nat n) RX (fun _ => erefl)) (Hc _ _ (Z.of_nat m) RY (fun _ => erefl))
    (Hc _ _ (Z.of_nat p) RU (fun _ => erefl)) _ _ _ md a b c s1 s2 s3 Hstep Ho Hs.
  have Hclr : orel3 zr
    (obind (z_step (@sxn R n) (@sym_ R m) (@sup R p) (local_step (kf_step pr1 ss1 md1)) md a s1)
       (fun s' => Ok (with_e s' (k_set (SetP _ _ _ _ None) (z_e s')))))
    (obind (z_step (@sxn R n) (@sym_ R m) (@sup R p) (local_step (kf_step pr2 ss2 md2)) md b s2)
       (fun s' => Ok (with_e s' (k_set (SetP _ _ _ _ None) (z_e s')))))
    (obind (z_step (@sxn R n) (@sym_ R m) (@sup R p) (local_step (kf_step pr3 ss3 md3)) md c s3)
       (fun s' => Ok (with_e s' (k_set (SetP _ _ _ _ None) (z_e s'))))).
    apply: orel3_bind H _ => t1 t2 t3; rewrite /zrel3 /=.
    by case=> ? [? [? [? [? [? [? [? [? He]]]]]]]]; do 9!split=> //; exact: Hclear.
  have Hid : forall T T' T'' (P : T -> T' -> T'' -> Prop) x y z, orel3 P x y z ->
     orel3 P (obind x (fun s => Ok s)) (obind y (fun s => Ok s)) (obind z (fun s => Ok s)).
    by move=> T T' T'' P [x| | |] [y| | |] [z| | |].
  case: Ho H Hclr => /= *; try case: ifP => // _; by [exact: Hid|].
- rewrite /= /zrel3 /=; move: Hs; rewrite /zrel3.
  by case=> ? [? [? [? [? [? [? [? [? He]]]]]]]]; do 9!split=> //; exact: Hset.
- rewrite /= /k_predict /z_time.
  have Hs' := Hs; case: Hs' => ? [? [? [? [? [? [Hx [Hy [Hu He]]]]]]]].
  apply: orel3_bind (mrel3_time RX md _ _ _ Hx) _ => t1 t2 t3 [-> [-> _]].
  apply: orel3_bind (mrel3_get RX md _ _ _ Hx) _ => x1 x2 x3 Hxx.
  apply: orel3_bind (Hpred _ He Hxx (irel3_get RU md _ _ _ _ Hu) (irel3_get RU md _ _ _ _ Hu)) _ => a b c Hp.
  by rewrite /= /zrel3 /=; do 9!split=> //.
Qed.

Lemma k_run_rel ops1 ops2 ops3 (s1 s2 s3 : kf) : all3 koprel3 ops1 ops2 ops3 -> zr s1 s2 s3 ->
  orel3 zr (k_run pr1 ss1 md1 md ops1 s1) (k_run pr2 ss2 md2 md ops2 s2) (k_run pr3 ss3 md3 md ops3 s3).
Proof.
move=> H; elim: H s1 s2 s3 => [//|a b c la lb lc Ho _ IH] s1 s2 s3 Hs.
rewrite /k_run /=; apply: orel3_bind (k_step_rel Ho Hs) _ => x y z; exact: IH.
Qed.
End Rel.

(** ** Example run *)
(** A run used in the examples: identity matrices, any C, one measurement, both sizes
    arbitrary, no input. *)
Definition demo_ops (R : rcfType) n m (C : 'M[R]_(m, n)) (x : 'cV[R]_n) (y : 'cV[R]_m) : list (kop R n n m m 0) :=
  [:: KS (SetA _ _ _ _ (Some 1%:M)); KS (SetC _ _ _ (Some C)); KS (SetQ _ _ _ _ (Some 1%:M));
      KS (SetR _ _ _ _ (Some 1%:M)); KS (SetP _ _ _ _ (Some 1%:M)); KS (SetB _ _ _ (Some 0));
      KZ _ _ (ZSetState x Z0); KZ _ _ (ZPushMeas y); KZ _ _ ZEstimate].

Lemma demo_runs (R : rcfType) n m (C : 'M[R]_(m, n)) (x : 'cV[R]_n) (y : 'cV[R]_m) :
  exists K P' s', k_cov 1%:M C 1%:M 1%:M 1%:M = Some (K, P') /\
  lkf_run Debug (demo_ops C x y) (lkf_init R n m 0) = Ok s' /\
  z_e s' = mkK (Some 1%:M) (Some C) (Some 1%:M) (Some 1%:M) (Some P') (Some 0) None
     (im_put (1%:M *m x) 1) (im_put (C *m (1%:M *m x)) 1)
     (Some (K *m (y - C *m (1%:M *m x)))) (Some K) /\
  im_v (z_x s') = Some (1%:M *m x + K *m (y - C *m (1%:M *m x))).
Proof.
have [K [E _ _ _]] := @k_cov_spec R n m 1%:M C 1%:M 1%:M 1%:M (pd_psd (pd1 R n)) (pd1 R m) (pd_psd (pd1 R n)).
pose e0 := mkK (Some 1%:M) (Some C) (Some 1%:M) (Some 1%:M) (Some 1%:M) (Some 0) None im_empty im_empty
   None None : kfe R n n m m 0.
pose s0 := mkZ (Z.of_nat n) (Z.of_nat m) Z0 im_empty ia_empty ia_empty e0
   : zdo 'cV[R]_n 'cV[R]_m 'cV[R]_0 (kfe R n n m m 0).
pose s1 := mkZ (Z.of_nat n) (Z.of_nat m) Z0 (im_put x Z0) ia_empty ia_empty e0
   : zdo 'cV[R]_n 'cV[R]_m 'cV[R]_0 (kfe R n n m m 0).
pose s2 := mkZ (Z.of_nat n) (Z.of_nat m) Z0 (im_put x Z0) (mkIarr (Zpos xH) (y :: nil)) ia_empty e0
   : zdo 'cV[R]_n 'cV[R]_m 'cV[R]_0 (kfe R n n m m 0).
pose e3 := fun P' => mkK (Some 1%:M) (Some C) (Some 1%:M) (Some 1%:M) (Some P') (Some 0) None
     (im_put (1%:M *m x) (Zpos xH)) (im_put (C *m (1%:M *m x)) (Zpos xH))
     (Some (K *m (y - C *m (1%:M *m x)))) (Some K) : kfe R n n m m 0.
pose x3 := 1%:M *m x + K *m (y - C *m (1%:M *m x)).
pose s3 := fun P' => mkZ (Z.of_nat n) (Z.of_nat m) Z0 (im_put x3 (Zpos xH)) (mkIarr (Zpos xH) (y :: nil)) ia_empty (e3 P')
   : zdo 'cV[R]_n 'cV[R]_m 'cV[R]_0 (kfe R n n m m 0).
exists K, (joseph C 1%:M (k_pbar 1%:M 1%:M 1%:M) K), (s3 (joseph C 1%:M (k_pbar 1%:M 1%:M 1%:M) K)).
split; first exact: E.
split; last by [].
pose stp := k_step (@lkf_predict R n m 0) (@vsum R n) (@vdiff R m) Debug.
have H1 : stp (KZ _ _ (ZSetState x Z0)) s0 = Ok s1.
  by rewrite /stp /k_step /= /z_setState /sxn Z.eqb_refl.
have H2 : stp (KZ _ _ (ZPushMeas y)) s1 = Ok s2.
  by rewrite /stp /k_step /= /z_pushMeasurement /sym_ Z.eqb_refl.
have H3 : stp (KZ _ _ ZEstimate) s2 = Ok (s3 (joseph C 1%:M (k_pbar 1%:M 1%:M 1%:M) K)).
  rewrite /stp /k_step /= /z_estimateState /= /z_getEstimatedState /= /z_iter /= /local_step /= /kf_step /=.
  by rewrite E.
rewrite /lkf_run /k_run -/stp.
rewrite (_ : orun stp _ _ = obind (stp (KZ _ _ (ZSetState x Z0)) s0)
   (fun s => obind (stp (KZ _ _ (ZPushMeas y)) s) (fun s => obind (stp (KZ _ _ ZEstimate) s) (fun s => Ok s)))); last by [].
move: H1 H2 H3; clearbody stp => H1 H2 H3.
by rewrite H1 /= H2 /= H3.
Qed.
