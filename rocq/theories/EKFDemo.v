(** Concrete histories of an extended Kalman filter: identity dynamics, a sensor that measures
    nothing. Used as witnesses and examples. *)
From Coq Require Import ZArith List Lia.
From mathcomp Require Import all_ssreflect all_algebra.
From Verif Require Import Base Defs ZDO ZDOSizes MxLib Cholesky Kalman KFilter KFProofs EKFProofs.
Set Implicit Arguments.
Unset Strict Implicit.
Unset Printing Implicit Defensive.
Import Order.TTheory GRing.Theory Num.Theory.
Open Scope ring_scope.

Lemma obO {A B} (a : A) (f : A -> outcome B) : obind (Ok a) f = f a.
Proof. by []. Qed.

Section Demo.
Variable R : rcfType.
Variables (n m : nat).
Notation X := 'cV[R]_n.
Notation Y := 'cV[R]_m.
Notation U := 'cV[R]_0.
Notation kfe := (kfe R n n m m 0).
Notation kf := (zdo X Y U kfe).
Definition idf (x : X) (_ : U) (_ : Z) : X := x.
Definition zeroh (_ : X) (_ : U) (_ : Z) : Y := 0.
Definition cached_p := @ekf_predict R n n m m 0 idf zeroh false false.
Definition fresh_p := @ekf_fresh R n n m m 0 idf zeroh false false.

Definition de P cx cy i g : kfe := mkK (Some 1%:M) (Some 0) (Some 1%:M) (Some 1%:M) P None None cx cy i g.
Definition ds x y P cx cy i g : kf := mkZ (Z.of_nat n) (Z.of_nat m) Z0 x y ia_empty (de P cx cy i g).

Definition set_ops : list (kop R n n m m 0) :=
  [:: KS (SetA _ _ _ _ (Some 1%:M)); KS (SetC _ _ _ (Some 0)); KS (SetQ _ _ _ _ (Some 1%:M));
      KS (SetR _ _ _ _ (Some 1%:M))].
(** reset, then one estimation from x at time 0. *)
Definition round_ops (x : X) : list (kop R n n m m 0) :=
  [:: KZ _ _ ZReset; KS (SetP _ _ _ _ (Some 1%:M)); KZ _ _ (ZSetState x Z0); KZ _ _ (ZPushMeas 0); KZ _ _ ZEstimate].

Section G.
Variable pr : @predfun R n n m m 0.
Notation stp := (k_step pr (@vsum R n) (@vdiff R m) Debug).
Notation run := (k_run pr (@vsum R n) (@vdiff R m) Debug).

Lemma set_run : run set_ops (lkf_init R n m 0) = Ok (ds im_empty ia_empty None im_empty im_empty None None).
Proof. by []. Qed.

Lemma est_run x0 P cx cy i g v :
  (forall u0 u1 P i g, pr Debug (de P cx cy i g) Z0 x0 u0 u1 = Ok (im_put v (Zpos xH), im_put 0 (Zpos xH))) ->
  psd P ->
  exists K P', psd P' /\
   stp (KZ _ _ ZEstimate) (ds (im_put x0 Z0) (mkIarr (Zpos xH) (0 :: nil)) (Some P) cx cy i g) =
     Ok (ds (im_put v (Zpos xH)) (mkIarr (Zpos xH) (0 :: nil)) (Some P') (im_put v (Zpos xH)) (im_put 0 (Zpos xH)) (Some 0) (Some K)) /\
   stp (KZ _ _ (ZGetEstimate (Zpos xH))) (ds (im_put x0 Z0) (mkIarr (Zpos xH) (0 :: nil)) (Some P) cx cy i g) =
     Ok (ds (im_put v (Zpos xH)) (mkIarr (Zpos xH) (0 :: nil)) (Some P') (im_put v (Zpos xH)) (im_put 0 (Zpos xH)) (Some 0) (Some K)).
Proof.
move=> Hp pP.
have [K [E _ pS pPb]] := @k_cov_spec R n m 1%:M 0 1%:M 1%:M P (pd_psd (pd1 R n)) (pd1 R m) pP.
exists K, (joseph 0 1%:M (k_pbar 1%:M 1%:M P) K); split.
  exact: joseph_psd pPb (pd_psd (pd1 R m)).
have Z : @vsum R n v (K *m @vdiff R m 0 0) = v by rewrite /vsum /vdiff subrr mulmx0 addr0.
have Z2 : K *m @vdiff R m 0 0 = 0 by rewrite /vdiff subrr mulmx0.
rewrite /k_step /= /z_estimateState /= /z_getEstimatedState /= /z_iter /= /local_step /= /kf_step /=.
by rewrite Hp /= E /= Z Z2.
Qed.

Lemma round_run x0 y0 P cx cy i g x v :
  (forall u0 u1 P i g, pr Debug (de P cx cy i g) Z0 x u0 u1 = Ok (im_put v (Zpos xH), im_put 0 (Zpos xH))) ->
  exists K P', psd P' /\ run (round_ops x) (ds x0 y0 P cx cy i g) =
    Ok (ds (im_put v (Zpos xH)) (mkIarr (Zpos xH) (0 :: nil)) (Some P') (im_put v (Zpos xH)) (im_put 0 (Zpos xH)) (Some 0) (Some K)).
Proof.
move=> Hp; have [K [P' [pP' [E _]]]] := est_run i g Hp (pd_psd (pd1 R n)).
exists K, P'; split=> //.
pose s1 := ds (mkImat false (im_k x0) (im_v x0)) ia_empty None cx cy i g.
pose s2 := ds (mkImat false (im_k x0) (im_v x0)) ia_empty (Some 1%:M) cx cy i g.
pose s3 := ds (im_put x Z0) ia_empty (Some 1%:M) cx cy i g.
pose s4 := ds (im_put x Z0) (mkIarr (Zpos xH) (0 :: nil)) (Some 1%:M) cx cy i g.
have H1 : stp (KZ _ _ ZReset) (ds x0 y0 P cx cy i g) = Ok s1 by [].
have H2 : stp (KS (SetP _ _ _ _ (Some 1%:M))) s1 = Ok s2 by [].
have H3 : stp (KZ _ _ (ZSetState x Z0)) s2 = Ok s3.
  by rewrite /k_step /= /z_setState /sxn Z.eqb_refl.
have H4 : stp (KZ _ _ (ZPushMeas 0)) s3 = Ok s4.
  by rewrite /k_step /= /z_pushMeasurement /sym_ Z.eqb_refl.
rewrite /k_run /round_ops; move: E H1 H2 H3 H4.
move: (k_step _ _ _ _) => st E H1 H2 H3 H4.
by rewrite /= H1 /= H2 /= H3 /= H4 /= E.
Qed.
End G.

Lemma cached_hit P cy i g x v u0 u1 :
  cached_p Debug (de P (im_put v (Zpos xH)) (im_put 0 (Zpos xH)) i g) Z0 x u0 u1 = Ok (im_put v (Zpos xH), im_put 0 (Zpos xH)) /\
  fresh_p Debug (de P (im_put v (Zpos xH)) cy i g) Z0 x u0 u1 = Ok (im_put x (Zpos xH), im_put 0 (Zpos xH)).
Proof. by []. Qed.

Lemma cached_miss P i g x u0 u1 :
  cached_p Debug (de P im_empty im_empty i g) Z0 x u0 u1 = Ok (im_put x (Zpos xH), im_put 0 (Zpos xH)) /\
  fresh_p Debug (de P im_empty im_empty i g) Z0 x u0 u1 = Ok (im_put x (Zpos xH), im_put 0 (Zpos xH)).
Proof. by []. Qed.

(** A second round after reset gives the estimate of the first one; a new filter gives x2. *)
Lemma second_round x1 x2 :
  exists s s', k_run cached_p (@vsum R n) (@vdiff R m) Debug (set_ops ++ round_ops x1 ++ round_ops x2) (lkf_init R n m 0) = Ok s /\
   k_run cached_p (@vsum R n) (@vdiff R m) Debug (set_ops ++ round_ops x2) (lkf_init R n m 0) = Ok s' /\
   z_x s = im_put x1 (Zpos xH) /\ z_x s' = im_put x2 (Zpos xH).
Proof.
have cat : forall (ops1 ops2 : list (kop R n n m m 0)) s, k_run cached_p (@vsum R n) (@vdiff R m) Debug (ops1 ++ ops2) s =
   obind (k_run cached_p (@vsum R n) (@vdiff R m) Debug ops1 s) (k_run cached_p (@vsum R n) (@vdiff R m) Debug ops2).
  rewrite /k_run; move: (k_step _ _ _ _) => st ops1 ops2; elim: ops1 => [//|o os IH] s /=.
  by case: (st o s) => //= s1; rewrite IH.
have [K1 [P1 [_ E1]]] := @round_run cached_p im_empty ia_empty None im_empty im_empty None None x1 x1
   (fun u0 u1 P i g => (cached_miss P i g x1 u0 u1).1).
have [K2 [P2 [_ E2]]] := @round_run cached_p im_empty ia_empty None im_empty im_empty None None x2 x2
   (fun u0 u1 P i g => (cached_miss P i g x2 u0 u1).1).
have [K3 [P3 [_ E3]]] := @round_run cached_p (im_put x1 (Zpos xH)) (mkIarr (Zpos xH) (0 :: nil)) (Some P1)
   (im_put x1 (Zpos xH)) (im_put 0 (Zpos xH)) (Some 0) (Some K1) x2 x1
   (fun u0 u1 P i g => (cached_hit P im_empty i g x2 x1 u0 u1).1).
eexists; eexists; split; first by rewrite cat set_run obO cat E1 obO E3.
by split; first by rewrite cat set_run obO E2.
Qed.

(** setState in the past after a round: the cached prediction is used by the filter, not by the
    cache-less one. *)
Lemma past_state x1 :
  exists s, k_run cached_p (@vsum R n) (@vdiff R m) Debug (set_ops ++ round_ops x1) (lkf_init R n m 0) = Ok s /\
  forall x2, exists s1 s2,
   k_run cached_p (@vsum R n) (@vdiff R m) Debug [:: KZ _ _ (ZSetState x2 Z0); KZ _ _ (ZGetEstimate (Zpos xH))] s = Ok s1 /\
   k_run fresh_p (@vsum R n) (@vdiff R m) Debug [:: KZ _ _ (ZSetState x2 Z0); KZ _ _ (ZGetEstimate (Zpos xH))] s = Ok s2 /\
   z_x s1 = im_put x1 (Zpos xH) /\ z_x s2 = im_put x2 (Zpos xH).
Proof.
have [K1 [P1 [pP1 E1]]] := @round_run cached_p im_empty ia_empty None im_empty im_empty None None x1 x1
   (fun u0 u1 P i g => (cached_miss P i g x1 u0 u1).1).
eexists; split.
  rewrite (_ : k_run _ _ _ _ (set_ops ++ _) _ = obind (k_run cached_p (@vsum R n) (@vdiff R m) Debug set_ops (lkf_init R n m 0))
    (k_run cached_p (@vsum R n) (@vdiff R m) Debug (round_ops x1))); last by [].
  by rewrite set_run obO E1.
move=> x2.
have [K2 [P2 [_ [_ E2]]]] := @est_run cached_p x2 P1 (im_put x1 (Zpos xH)) (im_put 0 (Zpos xH)) (Some 0) (Some K1) x1
   (fun u0 u1 P i g => (cached_hit P im_empty i g x2 x1 u0 u1).1) pP1.
have [K3 [P3 [_ [_ E3]]]] := @est_run fresh_p x2 P1 (im_put x1 (Zpos xH)) (im_put 0 (Zpos xH)) (Some 0) (Some K1) x2
   (fun u0 u1 P i g => (cached_hit P (im_put 0 (Zpos xH)) i g x2 x1 u0 u1).2) pP1.
have HS : forall pr, k_step pr (@vsum R n) (@vdiff R m) Debug (KZ _ _ (ZSetState x2 Z0))
   (ds (im_put x1 (Zpos xH)) (mkIarr (Zpos xH) (0 :: nil)) (Some P1) (im_put x1 (Zpos xH)) (im_put 0 (Zpos xH)) (Some 0) (Some K1)) =
   Ok (ds (im_put x2 Z0) (mkIarr (Zpos xH) (0 :: nil)) (Some P1) (im_put x1 (Zpos xH)) (im_put 0 (Zpos xH)) (Some 0) (Some K1)).
  by move=> pr; rewrite /k_step /= /z_setState /sxn Z.eqb_refl.
have HC := HS cached_p; have HF := HS fresh_p.
eexists; eexists; split; first by rewrite /k_run; move: HC E2; move: (k_step _ _ _ _) => st HC E2 /=; rewrite HC /= E2.
by split; first by rewrite /k_run; move: HF E3; move: (k_step _ _ _ _) => st HF E3 /=; rewrite HF /= E3.
Qed.
End Demo.

(** Histories without states set back in time. *)
Section NoStale.
Variable R : rcfType.
Variables (n nt m mt p : nat).
Variable f : 'cV[R]_n -> 'cV[R]_p -> Z -> 'cV[R]_n.
Variable h : 'cV[R]_n -> 'cV[R]_p -> Z -> 'cV[R]_m.
Variables (fo fs : bool) (ssum : 'cV[R]_n -> 'cV[R]_nt -> 'cV[R]_n) (mdiff : 'cV[R]_m -> 'cV[R]_m -> 'cV[R]_mt).
Notation nsh := (@no_stale_history R n nt m mt p f h fo fs ssum mdiff Debug).
Definition harmless (o : kop R n nt m mt p) : bool :=
  match o with KZ (ZSetState _ _) | KPredict => false | _ => true end.

Lemma nsh_harmless ops s : all harmless ops -> nsh ops s.
Proof.
elim: ops s => [//|o os IH] s /= /andP[Ho Hos]; split; first by case: o Ho => [[]| |].
by case: (k_step _ _ _ _ _ _) => // s'; apply: IH.
Qed.

(** Nothing cached yet: calls that only configure, then a first state, then anything harmless. *)
Definition configures (o : kop R n nt m mt p) : bool :=
  match o with KZ (ZReset | ZClearStates) | KS _ => true | _ => false end.
Definition nocache (e : kfe R n nt m mt p) : bool := ~~ im_set (kxbar e) && ~~ im_set (kybar e).

Lemma configures_nocache pr o s s' : configures o -> nocache (z_e s) -> k_step pr ssum mdiff Debug o s = Ok s' -> nocache (z_e s').
Proof.
case: o => [[]| |] // => [||ks] _ Hn [<-] /=; move: Hn; case: (z_e s) => * //.
by case: (ks).
Qed.

Lemma nsh_first ops1 x k ops2 s : all configures ops1 -> all harmless ops2 -> nocache (z_e s) ->
  nsh (ops1 ++ KZ _ _ (ZSetState x k) :: ops2) s.
Proof.
move=> H1 H2; elim: ops1 H1 s => [_|o os IH /andP[Ho Hos]] s Hn.
  split; first by move: Hn => /andP[/negPf a /negPf b]; split; rewrite ?a ?b.
  by move: (k_step _ _ _ _ _ _) => [s'| | |] //; apply: nsh_harmless.
split; first by case: o Ho => [[]| |].
by case E : (k_step _ _ _ _ _ _) => [s'| | |] //; apply: IH => //; apply: configures_nocache E.
Qed.
End NoStale.
