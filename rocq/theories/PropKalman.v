(** Properties C14-C18: covariances and gains of every filter derived from KalmanFilterBase.
    The predictions, the state arithmetic and the build mode are universally quantified, and
    histories are arbitrary lists of public calls. *)
From Coq Require Import ZArith List.
From mathcomp Require Import all_ssreflect all_algebra.
From Verif Require Import Base Defs ZDO ZDORel MxLib Cholesky Kalman KFilter KFProofs.
Set Implicit Arguments.
Unset Strict Implicit.
Unset Printing Implicit Defensive.
Import Order.TTheory GRing.Theory Num.Theory.
Open Scope ring_scope.

(** Histories whose covariance setters are given symmetric P. *)
Definition sets_sym_P R n nt m mt p (o : kop R n nt m mt p) : Prop :=
  match o with KS (SetP (Some P)) => sym P | _ => True end.

(** Histories whose covariance setters are given P, Q psd and R pd. *)
Definition sets_good R n nt m mt p (o : kop R n nt m mt p) : Prop :=
  match o with
  | KS (SetP (Some P)) => psd P
  | KS (SetQ (Some Q)) => psd Q
  | KS (SetR (Some r)) => pd r
  | _ => True
  end.

(** Covariances currently held are good. *)
Definition good_cov R n nt m mt p (e : kfe R n nt m mt p) : Prop :=
  (forall Q, kQ e = Some Q -> psd Q) /\ (forall r, kR e = Some r -> pd r) /\
  (forall P, kP e = Some P -> psd P).

(** C14. *)
Theorem C14_covariance_symmetric :
  forall (R : rcfType) (n nt m mt p : nat) (predict : @predfun R n nt m mt p) ssum mdiff md
         (ops : list (kop R n nt m mt p)) s',
  List.Forall (@sets_sym_P R n nt m mt p) ops ->
  k_run predict ssum mdiff md ops (kf_init R n nt m mt p) = Ok s' ->
  forall P, kP (z_e s') = Some P -> P^T = P.
Proof.
move=> R n nt m mt p predict ssum mdiff md ops s' Ho H.
pose I := fun (_ : option 'M[R]_nt) (_ : option 'M[R]_(mt, nt)) (_ : option 'M[R]_nt)
   (_ : option 'M[R]_mt) (P : option 'M[R]_nt) => forall P0, P = Some P0 -> sym P0.
apply: (@k_run_E_inv _ _ _ _ _ _ _ _ _ I _ _ md ops _ _ _ H) => //.
- by move=> A C Q Rm P K P' _ /k_cov_sym sP P0 [<-].
- apply: List.Forall_impl Ho => -[o|ks|] //= Hks [a c q r pr b d xb yb i g].
  by case: ks Hks => //= [[P|]] // sP IP P0 [<-].
Qed.
Print Assumptions C14_covariance_symmetric.

(** C14, single step: symmetric whatever the matrices, even when they are no covariances. *)
Theorem C14_one_step_symmetric :
  forall (R : rcfType) (n nt m mt p : nat) (predict : @predfun R n nt m mt p) ssum mdiff md
         (e : kfe R n nt m mt p) k x y u0 u1 x' e',
  kf_step predict ssum mdiff md e k x y u0 u1 = Ok (x', e') ->
  exists P', kP e' = Some P' /\ P'^T = P'.
Proof.
move=> R n nt m mt p predict ssum mdiff md e k x y u0 u1 x' e' /kf_step_inv.
case=> A [C [Q [Rm [P [_ [K [P' [xy [xb [yb [y' [[Ek _ _ _ _] [_ ->]]]]]]]]]]]]].
by exists P'; split; [case: (e) => /= *|exact: k_cov_sym Ek].
Qed.
Print Assumptions C14_one_step_symmetric.

Example C14_example (R : rcfType) (C : 'M[R]_(2, 3)) x y :
  exists s' P, lkf_run Debug (demo_ops C x y) (lkf_init R 3 2 0) = Ok s' /\ kP (z_e s') = Some P.
Proof. by have [K [P [s [_ [H [E _]]]]]] := demo_runs C x y; exists s, P; rewrite E. Qed.

(** C15. *)
Theorem C15_covariance_psd :
  forall (R : rcfType) (n nt m mt p : nat) (predict : @predfun R n nt m mt p) ssum mdiff md
         (ops : list (kop R n nt m mt p)) s',
  List.Forall (@sets_good R n nt m mt p) ops ->
  k_run predict ssum mdiff md ops (kf_init R n nt m mt p) = Ok s' ->
  good_cov (z_e s').
Proof.
move=> R n nt m mt p predict ssum mdiff md ops s' Ho H.
pose I := fun (_ : option 'M[R]_nt) (_ : option 'M[R]_(mt, nt)) (q : option 'M[R]_nt)
   (r : option 'M[R]_mt) (P : option 'M[R]_nt) =>
   (forall Q, q = Some Q -> psd Q) /\ (forall r0, r = Some r0 -> pd r0) /\
   (forall P0, P = Some P0 -> psd P0).
apply: (@k_run_E_inv _ _ _ _ _ _ _ _ _ I _ _ md ops _ _ _ H) => //.
- move=> A C Q Rm P K P' [HQ [HR HP]] Ek; split=> //; split=> // P0 [<-].
  have [K0 [E _ _ pPb]] := k_cov_spec A C (HQ _ erefl) (HR _ erefl) (HP _ erefl).
  by move: Ek; rewrite E => -[_ <-]; apply: joseph_psd => //; apply: pd_psd; apply: HR.
- by move=> a c q r pr [? [? ?]].
- apply: List.Forall_impl Ho => -[o|ks|] //= Hks [a c q r pr b d xb yb i g].
  rewrite /Ie /I /=; case: ks Hks => //= -[z|] // sP [IQ [IR IP]];
  by split; [|split] => // z0 // [<-].
Qed.
Print Assumptions C15_covariance_psd.

Example C15_example (R : rcfType) (C : 'M[R]_(2, 3)) x y :
  List.Forall (@sets_good R 3 3 2 2 0) (demo_ops C x y) /\
  exists s', lkf_run Debug (demo_ops C x y) (lkf_init R 3 2 0) = Ok s'.
Proof.
split; last by have [K [P [s [_ [H _]]]]] := demo_runs C x y; exists s.
rewrite /demo_ops; do 9?[apply: List.Forall_cons => /=]; by [exact: List.Forall_nil|exact: pd_psd (pd1 _ _)|exact: pd1|].
Qed.

(** C16. With good covariances the factorisation succeeds, the two solves invert S, and the gain
    the filter reports solves K S = Pbar C^T, which has no other solution. *)
Theorem C16_cholesky_gain_is_kalman_gain :
  forall (R : rcfType) (n nt m mt p : nat) (predict : @predfun R n nt m mt p) ssum mdiff md
         (e : kfe R n nt m mt p) k x y u0 u1 x' e' A C Q Rm P,
  good_cov e ->
  kA e = Some A -> kC e = Some C -> kQ e = Some Q -> kR e = Some Rm -> kP e = Some P ->
  kf_step predict ssum mdiff md e k x y u0 u1 = Ok (x', e') ->
  let Pb := A *m P *m A^T + Q in
  let S := C *m Pb *m C^T + Rm in
  let L := lowpart (llt S).2 in
  pd S /\ (llt S).1 = false /\ L *m L^T = S /\ (forall i, 0 < L i i) /\
  chol_inverse S = Some (invmx S) /\ S *m invmx S = 1%:M /\
  exists K, kgain e' = Some K /\ K *m S = Pb *m C^T /\
            forall K', K' *m S = Pb *m C^T -> K' = K.
Proof.
move=> R n nt m mt p predict ssum mdiff md e k x y u0 u1 x' e' A C Q Rm P [gQ [gR gP]] EA EC EQ ER EP H Pb S L.
have eP : k_pbar A Q P = Pb by rewrite /k_pbar addrC mulmxA.
have eS : k_inoCov C Rm Pb = S by rewrite /k_inoCov addrC mulmxA.
have [K0 [E KS pS pPb]] := k_cov_spec A C (gQ _ EQ) (gR _ ER) (gP _ EP).
rewrite eP eS in E KS pS pPb.
have [L1 L2 L3] := llt_correct pS.
do 4!split=> //; split; first exact: chol_inverse_pd; split; first by rewrite mulmxV ?pd_unit.
move/kf_step_inv: H; rewrite EA EC EQ ER EP.
case=> A' [C' [Q' [Rm' [P' [[[<-] [<-] [<-] [<-] [<-]]]]]]].
case=> K [P'' [xy [xb [yb [y' [[Ek _ _ _ _] [_ ->]]]]]]]; move: Ek; rewrite E => -[EK _].
exists K; split; first by case: (e).
by rewrite -EK; split=> // K' K'S; rewrite -[K'](mulmxK (pd_unit pS)) K'S -KS mulmxK ?pd_unit.
Qed.
Print Assumptions C16_cholesky_gain_is_kalman_gain.

(** C17. *)
Theorem C17_update_decreases_uncertainty :
  forall (R : rcfType) (n nt m mt p : nat) (predict : @predfun R n nt m mt p) ssum mdiff md
         (e : kfe R n nt m mt p) k x y u0 u1 x' e' A C Q Rm P,
  good_cov e ->
  kA e = Some A -> kC e = Some C -> kQ e = Some Q -> kR e = Some Rm -> kP e = Some P ->
  kf_step predict ssum mdiff md e k x y u0 u1 = Ok (x', e') ->
  let Pb := A *m P *m A^T + Q in
  exists K P', kgain e' = Some K /\ kP e' = Some P' /\
    P' = (1%:M - K *m C) *m Pb *m (1%:M - K *m C)^T + K *m Rm *m K^T /\
    (forall v : 'cV[R]_nt, (v^T *m P' *m v) 0 0 <= (v^T *m Pb *m v) 0 0).
Proof.
move=> R n nt m mt p predict ssum mdiff md e k x y u0 u1 x' e' A C Q Rm P [gQ [gR gP]] EA EC EQ ER EP H Pb.
have eP : k_pbar A Q P = Pb by rewrite /k_pbar addrC mulmxA.
have [K0 [E KS pS pPb]] := k_cov_spec A C (gQ _ EQ) (gR _ ER) (gP _ EP).
rewrite eP in E KS pS pPb.
move/kf_step_inv: H; rewrite EA EC EQ ER EP.
case=> A' [C' [Q' [Rm' [P' [[[<-] [<-] [<-] [<-] [<-]]]]]]].
case=> K [P'' [xy [xb [yb [y' [[Ek _ _ _ _] [_ ->]]]]]]]; move: Ek; rewrite E => -[EK EP'].
exists K, P''; split; first by case: (e).
split; first by case: (e).
split; first by rewrite -EP' -EK.
move=> v; rewrite -[X in _ <= X]/(qf Pb v) -[X in X <= _]/(qf P'' v).
have J0 : joseph C Rm Pb 0 = Pb.
  by rewrite /joseph !mul0mx subr0 mul1mx trmx1 mulmx1 addr0.
rewrite -{1}J0 (joseph_square 0 pPb.1 (gR _ ER).1 KS) qfD -EP' ler_addl sub0r.
by apply: (psd_cong _ (pd_psd pS)).2.
Qed.
Print Assumptions C17_update_decreases_uncertainty.

(** C18. *)
Theorem C18_gain_is_optimal :
  forall (R : rcfType) (n nt m mt p : nat) (predict : @predfun R n nt m mt p) ssum mdiff md
         (e : kfe R n nt m mt p) k x y u0 u1 x' e' A C Q Rm P,
  good_cov e ->
  kA e = Some A -> kC e = Some C -> kQ e = Some Q -> kR e = Some Rm -> kP e = Some P ->
  kf_step predict ssum mdiff md e k x y u0 u1 = Ok (x', e') ->
  let Pb := A *m P *m A^T + Q in
  exists P', kP e' = Some P' /\
    forall (G : 'M[R]_(nt, mt)) (v : 'cV[R]_nt),
    (v^T *m P' *m v) 0 0 <=
    (v^T *m ((1%:M - G *m C) *m Pb *m (1%:M - G *m C)^T + G *m Rm *m G^T) *m v) 0 0.
Proof.
move=> R n nt m mt p predict ssum mdiff md e k x y u0 u1 x' e' A C Q Rm P [gQ [gR gP]] EA EC EQ ER EP H Pb.
have eP : k_pbar A Q P = Pb by rewrite /k_pbar addrC mulmxA.
have [K0 [E KS pS pPb]] := k_cov_spec A C (gQ _ EQ) (gR _ ER) (gP _ EP).
rewrite eP in E KS pS pPb.
move/kf_step_inv: H; rewrite EA EC EQ ER EP.
case=> A' [C' [Q' [Rm' [P' [[[<-] [<-] [<-] [<-] [<-]]]]]]].
case=> K [P'' [xy [xb [yb [y' [[Ek _ _ _ _] [_ ->]]]]]]]; move: Ek; rewrite E => -[EK EP'].
exists P''; split; first by case: (e).
move=> G v; rewrite -[X in _ <= X]/(qf (joseph C Rm Pb G) v) -[X in X <= _]/(qf P'' v).
rewrite (joseph_square G pPb.1 (gR _ ER).1 KS) qfD -EP' ler_addl.
by apply: (psd_cong _ (pd_psd pS)).2.
Qed.
Print Assumptions C18_gain_is_optimal.

(** The hypotheses of C16-C18 hold at the first step of the demo run. *)
Example C16_C17_C18_example (R : rcfType) (C : 'M[R]_(2, 3)) (x : 'cV[R]_3) (y : 'cV[R]_2) :
  let e := mkK (Some 1%:M) (Some C) (Some 1%:M) (Some 1%:M) (Some 1%:M) (Some 0) None im_empty im_empty None None
     : kfe R 3 3 2 2 0 in
  good_cov e /\ exists r, lkf_step Debug e Z0 x (Ok y) UB UB = Ok r.
Proof.
move=> e; split.
  by split=> [|]; [|split] => z [<-]; [exact: pd_psd (pd1 _ _)|exact: pd1|exact: pd_psd (pd1 _ _)].
have [K [E _ _ _]] := @k_cov_spec R 3 2 1%:M C 1%:M 1%:M 1%:M (pd_psd (pd1 R 3)) (pd1 R 2) (pd_psd (pd1 R 3)).
by rewrite /lkf_step /kf_step /= E; eexists.
Qed.
