(** The linear Kalman filter when its matrices are changed between the steps: lemmas for C164. *)
From Coq Require Import ZArith List Lia Bool.
From mathcomp Require Import all_ssreflect all_algebra.
From Verif Require Import Base Defs ZDO ZDOProofs MxLib Cholesky Kalman KFilter KFProofs KalmanLS KalmanLSThms.
Set Implicit Arguments.
Unset Strict Implicit.
Unset Printing Implicit Defensive.
Import Order.TTheory GRing.Theory Num.Theory.
Open Scope ring_scope.

Section TV.
Variable R : rcfType.
Variables (n m : nat).

(** The weighted squares of a sequence of states; the matrices and covariances are those of each step. *)
Definition cost_tv (x0 : 'cV[R]_n) (P : 'M[R]_n) (A Q : nat -> 'M[R]_n) (C : nat -> 'M[R]_(m, n)) (Rm : nat -> 'M[R]_m)
    (f : nat -> 'cV[R]_n) (h y : nat -> 'cV[R]_m) (N : nat) (xs : nat -> 'cV[R]_n) : R :=
  qf (invmx P) (xs 0%N - x0) +
  \sum_(i < N) (qf (invmx (Q i)) (xs i.+1 - (A i *m xs i + f i)) + qf (invmx (Rm i)) (y i - (C i *m xs i.+1 + h i))).

(** One step of the filter, from (x, P) to (x', P') with the gain K. *)
Definition kstep (x : 'cV[R]_n) (P A Q : 'M[R]_n) (C : 'M[R]_(m, n)) (Rm : 'M[R]_m) (f : 'cV[R]_n) (h y : 'cV[R]_m) (K : 'M[R]_(n, m)) (x' : 'cV[R]_n) (P' : 'M[R]_n) : Prop :=
  let Pb := k_pbar A Q P in let xb := A *m x + f in
  [/\ K *m k_inoCov C Rm Pb = Pb *m C^T, x' = xb + K *m (y - (C *m xb + h)) & P' = joseph C Rm Pb K].

Lemma cost_tv_step x0 P A Q C Rm f h y N xs K x1 P1 : pd P -> pd (Q 0%N) -> pd (Rm 0%N) ->
  kstep x0 P (A 0%N) (Q 0%N) (C 0%N) (Rm 0%N) (f 0%N) (h 0%N) (y 0%N) K x1 P1 ->
  let Pb := k_pbar (A 0%N) (Q 0%N) P in let xb := A 0%N *m x0 + f 0%N in
  let e0 := P *m ((A 0%N)^T *m (invmx Pb *m (xs 1%N - xb))) in let d := xs 0%N - x0 - e0 in
  cost_tv x0 P A Q C Rm f h y N.+1 xs =
    qf (invmx (k_inoCov (C 0%N) (Rm 0%N) Pb)) (y 0%N - (C 0%N *m xb + h 0%N)) + (qf (invmx P) d + qf (invmx (Q 0%N)) (A 0%N *m d)) +
    cost_tv x1 P1 (fun i => A i.+1) (fun i => Q i.+1) (fun i => C i.+1) (fun i => Rm i.+1) (fun i => f i.+1) (fun i => h i.+1) (fun i => y i.+1) N (fun i => xs i.+1).
Proof.
move=> pP pQ pR [KS Ex1 EP1] Pb xb e0 d.
have := @cost_step R n m x0 P (A 0%N) (Q 0%N) (C 0%N) (Rm 0%N) f h y 0 xs K pP pQ pR KS.
rewrite -/Pb -/xb -/e0 -/d; set r := y 0%N - _; set S := k_inoCov _ _ _.
rewrite /cost big_ord_recl !big_ord0 !addr0 /= => E.
rewrite /cost_tv big_ord_recl /= addrA E -addrA Ex1 EP1 -/Pb -/xb -/r; congr (_ + (_ + _)).
Qed.

(** Any number of steps. *)
Lemma chain_ls N : forall (A Q P : nat -> 'M[R]_n) C (Rm : nat -> 'M[R]_m) f h y X K,
  pd (P 0%N) -> (forall i, (i < N)%N -> [/\ pd (Q i), pd (Rm i) & kstep (X i) (P i) (A i) (Q i) (C i) (Rm i) (f i) (h i) (y i) (K i) (X i.+1) (P i.+1)]) ->
  pd (P N) /\ exists c, (forall xs, c + qf (invmx (P N)) (xs N - X N) <= cost_tv (X 0%N) (P 0%N) A Q C Rm f h y N xs) /\
    (forall z, exists xs, xs N = z /\ cost_tv (X 0%N) (P 0%N) A Q C Rm f h y N xs = c + qf (invmx (P N)) (z - X N)).
Proof.
elim: N => [|N IH] A Q P C Rm f h y X K pP H.
  split=> //; exists 0; split=> [xs|z]; first by rewrite /cost_tv big_ord0 add0r addr0.
  by exists (fun=> z); rewrite /cost_tv big_ord0 add0r addr0.
have [pQ pR S0] := H 0%N (ltn0Sn N); have [KS Ex1 EP1] := S0.
set Pb := k_pbar _ _ _ in KS EP1; have pPb : pd Pb.
  by rewrite /Pb /k_pbar addrC mulmxA; apply: pdD => //; apply: psd_cong; apply: pd_psd.
have [pP1 _ _ _] := correct_ls pR pPb KS; rewrite -EP1 in pP1.
have [pN [c [Hlow Hatt]]] := IH (fun i => A i.+1) (fun i => Q i.+1) (fun i => P i.+1) (fun i => C i.+1) (fun i => Rm i.+1) (fun i => f i.+1) (fun i => h i.+1)
  (fun i => y i.+1) (fun i => X i.+1) (fun i => K i.+1) pP1 (fun i Hi => H i.+1 Hi).
split=> //; have CS xs := cost_tv_step N xs pP pQ pR S0.
exists (c + qf (invmx (k_inoCov (C 0%N) (Rm 0%N) Pb)) (y 0%N - (C 0%N *m (A 0%N *m X 0%N + f 0%N) + h 0%N))); split.
- move=> xs; rewrite CS -/Pb [c + _]addrC -!addrA ler_add2l; apply: (le_trans (Hlow (fun i => xs i.+1))).
  rewrite addrA ler_addr addr_ge0 //.
    by case: (pd_psd (pd_inv pP)) => _; apply.
  by case: (pd_psd (pd_inv pQ)) => _; apply.
- move=> z; have [xs' [Ez Hz]] := Hatt z.
  pose xs i := if i is j.+1 then xs' j else X 0%N + P 0%N *m ((A 0%N)^T *m (invmx Pb *m (xs' 0%N - (A 0%N *m X 0%N + f 0%N)))).
  exists xs; split=> //; rewrite CS -/Pb /=.
  by rewrite [X 0%N + _]addrC addrK subrr mulmx0 !qf0 !addr0 [c + _]addrC -addrA; congr (_ + _); rewrite -Hz.
Qed.
End TV.

(** Calls made between two estimations: setA..setR, setMeasurement, pushMeasurement, clearMeasurements, the same for inputs, and
    updateStateAndMeasurementPrediction; not setState, setStateCovariance, clearStates nor reset. *)
Definition between (R : rcfType) (n m p : nat) (o : kop R n n m m p) : Prop :=
  match o with
  | KZ (ZSetMeas _ _ | ZPushMeas _ | ZClearMeas | ZSetInput _ _ | ZPushInput _ | ZClearInputs) => True
  | KS (SetA _ | SetB _ | SetC _ | SetD _ | SetQ _ | SetR _) => True
  | KPredict => True
  | _ => False
  end.

Section Model.
Variable R : rcfType.
Variables (n m p : nat).
Notation kf := (zdo 'cV[R]_n 'cV[R]_m 'cV[R]_p (kfe R n n m m p)).

Ltac oinv H := repeat (let a := fresh "a" in let E := fresh "E" in let H' := fresh "H" in
  destruct (obind_Ok_inv _ _ _ H) as [a [E H']]; clear H; rename H' into H; cbn beta iota in H).

Lemma between_step md o (s t : kf) : between o -> k_step (@lkf_predict R n m p) (@vsum R n) (@vdiff R m) md o s = Ok t ->
  z_x t = z_x s /\ kP (z_e t) = kP (z_e s).
Proof.
case: o => [o|ks|] Hb H.
- move: Hb H; case: o => [x k|x||y k|y||u k|u|||||||] Hb H //=; rewrite /k_step /resizes in H; oinv H; case: H => <-.
  + rewrite /z_step /z_setMeasurement in E; oinv E; by case: E => <-.
  + rewrite /z_step /z_pushMeasurement in E; oinv E; move: E; case: ifP => _ E; first by case: E => <-.
    by oinv E; case: E => <-.
  + by case: E => <-.
  + rewrite /z_step /z_setInput in E; move: E; case: ifP => _ E; last by case: E => <-.
    by oinv E; case: E => <-.
  + rewrite /z_step /z_pushInput in E; move: E; case: ifP => _ E; last by case: E => <-.
    oinv E; move: E; case: ifP => _ E; first by case: E => <-.
    by oinv E; case: E => <-.
  + by case: E => <-.
- by move: Hb H; case: ks => //= a _ [<-] /=; case: (z_e s).
- by rewrite /k_step /k_predict in H; oinv H; case: H => <- /=; case: (z_e s).
Qed.

Lemma between_keeps md ops (s t : kf) : Forall (@between R n m p) ops -> lkf_run md ops s = Ok t -> z_x t = z_x s /\ kP (z_e t) = kP (z_e s).
Proof.
move=> H; elim: H s => [|o os Ho _ IH] s; first by case=> <-.
rewrite /lkf_run /k_run /= => H; have [s1 [E1 E2]] := obind_Ok_inv _ _ _ H.
by have [<- <-] := between_step Ho E1; apply: IH.
Qed.

(** One step. *)
Lemma est_one md (s s' : kf) k x x' A C Q Rm P :
  kA (z_e s) = Some A -> kC (z_e s) = Some C -> kQ (z_e s) = Some Q -> kR (z_e s) = Some Rm -> kP (z_e s) = Some P -> psd Q -> pd Rm -> psd P ->
  z_x s = im_put x k -> covered (@lkf_step R n m p) k (Z.add k 1) s ->
  z_getEstimatedState (local_step (@lkf_step R n m p)) md (Z.add k 1) s = Ok (s', x') ->
  exists y K P', [/\ ia_get md (z_y s) (Z.add k 1) = Ok y, kP (z_e s') = Some P', z_x s' = im_put x' (Z.add k 1) &
    kstep x P A Q C Rm (orz (kB (z_e s)) *m uval 0 (ia_get md (z_u s) k)) (orz (kD (z_e s)) *m uval 0 (ia_get md (z_u s) (Z.add k 1))) y K x' P'].
Proof.
move=> EA EC EQ ER EP pQ pR pP Hx Hc.
rewrite (getEstimatedState_spec _ md s k (Z.add k 1) x Hx) //; last by lia.
have -> : Z.to_nat (Z.sub (Z.add k 1) k) = 1%N by lia.
move=> H; have [[x1 e1] [E0 [<- <-]]] := obind_Ok_inv _ _ _ H.
have [[x2 e2] [E [<- <-]]] := obind_Ok_inv _ _ _ E0; rewrite /=.
have [y [K [Ey KS Ex [_ [_ _ EP' _]]]]] := lkf_step_val EA EC EQ ER EP pQ pR pP E.
by exists y, K, (joseph C Rm (k_pbar A Q P) K); split.
Qed.
End Model.

(** A program that changes every matrix before each estimation: an initial state with its covariance and first input, then for each step the six
    setters, the input and the measurement of the next time, and getEstimatedState at that time. *)
Section Prog.
Variable R : rcfType.
Variables (n m p : nat).
Notation kf := (zdo 'cV[R]_n 'cV[R]_m 'cV[R]_p.+1 (kfe R n n m m p.+1)).
Notation kop := (kop R n n m m p.+1).
Variables (md : mode) (k0 : Z) (x0 : 'cV[R]_n) (P0 : 'M[R]_n) (A Q : nat -> 'M[R]_n) (B : nat -> 'M[R]_(n, p.+1)) (C : nat -> 'M[R]_(m, n))
  (D : nat -> 'M[R]_(m, p.+1)) (Rm : nat -> 'M[R]_m) (u : nat -> 'cV[R]_p.+1) (y : nat -> 'cV[R]_m).
Definition tv_time (i : nat) : Z := Z.add k0 (Z.of_nat i).
Notation ks := (@KS R n n m m p.+1).
Notation kz := (@KZ R n n m m p.+1).
Definition tv_sets (i : nat) : list kop :=
  [:: ks (@SetA R n n m m p.+1 (Some (A i))); ks (@SetB R n n m m p.+1 (Some (B i))); ks (@SetC R n n m m p.+1 (Some (C i)));
      ks (@SetD R n n m m p.+1 (Some (D i))); ks (@SetQ R n n m m p.+1 (Some (Q i))); ks (@SetR R n n m m p.+1 (Some (Rm i)))].
Definition tv_data (i : nat) : list kop := tv_sets i ++ [:: kz (ZSetInput (u i.+1) (tv_time i.+1)); kz (ZSetMeas (y i) (tv_time i.+1))].
Definition tv_cycle (i : nat) : list kop := tv_data i ++ [:: kz (@ZGetEstimate _ _ _ (tv_time i.+1))].
Definition tv_program (N : nat) : list kop :=
  [:: kz (ZSetState x0 k0); ks (@SetP R n n m m p.+1 (Some P0)); kz (ZSetInput (u 0%N) k0)] ++ flatten (map tv_cycle (iota 0 N)).

Record tv_inv (i : nat) (x : 'cV[R]_n) (P : 'M[R]_n) (s : kf) : Prop := {
  ti_n : z_n s = Z.of_nat n; ti_m : z_m s = Z.of_nat m; ti_p : z_p s = Z.of_nat p.+1; ti_x : z_x s = im_put x (tv_time i);
  ti_y : ia_v (z_y s) = [::] \/ exists w, z_y s = mkIarr (tv_time i) [:: w];
  ti_u : z_u s = mkIarr (tv_time i) [:: u i]; ti_P : kP (z_e s) = Some P }.

Lemma cat_app T (l1 l2 : seq T) : cat l1 l2 = app l1 l2.
Proof. by []. Qed.

Lemma ba_true : boost_assert md true = Ok tt.
Proof. by case: (md). Qed.

Lemma tvS i : tv_time i.+1 = Z.add (tv_time i) 1.
Proof. by rewrite /tv_time Nat2Z.inj_succ -Z.add_assoc. Qed.

Lemma tv_setInput i x P s : tv_inv i x P s ->
  z_setInput (@sup R p.+1) md (u i.+1) (tv_time i.+1) s = Ok (with_u s (mkIarr (tv_time i) [:: u i; u i.+1])).
Proof.
case=> _ _ Hp _ _ Hu _; rewrite /z_setInput Hp Hu /sup.
have -> : Z.ltb 0 (Z.of_nat p.+1) = true by apply/Z.ltb_lt; lia.
rewrite Z.eqb_refl ?ba_true /= /ia_next /ia_size /= tvS Z.eqb_refl /= ?ba_true /= /ia_setValue /ia_checkIndex /ia_size /=.
have -> : Z.ltb (Z.add (tv_time i) 1) (Z.add (tv_time i) 1) = false by apply/Z.ltb_ge; lia.
by rewrite andbF Z.eqb_refl ?ba_true.
Qed.

Lemma tv_setMeas i x (s : kf) : z_m s = Z.of_nat m -> z_x s = im_put x (tv_time i) -> ia_v (z_y s) = [::] \/ (exists w, z_y s = mkIarr (tv_time i) [:: w]) -> exists a,
  z_setMeasurement (@sym_ R m) md (y i) (tv_time i.+1) s = Ok (with_y s a) /\ (a = mkIarr (tv_time i.+1) [:: y i] \/ exists w, a = mkIarr (tv_time i) [:: w; y i]).
Proof.
move=> Hm Hx Hy; rewrite /z_setMeasurement Hm Hx /sym_ Z.eqb_refl ?ba_true tvS /=; case: Hy => [Hy|[w ->]].
  rewrite /ia_size Hy /=; have -> : Z.eqb (tv_time i) (Z.sub (Z.add (tv_time i) 1) 1) = true by apply/Z.eqb_eq; lia.
  rewrite ?ba_true /= /ia_setValue /ia_checkIndex /ia_size Hy /= ?ba_true /=; eexists; split=> //; by left.
rewrite /ia_next /ia_size /= Z.eqb_refl /= ?ba_true /= /ia_setValue /ia_checkIndex /ia_size /=.
have -> : Z.ltb (Z.add (tv_time i) 1) (Z.add (tv_time i) 1) = false by apply/Z.ltb_ge; lia.
rewrite andbF Z.eqb_refl ?ba_true /=; eexists; split=> //; right; by exists w.
Qed.

Lemma tv_one i x P (s : kf) : tv_inv i x P s -> psd (Q i) -> pd (Rm i) -> psd P -> exists t s' x' P' K,
  [/\ lkf_run md (tv_data i) s = Ok t, z_getEstimatedState (local_step (@lkf_step R n m p.+1)) md (tv_time i.+1) t = Ok (s', x') /\ covered (@lkf_step R n m p.+1) (tv_time i) (tv_time i.+1) t,
      [/\ kA (z_e t) = Some (A i), kB (z_e t) = Some (B i), kC (z_e t) = Some (C i), kD (z_e t) = Some (D i) & kQ (z_e t) = Some (Q i) /\ kR (z_e t) = Some (Rm i)], tv_inv i.+1 x' P' s' &
      kstep x P (A i) (Q i) (C i) (Rm i) (B i *m u i) (D i *m u i.+1) (y i) K x' P'].
Proof.
move=> Hi pQ pR pP.
set e1 := k_set (@SetR R n n m m p.+1 (Some (Rm i))) (k_set (@SetQ R n n m m p.+1 (Some (Q i))) (k_set (@SetD R n n m m p.+1 (Some (D i)))
  (k_set (@SetC R n n m m p.+1 (Some (C i))) (k_set (@SetB R n n m m p.+1 (Some (B i))) (k_set (@SetA R n n m m p.+1 (Some (A i))) (z_e s)))))).
have [F1 F2 F3 F4] : [/\ kA e1 = Some (A i), kB e1 = Some (B i), kC e1 = Some (C i) & kD e1 = Some (D i)] by rewrite /e1; case: (z_e s).
have [F5 F6 F7] : [/\ kQ e1 = Some (Q i), kR e1 = Some (Rm i) & kP e1 = Some P] by rewrite -(ti_P Hi) /e1; case: (z_e s).
have R1 : lkf_run md (tv_sets i) s = Ok (with_e s e1) by [].
have Hi1 : tv_inv i x P (with_e s e1) by case: Hi => *; constructor.
have R2 := tv_setInput Hi1; set s2 := with_u _ _ in R2.
have [a [R3 Ha]] := @tv_setMeas i x s2 (ti_m Hi) (ti_x Hi) (ti_y Hi); set s3 := with_y _ _ in R3.
have Hx3 : z_x s3 = im_put x (tv_time i) by rewrite -(ti_x Hi).
have Hc : covered (@lkf_step R n m p.+1) (tv_time i) (Z.add (tv_time i) 1) s3.
  split; [|split; [|right]]; rewrite /s3 /s2 /ia_first /ia_next /ia_size /=.
  - by case: Ha => [->|[w ->]] /=; rewrite ?tvS; lia.
  - by case: Ha => [->|[w ->]] /=; rewrite ?tvS; lia.
  - by split; [lia|left; lia].
have G1 (T : Type) (k : Z) (a1 a2 : T) l : ia_get md (mkIarr k (a1 :: a2 :: l)) (Z.add k 1) = Ok a2.
  rewrite /ia_get /ia_checkIndex /ia_size /ia_at /=.
  have -> : Z.leb k (Z.add k 1) = true by apply/Z.leb_le; lia.
  have -> : Z.ltb (Z.add k 1) (Z.add k (Z.pos (Pos.succ (Pos.of_succ_nat (length l))))) = true by apply/Z.ltb_lt; lia.
  by have -> : Z.sub (Z.add k 1) k = Zpos xH; [lia|rewrite /= ?ba_true].
have G0 (T : Type) (k : Z) (a1 : T) l : ia_get md (mkIarr k (a1 :: l)) k = Ok a1.
  rewrite /ia_get /ia_checkIndex /ia_size /ia_at /= Z.leb_refl Z.sub_diag /=.
  by have -> : Z.ltb k (Z.add k (Z.pos (Pos.of_succ_nat (length l)))) = true; [apply/Z.ltb_lt; lia|rewrite /= ?ba_true].
have Ey : ia_get md (z_y s3) (Z.add (tv_time i) 1) = Ok (y i).
  by rewrite /s3 /=; case: Ha => [->|[w ->]]; [rewrite tvS G0|rewrite G1].
have E0 : ia_get md (z_u s3) (tv_time i) = Ok (u i) by rewrite /s3 /s2 /= G0.
have E1 : ia_get md (z_u s3) (Z.add (tv_time i) 1) = Ok (u i.+1) by rewrite /s3 /s2 /= G1.
have [[x' e'] Est] := @lkf_step_ex R n m p.+1 md e1 (tv_time i) x (y i) (u i) (u i.+1) _ _ _ _ _ _ F1 F2 F3 F5 F6 F7 pQ pR pP.
have Spec := @getEstimatedState_spec _ _ _ _ (@lkf_step R n m p.+1) md s3 (tv_time i) (Z.add (tv_time i) 1) x Hx3 ltac:(lia) Hc.
have N1 : Z.to_nat (Z.sub (Z.add (tv_time i) 1) (tv_time i)) = 1%N by lia.
rewrite N1 [est_spec _ _ _ _ _ _ _ _]/= E0 E1 Ey Est in Spec. cbn [obind fst snd] in Spec.
have [y' [K [P' [Ey' EP' Ex' St]]]] := est_one (s := s3) F1 F3 F5 F6 F7 pQ pR pP Hx3 Hc Spec.
move: Ey'; rewrite Ey => -[Eyy]; subst y'.
exists s3; eexists; exists x', P', K; split.
- rewrite /lkf_run /k_run /tv_data cat_app orun_app; move: R1; rewrite /lkf_run /k_run => ->.
  cbn [obind orun k_step z_step resizes]; rewrite R2; cbn [obind]; rewrite R3; reflexivity.
- by rewrite tvS; split; [exact: Spec|].
- by [].
- constructor=> /=.
  + exact: (ti_n Hi).
  + exact: (ti_m Hi).
  + exact: (ti_p Hi).
  + by rewrite tvS.
  + right; case: Ha => [->|[w ->]]; rewrite /ndrop /ia_first /ia_drop /= ?tvS.
      by rewrite Z.sub_diag /= Z.add_0_r; eexists.
    have -> : Z.to_nat (Z.min 1 (Z.sub (Z.add (tv_time i) 1) (tv_time i))) = 1%N by lia.
    by eexists.
  + rewrite (ti_p Hi) /ndrop /ia_first /ia_drop /= tvS.
    by have -> : Z.to_nat (Z.min 1 (Z.sub (Z.add (tv_time i) 1) (tv_time i))) = 1%N by lia.
  + by [].
- by move: St; rewrite E0 E1 /= F2 F4.
Qed.

Lemma tv_init : exists s, lkf_run md (tv_program 0) (@lkf_init R n m p.+1) = Ok s /\ tv_inv 0 x0 P0 s.
Proof.
eexists; split.
- rewrite /tv_program /lkf_run /k_run /= /z_setState /z_setInput /sxn /sup /= !Z.eqb_refl ?ba_true /= /z_time /im_time /= ?ba_true /= Z.ltb_irrefl /=.
  by rewrite ?Z.eqb_refl ?Pos.eqb_refl ?orbT ?ba_true /= /ia_setValue /= ?ba_true /=; reflexivity.
- by constructor=> //=; rewrite ?/tv_time ?Z.add_0_r //; left.
Qed.

Lemma tv_run N : psd P0 -> (forall i, psd (Q i)) -> (forall i, pd (Rm i)) -> exists s X P K,
  [/\ lkf_run md (tv_program N) (@lkf_init R n m p.+1) = Ok s, tv_inv N (X N) (P N) s, X 0%N = x0, P 0%N = P0 &
      forall i, (i < N)%N -> kstep (X i) (P i) (A i) (Q i) (C i) (Rm i) (B i *m u i) (D i *m u i.+1) (y i) (K i) (X i.+1) (P i.+1)].
Proof.
move=> pP pQ pR.
suff [s [X [P [K [H [Es Hi E1 E2 Hk]]]]]] : exists s X P K, psd (P N) /\
  [/\ lkf_run md (tv_program N) (@lkf_init R n m p.+1) = Ok s, tv_inv N (X N) (P N) s, X 0%N = x0, P 0%N = P0 &
      forall i, (i < N)%N -> kstep (X i) (P i) (A i) (Q i) (C i) (Rm i) (B i *m u i) (D i *m u i.+1) (y i) (K i) (X i.+1) (P i.+1)].
  by exists s, X, P, K.
elim: N => [|N [s [X [P [K [pPN [Es Hi E1 E2 Hk]]]]]]].
  by have [s [Es Hi]] := tv_init; exists s, (fun=> x0), (fun=> P0), (fun=> 0); split.
have [t [s' [x' [P' [K' [Rt [Rg _] _ Hi' St]]]]]] := tv_one Hi (pQ N) (pR N) pPN.
have Rn : lkf_run md (tv_cycle N) s = Ok s'.
  rewrite /lkf_run /k_run /tv_cycle cat_app orun_app; move: Rt; rewrite /lkf_run /k_run => ->.
  by cbn [obind orun k_step z_step resizes]; rewrite Rg.
exists s', (fun i => if (i <= N)%N then X i else x'), (fun i => if (i <= N)%N then P i else P'), (fun i => if (i < N)%N then K i else K').
rewrite !ltnn; split; [|split=> //].
- by case: St => KS _ ->; apply: joseph_psd; [apply: k_pbar_psd|apply: pd_psd].
- have -> : tv_program N.+1 = tv_program N ++ tv_cycle N by rewrite /tv_program -(addn1 N) iotaD map_cat flatten_cat.
  by rewrite /lkf_run /k_run cat_app orun_app; move: Es Rn; rewrite /lkf_run /k_run => -> /= ->.
- move=> i; rewrite ltnS => HiN; rewrite HiN; case: ltngtP HiN => // [lt _|-> _]; last by [].
  by apply: Hk.
Qed.

(** The states of the program before the calls of each step, after them, and the estimates. *)
Lemma tv_states N s0 : psd P0 -> (forall i, psd (Q i)) -> (forall i, pd (Rm i)) -> tv_inv 0 x0 P0 s0 -> exists (s t : nat -> kf) (X : nat -> 'cV[R]_n),
  [/\ s 0%N = s0, X 0%N = x0 & forall i, (i < N)%N -> [/\ lkf_run md (tv_data i) (s i) = Ok (t i),
      z_getEstimatedState (local_step (@lkf_step R n m p.+1)) md (tv_time i.+1) (t i) = Ok (s i.+1, X i.+1) /\ covered (@lkf_step R n m p.+1) (tv_time i) (tv_time i.+1) (t i) &
      [/\ kA (z_e (t i)) = Some (A i), kB (z_e (t i)) = Some (B i), kC (z_e (t i)) = Some (C i), kD (z_e (t i)) = Some (D i) & kQ (z_e (t i)) = Some (Q i) /\ kR (z_e (t i)) = Some (Rm i)]]].
Proof.
move=> pP pQ pR H0.
suff [s [t [X [P [_ [_ [? ? ?]]]]]]] : exists (s t : nat -> kf) (X : nat -> 'cV[R]_n) P, tv_inv N (X N) P (s N) /\ psd P /\
  [/\ s 0%N = s0, X 0%N = x0 & forall i, (i < N)%N -> [/\ lkf_run md (tv_data i) (s i) = Ok (t i),
      z_getEstimatedState (local_step (@lkf_step R n m p.+1)) md (tv_time i.+1) (t i) = Ok (s i.+1, X i.+1) /\ covered (@lkf_step R n m p.+1) (tv_time i) (tv_time i.+1) (t i) &
      [/\ kA (z_e (t i)) = Some (A i), kB (z_e (t i)) = Some (B i), kC (z_e (t i)) = Some (C i), kD (z_e (t i)) = Some (D i) & kQ (z_e (t i)) = Some (Q i) /\ kR (z_e (t i)) = Some (Rm i)]]].
  by exists s, t, X.
elim: N => [|N [s [t [X [P [Hi [pPN [E1 E2 Hk]]]]]]]]; first by exists (fun=> s0), (fun=> s0), (fun=> x0), P0.
have [t' [s' [x' [P' [K' [Rt Rg Rm' Hi' St]]]]]] := tv_one Hi (pQ N) (pR N) pPN.
exists (fun i => if (i <= N)%N then s i else s'), (fun i => if (i < N)%N then t i else t'), (fun i => if (i <= N)%N then X i else x'), P'.
rewrite !ltnn; split=> //; split; last split=> //.
- by case: St => KS _ ->; apply: joseph_psd; [apply: k_pbar_psd|apply: pd_psd].
- move=> i; rewrite ltnS => HiN; rewrite HiN; case: ltngtP HiN => // [lt _|-> _]; last by [].
  by apply: Hk.
Qed.

Lemma tv_data_between i : Forall (@between R n m p.+1) (tv_data i).
Proof. by do ?constructor. Qed.
End Prog.
