(** Properties C23-C26 and C67: resetting, cached predictions, linear models and numerical
    Jacobians of the Kalman filters. *)
From Coq Require Import ZArith List Lia Bool.
From mathcomp Require Import all_ssreflect all_algebra.
From Verif Require Import Base Defs ZDO ZDORel ZDOSizes MxLib Cholesky Kalman KFilter KFProofs LKFRel EKFProofs EKFJac EKFDemo.
Set Implicit Arguments.
Unset Strict Implicit.
Unset Printing Implicit Defensive.
Import Order.TTheory GRing.Theory Num.Theory.
Open Scope ring_scope.

(** C23, linear filter. After any history, reset() and setState() leave a filter that answers
    every further sequence of calls as a new filter given the same matrices: same success or
    failure, same state, measurements, inputs and covariance. *)
Theorem C23_reset_forgets :
  forall (R : rcfType) (n m p : nat) md (ops0 ops : list (kop R n n m m p)) s x k,
  lkf_run md ops0 (lkf_init R n m p) = Ok s ->
  let mats := [:: KS (SetA _ _ _ _ (kA (z_e s))); KS (SetC _ _ _ (kC (z_e s))); KS (SetQ _ _ _ _ (kQ (z_e s)));
      KS (SetR _ _ _ _ (kR (z_e s))); KS (SetB _ _ _ (kB (z_e s))); KS (SetD _ _ _ (kD (z_e s)))] in
  let view := omap (fun t : zdo 'cV[R]_n 'cV[R]_m 'cV[R]_p (kfe R n n m m p) => (z_x t, z_y t, z_u t, kP (z_e t))) in
  view (lkf_run md (KZ _ _ ZReset :: KZ _ _ (ZSetState x k) :: ops) s) =
  view (lkf_run md (mats ++ KZ _ _ (ZSetState x k) :: ops) (lkf_init R n m p)).
Proof.
move=> R n m p md ops0 ops s x k H0 mats view.
have [Hn [Hm Hp]] : z_n s = Z.of_nat n /\ z_m s = Z.of_nat m /\ z_p s = Z.of_nat p.
  have : sz3 s = sz3 (lkf_init R n m p); last by case.
  have : sz3 (lkf_init R n m p) = (Z.of_nat n, Z.of_nat m, Z.of_nat p) by [].
  move: (lkf_init R n m p) H0 => s0; elim: ops0 s0 => [|o os IH] s0 /=; first by case=> ->.
  rewrite /lkf_run /k_run /=; case Es : (k_step _ _ _ _ _ _) => [s1| | |] //= H E0.
  suff E1 : sz3 s1 = sz3 s0 by rewrite (IH s1) // E1.
  case: o Es => [o|ks|]; rewrite /k_step; last first.
  - by rewrite /k_predict; case: (z_time _ _) => //= t; case: (im_get _ _) => //= v;
      case: (lkf_predict _ _ _ _ _ _) => //= q [<-].
  - by case=> <-.
  case Hr : (resizes o) => //; case Ez : (z_step _ _ _ _ _ _ _) => [s2| | |] //=.
  have E2 : sz3 s2 = sz3 s0.
    apply: z_step_sz Ez; move: E0 Hr => [-> -> ->]; by case: (o) => //= q /negPn /Z.eqb_eq.
  by case: (o) => [? ?|?| |? ?|?| |? ?|?| | |?|?|?| |?] [<-].
have SS : forall s1 s2 : zdo 'cV[R]_n 'cV[R]_m 'cV[R]_p (kfe R n n m m p),
  let RE' := RE (@eq3 _) (@eq3 _) (@eq3 _) (@eq3 _) (@eq3 _) (@eq3 _) (@eq3 _) (@eq3 _) (@eq3 _) (@eq3 _) false in
  zrel3 (@eq3 _) (@eq3 _) (@eq3 _) RE' s1 s2 s1 -> view (lkf_run md ops s1) = view (lkf_run md ops s2).
  move=> s1 s2 RE' /(lkf_run_forget md ops).
  have OE : forall T (a b : option T), optrel3 eq3 a b a -> a = b.
    by move=> T [a|] [b|] //= [->].
  have AE : forall T (a b : list T), all3 eq3 a b a -> a = b.
    move=> T; elim=> [|a l IH] [|b l'] H; inversion H; subst=> //.
    by match goal with h : eq3 _ _ _ |- _ => case: h => -> _ end; congr cons; apply: IH.
  have ME : forall T (a b : imat T), mrel3 eq3 a b a -> a = b.
    by move=> T [s1' k1 v1] [s2' k2 v2] /= [/= -> [_ [-> [_ /OE ->]]]].
  have IE : forall T (a b : iarr T), irel3 eq3 a b a -> a = b.
    by move=> T [k1 v1] [k2 v2] /= [/= -> [_ /AE ->]].
  case: (lkf_run md ops s1) => [t1| | |]; case: (lkf_run md ops s2) => [t2| | |] //= H.
  case: H => _ [_ [_ [_ [_ [_ [/ME Hx [/IE Hy [/IE Hu [[_ _ _ _ /OE EP] _]]]]]]]]].
  by rewrite /view /omap /= Hx Hy Hu EP.
pose e := z_e s.
pose e1 := mkK (kA e) (kC e) (kQ e) (kR e) None (kB e) (kD e) (kxbar e) (kybar e) (kinno e) (kgain e).
pose e2 := mkK (kA e) (kC e) (kQ e) (kR e) None (kB e) (kD e) im_empty im_empty None None.
pose s1 := mkZ (Z.of_nat n) (Z.of_nat m) (Z.of_nat p) (im_put x k) ia_empty ia_empty e1
   : zdo 'cV[R]_n 'cV[R]_m 'cV[R]_p (kfe R n n m m p).
pose s2 := mkZ (Z.of_nat n) (Z.of_nat m) (Z.of_nat p) (im_put x k) ia_empty ia_empty e2
   : zdo 'cV[R]_n 'cV[R]_m 'cV[R]_p (kfe R n n m m p).
pose st := k_step (@lkf_predict R n m p) (@vsum R n) (@vdiff R m) md.
have T1 : obind (st (KZ _ _ ZReset) s) (st (KZ _ _ (ZSetState x k))) = Ok s1.
  rewrite /s1 /e1 /e /st; move: Hn Hm Hp; case: (s) => n0 m0 p0 x0 y0 u0 [a c q r pr b d xb yb i g] /= -> -> ->.
  by rewrite /z_setState /sxn /= Z.eqb_refl /= /z_time /im_time /= Z.ltb_irrefl; case: (Z.ltb _ _).
have T2 : obind (lkf_run md mats (lkf_init R n m p)) (st (KZ _ _ (ZSetState x k))) = Ok s2.
  rewrite /st /k_step /= /z_setState /sxn /= Z.eqb_refl /= /z_time /im_time /= /= Z.ltb_irrefl.
  by case: (Z.ltb _ _).
have cat : forall (l1 l2 : list (kop R n n m m p)) s, lkf_run md (l1 ++ l2) s =
   obind (lkf_run md l1 s) (lkf_run md l2).
  rewrite /lkf_run /k_run -/st => l1 l2; elim: l1 => [//|o os IH] s' /=.
  by case: (st o s') => //= s3; rewrite IH.
have -> : lkf_run md (KZ _ _ ZReset :: KZ _ _ (ZSetState x k) :: ops) s =
   obind (obind (st (KZ _ _ ZReset) s) (st (KZ _ _ (ZSetState x k)))) (lkf_run md ops).
  by rewrite /lkf_run /k_run -/st; move: (st) => st' /=; case: (st' _ s).
have -> : lkf_run md (mats ++ KZ _ _ (ZSetState x k) :: ops) (lkf_init R n m p) =
   obind (obind (lkf_run md mats (lkf_init R n m p)) (st (KZ _ _ (ZSetState x k)))) (lkf_run md ops).
  by rewrite cat; case: (lkf_run md mats _).
rewrite T1 T2; apply: (SS s1 s2).
have O3 : forall T (o : option T), optrel3 eq3 o o o by move=> T [].
by do 6!(split; first by []); split; [|split; [by split; last by split; last constructor|split; [by split; last by split; last constructor|]]].
Qed.
Print Assumptions C23_reset_forgets.

Example C23_example (R : rcfType) (C : 'M[R]_(2, 3)) (x : 'cV[R]_3) (y : 'cV[R]_2) :
  exists s, lkf_run Debug (demo_ops C x y) (lkf_init R 3 2 0) = Ok s /\ kP (z_e s) <> None /\ kinno (z_e s) <> None.
Proof. by have [K [P [s [_ [-> [E _]]]]]] := demo_runs C x y; exists s; rewrite E. Qed.

(** C23 is false of the extended filter: two filters with the same matrices, one new and one
    used then reset, both initialised with state x2 at time 0 and given the same measurement,
    end with different estimates. *)
Theorem C23_ekf_reset_forgets_refuted :
  forall (R : rcfType), let pr := @ekf_predict R 1 1 1 1 0 (fun x _ _ => x) (fun _ _ _ => 0) false false in
  exists used fresh mats history rest,
   k_run pr (@vsum R 1) (@vdiff R 1) Debug (mats ++ history ++ KZ _ _ ZReset :: rest) (lkf_init R 1 1 0) = Ok used /\
   k_run pr (@vsum R 1) (@vdiff R 1) Debug (mats ++ KZ _ _ ZReset :: rest) (lkf_init R 1 1 0) = Ok fresh /\
   z_x used <> z_x fresh.
Proof.
move=> R pr; have [s [s' [E1 [E2 [Hx Hx']]]]] := @second_round R 1 1 0 (const_mx 5%:R).
exists s, s', (set_ops R 1 1), (round_ops 1 0),
 [:: KS (SetP _ _ _ _ (Some 1%:M)); KZ _ _ (ZSetState (const_mx 5%:R) Z0); KZ _ _ (ZPushMeas 0); KZ _ _ ZEstimate].
split; first exact: E1.
split; first exact: E2.
rewrite Hx Hx' => -[] /matrixP /(_ 0 0); rewrite !mxE => /eqP.
by rewrite eq_sym pnatr_eq0.
Qed.
Print Assumptions C23_ekf_reset_forgets_refuted.

(** C24 is false: whatever state x2 is given for time 0 after an estimation at time 1, the
    estimate of time 1 does not depend on it; without the caches it would be x2. *)
Theorem C24_setState_discards_predictions_refuted :
  forall (R : rcfType),
  let f := (fun x _ _ => x) : 'cV[R]_1 -> 'cV[R]_0 -> Z -> 'cV[R]_1 in
  let h := (fun _ _ _ => 0) : 'cV[R]_1 -> 'cV[R]_0 -> Z -> 'cV[R]_1 in
  exists ops s x1,
   k_run (ekf_predict f h false false) (@vsum R 1) (@vdiff R 1) Debug ops (lkf_init R 1 1 0) = Ok s /\
   forall x2, exists s1 s2,
    let again := [:: KZ 1 1 (ZSetState x2 Z0); KZ _ _ (ZGetEstimate (Zpos xH))] in
    k_run (ekf_predict f h false false) (@vsum R 1) (@vdiff R 1) Debug again s = Ok s1 /\
    k_run (ekf_fresh f h false false) (@vsum R 1) (@vdiff R 1) Debug again s = Ok s2 /\
    z_x s1 = im_put x1 (Zpos xH) /\ z_x s2 = im_put x2 (Zpos xH).
Proof.
move=> R f h; have [s [E Hs]] := @past_state R 1 1 0.
by exists (set_ops R 1 1 ++ round_ops 1 0), s, 0.
Qed.
Print Assumptions C24_setState_discards_predictions_refuted.

(** C24, how general it is: any prediction cached for the next time makes the step ignore the
    current state, for all models, arithmetics and matrices. *)
Theorem C24_stale_prediction_hides_state :
  forall (R : rcfType) (n nt m mt p : nat) f h ff_out ff_state ssum mdiff md (e : kfe R n nt m mt p) k x x' y u0 u1,
  im_set (kxbar e) -> im_k (kxbar e) = nxt k ->
  kf_step (ekf_predict f h ff_out ff_state) ssum mdiff md e k x y u0 u1 =
  kf_step (ekf_predict f h ff_out ff_state) ssum mdiff md e k x' y u0 u1.
Proof. exact: ekf_step_stale. Qed.
Print Assumptions C24_stale_prediction_hides_state.

(** C24, positive part. A history never setting a state at a time before a cached prediction
    (and not calling updateStateAndMeasurementPrediction): the filter is the one that
    recomputes its predictions at each step, from the current state. *)
Theorem C24_no_stale_prediction_without_going_back :
  forall (R : rcfType) (n nt m mt p : nat) f h ff_out ff_state ssum mdiff md (ops : list (kop R n nt m mt p)),
  no_stale_history f h ff_out ff_state ssum mdiff md ops (kf_init R n nt m mt p) ->
  k_run (ekf_predict f h ff_out ff_state) ssum mdiff md ops (kf_init R n nt m mt p) =
  k_run (ekf_fresh f h ff_out ff_state) ssum mdiff md ops (kf_init R n nt m mt p).
Proof. by move=> R n nt m mt p f h fo fs ss mf md ops; apply: ekf_run_fresh. Qed.
Print Assumptions C24_no_stale_prediction_without_going_back.

Example C24_example (R : rcfType) (x : 'cV[R]_3) :
  no_stale_history (@idf R 3) (@zeroh R 3 2) false false (@vsum R 3) (@vdiff R 2) Debug
    (set_ops R 3 2 ++ round_ops 2 x) (kf_init R 3 3 2 2 0) /\
  exists s, k_run (ekf_predict (@idf R 3) (@zeroh R 3 2) false false) (@vsum R 3) (@vdiff R 2) Debug
    (set_ops R 3 2 ++ round_ops 2 x) (kf_init R 3 3 2 2 0) = Ok s.
Proof.
split; last by have [s [E _]] := @past_state R 3 2 x; exists s.
exact: (@nsh_first R 3 3 2 2 0 _ _ _ _ _ _ (set_ops R 3 2 ++ [:: KZ _ _ ZReset; KS (SetP _ _ _ _ (Some 1%:M))]) x Z0).
Qed.

(** C25. The extended filter given linear functions, and the linear filter given their
    matrices: same calls, same results. The calls SetB and SetD concern the linear filter (the
    extended one does not read B and D). *)
Theorem C25_ekf_of_linear_model_is_lkf :
  forall (R : rcfType) (n m p : nat) (A : 'M[R]_n) (B : 'M[R]_(n, p)) (C : 'M[R]_(m, n)) (D : 'M[R]_(m, p))
         (ops : list (kop R n n m m p)),
  let f := fun x u (_ : Z) => A *m x + B *m u in
  let h := fun x u (_ : Z) => C *m x + D *m u in
  let all := KS (SetB _ _ _ (Some B)) :: KS (SetD _ _ _ (Some D)) :: ops in
  List.Forall (lin_op A B C D) ops ->
  no_stale_history f h (D != 0) (B != 0) (@vsum R n) (@vdiff R m) Debug all (lkf_init R n m p) ->
  k_run (ekf_predict f h (D != 0) (B != 0)) (@vsum R n) (@vdiff R m) Debug all (lkf_init R n m p) =
  lkf_run Debug all (lkf_init R n m p).
Proof.
move=> R n m p A B C D ops f h all Ho Hs.
rewrite (ekf_run_fresh _ Hs); last by [].
rewrite /all /lkf_run /k_run [in LHS]/= [in RHS]/=; symmetry.
by apply: lin_run.
Qed.
Print Assumptions C25_ekf_of_linear_model_is_lkf.

Example C25_example (R : rcfType) (x : 'cV[R]_3) :
  let ops := set_ops R 3 2 ++ round_ops 2 x in
  List.Forall (lin_op 1%:M 0 0 0) ops /\
  no_stale_history (fun x u (_ : Z) => 1%:M *m x + 0 *m u) (fun x u (_ : Z) => 0 *m x + 0 *m u)
    ((0 : 'M[R]_(2, 0)) != 0) ((0 : 'M[R]_(3, 0)) != 0) (@vsum R 3) (@vdiff R 2) Debug
    (KS (SetB _ _ _ (Some 0)) :: KS (SetD _ _ _ (Some 0)) :: ops) (lkf_init R 3 2 0).
Proof.
split; first by rewrite /set_ops /round_ops; do !(constructor=> //).
exact: (@nsh_first R 3 3 2 2 0 _ _ _ _ _ _ (KS (SetB _ _ _ (Some 0)) :: KS (SetD _ _ _ (Some 0)) :: set_ops R 3 2 ++ [:: KZ _ _ ZReset; KS (SetP _ _ _ _ (Some 1%:M))]) x Z0).
Qed.

(** C26. Affine dynamics and measurement, any nonzero steps, after any history without states
    set back in time: getAMatrixFD and getCMatrixFD succeed when the state and the inputs they
    need are there, return exactly A and C, and leave the state, measurements and inputs. *)
Theorem C26_fd_jacobians_exact :
  forall (R : rcfType) (n m p : nat) (A : 'M[R]_n) (b : 'cV[R]_p -> Z -> 'cV[R]_n) (C : 'M[R]_(m, n))
         (d : 'cV[R]_p -> Z -> 'cV[R]_m) ff_out ff_state (ops : list (kop R n n m m p)) s x (dx : 'cV[R]_n),
  let f := fun x u k => A *m x + b u k in
  let h := fun x u k => C *m x + d u k in
  no_stale_history f h ff_out ff_state (@vsum R n) (@vdiff R m) Debug ops (lkf_init R n m p) ->
  k_run (ekf_predict f h ff_out ff_state) (@vsum R n) (@vdiff R m) Debug ops (lkf_init R n m p) = Ok s ->
  im_get Debug (z_x s) = Ok x ->
  ((0 < p)%N && ff_state -> is_ok (ia_get Debug (z_u s) (im_k (z_x s)))) ->
  ((0 < p)%N && ff_out -> is_ok (ia_get Debug (z_u s) (nxt (im_k (z_x s))))) ->
  (forall j, dx j 0 != 0) ->
  (exists s1, ekf_getA f ff_state (@vsum R n) (fun a c => a - c) Debug dx s = Ok (s1, A) /\
      z_x s1 = z_x s /\ z_y s1 = z_y s /\ z_u s1 = z_u s) /\
  (exists s2, ekf_getC f h ff_out ff_state (@vsum R n) Debug dx s = Ok (s2, C) /\
      z_x s2 = z_x s /\ z_y s2 = z_y s /\ z_u s2 = z_u s).
Proof.
move=> R n m p A b C d fo fs ops s x dx f h Hs Hr Ex Hu0 Hu1 dx0.
have Hc : Jc s.
  have : Jc (lkf_init R n m p) by [].
  move: (lkf_init R n m p) Hs Hr => s0; elim: ops s0 => [|o os IH] s0; first by move=> _ [->].
  case=> Ho Hos; rewrite /k_run [orun _ _ _]/=.
  move: Hos; case Es : (k_step _ _ _ _ _ _) => [s1| | |] //= Hos H J0.
  apply: IH Hos H _; have [E Hj] := @k_step_fresh R n n m m p f h fo fs (@vsum R n) (@vdiff R m) Debug o s0 J0 Ho.
  by apply: Hj; rewrite -E.
have Hset : im_set (z_x s) by move: Ex; rewrite /im_get /boost_assert; case: (im_set _).
have Ht : z_time Debug s = Ok (im_k (z_x s)) by rewrite /z_time /im_time Hset.
have [u Eu] : exists u, (if (0 < p)%N && fs then ia_get Debug (z_u s) (im_k (z_x s)) else Ok 0) = Ok u.
  by move: Hu0; case: ifP => [_ /(_ isT)|_ _]; [case: (ia_get _ _ _) => // u _; exists u|exists 0].
split.
  have [s1 [M E]] : exists s1 M, ekf_getA f fs (@vsum R n) (fun a c => a - c) Debug dx s = Ok (s1, M).
    rewrite /ekf_getA Ht [obind (Ok _) _]/= Ex [obind (Ok _) _]/= /ekf_statepred.
    have -> : im_set (kxbar (z_e s)) && Z.eqb (im_k (kxbar (z_e s))) (nxt (im_k (z_x s))) = false.
      by case E : (im_set _) => //=; have := Hc.1 E => Hle; apply/Z.eqb_neq; lia.
    by rewrite Eu; eexists; eexists.
  exists s1; have EM := getA_exact dx0 Hc E; rewrite E EM; split=> //.
  by have [u' [xb [_ [_ [-> _]]]]] := getA_value dx0 Ex E.
have [s2 [M [E Hk]]] : exists s2 M, ekf_getC f h fo fs (@vsum R n) Debug dx s = Ok (s2, M) /\
   (z_x s2 = z_x s /\ z_y s2 = z_y s /\ z_u s2 = z_u s).
  rewrite /ekf_getC Ht [obind (Ok _) _]/= Ex [obind (Ok _) _]/= ekf_predict_fresh // /ekf_fresh Eu [obind (Ok _) _]/=.
  have Ha : (0 < p)%N -> boost_assert Debug (~~ fo || is_ok (ia_get Debug (z_u s) (nxt (im_k (z_x s))))) = Ok tt.
    by move=> p0; move: Hu1; rewrite p0 /=; case: (fo) => //= /(_ isT) ->.
  rewrite /ekf_sensor; case: ifP => p0 /=; first rewrite (Ha p0) /=; first case: ifP => _ /=;
    try by eexists; eexists; split; first by reflexivity.
exists s2; rewrite E; have -> := getC_exact dx0 Hc E; by [].
Qed.
Print Assumptions C26_fd_jacobians_exact.

(** The hypotheses hold after the history of C24_example, for x in dimension 3 with steps 1. *)
Example C26_example (R : rcfType) (x : 'cV[R]_3) :
  let f := fun (x : 'cV[R]_3) (u : 'cV[R]_0) (k : Z) => 1%:M *m x + (0 : 'cV[R]_3) in
  let h := fun (x : 'cV[R]_3) (u : 'cV[R]_0) (k : Z) => (0 : 'M[R]_(2, 3)) *m x + (0 : 'cV[R]_2) in
  let ops := [:: KS (SetQ _ _ _ _ (Some 1%:M)); KZ _ _ (ZSetState x Z0)] : list (kop R 3 3 2 2 0) in
  no_stale_history f h false false (@vsum R 3) (@vdiff R 2) Debug ops (lkf_init R 3 2 0) /\
  (exists s, k_run (ekf_predict f h false false) (@vsum R 3) (@vdiff R 2) Debug ops (lkf_init R 3 2 0) = Ok s /\
     im_get Debug (z_x s) = Ok x) /\
  (forall j, (const_mx 1 : 'cV[R]_3) j 0 != 0).
Proof.
move=> f h ops; split.
  exact: (@nsh_first R 3 3 2 2 0 _ _ _ _ _ _ [:: KS (SetQ _ _ _ _ (Some 1%:M))] x Z0 [::]).
split; first by eexists; split.
by move=> j; rewrite mxE oner_neq0.
Qed.

(** C26 does not hold after a state is set back in time: identity dynamics, and the returned
    matrix is not the identity. *)
Theorem C26_jacobian_with_stale_prediction_refuted :
  forall (R : rcfType), let f := (fun x _ _ => x) : 'cV[R]_1 -> 'cV[R]_0 -> Z -> 'cV[R]_1 in
  exists ops s s' M,
   k_run (ekf_predict f (fun _ _ _ => 0) false false) (@vsum R 1) (@vdiff R 1) Debug ops (lkf_init R 1 1 0) = Ok s /\
   im_get Debug (z_x s) = Ok (const_mx 1) /\
   ekf_getA f false (@vsum R 1) (fun a c => a - c) Debug (const_mx 1) s = Ok (s', M) /\ M <> 1%:M.
Proof.
move=> R f.
have [K1 [P1 [pP1 E1]]] := @round_run R 1 1 (@cached_p R 1 1) im_empty ia_empty None im_empty im_empty None None 0 0
   (fun u0 u1 P i g => (cached_miss P i g 0 u0 u1).1).
exists (set_ops R 1 1 ++ round_ops 1 0 ++ [:: KZ _ _ (ZSetState (const_mx 1) Z0)]).
eexists (ds (im_put (const_mx 1) Z0) (mkIarr (Zpos xH) (0 :: nil)) (Some P1) (im_put 0 (Zpos xH)) (im_put 0 (Zpos xH)) (Some 0) (Some K1)).
eexists; eexists; split; last first.
  split=> //; split; first by rewrite /ekf_getA.
  move=> /matrixP /(_ 0 0); rewrite !mxE eqxx /= /f mulr1n subr0 divr1 => /eqP.
  by rewrite -subr_eq0 addrK oner_eq0.
pose st := k_step (@cached_p R 1 1) (@vsum R 1) (@vdiff R 1) Debug.
have cat : forall (l1 l2 : list (kop R 1 1 1 1 0)) s, orun st (l1 ++ l2) s = obind (orun st l1 s) (orun st l2).
  by move=> l1 l2; elim: l1 => [//|o os IH] s' /=; case: (st o s') => //= s3; rewrite IH.
rewrite /k_run -[k_step _ _ _ _]/st cat.
have -> : orun st (set_ops R 1 1) (lkf_init R 1 1 0) = Ok (ds im_empty ia_empty None im_empty im_empty None None) by exact: (@set_run R 1 1 (@cached_p R 1 1)).
by move: E1; rewrite /k_run -/st => E1; rewrite obO cat E1 obO.
Qed.
Print Assumptions C26_jacobian_with_stale_prediction_refuted.

(** C67 is false: a linear filter without inputs and with every other matrix set performs its
    step in Release but fails an assertion in Debug, whatever the data, because B is 0x0 when
    never set and must be n x 0. *)
Theorem C67_lkf_without_inputs_needs_no_B_refuted :
  forall (R : rcfType) (n m : nat) (A : 'M[R]_n) (C : 'M[R]_(m, n)) Q Rm P k x y u0 u1,
  psd Q -> pd Rm -> psd P ->
  let e := mkK (Some A) (Some C) (Some Q) (Some Rm) (Some P) None None im_empty im_empty None None
     : kfe R n n m m 0 in
  (exists r, lkf_step Release e k x (Ok y) u0 u1 = Ok r) /\ lkf_step Debug e k x (Ok y) u0 u1 = AssertFail.
Proof.
move=> R n m A C Q Rm P k x y u0 u1 pQ pR pP e.
have [K [E _ _ _]] := @k_cov_spec R n m A C Q Rm P pQ pR pP.
by rewrite /lkf_step /kf_step /= E; split; first by eexists.
Qed.
Print Assumptions C67_lkf_without_inputs_needs_no_B_refuted.

Example C67_example (R : rcfType) : psd (1%:M : 'M[R]_3) /\ pd (1%:M : 'M[R]_2).
Proof. by split; [exact: pd_psd (pd1 _ _)|exact: pd1]. Qed.
