(** Properties C19-C22: linear Kalman filters, over all histories of public calls. *)
From Coq Require Import ZArith List.
From mathcomp Require Import all_ssreflect all_algebra.
From Verif Require Import Base Defs ZDO ZDORel ZDOTime MxLib Cholesky Kalman KFilter KFProofs LKFRel LKFTrue.
Set Implicit Arguments.
Unset Strict Implicit.
Unset Printing Implicit Defensive.
Import Order.TTheory GRing.Theory Num.Theory.
Open Scope ring_scope.

(** C19. A noise-free system x(k+1) = A x(k) + B u(k), y(k) = C x(k) + D u(k); a history whose
    data are those of the system at the time index where each is recorded, with any
    covariances, any order of calls, any clears and re-initialisations at true states. *)
Theorem C19_noise_free_tracking_exact :
  forall (R : rcfType) (n m p : nat) (A : 'M[R]_n) (B : 'M[R]_(n, p)) (C : 'M[R]_(m, n)) (D : 'M[R]_(m, p))
         (xt : Z -> 'cV[R]_n) (ut : Z -> 'cV[R]_p) (yt : Z -> 'cV[R]_m) ops s' x,
  (forall k, xt (nxt k) = A *m xt k + B *m ut k) ->
  (forall k, yt k = C *m xt k + D *m ut k) ->
  D = 0 \/ List.hd_error ops = Some (KS (SetD n n m (Some D))) ->
  true_history A B C D xt ut yt ops (lkf_init R n m p) ->
  lkf_run Debug ops (lkf_init R n m p) = Ok s' ->
  im_get Debug (z_x s') = Ok x ->
  x = xt (im_k (z_x s')).
Proof.
move=> R n m p A B C D xt ut yt ops s' x dyn meas HD Ht Hr.
have [Hx _] : tinv (fun k x => x = xt k) (fun k y => y = yt k) (fun k u => u = ut k) (true_mats A B C D) s'.
  case: HD Ht Hr => [D0|]; last first.
    case: ops => [//|o os] [->] [_ Ht]; rewrite /lkf_run /k_run [orun _ _ _]/= => Hr.
    apply: (lkf_run_true dyn meas _ Ht Hr).
    split; first by [].
    split; first by case.
    split; first by case.
    by split=> //= M [].
  move=> Ht Hr; apply: (lkf_run_true dyn meas _ Ht Hr).
  split; first by [].
  split; first by case.
  by split; first by case.
rewrite /im_get /boost_assert; case: ifP => //= Hs; case Ev : (im_v _) => [v|] // [<-].
exact: Hx Hs _ Ev.
Qed.
Print Assumptions C19_noise_free_tracking_exact.

(** A constant system observed by any C, with the demonstration run: the hypotheses hold and
    a measurement is used. *)
Example C19_example (R : rcfType) (C : 'M[R]_(2, 3)) (x : 'cV[R]_3) :
  true_history 1%:M (0 : 'M_(3, 0)) C 0 (fun _ => x) (fun _ => 0) (fun _ => C *m x) (demo_ops C x (C *m x)) (lkf_init R 3 2 0) /\
  (exists s', lkf_run Debug (demo_ops C x (C *m x)) (lkf_init R 3 2 0) = Ok s' /\ im_v (z_x s') <> None) /\
  (forall k : Z, (fun _ => x) (nxt k) = 1%:M *m x + (0 : 'M_(3, 0)) *m 0).
Proof.
split; last split.
- have G : forall os s, List.Forall (fun o => forall s, true_op 1%:M (0 : 'M_(3, 0)) C 0 (fun _ => x) (fun _ => 0) (fun _ => C *m x) s o) os ->
      true_history 1%:M (0 : 'M_(3, 0)) C 0 (fun _ => x) (fun _ => 0) (fun _ => C *m x) os s.
    elim=> [//|o os IH] s H; inversion H; subst; split; first by [].
    by case: (k_step _ _ _ _ _ _) => // s1; apply: IH.
  by apply: G; rewrite /demo_ops; do 9?[apply: List.Forall_cons => /=].
- by have [K [P [s [_ [-> [_ Hk]]]]]] := demo_runs C x (C *m x); exists s; rewrite Hk.
- by move=> k; rewrite mul1mx mulmx0 addr0.
Qed.

(** C20. Three histories making the same calls with the same matrices; the states,
    measurements and inputs given in the third are the combination with weights c and 1-c of
    those of the first two. They succeed or fail together; the covariances and gains are equal
    in all three; the estimates combine in the same way. *)
Theorem C20_estimate_affine_gain_data_independent :
  forall (R : rcfType) (n m p : nat) (c : R) md (ops1 ops2 ops3 : list (kop R n n m m p)),
  all3 (koprel3 (@aff R c n 1) (@aff R c m 1) (@aff R c p 1)
     (RS (@eq3 _) (@eq3 _) (@eq3 _) (@eq3 _) (@eq3 _) (@eq3 _) (@eq3 _))) ops1 ops2 ops3 ->
  (is_ok (lkf_run md ops1 (lkf_init R n m p)) = is_ok (lkf_run md ops2 (lkf_init R n m p)) /\
   is_ok (lkf_run md ops1 (lkf_init R n m p)) = is_ok (lkf_run md ops3 (lkf_init R n m p))) /\
  forall s1 s2 s3, lkf_run md ops1 (lkf_init R n m p) = Ok s1 -> lkf_run md ops2 (lkf_init R n m p) = Ok s2 ->
    lkf_run md ops3 (lkf_init R n m p) = Ok s3 ->
    [/\ kP (z_e s2) = kP (z_e s1), kP (z_e s3) = kP (z_e s1), kgain (z_e s2) = kgain (z_e s1) &
        kgain (z_e s3) = kgain (z_e s1)] /\
    im_k (z_x s2) = im_k (z_x s1) /\ im_k (z_x s3) = im_k (z_x s1) /\
    forall x1 x2 x3, im_get md (z_x s1) = Ok x1 -> im_get md (z_x s2) = Ok x2 -> im_get md (z_x s3) = Ok x3 ->
      x3 = c *: x1 + (1 - c) *: x2.
Proof.
move=> R n m p c md ops1 ops2 ops3 Ho.
have := lkf_run_aff md Ho (@lkf_init_rel R n m p _ _ _ _ _ _ _ _ _ _ _ _).
have OE : forall T (a b d : option T), optrel3 eq3 a b d -> b = a /\ d = a.
  by move=> T [a|] [b|] [d|] //= [-> ->].
case: (lkf_run md ops1 _) => [s1| | |]; case: (lkf_run md ops2 _) => [s2| | |];
  case: (lkf_run md ops3 _) => [s3| | |] //= H.
split=> // _ _ _ [<-] [<-] [<-].
case: H => _ [_ [_ [_ [_ [_ [Hx [_ [_ [[_ _ _ _ EP] [_ [_ Hs]]]]]]]]]]].
have [P2 P3] := OE _ _ _ _ EP; have [_ _ _ EG] := Hs erefl; have [G2 G3] := OE _ _ _ _ EG.
split=> //; case: (Hx) => S2 [S3 [K2 [K3 _]]]; split=> //; split=> // x1 x2 x3 E1 E2 E3.
by have := mrel3_get _ md _ _ _ Hx; rewrite E1 E2 E3.
Qed.
Print Assumptions C20_estimate_affine_gain_data_independent.

(** Two demonstration runs with any data combine: the hypothesis holds for every x, y. *)
Example C20_example (R : rcfType) (c : R) (C : 'M[R]_(2, 3)) x1 x2 y1 y2 :
  all3 (koprel3 (@aff R c 3 1) (@aff R c 2 1) (@aff R c 0 1)
     (RS (@eq3 _) (@eq3 _) (@eq3 _) (@eq3 _) (@eq3 _) (@eq3 _) (@eq3 _)))
    (demo_ops C x1 y1) (demo_ops C x2 y2) (demo_ops C (c *: x1 + (1 - c) *: x2) (c *: y1 + (1 - c) *: y2)) /\
  exists s, lkf_run Debug (demo_ops C x1 y1) (lkf_init R 3 2 0) = Ok s.
Proof.
split; last by have [K [P [s [_ [-> _]]]]] := demo_runs C x1 y1; exists s.
by rewrite /demo_ops; do !constructor.
Qed.

(** C20, error recursion: one step on the data of the noise-free system multiplies the
    estimation error by (I - K C) A, K being the gain the filter reports. *)
Theorem C20_error_recursion :
  forall (R : rcfType) (n m p : nat) md (e : kfe R n n m m p) k x xt u0 u1 x' e' A B C D,
  kA e = Some A -> kB e = Some B -> kC e = Some C -> kD e = Some D ->
  let xt' := A *m xt + B *m u0 in
  let y := C *m xt' + D *m u1 in
  lkf_step md e k x (Ok y) (Ok u0) (Ok u1) = Ok (x', e') ->
  exists K, kgain e' = Some K /\ x' - xt' = (1%:M - K *m C) *m A *m (x - xt).
Proof.
move=> R n m p md e k x xt u0 u1 x' e' A B C D EA EB EC ED xt' y /kf_step_inv.
case=> A' [C' [Q' [Rm' [P' [_]]]]].
case=> K [P'' [xy [xb [yb [y' [[Ek Ep Ex Ey [<-]] [-> ->]]]]]]].
exists K; split; first by case: (e).
have p0u : (0 < p)%N = false -> forall (w : 'cV[R]_p), w = 0.
  by move=> p0 w; apply/matrixP => i; have := ltn_ord i; rewrite (leq_trans _ (ltn_ord i)) // in p0.
have Exy : xy = (im_put (A *m x + B *m u0) (nxt k), im_put (C *m (A *m x + B *m u0) + D *m u1) (nxt k)).
  move: Ep; rewrite /lkf_predict EA EB EC ED [need _ _]/= [isSome _]/=.
  have -> : boost_assert md true = Ok tt by case: (md).
  rewrite [need _ _]/=.
  case p0 : (0 < p)%N => /=; last by case=> <-; rewrite (p0u p0 u0) (p0u p0 u1) !mulmx0 !addr0.
  case: eqP => [->|_] /=; rewrite ?mul0mx ?addr0; case: eqP => [->|_] /=; by rewrite ?mul0mx ?addr0 => -[<-].
move: Ex Ey; rewrite Exy /im_get /= /boost_assert /= => -[<-] [<-]; rewrite /vsum /vdiff /y /xt'.
rewrite -!mulmxA !mulmxBl !mul1mx !mulmxBr !mulmxDr -!mulmxA; mxring.
Qed.
Print Assumptions C20_error_recursion.

Example C20_error_example (R : rcfType) (C : 'M[R]_(2, 3)) (x xt : 'cV[R]_3) :
  let e := mkK (Some 1%:M) (Some C) (Some 1%:M) (Some 1%:M) (Some 1%:M) (Some 0) (Some 0) im_empty im_empty None None
     : kfe R 3 3 2 2 0 in
  exists r, lkf_step Debug e Z0 x (Ok (C *m (1%:M *m xt + 0) + 0)) (Ok 0) (Ok 0) = Ok r.
Proof.
move=> e.
have [K [E _ _ _]] := @k_cov_spec R 3 2 1%:M C 1%:M 1%:M 1%:M (pd_psd (pd1 R 3)) (pd1 R 2) (pd_psd (pd1 R 3)).
by rewrite /lkf_step /kf_step /= E; eexists.
Qed.

(** C21. The same calls, Q, R and the covariances multiplied by c > 0 in the second history
    (the third is the first again). *)
Theorem C21_only_covariance_ratios_matter :
  forall (R : rcfType) (n m p : nat) (c : R) md (ops1 ops2 : list (kop R n n m m p)) s1,
  0 < c ->
  all3 (koprel3 (@eq3 _) (@eq3 _) (@eq3 _)
     (RS (@eq3 _) (@scl_psd R c n) (@scl_psd R c n) (@scl_pd R c m) (@eq3 _) (@eq3 _) (@eq3 _))) ops1 ops2 ops1 ->
  lkf_run md ops1 (lkf_init R n m p) = Ok s1 ->
  exists s2, lkf_run md ops2 (lkf_init R n m p) = Ok s2 /\
    im_k (z_x s2) = im_k (z_x s1) /\ im_get md (z_x s2) = im_get md (z_x s1) /\
    kgain (z_e s2) = kgain (z_e s1) /\
    (forall P, kP (z_e s1) = Some P -> kP (z_e s2) = Some (c *: P)).
Proof.
move=> R n m p c md ops1 ops2 s1 c0 Ho H1.
have := lkf_run_scale md c0 Ho (@lkf_init_rel R n m p _ _ _ _ _ _ _ _ _ _ _ _); rewrite H1.
case: (lkf_run md ops2 _) => [s2| | |] //= H; exists s2; split=> //.
have OE : forall T (a b d : option T), optrel3 eq3 a b d -> b = a /\ d = a.
  by move=> T [a|] [b|] [d|] //= [-> ->].
case: H => _ [_ [_ [_ [_ [_ [Hx [_ [_ [[_ _ _ _ EP] [_ [_ Hs]]]]]]]]]]].
have [_ _ _ EG] := Hs erefl; have [G2 _] := OE _ _ _ _ EG.
case: (Hx) => S2 [S3 [K2 [K3 Hv]]]; split=> //; have [V2 _] := OE _ _ _ _ Hv.
split; first by rewrite /im_get S2 V2.
by split=> // P E; move: EP; rewrite E; case: (kP (z_e s2)) => [P2|] //= [[-> _] _].
Qed.
Print Assumptions C21_only_covariance_ratios_matter.

Example C21_example (R : rcfType) (c : R) (C : 'M[R]_(2, 3)) x y : 0 < c ->
  let ops2 := [:: KS (SetA _ _ _ _ (Some 1%:M)); KS (SetC _ _ _ (Some C)); KS (SetQ _ _ _ _ (Some (c *: 1%:M)));
      KS (SetR _ _ _ _ (Some (c *: 1%:M))); KS (SetP _ _ _ _ (Some (c *: 1%:M))); KS (SetB _ _ _ (Some 0));
      KZ _ _ (ZSetState x Z0); KZ _ _ (ZPushMeas y); KZ _ _ ZEstimate] : list (kop R 3 3 2 2 0) in
  all3 (koprel3 (@eq3 _) (@eq3 _) (@eq3 _)
     (RS (@eq3 _) (@scl_psd R c 3) (@scl_psd R c 3) (@scl_pd R c 2) (@eq3 _) (@eq3 _) (@eq3 _))) (demo_ops C x y) ops2 (demo_ops C x y) /\
  exists s, lkf_run Debug (demo_ops C x y) (lkf_init R 3 2 0) = Ok s.
Proof.
move=> c0 ops2; split; last by have [K [P [s [_ [-> _]]]]] := demo_runs C x y; exists s.
have p3 : psd (1%:M : 'M[R]_3) := pd_psd (pd1 _ _).
have p2 : pd (1%:M : 'M[R]_2) := pd1 _ _.
by rewrite /demo_ops /ops2; do !first [exact: p3 | exact: p2 | constructor].
Qed.

(** C22. The same calls, the second history in the coordinates T x: states T x, A becomes
    T A T^-1, B becomes T B, C becomes C T^-1, Q and P become T Q T^T and T P T^T. No condition
    on the covariances. *)
Theorem C22_coordinate_independence :
  forall (R : rcfType) (n m p : nat) (T : 'M[R]_n) md (ops1 ops2 : list (kop R n n m m p)) s1,
  T \in unitmx ->
  all3 (koprel3 (@cvec R n T 1) (@eq3 _) (@eq3 _)
     (RS (csim T) (ccov T) (ccov T) (@eq3 _) (@crow R n T m) (@cvec R n T p) (@eq3 _))) ops1 ops2 ops1 ->
  lkf_run md ops1 (lkf_init R n m p) = Ok s1 ->
  exists s2, lkf_run md ops2 (lkf_init R n m p) = Ok s2 /\
    im_k (z_x s2) = im_k (z_x s1) /\
    (forall x, im_get md (z_x s1) = Ok x -> im_get md (z_x s2) = Ok (T *m x)) /\
    (forall K, kgain (z_e s1) = Some K -> kgain (z_e s2) = Some (T *m K)) /\
    (forall P, kP (z_e s1) = Some P -> kP (z_e s2) = Some (T *m P *m T^T)).
Proof.
move=> R n m p T md ops1 ops2 s1 uT Ho H1.
have := lkf_run_coord uT md Ho (@lkf_init_rel R n m p _ _ _ _ _ _ _ _ _ _ _ _); rewrite H1.
case: (lkf_run md ops2 _) => [s2| | |] //= H; exists s2; split=> //.
case: H => _ [_ [_ [_ [_ [_ [Hx [_ [_ [[_ _ _ _ EP] [_ [_ Hs]]]]]]]]]]].
have [_ _ _ EG] := Hs erefl.
case: (Hx) => S2 [S3 [K2 [K3 Hv]]]; split=> //; split=> [x Ex|].
  have := mrel3_get _ md _ _ _ Hx; rewrite Ex; by case: (im_get _ (z_x s2)) => //= x2 [->].
split=> M E.
  by move: EG; rewrite E; case: (kgain (z_e s2)) => [M2|] //= [-> _].
by move: EP; rewrite E; case: (kP (z_e s2)) => [M2|] //= [-> _].
Qed.
Print Assumptions C22_coordinate_independence.

Example C22_example (R : rcfType) (T : 'M[R]_3) (C : 'M[R]_(2, 3)) x y : T \in unitmx ->
  let ops2 := [:: KS (SetA _ _ _ _ (Some (T *m 1%:M *m invmx T))); KS (SetC _ _ _ (Some (C *m invmx T)));
      KS (SetQ _ _ _ _ (Some (T *m 1%:M *m T^T)));
      KS (SetR _ _ _ _ (Some 1%:M)); KS (SetP _ _ _ _ (Some (T *m 1%:M *m T^T))); KS (SetB _ _ _ (Some (T *m 0)));
      KZ _ _ (ZSetState (T *m x) Z0); KZ _ _ (ZPushMeas y); KZ _ _ ZEstimate] : list (kop R 3 3 2 2 0) in
  all3 (koprel3 (@cvec R 3 T 1) (@eq3 _) (@eq3 _)
     (RS (csim T) (ccov T) (ccov T) (@eq3 _) (@crow R 3 T 2) (@cvec R 3 T 0) (@eq3 _))) (demo_ops C x y) ops2 (demo_ops C x y) /\
  exists s, lkf_run Debug (demo_ops C x y) (lkf_init R 3 2 0) = Ok s.
Proof.
move=> uT ops2; split; last by have [K [P [s [_ [-> _]]]]] := demo_runs C x y; exists s.
by rewrite /demo_ops /ops2; do !constructor.
Qed.
