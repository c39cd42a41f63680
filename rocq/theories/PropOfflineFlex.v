(** Properties C138-C140: the offline estimations of the flexibility. [off_fixed] and [off_fixed0]
    are offlineEKFFlexibilityEstimation with and without inputs, [off_model] is
    offlineModelBaseFlexEstimation. The filter is arbitrary among those that work ([works]). *)
From Coq Require Import Reals ZArith List Lia Lra Bool.
From Verif Require Import Base Defs ZDO Vec3 Sensors FlexEst FlexEstThms OfflineFlex OfflineFlexProofs.
Import ListNotations.
Open Scope Z_scope.

(** A filter for the examples, whose estimate is always [x]. *)
Definition kst (x : list fl) : @stepfun (list fl) (list fl) (list fl) Z := fun _ e _ _ y u v =>
  do _ <- y; do _ <- u; do _ <- v; Ok (x, e + 1).
Definition kjac : mode -> Z -> Z -> list fl -> outcome (list fl) -> outcome (list fl) -> outcome (list fl) -> outcome Z :=
  fun _ e _ _ _ _ _ => Ok e.
Definition kid (e : Z) : Z := e.
Definition kid2 (_ _ e : Z) : Z := e.
Definition kid1 (_ e : Z) : Z := e.
Definition kok (_ _ _ : Z) : Prop := True.
(** A measurement of the IMU. *)
Definition y6 (r : R) : list fl := Fin r :: repeat (Fin 0) 5.
Example kst_works n x : Z.of_nat (length x) = n -> ent x 3 = Fin 0 -> ent x 4 = Fin 0 -> ent x 5 = Fin 0 ->
  works n kok (kst x) kjac kid kid kid kid2.
Proof.
  intros L H3 H4 H5. constructor; try (intros; exact I).
  intros md m p e k x0 y u v _ _ _ _ _. exists e. split; [reflexivity|]. exists x, (e + 1).
  split; [reflexivity|]. split; [exact I|]. split; [exact L|]. right. exists x. now apply regulate_at_zero.
Qed.

(** *** C138: the estimation with fixed contacts *)
(** For every log whose measurements have 6 components and whose inputs have 15 components at the
    times of the measurements (also an empty log), every number of contacts and every guess of the
    size of a state or of a pose, in both builds: the estimation succeeds, the array returned goes
    from the index before the first measurement to the last one, starts with the guess, and every
    other entry is a state without NaN with an orientation of at most 3 pi / 2, even if the filter
    returns NaN. *)
Theorem C138_fixed_contacts_log :
  forall (E : Type) ok (st : @stepfun (list fl) (list fl) (list fl) E) jac creset preset setQ esize
    md y u xh0 nc (e : E),
  works 18 ok st jac creset preset setQ esize -> ok 6 15 e -> 0 <= nc ->
  length xh0 = 18%nat \/ length xh0 = 6%nat ->
  (forall t, ia_first y <= t <= ia_last y -> exists yt ut, ia_at y t = Ok yt /\ length yt = 6%nat /\
     ia_at u t = Ok ut /\ length ut = 15%nat) ->
  exists xh, off_fixed st jac creset setQ esize md y u xh0 nc e = Ok xh /\
    ia_first xh = ia_first y - 1 /\ ia_last xh = ia_last y /\ ia_at xh (ia_first y - 1) = Ok xh0 /\
    forall t, ia_first y <= t <= ia_last y -> exists x, ia_at xh t = Ok x /\ usable 18 x.
Proof.
  intros E ok st jac creset preset setQ esize md y u xh0 nc e W HE N0 HX D.
  destruct (off_fixed_ok ok st jac creset preset setQ esize md y u xh0 nc e W HE N0 HX D) as (ls & H & HL & HF).
  eexists. split; [exact H|]. split; [reflexivity|].
  assert (EL : ia_last y = ia_first y - 1 + Z.of_nat (length ls)) by (unfold ia_last, ia_size, ia_first; lia).
  split; [unfold ia_last at 1; unfold ia_size; cbn [ia_k ia_v length]; lia|].
  split.
  { unfold ia_at. cbn [ia_k ia_v]. rewrite Z.leb_refl, Z.sub_diag. reflexivity. }
  intros t Ht. destruct (app_at (ia_first y - 1) xh0 ls t ltac:(lia) ltac:(lia)) as (l & Hl & Hin).
  exists l. split; [exact Hl|]. rewrite Forall_forall in HF. now apply HF.
Qed.
Print Assumptions C138_fixed_contacts_log.

(** Without inputs: every log of measurements with 6 components. *)
Theorem C138_fixed_contacts_log_without_inputs :
  forall (E : Type) ok (st : @stepfun (list fl) (list fl) (list fl) E) jac creset preset setQ esize
    md y xh0 nc (e : E),
  works 18 ok st jac creset preset setQ esize -> ok 6 15 e -> 0 <= nc ->
  length xh0 = 18%nat \/ length xh0 = 6%nat ->
  (forall yt, In yt (ia_v y) -> length yt = 6%nat) ->
  exists xh, off_fixed0 st jac creset setQ esize md y xh0 nc e = Ok xh /\
    ia_first xh = ia_first y - 1 /\ ia_last xh = ia_last y /\ ia_at xh (ia_first y - 1) = Ok xh0 /\
    forall t, ia_first y <= t <= ia_last y -> exists x, ia_at xh t = Ok x /\ usable 18 x.
Proof.
  intros E ok st jac creset preset setQ esize md y xh0 nc e W HE N0 HX D. unfold off_fixed0.
  rewrite zero_in_all. cbn [obind].
  apply (C138_fixed_contacts_log E ok st jac creset preset setQ esize md y _ xh0 nc e W HE N0 HX).
  intros t Ht. destruct (list_at (ia_k y) (ia_v y) t) as (yt & H1 & H2);
    [unfold ia_first in Ht; lia|unfold ia_last, ia_size in Ht; lia|].
  destruct (list_at (ia_first y - 1) (repeat (repeat (Fin 0) 15) (S (length (ia_v y)))) t) as (ut & U1 & U2);
    [lia|rewrite repeat_length; unfold ia_last, ia_size, ia_first in *; lia|].
  exists yt, ut. destruct y as [ky vy]. split; [exact H1|]. split; [now apply D|]. split; [exact U1|].
  apply repeat_spec in U2. subst ut. apply repeat_length.
Qed.
Print Assumptions C138_fixed_contacts_log_without_inputs.

(** The estimates, for every filter (also one that fails): the outcome is that of the reference,
    where each step of the filter gets the measurement completed with zeros, the input of the time
    before (the first input at the first step) and the input of the time of the measurement. *)
Theorem C138_fixed_contacts_estimates :
  forall (E : Type) (st : @stepfun (list fl) (list fl) (list fl) E) jac creset setQ esize md y u xh0 nc (e : E) data,
  (forall md e k x y u v x' e', st md e k x y u v = Ok (x', e') -> length x' = 18%nat) ->
  0 <= nc -> length xh0 = 18%nat \/ length xh0 = 6%nat -> ia_v y = map fst data ->
  (forall j yj uj, nth_error data j = Some (yj, uj) ->
     length yj = 6%nat /\ ia_at u (ia_first y + Z.of_nat j) = Ok uj /\ length uj = 15%nat) ->
  off_fixed st jac creset setQ esize md y u xh0 nc e =
  (do ls <- ref_fixed_run st jac creset md nc 0 data (ref_guess setQ 18 xh0 (esize (6 + 3 * nc) 15 e));
   Ok (mkIarr (ia_first y - 1) (xh0 :: ls))).
Proof. intros. now apply off_fixed_ref. Qed.
Print Assumptions C138_fixed_contacts_estimates.
Example C138_estimates_case :
  let data := [(y6 1, repeat (Fin 0) 15); (y6 2, repeat (Fin 3) 15)] in
  map fst data = [y6 1; y6 2] /\ forall j yj uj, nth_error data j = Some (yj, uj) ->
     length yj = 6%nat /\ ia_at (mkIarr 4 [repeat (Fin 0) 15; repeat (Fin 3) 15]) (4 + Z.of_nat j) = Ok uj /\ length uj = 15%nat.
Proof.
  split; [reflexivity|]. intros [|[|j]] yj uj H; [injection H as <- <-; repeat split ..|].
  destruct j; discriminate.
Qed.

(** Two measurements at the indices 4 and 5, two contacts, the filter of the examples. *)
Definition zero18 : list fl := repeat (Fin 0) 18.
Example C138_case : exists xh,
  off_fixed (kst zero18) kjac kid kid kid2 Debug (mkIarr 4 [y6 1; y6 2]) (mkIarr 4 [repeat (Fin 0) 15; repeat (Fin 0) 15])
    (repeat (Fin 1) 6) 2 0 = Ok xh /\ ia_first xh = 3 /\ ia_last xh = 5.
Proof.
  destruct (C138_fixed_contacts_log Z kok (kst zero18) kjac kid kid kid kid2 Debug (mkIarr 4 [y6 1; y6 2])
    (mkIarr 4 [repeat (Fin 0) 15; repeat (Fin 0) 15]) (repeat (Fin 1) 6) 2 0) as (xh & H & F & L & _).
  - now apply kst_works.
  - exact I.
  - lia.
  - right. reflexivity.
  - intros t Ht. cbn in Ht. assert (C : t = 4 \/ t = 5) by lia.
    destruct C as [-> | ->]; eexists; eexists; repeat split; reflexivity.
  - exists xh. repeat split; auto.
Qed.

(** *** C139: the model-based estimation *)
(** For every log with a non-negative first index, with numbers of contacts that change in any way,
    measurements that have at least the components of the sensors, inputs of the size of the number of contacts,
    and matrices Q and R that change in any way: the estimation succeeds; the array ends with the
    last measurement; every time of the log has a state without NaN with an orientation of at most
    3 pi / 2. The guess is in the array when the first index is positive. *)
Theorem C139_changing_contacts_log_partial :
  forall (E : Type) ok (st : @stepfun (list fl) (list fl) (list fl) E) jac creset preset setQ esize cust
    md (wf : bool) y u xh0 (nc : iarr Z) (e : E),
  works 35 ok st jac creset preset setQ esize -> (forall m p i e, ok m p e -> ok m p (cust i e)) ->
  ok 6 48 e -> length xh0 = 35%nat \/ length xh0 = 6%nat -> 0 <= ia_first y ->
  (forall t, ia_first y <= t <= ia_last y -> exists yt ut k, ia_at y t = Ok yt /\ ia_at u t = Ok ut /\ ia_at nc t = Ok k /\
     0 <= k /\ 6 + (if wf then k * 6 else 0) <= Z.of_nat (length yt) /\ Z.of_nat (length ut) = 48 + 12 * k) ->
  exists xh, off_model st jac creset preset setQ esize cust md wf y u xh0 nc e = Ok xh /\
    ia_last xh = ia_last y /\ (0 < ia_first y -> ia_first xh = ia_first y - 1 /\ ia_at xh (ia_first y - 1) = Ok xh0) /\
    forall t, ia_first y <= t <= ia_last y -> exists x, ia_at xh t = Ok x /\ usable 35 x.
Proof.
  intros E ok st jac creset preset setQ esize cust md wf y u xh0 nc e W WC HE HX F0 D.
  destruct (off_model_ok ok st jac creset preset setQ esize cust md wf y u xh0 nc e W WC HE HX D) as (ls & H & HL & HF).
  rewrite Forall_forall in HF.
  assert (EL : ia_last y = ia_first y - 1 + Z.of_nat (length ls)) by (unfold ia_last, ia_size, ia_first; lia).
  eexists. split; [exact H|]. destruct (0 <? ia_first y) eqn:EF.
  - apply Z.ltb_lt in EF. split; [unfold ia_last at 1; unfold ia_size; cbn [ia_k ia_v length]; lia|].
    split.
    { intros _. split; [reflexivity|]. unfold ia_at. cbn [ia_k ia_v]. rewrite Z.leb_refl, Z.sub_diag. reflexivity. }
    intros t Ht. destruct (app_at (ia_first y - 1) xh0 ls t ltac:(lia) ltac:(lia)) as (l & Hl & Hin). eauto.
  - apply Z.ltb_ge in EF. assert (F : ia_first y = 0) by lia.
    split; [unfold ia_last at 1; unfold ia_size; cbn [ia_k ia_v]; lia|]. split; [lia|].
    intros t Ht. destruct (list_at 0 ls t ltac:(lia) ltac:(lia)) as (l & Hl & Hin). eauto.
Qed.
Print Assumptions C139_changing_contacts_log_partial.

(** The estimates, for every filter: the reference, in which a change of the number of contacts
    changes the sizes and forgets the previous input; the array starts at 0 when the log starts at
    a negative index. *)
Theorem C139_changing_contacts_estimates :
  forall (E : Type) (st : @stepfun (list fl) (list fl) (list fl) E) jac creset preset setQ esize cust
    md (wf : bool) y u xh0 (nc : iarr Z) (e : E) data,
  (forall md e k x y u v x' e', st md e k x y u v = Ok (x', e') -> length x' = 35%nat) ->
  length xh0 = 35%nat \/ length xh0 = 6%nat -> ia_v y = map (fun d => fst (fst d)) data ->
  (forall j yj uj nj, nth_error data j = Some (yj, uj, nj) ->
     ia_at u (ia_first y + Z.of_nat j) = Ok uj /\ ia_at nc (ia_first y + Z.of_nat j) = Ok nj /\ 0 <= nj /\
     6 + (if wf then nj * 6 else 0) <= Z.of_nat (length yj) /\ Z.of_nat (length uj) = 48 + 12 * nj) ->
  off_model st jac creset preset setQ esize cust md wf y u xh0 nc e =
  (let s := ref_guess setQ 35 xh0 e in
   do ls <- ref_model_run st jac creset preset esize cust md wf (ia_first y) 0 0 data
              (mkRs (esize 6 48 (rs_e s)) (rs_x s) (rs_last s) None);
   Ok (if 0 <? ia_first y then mkIarr (ia_first y - 1) (xh0 :: ls) else mkIarr 0 ls)).
Proof. intros. now apply off_model_ref. Qed.
Print Assumptions C139_changing_contacts_estimates.
Example C139_estimates_case :
  let data := [(repeat (Fin 2) 18, repeat (Fin 0) 60, 1); (repeat (Fin 3) 18, repeat (Fin 1) 72, 2)] in
  forall j yj uj nj, nth_error data j = Some (yj, uj, nj) ->
     ia_at (mkIarr 5 [repeat (Fin 0) 60; repeat (Fin 1) 72]) (5 + Z.of_nat j) = Ok uj /\
     ia_at (mkIarr 5 [1; 2]) (5 + Z.of_nat j) = Ok nj /\ 0 <= nj /\
     6 + (if true then nj * 6 else 0) <= Z.of_nat (length yj) /\ Z.of_nat (length uj) = 48 + 12 * nj.
Proof.
  intros data [|[|j]] yj uj nj H; [injection H as <- <- <-; repeat split; cbn; lia ..|].
  destruct j; discriminate.
Qed.

(** With a negative first index the same log gives an array that starts at 0: the time of the
    first measurement is not in it, for every log. *)
Theorem C139_negative_indices_refuted :
  forall (E : Type) ok (st : @stepfun (list fl) (list fl) (list fl) E) jac creset preset setQ esize cust
    md (wf : bool) y u xh0 (nc : iarr Z) (e : E),
  works 35 ok st jac creset preset setQ esize -> (forall m p i e, ok m p e -> ok m p (cust i e)) ->
  ok 6 48 e -> length xh0 = 35%nat \/ length xh0 = 6%nat -> ia_first y < 0 ->
  (forall t, ia_first y <= t <= ia_last y -> exists yt ut k, ia_at y t = Ok yt /\ ia_at u t = Ok ut /\ ia_at nc t = Ok k /\
     0 <= k /\ 6 + (if wf then k * 6 else 0) <= Z.of_nat (length yt) /\ Z.of_nat (length ut) = 48 + 12 * k) ->
  exists xh, off_model st jac creset preset setQ esize cust md wf y u xh0 nc e = Ok xh /\
    ia_first xh = 0 /\ length (ia_v xh) = length (ia_v y) /\ ia_get Debug xh (ia_first y) = AssertFail.
Proof.
  intros E ok st jac creset preset setQ esize cust md wf y u xh0 nc e W WC HE HX F0 D.
  destruct (off_model_ok ok st jac creset preset setQ esize cust md wf y u xh0 nc e W WC HE HX D) as (ls & H & HL & HF).
  rewrite (proj2 (Z.ltb_ge _ _)) in H by lia.
  eexists. split; [exact H|]. split; [reflexivity|]. split; [exact HL|].
  unfold ia_get, ia_checkIndex. cbn [ia_k]. rewrite (proj2 (Z.leb_gt _ _)) by lia. rewrite andb_false_r. reflexivity.
Qed.
Print Assumptions C139_negative_indices_refuted.

(** A log at the indices 0, 1 with forces and with one, then two contacts; the same at -3, -2. *)
Definition zero35 : list fl := repeat (Fin 0) 35.
Definition ylog k : iarr (list fl) := mkIarr k [repeat (Fin 2) 18; repeat (Fin 3) 18].
Definition ulog k : iarr (list fl) := mkIarr k [repeat (Fin 0) 60; repeat (Fin 1) 72].
Example C139_case : (exists xh,
  off_model (kst zero35) kjac kid kid kid kid2 kid1 Release true (ylog 0) (ulog 0) zero35 (mkIarr 0 [1; 2]) 0 = Ok xh /\
  ia_last xh = 1) /\ exists xh,
  off_model (kst zero35) kjac kid kid kid kid2 kid1 Release true (ylog (-3)) (ulog (-3)) zero35 (mkIarr (-3) [1; 2]) 0 = Ok xh /\
  ia_get Debug xh (-3) = AssertFail.
Proof.
  assert (D : forall k t, ia_first (ylog k) <= t <= ia_last (ylog k) -> exists yt ut i, ia_at (ylog k) t = Ok yt /\ ia_at (ulog k) t = Ok ut /\
    ia_at (mkIarr k [1; 2]) t = Ok i /\
     0 <= i /\ 6 + (if true then i * 6 else 0) <= Z.of_nat (length yt) /\ Z.of_nat (length ut) = 48 + 12 * i).
  { intros k t Ht. unfold ia_last, ia_first, ia_size in Ht. cbn in Ht. unfold ia_at. cbn [ia_k ia_v ylog ulog].
    rewrite (proj2 (Z.leb_le _ _)) by lia. assert (C : t = k \/ t = k + 1) by lia.
    destruct C as [-> | ->]; [rewrite Z.sub_diag|replace (k + 1 - k) with 1 by lia]; cbn [Z.to_nat nth_error Pos.to_nat Pos.iter_op];
      eexists; eexists; eexists; repeat split; cbn; lia. }
  split.
  - destruct (C139_changing_contacts_log_partial Z kok (kst zero35) kjac kid kid kid kid2 kid1 Release true (ylog 0) (ulog 0)
      zero35 (mkIarr 0 [1; 2]) 0) as (xh & H & L & _).
    + now apply kst_works.
    + intros; exact I.
    + exact I.
    + left. reflexivity.
    + cbn. lia.
    + apply D.
    + exists xh. split; [exact H|exact L].
  - destruct (C139_negative_indices_refuted Z kok (kst zero35) kjac kid kid kid kid2 kid1 Release true (ylog (-3)) (ulog (-3))
      zero35 (mkIarr (-3) [1; 2]) 0) as (xh & H & _ & _ & L).
    + now apply kst_works.
    + intros; exact I.
    + exact I.
    + left. reflexivity.
    + cbn. lia.
    + apply D.
    + exists xh. split; [exact H|exact L].
Qed.

(** *** C140: a failed first estimation keeps the initial guess *)
(** It does not: when the first estimate of the filter has a NaN both estimations return zeros for
    the first time, not the guess that was given, in both builds. *)
Theorem C140_first_failure_keeps_the_guess_refuted : forall md,
  let guess n := list_set 0 (Fin 1) (repeat (Fin 0) n) in
  off_fixed (kst (repeat Nan 18)) kjac kid kid kid2 md (mkIarr 1 [y6 1]) (mkIarr 1 [repeat (Fin 0) 15]) (guess 18%nat) 0 0 =
    Ok (mkIarr 0 [guess 18%nat; zero18]) /\ guess 18%nat <> zero18 /\
  off_model (kst (repeat Nan 35)) kjac kid kid kid kid2 kid1 md false (mkIarr 1 [y6 1]) (mkIarr 1 [repeat (Fin 0) 48])
      (guess 35%nat) (mkIarr 1 [0]) 0 =
    Ok (mkIarr 0 [guess 35%nat; zero35]) /\ guess 35%nat <> zero35.
Proof.
  intros md guess.
  assert (NZ : forall n, guess (S n) <> repeat (Fin 0) (S n)).
  { intros n K. apply (f_equal (fun l => nth 0 l Nan)) in K. cbn in K. injection K. lra. }
  assert (RZ : regulate_at zero18 = Ok zero18) by now apply regulate_at_zero.
  split; [|split; [apply NZ|split; [|apply NZ]]].
  - set (d := [(y6 1, repeat (Fin 0) 15)]).
    rewrite (off_fixed_ref (kst (repeat Nan 18)) kjac kid kid kid2 md (mkIarr 1 [y6 1]) _ _ 0 0 d).
    + assert (E : ref_fixed_run (kst (repeat Nan 18)) kjac kid md 0 0 d (ref_guess kid 18 (guess 18%nat) (kid2 (6 + 3 * 0) 15 0)) =
        do l <- regulate_at zero18; Ok [l]) by (destruct md; cbn -[regulate_at]; destruct (regulate_at _); reflexivity).
      rewrite E, RZ. reflexivity.
    + intros md0 e k x y u v x' e'. unfold kst. destruct y, u, v; cbn [obind]; try discriminate. intros K. now injection K as <- _.
    + lia.
    + left. reflexivity.
    + reflexivity.
    + intros [|j] yj uj K; [injection K as <- <-; repeat split|destruct j; discriminate].
  - destruct md; reflexivity.
Qed.
Print Assumptions C140_first_failure_keeps_the_guess_refuted.
