(** Properties of the flexibility estimators (C59, C114-C119). The filter is arbitrary: its step, its
    Jacobians and its matrices are universally quantified. *)
From Coq Require Import Reals ZArith List Lia Lra Bool.
From Verif Require Import Base Defs ZDO Vec3 Rot Sensors FlexEst SpecFlexEst FlexEstProofs FlexEstThms.
Import ListNotations.
Open Scope Z_scope.

(** A filter for the examples: its estimate is [x] whatever the data, which it reads. *)
Definition const_step (x : list fl) : @stepfun (list fl) Z Z Z := fun _ e _ _ y u v =>
  do _ <- y; do _ <- u; do _ <- v; Ok (x, e + 1).
Definition no_jac : mode -> Z -> Z -> list fl -> outcome Z -> outcome Z -> outcome Z -> outcome Z :=
  fun _ e _ _ _ _ _ => Ok e.
Definition six (_ : Z) : Z := 6.
Definition in48 (_ : Z) : Z := 48.
Definition same (e : Z) : Z := e.
Definition same2 (_ _ e : Z) : Z := e.
Definition zero35 : list fl := repeat (Fin 0) 35.
(** Runs of the two estimators with this filter. *)
Definition mrun (x : list fl) := fe_run six in48 same same2 (mb_get (const_step x) no_jac same same).
Definition frun (x : list fl) := fe_run six in48 same same2 (fc_get (const_step x) no_jac same).

(** *** C114: the estimators refine an automaton with one pending measurement and two inputs *)
Theorem C114_estimator_refines_automaton :
  forall (Y U E : Type) (sy : Y -> Z) (su : U -> Z) (st : @stepfun (list fl) Y U E) jac creset preset setQ esize
    md (ops : list (fe_op Y U)) n m p (e : E),
  0 < p -> (forall m' p', In (FeSizes m' p') ops -> 0 < p') ->
  let obs r := (snd r, e_k (fst r), e_last (fst r)) in
  let aobs r := (snd r, a_t (fst r), a_last (fst r)) in
  omap obs (fe_run sy su setQ esize (mb_get st jac creset preset) md ops (fe_init n m p e)) =
  omap aobs (a_run sy su setQ esize (a_get st jac creset preset) md ops (a_init n m p e)) /\
  omap obs (fe_run sy su setQ esize (fc_get st jac creset) md ops (fe_init n m p e)) =
  omap aobs (a_run sy su setQ esize (a_fget st jac creset) md ops (a_init n m p e)).
Proof.
  intros Y U E sy su st jac creset preset setQ esize md ops n m p e P HS obs aobs.
  assert (F : Forall op_ok ops).
  { apply Forall_forall. intros o Ho. destruct o; try exact Logic.I. cbn. eapply HS. exact Ho. }
  split; apply orelS_obs; [apply mrun_sim|apply frun_sim]; auto; now apply init_sim.
Qed.
Print Assumptions C114_estimator_refines_automaton.

(** Two measurements before an estimation: the second replaces the first and one step is made. *)
Example C114_case : exists q,
  mrun zero35 Debug [FeInput 1; FeMInput 2; FeMeas 3; FeMeas 4; FeGet; FeGet] (fe_init 35 6 48 0) = Ok (q, [zero35; zero35]) /\
  e_k q = 1 /\ z_e (e_ekf q) = 1.
Proof.
  assert (S : saturate (vscal (9.8 * 56.8) (mkV 100 100 1000)) (vscal (9.8 * 56.8) (mkV 10 10 100)) zero35 = zero35).
  { apply (nth_ext _ _ Nan Nan); [now rewrite saturate_len|]. intros i _. change (nth i ?l Nan) with (ent l i).
    rewrite saturate_ent by (cbn; lia).
    assert (C0 : forall L, (0 <= L)%R -> clamp L (Fin 0) = Fin 0) by (intros L HL; apply clamp_same; lra).
    do 21 (destruct i as [|i]; [try reflexivity; apply C0; cbn; lra|]). reflexivity. }
  destruct (mrun_aut six in48 (const_step zero35) no_jac same same same same2 Debug
    [FeInput 1; FeMInput 2; FeMeas 3; FeMeas 4; FeGet; FeGet] 35 6 48 0
    (mkA 35 6 48 1 1 zero35 zero35 None (Some (2, None)) true true
       (vscal (9.8 * 56.8) (mkV 100 100 1000)) (vscal (9.8 * 56.8) (mkV 10 10 100))) [zero35; zero35]
    eq_refl ltac:(repeat constructor)) as (q & H & R).
  - change (a_init (Y := Z) (U := Z) 35 6 48 0) with (mkA (Y := Z) (U := Z) 35 6 48 0 0 zero35 zero35 None None true true
      (vscal (9.8 * 56.8) (mkV 100 100 1000)) (vscal (9.8 * 56.8) (mkV 10 10 100))).
    assert (G : forall y, a_get (const_step zero35) no_jac same same Debug (mkA 35 6 48 0 0 zero35 zero35 (Some y) (Some (1, Some 2)) true true
      (vscal (9.8 * 56.8) (mkV 100 100 1000)) (vscal (9.8 * 56.8) (mkV 10 10 100))) = Ok (mkA 35 6 48 1 1 zero35 zero35 None (Some (2, None)) true true
      (vscal (9.8 * 56.8) (mkV 100 100 1000)) (vscal (9.8 * 56.8) (mkV 10 10 100)), zero35)).
    { intros y. erewrite get_one; [|reflexivity|reflexivity|reflexivity|now apply regulate_at_zero|now rewrite saturate_len].
      cbv iota. now rewrite S. }
    change (a_run six in48 same same2 (a_get (const_step zero35) no_jac same same) Debug
      ([FeInput 1; FeMInput 2; FeMeas 3; FeMeas 4] ++ [FeGet; FeGet]) (mkA 35 6 48 0 0 zero35 zero35 None None true true
      (vscal (9.8 * 56.8) (mkV 100 100 1000)) (vscal (9.8 * 56.8) (mkV 10 10 100))) =
      Ok (mkA 35 6 48 1 1 zero35 zero35 None (Some (2, None)) true true
       (vscal (9.8 * 56.8) (mkV 100 100 1000)) (vscal (9.8 * 56.8) (mkV 10 10 100)), [zero35; zero35])).
    rewrite a_run_app.
    cbn [a_run a_step a_m a_p a_u a_y boost_assert six in48 Z.eqb Pos.eqb obind fst snd app]. unfold a_data.
    cbn [a_n a_e a_t a_x a_last a_y a_u a_on a_lim a_lf a_lt a_m a_p boost_assert Z.eqb Pos.eqb obind fst snd app].
    rewrite G. reflexivity.
  - exists q. split; [exact H|]. split; [exact (sr_k _ _ R)|exact (sr_e _ _ R)].
Qed.

(** *** C115: no vector that is returned contains a NaN, whatever the filter computes *)
Theorem C115_no_nan_returned :
  forall (Y U E : Type) (sy : Y -> Z) (su : U -> Z) (st : @stepfun (list fl) Y U E) jac creset preset setQ esize
    md (ops : list (fe_op Y U)) n m p (e : E) q outs,
  0 < p -> (forall m' p', In (FeSizes m' p') ops -> 0 < p') ->
  (forall v, In (FeBias v) ops -> ~ In Nan v) ->
  (fe_run sy su setQ esize (mb_get st jac creset preset) md ops (fe_init n m p e) = Ok (q, outs) \/
   fe_run sy su setQ esize (fc_get st jac creset) md ops (fe_init n m p e) = Ok (q, outs)) ->
  forall l, In l outs -> ~ In Nan l.
Proof.
  intros Y U E sy su st jac creset preset setQ esize md ops n m p e q outs P HS HB H l Hl Hn.
  assert (F : Forall op_ok ops).
  { apply Forall_forall. intros o Ho. destruct o; try exact Logic.I. cbn. eapply HS. exact Ho. }
  assert (B : Forall bias_num ops).
  { apply Forall_forall. intros o Ho. destruct o; try exact Logic.I. cbn. apply Forall_forall. intros f Hf ->. now apply (HB v Ho). }
  assert (G : Forall (Forall num) outs).
  { destruct H as [H|H]; [now apply nan_free_mb in H|now apply nan_free_fc in H]. }
  rewrite Forall_forall in G. specialize (G l Hl). rewrite Forall_forall in G. now apply (G Nan Hn).
Qed.
Print Assumptions C115_no_nan_returned.

(** A filter that produces NaN: the initial vector is returned, the time still advances. *)
Example C115_case : exists q,
  mrun (repeat Nan 35) Debug [FeInput 1; FeMInput 2; FeMeas 3; FeGet; FeMInput 5; FeMeas 4; FeGet] (fe_init 35 6 48 0) =
    Ok (q, [zero35; zero35]) /\ e_k q = 2.
Proof. vm_compute. eexists. split; [reflexivity|reflexivity]. Qed.

(** *** C59: saturation of the forces and regulation of the orientation *)
Theorem C59_saturation_partial :
  forall (Y U E : Type) (sy : Y -> Z) (su : U -> Z) (st : @stepfun (list fl) Y U E) jac creset preset setQ esize
    md (ops : list (fe_op Y U)) m p (e : E) q outs lf lt,
  (forall md e k x y u0 u1 x' e', st md e k x y u0 u1 = Ok (x', e') -> length x' = 35%nat) ->
  (0 <= vx lf /\ 0 <= vy lf /\ 0 <= vz lf /\ 0 <= vx lt /\ 0 <= vy lt /\ 0 <= vz lt)%R ->
  0 < p -> (forall m' p', In (FeSizes m' p') ops -> 0 < p') ->
  (forall b v, ~ In (FeLimitOn b) ops /\ ~ In (FeForces v) ops /\ ~ In (FeTorques v) ops) ->
  fe_run sy su setQ esize (mb_get st jac creset preset) md (FeForces lf :: FeTorques lt :: ops) (fe_init 35 m p e) =
    Ok (q, outs) ->
  forall l, In l outs ->
  (* the three components of the force of the first contact within the limits of the forces *)
  (exists f, nth 12 l Nan = Fin (vx f) /\ nth 13 l Nan = Fin (vy f) /\ nth 14 l Nan = Fin (vz f) /\
     Rabs (vx f) <= vx lf /\ Rabs (vy f) <= vy lf /\ Rabs (vz f) <= vz lf)%R /\
  (* the three components of the force of the second contact within the limits of the torques *)
  (exists f, nth 18 l Nan = Fin (vx f) /\ nth 19 l Nan = Fin (vy f) /\ nth 20 l Nan = Fin (vz f) /\
     Rabs (vx f) <= vx lt /\ Rabs (vy f) <= vy lt /\ Rabs (vz f) <= vz lt)%R /\
  (* the orientation vector is short *)
  (exists o, nth 3 l Nan = Fin (vx o) /\ nth 4 l Nan = Fin (vy o) /\ nth 5 l Nan = Fin (vz o) /\
     sqrt (vx o * vx o + vy o * vy o + vz o * vz o) <= 3 / 2 * PI)%R.
Proof.
  intros Y U E sy su st jac creset preset setQ esize md ops m p e q outs lf lt Hs HL P HS HB H l Hl.
  assert (F : Forall op_ok ops).
  { apply Forall_forall. intros o Ho. destruct o; try exact Logic.I. cbn. eapply HS. exact Ho. }
  assert (B : Forall limits_kept ops).
  { apply Forall_forall. intros o Ho. destruct o; try exact Logic.I.
    - now apply (proj1 (HB b (mkV 0 0 0))).
    - now apply (proj1 (proj2 (HB true v))).
    - now apply (proj2 (proj2 (HB true v))). }
  pose proof (bounded_mb sy su st jac creset preset setQ esize md ops m p e q outs lf lt Hs HL P F B H) as G.
  rewrite Forall_forall in G. destruct (G l Hl) as (_ & (a & A1 & A2) & (b & B1 & B2) & (c & C1 & C2) &
    (a' & A1' & A2') & (b' & B1' & B2') & (c' & C1' & C2') & (o & O1 & O2 & O3 & O4)).
  split; [|split].
  - exists (mkV a b c). cbn. repeat split; auto; now apply Rabs_le.
  - exists (mkV a' b' c'). cbn. repeat split; auto; now apply Rabs_le.
  - exists o. repeat split; auto.
Qed.
Print Assumptions C59_saturation_partial.

(** The saturation is the clamp: components within the limits, and every other component, are kept. *)
Theorem C59_saturation_keeps_the_rest : forall lf lt x i r,
  length x = 35%nat -> nth i x Nan = Fin r ->
  (i = 12%nat -> Rabs r <= vx lf)%R -> (i = 13%nat -> Rabs r <= vy lf)%R -> (i = 14%nat -> Rabs r <= vz lf)%R ->
  (i = 18%nat -> Rabs r <= vx lt)%R -> (i = 19%nat -> Rabs r <= vy lt)%R -> (i = 20%nat -> Rabs r <= vz lt)%R ->
  nth i (saturate lf lt x) Nan = Fin r.
Proof.
  intros lf lt x i r Lx Hx K1 K2 K3 K4 K5 K6. change (ent (saturate lf lt x) i = Fin r). change (ent x i = Fin r) in Hx.
  rewrite saturate_ent by lia.
  assert (A : forall L, (Rabs r <= L)%R -> (- L <= r <= L)%R) by (intros L HL; unfold Rabs in HL; destruct (Rcase_abs r); lra).
  repeat match goal with |- (if Nat.eqb i ?n then _ else _) = _ =>
    destruct (Nat.eqb_spec i n) as [->|]; [rewrite Hx; apply clamp_same; auto|] end. exact Hx.
Qed.
Print Assumptions C59_saturation_keeps_the_rest.

(** The torques are not limited at all, and the force of the second contact is cut at the limits of the
    torques although it is within those of the forces: an estimate with a torque of 6000 N.m on the first
    contact and a force of 6000 N on the second one, the default limits being 5566.4 and 55664. *)
Definition big35 : list fl := list_set 15 (Fin 6000) (list_set 18 (Fin 6000) zero35).
Theorem C59_torques_limited_refuted : exists q l t f,
  mrun big35 Debug [FeInput 1; FeMInput 2; FeMeas 3; FeGet] (fe_init 35 6 48 0) = Ok (q, [l]) /\
  nth 15 l Nan = Fin t /\ (vx (e_lt q) < t)%R /\
  nth 18 big35 Nan = Fin f /\ (0 <= f <= vx (e_lf q))%R /\ nth 18 l Nan <> Fin f.
Proof.
  set (lf := vscal (9.8 * 56.8) (mkV 100 100 1000)). set (lt := vscal (9.8 * 56.8) (mkV 10 10 100)).
  set (l := saturate lf lt big35).
  destruct (mrun_aut six in48 (const_step big35) no_jac same same same same2 Debug
    [FeInput 1; FeMInput 2; FeMeas 3; FeGet] 35 6 48 0
    (mkA 35 6 48 1 1 l l None (Some (2, None)) true true lf lt) [l] eq_refl ltac:(repeat constructor)) as (q & H & R).
  - change (a_run six in48 same same2 (a_get (const_step big35) no_jac same same) Debug
      ([FeInput 1; FeMInput 2; FeMeas 3] ++ [FeGet]) (mkA 35 6 48 0 0 zero35 zero35 None None true true lf lt) =
      Ok (mkA 35 6 48 1 1 l l None (Some (2, None)) true true lf lt, [l])).
    rewrite a_run_app.
    cbn [a_run a_step a_m a_p a_u a_y boost_assert six in48 Z.eqb Pos.eqb obind fst snd app]. unfold a_data.
    cbn [a_n a_e a_t a_x a_last a_y a_u a_on a_lim a_lf a_lt a_m a_p boost_assert Z.eqb Pos.eqb obind fst snd app].
    erewrite get_one; [|reflexivity|reflexivity|reflexivity|now apply regulate_at_zero|now rewrite saturate_len]. reflexivity.
  - exists q, l, 6000%R, 6000%R. split; [exact H|]. rewrite (sr_lf _ _ R), (sr_lt _ _ R). cbn [a_lf a_lt].
    assert (E : forall i, ent l i = _) by (intros i; subst l; rewrite saturate_ent by (cbn; lia); reflexivity).
    change (nth 15 l Nan) with (ent l 15). change (nth 18 l Nan) with (ent l 18). rewrite !E. cbn [Nat.eqb].
    split; [reflexivity|]. subst lf lt. cbn. split; [lra|]. split; [reflexivity|]. split; [lra|].
    change (ent big35 18) with (Fin 6000). unfold clamp, f_min, f_max.
    destruct (Rlt_dec _ _) as [K|K]; [|lra].
    destruct (Rlt_dec _ _) as [K'|K']; intros K2; injection K2; lra.
Qed.
Print Assumptions C59_torques_limited_refuted.

(** The filter of the refutation meets the hypotheses of the bounds. *)
Example C59_case : forall lf lt, exists q l,
  mrun big35 Debug (FeForces lf :: FeTorques lt :: [FeInput 1; FeMInput 2; FeMeas 3; FeGet]) (fe_init 35 6 48 0) = Ok (q, [l]) /\
  (forall md e k x y u v x' e', const_step big35 md e k x y u v = Ok (x', e') -> length x' = 35%nat).
Proof.
  intros lf lt. set (l := saturate lf lt big35).
  destruct (mrun_aut six in48 (const_step big35) no_jac same same same same2 Debug
    ([FeForces lf; FeTorques lt; FeInput 1; FeMInput 2; FeMeas 3] ++ [FeGet]) 35 6 48 0
    (mkA 35 6 48 1 1 l l None (Some (2, None)) true true lf lt) [l] eq_refl ltac:(repeat constructor)) as (q & H & R).
  - change (a_init (Y := Z) (U := Z) 35 6 48 0) with (mkA (Y := Z) (U := Z) 35 6 48 0 0 zero35 zero35 None None true true
      (vscal (9.8 * 56.8) (mkV 100 100 1000)) (vscal (9.8 * 56.8) (mkV 10 10 100))).
    rewrite a_run_app.
    cbn [a_run a_step a_m a_p a_u a_y a_n a_e a_t a_x a_last a_on a_lim a_lf a_lt boost_assert six in48 Z.eqb Pos.eqb obind fst snd app].
    unfold a_data.
    cbn [a_n a_e a_t a_x a_last a_y a_u a_on a_lim a_lf a_lt a_m a_p boost_assert Z.eqb Pos.eqb obind fst snd app].
    erewrite get_one; [|reflexivity|reflexivity|reflexivity|now apply regulate_at_zero|now rewrite saturate_len]. reflexivity.
  - exists q, l. split; [exact H|]. intros md e k x y u v x' e' K. unfold const_step in K.
    destruct y, u, v; try discriminate K. apply Ok_inj in K. injection K as <- _. reflexivity.
Qed.

(** *** C116: guesses *)
(** A guess is the state the filter starts the next step from. *)
Theorem C116_guess_starts_the_step_partial :
  forall (Y U E : Type) (sy : Y -> Z) (su : U -> Z) (st : @stepfun (list fl) Y U E) jac creset preset setQ esize
    md (ops : list (fe_op Y U)) n m p (e : E) g u v y q outs,
  0 < p -> (forall m' p', In (FeSizes m' p') ops -> 0 < p') -> Z.of_nat (length g) = n ->
  fe_run sy su setQ esize (mb_get st jac creset preset) md
    (ops ++ [FeOn true; FeGuess (GCol g); FeInput u; FeMInput v; FeMeas y; FeGet]) (fe_init n m p e) = Ok (q, outs) ->
  exists q0 outs0 l e1 x' e2,
    fe_run sy su setQ esize (mb_get st jac creset preset) md ops (fe_init n m p e) = Ok (q0, outs0) /\
    outs = outs0 ++ [l] /\ e_k q = e_k q0 + 1 /\
    st md e1 (e_k q0) g (Ok y) (Ok u) (Ok v) = Ok (x', e2) /\ z_x (e_ekf q) = im_put l (e_k q).
Proof.
  intros Y U E sy su st jac creset preset setQ esize md ops n m p e g u v y q outs P HS Lg H.
  assert (F : Forall op_ok ops).
  { apply Forall_forall. intros o Ho. destruct o; try exact Logic.I. cbn. eapply HS. exact Ho. }
  rewrite fe_run_app in H. apply obind_Ok_inv in H. destruct H as ([q0 outs0] & H0 & H). cbn [fst snd] in H.
  apply obind_Ok_inv in H. destruct H as ([q1 outs1] & H1 & H). apply Ok_inj in H. cbn [fst snd] in H. injection H as <- <-.
  destruct (reach_srel sy su st jac creset preset setQ esize md ops n m p e q0 outs0 P F H0) as (a0 & A0 & S0).
  destruct (orelS_ok1 _ _ _ _ (mrun_sim sy su st jac creset preset setQ esize md
    [FeOn true; FeGuess (GCol g); FeInput u; FeMInput v; FeMeas y; FeGet] q0 a0 ltac:(repeat constructor) S0) H1) as (a1 & A1 & S1).
  assert (N0 : a_n a0 = n) by (apply (run_size sy su st jac creset preset setQ esize md ops (a_init n m p e) a0 outs0 A0)).
  apply (guess_cycle sy su st jac creset preset setQ esize md a0 g u v y a1 outs1) in A1; [|congruence].
  destruct A1 as (l & e1 & x' & e2 & -> & T1 & E1 & X1). exists q0, outs0, l, e1, x', e2.
  rewrite (sr_k _ _ S0), (sr_k _ _ S1). repeat split; auto. rewrite (sr_x _ _ S1), X1. reflexivity.
Qed.
Print Assumptions C116_guess_starts_the_step_partial.

Definition guess35 : list fl := list_set 0 (Fin 1) zero35.
Example C116_case : exists q,
  mrun (repeat Nan 35) Debug ([] ++ [FeOn true; FeGuess (GCol guess35); FeInput 1; FeMInput 2; FeMeas 3; FeGet])
    (fe_init 35 6 48 0) = Ok (q, [zero35]).
Proof. vm_compute. eexists. reflexivity. Qed.

(** But the guess is not what getFlexibilityVector() returns in the meantime. *)
Theorem C116_guess_returned_refuted : exists q,
  mrun zero35 Debug [FeGuess (GCol guess35); FeGet] (fe_init 35 6 48 0) = Ok (q, [zero35]) /\
  zero35 <> guess35 /\ im_get Debug (z_x (e_ekf q)) = Ok guess35.
Proof.
  eexists. split; [reflexivity|]. split; [|reflexivity].
  intros K. apply (f_equal (fun l => nth 0 l Nan)) in K. cbn in K. injection K. lra.
Qed.
Print Assumptions C116_guess_returned_refuted.

(** A homogeneous matrix, the third documented form of a guess, is never accepted. *)
Theorem C116_homogeneous_guess_refuted :
  forall (Y U E : Type) (setQ : E -> E) (q : fest Y U E),
  fe_guess setQ Debug (GMat 4 4) q = AssertFail.
Proof. reflexivity. Qed.
Print Assumptions C116_homogeneous_guess_refuted.

(** *** C117: asking again changes nothing *)
Theorem C117_estimation_idempotent :
  forall (Y U E : Type) (sy : Y -> Z) (su : U -> Z) (st : @stepfun (list fl) Y U E) jac creset preset setQ esize
    md (ops : list (fe_op Y U)) n m p (e : E) q outs l,
  0 < p -> (forall m' p', In (FeSizes m' p') ops -> 0 < p') ->
  fe_run sy su setQ esize (mb_get st jac creset preset) md (ops ++ [FeGet]) (fe_init n m p e) = Ok (q, outs ++ [l]) ->
  exists q', fe_run sy su setQ esize (mb_get st jac creset preset) md (ops ++ [FeGet; FeGet]) (fe_init n m p e) =
    Ok (q', outs ++ [l; l]) /\ e_k q' = e_k q.
Proof.
  intros Y U E sy su st jac creset preset setQ esize md ops n m p e q outs l P HS H.
  assert (F : Forall op_ok ops).
  { apply Forall_forall. intros o Ho. destruct o; try exact Logic.I. cbn. eapply HS. exact Ho. }
  rewrite fe_run_app in H. apply obind_Ok_inv in H. destruct H as ([q0 outs0] & H0 & H). cbn [fst snd] in H.
  apply obind_Ok_inv in H. destruct H as ([q1 outs1] & H1 & H). apply Ok_inj in H. cbn [fst snd] in H. injection H as <- HO.
  cbn [fe_run fe_step] in H1. apply obind_Ok_inv in H1. destruct H1 as ([q2 l2] & H2 & H1). cbn [fst snd obind] in H1.
  apply Ok_inj in H1. injection H1 as <- <-. apply obind_Ok_inv in H2. destruct H2 as ([q3 l3] & H3 & H2). cbn [fst snd] in H2.
  apply Ok_inj in H2. injection H2 as <- <-. rewrite app_nil_r in HO. apply app_inj_tail in HO. destruct HO as [<- <-].
  destruct (reach_srel sy su st jac creset preset setQ esize md ops n m p e q0 outs0 P F H0) as (a0 & A0 & S0).
  destruct (get_again st jac creset preset md q0 a0 q3 l3 S0 H3) as (q4 & H4 & T4).
  exists q4. split; [|exact T4]. rewrite fe_run_app, H0. cbn [obind fst snd fe_run fe_step]. rewrite H3. cbn [obind fst snd].
  rewrite H4. reflexivity.
Qed.
Print Assumptions C117_estimation_idempotent.
Example C117_case : exists q, mrun (repeat Nan 35) Debug [FeInput 1; FeMInput 2; FeMeas 3; FeGet] (fe_init 35 6 48 0) = Ok (q, [] ++ [zero35]).
Proof. vm_compute. eexists. reflexivity. Qed.

(** *** C118: cycles of inputs, measurement and estimation never fail *)
Theorem C118_cycles_never_fail :
  forall (Y U E : Type) (sy : Y -> Z) (su : U -> Z) (st : @stepfun (list fl) Y U E) jac creset preset setQ esize
    md (data : list (U * U * Y)) n m p (e : E),
  0 < p -> 0 <= n ->
  (* the filter never fails when the data are given, returns vectors of the right size and an orientation
     that can be regulated (or a NaN somewhere) *)
  (forall md e k x y u v, exists e1, jac md e k x (Ok y) (Ok u) (Ok v) = Ok e1 /\
     exists x' e2, st md e1 k x (Ok y) (Ok u) (Ok v) = Ok (x', e2) /\ Z.of_nat (length x') = n /\
     (In Nan x' \/ exists l, regulate_at x' = Ok l)) ->
  (forall u v y, In (u, v, y) data -> su u = p /\ su v = p /\ sy y = m) ->
  exists q outs,
    fe_run sy su setQ esize (mb_get st jac creset preset) md
      (flat_map (fun d => [FeInput (fst (fst d)); FeMInput (snd (fst d)); FeMeas (snd d); FeGet]) data)
      (fe_init n m p e) = Ok (q, outs) /\
    length outs = length data /\ e_k q = Z.of_nat (length data).
Proof.
  intros Y U E sy su st jac creset preset setQ esize md data n m p e P Hn HF HD.
  destruct (cycles_ok sy su st jac creset preset setQ esize md data (a_init n m p e)) as (a & ls & H & HL & HT).
  - intros md0 e0 k x y u v. destruct (HF md0 e0 k x y u v) as (e1 & H1 & x' & e2 & H2 & H3 & H4).
    exists e1. split; [exact H1|]. exists x', e2. repeat split; auto. destruct H4 as [H4|H4]; [left|right; exact H4].
    unfold has_nan. apply existsb_exists. exists Nan. auto.
  - reflexivity.
  - cbn. rewrite repeat_length. lia.
  - apply Forall_forall. intros [[u v] y] Hd. exact (HD u v y Hd).
  - assert (F : Forall op_ok (flat_map (@cycle Y U) data)).
    { apply Forall_forall. intros o Ho. apply in_flat_map in Ho. destruct Ho as (d & _ & Hd). unfold cycle in Hd.
      cbn in Hd. destruct Hd as [<-|[<-|[<-|[<-|[]]]]]; exact Logic.I. }
    destruct (orelS_ok2 _ _ _ _ (mrun_sim sy su st jac creset preset setQ esize md _ _ _ F (init_sim n m p e P)) H) as (q & HQ & S).
    exists q, ls. split; [exact HQ|]. split; [exact HL|]. rewrite (sr_k _ _ S), HT. cbn. lia.
Qed.
Print Assumptions C118_cycles_never_fail.

(** The filter of the examples meets the hypotheses. *)
Example C118_case : forall data : list (Z * Z * Z), exists q outs,
  mrun zero35 Debug (flat_map (fun d => [FeInput (fst (fst d)); FeMInput (snd (fst d)); FeMeas (snd d); FeGet]) data)
    (fe_init 35 6 48 0) = Ok (q, outs) /\ length outs = length data /\ e_k q = Z.of_nat (length data).
Proof.
  intros data. apply (C118_cycles_never_fail Z Z Z six in48 (const_step zero35) no_jac same same same same2 Debug data 35 6 48 0); [lia|lia| |].
  - intros md e k x y u v. exists e. split; [reflexivity|]. exists zero35, (e + 1). repeat split. right. exists zero35.
    now apply regulate_at_zero.
  - intros. repeat split.
Qed.

(** *** C119: an estimate that diverges is handled *)
(** An infinite orientation estimate makes getFlexibilityVector() undefined (the conversion of an
    infinite number of turns to unsigned), in both estimators and both builds. *)
Theorem C119_divergence_handled_refuted : forall md,
  let x := list_set 3 (Inf false) zero35 in
  mrun x md [FeInput 1; FeMInput 2; FeMeas 3; FeGet] (fe_init 35 6 48 0) = UB /\
  frun x md [FeInput 1; FeMInput 2; FeMeas 3; FeGet] (fe_init 35 6 48 0) = UB.
Proof. intros []; split; reflexivity. Qed.
Print Assumptions C119_divergence_handled_refuted.
