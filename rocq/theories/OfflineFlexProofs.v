(** Proofs about the offline estimations of the flexibility. *)
From Coq Require Import Reals ZArith List Lia Lra Bool.
From Verif Require Import Base Defs ZDO Vec3 Rot Sensors FlexEst SpecFlexEst FlexEstProofs FlexEstThms OfflineFlex.
Import ListNotations.
Open Scope Z_scope.
Local Arguments saturate : simpl never.
Local Arguments regulate_at : simpl never.
Local Arguments has_nan : simpl never.

Section Proofs.
Context {E : Type}.
Notation X := (list fl).
Variable st : @stepfun X X X E.
Variable jac : mode -> E -> Z -> X -> outcome X -> outcome X -> outcome X -> outcome E.
Variable creset preset setQ : E -> E.
Variable esize : Z -> Z -> E -> E.
Variable cust : Z -> E -> E.
Notation fest := (fest X X E).
Notation aut := (aut X X E).

(** What a vector returned by the estimators is. *)
Definition fine (n : Z) (l : X) : Prop := Z.of_nat (length l) = n /\ Forall num l /\ ori_ok l.

Variable EG : Z -> Z -> E -> Prop.
Variable n : Z.
Definition step_ok : Prop := forall md m p e k x y u v, EG m p e ->
  Z.of_nat (length x) = n -> sxl y = m -> sxl u = p -> sxl v = p ->
  exists e1, jac md e k x (Ok y) (Ok u) (Ok v) = Ok e1 /\
  exists x' e2, st md e1 k x (Ok y) (Ok u) (Ok v) = Ok (x', e2) /\ EG m p e2 /\ Z.of_nat (length x') = n /\
    (has_nan x' = true \/ exists l, regulate_at x' = Ok l).
Hypothesis SO : step_ok.
Hypothesis n5 : 5 < n.
Hypothesis Gcreset : forall m p e, EG m p e -> EG m p (creset e).

Definition ainv (a : aut) : Prop :=
  a_n a = n /\ a_on a = true /\ EG (a_m a) (a_p a) (a_e a) /\ Z.of_nat (length (a_x a)) = n /\ fine n (a_last a) /\
  match a_u a with Some (c, _) => sxl c = a_p a | None => True end.

Lemma fine_regulate l : fine n l -> exists l', regulate_at l = Ok l' /\ fine n l'.
Proof using n5.
  intros (HL & HN & v & E3 & E4 & E5 & HB).
  assert (HR : exists l', regulate_at l = Ok l').
  { unfold regulate_at. rewrite E3, E4, E5. unfold f_regulate.
    destruct (Rlt_dec _ _) as [L|L]; [|cbn [obind]; eauto].
    exfalso. unfold vnorm in HB. replace (mkV (vx v) (vy v) (vz v)) with v in L by (destruct v; reflexivity).
    assert (0 <= vsq v)%R by (unfold vsq, vdot; nra).
    pose proof (sqrt_sqrt (vsq v) H). pose proof (sqrt_pos (vsq v)). pose proof PI_RGT_0. nra. }
  destruct HR as (l' & HR). exists l'. split; [exact HR|].
  split; [|split].
  - rewrite (regulate_at_len _ _ HR). exact HL.
  - exact (regulate_at_num _ _ HR HN).
  - apply (regulate_at_ori _ _ HR HN). lia.
Qed.

(** One iteration, without the change of sizes. *)
Lemma meas_ok md y u a : ainv a -> sxl y = a_m a -> sxl u = a_p a ->
  exists c, a_run sxl sxl setQ esize (a_fget st jac creset) md [FeMeas y; FeMInput u] a =
    Ok (a_data (Some y) (Some (c, Some u)) a, []) /\
  a_run sxl sxl setQ esize (a_get st jac creset preset) md [FeMeas y; FeMInput u] a =
    Ok (a_data (Some y) (Some (c, Some u)) a, []) /\ sxl c = a_p a.
Proof using.
  intros (_ & _ & _ & _ & _ & HU) Hy Hu.
  exists (match a_u a with Some (c, _) => c | None => u end).
  assert (F : forall g, a_run sxl sxl setQ esize g md [FeMeas y; FeMInput u] a =
     Ok (a_data (Some y) (Some (match a_u a with Some (c, _) => c | None => u end, Some u)) a, [])).
  { intros g. cbn [a_run a_step]. rewrite (bassert md (sxl y =? _)) by now apply Z.eqb_eq.
    cbn [obind fst snd a_data a_p]. rewrite (bassert md (sxl u =? _)) by now apply Z.eqb_eq.
    cbn [obind fst snd a_data a_u app]. reflexivity. }
  repeat split; try apply F. destruct (a_u a) as [[c d]|]; auto.
Qed.

Lemma fget_ok md y c u a : ainv a -> sxl y = a_m a -> sxl u = a_p a -> sxl c = a_p a ->
  exists a' l, a_fget st jac creset md (a_data (Some y) (Some (c, Some u)) a) = Ok (a', l) /\
    ainv a' /\ fine n l /\ a_m a' = a_m a /\ a_p a' = a_p a.
Proof using SO n5 Gcreset.
  destruct a as [na m p e t x last oy ou on lim lf lt]. unfold ainv. cbn [a_n a_m a_p a_e a_x a_last a_on a_u].
  intros (-> & -> & HE & Hx & HF & _) Hy Hu Hc.
  destruct (SO md m p e t x y c u HE Hx Hy Hc Hu) as (e1 & HJ & x' & e2 & HS & HE2 & Hx' & HR).
  unfold a_fget, a_data. cbn [a_y]. unfold a_filter. cbn [option_map fst given a_u a_e a_t a_x a_n a_m a_p a_last a_on a_lim a_lf a_lt].
  rewrite HJ. cbn [obind]. rewrite HS. cbn [obind fst snd].
  destruct (has_nan x') eqn:EN.
  - destruct (fine_regulate last HF) as (l' & HL & HF').
    unfold a_state at 1. cbn [a_n a_t]. rewrite (bassert md (_ =? n)) by (apply Z.eqb_eq; apply HF). cbn [obind fst snd a_t].
    rewrite HL. cbn [obind]. unfold a_state.
    replace (a_n (if 1 <? t + 1 then _ else _)) with n by (destruct (1 <? t + 1); reflexivity).
    rewrite (bassert md (_ =? n)) by (apply Z.eqb_eq; apply HF'). cbn [obind].
    eexists. exists l'. split; [reflexivity|].
    destruct (1 <? t + 1); unfold a_answer, a_extra; cbn [a_n a_m a_p a_e a_x a_last a_on a_u];
      (split; [split; [reflexivity|split; [reflexivity|split; [auto|split; [apply HF'|split; [exact HF'|exact Hu]]]]]|
               split; [exact HF'|split; reflexivity]]).
  - destruct HR as [HR|[l HR]]; [congruence|]. rewrite HR. cbn [obind].
    assert (HF' : fine n l).
    { pose proof (proj1 (has_nan_num _) EN) as N. split; [rewrite (regulate_at_len _ _ HR); exact Hx'|].
      split; [exact (regulate_at_num _ _ HR N)|]. apply (regulate_at_ori _ _ HR N). lia. }
    unfold a_state. cbn [a_n]. rewrite (bassert md (_ =? n)) by (apply Z.eqb_eq; apply HF'). cbn [obind].
    eexists. exists l. split; [reflexivity|]. unfold a_answer; cbn [a_n a_m a_p a_e a_x a_last a_on a_u].
    split; [split; [reflexivity|split; [reflexivity|split; [exact HE2|split; [apply HF'|split; [exact HF'|exact Hu]]]]]|
             split; [exact HF'|split; reflexivity]].
Qed.

Hypothesis Gpreset : forall m p e, EG m p e -> EG m p (preset e).
Hypothesis n20 : 20 < n.
Lemma mget_ok md y c u a : ainv a -> sxl y = a_m a -> sxl u = a_p a -> sxl c = a_p a ->
  exists a' l, a_get st jac creset preset md (a_data (Some y) (Some (c, Some u)) a) = Ok (a', l) /\
    ainv a' /\ fine n l /\ a_m a' = a_m a /\ a_p a' = a_p a.
Proof using SO n5 Gcreset Gpreset n20.
  destruct a as [na m p e t x last oy ou on lim lf lt]. unfold ainv. cbn [a_n a_m a_p a_e a_x a_last a_on a_u].
  intros (-> & -> & HE & Hx & HF & _) Hy Hu Hc.
  destruct (SO md m p e t x y c u HE Hx Hy Hc Hu) as (e1 & HJ & x' & e2 & HS & HE2 & Hx' & HR).
  unfold a_get, a_data. cbn [a_y a_on]. unfold a_filter. cbn [option_map fst given a_u a_e a_t a_x a_n a_m a_p a_last a_on a_lim a_lf a_lt].
  rewrite HJ. cbn [obind]. rewrite HS. cbn [obind fst snd].
  destruct (has_nan x') eqn:EN.
  - unfold a_state at 1. cbn [a_n a_t]. rewrite (bassert md (_ =? n)) by (apply Z.eqb_eq; apply HF). cbn [obind fst snd a_t].
    eexists. exists last. split; [reflexivity|].
    destruct (1 <? t + 1); unfold a_answer, a_extra; cbn [a_n a_m a_p a_e a_x a_last a_on a_u];
      (split; [split; [reflexivity|split; [reflexivity|split; [auto|split; [apply HF|split; [exact HF|exact Hu]]]]]|
               split; [exact HF|split; reflexivity]]).
  - destruct HR as [HR|[l1 HR]]; [congruence|]. rewrite HR. cbn [obind].
    set (l := if lim then _ else _).
    assert (HF' : fine n l).
    { pose proof (proj1 (has_nan_num _) EN) as N. pose proof (regulate_at_len _ _ HR) as L1.
      pose proof (regulate_at_num _ _ HR N) as N1. pose proof (regulate_at_ori _ _ HR N ltac:(lia)) as O1.
      subst l. destruct lim; [|split; [rewrite L1; exact Hx'|split; assumption]].
      split; [rewrite saturate_len, L1; exact Hx'|]. split; [now apply saturate_num|].
      destruct O1 as (v & O3 & O4 & O5 & OB). exists v. rewrite !saturate_ent by lia. cbn [Nat.eqb]. auto. }
    unfold a_state. cbn [a_n]. rewrite (bassert md (_ =? n)) by (apply Z.eqb_eq; apply HF'). cbn [obind].
    eexists. exists l. split; [reflexivity|]. unfold a_answer; cbn [a_n a_m a_p a_e a_x a_last a_on a_u].
    split; [split; [reflexivity|split; [reflexivity|split; [exact HE2|split; [apply HF'|split; [exact HF'|exact Hu]]]]]|
             split; [exact HF'|split; reflexivity]].
Qed.

(** ** The estimators *)
Lemma two_ops get md y u (q q' : fest) :
  fe_run sxl sxl setQ esize get md [FeMeas y; FeMInput u] q = Ok (q', []) ->
  exists q1, fe_meas sxl md y q = Ok q1 /\ fe_minput sxl md u q1 = Ok q'.
Proof using.
  cbn [fe_run fe_step]. intros H. apply obind_Ok_inv in H. destruct H as (r & H1 & H).
  apply obind_Ok_inv in H1. destruct H1 as (q1 & H1 & H1'). apply Ok_inj in H1'. subst r. cbn [fst snd] in H.
  apply obind_Ok_inv in H. destruct H as (r & H2 & H).
  apply obind_Ok_inv in H2. destruct H2 as (r2 & H2 & H2').
  apply obind_Ok_inv in H2. destruct H2 as (q2 & H2 & H2''). apply Ok_inj in H2''. subst r2.
  cbn [obind fst snd app] in H2'. apply Ok_inj in H2'. subst r. cbn [fst snd] in H. apply Ok_inj in H. injection H as <-.
  eauto.
Qed.

Lemma ops2_ok (y u : X) : Forall (@op_ok X X) [FeMeas y; FeMInput u].
Proof using. repeat constructor. Qed.

Lemma fx_loop_ok md y u m : 6 <= m -> forall c i q (a : aut) xh, srel q a -> ainv a -> a_m a = m -> a_p a = 15 ->
  (forall j, i <= j < i + Z.of_nat c -> exists yj uj, ia_get md y j = Ok yj /\ sxl yj = 6 /\ ia_get md u j = Ok uj /\ sxl uj = 15) ->
  exists ls, fx_loop st jac creset md y u c i q xh = Ok (mkIarr (ia_k xh) (ia_v xh ++ ls)) /\
    length ls = c /\ Forall (fine n) ls.
Proof using SO n5 Gcreset preset setQ esize.
  intros M6. induction c as [|c IH]; intros i q a xh S A Em Ep D.
  - exists []. cbn. rewrite app_nil_r. destruct xh. auto.
  - destruct (D i ltac:(lia)) as (yi & ui & Hy & Ly & Hu & Lu). cbn [fx_loop]. rewrite Hy. cbn [obind]. unfold fc_meas.
    rewrite (bassert md (sxl yi =? 6)) by now apply Z.eqb_eq. cbn [obind]. unfold eigen_assert.
    rewrite Ly. cbn [Z.eqb]. cbn [obind Pos.eqb].
    rewrite (sr_m _ _ S), Em.
    set (y2 := yi ++ _).
    assert (L2 : sxl y2 = a_m a) by (unfold y2, sxl in *; rewrite app_length, repeat_length, Em; lia).
    destruct (meas_ok md y2 ui a A L2 ltac:(congruence)) as (cu & H1 & _ & Lc).
    destruct (orelS_ok2 _ _ _ _ (frun_sim sxl sxl st jac creset setQ esize md _ q a (ops2_ok y2 ui) S) H1) as (q2 & H2 & S2).
    destruct (two_ops _ _ _ _ _ _ H2) as (q1 & Q1 & Q2). rewrite Q1. cbn [obind]. rewrite Hu. cbn [obind]. rewrite Q2. cbn [obind].
    destruct (fget_ok md y2 cu ui a A L2 ltac:(congruence) Lc) as (a' & l & HG & A' & Fl & Em' & Ep').
    destruct (orelS_ok2 _ _ _ _ (fc_get_sim st jac creset md q2 _ S2) HG) as (q3 & HQ & S3).
    rewrite HQ. cbn [obind fst snd].
    destruct (IH (i + 1) q3 a' (ia_pushBack l xh) S3 A' ltac:(congruence) ltac:(congruence)) as (ls & HL & Hn & HF).
    { intros j Hj. apply D. lia. }
    exists (l :: ls). rewrite HL. unfold ia_pushBack. cbn [ia_k ia_v]. rewrite <- app_assoc. cbn [app length].
    repeat split; auto.
Qed.

Hypothesis Gsize : forall m p m' p' e, EG m p e -> EG m' p' (esize m' p' e).
Hypothesis Gcust : forall m p i e, EG m p e -> EG m p (cust i e).

Lemma sizes_inv m p (a : aut) : ainv a ->
  ainv (mkA (a_n a) m p (esize m p (a_e a)) (a_t a) (a_x a) (a_last a)
            (if m =? a_m a then a_y a else None) (if p =? a_p a then a_u a else None)
            (a_on a) (a_lim a) (a_lf a) (a_lt a)).
Proof using Gsize.
  intros (A1 & A2 & A3 & A4 & A5 & A6). unfold ainv. cbn [a_n a_m a_p a_e a_x a_last a_on a_u].
  repeat split; auto; try apply A5.
  - eapply Gsize; eauto.
  - destruct (p =? a_p a) eqn:EP; [|exact Logic.I]. apply Z.eqb_eq in EP. subst p. exact A6.
Qed.

Lemma mx_loop_ok md wf y u nc : forall c i q (a : aut) xh, srel q a -> ainv a ->
  (forall j, i <= j < i + Z.of_nat c -> exists yj uj k, ia_get md y j = Ok yj /\ ia_get md u j = Ok uj /\
     ia_get md nc j = Ok k /\ 0 <= k /\ mb_msize wf k <= sxl yj /\ sxl uj = mb_psize k) ->
  exists ls, mx_loop st jac creset preset esize cust md wf y u nc c i q xh = Ok (mkIarr (ia_k xh) (ia_v xh ++ ls)) /\
    length ls = c /\ Forall (fine n) ls.
Proof using SO n5 Gcreset Gpreset n20 Gsize Gcust setQ.
  induction c as [|c IH]; intros i q a xh S A D.
  - exists []. cbn. rewrite app_nil_r. destruct xh. auto.
  - destruct (D i ltac:(lia)) as (yi & ui & k & Hy & Hu & Hk & K0 & Ly & Lu). cbn [mx_loop]. rewrite Hk. cbn [obind].
    assert (P0 : 0 < mb_psize k) by (unfold mb_psize; lia).
    pose proof (sizes_sim esize (mb_msize wf k) (mb_psize k) q a S P0) as S1.
    pose proof (sizes_inv (mb_msize wf k) (mb_psize k) a A) as A1.
    set (a1 := mkA _ (mb_msize wf k) _ _ _ _ _ _ _ _ _ _ _) in S1, A1.
    set (q0 := fe_sizes esize _ _ q) in *.
    rewrite Hy. cbn [obind]. unfold eigen_assert. rewrite (proj2 (Z.leb_le _ _) Ly). cbn [obind].
    set (y2 := firstn _ yi).
    assert (M0 : 0 <= mb_msize wf k) by (unfold mb_msize; destruct wf; lia).
    assert (L2 : sxl y2 = a_m a1).
    { unfold y2, sxl in *. cbn [a1 a_m]. rewrite firstn_length. lia. }
    destruct (meas_ok md y2 ui a1 A1 L2 Lu) as (cu & _ & H1 & Lc).
    destruct (orelS_ok2 _ _ _ _ (mrun_sim sxl sxl st jac creset preset setQ esize md _ q0 a1 (ops2_ok y2 ui) S1) H1) as (q2 & H2 & S2).
    destruct (two_ops _ _ _ _ _ _ H2) as (q1 & Q1 & Q2). rewrite Q1. cbn [obind]. rewrite Hu. cbn [obind]. rewrite Q2. cbn [obind].
    set (q3 := with_ekf q2 _).
    set (a3 := a_extra (cust i (a_e a1)) a1).
    assert (S3 : srel q3 (a_data (Some y2) (Some (cu, Some ui)) a3)).
    { pose proof (srel_extra q2 _ (cust i (z_e (e_ekf q2))) S2) as S3. rewrite (sr_e _ _ S2) in S3.
      unfold q3. rewrite (sr_e _ _ S2). exact S3. }
    assert (A3 : ainv a3).
    { destruct A1 as (B1 & B2 & B3 & B4 & B5 & B6). unfold ainv, a3. cbn [a_extra a_n a_m a_p a_e a_x a_last a_on a_u].
      split; [exact B1|]. split; [exact B2|]. split; [now apply Gcust|]. split; [exact B4|]. split; [exact B5|exact B6]. }
    destruct (mget_ok md y2 cu ui a3 A3 L2 Lu Lc) as (a' & l & HG & A' & Fl & Em' & Ep').
    destruct (orelS_ok2 _ _ _ _ (mb_get_sim st jac creset preset md q3 _ S3) HG) as (q4 & HQ & S4).
    rewrite HQ. cbn [obind fst snd].
    destruct (IH (i + 1) q4 a' (ia_pushBack l xh) S4 A') as (ls & HL & Hn & HF).
    { intros j Hj. apply D. lia. }
    exists (l :: ls). rewrite HL. unfold ia_pushBack. cbn [ia_k ia_v]. rewrite <- app_assoc. cbn [app length].
    repeat split; auto.
Qed.

(** ** The start *)
Hypothesis Gq : forall m p e, EG m p e -> EG m p (setQ e).
Lemma zeros_fine : fine n (repeat (Fin 0) (Z.to_nat n)).
Proof using n5.
  clear n20. split; [rewrite repeat_length; lia|]. split.
  - apply Forall_forall. intros x Hx. apply repeat_spec in Hx. subst x. discriminate.
  - assert (Z0 : forall i, (i < Z.to_nat n)%nat -> ent (repeat (Fin 0) (Z.to_nat n)) i = Fin 0).
    { intros i Hi. unfold ent. rewrite (nth_indep _ Nan (Fin 0)) by (rewrite repeat_length; lia). apply nth_repeat. }
    exists (mkV 0 0 0). rewrite !Z0 by lia. cbn [vx vy vz]. repeat split.
    replace (vnorm (mkV 0 0 0)) with 0%R by (unfold vnorm; replace (vsq (mkV 0 0 0)) with 0%R by (unfold vsq, vdot; cbn; ring); symmetry; apply sqrt_0).
    pose proof PI_RGT_0. lra.
Qed.
Lemma init_inv m p e : EG m p e -> ainv (a_init n m p e).
Proof using n5.
  clear n20. intros HE. unfold ainv, a_init. cbn [a_n a_m a_p a_e a_x a_last a_on a_u].
  split; [reflexivity|]. split; [reflexivity|]. split; [exact HE|]. split; [rewrite repeat_length; lia|].
  split; [exact zeros_fine|exact Logic.I].
Qed.
Lemma guess_ok md v (a : aut) : ainv a -> Z.of_nat (length v) = n \/ length v = 6%nat ->
  exists a', a_guess setQ md v a = Ok a' /\ ainv a' /\ a_m a' = a_m a /\ a_p a' = a_p a.
Proof using Gq n5.
  clear n20.
  destruct a as [na m p e t x last oy ou on lim lf lt]. unfold ainv. cbn [a_n a_m a_p a_e a_x a_last a_on a_u].
  intros (-> & -> & HE & Hx & HF & HU) HV. unfold a_guess. cbn [a_n].
  destruct (Z.of_nat (length v) =? n) eqn:EV.
  - apply Z.eqb_eq in EV. unfold a_state. cbn [a_n]. rewrite (bassert md (_ =? n)) by now apply Z.eqb_eq. cbn [obind].
    eexists. split; [reflexivity|]. cbn [a_n a_m a_p a_e a_x a_last a_on a_u]. repeat split; auto; apply HF.
  - assert (L6 : length v = 6%nat) by (destruct HV as [HV|HV]; [apply Z.eqb_neq in EV; lia|exact HV]).
    rewrite L6. rewrite (bassert md (Z.of_nat 6 =? 6)) by reflexivity. cbn [obind].
    replace (3 <=? Z.of_nat 6) with true by reflexivity. cbn [eigen_assert obind].
    unfold a_state. cbn [a_n]. rewrite (bassert md (_ =? n)).
    2: { apply Z.eqb_eq. rewrite !ls_len, repeat_length. lia. }
    cbn [obind]. eexists. split; [reflexivity|]. unfold a_extra. cbn [a_n a_m a_p a_e a_x a_last a_on a_u].
    rewrite !ls_len, repeat_length. repeat split; auto; try apply HF. lia.
Qed.
Lemma orelQ_ok (x : outcome fest) (y : outcome aut) a : orelQ x y -> y = Ok a -> exists q, x = Ok q /\ srel q a.
Proof using. intros O ->. destruct x; cbn in O; try contradiction. eauto. Qed.
End Proofs.

(** ** From the calls to the arrays *)
Lemma at_get {T} md (a : iarr T) t v : ia_at a t = Ok v -> ia_get md a t = Ok v.
Proof.
  unfold ia_get, ia_checkIndex, ia_at, ia_size. intros H. rewrite bassert; [exact H|].
  destruct (ia_k a <=? t) eqn:L; [|discriminate]. apply Z.leb_le in L.
  destruct (nth_error (ia_v a) (Z.to_nat (t - ia_k a))) eqn:N; [|discriminate].
  assert (B : (Z.to_nat (t - ia_k a) < length (ia_v a))%nat) by (apply nth_error_Some; congruence).
  rewrite !andb_true_iff, !Z.ltb_lt. lia.
Qed.
Lemma works_step {E} n ok (st : @stepfun (list fl) (list fl) (list fl) E) jac creset preset setQ esize :
  works n ok st jac creset preset setQ esize -> step_ok st jac ok n.
Proof.
  intros W md m p e k x y u v H1 H2 H3 H4 H5.
  destruct (w_step _ _ _ _ _ _ _ _ W md m p e k x y u v H1 H2 H3 H4 H5) as (e1 & J & x' & e2 & S & K & L & O).
  exists e1. split; [exact J|]. exists x', e2. repeat split; auto. destruct O as [O|O]; [left|right; exact O].
  unfold has_nan. apply existsb_exists. exists Nan. auto.
Qed.
Lemma fine_usable n l : 5 < n -> fine n l -> usable n l.
Proof.
  intros N5 (HL & HN & v & E3 & E4 & E5 & HB). split; [exact HL|]. split.
  - intros HI. rewrite Forall_forall in HN. exact (HN Nan HI eq_refl).
  - exists (vx v), (vy v), (vz v).
    assert (NE : forall i a, (i < length l)%nat -> ent l i = a -> nth_error l i = Some a).
    { intros i a Hi He. unfold ent in He. rewrite (nth_error_nth' l Nan Hi). now rewrite He. }
    repeat split; try (apply NE; [lia|assumption]).
    unfold vnorm in HB. change (vx v * vx v + vy v * vy v + vz v * vz v)%R with (vsq v).
    assert (P : (0 <= vsq v)%R) by (unfold vsq, vdot; nra).
    pose proof (sqrt_sqrt (vsq v) P). pose proof (sqrt_pos (vsq v)). nra.
Qed.
Lemma app_at {T} k (x : T) ls t : k < t -> t <= k + Z.of_nat (length ls) ->
  exists l, ia_at (mkIarr k (x :: ls)) t = Ok l /\ In l ls.
Proof.
  intros H1 H2. unfold ia_at. cbn [ia_k ia_v]. rewrite (proj2 (Z.leb_le _ _)) by lia.
  replace (Z.to_nat (t - k)) with (S (Z.to_nat (t - k - 1))) by lia. cbn [nth_error].
  destruct (nth_error ls _) as [l|] eqn:N; [|apply nth_error_None in N; lia].
  exists l. split; [reflexivity|]. exact (nth_error_In _ _ N).
Qed.
Lemma list_at {T} k (ls : list T) t : k <= t -> t < k + Z.of_nat (length ls) ->
  exists l, ia_at (mkIarr k ls) t = Ok l /\ In l ls.
Proof.
  intros H1 H2. unfold ia_at. cbn [ia_k ia_v]. rewrite (proj2 (Z.leb_le _ _)) by lia.
  destruct (nth_error ls _) as [l|] eqn:N; [|apply nth_error_None in N; lia].
  exists l. split; [reflexivity|]. exact (nth_error_In _ _ N).
Qed.
Lemma zero_in_run md c : forall k l, l <> [] -> zero_in md c (k + Z.of_nat (length l)) (mkIarr k l) =
  Ok (mkIarr k (l ++ repeat (repeat (Fin 0) 15) c)).
Proof.
  induction c as [|c IH]; intros k l Hl; cbn [zero_in].
  - now rewrite app_nil_r.
  - assert (Hs : 0 < Z.of_nat (length l)) by (destruct l; [congruence|cbn [length]; lia]).
    assert (E : ia_setValue md (repeat (Fin 0) 15) (k + Z.of_nat (length l)) (mkIarr k l) =
                Ok (mkIarr k (l ++ [repeat (Fin 0) 15]))).
    { unfold ia_setValue, ia_checkIndex, ia_next, ia_size. cbn [ia_k ia_v].
      rewrite Z.ltb_irrefl, andb_false_r.
      rewrite (bassert md) by (rewrite Z.eqb_refl; apply orb_true_r).
      rewrite (proj2 (Z.eqb_neq _ 0)) by lia. reflexivity. }
    rewrite E. cbn [obind].
    replace (k + Z.of_nat (length l) + 1) with (k + Z.of_nat (length (l ++ [repeat (Fin 0) 15])))
      by (rewrite app_length; cbn [length]; lia).
    rewrite IH by (destruct l; discriminate). rewrite <- app_assoc. reflexivity.
Qed.
Lemma zero_in_all md c k : zero_in md (S c) k ia_empty = Ok (mkIarr k (repeat (repeat (Fin 0) 15) (S c))).
Proof.
  cbn [zero_in]. replace (ia_setValue md (repeat (Fin 0) 15) k ia_empty) with (Ok (mkIarr k [repeat (Fin 0) 15])) by (destruct md; reflexivity).
  cbn [obind]. exact (zero_in_run md c k [repeat (Fin 0) 15] ltac:(discriminate)).
Qed.

Lemma set_empty {T} md (x : T) k : ia_setValue md x k ia_empty = Ok (mkIarr k [x]).
Proof. destruct md; reflexivity. Qed.

Lemma off_fixed_ok {E} ok (st : @stepfun (list fl) (list fl) (list fl) E) jac creset preset setQ esize md y u xh0 nc e :
  works 18 ok st jac creset preset setQ esize -> ok 6 15 e -> 0 <= nc -> length xh0 = 18%nat \/ length xh0 = 6%nat ->
  (forall t, ia_first y <= t <= ia_last y -> exists yt ut, ia_at y t = Ok yt /\ length yt = 6%nat /\
     ia_at u t = Ok ut /\ length ut = 15%nat) ->
  exists ls, off_fixed st jac creset setQ esize md y u xh0 nc e = Ok (mkIarr (ia_first y - 1) (xh0 :: ls)) /\
    length ls = length (ia_v y) /\ Forall (usable 18) ls.
Proof.
  intros W HE N0 HX D. unfold off_fixed.
  pose proof (works_step _ _ _ _ _ _ _ _ W) as SO. destruct W as [_ W1 W2 W3 W4].
  pose proof (init_sim (Y := list fl) (U := list fl) 18 6 15 e ltac:(lia)) as S0.
  pose proof (init_inv ok 18 ltac:(lia) 6 15 e HE) as A0.
  pose proof (sizes_sim esize (6 + 3 * nc) 15 _ _ S0 ltac:(lia)) as S1.
  pose proof (sizes_inv esize ok 18 W4 (6 + 3 * nc) 15 _ A0) as A1.
  set (a1 := mkA _ (6 + 3 * nc) _ _ _ _ _ _ _ _ _ _ _) in S1, A1.
  destruct (guess_ok setQ ok 18 ltac:(lia) W3 md xh0 a1 A1 ltac:(lia)) as (a2 & HG & A2 & Em & Ep).
  destruct (orelQ_ok _ _ _ (guess_sim setQ md xh0 _ _ S1) HG) as (q2 & HQ & S2).
  rewrite HQ, set_empty. cbn [obind].
  destruct (fx_loop_ok st jac creset preset setQ esize ok 18 SO ltac:(lia) W1 md y u (6 + 3 * nc) ltac:(lia) (length (ia_v y)) (ia_first y) q2 a2
    (mkIarr (ia_first y - 1) [xh0]) S2 A2 Em Ep) as (ls & HL & Hn & HF).
  { intros j Hj. destruct (D j) as (yt & ut & D1 & D2 & D3 & D4); [unfold ia_last, ia_size, ia_first in *; lia|].
    exists yt, ut. unfold sxl. rewrite D2, D4. repeat split; auto using at_get. }
  exists ls. split; [exact HL|]. split; [exact Hn|]. eapply Forall_impl; [|exact HF]. intros l. apply fine_usable. lia.
Qed.

Lemma off_model_ok {E} ok (st : @stepfun (list fl) (list fl) (list fl) E) jac creset preset setQ esize cust md wf y u xh0 nc e :
  works 35 ok st jac creset preset setQ esize -> (forall m p i e, ok m p e -> ok m p (cust i e)) ->
  ok 6 48 e -> length xh0 = 35%nat \/ length xh0 = 6%nat ->
  (forall t, ia_first y <= t <= ia_last y -> exists yt ut k, ia_at y t = Ok yt /\ ia_at u t = Ok ut /\ ia_at nc t = Ok k /\
     0 <= k /\ mb_msize wf k <= Z.of_nat (length yt) /\ Z.of_nat (length ut) = 48 + 12 * k) ->
  exists ls, off_model st jac creset preset setQ esize cust md wf y u xh0 nc e =
    Ok (if 0 <? ia_first y then mkIarr (ia_first y - 1) (xh0 :: ls) else mkIarr 0 ls) /\
    length ls = length (ia_v y) /\ Forall (usable 35) ls.
Proof.
  intros W WC HE HX D. unfold off_model.
  pose proof (works_step _ _ _ _ _ _ _ _ W) as SO. destruct W as [_ W1 W2 W3 W4].
  pose proof (init_sim (Y := list fl) (U := list fl) 35 6 48 e ltac:(lia)) as S0.
  pose proof (init_inv ok 35 ltac:(lia) 6 48 e HE) as A0.
  destruct (guess_ok setQ ok 35 ltac:(lia) W3 md xh0 _ A0 ltac:(lia)) as (a1 & HG & A1 & Em & Ep).
  destruct (orelQ_ok _ _ _ (guess_sim setQ md xh0 _ _ S0) HG) as (q1 & HQ & S1).
  rewrite HQ. cbn [obind].
  pose proof (sizes_sim esize (mb_msize wf 0) (mb_psize 0) _ _ S1 ltac:(unfold mb_psize; lia)) as S2.
  pose proof (sizes_inv esize ok 35 W4 (mb_msize wf 0) (mb_psize 0) _ A1) as A2.
  set (a2 := mkA _ (mb_msize wf 0) _ _ _ _ _ _ _ _ _ _ _) in S2, A2.
  set (xh := if 0 <? ia_first y then mkIarr (ia_first y - 1) [xh0] else ia_empty).
  replace (if 0 <? ia_first y then ia_setValue md xh0 (ia_first y - 1) ia_empty else Ok ia_empty) with (Ok xh)
    by (unfold xh; destruct (0 <? ia_first y); [now rewrite set_empty|reflexivity]).
  cbn [obind].
  destruct (mx_loop_ok st jac creset preset setQ esize cust ok 35 SO ltac:(lia) W1 W2 ltac:(lia) W4 WC md wf y u nc
    (length (ia_v y)) (ia_first y) _ _ xh S2 A2) as (ls & HL & Hn & HF).
  { intros j Hj. destruct (D j) as (yt & ut & k & D1 & D2 & D3 & D4 & D5 & D6); [unfold ia_last, ia_size, ia_first in *; lia|].
    exists yt, ut, k. unfold sxl, mb_psize. repeat split; auto using at_get. }
  exists ls. split; [|split; [exact Hn|]].
  - rewrite HL. unfold xh. destruct (0 <? ia_first y); reflexivity.
  - eapply Forall_impl; [|exact HF]. intros l. apply fine_usable. lia.
Qed.

(** ** Refinement to the reference *)
Section RefProofs.
Context {E : Type}.
Notation X := (list fl).
Variable st : @stepfun X X X E.
Variable jac : mode -> E -> Z -> X -> outcome X -> outcome X -> outcome X -> outcome E.
Variable creset preset setQ : E -> E.
Variable esize : Z -> Z -> E -> E.
Variable cust : Z -> E -> E.
Variable n : Z.
Hypothesis Ln : forall md e k x y u v x' e', st md e k x y u v = Ok (x', e') -> Z.of_nat (length x') = n.
Notation LF := (vscal (9.8 * 56.8) (mkV 100 100 1000)).
Notation LT := (vscal (9.8 * 56.8) (mkV 10 10 100)).

Definition aut_of (m p k : Z) (s : @rs E) : aut X X E :=
  mkA n m p (rs_e s) k (rs_x s) (rs_last s) None (option_map (fun c => (c, None)) (rs_prev s)) true true LF LT.
Definition pend (y u : X) (m p k : Z) (s : @rs E) : aut X X E :=
  a_data (Some y) (Some (match rs_prev s with Some c => c | None => u end, Some u)) (aut_of m p k s).

Lemma pend_run get md y u m p k s : sxl y = m -> sxl u = p ->
  a_run sxl sxl setQ esize get md [FeMeas y; FeMInput u] (aut_of m p k s) = Ok (pend y u m p k s, []).
Proof using.
  intros Hy Hu. cbn [a_run a_step]. cbn [aut_of a_m].
  rewrite (bassert md (sxl y =? _)) by now apply Z.eqb_eq.
  cbn [obind fst snd a_data a_p aut_of]. rewrite (bassert md (sxl u =? _)) by now apply Z.eqb_eq.
  cbn [obind fst snd a_data a_u app]. unfold pend, a_data, aut_of. destruct (rs_prev s); reflexivity.
Qed.

Lemma fget_ref md y u m p k s : 0 <= k -> Z.of_nat (length (rs_last s)) = n ->
  a_fget st jac creset md (pend y u m p k s) =
  omap (fun r => (aut_of m p (k + 1) (fst r), snd r)) (ref_fixed st jac creset md k y u s).
Proof using Ln.
  intros K0 HL. unfold pend, aut_of, a_data, a_fget, ref_fixed, ref_filter. cbn [a_y]. unfold a_filter.
  cbn [option_map fst given a_u a_e a_t a_x a_n a_m a_p a_last a_on a_lim a_lf a_lt].
  destruct (jac md _ k _ _ _ _) as [e1| | |]; cbn [obind]; auto.
  destruct (st md e1 k _ _ _ _) as [[x' e2]| | |] eqn:HS; cbn [obind fst snd]; auto.
  pose proof (Ln _ _ _ _ _ _ _ _ _ HS) as Lx. destruct (has_nan x').
  - cbn [andb]. unfold a_state at 1. cbn [a_n]. rewrite (bassert md (_ =? n)) by now apply Z.eqb_eq. cbn [obind fst snd a_t].
    destruct (regulate_at (rs_last s)) as [l| | |] eqn:HR; cbn [obind omap]; auto. unfold a_state.
    replace (a_n (if 1 <? k + 1 then _ else _)) with n by (destruct (1 <? k + 1); reflexivity).
    rewrite (bassert md (_ =? n)) by (rewrite (regulate_at_len _ _ HR); now apply Z.eqb_eq). cbn [obind].
    replace (0 <? k) with (1 <? k + 1) by (destruct (1 <? k + 1) eqn:A, (0 <? k) eqn:B; auto; rewrite ?Z.ltb_lt, ?Z.ltb_ge in *; lia).
    destruct (1 <? k + 1); reflexivity.
  - cbn [andb]. destruct (regulate_at x') as [l| | |] eqn:HR; cbn [obind omap]; auto. unfold a_state. cbn [a_n].
    rewrite (bassert md (_ =? n)) by (rewrite (regulate_at_len _ _ HR); now apply Z.eqb_eq). reflexivity.
Qed.

Lemma mget_ref md y u m p k s : 0 <= k -> Z.of_nat (length (rs_last s)) = n ->
  a_get st jac creset preset md (pend y u m p k s) =
  omap (fun r => (aut_of m p (k + 1) (fst r), snd r)) (ref_model st jac creset preset md k y u s).
Proof using Ln.
  intros K0 HL. unfold pend, aut_of, a_data, a_get, ref_model, ref_filter. cbn [a_y a_on]. unfold a_filter.
  cbn [option_map fst given a_u a_e a_t a_x a_n a_m a_p a_last a_on a_lim a_lf a_lt].
  destruct (jac md _ k _ _ _ _) as [e1| | |]; cbn [obind]; auto.
  destruct (st md e1 k _ _ _ _) as [[x' e2]| | |] eqn:HS; cbn [obind fst snd]; auto.
  pose proof (Ln _ _ _ _ _ _ _ _ _ HS) as Lx. destruct (has_nan x').
  - unfold a_state at 1. cbn [a_n]. rewrite (bassert md (_ =? n)) by now apply Z.eqb_eq. cbn [obind fst snd a_t omap].
    replace (0 <? k) with (1 <? k + 1) by (destruct (1 <? k + 1) eqn:A, (0 <? k) eqn:B; auto; rewrite ?Z.ltb_lt, ?Z.ltb_ge in *; lia).
    destruct (1 <? k + 1); reflexivity.
  - destruct (regulate_at x') as [l| | |] eqn:HR; cbn [obind omap]; auto. unfold a_state. cbn [a_n].
    rewrite (bassert md (_ =? n)) by (rewrite saturate_len, (regulate_at_len _ _ HR); now apply Z.eqb_eq). reflexivity.
Qed.

Lemma ref_fixed_len md k y u s s' l : Z.of_nat (length (rs_last s)) = n ->
  ref_fixed st jac creset md k y u s = Ok (s', l) -> Z.of_nat (length (rs_last s')) = n.
Proof using Ln.
  unfold ref_fixed, ref_filter. intros HL H. apply obind_Ok_inv in H. destruct H as ([x' e2] & HF & H).
  apply obind_Ok_inv in HF. destruct HF as (e1 & _ & HS). cbn [fst snd] in H.
  apply obind_Ok_inv in H. destruct H as (l' & HR & H). apply Ok_inj in H. injection H as <- _. cbn [rs_last].
  rewrite (regulate_at_len _ _ HR). destruct (has_nan x'); [exact HL|exact (Ln _ _ _ _ _ _ _ _ _ HS)].
Qed.
Lemma ref_model_len md k y u s s' l : Z.of_nat (length (rs_last s)) = n ->
  ref_model st jac creset preset md k y u s = Ok (s', l) -> Z.of_nat (length (rs_last s')) = n.
Proof using Ln.
  unfold ref_model, ref_filter. intros HL H. apply obind_Ok_inv in H. destruct H as ([x' e2] & HF & H).
  apply obind_Ok_inv in HF. destruct HF as (e1 & _ & HS). cbn [fst snd] in H. destruct (has_nan x').
  - apply Ok_inj in H. injection H as <- _. exact HL.
  - apply obind_Ok_inv in H. destruct H as (l' & HR & H). apply Ok_inj in H. injection H as <- _. cbn [rs_last].
    rewrite saturate_len, (regulate_at_len _ _ HR). exact (Ln _ _ _ _ _ _ _ _ _ HS).
Qed.

Lemma orelS_all {A} (x : outcome (fest X X E * A)) (y : outcome (aut X X E * A)) : orelS x y ->
  match y with Ok (a, l) => exists q, x = Ok (q, l) /\ srel q a
             | AssertFail => x = AssertFail | Throw => x = Throw | UB => x = UB end.
Proof using.
  destruct x as [[q l]| | |], y as [[a l']| | |]; cbn; intros H; try contradiction; auto.
  destruct H as [H ->]. eauto.
Qed.

Lemma fx_loop_ref md nc y u : 0 <= nc -> forall data i k q s xh,
  srel q (aut_of (6 + 3 * nc) 15 k s) -> 0 <= k -> Z.of_nat (length (rs_last s)) = n ->
  (forall j yj uj, nth_error data j = Some (yj, uj) -> ia_at y (i + Z.of_nat j) = Ok yj /\ length yj = 6%nat /\
     ia_at u (i + Z.of_nat j) = Ok uj /\ length uj = 15%nat) ->
  fx_loop st jac creset md y u (length data) i q xh =
  (do ls <- ref_fixed_run st jac creset md nc k data s; Ok (mkIarr (ia_k xh) (ia_v xh ++ ls))).
Proof using Ln preset setQ esize.
  intros N0. induction data as [|[yi ui] data IH]; intros i k q s xh S K0 HL D.
  - cbn. rewrite app_nil_r. destruct xh. reflexivity.
  - destruct (D 0%nat yi ui eq_refl) as (Hy & Ly & Hu & Lu). rewrite Z.add_0_r in Hy, Hu.
    apply (at_get md) in Hy, Hu.
    cbn [fx_loop length ref_fixed_run]. rewrite Hy. cbn [obind]. unfold fc_meas.
    assert (L6 : sxl yi = 6) by (unfold sxl; lia).
    rewrite (bassert md (sxl yi =? 6)) by now apply Z.eqb_eq. cbn [obind]. unfold eigen_assert.
    rewrite L6. cbn [Z.eqb]. cbn [obind Pos.eqb].
    rewrite (sr_m _ _ S). cbn [aut_of a_m]. replace (6 + 3 * nc - 6) with (3 * nc) by lia.
    set (y2 := yi ++ _).
    assert (L2 : sxl y2 = 6 + 3 * nc) by (unfold y2, sxl in *; rewrite app_length, repeat_length; lia).
    pose proof (pend_run (a_fget st jac creset) md y2 ui (6 + 3 * nc) 15 k s L2 ltac:(unfold sxl; lia)) as H1.
    destruct (orelS_ok2 _ _ _ _ (frun_sim sxl sxl st jac creset setQ esize md _ q _ (ops2_ok y2 ui) S) H1) as (q2 & H2 & S2).
    destruct (two_ops setQ esize _ _ _ _ _ _ H2) as (q1 & Q1 & Q2). rewrite Q1. cbn [obind]. rewrite Hu. cbn [obind]. rewrite Q2. cbn [obind].
    pose proof (orelS_all _ _ (fc_get_sim st jac creset md q2 _ S2)) as HG.
    rewrite (fget_ref md y2 ui _ _ k s K0 HL) in HG.
    destruct (ref_fixed st jac creset md k y2 ui s) as [[s' l]| | |] eqn:HR; cbn [omap obind] in HG |- *;
      try (rewrite HG; reflexivity).
    destruct HG as (q3 & HQ & S3). rewrite HQ. cbn [obind fst snd] in S3 |- *.
    rewrite (IH (i + 1) (k + 1) q3 s' _ S3 ltac:(lia) (ref_fixed_len _ _ _ _ _ _ _ HL HR)).
    + unfold ia_pushBack. cbn [ia_k ia_v]. destruct (ref_fixed_run _ _ _ _ _ _ _ _) as [ls| | |]; cbn [obind]; auto.
      now rewrite <- app_assoc.
    + intros j yj uj Hj. specialize (D (Datatypes.S j) yj uj Hj). replace (i + Z.of_nat (Datatypes.S j)) with (i + 1 + Z.of_nat j) in D by lia. exact D.
Qed.

Lemma mx_loop_ref md wf y u nc : forall data i k n0 q s xh,
  srel q (aut_of (mb_msize wf n0) (mb_psize n0) k s) -> 0 <= k -> Z.of_nat (length (rs_last s)) = n ->
  (forall j yj uj nj, nth_error data j = Some (yj, uj, nj) -> ia_at y (i + Z.of_nat j) = Ok yj /\
     ia_at u (i + Z.of_nat j) = Ok uj /\ ia_at nc (i + Z.of_nat j) = Ok nj /\ 0 <= nj /\
     6 + (if wf then nj * 6 else 0) <= Z.of_nat (length yj) /\ Z.of_nat (length uj) = 48 + 12 * nj) ->
  mx_loop st jac creset preset esize cust md wf y u nc (length data) i q xh =
  (do ls <- ref_model_run st jac creset preset esize cust md wf i k n0 data s; Ok (mkIarr (ia_k xh) (ia_v xh ++ ls))).
Proof using Ln setQ.
  induction data as [|[[yi ui] ni] data IH]; intros i k n0 q s xh S K0 HL D.
  - cbn. rewrite app_nil_r. destruct xh. reflexivity.
  - destruct (D 0%nat yi ui ni eq_refl) as (Hy & Hu & Hn & N0 & Ly & Lu). rewrite Z.add_0_r in Hy, Hu, Hn.
    apply (at_get md) in Hy, Hu, Hn.
    cbn [mx_loop length ref_model_run]. rewrite Hn. cbn [obind]. rewrite Hy. cbn [obind].
    assert (EA : eigen_assert md (mb_msize wf ni <=? sxl yi) = Ok tt).
    { unfold eigen_assert, sxl, mb_msize. now rewrite (proj2 (Z.leb_le _ _) Ly). }
    rewrite EA. cbn [obind].
    change (6 + (if wf then ni * 6 else 0)) with (mb_msize wf ni). change (48 + 12 * ni) with (mb_psize ni).
    assert (P0 : 0 < mb_psize ni) by (unfold mb_psize; lia).
    pose proof (sizes_sim esize (mb_msize wf ni) (mb_psize ni) q _ S P0) as S1.
    set (s0 := mkRs (esize (mb_msize wf ni) (mb_psize ni) (rs_e s)) (rs_x s) (rs_last s) (if ni =? n0 then rs_prev s else None)).
    assert (S1' : srel (fe_sizes esize (mb_msize wf ni) (mb_psize ni) q) (aut_of (mb_msize wf ni) (mb_psize ni) k s0)).
    { revert S1. unfold aut_of. cbn [a_n a_m a_p a_e a_t a_x a_last a_y a_u a_on a_lim a_lf a_lt s0 rs_e rs_x rs_last rs_prev].
      replace (mb_psize ni =? mb_psize n0) with (ni =? n0)
        by (unfold mb_psize; destruct (ni =? n0) eqn:A; symmetry; [apply Z.eqb_eq in A; apply Z.eqb_eq; lia|apply Z.eqb_neq in A; apply Z.eqb_neq; lia]).
      destruct (ni =? n0), (mb_msize wf ni =? mb_msize wf n0); cbn [option_map]; exact (fun x => x). }
    set (q0 := fe_sizes esize _ _ q) in *.
    set (y2 := firstn _ yi).
    assert (M0 : 0 <= mb_msize wf ni) by (unfold mb_msize; destruct wf; lia).
    assert (L2 : sxl y2 = mb_msize wf ni).
    { unfold y2, sxl in *. rewrite firstn_length. unfold mb_msize in *. lia. }
    pose proof (pend_run (a_get st jac creset preset) md y2 ui _ _ k s0 L2 Lu) as H1.
    destruct (orelS_ok2 _ _ _ _ (mrun_sim sxl sxl st jac creset preset setQ esize md _ q0 _ (ops2_ok y2 ui) S1') H1) as (q2 & H2 & S2).
    destruct (two_ops setQ esize _ _ _ _ _ _ H2) as (q1 & Q1 & Q2). rewrite Q1. cbn [obind]. rewrite Hu. cbn [obind]. rewrite Q2. cbn [obind].
    set (q3 := with_ekf q2 _).
    set (s1 := mkRs (cust i _) _ _ _).
    assert (S3 : srel q3 (pend y2 ui (mb_msize wf ni) (mb_psize ni) k s1)).
    { pose proof (srel_extra q2 _ (cust i (z_e (e_ekf q2))) S2) as S3.
      unfold q3. rewrite (sr_e _ _ S2) in S3 |- *. exact S3. }
    pose proof (orelS_all _ _ (mb_get_sim st jac creset preset md q3 _ S3)) as HG.
    rewrite (mget_ref md y2 ui _ _ k s1 K0 HL) in HG.
    destruct (ref_model st jac creset preset md k y2 ui s1) as [[s' l]| | |] eqn:HR; cbn [omap obind] in HG |- *;
      try (rewrite HG; reflexivity).
    destruct HG as (q4 & HQ & S4). rewrite HQ. cbn [obind fst snd] in S4 |- *.
    rewrite (IH (i + 1) (k + 1) ni q4 s' _ S4 ltac:(lia) (ref_model_len md k y2 ui s1 s' l HL HR)).
    + unfold ia_pushBack. cbn [ia_k ia_v]. destruct (ref_model_run _ _ _ _ _ _ _ _ _ _ _ _ _) as [ls| | |]; cbn [obind]; auto.
      now rewrite <- app_assoc.
    + intros j yj uj nj Hj. specialize (D (Datatypes.S j) yj uj nj Hj).
      replace (i + Z.of_nat (Datatypes.S j)) with (i + 1 + Z.of_nat j) in D by lia. exact D.
Qed.
End RefProofs.

Lemma guess_ref {E} (setQ : E -> E) n md v m p (e : E) : n = 18%nat \/ n = 35%nat -> length v = n \/ length v = 6%nat ->
  let z := repeat (Fin 0) n in
  a_guess setQ md v (aut_of (Z.of_nat n) m p 0 (mkRs e z z None)) = Ok (aut_of (Z.of_nat n) m p 0 (ref_guess setQ n v e)).
Proof.
  intros HN HV z. unfold a_guess, ref_guess. cbn [aut_of a_n].
  destruct (Nat.eqb (length v) n) eqn:EV.
  - apply Nat.eqb_eq in EV. rewrite EV, Z.eqb_refl. unfold a_state. cbn [a_n]. rewrite EV, Z.eqb_refl.
    rewrite (bassert md true eq_refl). cbn [obind]. reflexivity.
  - apply Nat.eqb_neq in EV. assert (L6 : length v = 6%nat) by tauto.
    rewrite (proj2 (Z.eqb_neq _ _)) by lia. rewrite L6.
    rewrite (bassert md (Z.of_nat 6 =? 6)) by reflexivity. cbn [obind].
    replace (3 <=? Z.of_nat 6) with true by reflexivity. cbn [eigen_assert obind].
    unfold a_state. cbn [a_n]. rewrite (bassert md (_ =? Z.of_nat n)).
    2: { apply Z.eqb_eq. rewrite !ls_len, repeat_length. lia. }
    cbn [obind]. do 6 (destruct v as [|? v]; [discriminate|]). destruct v; [|discriminate].
    rewrite Nat2Z.id. destruct HN as [-> | ->]; reflexivity.
Qed.

Lemma off_fixed_ref {E} (st : @stepfun (list fl) (list fl) (list fl) E) jac creset setQ esize md y u xh0 nc e data :
  (forall md e k x y u v x' e', st md e k x y u v = Ok (x', e') -> length x' = 18%nat) ->
  0 <= nc -> length xh0 = 18%nat \/ length xh0 = 6%nat -> ia_v y = map fst data ->
  (forall j yj uj, nth_error data j = Some (yj, uj) -> length yj = 6%nat /\ ia_at u (ia_first y + Z.of_nat j) = Ok uj /\ length uj = 15%nat) ->
  off_fixed st jac creset setQ esize md y u xh0 nc e =
  (do ls <- ref_fixed_run st jac creset md nc 0 data (ref_guess setQ 18 xh0 (esize (6 + 3 * nc) 15 e));
   Ok (mkIarr (ia_first y - 1) (xh0 :: ls))).
Proof.
  intros Ln N0 HX Hy D. unfold off_fixed.
  pose proof (init_sim (Y := list fl) (U := list fl) 18 6 15 e ltac:(lia)) as S0.
  pose proof (sizes_sim esize (6 + 3 * nc) 15 _ _ S0 ltac:(lia)) as S1.
  assert (S1' : srel (fe_sizes esize (6 + 3 * nc) 15 (fe_init 18 6 15 e))
    (aut_of (Z.of_nat 18) (6 + 3 * nc) 15 0 (mkRs (esize (6 + 3 * nc) 15 e) (repeat (Fin 0) 18) (repeat (Fin 0) 18) None))).
  { revert S1. unfold a_init. cbn [a_n a_m a_p a_e a_t a_x a_last a_y a_u a_on a_lim a_lf a_lt].
    destruct (6 + 3 * nc =? 6); exact (fun x => x). }
  destruct (orelQ_ok _ _ _ (guess_sim setQ md xh0 _ _ S1') (guess_ref setQ 18 md xh0 _ _ _ ltac:(auto) HX)) as (q2 & HQ & S2).
  rewrite HQ, set_empty. cbn [obind].
  replace (length (ia_v y)) with (length data) by (rewrite Hy, map_length; reflexivity).
  rewrite (fx_loop_ref st jac creset creset setQ esize (Z.of_nat 18)) with (k := 0) (nc := nc) (s := ref_guess setQ 18 xh0 (esize (6 + 3 * nc) 15 e)); auto.
  - intros. apply f_equal. eauto.
  - lia.
  - unfold ref_guess. destruct (Nat.eqb _ _); reflexivity.
  - intros j yj uj Hj. destruct (D j yj uj Hj) as (D1 & D2 & D3). repeat split; auto.
    unfold ia_at, ia_first. rewrite (proj2 (Z.leb_le _ _)) by lia. replace (Z.to_nat _) with j by lia.
    rewrite Hy, nth_error_map, Hj. reflexivity.
Qed.

Lemma off_model_ref {E} (st : @stepfun (list fl) (list fl) (list fl) E) jac creset preset setQ esize cust md (wf : bool) y u xh0 nc e data :
  (forall md e k x y u v x' e', st md e k x y u v = Ok (x', e') -> length x' = 35%nat) ->
  length xh0 = 35%nat \/ length xh0 = 6%nat -> ia_v y = map (fun d => fst (fst d)) data ->
  (forall j yj uj nj, nth_error data j = Some (yj, uj, nj) ->
     ia_at u (ia_first y + Z.of_nat j) = Ok uj /\ ia_at nc (ia_first y + Z.of_nat j) = Ok nj /\ 0 <= nj /\
     6 + (if wf then nj * 6 else 0) <= Z.of_nat (length yj) /\ Z.of_nat (length uj) = 48 + 12 * nj) ->
  off_model st jac creset preset setQ esize cust md wf y u xh0 nc e =
  (let s := ref_guess setQ 35 xh0 e in
   do ls <- ref_model_run st jac creset preset esize cust md wf (ia_first y) 0 0 data
              (mkRs (esize 6 48 (rs_e s)) (rs_x s) (rs_last s) None);
   Ok (if 0 <? ia_first y then mkIarr (ia_first y - 1) (xh0 :: ls) else mkIarr 0 ls)).
Proof.
  intros Ln HX Hy D. unfold off_model.
  pose proof (init_sim (Y := list fl) (U := list fl) 35 6 48 e ltac:(lia)) as S0.
  destruct (orelQ_ok _ _ _ (guess_sim setQ md xh0 _ _ S0) (guess_ref setQ 35 md xh0 6 48 e ltac:(auto) HX)) as (q1 & HQ & S1).
  rewrite HQ. cbn [obind].
  pose proof (sizes_sim esize (mb_msize wf 0) (mb_psize 0) _ _ S1 ltac:(unfold mb_psize; lia)) as S2.
  set (s := ref_guess setQ 35 xh0 e) in *. cbn zeta.
  assert (S2' : srel (fe_sizes esize (mb_msize wf 0) (mb_psize 0) q1)
    (aut_of (Z.of_nat 35) (mb_msize wf 0) (mb_psize 0) 0 (mkRs (esize 6 48 (rs_e s)) (rs_x s) (rs_last s) None))).
  { revert S2. unfold aut_of. cbn [a_n a_m a_p a_e a_t a_x a_last a_y a_u a_on a_lim a_lf a_lt rs_e rs_x rs_last rs_prev].
    replace (mb_msize wf 0) with 6 by (destruct wf; reflexivity). change (mb_psize 0) with 48. cbn [Z.eqb Pos.eqb].
    replace (rs_prev s) with (@None (list fl)) by (unfold s, ref_guess; destruct (Nat.eqb _ _); reflexivity).
    exact (fun x => x). }
  set (xh := if 0 <? ia_first y then mkIarr (ia_first y - 1) [xh0] else ia_empty).
  replace (if 0 <? ia_first y then ia_setValue md xh0 (ia_first y - 1) ia_empty else Ok ia_empty) with (Ok xh)
    by (unfold xh; destruct (0 <? ia_first y); [now rewrite set_empty|reflexivity]).
  cbn [obind].
  replace (length (ia_v y)) with (length data) by (rewrite Hy, map_length; reflexivity).
  rewrite (mx_loop_ref st jac creset preset setQ esize cust (Z.of_nat 35)) with (k := 0) (n0 := 0)
    (s := mkRs (esize 6 48 (rs_e s)) (rs_x s) (rs_last s) None); auto.
  - destruct (ref_model_run _ _ _ _ _ _ _ _ _ _ _ _ _) as [ls| | |]; cbn [obind]; auto.
    unfold xh. destruct (0 <? ia_first y); reflexivity.
  - intros. apply f_equal. eauto.
  - lia.
  - unfold s, ref_guess. destruct (Nat.eqb _ _); reflexivity.
  - intros j yj uj nj Hj. split; [|exact (D j yj uj nj Hj)].
    unfold ia_at, ia_first. rewrite (proj2 (Z.leb_le _ _)) by lia. replace (Z.to_nat _) with j by lia.
    rewrite Hy, nth_error_map, Hj. reflexivity.
Qed.
