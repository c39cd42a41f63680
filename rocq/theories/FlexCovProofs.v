(** Lemmas about the covariance matrices of the flexibility estimators. *)
From Coq Require Import QArith List Bool Arith Lia.
From Verif Require Import Base Sensors FlexCov.
Import ListNotations.
Open Scope nat_scope.

Lemma within_spec lo len i : within lo len i = true <-> lo <= i < lo + len.
Proof. unfold within. rewrite andb_true_iff, Nat.leb_le, Nat.ltb_lt. tauto. Qed.
Lemma within_false lo len i : within lo len i = false <-> i < lo \/ lo + len <= i.
Proof.
  destruct (within lo len i) eqn:E; [apply within_spec in E|]; split; try discriminate; try lia.
  intros _. destruct (le_lt_dec lo i), (le_lt_dec (lo + len) i); auto.
  assert (within lo len i = true) by (apply within_spec; lia). congruence.
Qed.

Lemma eigen_inv md b u : eigen_assert md b = Ok u -> b = true.
Proof. destruct b; auto; destruct md; discriminate. Qed.
Lemma boost_inv_debug b u : boost_assert Debug b = Ok u -> b = true.
Proof. destruct b; auto; discriminate. Qed.

Lemma m_block_inv md r c h w f M N : m_block md r c h w f M = Ok N ->
  r + h <= mr M /\ c + w <= mr M /\
  N = mkMx (mr M) (fun i j => if within r h i && within c w j then f (i - r) (j - c) else me M i j).
Proof.
  unfold m_block. intros H. apply obind_Ok_inv in H as (u & H1 & H2). apply eigen_inv in H1.
  apply andb_true_iff in H1 as [H1 H3]. apply Nat.leb_le in H1, H3. injection H2 as <-. auto.
Qed.
Lemma m_block_ok md r c h w f M : r + h <= mr M -> c + w <= mr M ->
  m_block md r c h w f M =
  Ok (mkMx (mr M) (fun i j => if within r h i && within c w j then f (i - r) (j - c) else me M i j)).
Proof. intros H1 H2. unfold m_block. apply Nat.leb_le in H1, H2. now rewrite H1, H2. Qed.

(** The loop over the contacts. *)
Lemma fill_force_inv md fv n : forall cur M cur' M', fill_force md fv n cur M = Ok (cur', M') ->
  cur' = cur + 6 * n /\ mr M' = mr M /\ (0 < n -> mr fv = 6 /\ cur + 6 * n <= mr M) /\
  (forall i j, (i < cur \/ cur + 6 * n <= i \/ j < cur \/ cur + 6 * n <= j) -> me M' i j = me M i j) /\
  (forall k a b, k < n -> a < 6 -> b < 6 -> me M' (cur + 6 * k + a) (cur + 6 * k + b) = me fv a b) /\
  (forall k l a b, k < n -> l < n -> k <> l -> a < 6 -> b < 6 ->
     me M' (cur + 6 * k + a) (cur + 6 * l + b) = me M (cur + 6 * k + a) (cur + 6 * l + b)).
Proof.
  induction n as [|n IH]; intros cur M cur' M' H.
  - cbn in H. injection H as <- <-. repeat split; auto; intros; lia.
  - cbn [fill_force] in H. apply obind_Ok_inv in H as (M1 & H1 & H2).
    unfold m_blockm in H1. apply obind_Ok_inv in H1 as (u & H0 & H1). apply eigen_inv, Nat.eqb_eq in H0.
    apply m_block_inv in H1 as (L1 & _ & E1).
    apply IH in H2 as (C & R & HS & F & B & X). subst M1. cbn [mr me] in *.
    repeat split; auto; try lia.
    + intros i j Hij. rewrite F by lia. destruct (within cur 6 i) eqn:W1; cbn; auto.
      destruct (within cur 6 j) eqn:W2; cbn; auto. apply within_spec in W1, W2. lia.
    + intros [|k] a b Hk Ha Hb.
      * rewrite F by lia. replace (cur + 6 * 0 + a) with (cur + a) by lia. replace (cur + 6 * 0 + b) with (cur + b) by lia.
        assert (W1 : within cur 6 (cur + a) = true) by (apply within_spec; lia).
        assert (W2 : within cur 6 (cur + b) = true) by (apply within_spec; lia).
        rewrite W1, W2. cbn. f_equal; lia.
      * replace (cur + 6 * S k + a) with (cur + 6 + 6 * k + a) by lia.
        replace (cur + 6 * S k + b) with (cur + 6 + 6 * k + b) by lia. apply B; lia.
    + intros k l a b Hk Hl Hkl Ha Hb.
      assert (W : within cur 6 (cur + 6 * k + a) && within cur 6 (cur + 6 * l + b) = false).
      { apply andb_false_iff. rewrite !within_false. lia. }
      destruct k as [|k].
      * rewrite F by lia. now rewrite W.
      * destruct l as [|l]; [rewrite F by lia; now rewrite W|].
        replace (cur + 6 * S k + a) with (cur + 6 + 6 * k + a) in * by lia.
        replace (cur + 6 * S l + b) with (cur + 6 + 6 * l + b) in * by lia.
        rewrite X by lia. now rewrite W.
Qed.
Lemma fill_force_ok md fv n : forall cur M, mr fv = 6 -> cur + 6 * n <= mr M ->
  exists M', fill_force md fv n cur M = Ok (cur + 6 * n, M') /\ mr M' = mr M.
Proof.
  induction n as [|n IH]; intros cur M Hf HM.
  - exists M. cbn. split; [do 2 f_equal; lia|auto].
  - cbn [fill_force]. unfold m_blockm. rewrite Hf, Nat.eqb_refl. cbn [eigen_assert obind].
    rewrite m_block_ok by lia. cbn [obind].
    edestruct IH as (M' & E & R); [exact Hf| |rewrite E; exists M'; split; [do 2 f_equal; lia|exact R]]. cbn. lia.
Qed.

(** What the update does: the state but for R is kept; R gets the right size and is given to the
    filter; R does not change when it had the right size; its first 6x6 block never changes. *)
Lemma v_update_inv md s s' : v_update md s = Ok s' -> exists R,
  s' = w_km (w_R s R) (v_km s) (Some R) /\ mr R = v_msize s /\ (md = Debug -> v_km s = v_msize s) /\
  (mr (v_R s) = v_msize s -> R = v_R s) /\
  (forall i j, i < 6 -> j < 6 -> 6 <= mr (v_R s) -> me R i j = me (v_R s) i j).
Proof.
  unfold v_update. intros H. apply obind_Ok_inv in H as (R & H1 & H2).
  unfold k_setR in H2. apply obind_Ok_inv in H2 as (u & H2 & H3). injection H3 as <-.
  exists R. split; [reflexivity|].
  enough (G : mr R = v_msize s /\ (mr (v_R s) = v_msize s -> R = v_R s) /\
     (forall i j, i < 6 -> j < 6 -> 6 <= mr (v_R s) -> me R i j = me (v_R s) i j)).
  { destruct G as (G1 & G2 & G3). repeat split; auto. intros ->. apply boost_inv_debug, Nat.eqb_eq in H2. cbn in H2. lia. }
  clear H2. destruct (mr (v_R s) =? v_msize s) eqn:E.
  - injection H1 as <-. apply Nat.eqb_eq in E. auto.
  - apply Nat.eqb_neq in E. apply obind_Ok_inv in H1 as ((cur, M) & H1 & H2).
    assert (A : 6 <= cur /\ mr M = v_msize s /\
       forall i j, i < 6 -> j < 6 -> 6 <= mr (v_R s) -> me M i j = me (v_R s) i j).
    { assert (K : forall i j, i < 6 -> j < 6 -> 6 <= mr (v_R s) -> me (m_resize (v_msize s) (v_R s)) i j = me (v_R s) i j).
      { intros i j Hi Hj Hm. unfold m_resize. cbn [me]. assert (i < mr (v_R s)) as Hi' by lia. assert (j < mr (v_R s)) as Hj' by lia.
        apply Nat.ltb_lt in Hi', Hj'. now rewrite Hi', Hj'. }
      destruct (v_ft s && _).
      - apply obind_Ok_inv in H1 as (M1 & B1 & H1). apply obind_Ok_inv in H1 as (M2 & B2 & H1).
        apply m_block_inv in B1 as (_ & _ & ->). apply m_block_inv in B2 as (_ & _ & ->).
        apply fill_force_inv in H1 as (C & R1 & _ & F & _). cbn [mr me] in *. split; [lia|]. split; [exact R1|].
        intros i j Hi Hj Hm. rewrite F by lia.
        assert (W1 : within 0 6 i && within 6 (v_nc s * 6) j = false).
        { apply andb_false_iff. right. apply within_false. lia. }
        assert (W2 : within 6 (v_nc s * 6) i && within 0 6 j = false).
        { apply andb_false_iff. left. apply within_false. lia. }
        cbn [me]. rewrite W1, W2. apply K; auto.
      - injection H1 as <- <-. split; [lia|]. split; [reflexivity|exact K]. }
    destruct A as (A1 & A2 & A3). destruct (v_abs s && _).
    + apply obind_Ok_inv in H2 as (M1 & B1 & H2). apply obind_Ok_inv in H2 as (M2 & B2 & H2).
      apply m_block_inv in B1 as (_ & _ & ->). apply m_block_inv in B2 as (_ & _ & ->). apply m_block_inv in H2 as (_ & _ & ->).
      cbn [mr me]. repeat split; auto; [congruence|].
      intros i j Hi Hj Hm.
      assert (W0 : within cur 6 i = false) by (apply within_false; lia).
      assert (W1 : within cur 6 j = false) by (apply within_false; lia).
      rewrite !W0, !W1, !andb_false_r. cbn [andb]. auto.
    + injection H2 as <-. repeat split; auto. congruence.
Qed.

(** It cannot fail when the force variance is 6x6 and the filter has the right size. *)
Lemma v_update_ok s : mr (v_fv s) = 6 -> v_km s = v_msize s -> exists s', v_update Debug s = Ok s'.
Proof.
  intros Hf Hk. unfold v_update.
  assert (G : forall R, mr R = v_msize s -> exists s', k_setR Debug R (w_R s R) = Ok s').
  { intros R HR. unfold k_setR. cbn. rewrite HR, Hk, Nat.eqb_refl. cbn. eauto. }
  destruct (mr (v_R s) =? v_msize s) eqn:E.
  - apply Nat.eqb_eq in E. apply G, E.
  - cbn [obind]. pose (M := m_resize (v_msize s) (v_R s)). fold M. assert (HM : mr M = v_msize s) by reflexivity.
    clearbody M. unfold v_msize in *. destruct (v_ft s); cbn [andb].
    + destruct (mr (v_R s) <? 6 + v_nc s * 6) eqn:L.
      * rewrite m_block_ok by (destruct (v_abs s); lia). cbn [obind].
        rewrite m_block_ok by (cbn [mr]; destruct (v_abs s); lia). cbn [obind].
        edestruct (fill_force_ok Debug (v_fv s) (v_nc s) 6) as (M' & -> & R'); [exact Hf| |]; [|cbn [obind]].
        { cbn [mr]. destruct (v_abs s); lia. }
        cbn [mr] in R'. destruct (v_abs s); cbn [andb]; [|apply G; congruence].
        match goal with |- context [if ?b then _ else Ok _] => destruct b end; [|apply G; congruence].
        rewrite m_block_ok by lia. cbn [obind]. rewrite m_block_ok by (cbn [mr]; lia). cbn [obind].
        rewrite m_block_ok by (cbn [mr]; lia). cbn [obind]. apply G. cbn [mr]. lia.
      * cbn [obind]. destruct (v_abs s); cbn [andb]; [|apply G; congruence].
        match goal with |- context [if ?b then _ else Ok _] => destruct b end; [|apply G; congruence].
        rewrite m_block_ok by lia. cbn [obind]. rewrite m_block_ok by (cbn [mr]; lia). cbn [obind].
        rewrite m_block_ok by (cbn [mr]; lia). cbn [obind]. apply G. cbn [mr]. lia.
    + cbn [obind]. destruct (v_abs s); cbn [andb]; [|apply G; congruence].
      match goal with |- context [if ?b then _ else Ok _] => destruct b end; [|apply G; congruence].
      rewrite m_block_ok by lia. cbn [obind]. rewrite m_block_ok by (cbn [mr]; lia). cbn [obind].
      rewrite m_block_ok by (cbn [mr]; lia). cbn [obind]. apply G. cbn [mr]. lia.
Qed.

(** ** Reset *)
Definition reset_R (m : nat) : mx :=
  mkMx m (fun i j => if within 0 6 i && within 0 6 j then default_RIMU (i - 0) (j - 0) else Some (if i =? j then 1%Q else 0%Q)).
Definition reset_Q (uf cb ab : bool) : mx :=
  mkMx 35 (fun i j => if within 32 3 i && within 32 3 j then (if ab then f_scal q8 else f_zero) (i - 32) (j - 32) else
    if within 30 2 i && within 30 2 j then (if cb then f_scal q25 else f_zero) (i - 30) (j - 30) else
    if within 24 6 i && within 24 6 j then (if uf then f_scal q2 else f_zero) (i - 24) (j - 24) else me default_Q i j).

Lemma v_reset_eq md s : v_km s = v_msize s ->
  v_reset md s = let R := reset_R (v_msize s) in let Q := reset_Q (v_uf s) (v_cb s) (v_abs s) in
    Ok (mkF (v_nc s) (v_ft s) (v_abs s) (v_cb s) (v_uf s) R (v_fv s) (v_av s) Q Q (v_km s) (Some R) Q Q).
Proof.
  intros Hk. unfold v_reset. rewrite m_block_ok by (cbn [mr m_scal]; unfold v_msize; lia). cbn [obind].
  unfold v_update at 1. cbn [v_R w_R mr m_scal].
  change (v_msize (w_R s ?R)) with (v_msize s). rewrite Nat.eqb_refl. cbn [obind].
  unfold k_setR. cbn [mr v_km w_R]. rewrite Hk, Nat.eqb_refl. cbn [boost_assert obind].
  rewrite m_block_ok by (cbn [mr default_Q]; lia). cbn [obind].
  rewrite m_block_ok by (cbn [mr default_Q]; lia). cbn [obind].
  rewrite m_block_ok by (cbn [mr default_Q]; lia). cbn [obind].
  unfold k_setQ. cbn [mr default_Q]. rewrite Nat.eqb_refl. cbn [boost_assert obind].
  unfold v_resetP, k_setP. cbn [v_Q w_kQ w_Q mr]. rewrite Nat.eqb_refl. cbn [boost_assert obind]. reflexivity.
Qed.

Lemma v_new_eq md : v_new md = let R := reset_R 6 in let Q := reset_Q false false false in
  Ok (mkF 0 false false false false R (m_scal 6 q4) q4 Q Q 6 (Some R) Q Q).
Proof. unfold v_new. rewrite v_reset_eq by reflexivity. cbn [obind]. reflexivity. Qed.

(** ** Invariant *)
Definition vinv (s : fcov) : Prop :=
  v_kR s = Some (v_R s) /\ mr (v_R s) = v_msize s /\ v_km s = v_msize s /\ v_kQ s = v_Q s.

(** The part of the invariant that holds before an update. *)
Lemma v_update_vinv md s s' : v_km s = v_msize s -> v_kQ s = v_Q s -> v_update md s = Ok s' -> vinv s'.
Proof.
  intros Hk Hq H. apply v_update_inv in H as (R & -> & Hr & _). unfold vinv. cbn.
  change (v_msize (w_km _ _ _)) with (v_msize s). auto.
Qed.
Lemma setMeasureSize_km m s : v_km (k_setMeasureSize m s) = m.
Proof. unfold k_setMeasureSize. destruct (m =? v_km s) eqn:E; cbn; auto. now apply Nat.eqb_eq in E. Qed.
Lemma setMeasureSize_msize m s : v_msize (k_setMeasureSize m s) = v_msize s.
Proof. unfold k_setMeasureSize. now destruct (m =? v_km s). Qed.
Lemma setMeasureSize_proj {A} (f : fcov -> A) m s : (forall s m r, f (w_km s m r) = f s) ->
  f (k_setMeasureSize m s) = f s.
Proof. intros H. unfold k_setMeasureSize. now destruct (m =? v_km s). Qed.
Lemma setMeasureSize_same s : v_km s = v_msize s -> k_setMeasureSize (v_msize s) s = s.
Proof. intros H. unfold k_setMeasureSize. now rewrite H, Nat.eqb_refl. Qed.

Lemma w_km_id s R : vinv s -> R = v_R s -> w_km (w_R s R) (v_km s) (Some R) = s.
Proof. intros (H1 & _) ->. rewrite <- H1. now destruct s. Qed.

(** With the invariant an update that starts with an R of the right size changes nothing. *)
Lemma v_update_same md s s' : vinv s -> v_update md s = Ok s' -> s' = s.
Proof.
  intros H U. apply v_update_inv in U as (R & -> & _ & _ & E & _). apply w_km_id; auto. apply E, H.
Qed.

Lemma v_setUnmodeled_eq md b s s' : vinv s -> v_setUnmodeled md b s = Ok s' -> s' = w_uf s b.
Proof.
  intros H. unfold v_setUnmodeled. destruct (Bool.eqb (v_uf s) b) eqn:E.
  - intros U. injection U as <-. apply Bool.eqb_prop in E. subst. now destruct s.
  - rewrite setMeasureSize_same by apply H. intros U. eapply v_update_same; [|exact U]. exact H.
Qed.
Lemma v_setUnmodeled_ok md b s : vinv s -> v_setUnmodeled md b s = Ok (w_uf s b).
Proof.
  intros H. unfold v_setUnmodeled. destruct (Bool.eqb (v_uf s) b) eqn:E.
  - apply Bool.eqb_prop in E. subst. now destruct s.
  - rewrite setMeasureSize_same by apply H. unfold v_update.
    change (v_msize (w_uf s b)) with (v_msize s). change (v_R (w_uf s b)) with (v_R s).
    destruct H as (H1 & H2 & H3 & H4). rewrite H2, Nat.eqb_refl. cbn [obind]. unfold k_setR.
    change (v_km (w_R (w_uf s b) (v_R s))) with (v_km s). rewrite H2, H3, Nat.eqb_refl.
    cbn [boost_assert obind]. f_equal. rewrite <- H3, <- H1. destruct s; reflexivity.
Qed.

(** Resizes triggered by a change s1 of a flag or of the number of contacts. *)
Lemma resize_vinv md s1 s' : v_kQ s1 = v_Q s1 ->
  v_update md (k_setMeasureSize (v_msize s1) s1) = Ok s' -> vinv s'.
Proof.
  intros Hq H. eapply v_update_vinv; [| |exact H].
  - now rewrite setMeasureSize_km, setMeasureSize_msize.
  - now rewrite !setMeasureSize_proj.
Qed.

Lemma v_step_vinv md o s s' : vinv s -> v_step md o s = Ok s' -> vinv s'.
Proof.
  intros H E. pose proof H as (H1 & H2 & H3 & H4). destruct o; cbn [v_step] in E.
  - destruct (v_ft s) eqn:F; cbn [v_ft w_nc] in E; rewrite F in E.
    + eapply resize_vinv; [|exact E]. exact H4.
    + injection E as <-. unfold vinv, v_msize in *. cbn in *. now rewrite F in *.
  - destruct (Bool.eqb (v_ft s) b); [injection E as <-; exact H|]. eapply resize_vinv; [|exact E]. exact H4.
  - destruct (Bool.eqb (v_abs s) b); [injection E as <-; exact H|]. eapply resize_vinv; [|exact E]. exact H4.
  - apply v_setUnmodeled_eq in E; auto. subst. exact H.
  - injection E as <-. destruct (Bool.eqb (v_cb s) b); exact H.
  - apply obind_Ok_inv in E as (u & _ & E). eapply v_update_vinv; [| |exact E]; assumption.
  - unfold k_setQ in E. apply obind_Ok_inv in E as (u & _ & E). injection E as <-. unfold vinv in *. cbn in *. tauto.
  - eapply v_update_vinv; [| |exact E]; assumption.
  - eapply v_update_vinv; [| |exact E]; assumption.
  - eapply v_update_vinv; [| |exact E]; assumption.
  - apply obind_Ok_inv in E as (s1 & A & E). apply obind_Ok_inv in E as (P & _ & E).
    unfold k_setP in E. apply obind_Ok_inv in E as (u & _ & E). injection E as <-.
    destruct (Qle_bool d 0); [injection A as <-; exact H|].
    apply v_setUnmodeled_eq in A; auto. subst. exact H.
  - apply obind_Ok_inv in E as (P & _ & E). apply obind_Ok_inv in E as (s1 & A & E).
    unfold k_setQ in A. apply obind_Ok_inv in A as (u & _ & A). injection A as <-.
    assert (G : vinv (w_kQ (w_Q s P) P)) by (unfold vinv in *; cbn in *; tauto).
    destruct (Qle_bool d 0); [injection E as <-; exact G|].
    apply v_setUnmodeled_eq in E; auto. subst. exact G.
  - unfold k_setQ in E. apply obind_Ok_inv in E as (u & _ & E). injection E as <-. unfold vinv in *. cbn in *. tauto.
  - rewrite v_reset_eq in E by exact H3. injection E as <-.
    split; [reflexivity|split; [reflexivity|split; [exact H3|reflexivity]]].
  - unfold v_resetP, k_setP in E. apply obind_Ok_inv in E as (u & _ & E). injection E as <-. exact H.
  - injection E as <-. exact H.
  - apply obind_Ok_inv in E as (s1 & A & E). rewrite v_reset_eq in A by exact H3. injection A as <-.
    unfold v_resetP, k_setP in E. apply obind_Ok_inv in E as (u & _ & E). injection E as <-.
    split; [reflexivity|split; [reflexivity|split; [exact H3|reflexivity]]].
  - unfold v_resetP, k_setP in E. apply obind_Ok_inv in E as (u & _ & E). injection E as <-. exact H.
Qed.

Lemma v_run_vinv md ops : forall s s', vinv s -> v_run md ops s = Ok s' -> vinv s'.
Proof.
  induction ops as [|o os IH]; intros s s' H E; cbn in E; [injection E as <-; exact H|].
  apply obind_Ok_inv in E as (s1 & A & E). eapply IH; [|exact E]. eapply v_step_vinv; eauto.
Qed.
Lemma v_new_vinv md : exists s, v_new md = Ok s /\ vinv s.
Proof. rewrite v_new_eq. eexists. split; [reflexivity|]. repeat split. Qed.
Lemma v_hist_vinv md ops s : v_hist md ops = Ok s -> vinv s.
Proof.
  unfold v_hist. intros E. destruct (v_new_vinv md) as (s0 & E0 & H0). rewrite E0 in E. cbn in E.
  eapply v_run_vinv; eauto.
Qed.

(** ** The block of the IMU *)
Definition imu_next (f : nat -> nat -> option Q) (o : vop) : nat -> nat -> option Q :=
  match o with
  | VNoiseR M => me M
  | VResetAll | VNan => default_RIMU
  | _ => f
  end.
Definition imu_is (f : nat -> nat -> option Q) (s : fcov) : Prop :=
  forall i j, i < 6 -> j < 6 -> me (v_R s) i j = f i j.

Lemma msize_6 s : 6 <= v_msize s.
Proof. unfold v_msize. lia. Qed.
Lemma imu_update md f s s' : imu_is f s -> 6 <= mr (v_R s) -> v_update md s = Ok s' -> imu_is f s'.
Proof.
  intros H L U. apply v_update_inv in U as (R & -> & _ & _ & _ & K). intros i j Hi Hj. cbn. rewrite K; auto.
Qed.
Lemma imu_reset_R m : forall i j, i < 6 -> j < 6 -> me (reset_R m) i j = default_RIMU i j.
Proof.
  intros i j Hi Hj. unfold reset_R. cbn [me].
  assert (W1 : within 0 6 i = true) by (apply within_spec; lia). assert (W2 : within 0 6 j = true) by (apply within_spec; lia).
  rewrite W1, W2. cbn [andb]. f_equal; lia.
Qed.

Lemma imu_step f o s s' : vinv s -> imu_is f s -> v_step Debug o s = Ok s' -> imu_is (imu_next f o) s'.
Proof.
  intros H Hf E. pose proof H as (H1 & H2 & H3 & H4). pose proof (msize_6 s) as L.
  assert (L' : 6 <= mr (v_R s)) by lia.
  assert (G : forall m s1, v_R s1 = v_R s -> imu_is f (k_setMeasureSize m s1) /\ 6 <= mr (v_R (k_setMeasureSize m s1))).
  { intros m s1 E1. unfold imu_is. rewrite setMeasureSize_proj by reflexivity. rewrite E1. auto. }
  destruct o; cbn [v_step imu_next] in *.
  - destruct (v_ft s) eqn:F; cbn [v_ft w_nc] in E; rewrite F in E.
    + eapply imu_update; [| |exact E]; apply G; reflexivity.
    + injection E as <-. exact Hf.
  - destruct (Bool.eqb (v_ft s) b); [injection E as <-; exact Hf|]. eapply imu_update; [| |exact E]; apply G; reflexivity.
  - destruct (Bool.eqb (v_abs s) b); [injection E as <-; exact Hf|]. eapply imu_update; [| |exact E]; apply G; reflexivity.
  - apply v_setUnmodeled_eq in E; auto. subst. exact Hf.
  - injection E as <-. destruct (Bool.eqb (v_cb s) b); exact Hf.
  - apply obind_Ok_inv in E as (u & A & E). apply boost_inv_debug, andb_true_iff in A as [A1 A2].
    apply Nat.ltb_lt in A1. apply Nat.eqb_eq in A2.
    eapply imu_update; [| |exact E]; [intros i j _ _; reflexivity|]. cbn [v_R w_R].
    apply Nat.mod_divides in A2 as (c & Hc); [|lia]. lia.
  - unfold k_setQ in E. apply obind_Ok_inv in E as (u & _ & E). injection E as <-. exact Hf.
  - eapply imu_update; [| |exact E]; [exact Hf|exact L'].
  - eapply imu_update; [| |exact E]; [exact Hf|exact L'].
  - eapply imu_update; [| |exact E]; [exact Hf|exact L'].
  - apply obind_Ok_inv in E as (s1 & A & E). apply obind_Ok_inv in E as (P & _ & E).
    unfold k_setP in E. apply obind_Ok_inv in E as (u & _ & E). injection E as <-.
    destruct (Qle_bool d 0); [injection A as <-; exact Hf|].
    apply v_setUnmodeled_eq in A; auto. subst. exact Hf.
  - apply obind_Ok_inv in E as (P & _ & E). apply obind_Ok_inv in E as (s1 & A & E).
    unfold k_setQ in A. apply obind_Ok_inv in A as (u & _ & A). injection A as <-.
    assert (G' : vinv (w_kQ (w_Q s P) P)) by (unfold vinv in *; cbn in *; tauto).
    destruct (Qle_bool d 0); [injection E as <-; exact Hf|].
    apply v_setUnmodeled_eq in E; auto. subst. exact Hf.
  - unfold k_setQ in E. apply obind_Ok_inv in E as (u & _ & E). injection E as <-. exact Hf.
  - rewrite v_reset_eq in E by exact H3. injection E as <-. intros i j. apply imu_reset_R.
  - unfold v_resetP, k_setP in E. apply obind_Ok_inv in E as (u & _ & E). injection E as <-. exact Hf.
  - injection E as <-. exact Hf.
  - apply obind_Ok_inv in E as (s1 & A & E). rewrite v_reset_eq in A by exact H3. injection A as <-.
    unfold v_resetP, k_setP in E. apply obind_Ok_inv in E as (u & _ & E). injection E as <-. intros i j. apply imu_reset_R.
  - unfold v_resetP, k_setP in E. apply obind_Ok_inv in E as (u & _ & E). injection E as <-. exact Hf.
Qed.

Lemma imu_run ops : forall f s s', vinv s -> imu_is f s -> v_run Debug ops s = Ok s' ->
  imu_is (fold_left imu_next ops f) s'.
Proof.
  induction ops as [|o os IH]; intros f s s' H Hf E; cbn in E; [injection E as <-; exact Hf|].
  apply obind_Ok_inv in E as (s1 & A & E). cbn [fold_left]. eapply IH; [| |exact E].
  - eapply v_step_vinv; eauto.
  - eapply imu_step; eauto.
Qed.

(** ** Calls with arguments of the right size never fail *)
Definition sized (o : vop) : Prop :=
  match o with
  | VNoiseR M => 0 < mr M /\ mr M mod 6 = 0
  | VNoiseQ M => mr M = 35
  | VForceVar3 _ => False
  | _ => True
  end.
Definition okinv (s : fcov) : Prop := mr (v_fv s) = 6 /\ mr (v_Q s) = 35 /\ mr (v_kP s) = 35.

Lemma v_update_frame md s s' : v_update md s = Ok s' ->
  v_nc s' = v_nc s /\ v_ft s' = v_ft s /\ v_abs s' = v_abs s /\ v_cb s' = v_cb s /\ v_uf s' = v_uf s /\
  v_fv s' = v_fv s /\ v_av s' = v_av s /\ v_Q s' = v_Q s /\ v_P s' = v_P s /\ v_kQ s' = v_kQ s /\ v_kP s' = v_kP s.
Proof. intros H. apply v_update_inv in H as (R & -> & _). cbn. repeat split. Qed.

Lemma okinv_update s1 : okinv s1 -> v_km s1 = v_msize s1 -> exists s', v_update Debug s1 = Ok s' /\ okinv s'.
Proof.
  intros (A & B & C) Hk. destruct (v_update_ok s1 A Hk) as (s' & E). exists s'. split; [exact E|].
  apply v_update_frame in E as (_ & _ & _ & _ & _ & E1 & _ & E2 & _ & _ & E3). unfold okinv. now rewrite E1, E2, E3.
Qed.
Lemma okinv_resize s1 : okinv s1 -> exists s', v_update Debug (k_setMeasureSize (v_msize s1) s1) = Ok s' /\ okinv s'.
Proof.
  intros H. apply okinv_update.
  - unfold okinv. rewrite !setMeasureSize_proj by reflexivity. exact H.
  - now rewrite setMeasureSize_km, setMeasureSize_msize.
Qed.

Lemma v_step_ok o s : vinv s -> okinv s -> sized o -> exists s', v_step Debug o s = Ok s' /\ okinv s'.
Proof.
  intros H K Ho. pose proof H as (H1 & H2 & H3 & H4). pose proof K as (K1 & K2 & K3).
  destruct o; cbn [v_step sized] in *; try contradiction.
  - destruct (v_ft (w_nc s n)); [apply okinv_resize; exact K|eexists; split; [reflexivity|exact K]].
  - destruct (Bool.eqb (v_ft s) b); [eexists; split; [reflexivity|exact K]|apply okinv_resize; exact K].
  - destruct (Bool.eqb (v_abs s) b); [eexists; split; [reflexivity|exact K]|apply okinv_resize; exact K].
  - rewrite v_setUnmodeled_ok by exact H. eexists; split; [reflexivity|exact K].
  - eexists; split; [reflexivity|]. destruct (Bool.eqb (v_cb s) b); exact K.
  - destruct Ho as [A B]. apply Nat.ltb_lt in A. apply Nat.eqb_eq in B. rewrite A, B. cbn [andb boost_assert obind].
    apply okinv_update; assumption.
  - unfold k_setQ. rewrite Ho, Nat.eqb_refl. cbn [boost_assert obind]. eexists; split; [reflexivity|].
    unfold okinv. cbn. auto.
  - apply okinv_update; [|exact H3]. unfold okinv. cbn. auto.
  - apply okinv_update; assumption.
  - assert (G : exists s1, (if Qle_bool d 0 then Ok s else v_setUnmodeled Debug true s) = Ok s1 /\ okinv s1).
    { destruct (Qle_bool d 0); [exists s; auto|]. rewrite v_setUnmodeled_ok by exact H. eexists; split; [reflexivity|exact K]. }
    destruct G as (s1 & -> & (K1' & K2' & K3')). cbn [obind]. unfold m_diag6. rewrite K3'.
    change (24 + 6 <=? 35) with true. cbn [eigen_assert obind]. unfold k_setP. cbn [mr].
    rewrite Nat.eqb_refl. cbn [boost_assert obind]. eexists; split; [reflexivity|]. unfold okinv. cbn. auto.
  - unfold m_diag6. rewrite K2. change (24 + 6 <=? 35) with true. cbn [eigen_assert obind].
    unfold k_setQ. cbn [mr]. rewrite Nat.eqb_refl. cbn [boost_assert obind].
    destruct (Qle_bool d 0).
    + eexists; split; [reflexivity|]. unfold okinv. cbn. auto.
    + rewrite v_setUnmodeled_ok by (unfold vinv in *; cbn in *; tauto). eexists; split; [reflexivity|]. unfold okinv. cbn. auto.
  - unfold k_setQ. rewrite K2. cbn. eexists; split; [reflexivity|]. exact K.
  - rewrite v_reset_eq by exact H3. eexists; split; [reflexivity|]. unfold okinv. cbn. auto.
  - unfold v_resetP, k_setP. rewrite K2. cbn. eexists; split; [reflexivity|]. unfold okinv. cbn. auto.
  - eexists; split; [reflexivity|]. unfold okinv. cbn. auto.
  - rewrite v_reset_eq by exact H3. cbn. eexists; split; [reflexivity|]. unfold okinv. cbn. auto.
  - unfold v_resetP, k_setP. rewrite K2. cbn. eexists; split; [reflexivity|]. unfold okinv. cbn. auto.
Qed.

Lemma v_run_ok ops : forall s, vinv s -> okinv s -> Forall sized ops -> exists s', v_run Debug ops s = Ok s'.
Proof.
  induction ops as [|o os IH]; intros s H K F; cbn; [eauto|]. inversion F; subst.
  destruct (v_step_ok o s H K) as (s1 & E & K'); auto. rewrite E. cbn. apply IH; auto. eapply v_step_vinv; eauto.
Qed.

Ltac sms := rewrite ?(setMeasureSize_proj v_abs), ?(setMeasureSize_proj v_ft), ?(setMeasureSize_proj v_av),
  ?(setMeasureSize_proj v_fv), ?(setMeasureSize_proj v_R), ?(setMeasureSize_proj v_nc) in * by reflexivity.

(** ** The blocks of the contacts and of the absolute pose *)
(** Every contact has the block N, and nothing correlates it with the IMU. *)
Definition force_good (N : nat -> nat -> option Q) (s : fcov) : Prop :=
  v_ft s = true -> forall k a b, k < v_nc s -> a < 6 -> b < 6 ->
    me (v_R s) (6 + 6 * k + a) (6 + 6 * k + b) = N a b /\
    me (v_R s) (6 + 6 * k + a) b = Some 0%Q /\ me (v_R s) b (6 + 6 * k + a) = Some 0%Q.
(** The same for the pose when there are no force measurements. *)
Definition abs_good (d : Q) (s : fcov) : Prop :=
  v_abs s = true -> forall a b, a < 6 -> b < 6 ->
    me (v_R s) (6 + a) (6 + b) = Some (if a =? b then d else 0%Q) /\
    me (v_R s) (6 + a) b = Some 0%Q /\ me (v_R s) b (6 + a) = Some 0%Q.

(** An update without absolute pose. Either R is not yet filled, or it is good already for at
    least as many contacts. *)
Lemma update_force md s s' : v_abs s = false -> v_ft s = true ->
  (mr (v_R s) < 6 + 6 * v_nc s \/ (6 + 6 * v_nc s <= mr (v_R s) /\ force_good (me (v_fv s)) s)) ->
  v_update md s = Ok s' -> force_good (me (v_fv s)) s'.
Proof.
  intros Ha Hf D U. pose proof U as U'. apply v_update_frame in U' as (Enc & Eft & _).
  unfold v_update in U. apply obind_Ok_inv in U as (R & U & V).
  unfold k_setR in V. apply obind_Ok_inv in V as (u & _ & V). injection V as <-.
  unfold force_good. cbn [v_R v_nc v_ft w_km w_R]. intros _ k a b Hk Hla Hlb.
  assert (Em : v_msize s = 6 + 6 * v_nc s) by (unfold v_msize; rewrite Ha, Hf; lia).
  destruct (mr (v_R s) =? v_msize s) eqn:E.
  { injection U as <-. apply Nat.eqb_eq in E. destruct D as [D|(_ & D)]; [lia|]. apply D; auto. }
  apply Nat.eqb_neq in E. rewrite Hf, Ha in U. cbn [andb] in U.
  apply obind_Ok_inv in U as ((cur, M) & U & V). injection V as <-.
  destruct (mr (v_R s) <? 6 + v_nc s * 6) eqn:L.
  - apply obind_Ok_inv in U as (M1 & B1 & U). apply obind_Ok_inv in U as (M2 & B2 & U).
    apply m_block_inv in B1 as (_ & _ & ->). apply m_block_inv in B2 as (_ & _ & ->).
    apply fill_force_inv in U as (_ & _ & _ & F & B & _). rewrite B by lia. split; [reflexivity|].
    rewrite !F by lia. cbn [me].
    assert (W1 : within 0 6 b = true) by (apply within_spec; lia).
    assert (W2 : within 6 (v_nc s * 6) (6 + 6 * k + a) = true) by (apply within_spec; lia).
    assert (W3 : within 0 6 (6 + 6 * k + a) = false) by (apply within_false; lia).
    rewrite W1, W2, W3. cbn [andb]. auto.
  - injection U as _ <-. apply Nat.ltb_ge in L. destruct D as [D|(D1 & D2)]; [lia|].
    unfold m_resize. cbn [me].
    assert (W1 : 6 + 6 * k + a <? mr (v_R s) = true) by (apply Nat.ltb_lt; lia).
    assert (W2 : 6 + 6 * k + b <? mr (v_R s) = true) by (apply Nat.ltb_lt; lia).
    assert (W3 : b <? mr (v_R s) = true) by (apply Nat.ltb_lt; lia).
    rewrite W1, W2, W3. cbn [andb]. apply D2; auto.
Qed.

Lemma update_abs md s s' : v_ft s = false -> v_abs s = true ->
  (mr (v_R s) < 12 \/ (12 <= mr (v_R s) /\ abs_good (v_av s) s)) ->
  v_update md s = Ok s' -> abs_good (v_av s) s'.
Proof.
  intros Hf Ha D U. unfold v_update in U. apply obind_Ok_inv in U as (R & U & V).
  unfold k_setR in V. apply obind_Ok_inv in V as (u & _ & V). injection V as <-.
  unfold abs_good. cbn [v_R v_abs w_km w_R]. intros _ a b Hla Hlb.
  assert (Em : v_msize s = 12) by (unfold v_msize; rewrite Ha, Hf; lia).
  destruct (mr (v_R s) =? v_msize s) eqn:E.
  { injection U as <-. apply Nat.eqb_eq in E. destruct D as [D|(_ & D)]; [lia|]. apply D; auto. }
  apply Nat.eqb_neq in E. rewrite Hf, Ha in U. cbn [andb obind] in U.
  destruct (mr (v_R s) <? 6 + 6) eqn:L.
  - apply obind_Ok_inv in U as (M1 & B1 & U). apply obind_Ok_inv in U as (M2 & B2 & U).
    apply m_block_inv in B1 as (_ & _ & ->). apply m_block_inv in B2 as (_ & _ & ->). apply m_block_inv in U as (_ & _ & ->).
    cbn [me].
    assert (W1 : within 6 6 (6 + a) = true) by (apply within_spec; lia).
    assert (W2 : within 6 6 (6 + b) = true) by (apply within_spec; lia).
    assert (W3 : within 6 6 b = false) by (apply within_false; lia).
    assert (W4 : within 0 6 b = true) by (apply within_spec; lia).
    rewrite W1, W2, W3, W4. cbn [andb].
    replace (6 + a - 6) with a by lia. replace (6 + b - 6) with b by lia.
    rewrite andb_false_r. auto.
  - injection U as <-. apply Nat.ltb_ge in L. destruct D as [D|(D1 & D2)]; [lia|].
    unfold m_resize. cbn [me].
    assert (W1 : 6 + a <? mr (v_R s) = true) by (apply Nat.ltb_lt; lia).
    assert (W2 : 6 + b <? mr (v_R s) = true) by (apply Nat.ltb_lt; lia).
    assert (W3 : b <? mr (v_R s) = true) by (apply Nat.ltb_lt; lia).
    rewrite W1, W2, W3. cbn [andb]. apply D2; auto.
Qed.

(** Calls that leave the matrix R to the estimator: none that gives R, a variance or resets. *)
Definition leaves_R (o : vop) : Prop :=
  match o with
  | VNoiseR _ | VForceVar _ | VForceVar3 _ | VAbsVar _ | VResetAll | VNan => False
  | _ => True
  end.

(** Steps that change neither R, nor the flags, nor the variances. *)
Lemma quiet_step md o s s' : vinv s -> leaves_R o ->
  match o with VContacts _ | VForces _ | VAbs _ => False | _ => True end -> v_step md o s = Ok s' ->
  v_nc s' = v_nc s /\ v_ft s' = v_ft s /\ v_abs s' = v_abs s /\ v_fv s' = v_fv s /\ v_av s' = v_av s /\ v_R s' = v_R s.
Proof.
  intros H Hq Hn E. destruct o; cbn [v_step leaves_R] in *; try contradiction.
  - apply v_setUnmodeled_eq in E; auto. subst. repeat split.
  - injection E as <-. destruct (Bool.eqb (v_cb s) b); repeat split.
  - unfold k_setQ in E. apply obind_Ok_inv in E as (u & _ & E). injection E as <-. repeat split.
  - apply obind_Ok_inv in E as (s1 & A & E). apply obind_Ok_inv in E as (P & _ & E).
    unfold k_setP in E. apply obind_Ok_inv in E as (u & _ & E). injection E as <-.
    destruct (Qle_bool d 0); [injection A as <-; repeat split|].
    apply v_setUnmodeled_eq in A; auto. subst. repeat split.
  - apply obind_Ok_inv in E as (P & _ & E). apply obind_Ok_inv in E as (s1 & A & E).
    unfold k_setQ in A. apply obind_Ok_inv in A as (u & _ & A). injection A as <-.
    destruct (Qle_bool d 0); [injection E as <-; repeat split|].
    apply v_setUnmodeled_eq in E; [|unfold vinv in *; cbn in *; tauto]. subst. repeat split.
  - unfold k_setQ in E. apply obind_Ok_inv in E as (u & _ & E). injection E as <-. repeat split.
  - unfold v_resetP, k_setP in E. apply obind_Ok_inv in E as (u & _ & E). injection E as <-. repeat split.
  - injection E as <-. repeat split.
  - unfold v_resetP, k_setP in E. apply obind_Ok_inv in E as (u & _ & E). injection E as <-. repeat split.
Qed.

Definition no_abs (o : vop) : Prop := match o with VAbs b => b = false | _ => True end.
Definition no_force (o : vop) : Prop := match o with VForces b => b = false | _ => True end.

Definition finv (fv : mx) (s : fcov) : Prop := v_abs s = false /\ v_fv s = fv /\ force_good (me fv) s.
Lemma finv_step md fv o s s' : vinv s -> finv fv s -> leaves_R o -> no_abs o -> v_step md o s = Ok s' -> finv fv s'.
Proof.
  intros H (A & F & G) Ho Hn E.
  assert (Q : match o with VContacts _ | VForces _ | VAbs _ => False | _ => True end -> finv fv s').
  { intros Hq. destruct (quiet_step _ _ _ _ H Ho Hq E) as (E1 & E2 & E3 & E4 & _ & E5).
    unfold finv, force_good in *. rewrite E1, E2, E3, E4, E5. auto. }
  pose proof H as (H1 & H2 & H3 & H4). destruct o; try (apply Q; exact Logic.I).
  - clear Q. cbn [v_step] in E. destruct (v_ft s) eqn:T; cbn [v_ft w_nc] in E; rewrite T in E.
    + pose proof (v_update_frame _ _ _ E) as (_ & _ & E3 & _ & _ & E4 & _).
      sms. cbn [v_abs v_fv w_nc] in E3, E4.
      split; [congruence|]. split; [congruence|].
      rewrite <- F. change (v_fv s) with (v_fv (w_nc s n)).
      rewrite <- (setMeasureSize_proj v_fv (v_msize (w_nc s n)) (w_nc s n)) by reflexivity.
      eapply update_force; [| | |exact E]; sms.
      * exact A.
      * exact T.
      * cbn [v_R v_nc v_fv w_nc]. destruct (le_lt_dec (6 + 6 * n) (mr (v_R s))) as [L|L]; [right; split; [exact L|]|left; exact L].
        unfold force_good. sms. cbn [v_ft v_nc v_R w_nc].
        intros _ k a b Hk. rewrite F. apply G; [exact T|]. unfold v_msize in H2. rewrite T, A in H2. lia.
    + injection E as <-. split; [exact A|]. split; [exact F|]. unfold force_good. cbn. congruence.
  - clear Q. cbn [v_step] in E. destruct (Bool.eqb (v_ft s) b) eqn:T; [injection E as <-; exact (conj A (conj F G))|].
    pose proof (v_update_frame _ _ _ E) as (E1 & E2 & E3 & _ & _ & E4 & _).
    sms. cbn [v_nc v_ft v_abs v_fv w_ft] in E1, E2, E3, E4.
    split; [congruence|]. split; [congruence|]. destruct b; [|intros X; congruence].
    rewrite <- F. change (v_fv s) with (v_fv (w_ft s true)).
    rewrite <- (setMeasureSize_proj v_fv (v_msize (w_ft s true)) (w_ft s true)) by reflexivity.
    eapply update_force; [| | |exact E]; sms.
    + exact A.
    + reflexivity.
    + cbn [v_R v_nc v_fv w_ft]. destruct (v_ft s) eqn:T'; [discriminate|].
      unfold v_msize in H2. rewrite T', A in H2. destruct (v_nc s) as [|n] eqn:N; [right|left; lia].
      split; [lia|]. intros _ k a b Hk. sms. cbn in Hk. lia.
  - clear Q. cbn [no_abs] in Hn. subst b. cbn [v_step] in E. rewrite A in E. injection E as <-. exact (conj A (conj F G)).
Qed.

Definition ainv (d : Q) (s : fcov) : Prop := v_ft s = false /\ v_av s = d /\ abs_good d s.
Lemma ainv_step md d o s s' : vinv s -> ainv d s -> leaves_R o -> no_force o -> v_step md o s = Ok s' -> ainv d s'.
Proof.
  intros H (A & F & G) Ho Hn E.
  assert (Q : match o with VContacts _ | VForces _ | VAbs _ => False | _ => True end -> ainv d s').
  { intros Hq. destruct (quiet_step _ _ _ _ H Ho Hq E) as (E1 & E2 & E3 & E4 & E5 & E6).
    unfold ainv, abs_good in *. rewrite E2, E3, E5, E6. auto. }
  pose proof H as (H1 & H2 & H3 & H4). destruct o; try (apply Q; exact Logic.I); clear Q; cbn [v_step] in E.
  - cbn [v_ft w_nc] in E. rewrite A in E. injection E as <-. exact (conj A (conj F G)).
  - cbn [no_force] in Hn. subst b. rewrite A in E. injection E as <-. exact (conj A (conj F G)).
  - destruct (Bool.eqb (v_abs s) b) eqn:T; [injection E as <-; exact (conj A (conj F G))|].
    pose proof (v_update_frame _ _ _ E) as (E1 & E2 & E3 & _ & _ & _ & E4 & _).
    sms. cbn [v_nc v_ft v_abs v_av w_abs] in E1, E2, E3, E4.
    split; [congruence|]. split; [congruence|]. destruct b; [|intros X; congruence].
    rewrite <- F. change (v_av s) with (v_av (w_abs s true)).
    rewrite <- (setMeasureSize_proj v_av (v_msize (w_abs s true)) (w_abs s true)) by reflexivity.
    eapply update_abs; [| | |exact E]; sms.
    + exact A.
    + reflexivity.
    + cbn [v_R w_abs]. destruct (v_abs s) eqn:T'; [discriminate|].
      unfold v_msize in H2. rewrite T', A in H2. left. lia.
Qed.

Lemma run_inv (I : fcov -> Prop) (ok : vop -> Prop) md :
  (forall o s s', vinv s -> I s -> ok o -> v_step md o s = Ok s' -> I s') ->
  forall ops s s', vinv s -> I s -> Forall ok ops -> v_run md ops s = Ok s' -> I s'.
Proof.
  intros St. induction ops as [|o os IH]; intros s s' H Hi F E; cbn in E; [injection E as <-; exact Hi|].
  apply obind_Ok_inv in E as (s1 & A & E). inversion F; subst. eapply IH; [| | |exact E]; auto.
  - eapply v_step_vinv; eauto.
  - eapply St; eauto.
Qed.

(** ** Rows of Q and P that stay zero *)
Definition zrow (i : nat) (M : mx) : Prop := forall j, j < 35 -> me M i j = Some 0%Q /\ me M j i = Some 0%Q.
Definition leaves_Q (i : nat) (o : vop) : Prop :=
  match o with
  | VNoiseQ _ | VResetAll | VNan => False
  | VEstimate P => zrow i (mkMx 35 P)
  | _ => True
  end.
Definition qinv (i : nat) (s : fcov) : Prop := zrow i (v_Q s) /\ zrow i (v_kP s).

Lemma diag6_zrow md i d M N : 30 <= i -> zrow i M -> m_diag6 md 24 d M = Ok N -> zrow i N.
Proof.
  intros Hi H E. unfold m_diag6 in E. apply obind_Ok_inv in E as (u & _ & E). injection E as <-.
  intros j Hj. cbn [me]. destruct (H j Hj) as [A B].
  assert (W : within 24 6 i = false) by (apply within_false; lia). rewrite W, andb_false_r.
  split; [exact A|]. destruct (j =? i) eqn:E; cbn [andb]; [|exact B]. apply Nat.eqb_eq in E. subst. now rewrite W.
Qed.
Lemma qinv_update md i s s' : qinv i s -> v_update md s = Ok s' -> qinv i s'.
Proof.
  intros H E. apply v_update_frame in E as (_ & _ & _ & _ & _ & _ & _ & E1 & _ & _ & E2). unfold qinv. now rewrite E1, E2.
Qed.
Lemma qinv_step md i o s s' : 30 <= i -> vinv s -> qinv i s -> leaves_Q i o -> v_step md o s = Ok s' -> qinv i s'.
Proof.
  intros Hi H K Ho E. pose proof H as (H1 & H2 & H3 & H4). pose proof K as (K1 & K2).
  assert (G : forall m s1, v_Q s1 = v_Q s -> v_kP s1 = v_kP s -> qinv i (k_setMeasureSize m s1)).
  { intros m s1 E1 E2. unfold qinv. rewrite (setMeasureSize_proj v_Q), (setMeasureSize_proj v_kP), E1, E2 by reflexivity. exact K. }
  destruct o; cbn [v_step leaves_Q] in *; try contradiction.
  - destruct (v_ft (w_nc s n)); [eapply qinv_update; [|exact E]; apply G; reflexivity|injection E as <-; exact K].
  - destruct (Bool.eqb (v_ft s) b); [injection E as <-; exact K|eapply qinv_update; [|exact E]; apply G; reflexivity].
  - destruct (Bool.eqb (v_abs s) b); [injection E as <-; exact K|eapply qinv_update; [|exact E]; apply G; reflexivity].
  - apply v_setUnmodeled_eq in E; auto. subst. exact K.
  - injection E as <-. destruct (Bool.eqb (v_cb s) b); exact K.
  - apply obind_Ok_inv in E as (u & _ & E). eapply qinv_update; [|exact E]. exact K.
  - eapply qinv_update; [|exact E]. exact K.
  - eapply qinv_update; [|exact E]. exact K.
  - eapply qinv_update; [|exact E]. exact K.
  - apply obind_Ok_inv in E as (s1 & A & E). apply obind_Ok_inv in E as (P & D & E).
    unfold k_setP in E. apply obind_Ok_inv in E as (u & _ & E). injection E as <-.
    assert (s1 = s \/ s1 = w_uf s true) as [-> | ->].
    { destruct (Qle_bool d 0); [injection A as <-; auto|]. apply v_setUnmodeled_eq in A; auto. }
    + split; [exact K1|]. eapply diag6_zrow; eauto.
    + split; [exact K1|]. eapply diag6_zrow; [exact Hi| |exact D]. exact K2.
  - apply obind_Ok_inv in E as (P & D & E). apply obind_Ok_inv in E as (s1 & A & E).
    unfold k_setQ in A. apply obind_Ok_inv in A as (u & _ & A). injection A as <-.
    assert (K' : qinv i (w_kQ (w_Q s P) P)) by (split; [eapply diag6_zrow; [exact Hi|exact K1|exact D]|exact K2]).
    destruct (Qle_bool d 0); [injection E as <-; exact K'|].
    apply v_setUnmodeled_eq in E; [|unfold vinv in *; cbn in *; tauto]. subst. exact K'.
  - unfold k_setQ in E. apply obind_Ok_inv in E as (u & _ & E). injection E as <-. exact K.
  - unfold v_resetP, k_setP in E. apply obind_Ok_inv in E as (u & _ & E). injection E as <-. exact (conj K1 K1).
  - injection E as <-. exact (conj K1 Ho).
  - unfold v_resetP, k_setP in E. apply obind_Ok_inv in E as (u & _ & E). injection E as <-. exact (conj K1 K1).
Qed.

Lemma reset_Q_zrow i : 30 <= i < 35 -> zrow i (reset_Q false false false).
Proof.
  intros Hi j Hj. unfold reset_Q. cbn [me].
  destruct (Nat.eq_dec i j) as [<-|N].
  - assert (within 32 3 i = true \/ within 30 2 i = true) as [W|W] by (rewrite !within_spec; lia); rewrite W; cbn [andb]; auto.
    destruct (within 32 3 i); cbn; auto.
  - assert (E : i =? j = false) by (apply Nat.eqb_neq; exact N). assert (E' : j =? i = false) by (apply Nat.eqb_neq; lia).
    cbn [default_Q me]. rewrite E, E'. split; repeat match goal with |- context [if ?b then _ else _] => destruct b end; reflexivity.
Qed.

(** ** Fixed contacts *)
Definition xinv (s : xcov) : Prop :=
  mr (x_R s) = 6 /\ x_km s = 6 + 3 * x_nc s /\ x_kQ s = x_Q s /\
  exists R, x_kR s = Some R /\ mr R = 6 + 3 * x_nc s /\
    forall i j, me R i j = if (i <? 6) && (j <? 6) then me (x_R s) i j
                           else Some (if i =? j then x_vc s else 0%Q).

Lemma x_update_inv md s s' : x_km s = 6 + 3 * x_nc s -> x_kQ s = x_Q s -> x_update md s = Ok s' ->
  xinv s' /\ x_nc s' = x_nc s /\ x_R s' = x_R s /\ x_Q s' = x_Q s /\ x_vc s' = x_vc s /\ x_kP s' = x_kP s.
Proof.
  intros Hk Hq E. unfold x_update in E. apply obind_Ok_inv in E as (u & A & E). apply eigen_inv, Nat.eqb_eq in A.
  apply obind_Ok_inv in E as (R1 & B & E). apply m_block_inv in B as (_ & _ & ->).
  apply obind_Ok_inv in E as (u' & _ & E). match type of E with Ok ?a = Ok ?b => assert (b = a) as -> by congruence end.
  clear E. split; [|repeat split].
  split; [exact A|]. split; [exact Hk|]. split; [exact Hq|].
  eexists. split; [reflexivity|]. split; [exact Hk|]. intros i j. cbn [me mr m_scal x_R x_vc].
  assert (Wi : within 0 6 i = (i <? 6)) by reflexivity. assert (Wj : within 0 6 j = (j <? 6)) by reflexivity.
  rewrite Wi, Wj, !Nat.sub_0_r.
  destruct (i <? 6) eqn:Li, (j <? 6) eqn:Lj; cbn [andb];
    [apply Nat.ltb_lt in Li, Lj|apply Nat.ltb_lt in Li; apply Nat.ltb_ge in Lj|apply Nat.ltb_ge in Li; apply Nat.ltb_lt in Lj|apply Nat.ltb_ge in Li, Lj].
  - assert (L : 6 <=? i = false) by (apply Nat.leb_gt; lia). rewrite L, andb_false_r. reflexivity.
  - assert (L : 6 <=? i = false) by (apply Nat.leb_gt; lia). rewrite L, andb_false_r.
    assert (N : i =? j = false) by (apply Nat.eqb_neq; lia). now rewrite N.
  - assert (N : i =? j = false) by (apply Nat.eqb_neq; lia). rewrite N. cbn. reflexivity.
  - assert (L : 6 <=? i = true) by (apply Nat.leb_le; lia). rewrite L, andb_true_r. destruct (i =? j); reflexivity.
Qed.
Lemma x_update_ok s : mr (x_R s) = 6 -> x_km s = 6 + 3 * x_nc s -> exists s', x_update Debug s = Ok s'.
Proof.
  intros H1 H2. unfold x_update. rewrite H1. cbn [Nat.eqb eigen_assert obind].
  rewrite m_block_ok by (cbn [mr m_scal]; lia). cbn [obind mr m_scal]. rewrite Nat.eqb_refl. cbn. eauto.
Qed.

(** What the calls give. *)
Definition xnext (p : (nat -> nat -> option Q) * Q * nat) (o : xop) :=
  let '(R, c, n) := p in
  match o with
  | XNoiseR M => (me M, c, n)
  | XVirtual c => (R, c, n)
  | XContacts n => (R, c, n)
  | XResetAll | XNan => (f_scal q6, c, n)
  | _ => (R, c, n)
  end.
Definition xis (p : (nat -> nat -> option Q) * Q * nat) (s : xcov) : Prop :=
  let '(R, c, n) := p in me (x_R s) = R /\ x_vc s = c /\ x_nc s = n.

Lemma x_reset_inv md s s' : x_km s = 6 + 3 * x_nc s -> x_kQ s = x_Q s -> x_reset md s = Ok s' ->
  xinv s' /\ x_nc s' = x_nc s /\ x_R s' = m_scal 6 q6 /\ x_Q s' = x_defQ /\ x_vc s' = x_vc s.
Proof.
  intros Hk Hq E. unfold x_reset in E. apply obind_Ok_inv in E as (s1 & A & E).
  apply x_update_inv in A; [|exact Hk|exact Hq]. destruct A as (A & B & C & D & F & G). injection E as <-. cbn in *.
  repeat split; auto; [| |]; destruct A as (A1 & A2 & A3 & A4); auto.
Qed.
Lemma x_step_inv md o p s s' : xinv s -> xis p s -> x_step md o s = Ok s' -> xinv s' /\ xis (xnext p o) s'.
Proof.
  destruct p as ((R0, c0), n0). intros H (P1 & P2 & P3) E. pose proof H as (H1 & H2 & H3 & H4).
  destruct o; cbn [x_step xnext] in *.
  - apply x_update_inv in E; [|reflexivity|exact H3]. destruct E as (A & B & C & D & F & G). split; [exact A|].
    cbn in *. rewrite B, C, F. auto.
  - apply x_update_inv in E; [|exact H2|exact H3]. destruct E as (A & B & C & D & F & G). split; [exact A|].
    cbn in *. rewrite B, C, F. auto.
  - apply obind_Ok_inv in E as (u & _ & E). apply x_update_inv in E; [|exact H2|exact H3].
    destruct E as (A & B & C & D & F & G). split; [exact A|]. cbn in *. rewrite B, C, F. auto.
  - apply obind_Ok_inv in E as (u & _ & E). injection E as <-. split; [|cbn; auto].
    split; [exact H1|]. split; [exact H2|]. split; [reflexivity|exact H4].
  - apply obind_Ok_inv in E as (u & _ & E). injection E as <-. split; [|cbn; auto].
    split; [exact H1|]. split; [exact H2|]. split; [reflexivity|exact H4].
  - apply x_reset_inv in E; auto. destruct E as (A & B & C & D & F). split; [exact A|]. cbn. rewrite C, F, B. auto.
  - injection E as <-. split; [exact H|cbn; auto].
  - apply x_reset_inv in E; auto. destruct E as (A & B & C & D & F). split; [exact A|]. cbn. rewrite C, F, B. auto.
Qed.
Lemma x_run_inv md ops : forall p s s', xinv s -> xis p s -> orun (x_step md) ops s = Ok s' ->
  xinv s' /\ xis (fold_left xnext ops p) s'.
Proof.
  induction ops as [|o os IH]; intros p s s' H K E; cbn in E; [injection E as <-; auto|].
  apply obind_Ok_inv in E as (s1 & A & E). destruct (x_step_inv _ _ _ _ _ H K A) as [H' K']. cbn. eapply IH; eauto.
Qed.
Lemma x_hist_inv md ops s : x_hist md ops = Ok s -> xinv s /\ xis (fold_left xnext ops (f_scal q6, q10, 0)) s.
Proof.
  unfold x_hist. intros E. apply obind_Ok_inv in E as (s0 & A & E). unfold x_new in A.
  apply obind_Ok_inv in A as (s1 & A & B). apply x_reset_inv in A; [|reflexivity|reflexivity].
  destruct A as (X & N & R & D & V). injection B as <-. eapply x_run_inv; [| |exact E].
  - exact X.
  - cbn. rewrite N, R, V. auto.
Qed.

Definition xsized (o : xop) : Prop :=
  match o with
  | XNoiseR M => mr M = 6
  | XNoiseQ M => mr M = 18
  | _ => True
  end.
Definition xok (s : xcov) : Prop := mr (x_Q s) = 18.
Lemma x_reset_ok s : x_km s = 6 + 3 * x_nc s -> x_kQ s = x_Q s -> exists s', x_reset Debug s = Ok s'.
Proof.
  intros H H'. unfold x_reset. edestruct x_update_ok as (s1 & ->); [| |cbn; eauto]; [reflexivity|exact H].
Qed.
Lemma x_step_ok o s : xinv s -> xok s -> xsized o -> exists s', x_step Debug o s = Ok s' /\ xok s'.
Proof.
  intros H K Ho. pose proof H as (H1 & H2 & H3 & H4).
  assert (U : forall s1, mr (x_R s1) = 6 -> x_km s1 = 6 + 3 * x_nc s1 -> x_kQ s1 = x_Q s1 -> xok s1 ->
    exists s', x_update Debug s1 = Ok s' /\ xok s').
  { intros s1 A B C D. destruct (x_update_ok s1 A B) as (s' & E). exists s'. split; [exact E|].
    apply x_update_inv in E; auto. unfold xok in *. destruct E as (_ & _ & _ & E & _). now rewrite E. }
  destruct o; cbn [x_step xsized] in *.
  - apply U; auto.
  - apply U; auto.
  - rewrite Ho. cbn. apply U; auto.
  - rewrite Ho. cbn. eexists; split; [reflexivity|exact Ho].
  - unfold xok in K. rewrite K. cbn. eexists; split; [reflexivity|exact K].
  - destruct (x_reset_ok s H2 H3) as (s' & E). exists s'. split; [exact E|]. apply x_reset_inv in E; auto.
    destruct E as (_ & _ & _ & E & _). unfold xok. now rewrite E.
  - eexists; split; [reflexivity|exact K].
  - destruct (x_reset_ok s H2 H3) as (s' & E). exists s'. split; [exact E|]. apply x_reset_inv in E; auto.
    destruct E as (_ & _ & _ & E & _). unfold xok. now rewrite E.
Qed.
Lemma x_run_ok ops : forall s, xinv s -> xok s -> Forall xsized ops -> exists s', orun (x_step Debug) ops s = Ok s'.
Proof.
  induction ops as [|o os IH]; intros s H K F; cbn; [eauto|]. inversion F; subst.
  destruct (x_step_ok o s H K) as (s1 & E & K'); auto. rewrite E. cbn.
  assert (P : xis (me (x_R s), x_vc s, x_nc s) s) by (cbn; auto).
  apply IH; auto. eapply x_step_inv; eauto.
Qed.

(** ** Flags and numbers are those last given *)
Definition vnext (p : nat * bool * bool) (o : vop) : nat * bool * bool :=
  let '(n, f, a) := p in
  match o with
  | VContacts n => (n, f, a)
  | VForces b => (n, b, a)
  | VAbs b => (n, f, b)
  | _ => p
  end.
Definition vis (p : nat * bool * bool) (s : fcov) : Prop := p = (v_nc s, v_ft s, v_abs s).

Lemma vis_update md p s s' : vis p s -> v_update md s = Ok s' -> vis p s'.
Proof. intros -> U. apply v_update_frame in U as (A & B & C & _). unfold vis. now rewrite A, B, C. Qed.
Lemma vis_step md o p s s' : vinv s -> vis p s -> v_step md o s = Ok s' -> vis (vnext p o) s'.
Proof.
  intros H -> E. pose proof H as (H1 & H2 & H3 & H4).
  assert (G : forall m s1, vis (v_nc s1, v_ft s1, v_abs s1) (k_setMeasureSize m s1)).
  { intros m s1. unfold vis. sms. reflexivity. }
  destruct o; cbn [v_step vnext] in *.
  - destruct (v_ft (w_nc s n)); [eapply vis_update; [|exact E]; apply (G _ (w_nc s n))|injection E as <-; reflexivity].
  - destruct (Bool.eqb (v_ft s) b) eqn:T; [injection E as <-; apply Bool.eqb_prop in T; now subst|].
    eapply vis_update; [|exact E]; apply (G _ (w_ft s b)).
  - destruct (Bool.eqb (v_abs s) b) eqn:T; [injection E as <-; apply Bool.eqb_prop in T; now subst|].
    eapply vis_update; [|exact E]; apply (G _ (w_abs s b)).
  - apply v_setUnmodeled_eq in E; auto. subst. reflexivity.
  - injection E as <-. destruct (Bool.eqb (v_cb s) b); reflexivity.
  - apply obind_Ok_inv in E as (u & _ & E). eapply vis_update; [|exact E]; reflexivity.
  - unfold k_setQ in E. apply obind_Ok_inv in E as (u & _ & E). injection E as <-. reflexivity.
  - eapply vis_update; [|exact E]; reflexivity.
  - eapply vis_update; [|exact E]; reflexivity.
  - eapply vis_update; [|exact E]; reflexivity.
  - apply obind_Ok_inv in E as (s1 & A & E). apply obind_Ok_inv in E as (P & _ & E).
    unfold k_setP in E. apply obind_Ok_inv in E as (u & _ & E). injection E as <-.
    destruct (Qle_bool d 0); [injection A as <-; reflexivity|].
    apply v_setUnmodeled_eq in A; auto. subst. reflexivity.
  - apply obind_Ok_inv in E as (P & _ & E). apply obind_Ok_inv in E as (s1 & A & E).
    unfold k_setQ in A. apply obind_Ok_inv in A as (u & _ & A). injection A as <-.
    destruct (Qle_bool d 0); [injection E as <-; reflexivity|].
    apply v_setUnmodeled_eq in E; [|unfold vinv in *; cbn in *; tauto]. subst. reflexivity.
  - unfold k_setQ in E. apply obind_Ok_inv in E as (u & _ & E). injection E as <-. reflexivity.
  - rewrite v_reset_eq in E by exact H3. injection E as <-. reflexivity.
  - unfold v_resetP, k_setP in E. apply obind_Ok_inv in E as (u & _ & E). injection E as <-. reflexivity.
  - injection E as <-. reflexivity.
  - apply obind_Ok_inv in E as (s1 & A & E). rewrite v_reset_eq in A by exact H3. injection A as <-.
    unfold v_resetP, k_setP in E. apply obind_Ok_inv in E as (u & _ & E). injection E as <-. reflexivity.
  - unfold v_resetP, k_setP in E. apply obind_Ok_inv in E as (u & _ & E). injection E as <-. reflexivity.
Qed.
Lemma vis_run md ops : forall p s s', vinv s -> vis p s -> v_run md ops s = Ok s' -> vis (fold_left vnext ops p) s'.
Proof.
  induction ops as [|o os IH]; intros p s s' H K E; cbn in E; [injection E as <-; auto|].
  apply obind_Ok_inv in E as (s1 & A & E). cbn. eapply IH; [| |exact E].
  - eapply v_step_vinv; eauto.
  - eapply vis_step; eauto.
Qed.

(** Computed states for the examples: a size and chosen entries of the R in force. *)
Definition in_force (md : mode) (ops : list vop) (i j : nat) : outcome (nat * option Q) :=
  do s <- v_hist md ops;
  match v_kR s with Some R => Ok (mr R, me R i j) | None => UB end.
Lemma ex_run {A} (o : outcome A) (P : A -> Prop) : match o with Ok s => P s | _ => False end -> exists s, o = Ok s /\ P s.
Proof. destruct o; try contradiction. eauto. Qed.
Lemma v_hist_cons md o ops s : v_hist md (o :: ops) = Ok s ->
  exists s0 s1, v_new md = Ok s0 /\ v_step md o s0 = Ok s1 /\ v_run md ops s1 = Ok s.
Proof.
  unfold v_hist. intros E. apply obind_Ok_inv in E as (s0 & A & E).
  change (obind (v_step md o s0) (v_run md ops) = Ok s) in E. apply obind_Ok_inv in E as (s1 & B & E). eauto.
Qed.
Lemma v_new_facts md s : v_new md = Ok s -> vinv s /\ v_ft s = false /\ v_abs s = false.
Proof.
  intros E. rewrite v_new_eq in E. cbn zeta in E.
  match type of E with Ok ?a = Ok ?b => assert (b = a) as -> by congruence end. clear E. repeat split.
Qed.
Lemma v_new_qinv md i s : 30 <= i < 35 -> v_new md = Ok s -> qinv i s.
Proof.
  intros Hi E. rewrite v_new_eq in E. cbn zeta in E.
  match type of E with Ok ?a = Ok ?b => assert (b = a) as -> by congruence end. clear E.
  unfold qinv. cbn [v_Q v_kP]. split; apply reset_Q_zrow; exact Hi.
Qed.
Lemma v_hist_split md ops s : v_hist md ops = Ok s -> exists s0, v_new md = Ok s0 /\ v_run md ops s0 = Ok s.
Proof. intros E. exact (obind_Ok_inv _ _ _ E). Qed.
Lemma v_new_imu md s : v_new md = Ok s -> imu_is default_RIMU s.
Proof.
  intros E. rewrite v_new_eq in E. cbn zeta in E.
  match type of E with Ok ?a = Ok ?b => assert (b = a) as -> by congruence end. clear E.
  intros i j. cbn [v_R]. apply imu_reset_R.
Qed.
Lemma v_new_vis md s : v_new md = Ok s -> vis (0, false, false) s.
Proof.
  intros E. rewrite v_new_eq in E. cbn zeta in E.
  match type of E with Ok ?a = Ok ?b => assert (b = a) as -> by congruence end. reflexivity.
Qed.
Lemma v_new_ok : exists s, v_new Debug = Ok s /\ vinv s /\ okinv s.
Proof. rewrite v_new_eq. cbn zeta. eexists. split; [reflexivity|]. repeat split. Qed.
