(** Lemmas about the indexed arrays. *)
From Coq Require Import ZArith List Lia Bool.
From Verif Require Import Base Defs SpecArray.
Import ListNotations.
Open Scope Z_scope.

Ltac zb :=
  repeat match goal with
  | H : context [?x <? ?y] |- _ => destruct (Z.ltb_spec x y)
  | H : context [?x <=? ?y] |- _ => destruct (Z.leb_spec x y)
  | H : context [?x =? ?y] |- _ => destruct (Z.eqb_spec x y)
  | |- context [?x <? ?y] => destruct (Z.ltb_spec x y)
  | |- context [?x <=? ?y] => destruct (Z.leb_spec x y)
  | |- context [?x =? ?y] => destruct (Z.eqb_spec x y)
  end; cbn [andb orb negb] in *; try lia.

Section P.
Context {A : Type}.
Implicit Types a : iarr A.

(** Raw content at a time, used in proofs only. *)
Definition entry a (t : Z) : option A :=
  if ia_k a <=? t then nth_error (ia_v a) (Z.to_nat (t - ia_k a)) else None.

Lemma ia_size_nonneg a : 0 <= ia_size a.
Proof. unfold ia_size; lia. Qed.

Lemma entry_in a t : ia_k a <= t < ia_k a + ia_size a -> exists v, entry a t = Some v.
Proof.
  unfold entry, ia_size; intros H. destruct (Z.leb_spec (ia_k a) t); [|lia].
  destruct (nth_error (ia_v a) (Z.to_nat (t - ia_k a))) eqn:E; eauto.
  apply nth_error_None in E. lia.
Qed.

Lemma entry_out a t : ~ (ia_k a <= t < ia_k a + ia_size a) -> entry a t = None.
Proof.
  unfold entry, ia_size; intros H. destruct (Z.leb_spec (ia_k a) t); auto.
  apply nth_error_None. lia.
Qed.

Lemma checkIndex_iff a t : ia_checkIndex a t = true <-> ia_k a <= t < ia_k a + ia_size a.
Proof.
  unfold ia_checkIndex. rewrite !andb_true_iff, !Z.ltb_lt, Z.leb_le. lia.
Qed.

Lemma checkIndex_false a t : ia_checkIndex a t = false <-> ~ (ia_k a <= t < ia_k a + ia_size a).
Proof. rewrite <- not_true_iff_false, checkIndex_iff. reflexivity. Qed.

Lemma ia_at_entry a t : ia_at a t = match entry a t with Some v => Ok v | None => UB end.
Proof. unfold ia_at, entry. destruct (ia_k a <=? t); reflexivity. Qed.

Lemma ia_get_in md a t v : entry a t = Some v -> ia_get md a t = Ok v.
Proof.
  intros H. unfold ia_get.
  assert (Hin : ia_checkIndex a t = true).
  { apply checkIndex_iff. destruct (Z_le_dec (ia_k a) t); destruct (Z_lt_dec t (ia_k a + ia_size a)); auto;
    rewrite entry_out in H by lia; discriminate. }
  rewrite Hin. cbn. rewrite ia_at_entry, H. reflexivity.
Qed.

Lemma ia_get_out_debug a t : entry a t = None -> ia_get Debug a t = AssertFail.
Proof.
  intros H. unfold ia_get.
  assert (Hin : ia_checkIndex a t = false).
  { apply checkIndex_false. intros Hc. destruct (entry_in a t Hc). congruence. }
  rewrite Hin. reflexivity.
Qed.

Lemma ia_get_out_release a t : entry a t = None -> ia_get Release a t = UB.
Proof.
  intros H. unfold ia_get. rewrite ia_at_entry, H.
  destruct (ia_checkIndex a t); reflexivity.
Qed.

Lemma seen_entry a t : seen a t = entry a t.
Proof.
  unfold seen. destruct (entry a t) eqn:E.
  - rewrite (ia_get_in _ _ _ _ E). reflexivity.
  - rewrite (ia_get_out_debug _ _ E). reflexivity.
Qed.

(** Arrays with equal first index and equal entries are equal when non-empty sizes match *)
Lemma iarr_ext a b : ia_k a = ia_k b -> (forall t, entry a t = entry b t) -> a = b.
Proof.
  destruct a as [ka va], b as [kb vb]; cbn; intros -> H. f_equal.
  apply nth_error_ext. intros i. specialize (H (kb + Z.of_nat i)).
  unfold entry in H; cbn in H. destruct (Z.leb_spec kb (kb + Z.of_nat i)); [|lia].
  now replace (Z.to_nat (kb + Z.of_nat i - kb)) with i in H by lia.
Qed.

(** Simulation relation. *)
Definition rep a (w : wmap A) : Prop :=
  ia_k a = w_lo w /\ ia_k a + ia_size a = w_hi w /\ (forall t, entry a t = w_m w t).

Lemma rep_agrees a w : rep a w -> agrees a w.
Proof.
  intros (H1 & H2 & H3). pose proof (ia_size_nonneg a).
  unfold agrees, ia_first, ia_next. repeat split; try lia.
  - intros Ht. destruct (entry_in a t) as [v Hv]; [lia|].
    exists v. rewrite <- H3. repeat split; auto using ia_get_in.
  - rewrite <- H3. apply entry_out; lia.
  - apply ia_get_out_debug, entry_out; lia.
  - apply ia_get_out_release, entry_out; lia.
Qed.

Lemma agrees_rep a w : agrees a w -> rep a w.
Proof.
  intros (H1 & H2 & H3 & H4 & H5). unfold ia_first, ia_next in *.
  repeat split; auto. intros t. destruct (H5 t) as [Hin Hout].
  destruct (Z_le_dec (w_lo w) t); [destruct (Z_lt_dec t (w_hi w))|].
  - destruct Hin as (v & E & Ev & _); [lia|]. rewrite E, <- seen_entry.
    unfold seen. rewrite Ev. reflexivity.
  - destruct Hout as (E & _); [lia|]. rewrite E. apply entry_out. lia.
  - destruct Hout as (E & _); [lia|]. rewrite E. apply entry_out. lia.
Qed.

Lemma entry_mk k v t :
  entry (mkIarr k v : iarr A) t = if k <=? t then nth_error v (Z.to_nat (t - k)) else None.
Proof. reflexivity. Qed.

Lemma size_mk k v : ia_size (mkIarr k v : iarr A) = Z.of_nat (length v).
Proof. reflexivity. Qed.

Lemma rep_out a w t : rep a w -> ~ (w_lo w <= t < w_hi w) -> w_m w t = None.
Proof. intros (H1 & H2 & H3) H. rewrite <- H3. apply entry_out. lia. Qed.

Lemma entry_snoc k v x t :
  entry (mkIarr k (v ++ [x]) : iarr A) t =
  if t =? k + Z.of_nat (length v) then Some x else entry (mkIarr k v) t.
Proof.
  rewrite !entry_mk. destruct (Z.leb_spec k t).
  - destruct (Z.eqb_spec t (k + Z.of_nat (length v))).
    + subst t. replace (Z.to_nat (k + Z.of_nat (length v) - k)) with (length v) by lia.
      rewrite nth_error_app2 by lia. now rewrite Nat.sub_diag.
    + destruct (Z_lt_dec t (k + Z.of_nat (length v))).
      * rewrite nth_error_app1 by lia. reflexivity.
      * assert (nth_error v (Z.to_nat (t - k)) = None) as -> by (apply nth_error_None; lia).
        apply nth_error_None. rewrite app_length. cbn. lia.
  - destruct (Z.eqb_spec t (k + Z.of_nat (length v))); [lia|reflexivity].
Qed.

Lemma entry_truncAfter t a i :
  entry (ia_truncateAfter t a) i = if i <=? t then entry a i else None.
Proof.
  pose proof (ia_size_nonneg a) as Hs.
  unfold ia_truncateAfter, ia_last, ia_first.
  destruct (Z.ltb_spec 0 (ia_size a)).
  - destruct (Z.leb_spec (ia_k a) t).
    + destruct (Z.ltb_spec t (ia_k a + ia_size a - 1)).
      * rewrite entry_mk, nth_error_firstn_eq. unfold entry.
        destruct (Z.leb_spec (ia_k a) i); [|destruct (i <=? t); reflexivity].
        destruct (Nat.ltb_spec (Z.to_nat (i - ia_k a)) (Z.to_nat (t - ia_k a + 1)));
        destruct (Z.leb_spec i t); auto; lia.
      * destruct (Z.leb_spec i t); auto. apply entry_out. lia.
    + rewrite entry_mk. destruct (Z.leb_spec (ia_k a) i).
      * destruct (Z.leb_spec i t); [lia|]. destruct (Z.to_nat (i - ia_k a)); reflexivity.
      * destruct (Z.leb_spec i t); auto. rewrite entry_out by lia. reflexivity.
  - rewrite entry_out by lia. destruct (i <=? t); reflexivity.
Qed.

Lemma size_truncAfter t a :
  ia_size (ia_truncateAfter t a) = Z.min (ia_size a) (Z.max 0 (t + 1 - ia_k a)).
Proof.
  pose proof (ia_size_nonneg a) as Hs.
  unfold ia_truncateAfter, ia_last, ia_first.
  destruct (Z.ltb_spec 0 (ia_size a)); [|lia].
  destruct (Z.leb_spec (ia_k a) t).
  - destruct (Z.ltb_spec t (ia_k a + ia_size a - 1)); [|lia].
    rewrite size_mk, firstn_length. unfold ia_size in *. lia.
  - rewrite size_mk. cbn [length]. lia.
Qed.

Lemma k_truncAfter t a : ia_k (ia_truncateAfter t a) = ia_k a.
Proof.
  unfold ia_truncateAfter. repeat match goal with |- context [if ?b then _ else _] => destruct b end; reflexivity.
Qed.

(** One step of the refinement. *)
Lemma step_sim o a w : rep a w ->
  match w_step o w with
  | Some w' => exists a', ia_step Debug o a = Ok a' /\ ia_step Release o a = Ok a' /\ rep a' w'
  | None => ia_step Debug o a = AssertFail \/ (ia_step Debug o a = Throw /\ ia_step Release o a = Throw)
  end.
Proof.
  intros Hrep. pose proof Hrep as (H1 & H2 & H3). pose proof (ia_size_nonneg a) as Hs.
  destruct w as [lo hi m]; cbn [w_lo w_hi w_m] in *.
  destruct o as [v k|v| |t| | |n d]; cbn [w_step ia_step].
  - (* setValue *)
    unfold ia_setValue.
    destruct (ia_checkIndex a k) eqn:Ck.
    + apply checkIndex_iff in Ck.
      assert ((lo <=? k) && (k <? hi) = true) as -> by zb.
      eexists; repeat split; eauto; cbn [ia_k w_lo w_hi w_m]; auto.
      * rewrite size_mk, list_set_length. unfold ia_size in *. lia.
      * intros t. rewrite entry_mk, list_set_nth_error. unfold upd. rewrite <- H3.
        unfold entry. destruct (Z.leb_spec (ia_k a) t); [|zb; auto].
        destruct (Nat.eqb_spec (Z.to_nat (t - ia_k a)) (Z.to_nat (k - ia_k a))); zb; auto.
        destruct (nth_error (ia_v a) (Z.to_nat (t - ia_k a))) eqn:E; auto.
        apply nth_error_None in E. unfold ia_size in *. lia.
    + apply checkIndex_false in Ck.
      assert ((lo <=? k) && (k <? hi) = false) as -> by zb.
      destruct (Z.eqb_spec lo hi).
      * assert (ia_size a =? 0 = true) as -> by zb. cbn.
        eexists; repeat split; eauto; cbn [ia_k w_lo w_hi w_m].
        -- rewrite size_mk, app_length. cbn. unfold ia_size in *. lia.
        -- intros t. rewrite entry_snoc. unfold upd.
           assert (length (ia_v a) = O) as L by (unfold ia_size in *; lia).
           rewrite L. replace (k + Z.of_nat 0) with k by lia.
           destruct (Z.eqb_spec t k); auto. apply entry_out. rewrite size_mk, L. cbn. lia.
      * assert (ia_size a =? 0 = false) as -> by zb. rewrite H2.
        destruct (Z.eqb_spec k hi).
        -- subst k. rewrite Z.eqb_refl. cbn.
           eexists; repeat split; eauto; cbn [ia_k w_lo w_hi w_m]; auto.
           ++ rewrite size_mk, app_length. cbn. unfold ia_size in *. lia.
           ++ intros t. rewrite entry_snoc. unfold upd. fold (ia_size a). rewrite H2.
              destruct (t =? hi); auto. rewrite <- H3. reflexivity.
        -- assert (hi =? k = false) as -> by zb. cbn. auto.
  - (* push *)
    eexists; repeat split; eauto; cbn [ia_k w_lo w_hi w_m ia_pushBack]; auto.
    + unfold ia_pushBack. rewrite size_mk, app_length. cbn. unfold ia_size in *. lia.
    + intros t. unfold ia_pushBack. rewrite entry_snoc. unfold upd. fold (ia_size a). rewrite H2.
      destruct (t =? hi); auto. rewrite <- H3. reflexivity.
  - (* pop *)
    unfold ia_popFront. destruct (Z.ltb_spec lo hi).
    + assert (ia_size a =? 0 = false) as -> by zb. cbn.
      destruct a as [ka [|x l]]; cbn in *; [unfold ia_size in *; cbn in *; lia|].
      eexists; repeat split; eauto; cbn [ia_k w_lo w_hi w_m]; auto; try lia.
      * unfold ia_size in *; cbn [length ia_v] in *. lia.
      * intros t. unfold upd. rewrite <- H3, !entry_mk.
        destruct (Z.eqb_spec t lo).
        -- zb. reflexivity.
        -- destruct (Z.leb_spec (ka + 1) t); destruct (Z.leb_spec ka t); try lia; auto.
           replace (Z.to_nat (t - ka)) with (S (Z.to_nat (t - (ka + 1)))) by lia. reflexivity.
    + assert (ia_size a =? 0 = true) as -> by zb. cbn. auto.
  - (* truncateAfter *)
    eexists; repeat split; eauto; cbn [w_lo w_hi w_m].
    + rewrite k_truncAfter. auto.
    + rewrite k_truncAfter, size_truncAfter. lia.
    + intros i. rewrite entry_truncAfter, H3. reflexivity.
  - (* clear *)
    eexists; repeat split; eauto; cbn [w_empty_at w_lo w_hi w_m ia_clear ia_k]; auto.
    + unfold ia_size in *. cbn. lia.
    + intros t. apply entry_out. unfold ia_size. cbn. lia.
  - (* reset *)
    eexists; repeat split; eauto; cbn [w_empty_at w_lo w_hi w_m ia_reset ia_k]; auto.
    intros t. apply entry_out. unfold ia_size. cbn. lia.
  - (* resize *)
    unfold ia_resize. destruct (Z.ltb_spec n 0); [auto|].
    eexists; repeat split; eauto; cbn [w_lo w_hi w_m ia_k]; auto.
    + rewrite size_mk, list_resize_length. lia.
    + intros i. rewrite entry_mk, list_resize_nth_error, <- H1, <- H3. unfold entry.
      destruct (Z.leb_spec (ia_k a) i); cbn [andb]; auto.
      destruct (Nat.ltb_spec (Z.to_nat (i - ia_k a)) (Z.to_nat n));
      destruct (Z.ltb_spec i (ia_k a + n)); auto; lia.
Qed.

Lemma run_sim ops a w : rep a w ->
  match w_run ops w with
  | Some w' => exists a', ia_run Debug ops a = Ok a' /\ ia_run Release ops a = Ok a' /\ rep a' w'
  | None => ia_run Debug ops a = AssertFail \/ ia_run Debug ops a = Throw
  end.
Proof.
  revert a w; induction ops as [|o os IH]; intros a w H; cbn.
  - exists a. auto.
  - pose proof (step_sim o a w H) as S. destruct (w_step o w) as [w1|].
    + destruct S as (a1 & E1 & E2 & R1). unfold ia_run. cbn. rewrite E1, E2. cbn.
      apply IH. exact R1.
    + unfold ia_run; cbn. destruct S as [E|[E _]]; rewrite E; cbn; auto.
Qed.

Lemma rep_empty : rep ia_empty (w_empty_at 0).
Proof.
  repeat split; auto. intros t. apply entry_out. unfold ia_size. cbn. lia.
Qed.

(** Any array is the image of its own window. *)
Lemma rep_self a : rep a (mkW (ia_k a) (ia_k a + ia_size a) (entry a)).
Proof. repeat split; auto. Qed.

Lemma truncateAfter_exact a t i : seen (ia_truncateAfter t a) i = if i <=? t then seen a i else None.
Proof. rewrite !seen_entry. apply entry_truncAfter. Qed.

Lemma narrow32_id z : -2147483648 <= z < 2147483648 -> narrow32 z = z.
Proof. intros H. unfold narrow32. rewrite Z.mod_small by lia. lia. Qed.

Lemma truncateBefore_exact a t i :
  ia_first a <= t < ia_last a -> -2147483648 <= t < 2147483648 ->
  seen (ia_truncateBefore t a) i = if t <=? i then seen a i else None.
Proof.
  intros Ht Hn. rewrite !seen_entry. unfold ia_truncateBefore, ia_last, ia_first in *.
  pose proof (ia_size_nonneg a).
  destruct (Z.ltb_spec 0 (ia_size a)); [|lia].
  destruct (Z.ltb_spec t (ia_k a + ia_size a - 1)); [|lia].
  unfold ia_setFirstIndex; cbn [ia_v]. rewrite narrow32_id by lia.
  rewrite entry_mk, nth_error_skipn. unfold entry.
  destruct (Z.leb_spec t i); auto.
  destruct (Z.leb_spec (ia_k a) i); [|lia].
  f_equal. lia.
Qed.

(** What truncateBefore does outside that range. *)
Lemma truncateBefore_last a i : ia_v a <> [] -> seen (ia_truncateBefore (ia_last a) a) i = None.
Proof.
  intros H. rewrite seen_entry. unfold ia_truncateBefore.
  destruct (Z.ltb_spec 0 (ia_size a)).
  - rewrite Z.ltb_irrefl. apply entry_out. rewrite size_mk. cbn [length ia_k]. lia.
  - exfalso. apply H. unfold ia_size in *. destruct (ia_v a); auto. cbn [length] in *. lia.
Qed.

Lemma truncateBefore_early a t i :
  ia_v a <> [] -> t < ia_first a -> -2147483648 <= t < 2147483648 ->
  seen (ia_truncateBefore t a) i = seen a (i + (ia_first a - t)).
Proof.
  intros H Ht Hn. rewrite !seen_entry. unfold ia_truncateBefore, ia_last, ia_first in *.
  assert (0 < ia_size a) by (unfold ia_size; destruct (ia_v a); [congruence|cbn [length]; lia]).
  destruct (Z.ltb_spec 0 (ia_size a)); [|lia].
  destruct (Z.ltb_spec t (ia_k a + ia_size a - 1)); [|lia].
  unfold ia_setFirstIndex; cbn [ia_v]. rewrite narrow32_id by lia.
  replace (Z.to_nat (t - ia_k a)) with O by lia. cbn [skipn].
  rewrite entry_mk. unfold entry.
  replace (ia_k a <=? i + (ia_k a - t)) with (t <=? i) by zb.
  destruct (Z.leb_spec t i); auto. f_equal. lia.
Qed.

(** Release builds agree with debug builds whenever the debug build does not assert. *)
Lemma step_release o a a' : ia_step Debug o a = Ok a' -> ia_step Release o a = Ok a'.
Proof.
  intros H. pose proof (step_sim o a _ (rep_self a)) as S.
  destruct (w_step o _) as [w'|].
  - destruct S as (a1 & E1 & E2 & _). congruence.
  - destruct S as [E|[E _]]; congruence.
Qed.
End P.
