(** Proofs about the logger. *)
From Coq Require Import String ZArith List Lia Bool.
From Verif Require Import Base Defs SpecArray ArrayProofs Simulator Logger SpecLogger.
Import ListNotations.
Open Scope Z_scope.

Section P.
Context {V : Type}.
Notation logger := (logger V).
Notation lg_op := (lg_op V).
Implicit Types l : logger.

(** ** The map *)
(** Entries sorted by address. *)
Inductive msorted {B} : list (Z * B) -> Prop :=
| ms_nil : msorted []
| ms_cons k b m : (forall k' b', In (k', b') m -> k < k') -> msorted m -> msorted ((k, b) :: m).
Lemma find_in {B} k (b : B) m : msorted m -> map_find k m = Some b <-> In (k, b) m.
Proof.
  induction m as [|[k1 b1] m IH]; intros Hs; cbn [map_find]; [split; [discriminate|intros []]|].
  inversion Hs as [|? ? ? Hlt Hs']; subst. destruct (Z.eqb_spec k k1) as [->|Hne].
  - split; [intros E; inversion E; left; reflexivity|]. intros [E|E]; [inversion E; reflexivity|]. specialize (Hlt _ _ E). lia.
  - rewrite IH by auto. split; [right; auto|]. intros [E|E]; [inversion E; congruence|auto].
Qed.
Lemma find_none {B} k (m : list (Z * B)) : map_find k m = None <-> forall b, ~ In (k, b) m.
Proof.
  induction m as [|[k1 b1] m IH]; cbn [map_find]; [split; [intros _ b []|auto]|].
  destruct (Z.eqb_spec k k1) as [->|Hne].
  - split; [discriminate|]. intros H. destruct (H b1). left. reflexivity.
  - rewrite IH. split; intros H b; [intros [E|E]; [inversion E; congruence|exact (H b E)]|intros E; apply (H b); right; auto].
Qed.
Lemma insert_ms {B} k (b : B) m : msorted m -> msorted (map_insert k b m) /\
  forall k', map_find k' (map_insert k b m) = match map_find k' m with Some x => Some x | None => if k' =? k then Some b else None end.
Proof.
  induction m as [|[k1 b1] m IH]; intros Hs; cbn [map_insert].
  - split; [constructor; [intros ? ? []|constructor]|]. intros k'. reflexivity.
  - inversion Hs as [|? ? ? Hlt Hs']; subst. destruct (IH Hs') as [I1 I2].
    destruct (Z.ltb_spec k k1).
    + split.
      * constructor; auto. intros k' b' [E|E]; [inversion E; lia|]. specialize (Hlt _ _ E). lia.
      * intros k'. cbn [map_find]. destruct (Z.eqb_spec k' k) as [->|].
        -- destruct (Z.eqb_spec k k1); [lia|]. destruct (map_find k m) eqn:E; [|reflexivity].
           apply find_in in E; auto. specialize (Hlt _ _ E). lia.
        -- destruct (k' =? k1); [reflexivity|]. destruct (map_find k' m); reflexivity.
    + destruct (Z.ltb_spec k1 k).
      * split.
        -- constructor; auto. intros k' b' E. apply find_in in E; auto. rewrite I2 in E.
           destruct (map_find k' m) eqn:E'; [inversion E; subst; apply find_in in E'; eauto|].
           destruct (Z.eqb_spec k' k); [lia|discriminate].
        -- intros k'. cbn [map_find]. destruct (Z.eqb_spec k' k1); [reflexivity|]. apply I2.
      * assert (k = k1) by lia. subst k1. split; [auto|]. intros k'. cbn [map_find].
        destruct (Z.eqb_spec k' k); [reflexivity|]. destruct (map_find k' m); reflexivity.
Qed.
Lemma erase_ms {B} k (m : list (Z * B)) : msorted m -> msorted (map_erase k m) /\
  forall k', map_find k' (map_erase k m) = if k' =? k then None else map_find k' m.
Proof.
  induction m as [|[k1 b1] m IH]; intros Hs; cbn [map_erase filter fst].
  - split; [constructor|]. intros k'. destruct (k' =? k); reflexivity.
  - inversion Hs as [|? ? ? Hlt Hs']; subst. destruct (IH Hs') as [I1 I2]. fold (map_erase k m).
    destruct (Z.eqb_spec k1 k) as [->|Hne]; cbn [negb].
    + split; [auto|]. intros k'. rewrite I2. cbn [map_find]. destruct (Z.eqb_spec k' k); reflexivity.
    + split.
      * constructor; auto. intros k' b' E. apply filter_In in E. destruct E as [E _]. eauto.
      * intros k'. cbn [map_find]. rewrite I2. destruct (Z.eqb_spec k' k1), (Z.eqb_spec k' k); try reflexivity. congruence.
Qed.
Lemma map_ms {B} (f : Z * B -> Z * B) (g : Z -> B -> B) m : (forall k b, f (k, b) = (k, g k b)) -> msorted m ->
  msorted (map f m) /\ forall k, map_find k (map f m) = match map_find k m with Some b => Some (g k b) | None => None end.
Proof.
  intros Hf. induction m as [|[k1 b1] m IH]; intros Hs; cbn [map].
  - split; [constructor|reflexivity].
  - inversion Hs as [|? ? ? Hlt Hs']; subst. destruct (IH Hs') as [I1 I2]. rewrite Hf. split.
    + constructor; auto. intros k' b' E. apply in_map_iff in E. destruct E as ([k2 b2] & E1 & E2).
      rewrite Hf in E1. inversion E1; subst. eauto.
    + intros k. cbn [map_find]. rewrite I2. destruct (Z.eqb_spec k k1) as [->|]; reflexivity.
Qed.

(** ** Effect of the operations on one address *)
Lemma push_all_ok (m : memory V) logs : (forall a g, In (a, g) logs -> readable (g_type g) = true) -> msorted logs -> forall sc,
  exists logs' sc', lg_push_all m logs sc = Ok (logs', sc') /\ msorted logs' /\
  forall a, map_find a logs' = match map_find a logs with
    | Some g => Some (mkLog (ia_pushBack (m a (g_type g)) (g_array g)) (g_file g) (g_type g)) | None => None end.
Proof.
  induction logs as [|[a g] logs IH]; intros Hr Hs sc; cbn [lg_push_all].
  - exists [], sc. split; [reflexivity|]. split; [constructor|reflexivity].
  - inversion Hs as [|? ? ? Hlt Hs']; subst.
    assert (E : exists sc', lg_update m a g sc = Ok (mkLog (ia_pushBack (m a (g_type g)) (g_array g)) (g_file g) (g_type g), sc')).
    { unfold lg_update. specialize (Hr a g (or_introl eq_refl)). destruct (negb (is_scalar (g_type g))); [eauto|]. rewrite Hr. eauto. }
    destruct E as (sc1 & E). rewrite E. cbn [obind].
    destruct (IH (fun a g Hin => Hr a g (or_intror Hin)) Hs' sc1) as (l' & sc2 & E2 & S2 & F2). rewrite E2. cbn [obind].
    eexists. eexists. split; [reflexivity|]. split.
    + constructor; auto. intros k' b' E'. apply find_in in E'; auto. rewrite F2 in E'.
      destruct (map_find k' logs) eqn:Ek; [|discriminate]. apply find_in in Ek; auto. eauto.
    + intros a'. cbn [map_find]. rewrite F2. destruct (Z.eqb_spec a' a) as [->|]; reflexivity.
Qed.

(** Reachable loggers: sorted entries. *)
Definition readable_logs l : Prop := forall a g, map_find a (l_logs l) = Some g -> readable (g_type g) = true.
Definition lg_inv l : Prop := msorted (l_logs l) /\ readable_logs l.

(** What one call does to the entry of address a. *)
Definition entry_step (a : Z) (o : lg_op) (logs : Z -> option (@log_s V)) : option (@log_s V) :=
  match o with
  | LRecord a' t f => match logs a with Some g => Some g | None => if a =? a' then Some (mkLog ia_empty f t) else None end
  | LPush m => match logs a with
      Some g => Some (mkLog (ia_pushBack (m a (g_type g)) (g_array g)) (g_file g) (g_type g)) | None => None end
  | LUpdate old new t =>
      if a =? old then None else
      match logs a, logs old with Some g, _ => Some g | None, Some g => if a =? new then Some (mkLog ia_empty (g_file g) t) else None | None, None => None end
  | LClearTracking => None
  | LClearLogs => match logs a with Some g => Some (mkLog (ia_clear (g_array g)) (g_file g) (g_type g)) | None => None end
  | LSave c b => match logs a with
      Some g => Some (if negb (String.eqb (g_file g) "") && c (g_file g) && b then mkLog (ia_clear (g_array g)) (g_file g) (g_type g) else g) | None => None end
  end.

Lemma step_entry md o l l' : known o = true -> lg_inv l -> lg_step md o l = Ok l' ->
  lg_inv l' /\ forall a, map_find a (l_logs l') = entry_step a o (fun a => map_find a (l_logs l)).
Proof.
  intros Hk [Hs Hr] E. destruct o as [a0 t f|m|old new t| | |c b]; cbn [lg_step] in E.
  - unfold lg_record in E. destruct (recordable t) eqn:Et; [|destruct md; discriminate]. inversion E; subst; clear E.
    destruct (insert_ms a0 (mkLog ia_empty f t) _ Hs) as [I1 I2]. split.
    + split; [exact I1|]. intros a g. cbn [l_logs]. rewrite I2. destruct (map_find a (l_logs l)) eqn:Ea; [intros E; inversion E; subst; eauto|].
      destruct (a =? a0); [|discriminate]. intros E; inversion E; subst. cbn. destruct t; try discriminate; reflexivity.
    + intros a. cbn [l_logs entry_step]. apply I2.
  - unfold lg_push in E.
    destruct (push_all_ok m (l_logs l)) with (sc := l_scalar l) as (logs' & sc' & E1 & S1 & F1); auto.
    { intros a g Hin. apply (Hr a). apply find_in; auto. }
    rewrite E1 in E. cbn [obind] in E. inversion E; subst; clear E. split.
    + split; [exact S1|]. intros a g. cbn [l_logs]. rewrite F1. destruct (map_find a (l_logs l)) eqn:Ea; [|discriminate].
      intros E; inversion E; subst. cbn. eauto.
    + intros a. cbn [l_logs entry_step]. apply F1.
  - unfold lg_updateAddress in E. destruct (map_find old (l_logs l)) as [g|] eqn:Eo; [|destruct md; discriminate]. inversion E; subst; clear E.
    destruct (insert_ms new (mkLog ia_empty (g_file g) t) _ Hs) as [I1 I2]. destruct (erase_ms old _ I1) as [J1 J2]. split.
    + split; [exact J1|]. intros a g'. cbn [l_logs]. rewrite J2, I2. destruct (a =? old); [discriminate|].
      destruct (map_find a (l_logs l)) eqn:Ea; [intros E; inversion E; subst; eauto|].
      destruct (a =? new); [|discriminate]. intros E; inversion E; subst. exact Hk.
    + intros a. cbn [l_logs entry_step]. rewrite J2, I2, Eo. reflexivity.
  - inversion E; subst. split; [|reflexivity]. split; [constructor|]. intros a g. discriminate.
  - inversion E; subst.
    destruct (map_ms (fun p => (fst p, mkLog (ia_clear (g_array (snd p))) (g_file (snd p)) (g_type (snd p))))
      (fun _ g => mkLog (ia_clear (g_array g)) (g_file g) (g_type g)) (l_logs l) ltac:(reflexivity) Hs) as [I1 I2].
    split; [split; [exact I1|]|exact I2].
    intros a g. cbn [lg_clearLogs l_logs]. rewrite I2. destruct (map_find a (l_logs l)) eqn:Ea; [|discriminate]. intros E'; inversion E'; subst. cbn. eauto.
  - inversion E; subst. unfold lg_save.
    destruct (map_ms (fun p => if negb (String.eqb (g_file (snd p)) "") && c (g_file (snd p)) && b
                          then (fst p, mkLog (ia_clear (g_array (snd p))) (g_file (snd p)) (g_type (snd p))) else p)
      (fun _ g => if negb (String.eqb (g_file g) "") && c (g_file g) && b then mkLog (ia_clear (g_array g)) (g_file g) (g_type g) else g) (l_logs l)) as [I1 I2]; auto.
    { intros k g. cbn [fst snd]. destruct (_ && _); reflexivity. }
    split; [split; [exact I1|]|exact I2].
    intros a g. cbn [l_logs]. rewrite I2. destruct (map_find a (l_logs l)) eqn:Ea; [|discriminate]. intros E'; inversion E'; subst.
    destruct (_ && _); cbn; eauto.
Qed.
Lemma run_inv md ops : forall l l', forallb known ops = true -> lg_inv l -> lg_run md ops l = Ok l' -> lg_inv l'.
Proof.
  induction ops as [|o ops IH]; intros l l' Hk Hi E; unfold lg_run in *; cbn [orun forallb] in *.
  - inversion E; subst; auto.
  - apply andb_prop in Hk. destruct Hk as [Hk Hks]. apply obind_Ok_inv in E. destruct E as (l1 & E1 & E).
    apply step_entry in E1; auto. destruct E1 as [H1 _]. eapply IH; eauto.
Qed.
Lemma init_inv : lg_inv logger_init.
Proof. split; [constructor|]. intros a g. discriminate. Qed.

Lemma plain_known (o : lg_op) : plain o = true -> known o = true.
Proof. destruct o; cbn; auto; discriminate. Qed.
Lemma plain_total md ops : forall l, forallb plain ops = true -> lg_inv l -> exists l', lg_run md ops l = Ok l'.
Proof.
  induction ops as [|o ops IH]; intros l Hk Hi; unfold lg_run in *; cbn [orun forallb] in *; [eauto|].
  apply andb_prop in Hk. destruct Hk as [Hk Hks].
  assert (E : exists l1, lg_step md o l = Ok l1).
  { destruct o as [a0 t f|m|old new t| | |c b]; cbn [lg_step plain] in *; eauto; [unfold lg_record; rewrite Hk; eauto| |discriminate].
    unfold lg_push. destruct Hi as [Hs Hr].
    destruct (push_all_ok m (l_logs l)) with (sc := l_scalar l) as (logs' & sc' & E1 & _); auto.
    { intros a g Hin. apply (Hr a). apply find_in; auto. }
    rewrite E1. cbn. eauto. }
  destruct E as (l1 & E1). rewrite E1. cbn [obind]. apply IH; auto. eapply step_entry; eauto. apply plain_known; auto.
Qed.

(** ** The record of one variable *)
(** The number of pushes before the last time the log [file] was cleared. *)
Fixpoint cleared (file : string) (ops : list lg_op) (n c : Z) : Z :=
  match ops with
  | [] => c
  | o :: os => match o with LPush _ => cleared file os (n + 1) c | _ => cleared file os n (if clears file o then n else c) end
  end.
Lemma keeps_known a (o : lg_op) : keeps a o = true -> known o = true.
Proof. destruct o; cbn; auto. intros H. apply andb_prop in H. tauto. Qed.

Lemma tracked md a t f ops : forall l l' arr n c pre, forallb (keeps a) ops = true -> lg_inv l ->
  map_find a (l_logs l) = Some (mkLog arr f t) ->
  ia_k arr = c -> ia_size arr = n - c -> Z.of_nat (length pre) = n -> 0 <= c <= n ->
  (forall i, c <= i < n -> entry arr i = nth_error (map (fun m : memory V => m a t) pre) (Z.to_nat i)) ->
  lg_run md ops l = Ok l' ->
  exists arr', map_find a (l_logs l') = Some (mkLog arr' f t) /\
    let c' := cleared f ops n c in let all := pre ++ pushes ops in
    ia_k arr' = c' /\ ia_size arr' = Z.of_nat (length all) - c' /\ 0 <= c' <= Z.of_nat (length all) /\
    forall i, c' <= i < Z.of_nat (length all) -> entry arr' i = nth_error (map (fun m : memory V => m a t) all) (Z.to_nat i).
Proof.
  induction ops as [|o ops IH]; intros l l' arr n c pre Hk Hi Ha Hak Has Hn Hc He E; unfold lg_run in E; cbn [orun forallb] in *.
  - inversion E; subst. exists arr. split; [exact Ha|]. cbn. rewrite app_nil_r. repeat split; auto; lia.
  - apply andb_prop in Hk. destruct Hk as [Hk Hks]. apply obind_Ok_inv in E. destruct E as (l1 & E1 & E).
    destruct (step_entry md o l l1 (keeps_known _ _ Hk) Hi E1) as [Hi1 F1]. specialize (F1 a). cbn beta in F1.
    assert (Hsame : map_find a (l_logs l1) = Some (mkLog arr f t) -> pushes (o :: ops) = pushes ops -> cleared f (o :: ops) n c = cleared f ops n c ->
      exists arr', map_find a (l_logs l') = Some (mkLog arr' f t) /\
        let c' := cleared f (o :: ops) n c in let all := pre ++ pushes (o :: ops) in
        ia_k arr' = c' /\ ia_size arr' = Z.of_nat (length all) - c' /\ 0 <= c' <= Z.of_nat (length all) /\
        forall i, c' <= i < Z.of_nat (length all) -> entry arr' i = nth_error (map (fun m : memory V => m a t) all) (Z.to_nat i)).
    { intros H1 H2 H3. rewrite H2, H3. eapply (IH l1 l' arr n c pre); eauto. }
    assert (Hclr : map_find a (l_logs l1) = Some (mkLog (ia_clear arr) f t) -> pushes (o :: ops) = pushes ops -> cleared f (o :: ops) n c = cleared f ops n n ->
      exists arr', map_find a (l_logs l') = Some (mkLog arr' f t) /\
        let c' := cleared f (o :: ops) n c in let all := pre ++ pushes (o :: ops) in
        ia_k arr' = c' /\ ia_size arr' = Z.of_nat (length all) - c' /\ 0 <= c' <= Z.of_nat (length all) /\
        forall i, c' <= i < Z.of_nat (length all) -> entry arr' i = nth_error (map (fun m : memory V => m a t) all) (Z.to_nat i)).
    { intros H1 H2 H3. rewrite H2, H3. apply (IH l1 l' (ia_clear arr) n n pre); auto.
      - unfold ia_clear. cbn [ia_k]. lia.
      - unfold ia_clear, ia_size. cbn. lia.
      - lia.
      - intros; lia. }
    destruct o as [a0 t0 f0|m|old new t0| | |cc b]; cbn [entry_step keeps] in *; try discriminate; rewrite ?Ha in F1.
    + apply Hsame; auto.
    + cbn [g_array g_file g_type] in F1. cbn [pushes cleared].
      specialize (IH l1 l' (ia_pushBack (m a t) arr) (n + 1) c (pre ++ [m])). rewrite <- app_assoc in IH. cbn [app] in IH.
      apply IH; auto.
      * unfold ia_pushBack, ia_size in *. cbn [ia_v]. rewrite app_length. cbn [length]. lia.
      * rewrite app_length. cbn [length]. lia.
      * lia.
      * intros i Hii. unfold ia_pushBack. rewrite entry_snoc. destruct arr as [ka va]. cbn [ia_k ia_v ia_size] in *. unfold ia_size in Has. cbn [ia_v] in Has.
        rewrite map_app. destruct (Z.eqb_spec i (ka + Z.of_nat (length va))) as [Ei|Ei].
        -- rewrite nth_error_app2 by (rewrite map_length; lia). rewrite map_length. replace (Z.to_nat i - length pre)%nat with O by lia. reflexivity.
        -- rewrite nth_error_app1 by (rewrite map_length; lia). apply He. lia.
    + apply andb_prop in Hk. destruct Hk as [Hk _]. destruct (Z.eqb_spec a old) as [->|]; [rewrite Z.eqb_refl in Hk; discriminate|].
      apply Hsame; auto.
    + apply Hclr; auto.
    + cbn [g_file g_array g_type] in F1. destruct (negb (f =? "")%string && cc f && b) eqn:Eb.
      * apply Hclr; auto. cbn [cleared clears]. rewrite Eb. reflexivity.
      * apply Hsame; auto. cbn [cleared clears]. rewrite Eb. reflexivity.
Qed.

(** ** Where the record starts *)
Lemma cleared_none f ops : forall n c, forallb (fun o : lg_op => negb (clears f o)) ops = true -> cleared f ops n c = c.
Proof.
  induction ops as [|o ops IH]; intros n c H; cbn [cleared forallb] in *; [reflexivity|].
  apply andb_prop in H. destruct H as [H1 H2]. apply negb_true_iff in H1.
  destruct o; rewrite ?H1; apply IH; auto.
Qed.
Lemma pushes_app (h1 h2 : list lg_op) : pushes (h1 ++ h2) = pushes h1 ++ pushes h2.
Proof. induction h1 as [|o h1 IH]; [reflexivity|]. destruct o; cbn; rewrite ?IH; reflexivity. Qed.
Lemma cleared_app f h1 : forall h2 n c,
  cleared f (h1 ++ h2) n c = cleared f h2 (n + Z.of_nat (length (pushes h1))) (cleared f h1 n c).
Proof.
  induction h1 as [|o h1 IH]; intros h2 n c; [cbn; f_equal; lia|].
  destruct o; cbn [app cleared pushes length]; rewrite IH; f_equal; lia.
Qed.
Lemma cleared_last f h o n c : clears f o = true -> cleared f (h ++ [o]) n c = n + Z.of_nat (length (pushes (h ++ [o]))).
Proof.
  intros H. rewrite cleared_app, pushes_app. destruct o; cbn [clears] in H; try discriminate; cbn [cleared clears pushes].
  - rewrite app_nil_r. reflexivity.
  - rewrite H, app_nil_r. reflexivity.
Qed.

Lemma record_thm md (h1 h3 h4 : list lg_op) a t f l1 l :
  forallb known h1 = true -> lg_run md h1 logger_init = Ok l1 -> (forall arr, lg_getRecord md a l1 <> Ok arr) ->
  forallb (keeps a) (h3 ++ h4) = true ->
  (h3 = [] \/ exists h o, h3 = h ++ [o] /\ clears f o = true) ->
  forallb (fun o => negb (clears f o)) h4 = true ->
  lg_run md (h1 ++ LRecord a t f :: h3 ++ h4) logger_init = Ok l ->
  exists arr, lg_getRecord md a l = Ok arr /\ ia_first arr = Z.of_nat (length (pushes h3)) /\
    ia_size arr = Z.of_nat (length (pushes h4)) /\
    forall i m, nth_error (pushes h4) i = Some m -> ia_get md arr (Z.of_nat (length (pushes h3)) + Z.of_nat i) = Ok (m a t).
Proof.
  intros Hk E1 Hnone Hkeep H3 H4 E. unfold lg_run in *. rewrite orun_app, E1 in E. cbn [obind] in E.
  change (LRecord a t f :: h3 ++ h4) with ([LRecord a t f] ++ (h3 ++ h4)) in E. cbn [app orun] in E.
  apply obind_Ok_inv in E. destruct E as (l2 & E2 & E).
  pose proof (run_inv md h1 logger_init l1 Hk init_inv E1) as Hi1.
  destruct (step_entry md (LRecord a t f) l1 l2 eq_refl Hi1 E2) as [Hi2 F2]. specialize (F2 a). cbn [entry_step] in F2.
  assert (Hn : map_find a (l_logs l1) = None).
  { unfold lg_getRecord in Hnone. destruct (map_find a (l_logs l1)) as [g|]; [destruct (Hnone (g_array g)); reflexivity|reflexivity]. }
  rewrite Hn, Z.eqb_refl in F2.
  destruct (tracked md a t f (h3 ++ h4) l2 l ia_empty 0 0 [] Hkeep Hi2 F2) as (arr & Fa & K); try reflexivity; try lia; auto.
  cbn [app] in K. destruct K as (K1 & K2 & K3 & K4).
  assert (Hc : cleared f (h3 ++ h4) 0 0 = Z.of_nat (length (pushes h3))).
  { rewrite cleared_app, cleared_none by auto. destruct H3 as [->|(h & o & -> & Ho)]; [reflexivity|]. rewrite cleared_last by auto. lia. }
  rewrite Hc in *. rewrite pushes_app, app_length in *.
  exists arr. unfold lg_getRecord. rewrite Fa. split; [reflexivity|]. split; [exact K1|]. split; [lia|].
  intros i m Hm. apply ia_get_in. assert (Hlt : (i < length (pushes h4))%nat) by (apply nth_error_Some; congruence).
  rewrite K4 by lia. replace (Z.to_nat (Z.of_nat (length (pushes h3)) + Z.of_nat i)) with (length (pushes h3) + i)%nat by lia.
  rewrite map_app, nth_error_app2 by (rewrite map_length; lia). rewrite map_length.
  replace (length (pushes h3) + i - length (pushes h3))%nat with i by lia. exact (map_nth_error (fun m : memory V => m a t) _ _ Hm).
Qed.
(** Calls about other addresses do not matter. *)
Lemma untracked_thm md ops a l : forallb known ops = true ->
  (forall o, In o ops -> match o with LRecord a' _ _ => a' <> a | LUpdate _ new _ => new <> a | _ => True end) ->
  lg_run md ops logger_init = Ok l -> forall arr, lg_getRecord md a l <> Ok arr.
Proof.
  intros Hk Ho E.
  enough (G : forall l0, lg_inv l0 -> map_find a (l_logs l0) = None -> lg_run md ops l0 = Ok l -> map_find a (l_logs l) = None).
  { intros arr. unfold lg_getRecord. rewrite (G logger_init init_inv eq_refl E). destruct md; discriminate. }
  clear E. induction ops as [|o ops IH]; intros l0 Hi Hn E; unfold lg_run in *; cbn [orun forallb] in *; [inversion E; subst; auto|].
  apply andb_prop in Hk. destruct Hk as [Hk Hks]. apply obind_Ok_inv in E. destruct E as (l1 & E1 & E).
  destruct (step_entry md o l0 l1 Hk Hi E1) as [Hi1 F1]. eapply IH; eauto; [intros; apply Ho; right; auto|].
  rewrite F1. specialize (Ho o (or_introl eq_refl)).
  destruct o as [a0 t f|m|old new t| | |c b]; cbn [entry_step]; rewrite ?Hn; auto.
  - destruct (Z.eqb_spec a a0); congruence.
  - destruct (a =? old); [reflexivity|]. destruct (map_find old (l_logs l0)); [|reflexivity]. destruct (Z.eqb_spec a new); congruence.
Qed.
End P.
