(** Invariants of the zero-delay observer over arbitrary call histories. *)
From Coq Require Import ZArith List Lia Bool.
From Verif Require Import Base Defs SpecArray ArrayProofs ZDO ZDOProofs.
Import ListNotations.
Open Scope Z_scope.

Section I.
Context {X Y U E : Type}.
Variable sx : X -> Z.
Variable sy : Y -> Z.
Variable su : U -> Z.
Variable st : @stepfun X Y U E.
Notation zdoT := (zdo X Y U E).

(** States returned by the step have the size of the state. *)
Definition step_keeps_size : Prop :=
  forall md e k x oy u1 u2 x' e', st md e k x oy u1 u2 = Ok (x', e') -> sx x' = sx x.

(** The estimate time if the state is set. *)
Definition state_at (s : zdoT) (k : Z) (x : X) : Prop := z_x s = im_put x k.

(** Every recorded vector has the current size. *)
Definition sizes_ok (s : zdoT) : Prop :=
  (im_set (z_x s) = true -> exists x, im_v (z_x s) = Some x /\ sx x = z_n s) /\
  Forall (fun y => sy y = z_m s) (ia_v (z_y s)) /\
  Forall (fun u => su u = z_p s) (ia_v (z_u s)).

(** No recorded measurement or input is older than the estimate. *)
Definition no_past (s : zdoT) : Prop :=
  im_set (z_x s) = true ->
  (ia_v (z_y s) <> [] -> im_k (z_x s) <= ia_first (z_y s)) /\
  (ia_v (z_u s) <> [] -> im_k (z_x s) <= ia_first (z_u s)).

(** Recorded measurements and inputs start right at or after the estimate. *)
Definition no_gap (s : zdoT) : Prop :=
  im_set (z_x s) = true ->
  (ia_v (z_y s) <> [] -> ia_first (z_y s) <= im_k (z_x s) + 1) /\
  (ia_v (z_u s) <> [] -> ia_first (z_u s) <= im_k (z_x s) + 1).

Definition no_input_when_none (s : zdoT) : Prop := z_p s <= 0 -> ia_v (z_u s) = [].

Definition inv (s : zdoT) : Prop := sizes_ok s /\ no_past s /\ no_input_when_none s.

Lemma size_pos_nonempty {A} (a : iarr A) : 0 < ia_size a <-> ia_v a <> [].
Proof.
  unfold ia_size. destruct (ia_v a); cbn [length]; split; intros H; try lia; try congruence.
Qed.

Lemma pop_below_spec {A} lim (l : list A) : forall k,
  exists d, (d <= length l)%nat /\ pop_below lim k l = mkIarr (k + Z.of_nat d) (skipn d l) /\
            (skipn d l <> [] -> lim <= k + Z.of_nat d) /\
            (lim <= k -> d = O) /\ (k <= lim -> k + Z.of_nat d <= lim).
Proof.
  induction l as [|x l IH]; intros k; cbn [pop_below].
  - exists O. repeat split; cbn; auto; try congruence; try lia. f_equal. lia.
  - destruct (Z.ltb_spec k lim).
    + destruct (IH (k + 1)) as (d & H1 & H2 & H3 & H4 & H5).
      exists (S d). cbn [skipn length]. repeat split; try lia.
      * rewrite H2. f_equal. lia.
      * intros Hn. specialize (H3 Hn). lia.
    + exists O. cbn [skipn length]. repeat split; try lia. f_equal. lia.
Qed.

Lemma Forall_skipn {A} (P : A -> Prop) d l : Forall P l -> Forall P (skipn d l).
Proof. revert l; induction d as [|d IH]; intros [|x l] H; cbn; auto. inversion H; auto. Qed.

Lemma Forall_list_set {A} (P : A -> Prop) n x l : Forall P l -> P x -> Forall P (list_set n x l).
Proof. intros H Hx. revert n; induction H as [|y l Hy Hl IH]; intros [|n]; cbn; auto. Qed.

Lemma setValue_debug {A} (P : A -> Prop) v k (a a' : iarr A) :
  ia_setValue Debug v k a = Ok a' -> Forall P (ia_v a) -> P v ->
  Forall P (ia_v a') /\
  (ia_v a <> [] -> ia_first a' = ia_first a /\ ia_first a <= k <= ia_next a) /\
  (ia_v a = [] -> ia_first a' = k).
Proof.
  unfold ia_setValue. intros H Hf Hv.
  destruct (ia_checkIndex a k) eqn:Ck.
  - apply checkIndex_iff in Ck. inversion H; subst; cbn. split; [now apply Forall_list_set|].
    split; [unfold ia_first, ia_next; split; [reflexivity|lia]|].
    intros Hn. apply size_pos_nonempty in Hn; [easy|]. lia.
  - destruct (obind_Ok_inv _ _ _ H) as (u & H1 & H2). inversion H2; subst; cbn.
    split; [apply Forall_app; split; auto|].
    unfold boost_assert in H1.
    destruct (Z.eqb_spec (ia_size a) 0) as [Hz|Hz]; cbn [orb] in H1.
    + split; auto. intros Hn. apply size_pos_nonempty in Hn. lia.
    + destruct (Z.eqb_spec (ia_k a + ia_size a) k); [|discriminate].
      split.
      * intros _. unfold ia_first, ia_next. split; [reflexivity|]. pose proof (ia_size_nonneg a). lia.
      * intros Hn. exfalso. apply Hz. unfold ia_size. now rewrite Hn.
Qed.

Lemma popFront_inv {A} (a a' : iarr A) : ia_popFront Debug a = Ok a' ->
  exists x, ia_v a = x :: ia_v a' /\ ia_k a' = ia_k a + 1.
Proof.
  unfold ia_popFront. intros H. destruct (obind_Ok_inv _ _ _ H) as (u & _ & H2).
  destruct (ia_v a) as [|x l]; [discriminate|]. inversion H2; subst; cbn. eauto.
Qed.

(** Effect of one loop iteration on the parts the invariants talk about. *)
Lemma z_iter_effect (s s' : zdoT) K :
  step_keeps_size ->
  z_iter (local_step st) Debug K s = Ok s' -> sizes_ok s ->
  im_set (z_x s) = true /\
  z_n s' = z_n s /\ z_m s' = z_m s /\ z_p s' = z_p s /\
  (exists x', z_x s' = im_put x' (im_k (z_x s) + 1) /\ sx x' = z_n s) /\
  (exists dy, z_y s' = ia_drop dy (z_y s) /\ (dy <= length (ia_v (z_y s)))%nat /\
      dy = if ia_first (z_y s) <? K then 1%nat else 0%nat) /\
  (exists du, z_u s' = ia_drop du (z_u s) /\ (du <= length (ia_v (z_u s)))%nat /\
      du = if (0 <? z_p s) && (ia_first (z_u s) <? K) then 1%nat else 0%nat).
Proof.
  intros Hst H [Hsx _]. unfold z_iter in H.
  destruct (obind_Ok_inv _ _ _ H) as (s1 & E1 & E2). clear H.
  destruct (obind_Ok_inv _ _ _ E2) as (s2 & E3 & E4). clear E2.
  unfold local_step, z_time, im_time in E1.
  destruct (im_set (z_x s)) eqn:Es; [|discriminate].
  cbn [boost_assert obind] in E1.
  destruct (obind_Ok_inv _ _ _ E1) as (x & Ex & E1'). clear E1.
  unfold im_get in Ex. rewrite Es in Ex. cbn [boost_assert obind] in Ex.
  destruct (Hsx eq_refl) as (x0 & Ex0 & Sx0). rewrite Ex0 in Ex. injection Ex as <-.
  destruct (obind_Ok_inv _ _ _ E1') as ((x1 & e1) & Est & Ef). clear E1'. cbn [fst snd] in Ef.
  injection Ef as <-. cbn [z_y z_p with_e with_x] in E3.
  apply Hst in Est.
  assert (P2 : s2 = with_y (with_e (with_x s (im_put x1 (im_k (z_x s) + 1))) e1)
                (ia_drop (if ia_first (z_y s) <? K then 1%nat else 0%nat) (z_y s)) /\
               ((if (ia_first (z_y s) <? K)%Z then 1%nat else 0%nat) <= length (ia_v (z_y s)))%nat).
  { destruct (Z.ltb_spec (ia_first (z_y s)) K).
    - destruct (obind_Ok_inv _ _ _ E3) as (y' & Ey & Ey'). injection Ey' as <-.
      pose proof (popFront_inv _ _ Ey) as (yy & Hv & Hk).
      split; [f_equal|rewrite Hv; cbn; lia]. destruct y' as [k' v']. cbn in *. unfold ia_drop.
      rewrite Hv. cbn. f_equal. lia.
    - injection E3 as <-. rewrite ia_drop_0. split; [reflexivity|lia]. }
  destruct P2 as [-> Ldy].
  cbn [z_p z_u with_y with_e with_x] in E4.
  assert (P3 : s' = with_u (with_y (with_e (with_x s (im_put x1 (im_k (z_x s) + 1))) e1)
                (ia_drop (if ia_first (z_y s) <? K then 1%nat else 0%nat) (z_y s)))
                (ia_drop (if (0 <? z_p s) && (ia_first (z_u s) <? K) then 1%nat else 0%nat) (z_u s)) /\
               ((if ((0 <? z_p s) && (ia_first (z_u s) <? K))%Z then 1%nat else 0%nat) <= length (ia_v (z_u s)))%nat).
  { destruct (Z.ltb_spec 0 (z_p s)); cbn [andb].
    - destruct (Z.ltb_spec (ia_first (z_u s)) K).
      + destruct (obind_Ok_inv _ _ _ E4) as (y' & Ey & Ey'). injection Ey' as <-.
        pose proof (popFront_inv _ _ Ey) as (yy & Hv & Hk).
        split; [f_equal|rewrite Hv; cbn; lia]. destruct y' as [k' v']. cbn in *. unfold ia_drop.
        rewrite Hv. cbn. f_equal. lia.
      + injection E4 as <-. rewrite ia_drop_0. split; [reflexivity|lia].
    - injection E4 as <-. rewrite ia_drop_0. split; [reflexivity|lia]. }
  destruct P3 as [-> Ldu].
  cbn. repeat split; eauto.
  exists x1. split; auto. congruence.
Qed.

Lemma iter_inv K : step_keeps_size -> forall n (s s' : zdoT),
  oiter n (z_iter (local_step st) Debug K) s = Ok s' ->
  (n = O \/ im_k (z_x s) + Z.of_nat n = K) ->
  inv s -> inv s' /\ (no_gap s -> no_gap s') /\
  (n <> O -> im_set (z_x s) = true /\ im_k (z_x s') = K /\ im_set (z_x s') = true).
Proof.
  intros Hst. induction n as [|n IH]; intros s s' H HK Hi.
  - cbn in H. injection H as <-. split; [exact Hi|]. split; [tauto|easy].
  - destruct HK as [|HK]; [discriminate|].
    cbn [oiter] in H. destruct (obind_Ok_inv _ _ _ H) as (s1 & E1 & E2).
    destruct Hi as (Hs & Hp & Hn).
    destruct (z_iter_effect s s1 K Hst E1 Hs) as (Es & En & Em & Ep & (x' & Ex & Sx) & (dy & Ey & Ldy & Dy) & (du & Eu & Ldu & Du)).
    assert (Kx : im_k (z_x s1) = im_k (z_x s) + 1) by (rewrite Ex; reflexivity).
    assert (I1 : inv s1).
    { destruct Hs as (_ & Hsy & Hsu). destruct (Hp Es) as [Py Pu].
      split; [|split].
      - repeat split.
        + intros _. rewrite Ex, En. cbn. eauto.
        + rewrite Ey, Em. cbn. now apply Forall_skipn.
        + rewrite Eu, Ep. cbn. now apply Forall_skipn.
      - intros _. rewrite Kx. split; intros Hne.
        + rewrite Ey in Hne |- *. unfold ia_first; cbn [ia_drop ia_k ia_v] in *.
          assert (ia_v (z_y s) <> []) by (intros C; rewrite C in Hne; apply Hne; destruct dy; reflexivity).
          specialize (Py H0). rewrite Dy in *. unfold ia_first in *.
          destruct (Z.ltb_spec (ia_k (z_y s)) K); lia.
        + rewrite Eu in Hne |- *. unfold ia_first; cbn [ia_drop ia_k ia_v] in *.
          assert (Hne0 : ia_v (z_u s) <> []) by (intros C; rewrite C in Hne; apply Hne; destruct du; reflexivity).
          specialize (Pu Hne0). rewrite Du in *. unfold ia_first in *.
          destruct (Z.ltb_spec 0 (z_p s)).
          * cbn [andb]. destruct (Z.ltb_spec (ia_k (z_u s)) K); lia.
          * exfalso. apply Hne0. apply Hn. lia.
      - intros Hp0. rewrite Eu. cbn. rewrite Hn by lia. destruct du; reflexivity. }
    destruct (IH s1 s' E2) as (I2 & G2 & T2); auto.
    { right. rewrite Kx. lia. }
    split; [exact I2|]. split.
    + intros Hg. apply G2. intros _. destruct (Hg Es) as [Gy Gu]. rewrite Kx. split; intros Hne.
      * rewrite Ey in Hne |- *. unfold ia_first; cbn [ia_drop ia_k ia_v] in *.
        assert (Hne0 : ia_v (z_y s) <> []) by (intros C; rewrite C in Hne; apply Hne; destruct dy; reflexivity).
        specialize (Gy Hne0). rewrite Dy. unfold ia_first in *. destruct (Z.ltb_spec (ia_k (z_y s)) K); lia.
      * rewrite Eu in Hne |- *. unfold ia_first; cbn [ia_drop ia_k ia_v] in *.
        assert (Hne0 : ia_v (z_u s) <> []) by (intros C; rewrite C in Hne; apply Hne; destruct du; reflexivity).
        specialize (Gu Hne0). rewrite Du. unfold ia_first in *.
        destruct ((0 <? z_p s) && (ia_k (z_u s) <? K)); lia.
    + intros _. split; [exact Es|]. destruct n as [|n].
      * cbn in E2. injection E2 as <-. rewrite Kx, Ex. cbn. split; [lia|reflexivity].
      * destruct T2 as (_ & T3 & T4); auto.
Qed.

Lemma getEstimatedState_inv K s s' x : step_keeps_size ->
  z_getEstimatedState (local_step st) Debug K s = Ok (s', x) -> inv s ->
  inv s' /\ (no_gap s -> no_gap s') /\ im_set (z_x s) = true /\ im_set (z_x s') = true /\ im_k (z_x s') = K.
Proof.
  intros Hst H Hi. unfold z_getEstimatedState, z_time, im_time in H.
  destruct (im_set (z_x s)) eqn:Es; [|discriminate]. cbn [boost_assert obind] in H.
  destruct (Z.leb_spec (im_k (z_x s)) K); [|discriminate]. cbn [boost_assert obind] in H.
  destruct (obind_Ok_inv _ _ _ H) as (s1 & E1 & E2).
  destruct (obind_Ok_inv _ _ _ E2) as (x1 & E3 & E4). injection E4 as -> ->.
  destruct (iter_inv K Hst _ _ _ E1) as (I & G & T); auto; [right; lia|].
  split; [exact I|]. split; [exact G|]. split; [reflexivity|].
  destruct (Z.eq_dec (im_k (z_x s)) K) as [Ek|Ek].
  - rewrite Ek, Z.sub_diag in E1. cbn in E1. injection E1 as <-. auto.
  - assert (Z.to_nat (K - im_k (z_x s)) <> O) by lia. destruct (T H1) as (_ & T1 & T2). auto.
Qed.

(** Histories in which setState is not used to jump before the recorded data. *)
Definition no_jump (o : z_op X Y U) (s : zdoT) : Prop :=
  match o with
  | ZSetState _ k => (ia_v (z_y s) <> [] -> ia_first (z_y s) <= k + 1) /\
                     (ia_v (z_u s) <> [] -> ia_first (z_u s) <= k + 1)
  | _ => True
  end.

Ltac obinds :=
  repeat match goal with
  | H : obind ?x ?f = Ok _ |- _ =>
      let a := fresh "a" in let H1 := fresh "H" in let H2 := fresh "H" in
      destruct (obind_Ok_inv _ _ _ H) as (a & H1 & H2); clear H; cbv beta in H2
  | H : Ok _ = Ok _ |- _ => injection H as <-
  end;
  try match goal with H : ia_setValue _ _ _ _ = Ok _ |- _ => rename H into Hset end;
  try match goal with H : boost_assert _ (_ =? z_m _) = Ok _ |- _ => rename H into Hsz end;
  try match goal with H : boost_assert _ (_ =? z_p _) = Ok _ |- _ => rename H into Hsz end;
  try match goal with H : im_time _ _ = Ok _ |- _ => rename H into Htime end;
  try match goal with H : z_getEstimatedState _ _ _ _ = Ok _ |- _ => rename H into Hest end.

Lemma assert_debug b u : boost_assert Debug b = Ok u -> b = true.
Proof. unfold boost_assert. destruct b; [reflexivity|discriminate]. Qed.

Lemma z_step_inv (o : z_op X Y U) s s' : step_keeps_size ->
  z_step sx sy su (local_step st) Debug o s = Ok s' -> inv s ->
  inv s' /\ (no_gap s -> no_jump o s -> no_gap s').
Proof.
  intros Hst H Hi. destruct o as [x k|x| |y k|y| |u k|u| | |n|m|p| |k]; cbn [z_step] in H.
  - (* setState *)
    unfold z_setState in H. obinds.
    apply assert_debug in H0. apply Z.eqb_eq in H0.
    cbn in H. injection H as <-. rewrite Z.ltb_irrefl in H2.
    destruct (pop_below_spec (k + 1) (ia_v (z_y s)) (ia_k (z_y s))) as (dy & D1 & D2 & D3 & D4 & D5).
    destruct (pop_below_spec k (ia_v (z_u s)) (ia_k (z_u s))) as (du & F1 & F2 & F3 & F4 & F5).
    destruct Hi as ((_ & Sy & Su) & _ & Hn).
    cbn [with_x with_y z_y z_u z_p] in H2. rewrite D2, F2 in H2.
    destruct (Z.ltb_spec 0 (z_p s)); injection H2 as <-; unfold inv, sizes_ok, no_past, no_gap, no_jump, no_input_when_none, ia_first in *; cbn in *.
    + split.
      * repeat split; auto using Forall_skipn; try lia.
        -- intros _. exists x; auto.
        -- intros Hne. specialize (D3 Hne). lia.
      * intros _ [Jy Ju] _. split; intros Hne.
        -- assert (ia_v (z_y s) <> []) by (intros C; rewrite C in Hne; apply Hne; destruct dy; reflexivity).
           specialize (Jy H1). lia.
        -- assert (ia_v (z_u s) <> []) by (intros C; rewrite C in Hne; apply Hne; destruct du; reflexivity).
           specialize (Ju H1). destruct (Z_le_dec (ia_k (z_u s)) k); [lia|]. rewrite F4 by lia. lia.
    + split.
      * repeat split; auto using Forall_skipn; try lia.
        -- intros _. exists x; auto.
        -- intros Hne. specialize (D3 Hne). lia.
        -- intros Hne. rewrite Hn in Hne by lia. congruence.
      * intros _ [Jy Ju] _. split; intros Hne.
        -- assert (ia_v (z_y s) <> []) by (intros C; rewrite C in Hne; apply Hne; destruct dy; reflexivity).
           specialize (Jy H1). lia.
        -- apply Ju. exact Hne.
  - (* setCurrentState *)
    unfold z_setCurrentState in H. obinds.
    apply assert_debug in H0, H. apply Z.eqb_eq in H.
    destruct Hi as ((_ & Sy & Su) & Hp & Hn).
    unfold inv, sizes_ok, no_past, no_gap, no_input_when_none, ia_first in *; cbn in *.
    split; [|tauto]. repeat split; auto.
    + intros _. exists x. auto.
    + apply Hp; auto.
    + apply Hp; auto.
  - (* clearStates *)
    injection H as <-. destruct Hi as ((_ & Sy & Su) & Hp & Hn).
    unfold inv, sizes_ok, no_past, no_gap, no_input_when_none in *; cbn in *.
    split; [|intros _ _ C; discriminate]. repeat split; auto; try discriminate.
  - (* setMeasurement *)
    unfold z_setMeasurement in H. obinds.
    apply assert_debug in Hsz. apply Z.eqb_eq in Hsz.
    destruct Hi as ((Sx & Sy & Su) & Hp & Hn).
    destruct (setValue_debug (fun y => sy y = z_m s) y k _ _ Hset Sy Hsz) as (V1 & V2 & V3).
    unfold inv, sizes_ok, no_past, no_gap, no_input_when_none in *; cbn in *.
    split.
    + split; [repeat split; auto|]. split; auto. intros Es. destruct (Hp Es) as [Py Pu]. split; auto.
      intros _. destruct (Z.ltb_spec 0 (ia_size (z_y s))) as [Hs|Hs].
      * apply size_pos_nonempty in Hs. destruct (V2 Hs) as [-> _]. auto.
      * assert (ia_v (z_y s) = []) by (destruct (ia_v (z_y s)) eqn:Ev; auto; unfold ia_size in Hs; rewrite Ev in Hs; cbn in Hs; lia).
        rewrite V3 by auto. apply assert_debug in H. rewrite Es in H. cbn in H. apply Z.eqb_eq in H. lia.
    + intros Hg _ Es. destruct (Hg Es) as [Gy Gu]. split; auto.
      intros _. destruct (Z.ltb_spec 0 (ia_size (z_y s))) as [Hs|Hs].
      * apply size_pos_nonempty in Hs. destruct (V2 Hs) as [-> _]. auto.
      * assert (ia_v (z_y s) = []) by (destruct (ia_v (z_y s)) eqn:Ev; auto; unfold ia_size in Hs; rewrite Ev in Hs; cbn in Hs; lia).
        rewrite V3 by auto. apply assert_debug in H. rewrite Es in H. cbn in H. apply Z.eqb_eq in H. lia.
  - (* pushMeasurement *)
    unfold z_pushMeasurement in H. obinds.
    apply assert_debug in Hsz. apply Z.eqb_eq in Hsz.
    destruct Hi as ((Sx & Sy & Su) & Hp & Hn).
    destruct (Z.ltb_spec 0 (ia_size (z_y s))) as [Hs|Hs].
    + apply size_pos_nonempty in Hs. injection H1 as <-.
      unfold inv, sizes_ok, no_past, no_gap, no_input_when_none, ia_first in *; cbn in *.
      split.
      * split; [repeat split; auto|split; auto].
        -- apply Forall_app; auto.
        -- intros Es. destruct (Hp Es). auto.
      * intros Hg _ Es. destruct (Hg Es). auto.
    + obinds.
      destruct (setValue_debug (fun y => sy y = z_m s) y _ _ _ Hset Sy Hsz) as (V1 & V2 & V3).
      assert (Hv : ia_v (z_y s) = []) by (destruct (ia_v (z_y s)) eqn:Ev; auto; unfold ia_size in Hs; rewrite Ev in Hs; cbn in Hs; lia).
      specialize (V3 Hv). unfold im_time in Htime. obinds.
      unfold inv, sizes_ok, no_past, no_gap, no_input_when_none in *; cbn in *. rewrite V3.
      split.
      * split; [repeat split; auto|split; auto].
        intros Es. destruct (Hp Es). split; auto. intros _. lia.
      * intros Hg _ Es. destruct (Hg Es). split; auto. intros _. lia.
  - (* clearMeasurements *)
    injection H as <-. destruct Hi as ((Sx & Sy & Su) & Hp & Hn).
    unfold inv, sizes_ok, no_past, no_gap, no_input_when_none in *; cbn in *.
    split; [repeat split; auto; try congruence; apply Hp; auto|]. intros Hg _ Es. destruct (Hg Es). split; auto; congruence.
  - (* setInput *)
    unfold z_setInput in H. destruct (Z.ltb_spec 0 (z_p s)); [|injection H as <-; split; auto].
    obinds.
    apply assert_debug in Hsz. apply Z.eqb_eq in Hsz.
    destruct Hi as ((Sx & Sy & Su) & Hp & Hn).
    destruct (setValue_debug (fun u => su u = z_p s) u k _ _ Hset Su Hsz) as (V1 & V2 & V3).
    unfold inv, sizes_ok, no_past, no_gap, no_input_when_none in *; cbn in *.
    assert (Hbound : im_set (z_x s) = true -> ia_v (z_u s) = [] ->
              im_k (z_x s) <= k <= im_k (z_x s) + 1).
    { intros Es Hv. assert (ia_size (z_u s) = 0) as Hz by (unfold ia_size; now rewrite Hv).
      rewrite Hz in H. cbn in H. apply assert_debug in H. rewrite Es in H. cbn in H.
      apply orb_true_iff in H. rewrite !Z.eqb_eq in H. lia. }
    split.
    + split; [repeat split; auto|]. split; [|lia]. intros Es. destruct (Hp Es) as [Py Pu]. split; auto.
      intros _. destruct (ia_v (z_u s)) as [|u0 lu] eqn:Ev.
      * rewrite V3 by auto. specialize (Hbound Es eq_refl). lia.
      * destruct V2 as [-> _]; [congruence|]. apply Pu. congruence.
    + intros Hg _ Es. destruct (Hg Es) as [Gy Gu]. split; auto.
      intros _. destruct (ia_v (z_u s)) as [|u0 lu] eqn:Ev.
      * rewrite V3 by auto. specialize (Hbound Es eq_refl). lia.
      * destruct V2 as [-> _]; [congruence|]. apply Gu. congruence.
  - (* pushInput *)
    unfold z_pushInput in H. destruct (Z.ltb_spec 0 (z_p s)); [|injection H as <-; split; auto].
    obinds.
    apply assert_debug in Hsz. apply Z.eqb_eq in Hsz.
    destruct Hi as ((Sx & Sy & Su) & Hp & Hn).
    destruct (Z.ltb_spec 0 (ia_size (z_u s))) as [Hs|Hs].
    + apply size_pos_nonempty in Hs. injection H2 as <-.
      unfold inv, sizes_ok, no_past, no_gap, no_input_when_none, ia_first in *; cbn in *.
      split.
      * split; [repeat split; auto|split; [|lia]].
        -- apply Forall_app; auto.
        -- intros Es. destruct (Hp Es). auto.
      * intros Hg _ Es. destruct (Hg Es). auto.
    + obinds.
      destruct (setValue_debug (fun u => su u = z_p s) u _ _ _ Hset Su Hsz) as (V1 & V2 & V3).
      assert (Hv : ia_v (z_u s) = []) by (destruct (ia_v (z_u s)) eqn:Ev; auto; unfold ia_size in Hs; rewrite Ev in Hs; cbn in Hs; lia).
      specialize (V3 Hv). unfold im_time in Htime. obinds.
      unfold inv, sizes_ok, no_past, no_gap, no_input_when_none in *; cbn in *. rewrite V3.
      split.
      * split; [repeat split; auto|split; [|lia]].
        intros Es. destruct (Hp Es). split; auto. intros _. lia.
      * intros Hg _ Es. destruct (Hg Es). split; auto. intros _. lia.
  - (* clearInputs *)
    injection H as <-. destruct Hi as ((Sx & Sy & Su) & Hp & Hn).
    unfold inv, sizes_ok, no_past, no_gap, no_input_when_none in *; cbn in *.
    split; [repeat split; auto; try congruence; apply Hp; auto|]. intros Hg _ Es. destruct (Hg Es). split; auto; congruence.
  - (* reset *)
    injection H as <-. destruct Hi as ((Sx & Sy & Su) & Hp & Hn).
    unfold inv, sizes_ok, no_past, no_gap, no_input_when_none in *; cbn in *.
    split; [repeat split; auto; try congruence; discriminate|]. intros Hg _ Es. discriminate.
  - (* setStateSize *)
    injection H as <-. unfold z_setStateSize. destruct (n =? z_n s); [split; auto|].
    destruct Hi as ((Sx & Sy & Su) & Hp & Hn).
    unfold inv, sizes_ok, no_past, no_gap, no_input_when_none in *; cbn in *.
    split; [repeat split; auto; discriminate|]. intros Hg _ Es. discriminate.
  - (* setMeasureSize *)
    injection H as <-. unfold z_setMeasureSize. destruct (m =? z_m s); [split; auto|].
    destruct Hi as ((Sx & Sy & Su) & Hp & Hn).
    unfold inv, sizes_ok, no_past, no_gap, no_input_when_none in *; cbn in *.
    split; [repeat split; auto; try congruence; apply Hp; auto|]. intros Hg _ Es. destruct (Hg Es). split; auto; congruence.
  - (* setInputSize *)
    injection H as <-. unfold z_setInputSize. destruct (p =? z_p s); [split; auto|].
    destruct Hi as ((Sx & Sy & Su) & Hp & Hn).
    unfold inv, sizes_ok, no_past, no_gap, no_input_when_none in *; cbn in *.
    split; [repeat split; auto; try congruence; apply Hp; auto|]. intros Hg _ Es. destruct (Hg Es). split; auto; congruence.
  - (* estimateState *)
    unfold z_estimateState, omap in H. obinds. cbn [fst].
    destruct (Z.ltb_spec 0 (ia_size (z_y s))).
    + obinds. destruct a2 as [s2 x2]; cbn [fst] in *.
      destruct (getEstimatedState_inv _ _ _ _ Hst Hest Hi) as (I & G & _). split; auto.
    + injection H as <-. split; auto.
  - (* getEstimatedState *)
    unfold omap in H. obinds. destruct a as [s2 x2]; cbn [fst] in *.
    destruct (getEstimatedState_inv _ _ _ _ Hst Hest Hi) as (I & G & _). split; auto.
Qed.

Lemma inv_init n m p e : inv (z_init n m p e).
Proof.
  unfold inv, sizes_ok, no_past, no_input_when_none; cbn. repeat split; auto; discriminate.
Qed.
Lemma no_gap_init n m p e : no_gap (z_init n m p e : zdoT).
Proof. intros H; discriminate. Qed.

(** Guarded runs: every setState satisfies [no_jump] when it is executed. *)
Fixpoint guarded (ops : list (z_op X Y U)) (s : zdoT) : Prop :=
  match ops with
  | [] => True
  | o :: os => no_jump o s /\
      match z_step sx sy su (local_step st) Debug o s with Ok s1 => guarded os s1 | _ => True end
  end.

Lemma z_run_inv ops : step_keeps_size -> forall s s',
  z_run sx sy su (local_step st) Debug ops s = Ok s' -> inv s ->
  inv s' /\ (no_gap s -> guarded ops s -> no_gap s').
Proof.
  intros Hst. induction ops as [|o os IH]; intros s s' H Hi; unfold z_run in *; cbn in *.
  - injection H as <-. auto.
  - destruct (obind_Ok_inv _ _ _ H) as (s1 & E1 & E2).
    destruct (z_step_inv o s s1 Hst E1 Hi) as (I1 & G1).
    destruct (IH s1 s' E2 I1) as (I2 & G2). split; auto.
    intros Hg [Hj Hr]. rewrite E1 in Hr. auto.
Qed.
End I.
