(** Relational reasoning about zero-delay observers: three runs of the same call sequence on
    related data stay related (two-run statements are the case where the third run copies
    the first). *)
From Coq Require Import ZArith List Lia Bool.
From Verif Require Import Base Defs ZDO.
Import ListNotations.
Open Scope Z_scope.

Inductive all3 {A B C} (R : A -> B -> C -> Prop) : list A -> list B -> list C -> Prop :=
| all3_nil : all3 R [] [] []
| all3_cons a b c la lb lc : R a b c -> all3 R la lb lc -> all3 R (a :: la) (b :: lb) (c :: lc).

(** Three outcomes of the same kind, with related values. *)
Definition orel3 {A B C} (R : A -> B -> C -> Prop) (a : outcome A) (b : outcome B) (c : outcome C) : Prop :=
  match a, b, c with
  | Ok x, Ok y, Ok z => R x y z
  | AssertFail, AssertFail, AssertFail => True
  | Throw, Throw, Throw => True
  | UB, UB, UB => True
  | _, _, _ => False
  end.

Definition optrel3 {A B C} (R : A -> B -> C -> Prop) (a : option A) (b : option B) (c : option C) : Prop :=
  match a, b, c with
  | Some x, Some y, Some z => R x y z
  | None, None, None => True
  | _, _, _ => False
  end.

Definition irel3 {A B C} (R : A -> B -> C -> Prop) (a : iarr A) (b : iarr B) (c : iarr C) : Prop :=
  ia_k b = ia_k a /\ ia_k c = ia_k a /\ all3 R (ia_v a) (ia_v b) (ia_v c).
Definition mrel3 {A B C} (R : A -> B -> C -> Prop) (a : imat A) (b : imat B) (c : imat C) : Prop :=
  im_set b = im_set a /\ im_set c = im_set a /\ im_k b = im_k a /\ im_k c = im_k a /\
  optrel3 R (im_v a) (im_v b) (im_v c).

Lemma orel3_bind {A B C A' B' C'} (R : A -> B -> C -> Prop) (R' : A' -> B' -> C' -> Prop) a b c f g h :
  orel3 R a b c -> (forall x y z, R x y z -> orel3 R' (f x) (g y) (h z)) ->
  orel3 R' (obind a f) (obind b g) (obind c h).
Proof. destruct a, b, c; cbn; intros H H1; try contradiction; auto. Qed.

Lemma orel3_assert md b : orel3 (fun _ _ _ => True) (boost_assert md b) (boost_assert md b) (boost_assert md b).
Proof. destruct md, b; exact I. Qed.

Lemma orel3_mono {A B C} (R R' : A -> B -> C -> Prop) a b c :
  (forall x y z, R x y z -> R' x y z) -> orel3 R a b c -> orel3 R' a b c.
Proof. destruct a, b, c; cbn; auto. Qed.

Lemma orel3_iter {A B C} (R : A -> B -> C -> Prop) f g h : 
  (forall x y z, R x y z -> orel3 R (f x) (g y) (h z)) ->
  forall n x y z, R x y z -> orel3 R (oiter n f x) (oiter n g y) (oiter n h z).
Proof.
  intros H. induction n as [|n IH]; intros x y z Hr; cbn; auto.
  eapply orel3_bind; [apply H; exact Hr|]. exact IH.
Qed.

Section Lists.
Context {A B C : Type} (R : A -> B -> C -> Prop).

Lemma all3_length la lb lc : all3 R la lb lc -> length lb = length la /\ length lc = length la.
Proof. induction 1; cbn; intuition congruence. Qed.

Lemma all3_nth i la lb lc : all3 R la lb lc ->
  optrel3 R (nth_error la i) (nth_error lb i) (nth_error lc i).
Proof. intros H; revert i; induction H; intros [|i]; cbn; auto. Qed.

Lemma all3_app la lb lc la' lb' lc' : all3 R la lb lc -> all3 R la' lb' lc' ->
  all3 R (la ++ la') (lb ++ lb') (lc ++ lc').
Proof. induction 1; cbn; auto. intros. constructor; auto. Qed.

Lemma all3_set i a b c la lb lc : R a b c -> all3 R la lb lc ->
  all3 R (list_set i a la) (list_set i b lb) (list_set i c lc).
Proof.
  intros H0 H; revert i; induction H; intros [|i]; cbn; constructor; auto.
Qed.

Lemma irel3_size a b c : irel3 R a b c -> ia_size b = ia_size a /\ ia_size c = ia_size a.
Proof. intros (_ & _ & H). unfold ia_size. destruct (all3_length _ _ _ H) as [-> ->]. auto. Qed.

Lemma irel3_check a b c t : irel3 R a b c ->
  ia_checkIndex b t = ia_checkIndex a t /\ ia_checkIndex c t = ia_checkIndex a t.
Proof.
  intros H. destruct (irel3_size _ _ _ H) as [H1 H2]. destruct H as (K1 & K2 & _).
  unfold ia_checkIndex. rewrite H1, H2, K1, K2. auto.
Qed.

Lemma irel3_get md a b c t : irel3 R a b c -> orel3 R (ia_get md a t) (ia_get md b t) (ia_get md c t).
Proof.
  intros H. destruct (irel3_check _ _ _ t H) as [H1 H2]. unfold ia_get. rewrite H1, H2.
  eapply orel3_bind; [apply orel3_assert|]. intros _ _ _ _. unfold ia_at.
  destruct H as (-> & -> & H). destruct (ia_k a <=? t); [|exact I].
  pose proof (all3_nth (Z.to_nat (t - ia_k a)) _ _ _ H) as Hn.
  destruct (nth_error (ia_v a) _), (nth_error (ia_v b) _), (nth_error (ia_v c) _); cbn in *; auto.
Qed.

Lemma irel3_setValue md va vb vc k a b c : R va vb vc -> irel3 R a b c ->
  orel3 (irel3 R) (ia_setValue md va k a) (ia_setValue md vb k b) (ia_setValue md vc k c).
Proof.
  intros Hv H. unfold ia_setValue.
  destruct (irel3_check _ _ _ k H) as [-> ->]. destruct (irel3_size _ _ _ H) as [S1 S2].
  destruct H as (K1 & K2 & H). destruct (ia_checkIndex a k).
  - cbn. unfold irel3; cbn. rewrite K1, K2. auto using all3_set.
  - rewrite S1, S2, K1, K2. eapply orel3_bind; [apply orel3_assert|]. intros _ _ _ _.
    cbn. unfold irel3; cbn. repeat split. apply all3_app; auto. constructor; auto. constructor.
Qed.

Lemma irel3_pushBack va vb vc a b c : R va vb vc -> irel3 R a b c ->
  irel3 R (ia_pushBack va a) (ia_pushBack vb b) (ia_pushBack vc c).
Proof.
  intros Hv (K1 & K2 & H). unfold irel3; cbn. repeat split; auto.
  apply all3_app; auto. constructor; auto. constructor.
Qed.

Lemma irel3_pop md a b c : irel3 R a b c ->
  orel3 (irel3 R) (ia_popFront md a) (ia_popFront md b) (ia_popFront md c).
Proof.
  intros H. destruct (irel3_size _ _ _ H) as [S1 S2]. destruct H as (K1 & K2 & H).
  unfold ia_popFront. rewrite S1, S2. eapply orel3_bind; [apply orel3_assert|]. intros _ _ _ _.
  destruct H; cbn; auto. unfold irel3; cbn. repeat split; auto; lia.
Qed.

Lemma irel3_pop_below lim k la lb lc : all3 R la lb lc ->
  irel3 R (pop_below lim k la) (pop_below lim k lb) (pop_below lim k lc).
Proof.
  intros H. revert k. induction H; intros k; cbn.
  - repeat split; constructor.
  - destruct (k <? lim); auto. repeat split. constructor; auto.
Qed.

Lemma mrel3_time md a b c : mrel3 R a b c ->
  orel3 (fun t1 t2 t3 => t2 = t1 /\ t3 = t1 /\ t1 = im_k a) (im_time md a) (im_time md b) (im_time md c).
Proof.
  intros (S1 & S2 & K1 & K2 & _). unfold im_time. rewrite S1, S2, K1, K2.
  eapply orel3_bind; [apply orel3_assert|]. cbn; auto.
Qed.

Lemma mrel3_get md a b c : mrel3 R a b c -> orel3 R (im_get md a) (im_get md b) (im_get md c).
Proof.
  intros (S1 & S2 & K1 & K2 & H). unfold im_get. rewrite S1, S2.
  eapply orel3_bind; [apply orel3_assert|]. intros _ _ _ _.
  destruct (im_v a), (im_v b), (im_v c); cbn in *; auto.
Qed.
End Lists.

Section Rel.
Context {X1 X2 X3 Y1 Y2 Y3 U1 U2 U3 E1 E2 E3 : Type}.
Variable (sx1 : X1 -> Z) (sx2 : X2 -> Z) (sx3 : X3 -> Z).
Variable (sy1 : Y1 -> Z) (sy2 : Y2 -> Z) (sy3 : Y3 -> Z).
Variable (su1 : U1 -> Z) (su2 : U2 -> Z) (su3 : U3 -> Z).
Variable (RX : X1 -> X2 -> X3 -> Prop) (RY : Y1 -> Y2 -> Y3 -> Prop) (RU : U1 -> U2 -> U3 -> Prop).
Variable (RE : E1 -> E2 -> E3 -> Prop).
Hypothesis Hsx : forall a b c, RX a b c -> sx2 b = sx1 a /\ sx3 c = sx1 a.
Hypothesis Hsy : forall a b c, RY a b c -> sy2 b = sy1 a /\ sy3 c = sy1 a.
Hypothesis Hsu : forall a b c, RU a b c -> su2 b = su1 a /\ su3 c = su1 a.

Definition zrel3 (s1 : zdo X1 Y1 U1 E1) (s2 : zdo X2 Y2 U2 E2) (s3 : zdo X3 Y3 U3 E3) : Prop :=
  z_n s2 = z_n s1 /\ z_n s3 = z_n s1 /\ z_m s2 = z_m s1 /\ z_m s3 = z_m s1 /\
  z_p s2 = z_p s1 /\ z_p s3 = z_p s1 /\
  mrel3 RX (z_x s1) (z_x s2) (z_x s3) /\ irel3 RY (z_y s1) (z_y s2) (z_y s3) /\
  irel3 RU (z_u s1) (z_u s2) (z_u s3) /\ RE (z_e s1) (z_e s2) (z_e s3).

(** The same call on related data. *)
Inductive oprel3 : z_op X1 Y1 U1 -> z_op X2 Y2 U2 -> z_op X3 Y3 U3 -> Prop :=
| or_setState a b c k : RX a b c -> oprel3 (ZSetState a k) (ZSetState b k) (ZSetState c k)
| or_setCurrent a b c : RX a b c -> oprel3 (ZSetCurrentState a) (ZSetCurrentState b) (ZSetCurrentState c)
| or_clearStates : oprel3 ZClearStates ZClearStates ZClearStates
| or_setMeas a b c k : RY a b c -> oprel3 (ZSetMeas a k) (ZSetMeas b k) (ZSetMeas c k)
| or_pushMeas a b c : RY a b c -> oprel3 (ZPushMeas a) (ZPushMeas b) (ZPushMeas c)
| or_clearMeas : oprel3 ZClearMeas ZClearMeas ZClearMeas
| or_setInput a b c k : RU a b c -> oprel3 (ZSetInput a k) (ZSetInput b k) (ZSetInput c k)
| or_pushInput a b c : RU a b c -> oprel3 (ZPushInput a) (ZPushInput b) (ZPushInput c)
| or_clearInputs : oprel3 ZClearInputs ZClearInputs ZClearInputs
| or_reset : oprel3 ZReset ZReset ZReset
| or_stateSize n : oprel3 (ZStateSize n) (ZStateSize n) (ZStateSize n)
| or_measSize n : oprel3 (ZMeasSize n) (ZMeasSize n) (ZMeasSize n)
| or_inputSize n : oprel3 (ZInputSize n) (ZInputSize n) (ZInputSize n)
| or_estimate : oprel3 ZEstimate ZEstimate ZEstimate
| or_getEstimate k : oprel3 (ZGetEstimate k) (ZGetEstimate k) (ZGetEstimate k).

Variable (st1 : @stepfun X1 Y1 U1 E1) (st2 : @stepfun X2 Y2 U2 E2) (st3 : @stepfun X3 Y3 U3 E3).

(** The three one-step functions respect the relation. *)
Definition steprel3 (md : mode) : Prop := forall e1 e2 e3 k x1 x2 x3 y1 y2 y3 u1 u2 u3 v1 v2 v3,
  RE e1 e2 e3 -> RX x1 x2 x3 -> orel3 RY y1 y2 y3 -> orel3 RU u1 u2 u3 -> orel3 RU v1 v2 v3 ->
  orel3 (fun r1 r2 r3 => RX (fst r1) (fst r2) (fst r3) /\ RE (snd r1) (snd r2) (snd r3))
    (st1 md e1 k x1 y1 u1 v1) (st2 md e2 k x2 y2 u2 v2) (st3 md e3 k x3 y3 u3 v3).

Ltac zr := unfold zrel3; cbn; intuition auto.

Lemma local_rel md s1 s2 s3 : steprel3 md -> zrel3 s1 s2 s3 ->
  orel3 zrel3 (local_step st1 md s1) (local_step st2 md s2) (local_step st3 md s3).
Proof.
  intros Hst (N1 & N2 & M1 & M2 & P1 & P2 & Hx & Hy & Hu & He). unfold local_step, z_time.
  eapply orel3_bind; [apply (mrel3_time RX md _ _ _ Hx)|]. intros t1 t2 t3 (-> & -> & _).
  eapply orel3_bind; [apply (mrel3_get RX md _ _ _ Hx)|]. intros x1 x2 x3 Hxx.
  eapply orel3_bind; [apply Hst; auto using irel3_get|].
  intros [a1 e1] [a2 e2] [a3 e3] [Ha Hee]. cbn in *. zr.
  unfold mrel3; cbn; auto.
Qed.

Lemma iter_rel md k s1 s2 s3 : steprel3 md -> zrel3 s1 s2 s3 ->
  orel3 zrel3 (z_iter (local_step st1) md k s1) (z_iter (local_step st2) md k s2) (z_iter (local_step st3) md k s3).
Proof.
  intros Hst H. unfold z_iter. eapply orel3_bind; [apply local_rel; eauto|]. clear s1 s2 s3 H.
  intros s1 s2 s3 H. eapply orel3_bind with (R := zrel3).
  - destruct H as (N1 & N2 & M1 & M2 & P1 & P2 & Hx & Hy & Hu & He).
    pose proof Hy as (K1 & K2 & _). unfold ia_first. rewrite K1, K2. destruct (_ <? _).
    + eapply orel3_bind; [apply irel3_pop; exact Hy|]. intros; zr.
    + zr.
  - clear s1 s2 s3 H. intros s1 s2 s3 (N1 & N2 & M1 & M2 & P1 & P2 & Hx & Hy & Hu & He).
    rewrite P1, P2. destruct (0 <? z_p s1); [|zr].
    pose proof Hu as (K1 & K2 & _). unfold ia_first. rewrite K1, K2. destruct (_ <? _).
    + eapply orel3_bind; [apply irel3_pop; exact Hu|]. intros; zr.
    + zr.
Qed.

Lemma getEst_rel md k s1 s2 s3 : steprel3 md -> zrel3 s1 s2 s3 ->
  orel3 (fun r1 r2 r3 => zrel3 (fst r1) (fst r2) (fst r3) /\ RX (snd r1) (snd r2) (snd r3))
    (z_getEstimatedState (local_step st1) md k s1) (z_getEstimatedState (local_step st2) md k s2)
    (z_getEstimatedState (local_step st3) md k s3).
Proof.
  intros Hst H. unfold z_getEstimatedState, z_time.
  pose proof H as (_ & _ & _ & _ & _ & _ & Hx & _). pose proof Hx as (S1 & S2 & _). rewrite S1, S2.
  eapply orel3_bind; [apply orel3_assert|]. intros _ _ _ _.
  eapply orel3_bind; [apply (mrel3_time RX md _ _ _ Hx)|]. intros t1 t2 t3 (-> & -> & _).
  eapply orel3_bind; [apply orel3_assert|]. intros _ _ _ _.
  eapply orel3_bind; [apply orel3_iter with (R := zrel3); [intros; apply iter_rel; auto|exact H]|].
  intros a b c Hr. pose proof Hr as (_ & _ & _ & _ & _ & _ & Hxx & _).
  eapply orel3_bind; [apply (mrel3_get RX md _ _ _ Hxx)|]. intros; cbn; auto.
Qed.

Lemma mrel3_put a b c k : RX a b c -> mrel3 RX (im_put a k) (im_put b k) (im_put c k).
Proof. unfold mrel3; cbn; auto. Qed.

Lemma z_step_rel md o1 o2 o3 s1 s2 s3 : steprel3 md -> oprel3 o1 o2 o3 -> zrel3 s1 s2 s3 ->
  orel3 zrel3 (z_step sx1 sy1 su1 (local_step st1) md o1 s1)
              (z_step sx2 sy2 su2 (local_step st2) md o2 s2)
              (z_step sx3 sy3 su3 (local_step st3) md o3 s3).
Proof.
  intros Hst Ho H. pose proof H as (N1 & N2 & M1 & M2 & P1 & P2 & Hx & Hy & Hu & He).
  pose proof Hx as (S1 & S2 & K1 & K2 & Hv). destruct (irel3_size _ _ _ _ Hy) as [Z1 Z2].
  destruct (irel3_size _ _ _ _ Hu) as [W1 W2].
  pose proof Hy as (KY1 & KY2 & HYl). pose proof Hu as (KU1 & KU2 & HUl).
  destruct Ho; cbn [z_step].
  - unfold z_setState, z_time, im_time. destruct (Hsx _ _ _ H0) as [-> ->]. rewrite N1, N2.
    eapply orel3_bind; [apply orel3_assert|]. intros _ _ _ _.
    eapply orel3_bind with (R := fun t1 t2 t3 => t1 = k /\ t2 = k /\ t3 = k).
    { eapply orel3_bind; [apply orel3_assert|]. cbn; auto. }
    intros t1 t2 t3 (-> & -> & ->). rewrite Z.ltb_irrefl. cbn.
    rewrite P1, P2, KY1, KY2, KU1, KU2.
    destruct (0 <? z_p s1); zr; auto using mrel3_put, irel3_pop_below.
  - unfold z_setCurrentState. destruct (Hsx _ _ _ H0) as [-> ->]. rewrite N1, N2, S1, S2.
    eapply orel3_bind; [apply orel3_assert|]. intros _ _ _ _.
    eapply orel3_bind; [apply orel3_assert|]. intros _ _ _ _. zr.
    unfold mrel3; cbn; auto.
  - zr. unfold mrel3; cbn; auto.
  - unfold z_setMeasurement. destruct (Hsy _ _ _ H0) as [-> ->]. rewrite M1, M2.
    eapply orel3_bind; [apply orel3_assert|]. intros _ _ _ _.
    eapply orel3_bind with (R := fun _ _ _ => True).
    { unfold ia_next. destruct (irel3_check _ _ _ _ k Hy) as [-> ->].
      rewrite Z1, Z2, KY1, KY2, S1, S2, K1, K2. destruct (0 <? _); apply orel3_assert. }
    intros _ _ _ _. eapply orel3_bind; [apply irel3_setValue; eauto|]. intros; zr.
  - unfold z_pushMeasurement. destruct (Hsy _ _ _ H0) as [-> ->]. rewrite M1, M2.
    eapply orel3_bind; [apply orel3_assert|]. intros _ _ _ _.
    rewrite Z1, Z2. destruct (0 <? _); [zr; apply irel3_pushBack; auto|].
    rewrite S1, S2. eapply orel3_bind; [apply orel3_assert|]. intros _ _ _ _.
    eapply orel3_bind; [apply (mrel3_time RX md _ _ _ Hx)|]. intros t1 t2 t3 (-> & -> & _).
    eapply orel3_bind; [apply irel3_setValue; eauto|]. intros; zr.
  - zr. repeat split; constructor.
  - unfold z_setInput. destruct (Hsu _ _ _ H0) as [-> ->]. rewrite P1, P2.
    destruct (0 <? z_p s1); [|zr].
    eapply orel3_bind; [apply orel3_assert|]. intros _ _ _ _.
    eapply orel3_bind with (R := fun _ _ _ => True).
    { unfold ia_next. destruct (irel3_check _ _ _ _ k Hu) as [-> ->].
      rewrite W1, W2, KU1, KU2, S1, S2, K1, K2. destruct (0 <? _); apply orel3_assert. }
    intros _ _ _ _. eapply orel3_bind; [apply irel3_setValue; eauto|]. intros; zr.
  - unfold z_pushInput. destruct (Hsu _ _ _ H0) as [-> ->]. rewrite P1, P2.
    destruct (0 <? z_p s1); [|zr].
    eapply orel3_bind; [apply orel3_assert|]. intros _ _ _ _.
    rewrite W1, W2. destruct (0 <? _); [zr; apply irel3_pushBack; auto|].
    rewrite S1, S2. eapply orel3_bind; [apply orel3_assert|]. intros _ _ _ _.
    eapply orel3_bind; [apply (mrel3_time RX md _ _ _ Hx)|]. intros t1 t2 t3 (-> & -> & _).
    eapply orel3_bind; [apply irel3_setValue; eauto|]. intros; zr.
  - zr. repeat split; constructor.
  - zr; unfold mrel3; cbn; auto; repeat split; constructor.
  - unfold z_setStateSize. rewrite N1, N2. destruct (_ =? _); zr. unfold mrel3; cbn; auto.
  - unfold z_setMeasureSize. rewrite M1, M2. destruct (_ =? _); zr. repeat split; constructor.
  - unfold z_setInputSize. rewrite P1, P2. destruct (_ =? _); zr. repeat split; constructor.
  - unfold omap. eapply orel3_bind with (R := fun r1 r2 r3 => zrel3 (fst r1) (fst r2) (fst r3)).
    2:{ intros; cbn; auto. }
    unfold z_estimateState. eapply orel3_bind with (R := zrel3).
    + rewrite Z1, Z2. unfold ia_last. rewrite Z1, Z2, KY1, KY2. destruct (0 <? _); [|zr].
      eapply orel3_bind with (R := fun a b c => b = a /\ c = a).
      { eapply orel3_bind; [apply orel3_assert|]. cbn; auto. }
      intros t1 t2 t3 [-> ->]. unfold omap. eapply orel3_bind; [apply getEst_rel; auto|].
      intros r1 r2 r3 [Hr _]; exact Hr.
    + intros a b c Hr. pose proof Hr as (_ & _ & _ & _ & _ & _ & Hxx & _). unfold z_time.
      eapply orel3_bind; [apply (mrel3_time RX md _ _ _ Hxx)|]. intros; cbn; auto.
  - unfold omap. eapply orel3_bind; [apply getEst_rel; auto|]. intros r1 r2 r3 [Hr _]; exact Hr.
Qed.

Lemma z_run_rel md ops1 ops2 ops3 : steprel3 md -> all3 oprel3 ops1 ops2 ops3 ->
  forall s1 s2 s3, zrel3 s1 s2 s3 ->
  orel3 zrel3 (z_run sx1 sy1 su1 (local_step st1) md ops1 s1)
              (z_run sx2 sy2 su2 (local_step st2) md ops2 s2)
              (z_run sx3 sy3 su3 (local_step st3) md ops3 s3).
Proof.
  intros Hst H. unfold z_run. induction H; intros s1 s2 s3 Hs; cbn; auto.
  eapply orel3_bind; [apply z_step_rel; eauto|]. auto.
Qed.

Lemma z_init_rel n m p e1 e2 e3 : RE e1 e2 e3 -> zrel3 (z_init n m p e1) (z_init n m p e2) (z_init n m p e3).
Proof. intros. zr; repeat split; constructor. Qed.
End Rel.
