(** Lemmas about the tilt estimator. *)
From Coq Require Import Reals ZArith List Lra Lia Bool Psatz.
From Verif Require Import Base Defs SpecArray ArrayProofs ZDO ZDOProofs ZDOInv Vec3 Rot Kine SpecKine KineProofs2 Tilt.
Import ListNotations.
Open Scope R_scope.

(** The increment of the tilt is orthogonal to it: the Euler step never shrinks it. *)
Lemma euler_grows e ya yg x : vsq (x_t x) <= vsq (x_t (t_euler e ya yg x)).
Proof.
  unfold t_euler, t_dx; cbn [x_t]. set (w := vsub yg _). clearbody w.
  assert (E : vsq (vadd (x_t x) (vscal (t_dt e) (vcross (x_t x) w))) =
    vsq (x_t x) + t_dt e * t_dt e * vsq (vcross (x_t x) w)).
  { generalize (x_t x) (t_dt e). clear. c3. }
  rewrite E. pose proof (vsq_nonneg (vcross (x_t x) w)). assert (0 <= t_dt e * t_dt e) by nra. nra.
Qed.
Lemma vnorm_0 v : vnorm v = 0 <-> vsq v = 0.
Proof.
  split; intros H.
  - rewrite <- vnorm_sq, H. ring.
  - unfold vnorm. rewrite H. apply sqrt_0.
Qed.
Lemma normalize_unit x x' : t_normalize x = Ok x' -> vnorm (x_t x') = 1.
Proof.
  unfold t_normalize. destruct (Req_EM_T _ _) as [|N]; [discriminate|]. injection 1 as <-. cbn [x_t].
  rewrite vnorm_scal. pose proof (vnorm_pos (x_t x)). rewrite Rabs_right; [now field|].
  apply Rle_ge, Rlt_le, Rinv_0_lt_compat. lra.
Qed.
Lemma t_update_defined e y x : vsq (x_t x) <> 0 -> exists x', t_update e y x = Ok x'.
Proof.
  intros H. unfold t_update, t_normalize. destruct (Req_EM_T _ _) as [E|N]; [|eauto]. exfalso.
  apply vnorm_0 in E. pose proof (euler_grows e (fst y) (snd y) x). pose proof (vsq_nonneg (x_t x)). apply H. lra.
Qed.
Lemma t_update_unit e y x x' : t_update e y x = Ok x' -> vnorm (x_t x') = 1.
Proof. apply normalize_unit. Qed.
Lemma unit_sq v : vnorm v = 1 -> vsq v = 1.
Proof. intros H. rewrite <- vnorm_sq, H. ring. Qed.

Notation tz := (zdo TX TY unit TE).
(** The stored state, if any, has a non-zero tilt. *)
Definition nz (s : tz) : Prop := forall x, im_v (z_x s) = Some x -> vsq (x_t x) <> 0.
Definition unit_state (s : tz) : Prop := exists x, im_v (z_x s) = Some x /\ vnorm (x_t x) = 1.

Lemma unit_nz s : unit_state s -> nz s.
Proof. intros (x & E & N) x1 E1. rewrite E in E1. injection E1 as <-. rewrite (unit_sq _ N). lra. Qed.

Lemma setState_x md x k (s s' : tz) : z_setState tsx md x k s = Ok s' -> z_x s' = im_put x k.
Proof.
  unfold z_setState. intros H. destruct (boost_assert _ _); [|discriminate..]. cbn in H.
  rewrite (Z.ltb_irrefl k) in H. destruct (0 <? z_p s)%Z; injection H as <-; reflexivity.
Qed.
Lemma oneStep_unit md (s s' : tz) : t_oneStep md s = Ok s' -> unit_state s'.
Proof.
  unfold t_oneStep. intros H.
  destruct (obind_Ok_inv _ _ _ H) as (k & E1 & H1). destruct (obind_Ok_inv _ _ _ H1) as (u & E2 & H2).
  destruct (obind_Ok_inv _ _ _ H2) as (y & E3 & H3). destruct (obind_Ok_inv _ _ _ H3) as ([s1 x] & E4 & H4).
  destruct (obind_Ok_inv _ _ _ H4) as (x' & E5 & H5). apply setState_x in H5. exists x'. rewrite H5.
  split; [reflexivity|]. now apply t_update_unit in E5.
Qed.
Lemma iter_unit md k (s s' : tz) : z_iter t_oneStep md k s = Ok s' -> unit_state s'.
Proof.
  unfold z_iter. intros H. destruct (obind_Ok_inv _ _ _ H) as (s1 & E1 & H1). apply oneStep_unit in E1.
  destruct (obind_Ok_inv _ _ _ H1) as (s2 & E2 & H2). clear H H1.
  assert (X2 : z_x s2 = z_x s1).
  { destruct (ia_first (z_y s1) <? k)%Z; [destruct (obind_Ok_inv _ _ _ E2) as (y' & _ & F)|rename E2 into F]; now injection F as <-. }
  assert (X : z_x s' = z_x s1).
  { rewrite <- X2. destruct (0 <? z_p s2)%Z; [|now injection H2 as <-].
    destruct (ia_first (z_u s2) <? k)%Z; [destruct (obind_Ok_inv _ _ _ H2) as (y' & _ & F)|rename H2 into F]; now injection F as <-. }
  unfold unit_state. now rewrite X.
Qed.
Lemma oiter_unit md k n : forall (s s' : tz), oiter (S n) (z_iter t_oneStep md k) s = Ok s' -> unit_state s'.
Proof.
  induction n as [|n IH]; intros s s' H; destruct (obind_Ok_inv _ _ _ H) as (s1 & E1 & H1).
  - cbn in H1. injection H1 as <-. now apply iter_unit in E1.
  - now apply IH in H1.
Qed.
Lemma get_unit md k (s s' : tz) x' : im_set (z_x s) = true -> (im_k (z_x s) < k)%Z -> t_get md k s = Ok (s', x') ->
  vnorm (x_t x') = 1 /\ im_v (z_x s') = Some x'.
Proof.
  intros S L. unfold t_get, z_getEstimatedState, z_time, im_time. rewrite S. cbn [boost_assert obind].
  destruct (Z.leb_spec (im_k (z_x s)) k) as [_|]; [|lia]. cbn [boost_assert obind]. intros H.
  destruct (Z.to_nat (k - im_k (z_x s))) eqn:N; [lia|].
  destruct (obind_Ok_inv _ _ _ H) as (s1 & E1 & H1). apply oiter_unit in E1. destruct E1 as (x & E & U).
  destruct (obind_Ok_inv _ _ _ H1) as (x2 & E2 & H2). injection H2 as <- <-.
  unfold im_get in E2. rewrite E in E2. destruct (boost_assert md _); [|discriminate..]. cbn in E2. injection E2 as <-. auto.
Qed.
Lemma oiter_nz md k n : forall (s s' : tz), nz s -> oiter n (z_iter t_oneStep md k) s = Ok s' -> nz s'.
Proof.
  intros s s' N H. destruct n; [now injection H as <-|]. apply unit_nz. eapply oiter_unit; eauto.
Qed.
Lemma get_nz md k (s s' : tz) x : nz s -> t_get md k s = Ok (s', x) -> nz s'.
Proof.
  intros N H. unfold t_get, z_getEstimatedState in H.
  destruct (obind_Ok_inv _ _ _ H) as (u & _ & H1). destruct (obind_Ok_inv _ _ _ H1) as (k0 & _ & H2).
  destruct (obind_Ok_inv _ _ _ H2) as (u1 & _ & H3). destruct (obind_Ok_inv _ _ _ H3) as (s1 & E & H4).
  destruct (obind_Ok_inv _ _ _ H4) as (x1 & _ & H5). injection H5 as <- <-. eapply oiter_nz; eauto.
Qed.

(** Operations that set a state set one with a non-zero tilt. *)
Definition nz_op (o : t_op) : Prop :=
  match o with
  | TZ (ZSetState x _) | TZ (ZSetCurrentState x) => x_t x <> v0
  | _ => True
  end.
Lemma vsq_neq v : v <> v0 -> vsq v <> 0.
Proof. intros H E. now apply H, vsq_0. Qed.

Ltac ob H := let a := fresh "a" in let E := fresh "E" in let H' := fresh "H" in
  destruct (obind_Ok_inv _ _ _ H) as (a & E & H'); clear H; rename H' into H; cbv beta in H.
Lemma step_nz md o (s s' : tz) : nz_op o -> nz s -> t_step md o s = Ok s' -> nz s'.
Proof.
  intros P N H. destruct o as [o|e]; [|injection H as <-; exact N].
  destruct o; cbn [t_step z_step nz_op] in *.
  - apply setState_x in H. intros x1 E. rewrite H in E. injection E as <-. now apply vsq_neq.
  - unfold z_setCurrentState in H. ob H. ob H. injection H as <-. intros x1 E1. injection E1 as <-. now apply vsq_neq.
  - injection H as <-. exact N.
  - unfold z_setMeasurement in H. ob H. ob H. ob H. injection H as <-. exact N.
  - unfold z_pushMeasurement in H. ob H. destruct (0 <? ia_size (z_y s))%Z; [injection H as <-; exact N|].
    ob H. ob H. ob H. injection H as <-. exact N.
  - injection H as <-. exact N.
  - unfold z_setInput in H. destruct (0 <? z_p s)%Z; [|injection H as <-; exact N]. ob H. ob H. ob H. injection H as <-. exact N.
  - unfold z_pushInput in H. destruct (0 <? z_p s)%Z; [|injection H as <-; exact N]. ob H.
    destruct (0 <? ia_size (z_u s))%Z; [injection H as <-; exact N|]. ob H. ob H. ob H. injection H as <-. exact N.
  - injection H as <-. exact N.
  - injection H as <-. exact N.
  - injection H as <-. unfold z_setStateSize. destruct (_ =? _)%Z; exact N.
  - injection H as <-. unfold z_setMeasureSize. destruct (_ =? _)%Z; exact N.
  - injection H as <-. unfold z_setInputSize. destruct (_ =? _)%Z; exact N.
  - unfold omap in H. ob H. injection H as <-. unfold z_estimateState in E. ob E. ob E. injection E as <-. cbn [fst].
    destruct (0 <? ia_size (z_y s))%Z; [|now injection E0 as <-]. ob E0. unfold omap in E0.
    destruct (obind_Ok_inv _ _ _ E0) as ([s1 x1] & E2 & E3). injection E3 as <-. cbn [fst]. eapply get_nz; [exact N|exact E2].
  - unfold omap in H. ob H. injection H as <-. destruct a as [s1 x1]. cbn [fst]. eapply get_nz; [exact N|exact E].
Qed.
Lemma run_nz md ops : Forall nz_op ops -> forall (s s' : tz), nz s -> t_run md ops s = Ok s' -> nz s'.
Proof.
  induction 1 as [|o ops P F IH]; intros s s' N H; cbn in H; [now injection H as <-|].
  destruct (obind_Ok_inv _ _ _ H) as (s1 & E & H1). eapply IH; [|exact H1]. eapply step_nz; eauto.
Qed.

(** ** Batches *)
(** An estimator with the sizes of the constructor, an estimate [x] at time [k]. *)
Definition ready (s : tz) (x : TX) (k : Z) : Prop := z_n s = 9%Z /\ z_m s = 6%Z /\ z_p s = 0%Z /\ z_x s = im_put x k.
Definition stepped (s : tz) (x : TX) (k : Z) : tz :=
  mkZ (z_n s) (z_m s) (z_p s) (im_put x k) (pop_below (k + 1) (ia_k (z_y s)) (ia_v (z_y s))) (z_u s) (z_e s).
Lemma stepped_ready s x k x' k' : ready s x k -> ready (stepped s x' k') x' k'.
Proof. intros (A & B & C & D). now repeat split. Qed.

Lemma oneStep_ok md s x k y x' : ready s x k -> seen (z_y s) (k + 1) = Some y -> t_update (z_e s) y x = Ok x' ->
  t_oneStep md s = Ok (stepped s x' (k + 1)).
Proof.
  intros (A & B & C & D) Y U. unfold t_oneStep. rewrite D. cbn [im_time im_put im_set im_k boost_assert obind].
  rewrite seen_entry in Y.
  assert (I : (ia_k (z_y s) <= k + 1 < ia_k (z_y s) + ia_size (z_y s))%Z).
  { destruct (Z_lt_le_dec (k + 1) (ia_k (z_y s))); [rewrite entry_out in Y; [discriminate|lia]|].
    destruct (Z_lt_le_dec (k + 1) (ia_k (z_y s) + ia_size (z_y s))); [lia|rewrite entry_out in Y; [discriminate|lia]]. }
  assert (T : ((0 <? ia_size (z_y s))%Z && ia_checkIndex (z_y s) (k + 1) = true)%bool).
  { unfold ia_checkIndex. repeat (apply andb_true_intro; split); first [apply Z.ltb_lt|apply Z.leb_le]; lia. }
  rewrite T. cbn [boost_assert obind]. rewrite (ia_get_in md _ _ _ Y). cbn [obind].
  unfold z_getEstimatedState, z_time. rewrite D. cbn [im_time im_put im_set im_k boost_assert obind].
  rewrite Z.leb_refl, Z.sub_diag. cbn [boost_assert obind oiter Z.to_nat]. rewrite D. cbn [im_get im_put im_set im_v boost_assert obind].
  rewrite U. cbn [obind]. unfold z_setState, tsx. rewrite A. cbn [Z.eqb Pos.eqb boost_assert obind z_time z_x with_x im_time im_put im_set im_k].
  rewrite Z.ltb_irrefl. cbn [z_p with_y with_x]. rewrite C. cbn [Z.ltb Z.compare]. reflexivity.
Qed.
Lemma oneStep_nodata md s x k : ready s x k -> seen (z_y s) (k + 1) = None ->
  t_oneStep md s = match md with Debug => AssertFail | Release => UB end.
Proof.
  intros (A & B & C & D) Y. unfold t_oneStep. rewrite D. cbn [im_time im_put im_set im_k boost_assert obind].
  rewrite seen_entry in Y. destruct md.
  - assert (T : ((0 <? ia_size (z_y s))%Z && ia_checkIndex (z_y s) (k + 1) = false)%bool).
    { destruct (_ && _)%bool eqn:T; [|reflexivity]. apply andb_prop in T. destruct T as (_ & T).
      unfold ia_checkIndex in T. apply andb_prop in T. destruct T as (T0 & T2). apply andb_prop in T0. destruct T0 as (_ & T1). apply Z.leb_le in T1. apply Z.ltb_lt in T2.
      destruct (entry_in (z_y s) (k + 1)) as (v & E); [lia|congruence]. }
    rewrite T. reflexivity.
  - assert (B1 : forall b, boost_assert Release b = Ok tt) by now intros []. rewrite B1. cbn [obind].
    now rewrite ia_get_out_release.
Qed.
Lemma stepped_first s x k y : seen (z_y s) k = Some y -> ia_first (z_y (stepped s x k)) = (k + 1)%Z.
Proof.
  rewrite seen_entry. intros Y. unfold stepped; cbn [z_y].
  assert (I : (ia_k (z_y s) <= k < ia_k (z_y s) + ia_size (z_y s))%Z).
  { destruct (Z_lt_le_dec k (ia_k (z_y s))); [rewrite entry_out in Y; [discriminate|lia]|].
    destruct (Z_lt_le_dec k (ia_k (z_y s) + ia_size (z_y s))); [lia|rewrite entry_out in Y; [discriminate|lia]]. }
  destruct (pop_below_spec (k + 1) (ia_v (z_y s)) (ia_k (z_y s))) as (d & H1 & H2 & H3 & H4 & H5).
  rewrite H2. unfold ia_first; cbn [ia_k]. specialize (H5 ltac:(lia)).
  destruct (skipn d (ia_v (z_y s))) eqn:E; [|specialize (H3 ltac:(discriminate)); lia].
  assert (length (skipn d (ia_v (z_y s))) = 0%nat) by now rewrite E. rewrite skipn_length in H. unfold ia_size in I. lia.
Qed.
Lemma stepped_seen s x k t : (k < t)%Z -> seen (z_y (stepped s x k)) t = seen (z_y s) t.
Proof.
  intros L. rewrite !seen_entry. unfold stepped; cbn [z_y].
  destruct (pop_below_spec (k + 1) (ia_v (z_y s)) (ia_k (z_y s))) as (d & H1 & H2 & H3 & H4 & H5). rewrite H2.
  change (mkIarr (ia_k (z_y s) + Z.of_nat d) (skipn d (ia_v (z_y s)))) with (ia_drop d (z_y s)).
  rewrite ia_drop_entry by exact H1. destruct (Z.leb_spec (ia_k (z_y s) + Z.of_nat d) t); [reflexivity|].
  destruct (Z_lt_le_dec t (ia_k (z_y s))) as [B|B]; [symmetry; apply entry_out; lia|].
  destruct (Z_lt_le_dec (k + 1) (ia_k (z_y s))) as [B2|B2]; [rewrite H4 in H by lia; lia|].
  specialize (H5 ltac:(lia)). lia.
Qed.
(** One iteration towards K from k: the measurement at k+1 is used; the one at k+2 is lost if K > k+2. *)
Lemma iter_ok md s x k K y x' : ready s x k -> seen (z_y s) (k + 1) = Some y -> t_update (z_e s) y x = Ok x' ->
  (K <= k + 2)%Z -> z_iter t_oneStep md K s = Ok (stepped s x' (k + 1)).
Proof.
  intros Rd Y U L. unfold z_iter. rewrite (oneStep_ok md s x k y x' Rd Y U). cbn [obind].
  rewrite (stepped_first s x' (k + 1) y Y). destruct (Z.ltb_spec (k + 1 + 1) K); [lia|]. cbn [obind].
  destruct Rd as (_ & _ & C & _). cbn [z_p stepped]. now rewrite C.
Qed.
Lemma iter_lost md s x k K y x' z : ready s x k -> seen (z_y s) (k + 1) = Some y -> t_update (z_e s) y x = Ok x' ->
  seen (z_y s) (k + 2) = Some z -> (k + 2 < K)%Z -> exists s', z_iter t_oneStep md K s = Ok s' /\ ready s' x' (k + 1) /\
  seen (z_y s') (k + 2) = None /\ z_e s' = z_e s.
Proof.
  intros Rd Y U Y2 L. unfold z_iter. rewrite (oneStep_ok md s x k y x' Rd Y U). cbn [obind].
  pose proof (stepped_first s x' (k + 1) y Y) as F. rewrite F. destruct (Z.ltb_spec (k + 1 + 1) K); [|lia].
  set (s1 := stepped s x' (k + 1)) in *.
  assert (Y2' : seen (z_y s1) (k + 2) = Some z) by (unfold s1; rewrite stepped_seen by lia; exact Y2).
  assert (P : (0 < ia_size (z_y s1))%Z).
  { rewrite seen_entry in Y2'. destruct (Z_lt_le_dec 0 (ia_size (z_y s1))); [assumption|]. rewrite entry_out in Y2'; [discriminate|lia]. }
  rewrite ia_popFront_drop by exact P. cbn [obind].
  destruct Rd as (A & B & C & D). cbn [z_p with_y stepped s1]. rewrite C. cbn [Z.ltb Z.compare].
  eexists. split; [reflexivity|]. split; [now repeat split|]. split; [|reflexivity].
  cbn [z_y with_y]. rewrite seen_entry. apply entry_out. unfold ia_first in F. cbn [ia_drop ia_k]. fold s1. lia.
Qed.
Lemma get_iter md K s x k : ready s x k -> (k <= K)%Z ->
  t_get md K s = do s' <- oiter (Z.to_nat (K - k)) (z_iter t_oneStep md K) s; do x <- im_get md (z_x s'); Ok (s', x).
Proof.
  intros (_ & _ & _ & D) L. unfold t_get, z_getEstimatedState, z_time. rewrite D. cbn [im_time im_put im_set im_k boost_assert obind].
  destruct (Z.leb_spec k K); [|lia]. reflexivity.
Qed.

(** ** Motions *)
Lemma vderiv_unique f t a b : vderiv f t a -> vderiv f t b -> a = b.
Proof.
  intros (A1 & A2 & A3) (B1 & B2 & B3). destruct a, b; cbn in *.
  f_equal; eapply uniqueness_limite; eauto.
Qed.
Lemma mderiv_unique f t a b : mderiv f t a -> mderiv f t b -> a = b.
Proof.
  intros ((A1 & A2 & A3) & (A4 & A5 & A6) & (A7 & A8 & A9)) ((B1 & B2 & B3) & (B4 & B5 & B6) & (B7 & B8 & B9)). destruct a, b; cbn in *.
  f_equal; eapply uniqueness_limite; eauto.
Qed.
Lemma vderiv_ext f g t d : vderiv f t d -> (forall s, f s = g s) -> vderiv g t d.
Proof.
  intros (A & B & C) E. split; [|split]; (eapply dl_ext; [eassumption|intros s; cbv beta; now rewrite E]).
Qed.
Lemma skew_inj v w : skew v = skew w -> v = w.
Proof. destruct v, w. unfold skew; cbn. injection 1 as H1 H2 H3 H4 H5 H6. f_equal; lra. Qed.
(** Position and rotation curves determine the velocities and the accelerations. *)
Lemma motion_unique a b : is_motion a -> is_motion b -> (forall t, mp a t = mp b t) -> (forall t, mr a t = mr b t) ->
  forall t, mv a t = mv b t /\ mw a t = mw b t /\ ma a t = ma b t /\ mal a t = mal b t.
Proof.
  intros Ma Mb P Q.
  assert (V : forall t, mv a t = mv b t).
  { intros t. destruct (Ma t) as (_ & A & _), (Mb t) as (_ & B & _). eapply vderiv_unique; [eapply vderiv_ext; [exact A|exact P]|exact B]. }
  assert (W : forall t, mw a t = mw b t).
  { intros t. destruct (Ma t) as (S & _ & _ & A & _), (Mb t) as (_ & _ & _ & B & _). apply skew_inj.
    pose proof (mderiv_unique _ _ _ _ (mderiv_ext _ _ _ _ A Q) B) as E. rewrite <- Q in E.
    apply (f_equal (fun m => mmul m (mtr (mr a t)))) in E. rewrite <- !mmul_assoc in E. destruct S as (S & _). rewrite S, !mmul_1_r in E. exact E. }
  intros t. split; [apply V|split; [apply W|]]. split.
  - destruct (Ma t) as (_ & _ & A & _), (Mb t) as (_ & _ & B & _). eapply vderiv_unique; [eapply vderiv_ext; [exact A|exact V]|exact B].
  - destruct (Ma t) as (_ & _ & _ & _ & A), (Mb t) as (_ & _ & _ & _ & B). eapply vderiv_unique; [eapply vderiv_ext; [exact A|exact W]|exact B].
Qed.
