(** Consequences of the refinement of the flexibility estimators: NaN, saturation, cycles. *)
From Coq Require Import Reals ZArith List Lia Lra Bool.
From Verif Require Import Base Defs ZDO Vec3 Rot RotProofs2 RotProofs3 Sensors FlexEst SpecFlexEst FlexEstProofs.
Import ListNotations.
Open Scope Z_scope.

Local Arguments saturate : simpl never.
Local Arguments regulate_at : simpl never.

Lemma Ok_inj {A} (a b : A) : Ok a = Ok b -> a = b.
Proof. congruence. Qed.
Lemma ls_len {A} i (v : A) l : length (list_set i v l) = length l.
Proof. revert i. induction l as [|x l IH]; intros [|i]; cbn; auto. Qed.
Lemma ls_ent i v l j : ent (list_set i v l) j = if (Nat.eqb j i && Nat.ltb i (length l))%bool then v else ent l j.
Proof.
  unfold ent. revert i j. induction l as [|x l IH]; intros i j.
  - replace (Nat.ltb i (length (@nil fl))) with false by (destruct i; reflexivity). rewrite andb_false_r.
    destruct i; reflexivity.
  - destruct i as [|i]; destruct j as [|j]; cbn [list_set nth Nat.eqb andb]; auto. rewrite IH. reflexivity.
Qed.
Lemma ls_forall {A} (P : A -> Prop) i v l : Forall P l -> ((i < length l)%nat -> P v) -> Forall P (list_set i v l).
Proof.
  intros F. revert i. induction F as [|x l Px F IH]; intros [|i] H; cbn; constructor; auto.
  - apply H. cbn. lia.
  - apply IH. intros L. apply H. cbn. lia.
Qed.
Lemma ent_forall (P : fl -> Prop) l i : Forall P l -> (i < length l)%nat -> P (ent l i).
Proof. intros F L. unfold ent. rewrite Forall_forall in F. apply F. now apply nth_In. Qed.
Lemma ent_out l i : (length l <= i)%nat -> ent l i = Nan.
Proof. intros L. unfold ent. now apply nth_overflow. Qed.

Definition num (f : fl) : Prop := f <> Nan.
Lemma has_nan_num x : has_nan x = false <-> Forall num x.
Proof.
  unfold has_nan. induction x as [|f x IH]; cbn; [split; auto|]. split.
  - intros H. apply orb_false_iff in H. destruct H as [H1 H2]. constructor; [|now apply IH].
    unfold num. intros ->. discriminate.
  - intros H. inversion_clear H as [|? ? H1 H2]. apply orb_false_iff. split; [|now apply IH].
    destruct f; auto. now elim H1.
Qed.

(** ** Regulation of the orientation *)
Lemma regulate_at_len x l : regulate_at x = Ok l -> length l = length x.
Proof.
  unfold regulate_at. intros H. apply obind_Ok_inv in H. destruct H as (r & _ & H). apply Ok_inj in H. subst l.
  now rewrite !ls_len.
Qed.
Lemma f_regulate_cases a b c r : f_regulate a b c = Ok r ->
  (exists x y z v, a = Fin x /\ b = Fin y /\ c = Fin z /\ v = regulate (mkV x y z) /\
     r = [Fin (vx v); Fin (vy v); Fin (vz v)]) \/ ((a = Nan \/ b = Nan \/ c = Nan) /\ r = [a; b; c]).
Proof.
  unfold f_regulate. destruct a as [x| |]; destruct b as [y| |]; destruct c as [z| |]; cbn; intros H;
    try discriminate; try (injection H as <-; right; split; [auto|reflexivity]).
  left. exists x, y, z, (regulate (mkV x y z)). repeat split.
  destruct (Rlt_dec _ _) as [L|L].
  - destruct (Zceil _ <? 4294967296); [|discriminate]. now injection H as <-.
  - injection H as <-. unfold regulate. destruct (Rlt_dec _ _) as [L'|L']; [now elim L|reflexivity].
Qed.
Lemma regulate_at_num x l : regulate_at x = Ok l -> Forall num x -> Forall num l.
Proof.
  unfold regulate_at. intros H F. apply obind_Ok_inv in H. destruct H as (r & Hr & H). apply Ok_inj in H. subst l.
  apply f_regulate_cases in Hr. destruct Hr as [(a & b & c & v & E1 & E2 & E3 & -> & ->)|[_ ->]].
  - repeat apply ls_forall; auto; intros _ K; discriminate K.
  - assert (forall i, (i < length x)%nat -> num (ent x i)) by (intros i L; now apply ent_forall).
    repeat apply ls_forall; auto; rewrite ?ls_len; intros L; exact (H _ L).
Qed.
Lemma regulate_at_other x l i : regulate_at x = Ok l -> (i < 3 \/ 5 < i)%nat -> ent l i = ent x i.
Proof.
  unfold regulate_at. intros H L. apply obind_Ok_inv in H. destruct H as (r & _ & H). apply Ok_inj in H. subst l.
  rewrite !ls_ent. destruct i as [|[|[|[|[|[|i]]]]]]; cbn; auto; lia.
Qed.
Lemma regulate_norm v : (vnorm (regulate v) <= 3 / 2 * PI)%R.
Proof.
  destruct (Rle_dec (vnorm v) (3 / 2 * PI)) as [L|L]; [now rewrite regulate_unchanged|].
  apply Rnot_le_lt in L. pose proof (regulate_bound v L). pose proof PI_RGT_0. lra.
Qed.
Definition ori_ok (l : list fl) : Prop :=
  exists v, ent l 3 = Fin (vx v) /\ ent l 4 = Fin (vy v) /\ ent l 5 = Fin (vz v) /\ (vnorm v <= 3 / 2 * PI)%R.
Lemma regulate_at_ori x l : regulate_at x = Ok l -> Forall num x -> (5 < length x)%nat -> ori_ok l.
Proof.
  unfold regulate_at. intros H F L. apply obind_Ok_inv in H. destruct H as (r & Hr & H). apply Ok_inj in H. subst l.
  apply f_regulate_cases in Hr. destruct Hr as [(a & b & c & v & E1 & E2 & E3 & -> & ->)|[H ->]].
  - exists (regulate (mkV a b c)). rewrite !ls_ent, !ls_len. cbn.
    destruct (length x) as [|[|[|[|[|[|n]]]]]] eqn:EL; try lia. cbn. repeat split. apply regulate_norm.
  - exfalso. destruct H as [H|[H|H]]; revert H; apply (ent_forall num); auto; lia.
Qed.

(** ** Saturation *)
Definition clamp (L : R) (f : fl) : fl := f_max (f_min f L) (- L).
Lemma sat1_ent i lf lt x j : (i < 3)%nat -> (18 + i < length x)%nat ->
  ent (sat1 i lf lt x) j =
  if Nat.eqb j (12 + i) then clamp lf (ent x (12 + i))
  else if Nat.eqb j (18 + i) then clamp lt (ent x (18 + i)) else ent x j.
Proof.
  intros Hi L. unfold sat1. cbn zeta. rewrite !ls_ent, !ls_len.
  assert (Lt1 : Nat.ltb (12 + i) (length x) = true) by (apply Nat.ltb_lt; lia).
  assert (Lt2 : Nat.ltb (18 + i) (length x) = true) by (apply Nat.ltb_lt; lia).
  assert (N1 : Nat.eqb (12 + i) (18 + i) = false) by (apply Nat.eqb_neq; lia).
  assert (N2 : Nat.eqb (18 + i) (12 + i) = false) by (apply Nat.eqb_neq; lia).
  rewrite !Lt1, !Lt2, N1, N2, !Nat.eqb_refl. cbn [andb]. rewrite !andb_true_r.
  destruct (Nat.eqb j (12 + i)) eqn:E1; [reflexivity|].
  destruct (Nat.eqb j (18 + i)) eqn:E2; reflexivity.
Qed.
Lemma sat1_len i lf lt x : length (sat1 i lf lt x) = length x.
Proof. unfold sat1. cbn zeta. now rewrite !ls_len. Qed.
Lemma saturate_len lf lt x : length (saturate lf lt x) = length x.
Proof. unfold saturate. now rewrite !sat1_len. Qed.
Lemma saturate_ent lf lt x j : (20 < length x)%nat ->
  ent (saturate lf lt x) j =
  if Nat.eqb j 12 then clamp (vx lf) (ent x 12) else if Nat.eqb j 13 then clamp (vy lf) (ent x 13)
  else if Nat.eqb j 14 then clamp (vz lf) (ent x 14) else if Nat.eqb j 18 then clamp (vx lt) (ent x 18)
  else if Nat.eqb j 19 then clamp (vy lt) (ent x 19) else if Nat.eqb j 20 then clamp (vz lt) (ent x 20)
  else ent x j.
Proof.
  intros L. unfold saturate. rewrite !sat1_ent by (rewrite ?sat1_len; lia).
  do 21 (destruct j as [|j]; [reflexivity|]). reflexivity.
Qed.
Lemma f_min_num a l : num a -> num (f_min a l).
Proof. unfold num, f_min. destruct a as [r|[]|]; auto; try discriminate. destruct (Rlt_dec l r); discriminate. Qed.
Lemma f_max_num a l : num a -> num (f_max a l).
Proof. unfold num, f_max. destruct a as [r|[]|]; auto; try discriminate. destruct (Rlt_dec r l); discriminate. Qed.
Lemma put_num i f x : (forall a, num a -> num (f a)) -> Forall num x -> Forall num (list_set i (f (ent x i)) x).
Proof. intros H F. apply ls_forall; [exact F|]. intros L. apply H. now apply ent_forall. Qed.
Lemma sat1_num i lf lt x : Forall num x -> Forall num (sat1 i lf lt x).
Proof.
  intros F. unfold sat1. cbn zeta.
  apply (put_num _ (fun f => f_max f (- lf))); [intros; now apply f_max_num|].
  apply (put_num _ (fun f => f_max f (- lt))); [intros; now apply f_max_num|].
  apply (put_num _ (fun f => f_min f lf)); [intros; now apply f_min_num|].
  apply (put_num _ (fun f => f_min f lt)); [intros; now apply f_min_num|exact F].
Qed.
Lemma saturate_num lf lt x : Forall num x -> Forall num (saturate lf lt x).
Proof. intros F. unfold saturate. now repeat apply sat1_num. Qed.
(** A component within a limit. *)
Definition within (L : R) (f : fl) : Prop := exists r, f = Fin r /\ (- L <= r <= L)%R.
Lemma clamp_within L f : (0 <= L)%R -> num f -> within L (clamp L f).
Proof.
  intros HL N. unfold clamp, f_min, f_max, within. destruct f as [r|[]|].
  - destruct (Rlt_dec L r).
    + destruct (Rlt_dec L (- L)); eexists; split; try reflexivity; lra.
    + destruct (Rlt_dec r (- L)); eexists; split; try reflexivity; lra.
  - eexists; split; try reflexivity; lra.
  - destruct (Rlt_dec L (- L)); eexists; split; try reflexivity; lra.
  - now elim N.
Qed.
Lemma clamp_same L r : (- L <= r <= L)%R -> clamp L (Fin r) = Fin r.
Proof.
  intros H. unfold clamp, f_min, f_max. destruct (Rlt_dec L r); [lra|]. destruct (Rlt_dec r (- L)); [lra|reflexivity].
Qed.

(** ** Invariants of the automaton *)
Section Inv.
Context {Y U E : Type}.
Notation X := (list fl).
Variable sy : Y -> Z.
Variable su : U -> Z.
Variable st : @stepfun X Y U E.
Variable jac : mode -> E -> Z -> X -> outcome Y -> outcome U -> outcome U -> outcome E.
Variable creset preset setQ : E -> E.
Variable esize : Z -> Z -> E -> E.

Lemma a_guess_inv md v (a a' : aut Y U E) : a_guess setQ md v a = Ok a' ->
  a_n a' = a_n a /\ a_m a' = a_m a /\ a_p a' = a_p a /\ a_t a' = a_t a /\
  a_last a' = a_last a /\ a_y a' = a_y a /\ a_u a' = a_u a /\
  a_on a' = a_on a /\ a_lim a' = a_lim a /\ a_lf a' = a_lf a /\ a_lt a' = a_lt a.
Proof.
  unfold a_guess. destruct (_ =? a_n a).
  - intros H. apply a_state_inv in H. subst a'. cbn. repeat split.
  - intros H. apply obind_Ok_inv in H. destruct H as (? & _ & H).
    apply obind_Ok_inv in H. destruct H as (? & _ & H).
    apply obind_Ok_inv in H. destruct H as (a1 & H1 & H). apply a_state_inv in H1. apply Ok_inj in H. subst a' a1.
    cbn. repeat split.
Qed.

(** The guesses of the bias are numbers. *)
Definition bias_num (o : fe_op Y U) : Prop := match o with FeBias v => Forall num v | _ => True end.

(** Preservation by the calls, for a property [P] of the last vector and a property [K] of
    the settings. *)
Section Gen.
Variable get : mode -> aut Y U E -> outcome (aut Y U E * X).
Variable K : aut Y U E -> Prop.
Variable P : X -> Prop.
Variable good : fe_op Y U -> Prop.
Hypothesis Kget : forall md a a' l, K a -> P (a_last a) -> get md a = Ok (a', l) -> K a' /\ P (a_last a') /\ P l.
Hypothesis Kbias : forall v l, good (FeBias v) -> P l -> (2 <= length v)%nat ->
  P (list_set 31 (ent v 1) (list_set 30 (ent v 0) l)).
Hypothesis Kother : forall md o a a' ls, good o -> K a -> a_step sy su setQ esize get md o a = Ok (a', ls) ->
  o <> FeGet -> K a'.

Lemma gen_step md o a a' ls : good o -> K a -> P (a_last a) ->
  a_step sy su setQ esize get md o a = Ok (a', ls) -> K a' /\ P (a_last a') /\ Forall P ls.
Proof using Kget Kbias Kother.
  intros G HK HP H. destruct o.
  4: { cbn [a_step] in H. apply obind_Ok_inv in H. destruct H as ([a1 l] & H1 & H). apply Ok_inj in H.
       injection H as <- <-. destruct (Kget md a a1 l HK HP H1) as (A & B & C). cbn. repeat split; auto. }
  all: (split; [apply (Kother md _ a a' ls G HK H); discriminate|]).
  all: cbn [a_step] in H.
  1, 2, 3: apply obind_Ok_inv in H; destruct H as (? & _ & H); apply Ok_inj in H; injection H as <- <-; cbn; auto.
  - destruct g; [|destruct md; discriminate]. apply obind_Ok_inv in H. destruct H as (a1 & H1 & H). apply Ok_inj in H.
    injection H as <- <-. apply a_guess_inv in H1. destruct H1 as (_ & _ & _ & _ & -> & _). auto.
  - apply obind_Ok_inv in H. destruct H as (? & Hv & H). apply obind_Ok_inv in H. destruct H as (a1 & H1 & H).
    apply Ok_inj in H. injection H as <- <-. apply a_guess_inv in H1. destruct H1 as (_ & _ & _ & _ & -> & _).
    split; [|auto]. unfold a_answer. cbn [a_last]. apply Kbias; auto.
    destruct (2 <=? Z.of_nat (length v)) eqn:E2; [apply Z.leb_le in E2; lia|]. destruct md; discriminate.
  - apply Ok_inj in H. injection H as <- <-. cbn. auto.
  - apply Ok_inj in H. injection H as <- <-. cbn. auto.
  - apply Ok_inj in H. injection H as <- <-. cbn. auto.
  - apply Ok_inj in H. injection H as <- <-. cbn. auto.
  - apply Ok_inj in H. injection H as <- <-. cbn. auto.
Qed.
Lemma gen_run md ops : Forall good ops -> forall a a' ls, K a -> P (a_last a) ->
  a_run sy su setQ esize get md ops a = Ok (a', ls) -> K a' /\ P (a_last a') /\ Forall P ls.
Proof using Kget Kbias Kother.
  intros F. induction F as [|o ops G F IH]; intros a a' ls HK HP H; cbn [a_run] in H.
  - apply Ok_inj in H. injection H as <- <-. auto.
  - apply obind_Ok_inv in H. destruct H as ([a1 l1] & H1 & H). cbn [fst snd] in H.
    apply obind_Ok_inv in H. destruct H as ([a2 l2] & H2 & H). apply Ok_inj in H. injection H as <- <-. cbn [fst snd] in *.
    destruct (gen_step md o a a1 l1 G HK HP H1) as (A & B & C).
    destruct (IH a1 a2 l2 A B H2) as (A' & B' & C'). repeat split; auto. now apply Forall_app.
Qed.
End Gen.

Lemma a_get_cases md a a' l : a_get st jac creset preset md a = Ok (a', l) ->
  a_n a' = a_n a /\ a_lim a' = a_lim a /\ a_lf a' = a_lf a /\ a_lt a' = a_lt a /\ a_last a' = l /\
  (l = a_last a \/ (l = map (fun _ => Fin 0) (a_last a)) \/
   exists e x x1 e', has_nan x = false /\ regulate_at x = Ok x1 /\
     l = (if a_lim a then saturate (a_lf a) (a_lt a) x1 else x1) /\
     exists y u0 u1, st md e (a_t a) (a_x a) y u0 u1 = Ok (x, e')).
Proof.
  unfold a_get. destruct (a_on a) eqn:Eon.
  - destruct (a_y a) as [y|]; [|intros H; apply Ok_inj in H; injection H as <- <-; repeat split; auto].
    intros H. apply obind_Ok_inv in H. destruct H as ([a1 x] & HF & H). cbn [fst snd] in H.
    pose proof (a_filter_inv st jac md y a a1 x HF) as (E1 & E2 & E3 & E4 & E5 & E6 & E7 & E8 & E9 & E10 & E11).
    destruct (has_nan x) eqn:EN.
    + apply obind_Ok_inv in H. destruct H as (a2 & HS & H). apply Ok_inj in H. injection H as <- <-.
      apply a_state_inv in HS. subst a2. cbn. destruct (1 <? a_t a1); cbn; repeat split; auto.
    + apply obind_Ok_inv in H. destruct H as (x1 & HR & H).
      apply obind_Ok_inv in H. destruct H as (a2 & HS & H). apply Ok_inj in H. injection H as <- <-.
      apply a_state_inv in HS. subst a2. cbn. repeat split; auto. right. right.
      unfold a_filter in HF. apply obind_Ok_inv in HF. destruct HF as (e & _ & HF).
      apply obind_Ok_inv in HF. destruct HF as ([x' e'] & Hst & HF). apply obind_Ok_inv in HF. destruct HF as (? & _ & HF).
      apply Ok_inj in HF. injection HF as _ <-. exists e, x', x1, e'. repeat split; auto. eauto.
  - intros H. apply obind_Ok_inv in H. destruct H as (a1 & HS & H). apply Ok_inj in H. injection H as <- <-.
    apply a_state_inv in HS. subst a1. destruct (a_y a); cbn; repeat split; auto.
Qed.
Lemma a_fget_cases md a a' l : a_fget st jac creset md a = Ok (a', l) ->
  a_n a' = a_n a /\ a_last a' = l /\
  (l = a_last a \/ regulate_at (a_last a) = Ok l \/
   exists e x e', has_nan x = false /\ regulate_at x = Ok l /\
     exists y u0 u1, st md e (a_t a) (a_x a) y u0 u1 = Ok (x, e')).
Proof.
  unfold a_fget.
  destruct (a_y a) as [y|]; [|intros H; apply Ok_inj in H; injection H as <- <-; repeat split; auto].
  intros H. apply obind_Ok_inv in H. destruct H as ([a1 x] & HF & H). cbn [fst snd] in H.
  pose proof (a_filter_inv st jac md y a a1 x HF) as (E1 & E2 & E3 & E4 & E5 & E6 & E7 & E8 & E9 & E10 & E11).
  destruct (has_nan x) eqn:EN.
  - apply obind_Ok_inv in H. destruct H as (a2 & HS & H). apply obind_Ok_inv in H. destruct H as (l' & HR & H).
    apply obind_Ok_inv in H. destruct H as (a3 & HS' & H). apply Ok_inj in H. injection H as <- <-.
    apply a_state_inv in HS. apply a_state_inv in HS'. subst a3 a2. cbn. destruct (1 <? a_t a1); cbn; repeat split; auto.
  - apply obind_Ok_inv in H. destruct H as (l' & HR & H).
    apply obind_Ok_inv in H. destruct H as (a2 & HS & H). apply Ok_inj in H. injection H as <- <-.
    apply a_state_inv in HS. subst a2. cbn. repeat split; auto. right. right.
    unfold a_filter in HF. apply obind_Ok_inv in HF. destruct HF as (e & _ & HF).
    apply obind_Ok_inv in HF. destruct HF as ([x' e'] & Hst & HF). apply obind_Ok_inv in HF. destruct HF as (? & _ & HF).
    apply Ok_inj in HF. injection HF as _ <-. exists e, x', e'. repeat split; auto. eauto.
Qed.

Lemma bias_keeps_num v l : Forall num v -> Forall num l -> (2 <= length v)%nat ->
  Forall num (list_set 31 (ent v 1) (list_set 30 (ent v 0) l)).
Proof. intros Hv Hl L. apply ls_forall; [apply ls_forall; auto|]; intros _; apply ent_forall; auto; lia. Qed.

Lemma run_num_mb md ops a a' ls : Forall bias_num ops -> Forall num (a_last a) ->
  a_run sy su setQ esize (a_get st jac creset preset) md ops a = Ok (a', ls) -> Forall (Forall num) ls.
Proof.
  intros F HP H.
  refine (proj2 (proj2 (gen_run (a_get st jac creset preset) (fun _ => True) (Forall num) bias_num _ _ _ md ops F a a' ls Logic.I HP H))).
  - intros md0 a0 a1 l _ HL HG. apply a_get_cases in HG. destruct HG as (_ & _ & _ & _ & -> & C).
    assert (Forall num l); [|auto]. destruct C as [->|[->|(e & x & x1 & e' & EN & HR & -> & _)]]; auto.
    + apply Forall_map. apply Forall_forall. intros; discriminate.
    + apply has_nan_num in EN. pose proof (regulate_at_num x x1 HR EN) as N1.
      destruct (a_lim a0); [now apply saturate_num|exact N1].
  - intros; now apply bias_keeps_num.
  - auto.
Qed.
Lemma run_num_fc md ops a a' ls : Forall bias_num ops -> Forall num (a_last a) ->
  a_run sy su setQ esize (a_fget st jac creset) md ops a = Ok (a', ls) -> Forall (Forall num) ls.
Proof.
  intros F HP H.
  refine (proj2 (proj2 (gen_run (a_fget st jac creset) (fun _ => True) (Forall num) bias_num _ _ _ md ops F a a' ls Logic.I HP H))).
  - intros md0 a0 a1 l _ HL HG. apply a_fget_cases in HG. destruct HG as (_ & -> & C).
    assert (Forall num l); [|auto]. destruct C as [->|[HR|(e & x & e' & EN & HR & _)]]; auto.
    + now apply regulate_at_num in HR.
    + apply has_nan_num in EN. now apply regulate_at_num in HR.
  - intros; now apply bias_keeps_num.
  - auto.
Qed.

(** The limits are not changed. *)
Definition limits_kept (o : fe_op Y U) : Prop :=
  match o with FeLimitOn _ | FeForces _ | FeTorques _ => False | _ => True end.
Definition bounded (lf lt : V3) (l : X) : Prop :=
  length l = 35%nat /\
  within (vx lf) (ent l 12) /\ within (vy lf) (ent l 13) /\ within (vz lf) (ent l 14) /\
  within (vx lt) (ent l 18) /\ within (vy lt) (ent l 19) /\ within (vz lt) (ent l 20) /\ ori_ok l.

Lemma step_settings get md o a a' ls : limits_kept o ->
  a_step sy su setQ esize get md o a = Ok (a', ls) -> o <> FeGet ->
  a_lim a' = a_lim a /\ a_lf a' = a_lf a /\ a_lt a' = a_lt a.
Proof.
  intros Hl H N. destruct o; cbn [a_step] in H; try contradiction.
  1, 2, 3: apply obind_Ok_inv in H; destruct H as (? & _ & H); apply Ok_inj in H; injection H as <- <-; cbn; auto.
  - destruct g; [|destruct md; discriminate]. apply obind_Ok_inv in H. destruct H as (a1 & H1 & H). apply Ok_inj in H.
    injection H as <- <-. apply a_guess_inv in H1. tauto.
  - apply obind_Ok_inv in H. destruct H as (? & Hv & H). apply obind_Ok_inv in H. destruct H as (a1 & H1 & H).
    apply Ok_inj in H. injection H as <- <-. apply a_guess_inv in H1. cbn in H1. tauto.
  - apply Ok_inj in H. injection H as <- <-. cbn. auto.
  - apply Ok_inj in H. injection H as <- <-. cbn. auto.
Qed.

Lemma run_bounded md ops a a' ls lf lt :
  (forall md e k x y u0 u1 x' e', st md e k x y u0 u1 = Ok (x', e') -> length x' = 35%nat) ->
  (0 <= vx lf /\ 0 <= vy lf /\ 0 <= vz lf /\ 0 <= vx lt /\ 0 <= vy lt /\ 0 <= vz lt)%R ->
  Forall limits_kept ops -> a_lim a = true -> a_lf a = lf -> a_lt a = lt -> bounded lf lt (a_last a) ->
  a_run sy su setQ esize (a_get st jac creset preset) md ops a = Ok (a', ls) -> Forall (bounded lf lt) ls.
Proof.
  intros Hs (P1 & P2 & P3 & P4 & P5 & P6) F L1 L2 L3 HP H.
  refine (proj2 (proj2 (gen_run (a_get st jac creset preset) (fun a => a_lim a = true /\ a_lf a = lf /\ a_lt a = lt)
    (bounded lf lt) limits_kept _ _ _ md ops F a a' ls (conj L1 (conj L2 L3)) HP H))).
  - intros md0 a0 a1 l (K1 & K2 & K3) HL HG. apply a_get_cases in HG. destruct HG as (_ & G1 & G2 & G3 & -> & C).
    split; [repeat split; congruence|]. assert (bounded lf lt l); [|auto].
    destruct C as [->|[->|(e & x & x1 & e' & EN & HR & -> & y & u0 & u1 & Hst)]]; auto.
    + destruct HL as (HL & _). assert (Z0 : forall i, (i < 35)%nat -> ent (map (fun _ => Fin 0) (a_last a0)) i = Fin 0).
      { intros i Li. unfold ent. rewrite (nth_indep _ Nan (Fin 0)) by (rewrite map_length; lia).
        change (Fin 0) with ((fun _ : fl => Fin 0) Nan) at 2. now rewrite map_nth. }
      unfold bounded. rewrite map_length, !Z0 by lia. split; [exact HL|].
      assert (W : forall L, (0 <= L)%R -> within L (Fin 0)) by (intros L HL0; exists 0%R; split; [reflexivity|lra]).
      repeat split; auto. exists (mkV 0 0 0). rewrite !Z0 by lia. repeat split.
      replace (vnorm (mkV 0 0 0)) with 0%R by (unfold vnorm; replace (vsq (mkV 0 0 0)) with 0%R by (unfold vsq, vdot; cbn; ring); symmetry; apply sqrt_0).
      pose proof PI_RGT_0. lra.
    + rewrite K1, K2, K3. pose proof (Hs _ _ _ _ _ _ _ _ _ Hst) as Lx. apply has_nan_num in EN.
      pose proof (regulate_at_num x x1 HR EN) as N1. pose proof (regulate_at_len x x1 HR) as Lx1. rewrite Lx in Lx1.
      pose proof (regulate_at_ori x x1 HR EN ltac:(lia)) as O.
      assert (NE : forall i, (i < 35)%nat -> num (ent x1 i)) by (intros i Hi; apply ent_forall; auto; lia).
      unfold bounded. rewrite saturate_len. split; [exact Lx1|].
      rewrite !saturate_ent by lia. cbn [Nat.eqb].
      repeat split; try (apply clamp_within; [assumption|apply NE; lia]).
      destruct O as (v & O1 & O2 & O3 & O4). exists v. rewrite !saturate_ent by lia. cbn [Nat.eqb]. auto.
  - intros v l _ (B0 & B1 & B2 & B3 & B4 & B5 & B6 & v0 & O) Lv. unfold bounded, ori_ok.
    rewrite !ls_len, !ls_ent. cbn [Nat.eqb andb]. repeat split; auto. exists v0. exact O.
  - intros md0 o a0 a1 ls0 G (K1 & K2 & K3) HG N.
    destruct (step_settings _ md0 o a0 a1 ls0 G HG N) as (-> & -> & ->). auto.
Qed.

(** ** Cycles: input, input of the measurement, measurement, estimation *)
Definition cycle (d : U * U * Y) : list (fe_op Y U) :=
  [FeInput (fst (fst d)); FeMInput (snd (fst d)); FeMeas (snd d); FeGet].

(** A filter that never fails on data that are given. *)
Definition filter_total (n : Z) : Prop := forall md e k x y u v,
  exists e1, jac md e k x (Ok y) (Ok u) (Ok v) = Ok e1 /\
  exists x' e2, st md e1 k x (Ok y) (Ok u) (Ok v) = Ok (x', e2) /\ Z.of_nat (length x') = n /\
    (has_nan x' = true \/ exists l, regulate_at x' = Ok l).

Lemma bassert md b : b = true -> boost_assert md b = Ok tt.
Proof. now intros ->. Qed.

Lemma cycle_ok md d a : filter_total (a_n a) -> a_on a = true -> Z.of_nat (length (a_last a)) = a_n a ->
  su (fst (fst d)) = a_p a -> su (snd (fst d)) = a_p a -> sy (snd d) = a_m a ->
  exists a' l, a_run sy su setQ esize (a_get st jac creset preset) md (cycle d) a = Ok (a', [l]) /\
    a_on a' = true /\ Z.of_nat (length (a_last a')) = a_n a' /\ a_n a' = a_n a /\ a_m a' = a_m a /\
    a_p a' = a_p a /\ a_t a' = a_t a + 1.
Proof.
  intros FT Hon HL H1 H2 H3. destruct d as [[u v] y]. destruct a as [n m p e t x last yo uo on lim lf lt].
  cbn in FT, Hon, HL, H1, H2, H3. subst on.
  unfold cycle. cbn [fst snd a_run a_step a_p a_m]. unfold a_data.
  rewrite (bassert md (su u =? p)) by now apply Z.eqb_eq. unfold a_data; cbn [obind fst snd a_p a_m a_n a_e a_t a_x a_last a_y a_u a_on a_lim a_lf a_lt].
  rewrite (bassert md (su v =? p)) by now apply Z.eqb_eq. unfold a_data; cbn [obind fst snd a_p a_m a_n a_e a_t a_x a_last a_y a_u a_on a_lim a_lf a_lt].
  rewrite (bassert md (sy y =? m)) by now apply Z.eqb_eq. unfold a_data; cbn [obind fst snd a_p a_m a_n a_e a_t a_x a_last a_y a_u a_on a_lim a_lf a_lt].
  unfold a_get. cbn [a_on a_y]. unfold a_filter. cbn [option_map fst given a_u a_e a_t a_x a_n a_m a_p a_last a_on a_lim a_lf a_lt].
  destruct (FT md e t x y u v) as (e1 & -> & x' & e2 & HE & Lx & HR). cbn [obind]. rewrite HE. cbn [obind fst snd].
  destruct (has_nan x') eqn:EN.
  - unfold a_state. cbn [a_n].
    rewrite (bassert md (_ =? n)) by now apply Z.eqb_eq. cbn [obind fst snd a_t].
    eexists. eexists. split; [reflexivity|].
    destruct (1 <? t + 1); cbn; repeat split; auto.
  - destruct HR as [HR|[l HR]]; [congruence|]. rewrite HR. cbn [obind].
    set (l' := if lim then _ else _).
    assert (LL : Z.of_nat (length l') = n).
    { subst l'. apply regulate_at_len in HR. destruct lim; rewrite ?saturate_len, HR; auto. }
    unfold a_state. cbn [a_n].
    rewrite (bassert md (_ =? n)) by now apply Z.eqb_eq. cbn [obind fst snd a_t].
    eexists. eexists. split; [reflexivity|]. cbn. repeat split; auto.
Qed.

Lemma a_run_app get md ops1 ops2 a :
  a_run sy su setQ esize get md (ops1 ++ ops2) a =
  (do r <- a_run sy su setQ esize get md ops1 a;
   do r' <- a_run sy su setQ esize get md ops2 (fst r); Ok (fst r', snd r ++ snd r')).
Proof.
  revert a. induction ops1 as [|o ops1 IH]; intros a.
  - cbn [app a_run obind fst snd]. destruct (a_run sy su setQ esize get md ops2 a) as [[? ?]| | |]; reflexivity.
  - cbn [app a_run]. destruct (a_step sy su setQ esize get md o a) as [[a1 l1]| | |]; cbn [obind fst snd]; auto.
    rewrite IH. destruct (a_run sy su setQ esize get md ops1 a1) as [[a2 l2]| | |]; cbn [obind fst snd]; auto.
    destruct (a_run sy su setQ esize get md ops2 a2) as [[a3 l3]| | |]; cbn [obind fst snd]; auto. now rewrite app_assoc.
Qed.

Lemma cycles_ok md ds : forall a, filter_total (a_n a) -> a_on a = true -> Z.of_nat (length (a_last a)) = a_n a ->
  Forall (fun d => su (fst (fst d)) = a_p a /\ su (snd (fst d)) = a_p a /\ sy (snd d) = a_m a) ds ->
  exists a' ls, a_run sy su setQ esize (a_get st jac creset preset) md (flat_map cycle ds) a = Ok (a', ls) /\
    length ls = length ds /\ a_t a' = a_t a + Z.of_nat (length ds).
Proof.
  induction ds as [|d ds IH]; intros a FT Hon HL F.
  - exists a, []. cbn. repeat split. lia.
  - apply Forall_cons_iff in F. destruct F as [(D1 & D2 & D3) F].
    destruct (cycle_ok md d a FT Hon HL D1 D2 D3) as (a1 & l & E1 & O1 & L1 & N1 & M1 & P1 & T1).
    destruct (IH a1) as (a2 & ls & E2 & L2 & T2).
    + now rewrite N1.
    + exact O1.
    + exact L1.
    + rewrite P1, M1. exact F.
    + exists a2, (l :: ls). cbn [flat_map]. rewrite a_run_app, E1. cbn [obind fst snd]. rewrite E2. cbn [obind fst snd app length].
      repeat split; [lia|]. rewrite T2, T1. lia.
Qed.

(** ** One estimation, computed *)
Lemma get_one md n m p e t x last y u v (lim : bool) lf lt e1 x' e2 x1 :
  jac md e t x (Ok y) (Ok u) (Ok v) = Ok e1 -> st md e1 t x (Ok y) (Ok u) (Ok v) = Ok (x', e2) ->
  has_nan x' = false -> regulate_at x' = Ok x1 ->
  let l := if lim then saturate lf lt x1 else x1 in
  Z.of_nat (length l) = n ->
  a_get st jac creset preset md (mkA n m p e t x last (Some y) (Some (u, Some v)) true lim lf lt) =
  Ok (mkA n m p e2 (t + 1) l l None (Some (v, None)) true lim lf lt, l).
Proof.
  intros HJ HS HN HR l HL. unfold a_get. cbn [a_on a_y]. unfold a_filter.
  cbn [a_n a_e a_t a_x a_last a_y a_u a_on a_lim a_lf a_lt a_m a_p option_map given fst].
  rewrite HJ. cbn [obind]. rewrite HS. cbn [obind fst snd]. rewrite HN, HR. cbn [obind]. fold l.
  unfold a_state. cbn [a_n a_e a_t a_x a_last a_y a_u a_on a_lim a_lf a_lt a_m a_p].
  rewrite HL, Z.eqb_refl. destruct md; reflexivity.
Qed.

(** ** Guesses *)
Lemma step_size md o a a' ls : a_step sy su setQ esize (a_get st jac creset preset) md o a = Ok (a', ls) -> a_n a' = a_n a.
Proof.
  intros H. destruct o; cbn [a_step] in H.
  4: { apply obind_Ok_inv in H. destruct H as ([a1 l] & H1 & H). apply Ok_inj in H. injection H as <- <-. cbn.
       apply a_get_cases in H1. tauto. }
  1, 2, 3: apply obind_Ok_inv in H; destruct H as (? & _ & H); apply Ok_inj in H; injection H as <- <-; reflexivity.
  - destruct g; [|destruct md; discriminate]. apply obind_Ok_inv in H. destruct H as (a1 & H1 & H). apply Ok_inj in H.
    injection H as <- <-. apply a_guess_inv in H1. tauto.
  - apply obind_Ok_inv in H. destruct H as (? & Hv & H). apply obind_Ok_inv in H. destruct H as (a1 & H1 & H).
    apply Ok_inj in H. injection H as <- <-. apply a_guess_inv in H1. cbn in H1. tauto.
  - apply Ok_inj in H. injection H as <- <-. reflexivity.
  - apply Ok_inj in H. injection H as <- <-. reflexivity.
  - apply Ok_inj in H. injection H as <- <-. reflexivity.
  - apply Ok_inj in H. injection H as <- <-. reflexivity.
  - apply Ok_inj in H. injection H as <- <-. reflexivity.
Qed.
Lemma run_size md ops : forall a a' ls,
  a_run sy su setQ esize (a_get st jac creset preset) md ops a = Ok (a', ls) -> a_n a' = a_n a.
Proof.
  induction ops as [|o ops IH]; intros a a' ls H; cbn [a_run] in H.
  - apply Ok_inj in H. now injection H as <- <-.
  - apply obind_Ok_inv in H. destruct H as ([a1 l1] & H1 & H). cbn [fst snd] in H.
    apply obind_Ok_inv in H. destruct H as ([a2 l2] & H2 & H). apply Ok_inj in H. injection H as <- <-.
    cbn [fst]. rewrite (IH _ _ _ H2). now apply step_size in H1.
Qed.
Lemma guess_cycle md a g u v y a' ls : Z.of_nat (length g) = a_n a ->
  a_run sy su setQ esize (a_get st jac creset preset) md
    [FeOn true; FeGuess (GCol g); FeInput u; FeMInput v; FeMeas y; FeGet] a = Ok (a', ls) ->
  exists l e1 x' e2, ls = [l] /\ a_t a' = a_t a + 1 /\
    st md e1 (a_t a) g (Ok y) (Ok u) (Ok v) = Ok (x', e2) /\ a_x a' = l.
Proof.
  intros Lg H. destruct a as [n m p e t x last yo uo on lim lf lt]. cbn in Lg.
  cbn [a_run a_step] in H. cbn [obind fst snd] in H. unfold a_guess in H at 1. cbn [a_n] in H.
  replace (Z.of_nat (length g) =? n) with true in H by (symmetry; now apply Z.eqb_eq).
  unfold a_state at 1 in H. cbn [a_n a_e a_t a_x a_last a_y a_u a_on a_lim a_lf a_lt a_m a_p] in H.
  replace (Z.of_nat (length g) =? n) with true in H by (symmetry; now apply Z.eqb_eq).
  cbn [boost_assert obind fst snd a_p a_u a_y a_m] in H. unfold a_data in H.
  cbn [a_n a_e a_t a_x a_last a_y a_u a_on a_lim a_lf a_lt a_m a_p] in H.
  destruct (boost_assert md (su u =? p)) as [[]| | |]; cbn [obind fst snd] in H; try discriminate.
  cbn [a_n a_e a_t a_x a_last a_y a_u a_on a_lim a_lf a_lt a_m a_p] in H.
  destruct (boost_assert md (su v =? p)) as [[]| | |]; cbn [obind fst snd] in H; try discriminate.
  cbn [a_n a_e a_t a_x a_last a_y a_u a_on a_lim a_lf a_lt a_m a_p] in H.
  destruct (boost_assert md (sy y =? m)) as [[]| | |]; cbn [obind fst snd] in H; try discriminate.
  cbn [a_n a_e a_t a_x a_last a_y a_u a_on a_lim a_lf a_lt a_m a_p] in H.
  unfold a_get in H. cbn [a_on a_y] in H. unfold a_filter in H.
  cbn [a_n a_e a_t a_x a_last a_y a_u a_on a_lim a_lf a_lt a_m a_p option_map given fst] in H.
  destruct (jac md e t g (Ok y) (Ok u) (Ok v)) as [e1| | |]; cbn [obind] in H; try discriminate.
  destruct (st md e1 t g (Ok y) (Ok u) (Ok v)) as [[x' e2]| | |] eqn:ES; cbn [obind fst snd] in H; try discriminate.
  destruct (has_nan x').
  - unfold a_state in H. cbn [a_n] in H. destruct (boost_assert md (_ =? n)) as [[]| | |]; cbn [obind fst snd] in H; try discriminate.
    apply Ok_inj in H. injection H as <- <-. exists last, e1, x', e2. cbn [a_t].
    destruct (1 <? t + 1); cbn; auto.
  - destruct (regulate_at x') as [x1| | |]; cbn [obind] in H; try discriminate. set (l := if lim then _ else _) in H.
    unfold a_state in H. cbn [a_n] in H. destruct (boost_assert md (_ =? n)) as [[]| | |]; cbn [obind fst snd] in H; try discriminate.
    apply Ok_inj in H. injection H as <- <-. exists l, e1, x', e2. cbn. auto.
Qed.

(** ** Estimating again *)
Lemma get_idem md a a1 l : a_get st jac creset preset md a = Ok (a1, l) ->
  exists a2, a_get st jac creset preset md a1 = Ok (a2, l) /\ (a_on a = true -> a2 = a1) /\ a_t a2 = a_t a1.
Proof.
  unfold a_get at 1. destruct (a_on a) eqn:Eon.
  - destruct (a_y a) as [y|] eqn:Ey.
    + intros H. apply obind_Ok_inv in H. destruct H as ([a2 x] & HF & H). cbn [fst snd] in H.
      pose proof (a_filter_inv st jac md y a a2 x HF) as (E1 & E2 & E3 & E4 & E5 & E6 & E7 & E8 & E9 & E10 & E11).
      assert (G : a_on a1 = true /\ a_y a1 = None /\ a_last a1 = l).
      { destruct (has_nan x).
        - apply obind_Ok_inv in H. destruct H as (a3 & HS & H). apply Ok_inj in H. injection H as <- <-.
          apply a_state_inv in HS. subst a3. destruct (1 <? _); cbn; repeat split; congruence.
        - apply obind_Ok_inv in H. destruct H as (x1 & HR & H).
          apply obind_Ok_inv in H. destruct H as (a3 & HS & H). apply Ok_inj in H. injection H as <- <-.
          apply a_state_inv in HS. subst a3. cbn. repeat split; congruence. }
      destruct G as (G1 & G2 & G3). exists a1. unfold a_get. rewrite G1, G2, G3. auto.
    + intros H. apply Ok_inj in H. injection H as <- <-. exists a. unfold a_get. rewrite Eon, Ey. auto.
  - intros H. apply obind_Ok_inv in H. destruct H as (a2 & HS & H). apply Ok_inj in H. injection H as <- <-.
    pose proof HS as HB. unfold a_state in HB. apply obind_Ok_inv in HB. destruct HB as (uu & HB & _).
    apply a_state_inv in HS. set (l := map _ (a_last a)) in *.
    set (a1 := a_answer l _).
    assert (G : a_on a1 = false /\ a_n a1 = a_n a /\ a_last a1 = l /\ a_t a1 = a_t a).
    { subst a1 a2. destruct (a_y a); cbn; auto. }
    destruct G as (G1 & G2 & G3 & G4). unfold a_get. rewrite G1, G3.
    assert (EM : map (fun _ : fl => Fin 0) l = l) by (subst l; now rewrite map_map). rewrite EM.
    unfold a_state. rewrite G2, HB. cbn [obind]. eexists. split; [reflexivity|]. split; [discriminate|].
    destruct (a_y a1); reflexivity.
Qed.
End Inv.

(** ** Transfer to the estimators and helpers for the examples *)
Section Transfer.
Context {Y U E : Type}.
Notation X := (list fl).
Variable sy : Y -> Z.
Variable su : U -> Z.
Variable st : @stepfun X Y U E.
Variable jac : mode -> E -> Z -> X -> outcome Y -> outcome U -> outcome U -> outcome E.
Variable creset preset setQ : E -> E.
Variable esize : Z -> Z -> E -> E.
Notation mrun := (fe_run sy su setQ esize (mb_get st jac creset preset)).
Notation frun := (fe_run sy su setQ esize (fc_get st jac creset)).
Notation marun := (a_run sy su setQ esize (a_get st jac creset preset)).
Notation farun := (a_run sy su setQ esize (a_fget st jac creset)).

Lemma mrun_sim md ops q a : Forall op_ok ops -> srel q a -> orelS (mrun md ops q) (marun md ops a).
Proof. intros F S. apply run_sim; auto. intros. now apply mb_get_sim. Qed.
Lemma frun_sim md ops q a : Forall op_ok ops -> srel q a -> orelS (frun md ops q) (farun md ops a).
Proof. intros F S. apply run_sim; auto. intros. now apply fc_get_sim. Qed.

Lemma orelS_ok1 {A} (x : outcome (fest Y U E * A)) y q l : orelS x y -> x = Ok (q, l) ->
  exists a, y = Ok (a, l) /\ srel q a.
Proof. intros O ->. destruct y as [[a l']| | |]; cbn in O; try contradiction. destruct O as [O <-]. eauto. Qed.
Lemma orelS_ok2 {A} (x : outcome (fest Y U E * A)) y a l : orelS x y -> y = Ok (a, l) ->
  exists q, x = Ok (q, l) /\ srel q a.
Proof. intros O ->. destruct x as [[q l']| | |]; cbn in O; try contradiction. destruct O as [O ->]. eauto. Qed.
Lemma orelS_obs {A} (x : outcome (fest Y U E * A)) y : orelS x y ->
  omap (fun r => (snd r, e_k (fst r), e_last (fst r))) x = omap (fun r => (snd r, a_t (fst r), a_last (fst r))) y.
Proof.
  destruct x as [[q l]| | |], y as [[a l']| | |]; cbn; try contradiction; auto.
  intros [S ->]. now rewrite (sr_k _ _ S), (sr_last _ _ S).
Qed.

Lemma fe_run_app get md ops1 ops2 q :
  fe_run sy su setQ esize get md (ops1 ++ ops2) q =
  (do r <- fe_run sy su setQ esize get md ops1 q;
   do r' <- fe_run sy su setQ esize get md ops2 (fst r); Ok (fst r', snd r ++ snd r')).
Proof.
  revert q. induction ops1 as [|o ops1 IH]; intros a.
  - cbn [app fe_run obind fst snd]. destruct (fe_run sy su setQ esize get md ops2 a) as [[? ?]| | |]; reflexivity.
  - cbn [app fe_run]. destruct (fe_step sy su setQ esize get md o a) as [[a1 l1]| | |]; cbn [obind fst snd]; auto.
    rewrite IH. destruct (fe_run sy su setQ esize get md ops1 a1) as [[a2 l2]| | |]; cbn [obind fst snd]; auto.
    destruct (fe_run sy su setQ esize get md ops2 a2) as [[a3 l3]| | |]; cbn [obind fst snd]; auto. now rewrite app_assoc.
Qed.

(** The state of a filter between calls is reachable. *)
Lemma reach_srel md ops n m p e q ls : 0 < p -> Forall op_ok ops ->
  mrun md ops (fe_init n m p e) = Ok (q, ls) -> exists a, marun md ops (a_init n m p e) = Ok (a, ls) /\ srel q a.
Proof.
  intros P F H. exact (orelS_ok1 _ _ q ls (mrun_sim md ops _ _ F (init_sim n m p e P)) H).
Qed.

Lemma mrun_aut md ops n m p e a ls : 0 < p -> Forall op_ok ops ->
  a_run sy su setQ esize (a_get st jac creset preset) md ops (a_init n m p e) = Ok (a, ls) ->
  exists q, mrun md ops (fe_init n m p e) = Ok (q, ls) /\ srel q a.
Proof.
  intros P F H. exact (orelS_ok2 _ _ a ls (mrun_sim md ops _ _ F (init_sim n m p e P)) H).
Qed.

Lemma get_again md q a q1 l : srel q a -> mb_get st jac creset preset md q = Ok (q1, l) ->
  exists q2, mb_get st jac creset preset md q1 = Ok (q2, l) /\ e_k q2 = e_k q1.
Proof.
  intros S H. destruct (orelS_ok1 _ _ _ _ (mb_get_sim st jac creset preset md q a S) H) as (a1 & H1 & S1).
  destruct (get_idem st jac creset preset md a a1 l H1) as (a2 & H2 & _ & T).
  destruct (orelS_ok2 _ _ _ _ (mb_get_sim st jac creset preset md q1 a1 S1) H2) as (q2 & H3 & S3).
  exists q2. split; [exact H3|]. now rewrite (sr_k _ _ S3), (sr_k _ _ S1).
Qed.

Lemma nan_free_mb md ops n m p e q ls : 0 < p -> Forall op_ok ops -> Forall bias_num ops ->
  mrun md ops (fe_init n m p e) = Ok (q, ls) -> Forall (Forall num) ls.
Proof.
  intros P F B H. destruct (orelS_ok1 _ _ _ _ (mrun_sim md ops _ _ F (init_sim n m p e P)) H) as (a & H1 & _).
  refine (run_num_mb sy su st jac creset preset setQ esize md ops _ a ls B _ H1). cbn.
  apply Forall_forall. intros x Hx. apply repeat_spec in Hx. subst x. discriminate.
Qed.
Lemma nan_free_fc md ops n m p e q ls : 0 < p -> Forall op_ok ops -> Forall bias_num ops ->
  frun md ops (fe_init n m p e) = Ok (q, ls) -> Forall (Forall num) ls.
Proof.
  intros P F B H. destruct (orelS_ok1 _ _ _ _ (frun_sim md ops _ _ F (init_sim n m p e P)) H) as (a & H1 & _).
  refine (run_num_fc sy su st jac creset setQ esize md ops _ a ls B _ H1). cbn.
  apply Forall_forall. intros x Hx. apply repeat_spec in Hx. subst x. discriminate.
Qed.

Lemma bounded_mb md ops m p e q ls lf lt :
  (forall md e k x y u0 u1 x' e', st md e k x y u0 u1 = Ok (x', e') -> length x' = 35%nat) ->
  (0 <= vx lf /\ 0 <= vy lf /\ 0 <= vz lf /\ 0 <= vx lt /\ 0 <= vy lt /\ 0 <= vz lt)%R ->
  0 < p -> Forall op_ok ops -> Forall limits_kept ops ->
  mrun md (FeForces lf :: FeTorques lt :: ops) (fe_init 35 m p e) = Ok (q, ls) -> Forall (bounded lf lt) ls.
Proof.
  intros Hs HL P F B H.
  destruct (orelS_ok1 _ _ _ _ (mrun_sim md (FeForces lf :: FeTorques lt :: ops) _ _ ltac:(repeat constructor; exact F) (init_sim 35 m p e P)) H)
    as (a & H1 & _).
  change (FeForces lf :: FeTorques lt :: ops) with ([@FeForces Y U lf; FeTorques lt] ++ ops) in H1.
  rewrite a_run_app in H1. cbn [a_run a_step obind fst snd app] in H1.
  apply obind_Ok_inv in H1. destruct H1 as ([a2 l2] & H2 & H1). apply Ok_inj in H1. cbn [fst snd] in H1. injection H1 as -> ->.
  refine (run_bounded sy su st jac creset preset setQ esize md ops _ a ls lf lt Hs HL B _ _ _ _ H2); try reflexivity.
  cbn [a_last a_init]. change (Z.to_nat 35) with 35%nat.
  assert (Z0 : forall i, (i < 35)%nat -> ent (repeat (Fin 0) 35) i = Fin 0).
  { intros i Li. unfold ent. rewrite (nth_indep _ Nan (Fin 0)) by (rewrite repeat_length; lia). now rewrite nth_repeat. }
  destruct HL as (P1 & P2 & P3 & P4 & P5 & P6).
  assert (W : forall L, (0 <= L)%R -> within L (Fin 0)) by (intros L HL0; exists 0%R; split; [reflexivity|lra]).
  unfold bounded. rewrite repeat_length, !Z0 by lia. repeat split; auto.
  exists (mkV 0 0 0). rewrite !Z0 by lia. repeat split.
  replace (vnorm (mkV 0 0 0)) with 0%R by (unfold vnorm; replace (vsq (mkV 0 0 0)) with 0%R by (unfold vsq, vdot; cbn; ring); symmetry; apply sqrt_0).
  pose proof PI_RGT_0. lra.
Qed.
End Transfer.

Lemma ls_self i x : list_set i (ent x i) x = x.
Proof. unfold ent. revert i. induction x as [|f x IH]; intros [|i]; cbn; auto. now rewrite IH. Qed.
Lemma regulate_at_zero x : ent x 3 = Fin 0 -> ent x 4 = Fin 0 -> ent x 5 = Fin 0 -> regulate_at x = Ok x.
Proof.
  intros H3 H4 H5. unfold regulate_at. rewrite H3, H4, H5.
  assert (E : f_regulate (Fin 0) (Fin 0) (Fin 0) = Ok [Fin 0; Fin 0; Fin 0]).
  { unfold f_regulate. destruct (Rlt_dec _ _) as [L|L]; [exfalso|reflexivity].
    replace (vsq (mkV 0 0 0)) with 0%R in L by (unfold vsq, vdot; cbn; ring).
    pose proof (pow2_ge_0 (3 / 2 * PI)). lra. }
  rewrite E. cbn [obind]. f_equal.
  change (ent [Fin 0; Fin 0; Fin 0] 0) with (Fin 0). change (ent [Fin 0; Fin 0; Fin 0] 1) with (Fin 0).
  change (ent [Fin 0; Fin 0; Fin 0] 2) with (Fin 0).
  assert (E3 : list_set 3 (Fin 0) x = x) by (rewrite <- H3; apply ls_self).
  assert (E4 : list_set 4 (Fin 0) x = x) by (rewrite <- H4; apply ls_self).
  assert (E5 : list_set 5 (Fin 0) x = x) by (rewrite <- H5; apply ls_self).
  now rewrite E3, E4, E5.
Qed.
