(** Proofs about Kinematics::update. *)
From Coq Require Import Reals Lra Psatz Lia List Bool.
From Verif Require Import Base Vec3 Rot SpecRot RotProofs RotProofs2 RotProofs3 Orient SpecOrient OrientProofs Kine SpecKine KineProofs KineProofs2.
Import ListNotations.
Open Scope R_scope.

Lemma upd_inv md new dt f k k' : k_update md new dt f k = Ok k' ->
  upd_lin md dt (fP f) (fV f) (fA f) (kp k, kv k, ka k) (kp new, kv new, ka new) = Ok (kp k', kv k', ka k') /\
  upd_ang md dt (fO f) (fW f) (fAl f) (ko k, kw k, kal k) (ko new, kw new, kal new) = Ok (ko k', kw k', kal k').
Proof.
  unfold k_update. intros H.
  destruct (obind_Ok_inv _ _ _ H) as ([[p v] a] & E1 & H1). destruct (obind_Ok_inv _ _ _ H1) as ([[o w] l] & E2 & H2).
  rewrite E1, E2. injection H2 as <-. auto.
Qed.
Lemma upd_intro md new dt f k p v a o w l :
  upd_lin md dt (fP f) (fV f) (fA f) (kp k, kv k, ka k) (kp new, kv new, ka new) = Ok (p, v, a) ->
  upd_ang md dt (fO f) (fW f) (fAl f) (ko k, kw k, kal k) (ko new, kw new, kal new) = Ok (o, w, l) ->
  k_update md new dt f k = Ok (mkK p o v w a l).
Proof. intros H1 H2. unfold k_update. rewrite H1. cbn [obind]. rewrite H2. reflexivity. Qed.

(** What can be updated: new value, or computable from the others, or present. *)
Definition upd_avail (f : bool * bool * bool) (p v a p' v' a' : bool) : Prop :=
  let '(fp, fv, fa) := f in
  (fp = true -> p' = true \/ p = true) /\ (fv = true -> v' = true \/ v = true \/ p = true /\ p' = true) /\
  (fa = true -> a' = true \/ a = true \/ v = true /\ v' = true \/ p = true /\ p' = true).
Lemma upd_lin_ok md dt fp fv fa p v a p' v' a' :
  upd_avail (fp, fv, fa) (isSome p) (isSome v) (isSome a) (isSome p') (isSome v') (isSome a') ->
  exists x y z, upd_lin md dt fp fv fa (p, v, a) (p', v', a') = Ok (x, y, z) /\ isSome x = fp /\ isSome y = fv /\ isSome z = fa.
Proof.
  unfold upd_avail. intros (P & V & A).
  destruct fp, fv, fa, p, v, a, p', v', a'; cbn in *;
    first [ (do 3 eexists; split; [destruct md; reflexivity|]; auto)
          | (exfalso; first [destruct (P eq_refl); discriminate | destruct (V eq_refl) as [|[|[]]]; discriminate
            | destruct (A eq_refl) as [|[|[[]|[]]]]; discriminate]) ].
Qed.
(** The angular acceleration is the exception: it may be left unset. *)
Lemma upd_ang_ok md dt fp fv fa p v a p' v' a' : coh p -> coh p' ->
  upd_avail (fp, fv, fa) (o_isSet p) (isSome v) (isSome a) (o_isSet p') (isSome v') (isSome a') ->
  exists x y z, upd_ang md dt fp fv fa (p, v, a) (p', v', a') = Ok (x, y, z) /\ coh x /\ o_isSet x = fp /\ isSome y = fv.
Proof.
  intros H H' G.
  assert (D : forall o o', coh o -> coh o' -> o_isSet o = true -> o_isSet o' = true -> exists d, o_diff md o o' = Ok d).
  { intros o o' C C' S S'. apply rot_isSet in S, S'. destruct (rot o) as [m|] eqn:E; [|congruence]. destruct (rot o') as [m'|] eqn:E'; [|congruence].
    destruct (diff_ok md o o' m m' C E C' E') as (d & _ & X & _). eauto. }
  assert (I : forall w, o_isSet p = true -> exists o, o_integrate md w p = Ok o /\ coh o /\ o_isSet o = true).
  { intros w S. apply rot_isSet in S. destruct (rot p) as [m|] eqn:E; [|congruence].
    destruct (integrate_ok md w p m H E) as (o & X & Y & Z). exists o. split; [auto|]. split; [auto|]. apply rot_isSet. congruence. }
  unfold upd_avail in G. destruct G as (P & V & A). unfold upd_ang.
  destruct (o_isSet p) eqn:Sp; destruct (o_isSet p') eqn:Sp'.
  - destruct (D p p' H H' Sp Sp') as [d1 E1]. destruct (D p' p H' H Sp' Sp) as [d2 E2]. rewrite ?E1, ?E2.
    destruct fp, fv, fa, v, a, v', a'; cbn in *;
      (do 3 eexists; split; [destruct md; reflexivity|]; split; [auto using coh_empty|]; auto).
  - destruct fp, fv, fa, v, a, v', a'; cbn in *;
      try (exfalso; first [destruct (P eq_refl); discriminate | destruct (V eq_refl) as [|[|[]]]; discriminate
            | destruct (A eq_refl) as [|[|[[]|[]]]]; discriminate]);
    match goal with
    | |- context [o_integrate md ?w p] => destruct (I w eq_refl) as (o1 & E1 & C1 & S1); rewrite E1; cbn [obind]
    | _ => idtac end;
      (do 3 eexists; split; [destruct md; reflexivity|]; split; [auto using coh_empty|]; auto).
  - destruct fp, fv, fa, v, a, v', a'; cbn in *;
      try (exfalso; first [destruct (P eq_refl); discriminate | destruct (V eq_refl) as [|[|[]]]; discriminate
            | destruct (A eq_refl) as [|[|[[]|[]]]]; discriminate]);
      (do 3 eexists; split; [destruct md; reflexivity|]; split; [auto using coh_empty|]; auto).
  - destruct fp, fv, fa, v, a, v', a'; cbn in *;
      try (exfalso; first [destruct (P eq_refl); discriminate | destruct (V eq_refl) as [|[|[]]]; discriminate
            | destruct (A eq_refl) as [|[|[[]|[]]]]; discriminate]);
      (do 3 eexists; split; [destruct md; reflexivity|]; split; [auto using coh_empty|]; auto).
Qed.
