(** Kinematics as vectors, and update. *)
From Coq Require Import Reals Lra Psatz Lia List Bool.
From Verif Require Import Base Vec3 Rot SpecRot RotProofs RotProofs2 RotProofs3 Orient SpecOrient OrientProofs Kine SpecKine KineProofs KineProofs2.
Import ListNotations.
Open Scope R_scope.

(** Flagged components are set. *)
Definition flagged_set (f : flags) (k : Kin) : Prop :=
  (fP f = true -> kp k <> None) /\ (fO f = true -> rot (ko k) <> None) /\ (fV f = true -> kv k <> None) /\
  (fW f = true -> kw k <> None) /\ (fA f = true -> ka k <> None) /\ (fAl f = true -> kal k <> None).
Definition vsize (f : flags) : nat :=
  let s (b : bool) n := if b then n else 0%nat in
  (s (fP f) 3 + s (fO f) 4 + s (fV f) 3 + s (fW f) 3 + s (fA f) 3 + s (fAl f) 3)%nat.

Lemma some_ex {A} (x : option A) : x <> None -> exists a, x = Some a.
Proof. destruct x; [eauto|congruence]. Qed.
Lemma toVec_fromVec md md' f k k0 : coh (ko k) -> flagged_set f k ->
  exists l k' k2, k_toVec md f k = Ok (l, k') /\ coh (ko k') /\ same_kin k' k /\ length l = vsize f /\
    k_fromVec md' l f k0 = Ok k2 /\
    kp k2 = (if fP f then kp k else kp k0) /\ rot (ko k2) = (if fO f then rot (ko k) else rot (ko k0)) /\
    kv k2 = (if fV f then kv k else kv k0) /\ kw k2 = (if fW f then kw k else kw k0) /\
    ka k2 = (if fA f then ka k else ka k0) /\ kal k2 = (if fAl f then kal k else kal k0).
Proof.
  intros H (P & O & V & W & A & L). destruct f as [p o v w a l]. cbn [fP fO fV fW fA fAl] in *.
  destruct k as [xp xo xv xw xa xl]. cbn [kp ko kv kw ka kal] in *.
  assert (Q : exists q o', (if o then (do (q, o0) <- o_toQuat md xo; Ok (l4 q, o0)) else Ok ([], xo)) = Ok ((if o then l4 q else []), o') /\
     coh o' /\ rot o' = rot xo /\ (o = true -> rot xo = Some (qrot q))).
  { destruct o.
    - destruct (some_ex _ (O eq_refl)) as [r R]. destruct (toQuat_ok md xo r H R) as (q & o' & E & B & C & D & F).
      exists q, o'. rewrite E. cbn [obind]. split; [auto|]. split; [auto|]. split; [congruence|]. congruence.
    - exists q1, xo. split; [reflexivity|]. split; [auto|]. split; [auto|]. discriminate. }
  destruct Q as (q & o' & E & B & C & D).
  unfold k_toVec. cbn [kp ko kv kw ka kal fP fO fV fW fA fAl]. rewrite E.
  destruct p; [destruct (some_ex _ (P eq_refl)) as [yp ->]|]; cbn [obind oget];
  (destruct v; [destruct (some_ex _ (V eq_refl)) as [yv ->]|]); cbn [obind oget];
  (destruct w; [destruct (some_ex _ (W eq_refl)) as [yw ->]|]); cbn [obind oget];
  (destruct a; [destruct (some_ex _ (A eq_refl)) as [ya ->]|]); cbn [obind oget];
  (destruct l; [destruct (some_ex _ (L eq_refl)) as [yl ->]|]); cbn [obind oget];
  clear P V W A L O E;
  destruct o;
  (do 3 eexists; split; [reflexivity|]; split; [exact B|]; split; [unfold same_kin; cbn; auto 10|]; split; [reflexivity|];
   split; [reflexivity|]; cbn;
   repeat match goal with y : V3 |- _ => destruct y | y : Q4 |- _ => destruct y end; cbn in *; try rewrite (D eq_refl); auto 10).
Qed.
(** A vector of the right size, loaded then read back. *)
Lemma take3_ok md (b : bool) n (l : list R) old : length l = ((if b then 3 else 0) + n)%nat ->
  exists x l', take3 md b l old = Ok (x, l') /\ length l' = n /\
    forall md', exists h, (if b then (do v <- oget md' x; Ok (l3 v)) else Ok []) = Ok h /\ l = h ++ l'.
Proof.
  destruct b; cbn; intros H; [|exists old, l; split; [auto|]; split; [auto|]; intros; exists []; auto].
  destruct l as [|x [|y [|z l]]]; try discriminate. exists (Some (mkV x y z)), l. split; [auto|]. split; [now injection H|].
  intros md'. exists [x; y; z]. auto.
Qed.
Lemma fromVec_toVec md md' f l k0 : length l = vsize f ->
  exists k, k_fromVec md l f k0 = Ok k /\ exists k', k_toVec md' f k = Ok (l, k').
Proof.
  destruct f as [p o v w a al]. unfold vsize, k_fromVec, k_toVec. cbn [fP fO fV fW fA fAl]. intros H.
  rewrite <- !PeanoNat.Nat.add_assoc in H.
  destruct (take3_ok md _ _ _ (kp k0) H) as (xp & l1 & -> & H1 & G1). cbn [obind].
  assert (O : exists xo l2, (if o then
                  match l1 with
                  | x :: y :: z :: w :: l' => Ok (o_quat (mkQ w x y z), l')
                  | _ => do _ <- boost_assert md false; Ok (ko k0, l1)
                  end
                else Ok (ko k0, l1)) = Ok (xo, l2) /\ length l2 = ((if v then 3 else 0) + ((if w then 3 else 0) + ((if a then 3 else 0) + (if al then 3 else 0))))%nat /\
     exists h o', (if o then (do (q, o) <- o_toQuat md' xo; Ok (l4 q, o)) else Ok ([], xo)) = Ok (h, o') /\ l1 = h ++ l2).
  { destruct o; cbn in H1; [|exists (ko k0), l1; split; [auto|]; split; [auto|]; exists [], (ko k0); auto].
    destruct l1 as [|x [|y [|z [|t l2]]]]; try discriminate. exists (o_quat (mkQ t x y z)), l2. split; [auto|]. split; [now injection H1|].
    exists [x; y; z; t], (o_quat (mkQ t x y z)). split; [|auto]. unfold o_toQuat, o_check, o_quat. cbn. now destruct md'. }
  destruct O as (xo & l2 & -> & H2 & hq & o' & Eq & Lq). cbn [obind].
  destruct (take3_ok md _ _ _ (kv k0) H2) as (xv & l3' & -> & H3 & G3). cbn [obind].
  destruct (take3_ok md _ _ _ (kw k0) H3) as (xw & l4' & -> & H4 & G4). cbn [obind].
  destruct (take3_ok md _ _ _ (ka k0) H4) as (xa & l5 & -> & H5 & G5). cbn [obind].
  rewrite <- (PeanoNat.Nat.add_0_r (if al then 3 else 0)) in H5.
  destruct (take3_ok md _ _ _ (kal k0) H5) as (xl & l6 & -> & H6 & G6). cbn [obind].
  eexists; split; [reflexivity|]. cbn [kp ko kv kw ka kal].
  destruct (G1 md') as (h1 & -> & L1). cbn [obind]. rewrite Eq. cbn [obind].
  destruct (G3 md') as (h3 & -> & L3). cbn [obind]. destruct (G4 md') as (h4 & -> & L4). cbn [obind].
  destruct (G5 md') as (h5 & -> & L5). cbn [obind]. destruct (G6 md') as (h6 & -> & L6). cbn [obind].
  eexists. apply f_equal, f_equal2; [|reflexivity]. destruct l6; [|discriminate]. rewrite app_nil_r in L6. congruence.
Qed.
Lemma fromVec_short f l k0 : (length l < vsize f)%nat -> k_fromVec Debug l f k0 = AssertFail.
Proof.
  destruct f as [p o v w a al]. unfold vsize, k_fromVec. cbn [fP fO fV fW fA fAl].
  assert (T : forall (b : bool) (l : list R) old, take3 Debug b l old = AssertFail \/
     exists x l', take3 Debug b l old = Ok (x, l') /\ length l = ((if b then 3 else 0) + length l')%nat).
  { intros [] m old; cbn; [|right; eauto]. destruct m as [|x [|y [|z m]]]; cbn; auto. right; eauto. }
  intros H.
  destruct (T p l (kp k0)) as [-> |(xp & l1 & -> & H1)]; [reflexivity|]. cbn [obind].
  assert (O : (if o then
                  match l1 with
                  | x :: y :: z :: w :: l' => Ok (o_quat (mkQ w x y z), l')
                  | _ => do _ <- boost_assert Debug false; Ok (ko k0, l1)
                  end
                else Ok (ko k0, l1)) = AssertFail \/ exists x l', (if o then
                  match l1 with
                  | x :: y :: z :: w :: l' => Ok (o_quat (mkQ w x y z), l')
                  | _ => do _ <- boost_assert Debug false; Ok (ko k0, l1)
                  end
                else Ok (ko k0, l1)) = Ok (x, l') /\ length l1 = ((if o then 4 else 0) + length l')%nat).
  { destruct o; [|right; eauto]. destruct l1 as [|x [|y [|z [|t l1]]]]; cbn; auto. right; eauto. }
  destruct O as [-> |(xo & l2 & -> & H2)]; [reflexivity|]. cbn [obind].
  destruct (T v l2 (kv k0)) as [-> |(xv & l3' & -> & H3)]; [reflexivity|]. cbn [obind].
  destruct (T w l3' (kw k0)) as [-> |(xw & l4' & -> & H4)]; [reflexivity|]. cbn [obind].
  destruct (T a l4' (ka k0)) as [-> |(xa & l5 & -> & H5)]; [reflexivity|]. cbn [obind].
  destruct (T al l5 (kal k0)) as [-> |(xl & l6 & -> & H6)]; [reflexivity|]. exfalso.
  destruct p, o, v, w, a, al; lia.
Qed.
