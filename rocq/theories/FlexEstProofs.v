(** Proofs about the flexibility estimators: refinement to the automaton of SpecFlexEst.v. *)
From Coq Require Import Reals ZArith List Lia Lra Bool.
From Verif Require Import Base Defs ZDO Vec3 Rot Sensors FlexEst SpecFlexEst.
Import ListNotations.
Open Scope Z_scope.

Section Sim.
Context {Y U E : Type}.
Notation X := (list fl).
Variable sy : Y -> Z.
Variable su : U -> Z.
Variable st : @stepfun X Y U E.
Variable jac : mode -> E -> Z -> X -> outcome Y -> outcome U -> outcome U -> outcome E.
Variable creset preset setQ : E -> E.
Variable esize : Z -> Z -> E -> E.

Definition yrel (y : iarr Y) (t : Z) (o : option Y) : Prop :=
  match o with None => ia_v y = [] | Some v => y = mkIarr (t + 1) [v] end.
Definition urel (u : iarr U) (t : Z) (o : option (U * option U)) : Prop :=
  match o with
  | None => ia_v u = [] /\ ia_k u <= t
  | Some (c, None) => u = mkIarr t [c]
  | Some (c, Some n) => u = mkIarr t [c; n]
  end.

Record srel (q : fest Y U E) (a : aut Y U E) : Prop := mkSrel {
  sr_n : z_n (e_ekf q) = a_n a; sr_m : z_m (e_ekf q) = a_m a; sr_p : z_p (e_ekf q) = a_p a;
  sr_pos : 0 < a_p a; sr_t : 0 <= a_t a;
  sr_x : z_x (e_ekf q) = im_put (a_x a) (a_t a);
  sr_y : yrel (z_y (e_ekf q)) (a_t a) (a_y a);
  sr_u : urel (z_u (e_ekf q)) (a_t a) (a_u a);
  sr_e : z_e (e_ekf q) = a_e a;
  sr_k : e_k q = a_t a; sr_last : e_last q = a_last a;
  sr_on : e_on q = a_on a; sr_lim : e_lim q = a_lim a; sr_lf : e_lf q = a_lf a; sr_lt : e_lt q = a_lt a }.

Local Arguments saturate : simpl never.
Local Arguments regulate_at : simpl never.
Local Arguments has_nan : simpl never.

(** Same outcome, related states, same vectors. *)
Definition orelS {A} (x : outcome (fest Y U E * A)) (y : outcome (aut Y U E * A)) : Prop :=
  match x, y with
  | Ok (q, l), Ok (a, l') => srel q a /\ l = l'
  | AssertFail, AssertFail | Throw, Throw | UB, UB => True
  | _, _ => False
  end.
Definition orelQ (x : outcome (fest Y U E)) (y : outcome (aut Y U E)) : Prop :=
  match x, y with
  | Ok q, Ok a => srel q a
  | AssertFail, AssertFail | Throw, Throw | UB, UB => True
  | _, _ => False
  end.

Lemma setState_now md x t (s : zdo X Y U E) (x0 : X) : z_x s = im_put x0 t -> 0 < z_p s ->
  z_setState sxl md x t s =
  do _ <- boost_assert md (sxl x =? z_n s);
  Ok (mkZ (z_n s) (z_m s) (z_p s) (im_put x t)
        (pop_below (t + 1) (ia_k (z_y s)) (ia_v (z_y s)))
        (pop_below t (ia_k (z_u s)) (ia_v (z_u s))) (z_e s)).
Proof.
  intros Hx Hp. unfold z_setState. destruct (boost_assert md (sxl x =? z_n s)) as [[]| | |]; cbn; auto.
  unfold z_time, im_time. cbn. rewrite Z.ltb_irrefl.
  destruct (0 <? z_p s) eqn:Ep; [reflexivity|]. apply Z.ltb_ge in Ep. lia.
Qed.

Lemma pop_y_keep t (a : iarr Y) o : yrel a t o -> yrel (pop_below (t + 1) (ia_k a) (ia_v a)) t o.
Proof.
  destruct o as [v|]; cbn.
  - intros ->. cbn. now rewrite Z.ltb_irrefl.
  - intros ->. reflexivity.
Qed.
Lemma pop_y_done t (a : iarr Y) v : a = mkIarr t [v] -> yrel (pop_below (t + 1) (ia_k a) (ia_v a)) t None.
Proof. intros ->. cbn. destruct (t <? t + 1) eqn:H; [reflexivity|]. apply Z.ltb_ge in H. lia. Qed.
Lemma pop_u_keep t (a : iarr U) o : urel a t o -> urel (pop_below t (ia_k a) (ia_v a)) t o.
Proof.
  destruct o as [[c [n|]]|]; cbn.
  - intros ->. cbn. now rewrite Z.ltb_irrefl.
  - intros ->. cbn. now rewrite Z.ltb_irrefl.
  - intros [-> H]. now split.
Qed.

Lemma state_sim md l q a : srel q a ->
  orelQ (do s <- z_setState sxl md l (a_t a) (e_ekf q); Ok (with_ekf q s)) (a_state md l a).
Proof.
  intros [Hn Hm Hp Hpos Ht Hx Hy Hu He Hk Hl H1 H2 H3 H4].
  rewrite (setState_now md l (a_t a) _ _ Hx ltac:(lia)). unfold a_state. rewrite Hn.
  unfold sxl. destruct (boost_assert md (Z.of_nat (length l) =? a_n a)) as [[]| | |]; cbn; auto.
  constructor; cbn; auto; [now apply pop_y_keep|now apply pop_u_keep].
Qed.

Lemma get_u0 md t u o : urel u t o -> ia_get md u t = given md (option_map fst o).
Proof.
  destruct o as [[c [n|]]|]; cbn.
  - intros ->. unfold ia_get, ia_checkIndex, ia_at, ia_size. cbn. rewrite Z.leb_refl.
    replace (t <? t + 2) with true by (symmetry; apply Z.ltb_lt; lia). cbn. now rewrite Z.sub_diag.
  - intros ->. unfold ia_get, ia_checkIndex, ia_at, ia_size. cbn. rewrite Z.leb_refl.
    replace (t <? t + 1) with true by (symmetry; apply Z.ltb_lt; lia). cbn. now rewrite Z.sub_diag.
  - intros [H _]. unfold ia_get, ia_checkIndex, ia_at, ia_size. rewrite H. cbn. destruct md; [reflexivity|].
    cbn. destruct (ia_k u <=? t); [|reflexivity]. now destruct (Z.to_nat (t - ia_k u)).
Qed.
Lemma get_u1 md t u o : urel u t o ->
  ia_get md u (t + 1) = given md (match o with Some (_, n) => n | None => None end).
Proof.
  destruct o as [[c [n|]]|]; cbn.
  - intros ->. unfold ia_get, ia_checkIndex, ia_at, ia_size. cbn.
    replace (t <=? t + 1) with true by (symmetry; apply Z.leb_le; lia).
    replace (t + 1 <? t + 2) with true by (symmetry; apply Z.ltb_lt; lia). cbn.
    replace (Z.to_nat (t + 1 - t)) with 1%nat by lia. reflexivity.
  - intros ->. unfold ia_get, ia_checkIndex, ia_at, ia_size. cbn.
    replace (t <=? t + 1) with true by (symmetry; apply Z.leb_le; lia).
    rewrite Z.ltb_irrefl. cbn. destruct md; [reflexivity|]. cbn.
    replace (Z.to_nat (t + 1 - t)) with 1%nat by lia. reflexivity.
  - intros [H _]. unfold ia_get, ia_checkIndex, ia_at, ia_size. rewrite H. cbn. destruct md; [reflexivity|].
    cbn. destruct (ia_k u <=? t + 1); [|reflexivity]. now destruct (Z.to_nat (t + 1 - ia_k u)).
Qed.
Lemma get_y md t (y : iarr Y) v : y = mkIarr (t + 1) [v] -> ia_get md y (t + 1) = Ok v.
Proof.
  intros ->. unfold ia_get, ia_checkIndex, ia_at, ia_size. cbn. rewrite Z.leb_refl.
  replace (t + 1 <? t + 1 + 1) with true by (symmetry; apply Z.ltb_lt; lia). cbn. now rewrite Z.sub_diag.
Qed.

(** The filter after a step, before its state is set again: the measurement is still there. *)
Definition frel (s : zdo X Y U E) (a : aut Y U E) : Prop :=
  z_n s = a_n a /\ z_m s = a_m a /\ z_p s = a_p a /\ z_x s = im_put (a_x a) (a_t a) /\
  (exists v, z_y s = mkIarr (a_t a) [v]) /\ urel (z_u s) (a_t a) (a_u a) /\ z_e s = a_e a /\
  a_y a = None.
Definition orelF (x : outcome (Z * zdo X Y U E * X)) (y : outcome (aut Y U E * X)) : Prop :=
  match x, y with
  | Ok (k, s, l), Ok (a, l') => k = a_t a /\ frel s a /\ l = l'
  | AssertFail, AssertFail | Throw, Throw | UB, UB => True
  | _, _ => False
  end.

Lemma est_zero md k (s : zdo X Y U E) x : z_x s = im_put x k ->
  z_getEstimatedState (local_step st) md k s = Ok (s, x).
Proof.
  intros Hx. unfold z_getEstimatedState, z_time, im_time, im_get. rewrite Hx. cbn.
  rewrite Z.leb_refl. cbn. rewrite Z.sub_diag. cbn. rewrite Hx. reflexivity.
Qed.

Lemma reach_sim md y q a : srel q a -> a_y a = Some y ->
  orelF (reach st jac md (e_ekf q)) (a_filter st jac md y a).
Proof.
  intros [Hn Hm Hp Hpos Ht Hx Hy Hu He Hk Hl H1 H2 H3 H4] Ey. rewrite Ey in Hy. cbn in Hy.
  destruct q as [s k0 last on lim lf lt]. destruct s as [n m p zx zy zu e]. cbn in *. subst.
  destruct a as [n m p e t x last y0 uo on lim lf lt]. cbn in *. subst.
  unfold reach, z_time, im_time. cbn. unfold ia_last, ia_size. cbn.
  replace (Z.to_nat (t + 1 + 1 - 1 - t)) with 1%nat by lia. cbn.
  unfold jac_step, z_time, im_time, im_get. cbn.
  rewrite (get_y md t _ y eq_refl), (get_u0 md t zu uo Hu), (get_u1 md t zu uo Hu).
  unfold a_filter. cbn.
  set (u0 := given md (option_map fst uo)). set (u1o := match uo with Some (_, n0) => n0 | None => None end).
  destruct (jac md e t x (Ok y) u0 (given md u1o)) as [e1| | |]; cbn; auto.
  unfold z_getEstimatedState, z_time, im_time. cbn.
  replace (t <=? t + 1) with true by (symmetry; apply Z.leb_le; lia). cbn.
  replace (Z.to_nat (t + 1 - t)) with 1%nat by lia. cbn.
  unfold z_iter, local_step, z_time, im_time, im_get. cbn.
  rewrite (get_y md t _ y eq_refl), (get_u0 md t zu uo Hu), (get_u1 md t zu uo Hu).
  fold u0 u1o. destruct (st md e1 t x (Ok y) u0 (given md u1o)) as [[x1 e2]| | |]; cbn; auto.
  rewrite Z.ltb_irrefl. cbn. replace (0 <? p) with true by (symmetry; apply Z.ltb_lt; lia).
  unfold ia_first. subst u0 u1o.
  assert (Hend : forall zu', urel zu' (t + 1) (option_map (fun u => (u, None)) (match uo with Some (_, n0) => n0 | None => None end)) ->
    orelF (do x0 <- Ok (mkZ n m p (im_put x1 (t + 1)) (mkIarr (t + 1) [y]) zu' e2, x1);
           do s2 <- Ok (fst x0);
           do s3 <- Ok s2;
           do sx <- (do k0 <- Ok (t + 1); do _ <- boost_assert md (t + 1 <=? t + 1 + 1 - 1);
                     do s' <- oiter (Z.to_nat (t + 1 + 1 - 1 - (t + 1))) (z_iter (local_step st) md (t + 1 + 1 - 1)) s3;
                     do x2 <- im_get md (z_x s'); Ok (s', x2));
           Ok (t + 1 + 1 - 1, fst sx, snd sx))
      (Ok (mkA n m p e2 (t + 1) x1 last None
             (option_map (fun u => (u, None)) (match uo with Some (_, n0) => n0 | None => None end)) on lim lf lt, x1))).
  { intros zu' Hz. replace (t + 1 + 1 - 1) with (t + 1) by lia. rewrite Z.leb_refl, Z.sub_diag. cbn.
    unfold im_get. cbn. split; [reflexivity|]. split; [|reflexivity]. unfold frel. cbn.
    repeat split; auto. now exists y. }
  destruct uo as [[c [nx|]]|]; cbn in Hu |- *.
  - subst zu. cbn. replace (t <? t + 1) with true by (symmetry; apply Z.ltb_lt; lia). unfold ia_popFront, ia_size. cbn.
    exact (Hend (mkIarr (t + 1) [nx]) eq_refl).
  - subst zu. cbn. replace (t <? t + 1) with true by (symmetry; apply Z.ltb_lt; lia). unfold ia_popFront, ia_size. cbn.
    apply (Hend (mkIarr (t + 1) [])). cbn. split; [reflexivity|lia].
  - destruct Hu as [Hu Hk]. replace (ia_k zu <? t + 1) with true by (symmetry; apply Z.ltb_lt; lia).
    unfold ia_popFront, ia_size. rewrite Hu. cbn. now destruct md.
Qed.

(** Setting the state after a step: the measurement that was used is dropped. *)
Lemma after_state md l s (a : aut Y U E) k last on lim lf lt : frel s a -> 0 < a_p a -> 0 <= a_t a ->
  last = a_last a -> on = a_on a -> lim = a_lim a -> lf = a_lf a -> lt = a_lt a -> k = a_t a ->
  orelQ (do s1 <- z_setState sxl md l (a_t a) s; Ok (mkF s1 k last on lim lf lt)) (a_state md l a).
Proof.
  intros (Hn & Hm & Hp & Hx & [v Hy] & Hu & He & Ea) Hpos Ht -> -> -> -> -> ->.
  rewrite (setState_now md l (a_t a) _ _ Hx ltac:(lia)). unfold a_state. rewrite Hn. unfold sxl.
  destruct (boost_assert md (Z.of_nat (length l) =? a_n a)) as [[]| | |]; cbn; auto.
  constructor; cbn; auto; [|now apply pop_u_keep]. rewrite Ea. now apply (pop_y_done _ _ v).
Qed.

Lemma srel_extra q a e : srel q a -> srel (with_ekf q (with_e (e_ekf q) e)) (a_extra e a).
Proof. intros [Hn Hm Hp Hpos Ht Hx Hy Hu He Hk Hl H1 H2 H3 H4]. constructor; cbn; auto. Qed.
Lemma srel_answer q a l : srel q a -> srel (with_last q l) (a_answer l a).
Proof. intros [Hn Hm Hp Hpos Ht Hx Hy Hu He Hk Hl H1 H2 H3 H4]. constructor; cbn; auto. Qed.

Lemma yrel_size y t o : yrel y t o -> (0 <? ia_size y) = match o with Some _ => true | None => false end.
Proof. destruct o; cbn; [intros ->|unfold ia_size; intros ->]; reflexivity. Qed.

Lemma a_filter_inv md y a a' x : a_filter st jac md y a = Ok (a', x) ->
  a_n a' = a_n a /\ a_m a' = a_m a /\ a_p a' = a_p a /\ a_t a' = a_t a + 1 /\ a_last a' = a_last a /\
  a_x a' = x /\ a_y a' = None /\ a_on a' = a_on a /\ a_lim a' = a_lim a /\ a_lf a' = a_lf a /\ a_lt a' = a_lt a.
Proof.
  unfold a_filter. intros H.
  apply obind_Ok_inv in H. destruct H as (e & _ & H).
  apply obind_Ok_inv in H. destruct H as (xe & _ & H).
  apply obind_Ok_inv in H. destruct H as (u & _ & H). injection H as <- <-. cbn. repeat split.
Qed.
Lemma a_state_inv md l (a a' : aut Y U E) : a_state md l a = Ok a' ->
  a' = mkA (a_n a) (a_m a) (a_p a) (a_e a) (a_t a) l (a_last a) (a_y a) (a_u a) (a_on a) (a_lim a) (a_lf a) (a_lt a).
Proof. unfold a_state. intros H. apply obind_Ok_inv in H. destruct H as (u & _ & H). now injection H as <-. Qed.

Lemma mb_get_sim md q a : srel q a ->
  orelS (mb_get st jac creset preset md q) (a_get st jac creset preset md a).
Proof.
  intros S. pose proof S as [Hn Hm Hp Hpos Ht Hx Hy Hu He Hk Hl H1 H2 H3 H4].
  unfold mb_get, a_get. rewrite H1. destruct (a_on a) eqn:Eon.
  - rewrite (yrel_size _ _ _ Hy). destruct (a_y a) as [y|] eqn:Ey; [|cbn; now rewrite Hl].
    pose proof (reach_sim md y q a S Ey) as R.
    destruct (reach st jac md (e_ekf q)) as [[[k s] x]| | |];
      destruct (a_filter st jac md y a) as [[a1 x']| | |] eqn:EF; try contradiction; cbn in R |- *; auto.
    destruct R as (-> & F & <-).
    apply a_filter_inv in EF. destruct EF as (E1 & E2 & E3 & E4 & E5 & E6 & E7 & E8 & E9 & E10 & E11).
    destruct (has_nan x).
    + rewrite Hl. pose proof (after_state md (a_last a) s a1 (a_t a1) (e_last q) (e_on q) (e_lim q) (e_lf q) (e_lt q) F
        ltac:(lia) ltac:(lia) ltac:(congruence) ltac:(congruence) ltac:(congruence) ltac:(congruence) ltac:(congruence) eq_refl) as A.
      destruct (z_setState sxl md (a_last a) (a_t a1) s) as [s1| | |];
        destruct (a_state md (a_last a) a1) as [a2| | |] eqn:ES; cbn in A |- *; try contradiction; auto.
      split; [|reflexivity]. apply a_state_inv in ES.
      assert (Et : a_t a2 = a_t a1) by now subst a2. rewrite Et.
      destruct (1 <? a_t a1).
      * pose proof (srel_extra _ _ (preset (creset (a_e a2))) A) as B. unfold with_ekf in B. cbn in B.
        rewrite <- (sr_e _ _ A) in *. cbn in B |- *. exact B.
      * exact A.
    + destruct (regulate_at x) as [x1| | |]; cbn; auto. rewrite H2, H3, H4.
      set (l := if a_lim a then _ else _).
      destruct F as (F1 & F2 & F3 & F4 & F5). unfold z_time, im_time. rewrite F4. cbn.
      pose proof (after_state md l s a1 (a_t a1) (e_last q) (e_on q) (e_lim q) (e_lf q) (e_lt q)
        (conj F1 (conj F2 (conj F3 (conj F4 F5))))
        ltac:(lia) ltac:(lia) ltac:(congruence) ltac:(congruence) ltac:(congruence) ltac:(congruence) ltac:(congruence) eq_refl) as A.
      destruct (z_setState sxl md l (a_t a1) s) as [s1| | |];
        destruct (a_state md l a1) as [a2| | |] eqn:ES; cbn in A |- *; try contradiction; auto.
      split; [|reflexivity]. exact (srel_answer _ _ l A).
  - unfold z_time, im_time. rewrite Hx. cbn. rewrite Hl. set (l := map _ (a_last a)).
    pose proof (state_sim md l q a S) as A.
    destruct (z_setState sxl md l (a_t a) (e_ekf q)) as [s1| | |] eqn:EZ;
      destruct (a_state md l a) as [a1| | |] eqn:ES; cbn in A |- *; try contradiction; auto.
    split; [|reflexivity]. pose proof A as [An Am Ap Apos At Ax Ay Au Ae Ak Al A1 A2 A3 A4]. cbn in *.
    rewrite (yrel_size _ _ _ Ay). apply a_state_inv in ES. subst a1. cbn in *.
    destruct (a_y a) as [y|].
    + constructor; cbn; auto; try congruence.
    + constructor; cbn; auto.
Qed.

Lemma fc_get_sim md q a : srel q a ->
  orelS (fc_get st jac creset md q) (a_fget st jac creset md a).
Proof.
  intros S. pose proof S as [Hn Hm Hp Hpos Ht Hx Hy Hu He Hk Hl H1 H2 H3 H4].
  unfold fc_get, b_get, a_fget. rewrite (yrel_size _ _ _ Hy). destruct (a_y a) as [y|] eqn:Ey; [|cbn; now rewrite Hl].
  pose proof (reach_sim md y q a S Ey) as R.
  destruct (reach st jac md (e_ekf q)) as [[[k s] x]| | |];
    destruct (a_filter st jac md y a) as [[a1 x']| | |] eqn:EF; try contradiction; cbn in R |- *; auto.
  destruct R as (-> & F & <-).
  apply a_filter_inv in EF. destruct EF as (E1 & E2 & E3 & E4 & E5 & E6 & E7 & E8 & E9 & E10 & E11).
  destruct (has_nan x).
  - rewrite Hl. pose proof (after_state md (a_last a) s a1 (a_t a1) (e_last q) (e_on q) (e_lim q) (e_lf q) (e_lt q) F
      ltac:(lia) ltac:(lia) ltac:(congruence) ltac:(congruence) ltac:(congruence) ltac:(congruence) ltac:(congruence) eq_refl) as A.
    destruct (z_setState sxl md (a_last a) (a_t a1) s) as [s1| | |];
      destruct (a_state md (a_last a) a1) as [a2| | |] eqn:ES; cbn in A |- *; try contradiction; auto.
    destruct (regulate_at (a_last a)) as [l| | |]; cbn; auto.
    set (q2 := mkF s1 (a_t a1) (e_last q) (e_on q) (e_lim q) (e_lf q) (e_lt q)) in *.
    set (s2 := if 1 <? a_t a1 then _ else s1).
    set (a3 := if 1 <? a_t a2 then _ else a2).
    assert (Et : a_t a2 = a_t a1) by (apply a_state_inv in ES; now subst a2).
    assert (B : srel (with_ekf q2 s2) a3).
    { subst s2 a3. rewrite Et. destruct (1 <? a_t a1); [|exact A].
      pose proof (srel_extra _ _ (creset (a_e a2)) A) as B. unfold with_ekf in B. cbn in B.
      rewrite <- (sr_e _ _ A) in *. cbn in B |- *. exact B. }
    pose proof B as [Bn Bm Bp Bpos Bt Bx By Bu Be Bk Bl B1 B2 B3 B4]. cbn in *.
    unfold z_time, im_time. rewrite Bx. cbn.
    pose proof (state_sim md l _ _ B) as C. cbn in C.
    destruct (z_setState sxl md l (a_t a3) s2) as [s3| | |];
      destruct (a_state md l a3) as [a4| | |]; cbn in C |- *; try contradiction; auto.
    split; [|reflexivity]. exact (srel_answer _ _ l C).
  - cbn. destruct (regulate_at x) as [l| | |]; cbn; auto.
    destruct F as (F1 & F2 & F3 & F4 & F5). unfold z_time, im_time. rewrite F4. cbn.
    pose proof (after_state md l s a1 (a_t a1) (e_last q) (e_on q) (e_lim q) (e_lf q) (e_lt q)
      (conj F1 (conj F2 (conj F3 (conj F4 F5))))
      ltac:(lia) ltac:(lia) ltac:(congruence) ltac:(congruence) ltac:(congruence) ltac:(congruence) ltac:(congruence) eq_refl) as A.
    destruct (z_setState sxl md l (a_t a1) s) as [s1| | |];
      destruct (a_state md l a1) as [a2| | |] eqn:ES; cbn in A |- *; try contradiction; auto.
    split; [|reflexivity]. exact (srel_answer _ _ l A).
Qed.

(** The other calls. *)
Lemma meas_sim md y q a : srel q a ->
  orelQ (fe_meas sy md y q) (do _ <- boost_assert md (sy y =? a_m a); Ok (a_data (Some y) (a_u a) a)).
Proof.
  intros [Hn Hm Hp Hpos Ht Hx Hy Hu He Hk Hl H1 H2 H3 H4].
  unfold fe_meas, z_setMeasurement. rewrite Hm.
  destruct (boost_assert md (sy y =? a_m a)) as [[]| | |]; cbn; auto.
  rewrite (yrel_size _ _ _ Hy), Hk. destruct (a_y a) as [y0|]; cbn in Hy.
  - rewrite Hy. unfold ia_next, ia_setValue, ia_checkIndex, ia_size. cbn. rewrite Z.leb_refl.
    replace (a_t a + 1 <? a_t a + 1 + 1) with true by (symmetry; apply Z.ltb_lt; lia). cbn. rewrite orb_true_r. cbn.
    constructor; cbn; auto. now rewrite Z.sub_diag.
  - rewrite Hx. cbn. replace (a_t a + 1 - 1) with (a_t a) by lia. rewrite Z.eqb_refl. cbn.
    unfold ia_setValue, ia_checkIndex, ia_size. rewrite Hy. cbn.
    constructor; cbn; auto.
Qed.

Lemma setInput_cur md u q a : srel q a ->
  orelQ (fe_input su md u q)
    (do _ <- boost_assert md (su u =? a_p a);
     Ok (a_data (a_y a) (Some (u, match a_u a with Some (_, n) => n | None => None end)) a)).
Proof.
  intros [Hn Hm Hp Hpos Ht Hx Hy Hu He Hk Hl H1 H2 H3 H4].
  unfold fe_input, z_setInput. rewrite Hp. replace (0 <? a_p a) with true by (symmetry; apply Z.ltb_lt; lia).
  destruct (boost_assert md (su u =? a_p a)) as [[]| | |]; cbn; auto. rewrite Hk.
  destruct (a_u a) as [[c [n|]]|]; cbn in Hu.
  - rewrite Hu. unfold ia_next, ia_setValue, ia_checkIndex, ia_size. cbn. rewrite Z.leb_refl.
    replace (a_t a <? a_t a + 2) with true by (symmetry; apply Z.ltb_lt; lia). cbn. rewrite orb_true_r. cbn.
    constructor; cbn; auto. now rewrite Z.sub_diag.
  - rewrite Hu. unfold ia_next, ia_setValue, ia_checkIndex, ia_size. cbn. rewrite Z.leb_refl.
    replace (a_t a <? a_t a + 1) with true by (symmetry; apply Z.ltb_lt; lia). cbn. rewrite orb_true_r. cbn.
    constructor; cbn; auto. now rewrite Z.sub_diag.
  - destruct Hu as [Hu Hku]. unfold ia_setValue, ia_checkIndex, ia_size. rewrite Hu, Hx. cbn. rewrite Z.eqb_refl. cbn.
    constructor; cbn; auto.
Qed.

Lemma setInput_next md u q a c n : srel q a -> a_u a = Some (c, n) ->
  orelQ (do s <- z_setInput su md u (e_k q + 1) (e_ekf q); Ok (with_ekf q s))
    (do _ <- boost_assert md (su u =? a_p a); Ok (a_data (a_y a) (Some (c, Some u)) a)).
Proof.
  intros [Hn Hm Hp Hpos Ht Hx Hy Hu He Hk Hl H1 H2 H3 H4] Eu. rewrite Eu in Hu.
  unfold z_setInput. rewrite Hp. replace (0 <? a_p a) with true by (symmetry; apply Z.ltb_lt; lia).
  destruct (boost_assert md (su u =? a_p a)) as [[]| | |]; cbn; auto. rewrite Hk.
  destruct n as [n|]; cbn in Hu.
  - rewrite Hu. unfold ia_next, ia_setValue, ia_checkIndex, ia_size. cbn.
    replace (a_t a <=? a_t a + 1) with true by (symmetry; apply Z.leb_le; lia).
    replace (a_t a + 1 <? a_t a + 2) with true by (symmetry; apply Z.ltb_lt; lia). cbn. rewrite orb_true_r. cbn.
    replace (Z.to_nat (a_t a + 1 - a_t a)) with 1%nat by lia. constructor; cbn; auto.
  - rewrite Hu. unfold ia_next, ia_setValue, ia_checkIndex, ia_size. cbn.
    replace (a_t a <=? a_t a + 1) with true by (symmetry; apply Z.leb_le; lia).
    rewrite Z.ltb_irrefl, Z.eqb_refl. cbn. constructor; cbn; auto.
Qed.

Lemma minput_sim md u q a : srel q a ->
  orelQ (fe_minput su md u q)
    (do _ <- boost_assert md (su u =? a_p a);
     Ok (a_data (a_y a) (Some (match a_u a with Some (c, _) => c | None => u end, Some u)) a)).
Proof.
  intros S. pose proof S as [Hn Hm Hp Hpos Ht Hx Hy Hu He Hk Hl H1 H2 H3 H4].
  unfold fe_minput. destruct (a_u a) as [[c n]|] eqn:Eu.
  - replace (ia_size (z_u (e_ekf q)) =? 0) with false by (destruct n; cbn in Hu; rewrite Hu; reflexivity). cbn.
    exact (setInput_next md u q a c n S Eu).
  - destruct Hu as [Hu Hku]. replace (ia_size (z_u (e_ekf q)) =? 0) with true by (unfold ia_size; rewrite Hu; reflexivity).
    pose proof (setInput_cur md u q a S) as A. rewrite Eu in A. unfold fe_input in A.
    destruct (z_setInput su md u (e_k q) (e_ekf q)) as [s| | |];
      destruct (boost_assert md (su u =? a_p a)) as [[]| | |] eqn:EB; cbn in A |- *; try contradiction; auto.
    pose proof (setInput_next md u _ _ u None A eq_refl) as B. cbn in B. rewrite EB in B. cbn in B.
    destruct (z_setInput su md u (e_k q + 1) s); cbn in B |- *; try contradiction; auto.
Qed.

Lemma guess_sim md v q a : srel q a -> orelQ (fe_guess setQ md (GCol v) q) (a_guess setQ md v a).
Proof.
  intros S. pose proof S as [Hn Hm Hp Hpos Ht Hx Hy Hu He Hk Hl H1 H2 H3 H4].
  unfold fe_guess, a_guess. rewrite Hn, Hk. unfold sxl at 1 2 3 4. destruct (Z.of_nat (length v) =? a_n a) eqn:EL.
  - cbn. exact (state_sim md v q a S).
  - cbn [orb]. destruct (boost_assert md (Z.of_nat (length v) =? 6)) as [[]| | |]; cbn [obind]; auto; try exact Logic.I.
    unfold sxl at 1. destruct (eigen_assert md (3 <=? Z.of_nat (length v))) as [[]| | |]; cbn [obind]; auto; try exact Logic.I.
    set (x := list_set 5 _ _). pose proof (state_sim md x q a S) as A.
    destruct (z_setState sxl md x (a_t a) (e_ekf q)) as [s1| | |];
      destruct (a_state md x a) as [a1| | |]; cbn in A |- *; try contradiction; auto.
    pose proof (srel_extra _ _ (setQ (a_e a1)) A) as B. rewrite <- (sr_e _ _ A) in B at 1. exact B.
Qed.

Lemma sizes_sim m p q a : srel q a -> 0 < p ->
  srel (fe_sizes esize m p q)
    (mkA (a_n a) m p (esize m p (a_e a)) (a_t a) (a_x a) (a_last a)
            (if m =? a_m a then a_y a else None) (if p =? a_p a then a_u a else None)
            (a_on a) (a_lim a) (a_lf a) (a_lt a)).
Proof.
  intros [Hn Hm Hp Hpos Ht Hx Hy Hu He Hk Hl H1 H2 H3 H4] P.
  unfold fe_sizes, z_setInputSize, z_setMeasureSize. rewrite Hm.
  destruct (m =? a_m a) eqn:Em; cbn; [apply Z.eqb_eq in Em|]; rewrite Hp;
    destruct (p =? a_p a) eqn:Ep; cbn; try apply Z.eqb_eq in Ep; constructor; cbn; auto; try congruence; try lia;
    split; auto; lia.
Qed.

(** The sizes of the inputs are positive. *)
Definition op_ok (o : fe_op Y U) : Prop := match o with FeSizes _ p => 0 < p | _ => True end.

Lemma step_sim get aget md o q a :
  (forall q a, srel q a -> orelS (get md q) (aget md a)) -> op_ok o -> srel q a ->
  orelS (fe_step sy su setQ esize get md o q) (a_step sy su setQ esize aget md o a).
Proof.
  intros G Ho S. destruct o; cbn [fe_step a_step].
  - pose proof (meas_sim md y q a S) as A.
    destruct (fe_meas sy md y q); destruct (boost_assert md (sy y =? a_m a)); cbn in A |- *; try contradiction; auto.
  - pose proof (setInput_cur md u q a S) as A.
    destruct (fe_input su md u q); destruct (boost_assert md (su u =? a_p a)); cbn in A |- *; try contradiction; auto.
  - pose proof (minput_sim md u q a S) as A.
    destruct (fe_minput su md u q); destruct (boost_assert md (su u =? a_p a)); cbn in A |- *; try contradiction; auto.
  - pose proof (G q a S) as A. destruct (get md q) as [[q' l]| | |]; destruct (aget md a) as [[a' l']| | |];
      cbn in A |- *; try contradiction; auto. destruct A as [A ->]. auto.
  - destruct g as [v|r c].
    + pose proof (guess_sim md v q a S) as A.
      destruct (fe_guess setQ md (GCol v) q); destruct (a_guess setQ md v a); cbn in A |- *; try contradiction; auto.
    + cbn. destruct md; cbn; destruct ((r =? 4) && (c =? 4)); exact Logic.I.
  - unfold fe_bias, sxl. destruct (eigen_assert md (2 <=? Z.of_nat (length v))) as [[]| | |]; cbn [obind]; auto; try exact Logic.I.
    rewrite (sr_last _ _ S). set (l := list_set 31 _ _).
    pose proof (guess_sim md l _ _ (srel_answer q a l S)) as A.
    destruct (fe_guess setQ md (GCol l) (with_last q l)); destruct (a_guess setQ md l (a_answer l a));
      cbn in A |- *; try contradiction; auto.
  - cbn. split; [|reflexivity]. now apply sizes_sim.
  - cbn. split; [|reflexivity]. destruct S. constructor; cbn; auto.
  - cbn. split; [|reflexivity]. destruct S. constructor; cbn; auto.
  - cbn. split; [|reflexivity]. destruct S. constructor; cbn; auto.
  - cbn. split; [|reflexivity]. destruct S. constructor; cbn; auto.
Qed.

Lemma run_sim get aget md ops : (forall q a, srel q a -> orelS (get md q) (aget md a)) ->
  Forall op_ok ops -> forall q a, srel q a ->
  orelS (fe_run sy su setQ esize get md ops q) (a_run sy su setQ esize aget md ops a).
Proof.
  intros G F. induction F as [|o ops Ho F IH]; intros q a S; cbn [fe_run a_run]; [cbn; auto|].
  pose proof (step_sim get aget md o q a G Ho S) as A.
  destruct (fe_step sy su setQ esize get md o q) as [[q' l]| | |];
    destruct (a_step sy su setQ esize aget md o a) as [[a' l']| | |]; cbn in A |- *; try contradiction; auto.
  destruct A as [A ->]. specialize (IH q' a' A).
  destruct (fe_run sy su setQ esize get md ops q') as [[q2 l2]| | |];
    destruct (a_run sy su setQ esize aget md ops a') as [[a2 l2']| | |]; cbn in IH |- *; try contradiction; auto.
  destruct IH as [IH ->]. auto.
Qed.

Lemma init_sim n m p e : 0 < p -> srel (fe_init n m p e) (a_init n m p e).
Proof. intros P. constructor; cbn; auto; [lia|]. split; [reflexivity|lia]. Qed.
End Sim.
