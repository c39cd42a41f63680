(** Lemmas about the zero-delay observer. *)
From Coq Require Import ZArith List Lia Bool.
From Verif Require Import Base Defs SpecArray ArrayProofs ZDO.
Import ListNotations.
Open Scope Z_scope.

(** Dropping [d] entries at the front. *)
Definition ia_drop {A} (d : nat) (a : iarr A) : iarr A := mkIarr (ia_k a + Z.of_nat d) (skipn d (ia_v a)).

Lemma ia_drop_0 {A} (a : iarr A) : ia_drop 0 a = a.
Proof. destruct a; unfold ia_drop; cbn. f_equal. lia. Qed.

Lemma ia_drop_size {A} d (a : iarr A) : (d <= length (ia_v a))%nat ->
  ia_size (ia_drop d a) = ia_size a - Z.of_nat d.
Proof. intros H. unfold ia_size, ia_drop; cbn. rewrite skipn_length. lia. Qed.

Lemma skipn_S_tl {A} d (l : list A) : skipn (S d) l = tl (skipn d l).
Proof. revert l; induction d as [|d IH]; intros [|x l]; cbn; auto. apply IH. Qed.

Lemma skipn_skipn' {A} a b (l : list A) : skipn a (skipn b l) = skipn (b + a) l.
Proof.
  revert l; induction b as [|b IH]; intros l; cbn; auto.
  destruct l; cbn; auto. destruct a; reflexivity.
Qed.

Lemma ia_drop_drop {A} d1 d2 (a : iarr A) : ia_drop d2 (ia_drop d1 a) = ia_drop (d1 + d2) a.
Proof. unfold ia_drop; cbn. rewrite skipn_skipn'. f_equal. lia. Qed.

Lemma ia_drop_entry {A} d (a : iarr A) t : (d <= length (ia_v a))%nat ->
  entry (ia_drop d a) t = if ia_k a + Z.of_nat d <=? t then entry a t else None.
Proof.
  intros H. unfold ia_drop. rewrite entry_mk, nth_error_skipn. unfold entry.
  destruct (Z.leb_spec (ia_k a + Z.of_nat d) t); auto.
  destruct (Z.leb_spec (ia_k a) t); [|lia]. f_equal. lia.
Qed.

Lemma ia_get_entry {A} md (a : iarr A) t :
  ia_get md a t = match entry a t with
                  | Some v => Ok v
                  | None => match md with Debug => AssertFail | Release => UB end end.
Proof.
  destruct (entry a t) eqn:E.
  - now apply ia_get_in.
  - destruct md; [now apply ia_get_out_debug | now apply ia_get_out_release].
Qed.

Lemma ia_drop_get {A} md d (a : iarr A) t : (d <= length (ia_v a))%nat ->
  ia_k a + Z.of_nat d <= t -> ia_get md (ia_drop d a) t = ia_get md a t.
Proof.
  intros H Ht. rewrite !ia_get_entry, ia_drop_entry by auto.
  destruct (Z.leb_spec (ia_k a + Z.of_nat d) t); [reflexivity|lia].
Qed.

Lemma ia_popFront_drop {A} md (a : iarr A) : 0 < ia_size a -> ia_popFront md a = Ok (ia_drop 1 a).
Proof.
  intros H. unfold ia_popFront, ia_drop. destruct (Z.eqb_spec (ia_size a) 0); [lia|].
  cbn. destruct a as [k [|x l]]; cbn; [unfold ia_size in H; cbn in H; lia|]. reflexivity.
Qed.

Section P.
Context {X Y U E : Type}.
Variable st : @stepfun X Y U E.

(** ** Specification of estimation: the one-step function folded over the recorded data. *)
Fixpoint est_spec (md : mode) (ry : Z -> outcome Y) (ru : Z -> outcome U) (n : nat) (e : E) (k : Z) (x : X)
  : outcome (X * E) :=
  match n with
  | O => Ok (x, e)
  | S n' => do xe <- st md e k x (ry (k + 1)) (ru k) (ru (k + 1));
            est_spec md ry ru n' (snd xe) (k + 1) (fst xe)
  end.

(** The step does not use the input at the current time (only the one at the next time). *)
Definition ignores_current_input : Prop :=
  forall md e k x oy u1 u2 u3, st md e k x oy u1 u3 = st md e k x oy u2 u3.

Lemma est_spec_ext md n : forall ry ry' ru ru' e k x,
  (forall t, k + 1 <= t -> ry t = ry' t) ->
  (forall t, k + 1 <= t -> ru t = ru' t) ->
  (ru k = ru' k \/ ignores_current_input) ->
  est_spec md ry ru n e k x = est_spec md ry' ru' n e k x.
Proof.
  induction n as [|n IH]; intros ry ry' ru ru' e k x Hy Hu Hk; cbn; auto.
  rewrite (Hy (k + 1)) by lia. rewrite (Hu (k + 1)) by lia.
  replace (st md e k x (ry' (k + 1)) (ru k) (ru' (k + 1)))
     with (st md e k x (ry' (k + 1)) (ru' k) (ru' (k + 1)))
     by (destruct Hk as [-> | Hi]; [reflexivity | apply Hi]).
  destruct (st md e k x (ry' (k + 1)) (ru' k) (ru' (k + 1))); cbn; auto.
  apply IH.
  - intros t Ht. apply Hy. lia.
  - intros t Ht. apply Hu. lia.
  - left. apply Hu. lia.
Qed.

Lemma est_spec_add md ry ru n1 n2 e k x :
  est_spec md ry ru (n1 + n2) e k x =
  do xe <- est_spec md ry ru n1 e k x;
  est_spec md ry ru n2 (snd xe) (k + Z.of_nat n1) (fst xe).
Proof.
  revert e k x; induction n1 as [|n1 IH]; intros e k x; cbn [plus est_spec].
  - cbn. now rewrite Z.add_0_r.
  - destruct (st md e k x (ry (k + 1)) (ru k) (ru (k + 1))) as [[x1 e1]| | |]; cbn; auto.
    rewrite IH. destruct (est_spec md ry ru n1 e1 (k + 1) x1); cbn; auto. f_equal. lia.
Qed.

Notation zdoT := (zdo X Y U E).

(** Number of entries removed from a buffer of first index [f] by [n] iterations towards [K]. *)
Definition ndrop (n : nat) (K f : Z) : nat := Z.to_nat (Z.min (Z.of_nat n) (K - f)).

(** The buffers hold what estimation up to [K] from time [k] needs. *)
Definition covered (k K : Z) (s : zdoT) : Prop :=
  ia_first (z_y s) <= k + 1 /\ K < ia_next (z_y s) /\
  (z_p s <= 0 \/
   (K <= ia_next (z_u s) /\
    (ia_first (z_u s) <= k \/ (ia_first (z_u s) = k + 1 /\ ignores_current_input)))).

Definition after (n : nat) (K : Z) (s : zdoT) (xe : X * E) : zdoT :=
  mkZ (z_n s) (z_m s) (z_p s) (im_put (fst xe) K)
      (ia_drop (ndrop n K (ia_first (z_y s))) (z_y s))
      (if 0 <? z_p s then ia_drop (ndrop n K (ia_first (z_u s))) (z_u s) else z_u s)
      (snd xe).

Lemma z_iter_run md n : forall (s : zdoT) k K x,
  z_x s = im_put x k -> K = k + Z.of_nat n -> (n = O \/ covered k K s) ->
  oiter n (z_iter (local_step st) md K) s =
  match n with
  | O => Ok s
  | _ => do xe <- est_spec md (ia_get md (z_y s)) (ia_get md (z_u s)) n (z_e s) k x;
         Ok (after n K s xe)
  end.
Proof.
  induction n as [|n IH]; intros s k K x Hx HK Hc; [reflexivity|].
  destruct Hc as [|Hc]; [discriminate|]. destruct Hc as (Hy1 & Hy2 & Hu).
  cbn [oiter est_spec].
  unfold z_iter at 1. unfold local_step at 1, z_time. rewrite Hx. cbn [im_time im_put im_set im_k boost_assert obind im_get im_v].
  destruct (st md (z_e s) k x (ia_get md (z_y s) (k + 1)) (ia_get md (z_u s) k) (ia_get md (z_u s) (k + 1)))
    as [[x1 e1]| | |]; cbn [obind fst snd]; auto.
  cbn [z_y with_e with_x z_p z_u].
  (* pop y *)
  set (dy := if ia_first (z_y s) <? K then 1%nat else 0%nat).
  set (du := if (0 <? z_p s) && (ia_first (z_u s) <? K) then 1%nat else 0%nat).
  assert (Ldy : (dy <= length (ia_v (z_y s)))%nat).
  { unfold dy. destruct (Z.ltb_spec (ia_first (z_y s)) K); [|lia].
    unfold ia_next, ia_first, ia_size in *. lia. }
  assert (Hdu : (du <= length (ia_v (z_u s)))%nat).
  { unfold du. destruct (Z.ltb_spec 0 (z_p s)); cbn [andb]; [|lia].
    destruct (Z.ltb_spec (ia_first (z_u s)) K); [|lia].
    destruct Hu as [Hp|(Hu1 & _)]; [lia|].
    unfold ia_next, ia_first, ia_size in *. lia. }
  set (s1 := mkZ (z_n s) (z_m s) (z_p s) (im_put x1 (k + 1)) (ia_drop dy (z_y s)) (ia_drop du (z_u s)) e1).
  match goal with |- obind (obind ?A _) _ = _ =>
    assert (EA : obind A (fun s2 => if 0 <? z_p s2
        then if ia_first (z_u s2) <? K then do u' <- ia_popFront md (z_u s2); Ok (with_u s2 u') else Ok s2
        else Ok s2) = Ok s1) end.
  { unfold s1, dy, du.
    destruct (Z.ltb_spec (ia_first (z_y s)) K).
    - rewrite ia_popFront_drop by (unfold ia_next, ia_first, ia_size in *; lia).
      cbn [obind with_y with_e with_x z_p z_u z_n z_m z_x z_y z_e].
      destruct (Z.ltb_spec 0 (z_p s)); cbn [andb].
      + destruct (Z.ltb_spec (ia_first (z_u s)) K).
        * destruct Hu as [Hp|(Hu1 & _)]; [lia|].
          rewrite ia_popFront_drop by (unfold ia_next, ia_first, ia_size in *; lia). reflexivity.
        * now rewrite ia_drop_0.
      + now rewrite ia_drop_0.
    - cbn [obind with_y with_e with_x z_p z_u z_n z_m z_x z_y z_e].
      rewrite ia_drop_0.
      destruct (Z.ltb_spec 0 (z_p s)); cbn [andb].
      + destruct (Z.ltb_spec (ia_first (z_u s)) K).
        * destruct Hu as [Hp|(Hu1 & _)]; [lia|].
          rewrite ia_popFront_drop by (unfold ia_next, ia_first, ia_size in *; lia). reflexivity.
        * now rewrite ia_drop_0.
      + now rewrite ia_drop_0. }
  rewrite EA. cbn [obind]. clear EA.
  assert (Fy : ia_first (ia_drop dy (z_y s)) = ia_first (z_y s) + Z.of_nat dy) by reflexivity.
  assert (Fu : ia_first (ia_drop du (z_u s)) = ia_first (z_u s) + Z.of_nat du) by reflexivity.
  destruct n as [|n].
  - (* last iteration *)
    cbn [oiter est_spec obind]. unfold after, s1. cbn [fst snd].
    replace (k + 1) with K by lia.
    assert (dy = ndrop 1 K (ia_first (z_y s))) as <-.
    { unfold dy, ndrop. destruct (Z.ltb_spec (ia_first (z_y s)) K); lia. }
    f_equal. f_equal. destruct (Z.ltb_spec 0 (z_p s)).
    + f_equal. unfold du, ndrop. destruct (Z.ltb_spec 0 (z_p s)); [|lia]. cbn [andb].
      destruct (Z.ltb_spec (ia_first (z_u s)) K); lia.
    + unfold du. destruct (Z.ltb_spec 0 (z_p s)); [lia|]. cbn [andb]. now rewrite ia_drop_0.
  - rewrite (IH s1 (k + 1) K x1); [|reflexivity|lia|right].
    + unfold s1 at 1 2 3. cbn [z_y z_u z_e].
      rewrite (est_spec_ext md (S n) (ia_get md (ia_drop dy (z_y s))) (ia_get md (z_y s))
                 (ia_get md (ia_drop du (z_u s))) (ia_get md (z_u s))).
      * destruct (est_spec md (ia_get md (z_y s)) (ia_get md (z_u s)) (S n) e1 (k + 1) x1) as [[x2 e2]| | |];
          cbn [obind]; auto.
        f_equal. unfold after, s1. cbn [z_n z_m z_p z_y z_u fst snd].
        rewrite !ia_drop_drop, Fy, Fu. f_equal.
        -- f_equal. unfold ndrop, dy. destruct (Z.ltb_spec (ia_first (z_y s)) K); lia.
        -- destruct (Z.ltb_spec 0 (z_p s)).
           ++ f_equal. unfold ndrop, du. destruct (Z.ltb_spec 0 (z_p s)); [|lia]. cbn [andb].
              destruct (Z.ltb_spec (ia_first (z_u s)) K); lia.
           ++ unfold du. destruct (Z.ltb_spec 0 (z_p s)); [lia|]. cbn [andb]. now rewrite ia_drop_0.
      * intros t Ht. apply ia_drop_get; auto. change (ia_k (z_y s)) with (ia_first (z_y s)).
        unfold dy. destruct (Z.ltb_spec (ia_first (z_y s)) K); lia.
      * intros t Ht. destruct (Z.ltb_spec 0 (z_p s)).
        -- apply ia_drop_get; auto. change (ia_k (z_u s)) with (ia_first (z_u s)).
           unfold du. destruct (Z.ltb_spec 0 (z_p s)); [|lia]. cbn [andb].
           destruct Hu as [Hp|(Hu1 & [Hu2|[Hu2 _]])]; [lia| |];
           destruct (Z.ltb_spec (ia_first (z_u s)) K); lia.
        -- unfold du. destruct (Z.ltb_spec 0 (z_p s)); [lia|]. cbn [andb]. now rewrite ia_drop_0.
      * destruct (Z.ltb_spec 0 (z_p s)).
        -- destruct Hu as [Hp|(Hu1 & [Hu2|[Hu2 Hi]])]; [lia| |right; exact Hi].
           left. apply ia_drop_get; auto. change (ia_k (z_u s)) with (ia_first (z_u s)).
           unfold du. destruct (Z.ltb_spec 0 (z_p s)); [|lia]. cbn [andb].
           destruct (Z.ltb_spec (ia_first (z_u s)) K); lia.
        -- left. unfold du. destruct (Z.ltb_spec 0 (z_p s)); [lia|]. cbn [andb]. now rewrite ia_drop_0.
    + unfold covered, s1; cbn [z_y z_u z_p]. rewrite Fy, Fu.
      unfold ia_next in *. rewrite !ia_drop_size by auto.
      unfold ia_first in *; cbn [ia_drop ia_k].
      split; [unfold dy; destruct (Z.ltb_spec (ia_k (z_y s)) K); lia|].
      split; [lia|].
      destruct (Z_le_dec (z_p s) 0); [left; auto|right].
      destruct Hu as [Hp|(Hu1 & Hu2)]; [lia|]. split; [lia|].
      unfold du. destruct (Z.ltb_spec 0 (z_p s)); [|lia]. cbn [andb].
      destruct Hu2 as [Hu2|[Hu2 Hi]].
      * left. destruct (Z.ltb_spec (ia_k (z_u s)) K); lia.
      * destruct (Z.ltb_spec (ia_k (z_u s)) K); [right; split; [lia|exact Hi]|left; lia].
Qed.

(** getEstimatedState under coverage. *)
Lemma getEstimatedState_spec md (s : zdoT) k0 k x :
  z_x s = im_put x k0 -> k0 < k -> covered k0 k s ->
  z_getEstimatedState (local_step st) md k s =
  do xe <- est_spec md (ia_get md (z_y s)) (ia_get md (z_u s)) (Z.to_nat (k - k0)) (z_e s) k0 x;
  Ok (after (Z.to_nat (k - k0)) k s xe, fst xe).
Proof.
  intros Hx Hk Hc. unfold z_getEstimatedState, z_time. rewrite Hx.
  cbn [im_put im_set im_k im_time boost_assert obind].
  assert (k0 <=? k = true) as -> by (apply Z.leb_le; lia). cbn [boost_assert obind].
  rewrite (z_iter_run md (Z.to_nat (k - k0)) s k0 k x); auto; [|lia].
  destruct (Z.to_nat (k - k0)) as [|n] eqn:En; [lia|].
  destruct (est_spec md (ia_get md (z_y s)) (ia_get md (z_u s)) (S n) (z_e s) k0 x) as [[x1 e1]| | |];
    cbn [obind]; auto.
Qed.

Lemma getEstimatedState_now oneStep md (s : zdoT) k0 x :
  z_x s = im_put x k0 -> z_getEstimatedState oneStep md k0 s = Ok (s, x).
Proof.
  intros Hx. unfold z_getEstimatedState, z_time. rewrite Hx.
  cbn [im_put im_set im_k im_time boost_assert obind].
  rewrite Z.leb_refl, Z.sub_diag. cbn [boost_assert obind Z.to_nat oiter].
  unfold im_get. rewrite Hx. reflexivity.
Qed.

(** Remaining window after estimation. *)
Lemma after_first_y n K s xe : ia_first (z_y s) <= K -> K - ia_first (z_y s) <= Z.of_nat n ->
  ia_first (z_y (after n K s xe)) = K.
Proof.
  intros H1 H2. unfold after, ia_first, ndrop in *; cbn. unfold ia_first in *. lia.
Qed.

Lemma after_seen_y n K s xe t :
  ia_first (z_y s) <= K <= ia_next (z_y s) -> K - ia_first (z_y s) <= Z.of_nat n ->
  seen (z_y (after n K s xe)) t = if K <=? t then seen (z_y s) t else None.
Proof.
  intros H1 H2. unfold after; cbn [z_y]. rewrite !seen_entry.
  assert (ndrop n K (ia_first (z_y s)) <= length (ia_v (z_y s)))%nat.
  { unfold ndrop, ia_next, ia_first, ia_size in *. lia. }
  rewrite ia_drop_entry by auto.
  replace (ia_k (z_y s) + Z.of_nat (ndrop n K (ia_first (z_y s)))) with K
    by (unfold ndrop, ia_first in *; lia).
  reflexivity.
Qed.

Lemma after_next_y n K s xe : ia_first (z_y s) <= K <= ia_next (z_y s) ->
  ia_next (z_y (after n K s xe)) = ia_next (z_y s).
Proof.
  intros H1. unfold after; cbn [z_y]. unfold ia_next in *.
  rewrite ia_drop_size.
  - unfold ia_drop; cbn [ia_k]. lia.
  - unfold ndrop, ia_next, ia_first, ia_size in *. lia.
Qed.

(** Batch and incremental estimation. *)
Lemma batch_incremental md (s : zdoT) k0 k1 k2 x :
  z_x s = im_put x k0 -> k0 <= k1 <= k2 -> covered k0 k2 s ->
  (do sx1 <- z_getEstimatedState (local_step st) md k1 s;
   z_getEstimatedState (local_step st) md k2 (fst sx1))
  = z_getEstimatedState (local_step st) md k2 s.
Proof.
  intros Hx Hk Hc. pose proof Hc as (Hy1 & Hy2 & Hu).
  destruct (Z.eq_dec k0 k1) as [->|N1].
  { rewrite (getEstimatedState_now _ md s k1 x Hx). reflexivity. }
  assert (Hc1 : covered k0 k1 s).
  { repeat split; try lia. destruct Hu as [Hp|(Hu1 & Hu2)]; [left; auto|right; split; [lia|auto]]. }
  rewrite (getEstimatedState_spec md s k0 k1 x) by (auto; lia).
  destruct (Z.eq_dec k1 k2) as [<-|N2].
  { rewrite (getEstimatedState_spec md s k0 k1 x) by (auto; lia).
    destruct (est_spec md _ _ (Z.to_nat (k1 - k0)) (z_e s) k0 x) as [[x1 e1]| | |] eqn:Ee; cbn [obind fst]; auto.
    rewrite (getEstimatedState_now _ md _ k1 x1) by reflexivity. reflexivity. }
  rewrite (getEstimatedState_spec md s k0 k2 x) by (auto; lia).
  replace (Z.to_nat (k2 - k0)) with (Z.to_nat (k1 - k0) + Z.to_nat (k2 - k1))%nat by lia.
  rewrite est_spec_add.
  destruct (est_spec md (ia_get md (z_y s)) (ia_get md (z_u s)) (Z.to_nat (k1 - k0)) (z_e s) k0 x)
    as [[x1 e1]| | |] eqn:Ee; cbn [obind fst snd]; auto.
  replace (k0 + Z.of_nat (Z.to_nat (k1 - k0))) with k1 by lia.
  set (s1 := after (Z.to_nat (k1 - k0)) k1 s (x1, e1)).
  set (dy := ndrop (Z.to_nat (k1 - k0)) k1 (ia_first (z_y s))).
  set (du := ndrop (Z.to_nat (k1 - k0)) k1 (ia_first (z_u s))).
  assert (Ldy : (dy <= length (ia_v (z_y s)))%nat).
  { unfold dy, ndrop, ia_next, ia_first, ia_size in *. lia. }
  assert (Ldu : 0 < z_p s -> (du <= length (ia_v (z_u s)))%nat).
  { intros Hp. destruct Hu as [Hp'|(Hu1 & Hu2)]; [lia|].
    unfold du, ndrop, ia_next, ia_first, ia_size in *. lia. }
  assert (Hc2 : covered k1 k2 s1).
  { unfold covered, s1, after; cbn [z_y z_u z_p]. fold dy.
    unfold ia_next, ia_first in *. rewrite ia_drop_size by auto. cbn [ia_drop ia_k].
    split; [unfold dy, ndrop, ia_first; lia|]. split; [lia|].
    destruct (Z.ltb_spec 0 (z_p s)); [right|left; lia].
    destruct Hu as [Hp'|(Hu1 & Hu2)]; [lia|].
    fold du. rewrite ia_drop_size by auto. unfold du, ndrop, ia_first. cbn [ia_drop ia_k].
    split; [lia|]. destruct Hu2; left; lia. }
  rewrite (getEstimatedState_spec md s1 k1 k2 x1) by (auto; lia).
  rewrite (est_spec_ext md (Z.to_nat (k2 - k1)) (ia_get md (z_y s1)) (ia_get md (z_y s))
             (ia_get md (z_u s1)) (ia_get md (z_u s))).
  - unfold s1 at 1. cbn [after z_e snd].
    destruct (est_spec md (ia_get md (z_y s)) (ia_get md (z_u s)) (Z.to_nat (k2 - k1)) e1 k1 x1)
      as [[x2 e2]| | |]; cbn [obind fst snd]; auto.
    do 2 f_equal. unfold s1, after. cbn [z_n z_m z_p z_y z_u z_x z_e fst snd].
    f_equal.
    + rewrite ia_drop_drop. f_equal. cbn. unfold ndrop, ia_first in *. cbn. lia.
    + destruct (Z.ltb_spec 0 (z_p s)); auto. rewrite ia_drop_drop. f_equal. cbn.
      destruct Hu as [Hp'|(Hu1 & Hu2)]; [lia|].
      unfold ndrop, ia_first in *. cbn. lia.
  - intros t Ht. unfold s1, after; cbn [z_y]. apply ia_drop_get; auto.
    unfold ndrop, ia_first in *. lia.
  - intros t Ht. unfold s1, after; cbn [z_u z_p]. destruct (Z.ltb_spec 0 (z_p s)); auto.
    apply ia_drop_get; auto. destruct Hu as [Hp'|(Hu1 & Hu2)]; [lia|].
    unfold ndrop, ia_first in *. lia.
  - left. unfold s1, after; cbn [z_u z_p]. destruct (Z.ltb_spec 0 (z_p s)); auto.
    apply ia_drop_get; auto. destruct Hu as [Hp'|(Hu1 & Hu2)]; [lia|].
    unfold ndrop, ia_first in *. lia.
Qed.
End P.
