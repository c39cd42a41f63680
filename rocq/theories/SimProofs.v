(** Proofs about the simulator. *)
From Coq Require Import ZArith List Lia Bool.
From Verif Require Import Base Defs SpecArray ArrayProofs Simulator.
Import ListNotations.
Open Scope Z_scope.

(** ** Notions used in the statements *)
Section Spec.
Context {X U Y : Type}.
(** The input in force at time t, among timed inputs. *)
Definition in_force (us : list (Z * U)) (t : Z) (u : U) : Prop :=
  exists k, In (k, u) us /\ k <= t /\ forall k' u', In (k', u') us -> k' <= t -> k' <= k.
(** The inputs given in a history. *)
Fixpoint inputs (ops : list (sim_op X U Y)) : list (Z * U) :=
  match ops with [] => [] | SInput u k :: os => (k, u) :: inputs os | _ :: os => inputs os end.
(** A simulation phase: inputs, simulations and queries only. *)
Definition phase_op (o : sim_op X U Y) : bool :=
  match o with SInput _ _ | SSim | SSimTo _ | SGetState _ | SGetMeas _ => true | _ => false end.
(** No input is given for a time already simulated (k0 is the time of the first state). *)
Fixpoint inputs_in_time (md : mode) (k0 : Z) (ops : list (sim_op X U Y)) (s : sim X U Y) : Prop :=
  match ops with
  | [] => True
  | o :: os =>
      match o with SInput _ k => sim_getCurrentTime s = k0 \/ sim_getCurrentTime s <= k | _ => True end /\
      match sim_step md o s with Ok s' => inputs_in_time md k0 os s' | _ => True end
  end.
End Spec.

Section P.
Context {X U Y : Type}.
Notation sim := (sim X U Y).
Implicit Types s : sim.

(** ** The map of inputs *)
Inductive sorted : list (Z * U) -> Prop :=
| sorted_nil : sorted []
| sorted_cons k u l : (forall k' u', In (k', u') l -> k < k') -> sorted l -> sorted ((k, u) :: l).

Lemma insert_in k u l k' u' : sorted l -> In (k', u') (map_insert k u l) <->
  In (k', u') l \/ (k' = k /\ u' = u /\ forall v, ~ In (k, v) l).
Proof.
  induction l as [|[k1 u1] l IH]; intros Hs; cbn [map_insert].
  - cbn. split; [intros [E|[]]; inversion E; auto|]. intros [[]|(-> & -> & _)]; auto.
  - inversion Hs as [|? ? ? Hlt Hs']; subst.
    destruct (Z.ltb_spec k k1).
    + cbn. split.
      * intros [E|E]; [|auto]. inversion E; subst. right. repeat split; auto.
        intros v [E'|E']; [inversion E'; lia|]. specialize (Hlt _ _ E'). lia.
      * intros [E|(-> & -> & _)]; auto.
    + destruct (Z.ltb_spec k1 k).
      * cbn. rewrite IH by auto. split.
        -- intros [E|[E|(-> & -> & Hn)]]; auto. right. repeat split; auto.
           intros v [E|E]; [inversion E; lia|eapply Hn; eauto].
        -- intros [[E|E]|(-> & -> & Hn)]; auto. right. right. repeat split; auto.
           intros v Hv. apply (Hn v). auto.
      * assert (k = k1) by lia. subst k1. split; [auto|].
        intros [E|(-> & -> & Hn)]; auto. exfalso. apply (Hn u1). cbn. auto.
Qed.

Lemma insert_sorted k u l : sorted l -> sorted (map_insert k u l).
Proof.
  induction l as [|[k1 u1] l IH]; intros Hs; cbn [map_insert].
  - constructor; [intros ? ? []|constructor].
  - inversion Hs as [|? ? ? Hlt Hs']; subst.
    destruct (Z.ltb_spec k k1).
    + constructor; auto. intros k' u' [E|E]; [inversion E; lia|]. specialize (Hlt _ _ E). lia.
    + destruct (Z.ltb_spec k1 k); [|auto].
      constructor; [|auto]. intros k' u' E. apply insert_in in E; [|auto].
      destruct E as [E|(-> & _)]; [eapply Hlt; eauto|lia].
Qed.

Lemma before_some l t : sorted l -> forall u, map_before t l = Some u -> in_force l t u.
Proof.
  induction l as [|[k1 u1] l IH]; intros Hs u; cbn [map_before]; [discriminate|].
  inversion Hs as [|? ? ? Hlt Hs']; subst.
  destruct (Z.leb_spec k1 t); [|discriminate].
  destruct (map_before t l) as [v|] eqn:E; intros Ev; inversion Ev; subst; clear Ev.
  - destruct (IH Hs' u eq_refl) as (k & H1 & H2 & H3). exists k. repeat split; auto; [right; auto|].
    intros k' u' [E'|E'] Ht; [inversion E'; subst; specialize (Hlt _ _ H1); lia|eauto].
  - exists k1. repeat split; auto; [left; auto|].
    intros k' u' [E'|E'] Ht; [inversion E'; lia|].
    exfalso. revert E. clear - E' Ht Hs'. induction l as [|[k2 u2] l IH]; [contradiction|]. cbn [map_before].
    inversion Hs' as [|? ? ? Hlt Hs2]; subst. destruct E' as [E'|E'].
    + inversion E'; subst. destruct (Z.leb_spec k' t); [|lia]. destruct (map_before t l); discriminate.
    + specialize (Hlt _ _ E'). destruct (Z.leb_spec k2 t); [|lia]. destruct (map_before t l); discriminate.
Qed.
Lemma before_none l t : sorted l -> map_before t l = None -> forall k u, In (k, u) l -> t < k.
Proof.
  destruct l as [|[k1 u1] l]; cbn [map_before]; intros Hs E k u Hin; [contradiction|].
  inversion Hs as [|? ? ? Hlt Hs']; subst.
  destruct (Z.leb_spec k1 t); [destruct (map_before t l); discriminate|].
  destruct Hin as [Hin|Hin]; [inversion Hin; subst; lia|]. specialize (Hlt _ _ Hin). lia.
Qed.
Lemma in_force_fun (l : list (Z * U)) t u u' : NoDup (map fst l) -> in_force l t u -> in_force l t u' -> u = u'.
Proof.
  intros Hn (k & H1 & H2 & H3) (k' & H1' & H2' & H3').
  assert (k = k') by (specialize (H3 _ _ H1' H2'); specialize (H3' _ _ H1 H2); lia). subst k'.
  clear - Hn H1 H1'. induction l as [|[k1 u1] l IH]; [contradiction|]. cbn in *.
  inversion Hn as [|? ? Hn1 Hn2]; subst.
  destruct H1 as [E|H1], H1' as [E'|H1']; try congruence; auto.
  - inversion E; subst. destruct Hn1. apply in_map_iff. exists (k, u'). auto.
  - inversion E'; subst. destruct Hn1. apply in_map_iff. exists (k, u). auto.
Qed.

(** ** One array write *)
Lemma set_next {A} md (a : iarr A) lo hi m v : rep a (mkW lo hi m) -> lo < hi ->
  exists a', ia_setValue md v hi a = Ok a' /\ rep a' (mkW lo (hi + 1) (upd m hi (Some v))).
Proof.
  intros Hr Hlt. pose proof (step_sim (OSet v hi) a _ Hr) as S. cbn [w_step ia_step] in S.
  destruct (Z.ltb_spec hi hi); [lia|]. rewrite andb_false_r in S.
  destruct (Z.eqb_spec lo hi); [lia|]. rewrite Z.eqb_refl in S.
  destruct S as (a' & E1 & E2 & Hr'). exists a'. destruct md; auto.
Qed.
Lemma set_first {A} md (a : iarr A) k0 m v k : rep a (mkW k0 k0 m) ->
  exists a', ia_setValue md v k a = Ok a' /\ rep a' (mkW k (k + 1) (upd (fun _ => None) k (Some v))).
Proof.
  intros Hr. pose proof (step_sim (OSet v k) a _ Hr) as S. cbn [w_step ia_step] in S.
  assert ((k0 <=? k) && (k <? k0) = false) as E0 by (destruct (Z.leb_spec k0 k), (Z.ltb_spec k k0); cbn; auto; lia).
  rewrite E0, Z.eqb_refl in S. destruct S as (a' & E1 & E2 & Hr'). exists a'. destruct md; auto.
Qed.
Lemma rep_get {A} md (a : iarr A) lo hi m t : rep a (mkW lo hi m) -> lo <= t < hi ->
  exists v, m t = Some v /\ ia_get md a t = Ok v.
Proof.
  intros Hr Ht. destruct (rep_agrees _ _ Hr) as (_ & _ & _ & _ & H). destruct (H t) as [Hin _].
  destruct (Hin Ht) as (v & E & E1 & E2). exists v. destruct md; auto.
Qed.
Lemma rep_get_some {A} md (a : iarr A) lo hi m t v : rep a (mkW lo hi m) -> m t = Some v -> ia_get md a t = Ok v.
Proof. intros (H1 & H2 & H3) E. apply ia_get_in. rewrite H3. exact E. Qed.
Lemma rep_bounds {A} (a : iarr A) lo hi m : rep a (mkW lo hi m) ->
  ia_k a = lo /\ ia_size a = hi - lo /\ lo <= hi /\ ia_last a = hi - 1 /\ ia_next a = hi.
Proof.
  intros Hr. destruct (rep_agrees _ _ Hr) as (H1 & H2 & H3 & H4 & _). unfold ia_first, ia_next, ia_last in *. cbn in *. lia.
Qed.
Lemma get_out {A} md (a : iarr A) t v : ~ (ia_k a <= t < ia_k a + ia_size a) -> ia_get md a t <> Ok v.
Proof.
  intros Ht. pose proof (entry_out a t Ht) as E. destruct md.
  - rewrite (ia_get_out_debug _ _ E). discriminate.
  - rewrite (ia_get_out_release _ _ E). discriminate.
Qed.

(** ** The invariant of a simulation phase started at (x0, k0) *)
Variable fh : functor X U Y.
Definition traj (us : list (Z * U)) (x0 : X) (k0 T : Z) (xs : Z -> X) (ys : Z -> option Y) : Prop :=
  xs k0 = x0 /\ forall i, k0 <= i < T -> exists u, in_force us i u /\ xs (i + 1) = f_dyn fh (xs i) u i /\ ys i = Some (f_meas fh (xs i) u i).

Definition inv (us : list (Z * U)) (x0 : X) (k0 : Z) s : Prop :=
  s_f s = Some fh /\ sorted (s_u s) /\ (forall k u, In (k, u) (s_u s) <-> In (k, u) us) /\
  exists T xs ys, k0 <= T /\ traj us x0 k0 T xs ys /\
    rep (s_x s) (mkW k0 (T + 1) (fun i => if (k0 <=? i) && (i <=? T) then Some (xs i) else None)) /\
    (T = k0 -> exists k, rep (s_y s) (mkW k k (fun _ => None))) /\
    (k0 < T -> rep (s_y s) (mkW k0 T (fun i => if (k0 <=? i) && (i <? T) then ys i else None))).

Lemma in_force_iff us us' : (forall (k : Z) (u : U), In (k, u) us <-> In (k, u) us') -> forall t u, in_force us t u <-> in_force us' t u.
Proof.
  intros H t u. split; intros (k & H1 & H2 & H3); exists k; (split; [apply H; auto|]); (split; [auto|]);
  intros k' u' Hin; apply H in Hin; eauto.
Qed.
Lemma rep_ext {A} (a : iarr A) lo hi m m' : (forall t, m t = m' t) -> rep a (mkW lo hi m) -> rep a (mkW lo hi m').
Proof. intros H (H1 & H2 & H3). repeat split; auto. cbn in *. intros t. rewrite <- H. apply H3. Qed.

Lemma simulate_inv md us x0 k0 s : inv us x0 k0 s -> (exists k u, In (k, u) us /\ k <= k0) ->
  exists s', sim_simulate md s = Ok s' /\ inv us x0 k0 s' /\ sim_getCurrentTime s' = sim_getCurrentTime s + 1 /\
    ia_next (s_y s') = sim_getCurrentTime s' /\ (ia_size (s_y s') <> 0).
Proof.
  intros (Hf & Hso & Hin & T & xs & ys & HT & (Hx0 & Htr) & Hx & Hy0 & Hy1) (ki & ui & Hki & Hle).
  destruct (rep_bounds _ _ _ _ Hx) as (Bk & Bs & _ & Bl & _).
  assert (Hl : ia_last (s_x s) = T) by lia.
  unfold sim_simulate, sim_getCurrentTime. rewrite Hf. cbn [boost_assert obind]. rewrite Hl.
  unfold sim_getInput.
  assert (Hne : (0 <? Z.of_nat (length (s_u s))) = true).
  { apply Hin in Hki. destruct (s_u s); [contradiction|]. cbn [length]. apply Z.ltb_lt. lia. }
  rewrite Hne. cbn [boost_assert obind].
  destruct (map_before T (s_u s)) as [u|] eqn:Eb.
  2:{ exfalso. apply Hin in Hki. pose proof (before_none _ _ Hso Eb _ _ Hki). lia. }
  apply before_some in Eb; [|auto]. apply (in_force_iff _ _ Hin) in Eb.
  cbn [obind].
  assert (Ex : ia_get md (s_x s) T = Ok (xs T)).
  { apply (rep_get_some md _ _ _ _ _ _ Hx). destruct (Z.leb_spec k0 T), (Z.leb_spec T T); cbn; auto; lia. }
  rewrite Ex. cbn [obind].
  set (y := f_meas fh (xs T) u T). set (x := f_dyn fh (xs T) u T).
  destruct (set_next md _ _ _ _ x Hx ltac:(lia)) as (xa & Exa & Hxa).
  assert (HY : exists ya, ia_setValue md y T (s_y s) = Ok ya /\
     rep ya (mkW k0 (T + 1) (fun i => if (k0 <=? i) && (i <? T + 1) then (if i =? T then Some y else ys i) else None))).
  { destruct (Z.eq_dec T k0) as [->|Hne'].
    - destruct (Hy0 eq_refl) as (k & Hk). destruct (set_first md _ _ _ y k0 Hk) as (ya & E & Hr).
      exists ya. split; auto. eapply rep_ext; [|exact Hr]. intros t. cbn. unfold upd.
      destruct (Z.eqb_spec t k0), (Z.leb_spec k0 t), (Z.ltb_spec t (k0 + 1)); cbn; auto; lia.
    - destruct (set_next md _ _ _ _ y (Hy1 ltac:(lia)) ltac:(lia)) as (ya & E & Hr).
      exists ya. split; auto. eapply rep_ext; [|exact Hr]. intros t. cbn. unfold upd.
      destruct (Z.eqb_spec t T), (Z.leb_spec k0 t), (Z.ltb_spec t (T + 1)), (Z.ltb_spec t T); cbn; auto; lia. }
  destruct HY as (ya & Eya & Hya). rewrite Eya. cbn [obind]. rewrite Exa. cbn [obind].
  eexists. split; [reflexivity|].
  destruct (rep_bounds _ _ _ _ Hxa) as (_ & _ & _ & Bl' & _).
  destruct (rep_bounds _ _ _ _ Hya) as (_ & Bsy & _ & _ & Bny).
  cbn [s_x s_y s_f s_u].
  split; [|rewrite Bl', Bny; repeat split; lia].
  split; [auto|]. split; [auto|]. split; [auto|].
  exists (T + 1), (fun i => if i =? T + 1 then x else xs i), (fun i => if i =? T then Some y else ys i).
  split; [lia|]. split.
  { split; [destruct (Z.eqb_spec k0 (T + 1)); [lia|auto]|].
    intros i Hi. destruct (Z.eqb_spec i T) as [->|Hi'].
    - exists u. rewrite Z.eqb_refl. destruct (Z.eqb_spec T (T + 1)); [lia|]. auto.
    - destruct (Htr i ltac:(lia)) as (u' & H1 & H2 & H3). exists u'.
      destruct (Z.eqb_spec (i + 1) (T + 1)); [lia|]. destruct (Z.eqb_spec i (T + 1)); [lia|]. auto. }
  cbn [s_x s_y]. split; [|split].
  - eapply rep_ext; [|exact Hxa]. intros t. cbn. unfold upd.
    destruct (Z.eqb_spec t (T + 1)), (Z.leb_spec k0 t), (Z.leb_spec t (T + 1)), (Z.leb_spec t T); cbn; auto; lia.
  - intros; lia.
  - intros _. exact Hya.
Qed.

Lemma simulateTo_inv md us x0 k0 k s : inv us x0 k0 s -> (exists k u, In (k, u) us /\ k <= k0) ->
  exists s', sim_simulateTo md k s = Ok s' /\ inv us x0 k0 s' /\ sim_getCurrentTime s' = Z.max (sim_getCurrentTime s) k /\
    (sim_getCurrentTime s < k -> ia_next (s_y s') = k).
Proof.
  intros Hi He. unfold sim_simulateTo. remember (Z.to_nat (k - ia_last (s_x s))) as n eqn:En.
  revert s Hi En. induction n as [|n IH]; intros s Hi En.
  - exists s. cbn. split; auto. split; auto. unfold sim_getCurrentTime. split; [|intros]; lia.
  - destruct (simulate_inv md _ _ _ _ Hi He) as (s1 & E1 & H1 & T1 & Y1 & _).
    unfold sim_getCurrentTime in *.
    destruct (IH s1 H1 ltac:(lia)) as (s2 & E2 & H2 & T2 & Y2).
    exists s2. cbn [oiter]. rewrite E1. cbn [obind]. split; [auto|]. split; [auto|]. split; [lia|].
    intros Hk. destruct (Z.eq_dec (ia_last (s_x s1)) k) as [E|E]; [|apply Y2; lia].
    replace n with O in * by lia. cbn in E2. injection E2 as <-. lia.
Qed.

(** A call that succeeds keeps the invariant (whether or not an input is available). *)
Lemma simulate_ok_input md s s' : sim_simulate md s = Ok s' -> exists u, map_before (ia_last (s_x s)) (s_u s) = Some u.
Proof.
  unfold sim_simulate, sim_getInput. intros H.
  destruct (boost_assert md _); cbn [obind] in H; try discriminate.
  destruct (boost_assert md _); cbn [obind] in H; try discriminate.
  destruct (map_before _ _); [eauto|discriminate].
Qed.
Lemma simulate_inv_ok md us x0 k0 s s' : inv us x0 k0 s -> sim_simulate md s = Ok s' ->
  inv us x0 k0 s' /\ sim_getCurrentTime s' = sim_getCurrentTime s + 1 /\ s_u s' = s_u s.
Proof.
  intros Hi E. pose proof Hi as (Hf & Hso & Hin & T & xs & ys & HT & (Hx0 & Htr) & Hx & Hy0 & Hy1).
  assert (He : exists k u, In (k, u) us /\ k <= k0).
  { destruct (Z.eq_dec T k0) as [->|Hne].
    - destruct (simulate_ok_input _ _ _ E) as (u & Eu). apply before_some in Eu; [|auto].
      destruct Eu as (k & H1 & H2 & _). exists k, u. destruct (rep_bounds _ _ _ _ Hx) as (_ & _ & _ & Bl & _).
      split; [apply Hin; auto|lia].
    - destruct (Htr k0 ltac:(lia)) as (u & (k & H1 & H2 & _) & _). eauto. }
  destruct (simulate_inv md _ _ _ _ Hi He) as (s1 & E1 & H1 & H2 & _). rewrite E in E1. inversion E1; subst s1.
  split; auto. split; auto.
  revert E. unfold sim_simulate. rewrite Hf. cbn [boost_assert obind].
  destruct (sim_getInput _ _ _); cbn [obind]; try discriminate. destruct (ia_get _ _ _); cbn [obind]; try discriminate.
  destruct (ia_setValue _ _ _ (s_y s)); cbn [obind]; try discriminate. destruct (ia_setValue _ _ _ (s_x s)); cbn [obind]; try discriminate.
  intros E; inversion E; subst; reflexivity.
Qed.
Lemma simulateTo_inv_ok md us x0 k0 k s s' : inv us x0 k0 s -> sim_simulateTo md k s = Ok s' ->
  inv us x0 k0 s' /\ sim_getCurrentTime s' = Z.max (sim_getCurrentTime s) k.
Proof.
  intros Hi. unfold sim_simulateTo. remember (Z.to_nat (k - ia_last (s_x s))) as n eqn:En.
  revert s Hi En. induction n as [|n IH]; intros s Hi En; cbn [oiter].
  - intros E; inversion E; subst. split; auto. unfold sim_getCurrentTime. lia.
  - intros E. apply obind_Ok_inv in E. destruct E as (s1 & E1 & E2).
    destruct (simulate_inv_ok _ _ _ _ _ _ Hi E1) as (H1 & T1 & _). unfold sim_getCurrentTime in *.
    destruct (IH s1 H1 ltac:(lia) E2) as (H2 & T2). split; auto. lia.
Qed.

(** A new input at a time not simulated yet. *)
Lemma input_inv us x0 k0 s u k : inv us x0 k0 s -> (sim_getCurrentTime s = k0 \/ sim_getCurrentTime s <= k) -> ~ In k (map fst us) ->
  inv ((k, u) :: us) x0 k0 (sim_setInput u k s).
Proof.
  intros (Hf & Hso & Hin & T & xs & ys & HT & (Hx0 & Htr) & Hx & Hy0 & Hy1) Hk Hn.
  destruct (rep_bounds _ _ _ _ Hx) as (_ & _ & _ & Bl & _). unfold sim_getCurrentTime in Hk.
  split; [auto|]. split; [apply insert_sorted; auto|]. split.
  { intros k' u'. cbn [sim_setInput s_u]. rewrite insert_in by auto. cbn. rewrite Hin. split.
    - intros [E|(-> & -> & _)]; auto.
    - intros [E|E]; auto. inversion E; subst. right. repeat split; auto.
      intros v Hv. apply Hn. apply Hin in Hv. apply in_map_iff. exists (k', v). auto. }
  exists T, xs, ys. split; [auto|]. split; [|auto].
  split; [auto|]. intros i Hi. destruct (Htr i Hi) as (u' & (k' & H1 & H2 & H3) & H4).
  exists u'. split; [|auto]. exists k'. split; [right; auto|]. split; [auto|].
  intros k2 u2 [E|E] Ht; [inversion E; subst; lia|eauto].
Qed.

Lemma inv_perm us us' x0 k0 s : (forall k u, In (k, u) us <-> In (k, u) us') -> inv us x0 k0 s -> inv us' x0 k0 s.
Proof.
  intros H (Hf & Hso & Hin & T & xs & ys & HT & (Hx0 & Htr) & Hx & Hy0 & Hy1).
  split; [auto|]. split; [auto|]. split; [intros; rewrite Hin; auto|].
  exists T, xs, ys. split; [auto|]. split; [|auto]. split; auto. intros i Hi.
  destruct (Htr i Hi) as (u & H1 & H2). exists u. split; auto. apply (in_force_iff _ _ H). auto.
Qed.

Lemma phase_inv md ops : forall us x0 k0 s s', inv us x0 k0 s -> forallb phase_op ops = true -> inputs_in_time md k0 ops s ->
  NoDup (map fst (inputs ops) ++ map fst us) -> sim_run md ops s = Ok s' -> inv (inputs ops ++ us) x0 k0 s'.
Proof.
  induction ops as [|o ops IH]; intros us x0 k0 s s' Hi Hp Ht Hn Hr.
  - cbn in Hr. inversion Hr; subst. exact Hi.
  - cbn [forallb] in Hp. apply andb_prop in Hp. destruct Hp as [Hp Hps].
    unfold sim_run in Hr. cbn [orun] in Hr. apply obind_Ok_inv in Hr. destruct Hr as (s1 & E1 & Hr).
    cbn [inputs_in_time] in Ht. destruct Ht as [Ho Ht]. rewrite E1 in Ht.
    assert (Hsame : inv us x0 k0 s1 -> inputs (o :: ops) = inputs ops -> inv (inputs (o :: ops) ++ us) x0 k0 s').
    { intros H1 E. rewrite E in *. eapply IH; eauto. }
    destruct o as [f|x k|u k| |k|k|k| |]; try discriminate Hp; cbn [sim_step] in E1.
    + inversion E1; subst s1. cbn [inputs map app fst] in Hn |- *. inversion Hn as [|? ? Hn1 Hn2]; subst.
      rewrite in_app_iff in Hn1.
      assert (H1 : inv ((k, u) :: us) x0 k0 (sim_setInput u k s)) by (apply input_inv; auto).
      eapply inv_perm; [|eapply (IH _ _ _ _ _ H1 Hps Ht)].
      * intros k' u'. cbn. rewrite !in_app_iff. cbn. tauto.
      * cbn [map fst]. apply NoDup_Add with (a := k) (l := map fst (inputs ops) ++ map fst us).
        { apply Add_app. }
        split; auto. rewrite in_app_iff. auto.
      * exact Hr.
    + apply Hsame; [|reflexivity]. destruct (simulate_inv_ok _ _ _ _ _ _ Hi E1) as (H1 & _). exact H1.
    + apply Hsame; [|reflexivity]. destruct (simulateTo_inv_ok _ _ _ _ _ _ _ Hi E1) as (H1 & _). exact H1.
    + apply Hsame; [|reflexivity]. apply obind_Ok_inv in E1. destruct E1 as ([v s2] & E1 & E2). cbn in E2. inversion E2; subst s2. clear E2.
      unfold sim_getState in E1. apply obind_Ok_inv in E1. destruct E1 as (_ & _ & E1).
      apply obind_Ok_inv in E1. destruct E1 as (s2 & E1 & E2). apply obind_Ok_inv in E2. destruct E2 as (v' & _ & E2). inversion E2; subst.
      destruct (_ <? _); [|inversion E1; subst; exact Hi].
      destruct (simulateTo_inv_ok _ _ _ _ _ _ _ Hi E1) as (H1 & _). exact H1.
    + apply Hsame; [|reflexivity]. apply obind_Ok_inv in E1. destruct E1 as ([v s2] & E1 & E2). cbn in E2. inversion E2; subst s2. clear E2.
      unfold sim_getMeasurement in E1. apply obind_Ok_inv in E1. destruct E1 as (_ & _ & E1).
      apply obind_Ok_inv in E1. destruct E1 as (s2 & E1 & E2). apply obind_Ok_inv in E2. destruct E2 as (v' & _ & E2). inversion E2; subst.
      destruct (_ <? _); [|inversion E1; subst; exact Hi].
      destruct (simulateTo_inv_ok _ _ _ _ _ _ _ Hi E1) as (H1 & _). exact H1.
Qed.

(** The start of a phase, from any earlier state. *)
Lemma start_inv md x0 k0 s0 : exists s, sim_run md [SResetDyn; SFunctor fh; SState x0 k0] s0 = Ok s /\ inv [] x0 k0 s.
Proof.
  unfold sim_run. cbn [orun sim_step obind].
  assert (Es : sim_setState md x0 k0 (sim_setFunctor fh (sim_resetDynamics s0)) =
    (do xs <- ia_setValue md x0 k0 ia_empty; Ok (mkSim (Y := Y) (U := U) (Some fh) xs ia_empty []))) by reflexivity.
  rewrite Es.
  destruct (set_first md _ _ _ x0 k0 (rep_empty (A := X))) as (a & E & Hr).
  rewrite E. cbn [obind]. eexists. split; [reflexivity|].
  split; [reflexivity|]. split; [constructor|]. split; [reflexivity|].
  exists k0, (fun _ => x0), (fun _ => None). split; [lia|]. split; [split; [auto|intros; lia]|].
  cbn [s_x s_y]. split; [|split].
  - eapply rep_ext; [|exact Hr]. intros t. cbn. unfold upd.
    destruct (Z.eqb_spec t k0), (Z.leb_spec k0 t), (Z.leb_spec t k0); cbn; auto; lia.
  - intros _. exists 0. exact (rep_empty (A := Y)).
  - intros; lia.
Qed.

(** ** What the queries return *)
Lemma inv_queries md us x0 k0 s : inv us x0 k0 s -> exists xs,
  k0 <= sim_getCurrentTime s /\ xs k0 = x0 /\
  (forall i, k0 <= i <= sim_getCurrentTime s -> sim_getState md i s = Ok (xs i, s)) /\
  forall i, k0 <= i < sim_getCurrentTime s -> exists u, in_force us i u /\
    xs (i + 1) = f_dyn fh (xs i) u i /\
    ia_get md (s_y s) i = Ok (f_meas fh (xs i) u i) /\ ia_first (s_y s) = k0 /\ i < ia_next (s_y s) /\
    (md = Release \/ k0 < i -> sim_getMeasurement md i s = Ok (f_meas fh (xs i) u i, s)).
Proof.
  intros (Hf & Hso & Hin & T & xs & ys & HT & (Hx0 & Htr) & Hx & Hy0 & Hy1).
  destruct (rep_bounds _ _ _ _ Hx) as (Bk & Bs & _ & Bl & _).
  assert (ET : sim_getCurrentTime s = T) by (unfold sim_getCurrentTime; lia). rewrite ET.
  exists xs. split; [auto|]. split; [auto|]. split.
  - intros i Hi. unfold sim_getState, ia_first.
    assert (E1 : (ia_size (s_x s) =? 0) || (ia_k (s_x s) <=? i) = true) by (rewrite Bk; destruct (Z.leb_spec k0 i); [apply orb_true_r|lia]).
    rewrite E1. cbn [boost_assert obind]. destruct (Z.ltb_spec (ia_last (s_x s)) i); [lia|]. cbn [obind].
    rewrite (rep_get_some md _ _ _ _ i (xs i) Hx); [reflexivity|].
    destruct (Z.leb_spec k0 i), (Z.leb_spec i T); cbn; auto; lia.
  - intros i Hi. destruct (Htr i Hi) as (u & H1 & H2 & H3). exists u. split; [auto|]. split; [auto|].
    specialize (Hy1 ltac:(lia)). destruct (rep_bounds _ _ _ _ Hy1) as (Byk & Bys & _ & _ & Byn).
    assert (E : ia_get md (s_y s) i = Ok (f_meas fh (xs i) u i)).
    { apply (rep_get_some md _ _ _ _ _ _ Hy1). rewrite H3. destruct (Z.leb_spec k0 i), (Z.ltb_spec i T); cbn; auto; lia. }
    split; [auto|]. unfold ia_first. split; [auto|]. split; [lia|]. intros Hmd. unfold sim_getMeasurement, ia_first.
    destruct (Z.ltb_spec (ia_next (s_y s)) i); [lia|].
    destruct md.
    + destruct Hmd as [Hmd|Hmd]; [discriminate|]. rewrite Byk. destruct (Z.ltb_spec k0 i); [|lia]. rewrite orb_true_r.
      cbn [boost_assert obind]. rewrite E. reflexivity.
    + cbn [boost_assert obind]. rewrite E. destruct (_ || _); reflexivity.
Qed.

(** A successful step moves the last index of the states by one, from any state. *)
Lemma simulate_last md s s' : sim_simulate md s = Ok s' -> ia_last (s_x s') = ia_last (s_x s) + 1.
Proof.
  unfold sim_simulate. intros E. apply obind_Ok_inv in E. destruct E as (_ & _ & E).
  apply obind_Ok_inv in E. destruct E as (u & _ & E). destruct (s_f s) as [f|]; [|discriminate].
  apply obind_Ok_inv in E. destruct E as (x & Ex & E). apply obind_Ok_inv in E. destruct E as (ya & _ & E).
  apply obind_Ok_inv in E. destruct E as (xa & Exa & E). inversion E; subst. cbn [s_x].
  assert (Hne : 0 < ia_size (s_x s)).
  { destruct (Z_lt_le_dec 0 (ia_size (s_x s))) as [H|H]; [auto|]. exfalso. revert Ex. apply get_out. lia. }
  revert Exa. unfold ia_setValue.
  assert (E1 : ia_checkIndex (s_x s) (ia_last (s_x s) + 1) = false) by (apply checkIndex_false; unfold ia_last; lia).
  rewrite E1. destruct (boost_assert md _); cbn [obind]; try discriminate.
  intros E2. inversion E2; subst. unfold ia_last, ia_size. cbn [ia_k ia_v]. rewrite app_length. cbn [length].
  fold (ia_size (s_x s)). destruct (Z.eqb_spec (ia_size (s_x s)) 0); [lia|]. unfold ia_size. lia.
Qed.
Lemma simulateTo_last md k s s' : sim_simulateTo md k s = Ok s' -> ia_last (s_x s') = Z.max (ia_last (s_x s)) k.
Proof.
  unfold sim_simulateTo. remember (Z.to_nat (k - ia_last (s_x s))) as n eqn:En. revert s En.
  induction n as [|n IH]; intros s En E; cbn [oiter] in E.
  - inversion E; subst. lia.
  - apply obind_Ok_inv in E. destruct E as (s1 & E1 & E2). pose proof (simulate_last _ _ _ E1).
    specialize (IH s1 ltac:(lia) E2). lia.
Qed.
Lemma future_state md k s r : ia_last (s_x s) < k -> sim_getState md k s <> Ok r.
Proof.
  intros Hk E. unfold sim_getState in E. apply obind_Ok_inv in E. destruct E as (_ & _ & E).
  destruct (Z.ltb_spec (ia_last (s_x s)) k); [|lia].
  apply obind_Ok_inv in E. destruct E as (s1 & E1 & E). apply obind_Ok_inv in E. destruct E as (v & E & _).
  apply simulateTo_last in E1. revert E. apply get_out. unfold ia_last in *. lia.
Qed.
Lemma future_measurement md us x0 k0 k s r : inv us x0 k0 s -> sim_getCurrentTime s <= k -> sim_getMeasurement md k s <> Ok r.
Proof.
  intros Hi Hk E. unfold sim_getMeasurement in E. apply obind_Ok_inv in E. destruct E as (_ & _ & E).
  apply obind_Ok_inv in E. destruct E as (s1 & E1 & E). apply obind_Ok_inv in E. destruct E as (v & E & _).
  assert (Hi1 : inv us x0 k0 s1 /\ sim_getCurrentTime s1 <= k).
  { destruct (_ <? _); [|inversion E1; subst; auto].
    destruct (simulateTo_inv_ok _ _ _ _ _ _ _ Hi E1) as (H1 & H2). split; auto. lia. }
  destruct Hi1 as ((_ & _ & _ & T & xs & ys & HT & _ & Hx & Hy0 & Hy1) & Hk1).
  destruct (rep_bounds _ _ _ _ Hx) as (_ & _ & _ & Bl & _). unfold sim_getCurrentTime in Hk1.
  revert E. apply get_out. destruct (Z.eq_dec T k0) as [->|Hne].
  - destruct (Hy0 eq_refl) as (kk & Hr). destruct (rep_bounds _ _ _ _ Hr) as (? & ? & _). lia.
  - destruct (rep_bounds _ _ _ _ (Hy1 ltac:(lia))) as (? & ? & _). lia.
Qed.

(** ** Arrays of queries *)
Lemma collect_ok {A} md (get : Z -> sim -> outcome (A * sim)) s n : forall t lo a,
  (forall i, t <= i < t + Z.of_nat n -> exists v, get i s = Ok (v, s)) ->
  (ia_size a = 0 /\ lo = t \/ (ia_size a <> 0 /\ ia_k a = lo /\ ia_next a = t)) ->
  (forall i, lo <= i < t -> exists v, entry a i = Some v /\ get i s = Ok (v, s)) ->
  exists a', sim_collect md get n t a s = Ok (a', s) /\
    (forall i, lo <= i < t + Z.of_nat n -> exists v, get i s = Ok (v, s) /\ ia_get md a' i = Ok v) /\
    ia_size a' = t - lo + Z.of_nat n /\ (0 < ia_size a' -> ia_first a' = lo).
Proof.
  induction n as [|n IH]; intros t lo a Hg Ha He.
  - exists a. cbn [sim_collect]. split; [auto|]. split; [|split].
    + intros i Hi. destruct (He i ltac:(lia)) as (v & E1 & E2). exists v. split; auto. apply ia_get_in. auto.
    + destruct Ha as [Ha|(H1 & H2 & H3)]; [lia|unfold ia_next in H3; lia].
    + unfold ia_first. intros. lia.
  - cbn [sim_collect]. destruct (Hg t ltac:(lia)) as (v & Ev). rewrite Ev. cbn [obind].
    assert (Hs : exists a1, ia_setValue md v t a = Ok a1 /\ ia_size a1 <> 0 /\ ia_k a1 = lo /\ ia_next a1 = t + 1 /\
       forall i, lo <= i < t + 1 -> exists v, entry a1 i = Some v /\ get i s = Ok (v, s)).
    { destruct Ha as [[Ha ->]|(H1 & H2 & H3)].
      - assert (Hr : rep a (mkW (ia_k a) (ia_k a) (fun _ => None))).
        { repeat split; cbn; [lia|]. intros i. apply entry_out. lia. }
        destruct (set_first md _ _ _ v t Hr) as (a1 & E1 & Hr1). exists a1. split; [auto|].
        destruct (rep_bounds _ _ _ _ Hr1) as (B1 & B2 & _ & _ & B5). destruct Hr1 as (_ & _ & H3). cbn in H3.
        split; [lia|]. split; [lia|]. split; [lia|]. intros i Hi. exists v. rewrite H3. unfold upd.
        replace i with t by lia. rewrite Z.eqb_refl. auto.
      - pose proof (ia_size_nonneg a). unfold ia_next in H3.
        pose proof (rep_self a) as Hr. rewrite H3, H2 in Hr.
        destruct (set_next md _ _ _ _ v Hr ltac:(lia)) as (a1 & E1 & Hr1). exists a1. split; [auto|].
        destruct (rep_bounds _ _ _ _ Hr1) as (B1 & B2 & _ & _ & B5). destruct Hr1 as (_ & _ & H4). cbn in H4.
        split; [lia|]. split; [lia|]. split; [lia|]. intros i Hi. rewrite H4. unfold upd.
        destruct (Z.eqb_spec i t) as [->|]; [exists v; auto|apply He; lia]. }
    destruct Hs as (a1 & E1 & S1 & K1 & N1 & G1). rewrite E1. cbn [obind].
    destruct (IH (t + 1) lo a1) as (a2 & E2 & G2 & S2 & F2).
    + intros i Hi. apply Hg. lia.
    + right. auto.
    + auto.
    + exists a2. split; [auto|]. split; [intros i Hi; apply G2; lia|]. split; [lia|auto].
Qed.

(** ** Nothing fails once an input is available at the start *)
Definition sim_only (o : sim_op X U Y) : bool := match o with SInput _ _ | SSim | SSimTo _ => true | _ => false end.
Fixpoint final_time (ops : list (sim_op X U Y)) (T : Z) : Z :=
  match ops with
  | [] => T
  | SSim :: os => final_time os (T + 1)
  | SSimTo k :: os => final_time os (Z.max T k)
  | _ :: os => final_time os T
  end.
Lemma phase_total md ops : forall us x0 k0 s, inv us x0 k0 s -> (exists k u, In (k, u) us /\ k <= k0) ->
  forallb sim_only ops = true -> inputs_in_time md k0 ops s -> NoDup (map fst (inputs ops) ++ map fst us) ->
  exists s', sim_run md ops s = Ok s' /\ sim_getCurrentTime s' = final_time ops (sim_getCurrentTime s).
Proof.
  induction ops as [|o ops IH]; intros us x0 k0 s Hi He Hp Ht Hn.
  - exists s. auto.
  - cbn [forallb] in Hp. apply andb_prop in Hp. destruct Hp as [Hp Hps]. cbn [inputs_in_time] in Ht. destruct Ht as [Ho Ht].
    unfold sim_run. cbn [orun].
    destruct o as [f|x k|u k| |k|k|k| |]; try discriminate Hp; cbn [sim_step] in *; cbn [final_time inputs] in *.
    + cbn [obind]. cbn [map app fst] in Hn. inversion Hn as [|? ? Hn1 Hn2]; subst. rewrite in_app_iff in Hn1.
      destruct (IH ((k, u) :: us) x0 k0 (sim_setInput u k s)) as (s' & E & E'); auto.
      * apply input_inv; auto.
      * destruct He as (k1 & u1 & H1 & H2). exists k1, u1. split; [right|]; auto.
      * cbn [map fst]. apply NoDup_Add with (a := k) (l := map fst (inputs ops) ++ map fst us); [apply Add_app|].
        split; auto. rewrite in_app_iff. auto.
      * exists s'. split; auto.
    + destruct (simulate_inv md _ _ _ _ Hi He) as (s1 & E1 & H1 & T1 & _). rewrite E1 in *. cbn [obind].
      destruct (IH us x0 k0 s1) as (s' & E & E'); auto. exists s'. rewrite <- T1. auto.
    + destruct (simulateTo_inv md _ _ _ k _ Hi He) as (s1 & E1 & H1 & T1 & _). rewrite E1 in *. cbn [obind].
      destruct (IH us x0 k0 s1) as (s' & E & E'); auto. exists s'. rewrite <- T1. auto.
Qed.

(** ** A state given again at an earlier time *)
Lemma set_in {A} md (a : iarr A) lo hi m v k : rep a (mkW lo hi m) -> lo <= k < hi ->
  exists a', ia_setValue md v k a = Ok a' /\ rep a' (mkW lo hi (upd m k (Some v))).
Proof.
  intros Hr Hk. pose proof (step_sim (OSet v k) a _ Hr) as S. cbn [w_step ia_step] in S.
  destruct (Z.leb_spec lo k), (Z.ltb_spec k hi); try lia. destruct S as (a' & E1 & E2 & Hr'). exists a'. destruct md; auto.
Qed.
Definition rinv (us : list (Z * U)) (k0 k1 : Z) (xs0 : Z -> X) (x1 : X) (T : Z) s : Prop :=
  s_f s = Some fh /\ sorted (s_u s) /\ (forall k u, In (k, u) (s_u s) <-> In (k, u) us) /\
  exists xs my, k0 <= k1 <= T /\ (forall i, k0 <= i < k1 -> xs i = xs0 i) /\ traj us x1 k1 T xs my /\
    rep (s_x s) (mkW k0 (T + 1) (fun i => if (k0 <=? i) && (i <=? T) then Some (xs i) else None)) /\
    ((T = k0 /\ exists k, rep (s_y s) (mkW k k (fun _ => None))) \/ exists hy, k0 < hy /\ T <= hy /\ rep (s_y s) (mkW k0 hy my)).

Lemma restart_rinv md us x0 k0 s x1 k1 : inv us x0 k0 s -> k0 <= k1 <= sim_getCurrentTime s ->
  exists s' xs0, sim_setState md x1 k1 s = Ok s' /\ rinv us k0 k1 xs0 x1 k1 s' /\ forall i, k0 <= i <= sim_getCurrentTime s -> sim_getState md i s = Ok (xs0 i, s).
Proof.
  intros Hi Hk.
  destruct Hi as (Hf & Hso & Hin & T & xs & ys & HT & (Hx0 & Htr) & Hx & Hy0 & Hy1).
  destruct (rep_bounds _ _ _ _ Hx) as (Bk & Bs & _ & Bl & Bn).
  assert (ET : sim_getCurrentTime s = T) by (unfold sim_getCurrentTime; lia). rewrite ET in *.
  unfold sim_setState, ia_first. rewrite Bk, Bn.
  assert (E1 : (ia_size (s_x s) =? 0) || ((k0 <=? k1) && (k1 <=? T + 1)) = true) by (destruct (Z.leb_spec k0 k1), (Z.leb_spec k1 (T + 1)); try lia; apply orb_true_r).
  rewrite E1. cbn [boost_assert obind].
  pose proof (step_sim (OTruncAfter (k1 - 1)) (s_x s) _ Hx) as S. cbn [w_step ia_step] in S. destruct S as (a & Ea & _ & Ra). injection Ea as <-.
  replace (Z.min (T + 1) (Z.max k0 (k1 - 1 + 1))) with k1 in Ra by lia.
  assert (exists b, ia_setValue md x1 k1 (ia_truncateAfter (k1 - 1) (s_x s)) = Ok b /\
    rep b (mkW k0 (k1 + 1) (fun i => if (k0 <=? i) && (i <=? k1) then Some (if i =? k1 then x1 else xs i) else None))) as (b & Eb & Rb).
  { destruct (Z.eq_dec k0 k1) as [<-|Hne].
    - destruct (set_first md _ _ _ x1 k0 Ra) as (b & Eb & Rb). exists b. split; [exact Eb|]. eapply rep_ext; [|exact Rb]. intros t. cbn. unfold upd.
      destruct (Z.eqb_spec t k0), (Z.leb_spec k0 t), (Z.leb_spec t k0); cbn; auto; lia.
    - destruct (set_next md _ _ _ _ x1 Ra ltac:(lia)) as (b & Eb & Rb). exists b. split; [exact Eb|]. eapply rep_ext; [|exact Rb]. intros t. cbn. unfold upd.
      destruct (Z.eqb_spec t k1), (Z.leb_spec k0 t), (Z.leb_spec t k1), (Z.leb_spec t (k1 - 1)), (Z.leb_spec t T); cbn; auto; lia. }
  rewrite Eb. cbn [obind]. eexists. exists xs. split; [reflexivity|]. split.
  - split; [exact Hf|]. split; [exact Hso|]. split; [exact Hin|]. exists (fun i => if i =? k1 then x1 else xs i), (fun i => if (k0 <=? i) && (i <? T) then ys i else None).
    split; [lia|]. split. { intros i Hi. destruct (Z.eqb_spec i k1); [lia|reflexivity]. } split. { split; [now rewrite Z.eqb_refl|]. intros; lia. }
    split; [exact Rb|]. cbn [s_y]. destruct (Z.eq_dec T k0) as [E|E]; [left; split; [lia|auto]|right]. exists T. split; [lia|]. split; [lia|]. apply Hy1. lia.
  - intros i Hi. unfold sim_getState, ia_first.
    assert (E2 : (ia_size (s_x s) =? 0) || (ia_k (s_x s) <=? i) = true) by (rewrite Bk; destruct (Z.leb_spec k0 i); [apply orb_true_r|lia]).
    rewrite E2. cbn [boost_assert obind]. destruct (Z.ltb_spec (ia_last (s_x s)) i); [lia|]. cbn [obind].
    rewrite (rep_get_some md _ _ _ _ i (xs i) Hx); [reflexivity|].
    destruct (Z.leb_spec k0 i), (Z.leb_spec i T); cbn; auto; lia.
Qed.

Lemma simulate_rinv md us k0 k1 xs0 x1 T s : rinv us k0 k1 xs0 x1 T s -> (exists k u, In (k, u) us /\ k <= k1) ->
  exists s', sim_simulate md s = Ok s' /\ rinv us k0 k1 xs0 x1 (T + 1) s'.
Proof.
  intros (Hf & Hso & Hin & xs & my & HT & Hold & (Hx0 & Htr) & Hx & Hy) (ki & ui & Hki & Hle).
  destruct (rep_bounds _ _ _ _ Hx) as (Bk & Bs & _ & Bl & _).
  assert (Hl : ia_last (s_x s) = T) by lia.
  unfold sim_simulate. rewrite Hf. cbn [boost_assert obind]. rewrite Hl. unfold sim_getInput.
  assert (Hne : (0 <? Z.of_nat (length (s_u s))) = true).
  { apply Hin in Hki. destruct (s_u s); [contradiction|]. cbn [length]. apply Z.ltb_lt. lia. }
  rewrite Hne. cbn [boost_assert obind].
  destruct (map_before T (s_u s)) as [u|] eqn:Eb.
  2:{ exfalso. apply Hin in Hki. pose proof (before_none _ _ Hso Eb _ _ Hki). lia. }
  apply before_some in Eb; [|auto]. apply (in_force_iff _ _ Hin) in Eb. cbn [obind].
  assert (Ex : ia_get md (s_x s) T = Ok (xs T)).
  { apply (rep_get_some md _ _ _ _ _ _ Hx). destruct (Z.leb_spec k0 T), (Z.leb_spec T T); cbn; auto; lia. }
  rewrite Ex. cbn [obind]. set (y := f_meas fh (xs T) u T). set (x := f_dyn fh (xs T) u T).
  destruct (set_next md _ _ _ _ x Hx ltac:(lia)) as (xa & Exa & Hxa).
  assert (exists ya hy my', ia_setValue md y T (s_y s) = Ok ya /\ k0 < hy /\ T + 1 <= hy /\ rep ya (mkW k0 hy my') /\ my' T = Some y /\ forall i, k1 <= i < T -> my' i = my i) as (ya & hy & my' & Eya & H1 & H2 & Rya & HyT & Hyi).
  { destruct Hy as [(ET & k & Rk)|(hy & A1 & A2 & Rk)].
    - destruct (set_first md _ _ _ y T Rk) as (ya & E & Hr). exists ya, (T + 1). eexists. split; [exact E|]. split; [lia|]. split; [lia|]. split; [rewrite <- ET; exact Hr|]. unfold upd. rewrite Z.eqb_refl. split; [reflexivity|]. intros; lia.
    - assert (U1 : upd my T (Some y) T = Some y) by (unfold upd; now rewrite Z.eqb_refl).
      assert (U2 : forall i, k1 <= i < T -> upd my T (Some y) i = my i) by (intros i Hi; unfold upd; destruct (Z.eqb_spec i T); [lia|reflexivity]).
      destruct (Z.eq_dec T hy) as [Hd|Hd].
      + rewrite <- Hd in Rk. destruct (set_next md _ _ _ _ y Rk ltac:(lia)) as (ya & E & Hr). exists ya, (T + 1). eexists. split; [exact E|]. split; [lia|]. split; [lia|]. split; [exact Hr|]. auto.
      + destruct (set_in md _ _ _ _ y T Rk ltac:(lia)) as (ya & E & Hr). exists ya, hy. eexists. split; [exact E|]. split; [lia|]. split; [lia|]. split; [exact Hr|]. auto. }
  rewrite Eya. cbn [obind]. rewrite Exa. cbn [obind]. eexists. split; [reflexivity|].
  split; [reflexivity|]. split; [exact Hso|]. split; [exact Hin|]. exists (fun i => if i =? T + 1 then x else xs i), my'. split; [lia|].
  split. { intros i Hi. destruct (Z.eqb_spec i (T + 1)); [lia|]. now apply Hold. }
  split. { split; [destruct (Z.eqb_spec k1 (T + 1)); [lia|auto]|].
    intros i Hi. destruct (Z.eq_dec i T) as [Hd|Hd].
    - exists u. rewrite Hd, Z.eqb_refl. destruct (Z.eqb_spec T (T + 1)); [lia|]. auto.
    - destruct (Htr i ltac:(lia)) as (u' & G1 & G2 & G3). exists u'. destruct (Z.eqb_spec (i + 1) (T + 1)); [lia|]. destruct (Z.eqb_spec i (T + 1)); [lia|]. rewrite Hyi by lia. auto. }
  cbn [s_x s_y]. split; [|right; exists hy; auto].
  eapply rep_ext; [|exact Hxa]. intros t. cbn. unfold upd.
  destruct (Z.eqb_spec t (T + 1)), (Z.leb_spec k0 t), (Z.leb_spec t (T + 1)), (Z.leb_spec t T); cbn; auto; lia.
Qed.
Lemma rinv_time us k0 k1 xs0 x1 T s : rinv us k0 k1 xs0 x1 T s -> sim_getCurrentTime s = T.
Proof. intros (_ & _ & _ & xs & my & _ & _ & _ & Hx & _). destruct (rep_bounds _ _ _ _ Hx) as (_ & _ & _ & Bl & _). unfold sim_getCurrentTime. lia. Qed.
Lemma simulateTo_rinv md us k0 k1 xs0 x1 T k s : rinv us k0 k1 xs0 x1 T s -> (exists k u, In (k, u) us /\ k <= k1) ->
  exists s', sim_simulateTo md k s = Ok s' /\ rinv us k0 k1 xs0 x1 (Z.max T k) s'.
Proof.
  intros Hi He. unfold sim_simulateTo. pose proof (rinv_time _ _ _ _ _ _ _ Hi) as Ht. unfold sim_getCurrentTime in Ht. rewrite Ht. clear Ht. remember (Z.to_nat (k - T)) as n eqn:En.
  revert T s Hi En. induction n as [|n IH]; intros T s Hi En.
  - exists s. cbn. split; auto. replace (Z.max T k) with T by lia. exact Hi.
  - destruct (simulate_rinv md _ _ _ _ _ _ _ Hi He) as (s1 & E1 & H1). destruct (IH (T + 1) s1 H1 ltac:(lia)) as (s2 & E2 & H2).
    exists s2. cbn [oiter]. rewrite E1. cbn [obind]. split; [auto|]. replace (Z.max T k) with (Z.max (T + 1) k) by lia. exact H2.
Qed.
Lemma rinv_queries md us k0 k1 xs0 x1 T s : rinv us k0 k1 xs0 x1 T s -> exists xs,
  (forall i, k0 <= i < k1 -> xs i = xs0 i) /\ xs k1 = x1 /\ (forall i, k0 <= i <= T -> sim_getState md i s = Ok (xs i, s)) /\
  forall i, k1 <= i < T -> exists u, in_force us i u /\ xs (i + 1) = f_dyn fh (xs i) u i /\
    (md = Release \/ k0 < i -> sim_getMeasurement md i s = Ok (f_meas fh (xs i) u i, s)).
Proof.
  intros Hr. pose proof (rinv_time _ _ _ _ _ _ _ Hr) as Ht. unfold sim_getCurrentTime in Ht. destruct Hr as (Hf & Hso & Hin & xs & my & HT & Hold & (Hx0 & Htr) & Hx & Hy).
  destruct (rep_bounds _ _ _ _ Hx) as (Bk & Bs & _ & Bl & _).
  exists xs. split; [auto|]. split; [auto|]. split.
  - intros i Hi. unfold sim_getState, ia_first.
    assert (E1 : (ia_size (s_x s) =? 0) || (ia_k (s_x s) <=? i) = true) by (rewrite Bk; destruct (Z.leb_spec k0 i); [apply orb_true_r|lia]).
    rewrite E1. cbn [boost_assert obind]. destruct (Z.ltb_spec (ia_last (s_x s)) i); [lia|]. cbn [obind].
    rewrite (rep_get_some md _ _ _ _ i (xs i) Hx); [reflexivity|]. destruct (Z.leb_spec k0 i), (Z.leb_spec i T); cbn; auto; lia.
  - intros i Hi. destruct (Htr i Hi) as (u & H1 & H2 & H3). exists u. split; [auto|]. split; [auto|].
    destruct Hy as [(-> & _)|(hy & A1 & A2 & Ry)]; [lia|]. destruct (rep_bounds _ _ _ _ Ry) as (Byk & Bys & _ & _ & Byn).
    assert (E : ia_get md (s_y s) i = Ok (f_meas fh (xs i) u i)) by (apply (rep_get_some md _ _ _ _ _ _ Ry), H3).
    intros Hmd. unfold sim_getMeasurement, ia_first. destruct (Z.ltb_spec (ia_next (s_y s)) i); [lia|].
    destruct md.
    + destruct Hmd as [Hmd|Hmd]; [discriminate|]. rewrite Byk. destruct (Z.ltb_spec k0 i); [|lia]. rewrite orb_true_r. cbn [boost_assert obind]. rewrite E. reflexivity.
    + cbn [boost_assert obind]. rewrite E. destruct (_ || _); reflexivity.
Qed.
End P.

