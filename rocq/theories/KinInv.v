(** The invariant of the kinetics observer, and the set of contacts. *)
From Coq Require Import ZArith List Lia Bool.
From Verif Require Import Base KinObs SpecKin KinProofs.
Import ListNotations.
Open Scope Z_scope.

Set Default Proof Using "Type".
Section P.
Context {S : Type} (s0 : S) {Kn : Type} (kfirst : mode -> Kn -> outcome Kn) (kupd : mode -> Z -> Kn -> Kn -> outcome Kn).
Context {M : Type} (mzero : M -> bool) {C : Type}.
Notation obs := (obs S Kn M C).
Notation op := (ko_op S Kn M C).
Notation contact := (contact S Kn M C).
Notation imu := (imu S Kn C).
Notation step := (ko_step s0 kfirst kupd mzero).
Notation run := (ko_run s0 kfirst kupd mzero).
Implicit Types s : obs.

Lemma Forall_nth {A} (P : A -> Prop) l i x : Forall P l -> nth_error l i = Some x -> P x.
Proof. intros H E. apply nth_error_In in E. rewrite Forall_forall in H. auto. Qed.

Lemma contacts_inv maxC maxI s n c c' nr : inv maxC maxI s -> 0 <= n -> nth_error (o_contacts s) (Z.to_nat n) = Some c ->
  (time_ok s (c_time c') /\ (c_real c' = true -> length (c_wrench c') = 6%nat /\ c_cov c' <> None)) ->
  (c_set c' = true -> c_sidx c' = cidx (Z.of_nat maxI) n /\ c_tidx c' = cidxT (Z.of_nat maxI) n) ->
  inv maxC maxI (set_nreal nr (set_contacts (vec_set n c' (o_contacts s)) s)).
Proof.
  intros [H1 H2 H3 H4 H5 H6 H7 H8 H9 H10 H11] Hn Hc Ht Hs. constructor; cbn; auto.
  - rewrite vec_set_length. auto.
  - apply vec_set_Forall; [exact Ht|exact H10].
  - intros j c1. rewrite vec_set_nth. destruct (Nat.eqb_spec j (Z.to_nat n)) as [->|]; [|eauto].
    destruct (nth_error (o_contacts s) (Z.to_nat n)); [|discriminate]. intros E. injection E as <-. rewrite Z2Nat.id by lia. exact Hs.
Qed.
Lemma set_state_inv maxC maxI s x e : inv maxC maxI s -> length x = nx maxC maxI -> length e = nx maxC maxI -> inv maxC maxI (set_state x e s).
Proof. intros [H1 H2 H3 H4 H5 H6 H7 H8 H9 H10 H11] Hx He. constructor; cbn; auto. Qed.
Lemma zero_wrenches_length md cs : forall x x', zero_wrenches s0 md (cs : list contact) x = Ok x' -> length x' = length x.
Proof.
  induction cs as [|c cs IH]; intros x x' E; cbn [zero_wrenches] in E; [injection E as <-; reflexivity|].
  apply obind_Ok_inv in E. destruct E as (x1 & E1 & E). apply IH in E. rewrite E. destruct (c_set c); [|injection E1 as <-; reflexivity].
  apply obind_Ok_inv in E1. destruct E1 as ([] & _ & E1). apply seg_set_length in E1. exact E1.
Qed.
Lemma Forall2_Forall {A B} (R : A -> B -> Prop) (P : A -> Prop) (Q : B -> Prop) l l' :
  (forall a b, R a b -> P a -> Q b) -> Forall2 R l l' -> Forall P l -> Forall Q l'.
Proof. intros H F. induction F; intros G; inversion G; subst; constructor; eauto. Qed.
Lemma Forall2_len {A B} (R : A -> B -> Prop) l l' : Forall2 R l l' -> length l = length l'.
Proof. intros F. induction F; cbn; auto. Qed.
Lemma Forall2_nth {A B} (R : A -> B -> Prop) l l' : Forall2 R l l' -> forall i b, nth_error l' i = Some b -> exists a, nth_error l i = Some a /\ R a b.
Proof. intros F. induction F; intros [|i] b0 E; cbn in *; try discriminate; [injection E as <-; eauto|eauto]. Qed.
Lemma lost_props kd (c : contact) : c_time (lost kd c) = c_time c /\ c_sidx (lost kd c) = c_sidx c /\ c_tidx (lost kd c) = c_tidx c /\
  c_wrench (lost kd c) = c_wrench c /\ c_cov (lost kd c) = c_cov c /\ (c_set (lost kd c) = true -> c_set c = true) /\ (c_real (lost kd c) = true -> c_real c = true) /\
  c_set (lost kd c) = c_set c && (c_time c =? kd).
Proof. unfold lost. destruct (c_set c) eqn:E; destruct (c_time c =? kd) eqn:E'; cbn; rewrite ?E; repeat split; auto; intros; try discriminate; auto. Qed.
Lemma map_nth_error_inv {A B} (f : A -> B) l i b : nth_error (map f l) i = Some b -> exists a, nth_error l i = Some a /\ b = f a.
Proof. revert i. induction l as [|a l IH]; intros [|i] E; cbn in *; try discriminate; [injection E as <-; eauto|eauto]. Qed.

(** The contacts and IMUs after ko_prepare. *)
Lemma prepare_shape md s s' : ko_prepare md s = Ok s' ->
  (exists y r p, s' = set_meas y r (set_nreal (o_nreal s') (set_pose p (set_imus (o_imus s') (set_contacts (o_contacts s') s)))) /\
     p_time p = p_time (o_pose s) /\ p_sig p = p_sig (o_pose s) /\ p_cov p = p_cov (o_pose s)) /\
  Forall2 (fun c c' => c' = mkContact (c_set (lost (o_kdata s) c)) (c_real (lost (o_kdata s) c)) (c_time c) (c_sidx c) (c_tidx c) (c_midx c') (c_wrench c) (c_cov c) (c_kine c) (c_pose c) (c_stiff c)) (o_contacts s) (o_contacts s') /\
  Forall2 (fun i i' => i_time i' = i_time i /\ i_sig i' = i_sig i /\ i_cov i' = i_cov i /\ i_kine i' = i_kine i) (o_imus s) (o_imus s').
Proof.
  intros E. apply prepare_inv in E. destruct E as (cs1 & is' & y1 & r1 & n1 & cs' & y2 & r2 & n2 & p' & y & r & E1 & _ & E2 & E3 & E4 & E).
  apply drop_lost_inv in E1. destruct E1 as (-> & _). apply write_imus_inv in E2. destruct E2 as (_ & _ & E2 & _). apply write_contacts_inv in E3. destruct E3 as (_ & _ & E3 & _).
  assert (Hi : o_imus s' = is') by (rewrite E; reflexivity). assert (Hc : o_contacts s' = cs') by (rewrite E; reflexivity).
  rewrite Hi, Hc. split; [|split; [|exact E2]].
  - exists y, r, p'. split; [exact E|]. destruct (p_time (o_pose s) =? o_kdata s); [destruct E4 as (_ & _ & ->); cbn; auto|destruct E4 as (_ & -> & _); auto].
  - clear E. revert cs' E3 Hc. generalize (o_contacts s). intros cs. induction cs as [|c cs IH]; intros cs' F Hc; inversion F; subst; constructor.
    + rewrite H1. cbn. unfold lost. destruct (_ && _); reflexivity.
    + clear -H3. revert l' H3. induction cs as [|c cs IH]; intros l' F; inversion F; subst; constructor; auto. rewrite H1. cbn. unfold lost. destruct (_ && _); reflexivity.
Qed.

Lemma step_inv md maxC maxI o s s' : no_clear o = true -> wf_op (nx maxC maxI) o -> inv maxC maxI s -> step md o s = Ok s' -> inv maxC maxI s'.
Proof.
  intros Hnc Hwf Hi E.
  destruct o as [pv num st|n| |sig cov k num|w cov k n|k n|sig cov| |kv rf|b i|w|v|b|b|b| |e]; cbn [ko_step wf_op] in *; try discriminate.
  - apply obind_Ok_inv in E. destruct E as ([n s1] & E & Es). injection Es as <-. apply add_inv in E.
    destruct E as (n0 & c & x & _ & _ & _ & Hn & Hc & _ & Ex & ->). apply seg_set_length in Ex.
    apply set_state_inv; [|rewrite Ex; apply Hi|apply Hi].
    change (set_contacts ?cs s) with (set_nreal (o_nreal s) (set_contacts cs s)).
    assert (Ht := Forall_nth _ _ _ _ (v_ct _ _ _ Hi) Hc). cbv beta in Ht.
    eapply contacts_inv; eauto; unfold added; destruct st as [[[? ?] ?] ?]; destruct (o_dstiff s) as [[[? ?] ?] ?]; cbn; [exact Ht|].
    rewrite (v_maxI _ _ _ Hi). auto.
  - apply remove_inv in E. destruct E as (c & Hn & Hc & _ & ->). assert (Ht := Forall_nth _ _ _ _ (v_ct _ _ _ Hi) Hc). cbv beta in Ht.
    eapply contacts_inv; eauto; cbn; [|discriminate]. split; [tauto|discriminate].
  - apply obind_Ok_inv in E. destruct E as ([n s1] & E & Es). injection Es as <-. apply setIMU_inv in E.
    destruct E as (i & k' & _ & Hn & Hc & _ & _ & ->). pose proof (start_inv _ _ _ Hi) as [H1 H2 H3 H4 H5 H6 H7 H8 H9 H10 H11].
    constructor; cbn; auto.
    + rewrite vec_set_length. auto.
    + apply vec_set_Forall; [|exact H8]. cbn. unfold time_ok, cur. cbn. split; [lia|auto].
  - apply wrench_inv in E. destruct E as (c & k' & Hn & Hc & _ & _ & ->). pose proof (start_inv _ _ _ Hi) as Hi'.
    eapply contacts_inv; eauto; cbn.
    + split; [unfold time_ok; cbn; destruct (v_k _ _ _ Hi'); lia|]. intros _. split; [auto|]. destruct cov; [discriminate|]. destruct (c_cov c); discriminate.
    + intros Hs. destruct (v_ci _ _ _ Hi' _ _ Hc Hs). rewrite Z2Nat.id in * by lia. auto.
  - apply nosensor_inv in E. destruct E as (c & k' & Hn & Hc & _ & _ & ->). pose proof (start_inv _ _ _ Hi) as Hi'.
    eapply contacts_inv; eauto; cbn.
    + split; [unfold time_ok; cbn; destruct (v_k _ _ _ Hi'); lia|]. discriminate.
    + intros Hs. destruct (v_ci _ _ _ Hi' _ _ Hc Hs). rewrite Z2Nat.id in * by lia. auto.
  - injection E as <-. unfold ko_setPose. pose proof (start_inv _ _ _ Hi) as [H1 H2 H3 H4 H5 H6 H7 H8 H9 H10 H11].
    constructor; cbn; auto. unfold time_ok, cur. cbn. split; [lia|]. intros _. split; [auto|]. destruct cov; [discriminate|]. destruct (p_cov _); discriminate.
  - injection E as <-. apply start_inv; auto.
  - unfold ko_setStateKinematics in E. apply obind_Ok_inv in E. destruct E as (x & E1 & E). apply obind_Ok_inv in E. destruct E as (x' & E2 & E). injection E as <-.
    apply seg_set_length in E1. assert (length x' = nx maxC maxI).
    { destruct rf; [apply zero_wrenches_length in E2; rewrite E2|injection E2 as <-]; rewrite E1; apply Hi. }
    apply set_state_inv; auto.
  - unfold ko_setGyroBias in E. apply obind_Ok_inv in E. destruct E as (g & _ & E). apply obind_Ok_inv in E. destruct E as (x & E1 & E). injection E as <-.
    apply seg_set_length in E1. apply set_state_inv; auto; rewrite E1; apply Hi.
  - unfold ko_setStateUnmodeledWrench in E. apply obind_Ok_inv in E. destruct E as (g & _ & E). apply obind_Ok_inv in E. destruct E as (x & E1 & E). injection E as <-.
    apply seg_set_length in E1. apply set_state_inv; auto; rewrite E1; apply Hi.
  - injection E as <-. apply set_state_inv; auto.
  - injection E as <-. destruct Hi; constructor; cbn; auto.
  - injection E as <-. destruct Hi; constructor; cbn; auto.
  - injection E as <-. destruct Hi; constructor; cbn; auto.
  - injection E as <-. destruct Hi as [H1 H2 H3 H4 H5 H6 H7 H8 H9 H10 H11]. constructor; cbn; auto; rewrite ?map_length; auto.
    + apply Forall_map. eapply Forall_impl; [|exact H8]. intros i _. cbn. unfold time_ok, cur. cbn. split; [lia|]. intros [? ?]. congruence.
    + unfold time_ok, cur. cbn. split; [lia|]. intros [? ?]. congruence.
    + apply Forall_map. eapply Forall_impl; [|exact H10]. intros c [_ HH]. cbn. unfold time_ok. cbn. split; [lia|auto].
    + intros j c E Hs. apply map_nth_error_inv in E. destruct E as (c0 & E & ->). cbn in *. eauto.
  - unfold ko_update in E. destruct (Z.eqb_spec (o_kest s) (o_kdata s)) as [|Hne]; [injection E as <-; auto|].
    apply obind_Ok_inv in E. destruct E as (s1 & E1 & E). injection E as <-. apply prepare_shape in E1.
    destruct E1 as ((y & r & p & E1 & P1 & P2 & P3) & FC & FI).
    destruct Hi as [H1 H2 H3 H4 H5 H6 H7 H8 H9 H10 H11]. unfold ko_finish.
    assert (Hk : o_kest s1 = o_kest s /\ o_kdata s1 = o_kdata s /\ o_ekf s1 = o_ekf s /\ o_maxC s1 = o_maxC s /\ o_maxI s1 = o_maxI s /\ o_pose s1 = p) by (rewrite E1; cbn; repeat split).
    destruct Hk as (K1 & K2 & K3 & K4 & K5 & K6).
    constructor; cbn [set_iter set_state o_maxC o_maxI o_contacts o_imus o_kest o_kdata o_state o_ekf o_pose]; rewrite ?K1, ?K2, ?K3, ?K4, ?K5, ?K6; auto.
    + rewrite <- (Forall2_len _ _ _ FC). auto.
    + rewrite <- (Forall2_len _ _ _ FI). auto.
    + lia.
    + eapply Forall2_Forall; [|exact FI|exact H8]. cbn. intros i i' (A & B & _) [D F]. unfold time_ok, cur in *. cbn. rewrite A, B, ?K1, ?K2. split; [auto|]. lia.
    + rewrite P1, P2, P3. unfold time_ok, cur in *. cbn. rewrite ?K1, ?K2. split; [tauto|]. lia.
    + eapply Forall2_Forall; [|exact FC|exact H10]. cbn. intros c c' A [D F]. rewrite A. cbn. unfold time_ok in *. cbn. rewrite ?K2. split; [auto|].
      intros R. apply lost_props in R. auto.
    + intros j c' Ej Hs. destruct (Forall2_nth _ _ _ FC _ _ Ej) as (c & Ec & A). rewrite A in Hs |- *. cbn in *. apply lost_props in Hs. eauto.
Qed.
Lemma run_inv md maxC maxI h : forall s s', forallb no_clear h = true -> Forall (wf_op (nx maxC maxI)) h -> inv maxC maxI s -> run md h s = Ok s' -> inv maxC maxI s'.
Proof.
  induction h as [|o h IH]; intros s s' Hn Hw Hi E; unfold ko_run in *; cbn [orun forallb] in *; [injection E as <-; auto|].
  apply andb_prop in Hn. destruct Hn as [Hn Hns]. inversion Hw; subst. apply obind_Ok_inv in E. destruct E as (s1 & E1 & E).
  eapply IH; [| | |exact E]; auto. eapply step_inv; eauto.
Qed.

(** ** The list of contacts *)
Lemma list_contacts_iff (cs : list contact) n j : In j (list_set_contacts cs n) <-> n <= j /\ exists c, nth_error cs (Z.to_nat (j - n)) = Some c /\ c_set c = true.
Proof.
  revert n. induction cs as [|c cs IH]; intros n; cbn [list_set_contacts].
  - split; [intros []|]. intros (_ & c & E & _). destruct (Z.to_nat (j - n)); discriminate.
  - assert (H : In j (list_set_contacts cs (n + 1)) <-> n + 1 <= j /\ exists c0, nth_error (c :: cs) (Z.to_nat (j - n)) = Some c0 /\ c_set c0 = true).
    { rewrite IH. split; intros (H & c0 & E & Hs); (split; [auto|]); exists c0; (split; [|auto]).
      - replace (Z.to_nat (j - n)) with (Datatypes.S (Z.to_nat (j - (n + 1)))) by lia. exact E.
      - replace (Z.to_nat (j - n)) with (Datatypes.S (Z.to_nat (j - (n + 1)))) in E by lia. exact E. }
    destruct (c_set c) eqn:Es.
    + cbn [In]. rewrite H. split.
      * intros [<-|(A & B)]; [split; [lia|]; rewrite Z.sub_diag; cbn; eauto|split; [lia|auto]].
      * intros (A & B). destruct (Z.eq_dec n j); [auto|right; split; [lia|auto]].
    + rewrite H. split; intros (A & c0 & E & Hs); [split; [lia|eauto]|]. split; [|eauto].
      destruct (Z.eq_dec n j) as [->|]; [|lia]. rewrite Z.sub_diag in E. cbn in E. congruence.
Qed.
Lemma list_iff s j : In j (ko_getListOfContacts s) <-> 0 <= j /\ exists c, nth_error (o_contacts s) (Z.to_nat j) = Some c /\ c_set c = true.
Proof. unfold ko_getListOfContacts. rewrite list_contacts_iff, Z.sub_0_r. reflexivity. Qed.
Lemma list_sorted (cs : list contact) n : NoDup (list_set_contacts cs n).
Proof.
  revert n. induction cs as [|c cs IH]; intros n; cbn [list_set_contacts]; [constructor|]. destruct (c_set c); [|auto]. constructor; [|auto].
  rewrite list_contacts_iff. lia.
Qed.

(** ** Refinement of the abstract set *)
Record sim (maxC : nat) s (a : cset) : Prop := {
  m_it : cs_iter a = negb (o_kest s =? o_kdata s);
  m_pres : forall j c, nth_error (o_contacts s) j = Some c -> c_set c = cs_present a (Z.of_nat j);
  m_out : forall j, ~ (0 <= j < Z.of_nat maxC) -> cs_present a j = false;
  m_fresh : cs_iter a = true -> forall j c, nth_error (o_contacts s) j = Some c -> (c_time c =? o_kdata s) = cs_fresh a (Z.of_nat j) }.

Lemma start_sim maxC maxI s a : inv maxC maxI s -> sim maxC s a -> sim maxC (ko_start s) (begin_iter a) /\ cs_iter (begin_iter a) = true.
Proof.
  intros Hi [S1 S2 S3 S4]. unfold begin_iter, ko_start. destruct (Z.eqb_spec (o_kest s) (o_kdata s)) as [E|E]; cbn [negb] in S1; rewrite S1.
  - split; [|reflexivity]. constructor; cbn [set_iter o_kest o_kdata o_contacts cs_iter cs_present cs_fresh]; auto.
    + rewrite E. destruct (Z.eqb_spec (o_kdata s) (o_kdata s + 1)); [lia|reflexivity].
    + intros _ j c Hc. pose proof (Forall_nth _ _ _ _ (v_ct _ _ _ Hi) Hc) as [Ht _]. unfold time_ok in Ht. apply Z.eqb_neq. lia.
  - split; [|auto]. constructor; auto. apply Z.eqb_neq in E. rewrite E. auto.
Qed.
Lemma contacts_sim maxC s a n c c' nr (p f : Z -> bool) :
  length (o_contacts s) = maxC -> sim maxC s a -> 0 <= n -> nth_error (o_contacts s) (Z.to_nat n) = Some c ->
  (forall j, p j = if j =? n then c_set c' else cs_present a j) ->
  (forall j, f j = if j =? n then (if cs_iter a then c_time c' =? o_kdata s else f j) else cs_fresh a j) ->
  sim maxC (set_nreal nr (set_contacts (vec_set n c' (o_contacts s)) s)) (mkCset (cs_iter a) p f).
Proof.
  intros HL [S1 S2 S3 S4] Hn Hc Hp Hf. constructor; cbn [set_nreal set_iter set_contacts o_kest o_kdata o_contacts cs_iter cs_present cs_fresh]; auto.
  - intros j c1. rewrite vec_set_nth, Hp. destruct (Nat.eqb_spec j (Z.to_nat n)) as [->|Hne].
    + rewrite Hc. intros E. injection E as <-. rewrite Z2Nat.id, Z.eqb_refl by lia. reflexivity.
    + intros E. destruct (Z.eqb_spec (Z.of_nat j) n); [lia|]. auto.
  - intros j Hj. rewrite Hp. destruct (Z.eqb_spec j n) as [->|]; [|auto]. exfalso. apply Hj.
    assert (Z.to_nat n < length (o_contacts s))%nat by (apply nth_error_Some; congruence). lia.
  - intros Hit j c1. rewrite vec_set_nth, Hf, Hit. destruct (Nat.eqb_spec j (Z.to_nat n)) as [->|Hne].
    + rewrite Hc. intros E. injection E as <-. rewrite Z2Nat.id, Z.eqb_refl by lia. reflexivity.
    + intros E. destruct (Z.eqb_spec (Z.of_nat j) n); [lia|]. auto.
Qed.
Lemma sim_state maxC s a x e : sim maxC s a -> sim maxC (set_state x e s) a.
Proof. intros [S1 S2 S3 S4]. constructor; cbn; auto. Qed.
Lemma search_first s a maxC : sim maxC s a -> o_maxC s = Z.of_nat maxC -> length (o_contacts s) = maxC -> forall fuel n,
  0 <= n -> (Z.of_nat maxC <= n + Z.of_nat fuel) -> n + Z.of_nat fuel = Z.of_nat maxC ->
  contact_search fuel (o_maxC s) (o_contacts s) n = Ok (first_free fuel (cs_present a) n) /\ n <= first_free fuel (cs_present a) n <= Z.of_nat maxC /\
  (forall j, n <= j < first_free fuel (cs_present a) n -> cs_present a j = true) /\ (first_free fuel (cs_present a) n < Z.of_nat maxC -> cs_present a (first_free fuel (cs_present a) n) = false).
Proof.
  intros [S1 S2 S3 S4] HM HL fuel. induction fuel as [|fuel IH]; intros n Hn Hf Hf'; cbn [contact_search first_free].
  - split; [reflexivity|]. split; [lia|]. split; [lia|]. lia.
  - rewrite HM. destruct (Z.ltb_spec n (Z.of_nat maxC)); [|lia]. destruct (vec_at_in n (o_contacts s)) as [c Hc]; [lia|].
    rewrite Hc. cbn [obind]. apply vec_at_inv in Hc. destruct Hc as [_ Hc]. apply S2 in Hc. rewrite Z2Nat.id in Hc by lia. rewrite <- Hc.
    destruct (c_set c) eqn:Es.
    + destruct (IH (n + 1)) as (A & B & D & F); try lia. rewrite <- HM at 1. split; [exact A|]. split; [lia|]. split; [|exact F].
      intros j Hj. destruct (Z.eq_dec j n) as [->|]; [auto|apply D; lia].
    + split; [reflexivity|]. split; [lia|]. split; [lia|]. auto.
Qed.
Lemma step_sim md maxC maxI o s s' a : no_clear o = true -> inv maxC maxI s -> sim maxC s a -> step md o s = Ok s' -> sim maxC s' (cset_step maxC o a).
Proof.
  intros Hnc Hi Hs E.
  destruct o as [pv num st|n| |sig cov k num|w cov k n|k n|sig cov| |kv rf|b i|w|v|b|b|b| |e]; cbn [ko_step cset_step] in *; try discriminate.
  - apply obind_Ok_inv in E. destruct E as ([n s1] & E & Es). injection Es as <-. apply add_inv in E.
    destruct E as (n0 & c & x & Hsel & _ & Hn' & Hn & Hc & _ & Ex & ->). apply sim_state.
    assert (Hn0 : n0 = (if num <? 0 then first_free maxC (cs_present a) 0 else num)).
    { destruct (num <? 0); [|auto].
      destruct (search_first s a maxC Hs (v_maxC _ _ _ Hi) (v_lC _ _ _ Hi) maxC 0) as (A & _); try lia.
      rewrite (v_maxC _ _ _ Hi), Nat2Z.id in Hsel. rewrite (v_maxC _ _ _ Hi) in A. congruence. }
    rewrite <- Hn0. rewrite (v_maxC _ _ _ Hi) in Hn'.
    replace (Z.min n0 (Z.of_nat maxC - 1)) with n by (rewrite Hn'; destruct (Z.leb_spec (Z.of_nat maxC) n0); lia).
    change (set_contacts ?cs s) with (set_nreal (o_nreal s) (set_contacts cs s)).
    eapply contacts_sim; eauto using v_lC.
    + intros j. unfold upd, added. destruct st as [[[? ?] ?] ?]. destruct (o_dstiff s) as [[[? ?] ?] ?]. reflexivity.
    + intros j. unfold added. destruct st as [[[? ?] ?] ?]. destruct (o_dstiff s) as [[[? ?] ?] ?]. cbn [c_time].
      destruct (Z.eqb_spec j n) as [->|]; [|reflexivity]. destruct (cs_iter a) eqn:Hit; [|reflexivity].
      pose proof (m_fresh _ _ _ Hs Hit _ _ Hc) as F. rewrite Z2Nat.id in F by lia. auto.
  - apply remove_inv in E. destruct E as (c & Hn & Hc & _ & ->). eapply contacts_sim; eauto using v_lC.
    intros j. cbn [c_time]. destruct (Z.eqb_spec j n) as [->|]; [|reflexivity]. destruct (cs_iter a) eqn:Hit; [|reflexivity].
      pose proof (m_fresh _ _ _ Hs Hit _ _ Hc) as F. rewrite Z2Nat.id in F by lia. auto.
  - apply obind_Ok_inv in E. destruct E as ([n s1] & E & Es). injection Es as <-. apply setIMU_inv in E.
    destruct E as (i & k' & _ & Hn & Hc & _ & _ & ->). destruct (start_sim _ _ _ _ Hi Hs) as [[S1 S2 S3 S4] _]. constructor; cbn; auto.
  - apply wrench_inv in E. destruct E as (c & k' & Hn & Hc & _ & _ & ->). destruct (start_sim _ _ _ _ Hi Hs) as [Hs' Hit].
    match goal with |- sim _ _ (mkCset true ?p ?f) => replace (mkCset true p f) with (mkCset (cs_iter (begin_iter a)) p f) by (rewrite Hit; reflexivity) end. eapply contacts_sim; eauto.
    + apply (v_lC _ _ _ (start_inv _ _ _ Hi)).
    + intros j. cbn [c_set]. destruct (Z.eqb_spec j n) as [->|]; [|reflexivity]. pose proof (m_pres _ _ _ Hs' _ _ Hc) as F. rewrite Z2Nat.id in F by lia. auto.
    + intros j. unfold upd. cbn [c_time]. rewrite Hit, Z.eqb_refl. reflexivity.
  - apply nosensor_inv in E. destruct E as (c & k' & Hn & Hc & _ & _ & ->). destruct (start_sim _ _ _ _ Hi Hs) as [Hs' Hit].
    match goal with |- sim _ _ (mkCset true ?p ?f) => replace (mkCset true p f) with (mkCset (cs_iter (begin_iter a)) p f) by (rewrite Hit; reflexivity) end. eapply contacts_sim; eauto.
    + apply (v_lC _ _ _ (start_inv _ _ _ Hi)).
    + intros j. cbn [c_set]. destruct (Z.eqb_spec j n) as [->|]; [|reflexivity]. pose proof (m_pres _ _ _ Hs' _ _ Hc) as F. rewrite Z2Nat.id in F by lia. auto.
    + intros j. unfold upd. cbn [c_time]. rewrite Hit, Z.eqb_refl. reflexivity.
  - injection E as <-. unfold ko_setPose. destruct (start_sim _ _ _ _ Hi Hs) as [[S1 S2 S3 S4] _]. constructor; cbn; auto.
  - injection E as <-. apply (start_sim _ _ _ _ Hi Hs).
  - unfold ko_setStateKinematics in E. apply obind_Ok_inv in E. destruct E as (x & E1 & E). apply obind_Ok_inv in E. destruct E as (x' & E2 & E). injection E as <-. apply sim_state; auto.
  - unfold ko_setGyroBias in E. apply obind_Ok_inv in E. destruct E as (g & _ & E). apply obind_Ok_inv in E. destruct E as (x & E1 & E). injection E as <-. apply sim_state; auto.
  - unfold ko_setStateUnmodeledWrench in E. apply obind_Ok_inv in E. destruct E as (g & _ & E). apply obind_Ok_inv in E. destruct E as (x & E1 & E). injection E as <-. apply sim_state; auto.
  - injection E as <-. apply sim_state; auto.
  - injection E as <-. destruct Hs; constructor; cbn; auto.
  - injection E as <-. destruct Hs; constructor; cbn; auto.
  - injection E as <-. destruct Hs; constructor; cbn; auto.
  - injection E as <-. destruct Hs as [S1 S2 S3 S4]. constructor; cbn; auto.
    + intros j c E. apply map_nth_error_inv in E. destruct E as (c0 & E & ->). cbn. auto.
    + intros Hit j c E. apply map_nth_error_inv in E. destruct E as (c0 & E & ->). cbn. rewrite Hit in S1. destruct (o_kest s =? o_kdata s); [discriminate|reflexivity].
  - unfold ko_update in E. destruct (o_kest s =? o_kdata s) eqn:Ek.
    + injection E as <-. pose proof (m_it _ _ _ Hs) as H. rewrite Ek in H. cbn in H. rewrite H. auto.
    + pose proof (m_it _ _ _ Hs) as H. rewrite Ek in H. cbn in H. rewrite H. apply Z.eqb_neq in Ek.
      apply obind_Ok_inv in E. destruct E as (s1 & E1 & E). injection E as <-. apply prepare_shape in E1. destruct E1 as ((y & r & p & E1 & _) & FC & _).
      destruct Hs as [S1 S2 S3 S4]. assert (Hk : o_kest s1 = o_kest s /\ o_kdata s1 = o_kdata s) by (rewrite E1; cbn; auto). destruct Hk as [K1 K2].
      pose proof (v_k _ _ _ Hi) as Hk. unfold ko_finish.
      constructor; cbn [set_iter set_state o_kest o_kdata o_contacts cs_iter cs_present cs_fresh].
      * rewrite K1, K2. replace (o_kest s + 1) with (o_kdata s) by lia. rewrite Z.eqb_refl. reflexivity.
      * intros j c' Ej. destruct (Forall2_nth _ _ _ FC _ _ Ej) as (c & Ec & A). rewrite A. cbn [c_set].
        destruct (lost_props (o_kdata s) c) as (_ & _ & _ & _ & _ & _ & _ & ->). rewrite (S2 _ _ Ec), (S4 H _ _ Ec). reflexivity.
      * intros j Hj. rewrite S3 by auto. reflexivity.
      * discriminate.
Qed.
Lemma init_sim (k0 : Kn) md maxC maxI ds di dw dp s : ko_init s0 k0 md maxC maxI ds di dw dp = Ok s -> sim maxC s (mkCset false (fun _ => false) (fun _ => false)).
Proof.
  unfold ko_init. intros E. apply obind_Ok_inv in E. destruct E as (u & _ & E). injection E as <-.
  constructor; cbn; auto; [|discriminate]. intros j c H. apply nth_repeat in H. subst. reflexivity.
Qed.
Lemma run_sim md maxC maxI h : forall s s' a, forallb no_clear h = true -> Forall (wf_op (nx maxC maxI)) h -> inv maxC maxI s -> sim maxC s a ->
  run md h s = Ok s' -> sim maxC s' (fold_left (fun a o => cset_step maxC o a) h a).
Proof.
  induction h as [|o h IH]; intros s s' a Hn Hw Hi Hs E; unfold ko_run in *; cbn [orun forallb fold_left] in *; [injection E as <-; auto|].
  apply andb_prop in Hn. destruct Hn as [Hn Hns]. inversion Hw; subst. apply obind_Ok_inv in E. destruct E as (s1 & E1 & E).
  eapply IH; [| | | |exact E]; auto; [eapply step_inv; eauto|eapply step_sim; eauto].
Qed.
End P.
