(** The measurement vector of the kinetics observer. *)
From Coq Require Import ZArith List Lia Bool.
From Verif Require Import Base KinObs SpecKin KinProofs KinInv.
Import ListNotations.
Open Scope Z_scope.

(** ** Lists *)
Lemma seg_tail {A} md (pre w : list (option A)) k : (length w <= k)%nat ->
  seg_set md (Z.of_nat (length pre)) w (pre ++ repeat None k) = Ok (pre ++ w ++ repeat None (k - length w)).
Proof.
  intros H. rewrite seg_set_ok; [|lia|rewrite app_length, repeat_length; lia]. rewrite Nat2Z.id. f_equal.
  rewrite firstn_app, Nat.sub_diag, firstn_O, app_nil_r, firstn_all. f_equal. f_equal.
  rewrite skipn_app, skipn_all2 by lia. cbn [app]. replace (length pre + length w - length pre)%nat with (length w) by lia.
  replace k with (length w + (k - length w))%nat at 1 by lia. rewrite repeat_app, skipn_app, skipn_all2 by (rewrite repeat_length; lia).
  rewrite repeat_length, Nat.sub_diag. reflexivity.
Qed.
Definition count {A} (f : A -> bool) (l : list A) : Z := Z.of_nat (length (filter f l)).
Lemma count_nil {A} (f : A -> bool) : count f [] = 0.
Proof. reflexivity. Qed.
Lemma count_cons {A} (f : A -> bool) x l : count f (x :: l) = (if f x then 1 else 0) + count f l.
Proof. unfold count. cbn [filter]. destruct (f x); cbn [length]; lia. Qed.
Lemma count_nonneg {A} (f : A -> bool) l : 0 <= count f l.
Proof. unfold count. lia. Qed.
Lemma count_set {A} (f : A -> bool) l n x y : 0 <= n -> nth_error l (Z.to_nat n) = Some y ->
  count f (vec_set n x l) = count f l - (if f y then 1 else 0) + (if f x then 1 else 0).
Proof.
  intros _. unfold vec_set. generalize (Z.to_nat n). intros m. revert m. induction l as [|z l IH]; intros [|m] E; cbn in E; try discriminate; cbn [list_set].
  - injection E as ->. rewrite !count_cons. lia.
  - rewrite !count_cons, (IH _ E). lia.
Qed.
Lemma count_zero {A} (f : A -> bool) l : Forall (fun x => f x = false) l -> count f l = 0.
Proof. intros H. induction H; [reflexivity|]. rewrite count_cons, H, IHForall. reflexivity. Qed.
Lemma count_pos {A} (f : A -> bool) l n x : nth_error l n = Some x -> f x = true -> 1 <= count f l.
Proof.
  revert n. induction l as [|y l IH]; intros [|n] E Hf; cbn in E; try discriminate; rewrite count_cons.
  - injection E as ->. rewrite Hf. pose proof (count_nonneg f l). lia.
  - specialize (IH _ E Hf). destruct (f y); lia.
Qed.
Lemma map_zseq {A B} (f : A -> B) (g : Z -> B) l : (forall j x, nth_error l j = Some x -> f x = g (Z.of_nat j)) -> map f l = map g (zseq (length l)).
Proof.
  unfold zseq. rewrite map_map. intros H.
  assert (G : forall l k, (forall j x, nth_error l j = Some x -> f x = g (Z.of_nat (k + j))) -> map f l = map (fun x => g (Z.of_nat x)) (seq k (length l))).
  { clear. intros l. induction l as [|x l IH]; intros k H; cbn; [reflexivity|]. f_equal.
    - rewrite (H 0%nat x eq_refl). f_equal. f_equal. lia.
    - apply IH. intros j y E. rewrite (H (Datatypes.S j) y E). f_equal. f_equal. lia. }
  exact (G l 0%nat H).
Qed.
Lemma last_some_snoc {A B} (f : A -> option B) l a : last_some f (l ++ [a]) = match f a with Some b => Some b | None => last_some f l end.
Proof. unfold last_some. rewrite fold_left_app. reflexivity. Qed.
(** The entries of [y] from [m] on are [w]. *)
Lemma located_mid {A} (pre w post : list A) : seg_get (length pre) (length w) (pre ++ w ++ post) = w.
Proof. unfold seg_get. rewrite skipn_app, skipn_all, Nat.sub_diag. cbn. rewrite firstn_app, Nat.sub_diag, firstn_O, app_nil_r. apply firstn_all. Qed.

Set Default Proof Using "Type".
Section P.
Context {S : Type} (s0 : S) {Kn : Type} (kfirst : mode -> Kn -> outcome Kn) (kupd : mode -> Z -> Kn -> Kn -> outcome Kn).
Context {M : Type} (mzero : M -> bool) {C : Type}.
Notation obs := (obs S Kn M C).
Notation op := (ko_op S Kn M C).
Notation contact := (contact S Kn M C).
Notation imu := (imu S Kn C).
Notation step := (ko_step s0 kfirst kupd mzero).
Notation run := (ko_run s0 kfirst kupd mzero).
Implicit Types s : obs.

Definition sig_of (kd : Z) (i : imu) : list S := if i_time i =? kd then i_sig i else [].
Definition wrench_of (c : contact) : list S := if c_real c then c_wrench c else [].
Fixpoint assignI (kd n : Z) (is : list imu) : list imu :=
  match is with [] => [] | i :: is' => if i_time i =? kd then mkImu (i_time i) (i_sig i) (i_cov i) (i_kine i) n :: assignI kd (n + 6) is' else i :: assignI kd n is' end.
Fixpoint assignC (n : Z) (cs : list contact) : list contact :=
  match cs with [] => [] | c :: cs' =>
    if c_real c then mkContact (c_set c) (c_real c) (c_time c) (c_sidx c) (c_tidx c) n (c_wrench c) (c_cov c) (c_kine c) (c_pose c) (c_stiff c) :: assignC (n + 6) cs'
    else c :: assignC n cs' end.
Fixpoint blocksI (kd n : Z) (is : list imu) : list (Z * C) :=
  match is with [] => [] | i :: is' => if i_time i =? kd then (n, fst (i_cov i)) :: (n + 3, snd (i_cov i)) :: blocksI kd (n + 6) is' else blocksI kd n is' end.
Fixpoint blocksC (n : Z) (cs : list contact) : list (Z * C) :=
  match cs with [] => [] | c :: cs' => if c_real c then (match c_cov c with Some v => [(n, v)] | None => [] end) ++ blocksC (n + 6) cs' else blocksC n cs' end.

Lemma write_imus_ok md kd (is : list imu) : forall pre k r, Forall (fun i => i_time i = kd -> length (i_sig i) = 6%nat) is -> 6 * count (is_cur kd) is <= Z.of_nat k ->
  write_imus md kd is (pre ++ repeat None k) r (Z.of_nat (length pre)) =
  Ok (assignI kd (Z.of_nat (length pre)) is, pre ++ map Some (concat (map (sig_of kd) is)) ++ repeat None (Z.to_nat (Z.of_nat k - 6 * count (is_cur kd) is)),
      r ++ blocksI kd (Z.of_nat (length pre)) is, Z.of_nat (length pre) + 6 * count (is_cur kd) is).
Proof.
  induction is as [|i is IH]; intros pre k r HF Hk; cbn [write_imus assignI blocksI map concat].
  - rewrite count_nil. cbn [map app]. rewrite app_nil_r, Z.sub_0_r, Nat2Z.id, Z.add_0_r. reflexivity.
  - inversion HF; subst. rewrite count_cons in *. unfold is_cur at 1, sig_of at 1. unfold is_cur in Hk at 1. unfold is_cur at 2. pose proof (count_nonneg (is_cur kd) is).
    destruct (Z.eqb_spec (i_time i) kd) as [E|E].
    + specialize (H1 E). rewrite seg_tail by (rewrite map_length; lia). cbn [obind].
      replace (Z.of_nat (length pre) + 3 + 3) with (Z.of_nat (length (pre ++ map Some (i_sig i)))) by (rewrite app_length, map_length; lia).
      rewrite (app_assoc pre). rewrite IH by (auto; rewrite map_length; lia). cbn [obind]. rewrite map_app, <- !app_assoc.
      replace (Z.of_nat (length (pre ++ map Some (i_sig i)))) with (Z.of_nat (length pre) + 6) by (rewrite app_length, map_length; lia).
      cbn [app]. rewrite map_length, H1.
      replace (Z.of_nat (k - 6) - 6 * count (is_cur kd) is) with (Z.of_nat k - 6 * (1 + count (is_cur kd) is)) by lia.
      replace (Z.of_nat (length pre) + 6 + 6 * count (is_cur kd) is) with (Z.of_nat (length pre) + 6 * (1 + count (is_cur kd) is)) by lia. reflexivity.
    + rewrite IH by (auto; lia). cbn [obind app]. reflexivity.
Qed.
Lemma write_contacts_ok md (cs : list contact) : forall pre k r, Forall (fun c => c_real c = true -> length (c_wrench c) = 6%nat /\ c_cov c <> None) cs -> 6 * count c_real cs <= Z.of_nat k ->
  write_contacts md cs (pre ++ repeat None k) r (Z.of_nat (length pre)) =
  Ok (assignC (Z.of_nat (length pre)) cs, pre ++ map Some (concat (map wrench_of cs)) ++ repeat None (Z.to_nat (Z.of_nat k - 6 * count c_real cs)),
      r ++ blocksC (Z.of_nat (length pre)) cs, Z.of_nat (length pre) + 6 * count c_real cs).
Proof.
  induction cs as [|c cs IH]; intros pre k r HF Hk; cbn [write_contacts assignC blocksC map concat].
  - rewrite count_nil. cbn [map app]. rewrite app_nil_r, Z.sub_0_r, Nat2Z.id, Z.add_0_r. reflexivity.
  - inversion HF; subst. rewrite count_cons in *. unfold wrench_of at 1. pose proof (count_nonneg c_real cs).
    destruct (c_real c) eqn:E.
    + destruct (H1 eq_refl) as [HL HC]. rewrite seg_tail by (rewrite map_length; lia). cbn [obind]. destruct (c_cov c) as [v|] eqn:Ev; [|congruence]. cbn [obind].
      replace (Z.of_nat (length pre) + sizeWrench) with (Z.of_nat (length (pre ++ map Some (c_wrench c)))) by (rewrite app_length, map_length; unfold sizeWrench, sizeForce, sizeTorque; lia).
      rewrite (app_assoc pre). rewrite IH by (auto; rewrite map_length; lia). cbn [obind]. rewrite map_app, <- !app_assoc.
      replace (Z.of_nat (length (pre ++ map Some (c_wrench c)))) with (Z.of_nat (length pre) + 6) by (rewrite app_length, map_length; lia).
      cbn [app]. rewrite map_length, HL.
      replace (Z.of_nat (k - 6) - 6 * count c_real cs) with (Z.of_nat k - 6 * (1 + count c_real cs)) by lia.
      replace (Z.of_nat (length pre) + 6 + 6 * count c_real cs) with (Z.of_nat (length pre) + 6 * (1 + count c_real cs)) by lia. reflexivity.
    + rewrite IH by (auto; lia). cbn [obind app]. reflexivity.
Qed.
Lemma predict_imus_ok md kd h (is : list imu) : (forall j, length (h j) = 6%nat) -> forall pre k j, 6 * count (is_cur kd) is <= Z.of_nat k ->
  predict_imus md kd h (assignI kd (Z.of_nat (length pre)) is) j (pre ++ repeat None k) =
  Ok (pre ++ map Some (concat (map (fun p => if is_cur kd (snd p) then h (fst p) else []) (combine (map (fun m => j + Z.of_nat m) (seq 0 (length is))) is))) ++ repeat None (Z.to_nat (Z.of_nat k - 6 * count (is_cur kd) is))).
Proof.
  intros Hh. induction is as [|i is IH]; intros pre k j Hk; cbn [assignI predict_imus map concat length seq combine].
  - rewrite count_nil. cbn [map app]. rewrite Z.sub_0_r, Nat2Z.id. reflexivity.
  - rewrite count_cons in *. pose proof (count_nonneg (is_cur kd) is). cbn [snd fst]. rewrite Z.add_0_r.
    rewrite <- seq_shift, map_map. rewrite (map_ext (fun x => j + Z.of_nat (Datatypes.S x)) (fun m => j + 1 + Z.of_nat m)) by (intros; lia).
    unfold is_cur at 1 in Hk. unfold is_cur at 1. unfold is_cur at 2.
    destruct (Z.eqb_spec (i_time i) kd) as [E|E]; cbn [predict_imus i_time i_midx].
    + rewrite E, Z.eqb_refl. rewrite seg_tail by (rewrite map_length, Hh; lia). cbn [obind].
      replace (Z.of_nat (length pre) + 6) with (Z.of_nat (length (pre ++ map Some (h j)))) by (rewrite app_length, map_length, Hh; lia).
      rewrite (app_assoc pre). rewrite IH by (rewrite map_length, Hh; lia). rewrite map_app, <- !app_assoc, map_length, Hh.
      replace (Z.of_nat (k - 6) - 6 * count (is_cur kd) is) with (Z.of_nat k - 6 * (1 + count (is_cur kd) is)) by lia. reflexivity.
    + apply Z.eqb_neq in E. rewrite E. cbn [obind app]. apply IH. lia.
Qed.
Definition cfresh (kd : Z) (c : contact) : Prop := c_real c = true -> c_set c = true /\ c_time c = kd.
Lemma predict_contacts_ok md kd h (cs : list contact) : (forall j, length (h j) = 6%nat) -> forall pre k j, Forall (cfresh kd) cs -> 6 * count c_real cs <= Z.of_nat k ->
  predict_contacts md kd h (assignC (Z.of_nat (length pre)) cs) j (pre ++ repeat None k) =
  Ok (pre ++ map Some (concat (map (fun p => if c_real (snd p) then h (fst p) else []) (combine (map (fun m => j + Z.of_nat m) (seq 0 (length cs))) cs))) ++ repeat None (Z.to_nat (Z.of_nat k - 6 * count c_real cs))).
Proof.
  intros Hh. induction cs as [|c cs IH]; intros pre k j HF Hk; cbn [assignC predict_contacts map concat length seq combine].
  - rewrite count_nil. cbn [map app]. rewrite Z.sub_0_r, Nat2Z.id. reflexivity.
  - inversion HF; subst. rewrite count_cons in *. pose proof (count_nonneg c_real cs). cbn [snd fst]. rewrite Z.add_0_r.
    rewrite <- seq_shift, map_map. rewrite (map_ext (fun x => j + Z.of_nat (Datatypes.S x)) (fun m => j + 1 + Z.of_nat m)) by (intros; lia).
    destruct (c_real c) eqn:E; cbn [predict_contacts c_set c_time c_real c_midx].
    + destruct (H1 E) as [E1 E2]. rewrite E1, E2, Z.eqb_refl. cbn [andb]. rewrite seg_tail by (rewrite map_length, Hh; lia). cbn [obind].
      replace (Z.of_nat (length pre) + 6) with (Z.of_nat (length (pre ++ map Some (h j)))) by (rewrite app_length, map_length, Hh; lia).
      rewrite (app_assoc pre). rewrite IH by (auto; rewrite map_length, Hh; lia). rewrite map_app, <- !app_assoc, map_length, Hh.
      replace (Z.of_nat (k - 6) - 6 * count c_real cs) with (Z.of_nat k - 6 * (1 + count c_real cs)) by lia. reflexivity.
    + rewrite E. rewrite andb_false_r. cbn [obind app]. apply IH; auto; lia.
Qed.

(** The vector and the blocks built by ko_prepare when the counters are right. *)
Definition meas_state s : list S :=
  concat (map (sig_of (o_kdata s)) (o_imus s)) ++ concat (map wrench_of (o_contacts s)) ++ (if p_time (o_pose s) =? o_kdata s then p_sig (o_pose s) else []).
Record ready maxC maxI s : Prop := {
  r_inv : inv maxC maxI s; r_iter : o_kest s <> o_kdata s;
  r_set : Forall (fun c => c_set c = true -> c_time c = o_kdata s) (o_contacts s);
  r_real : Forall (fun c => c_real c = true -> c_set c = true) (o_contacts s);
  r_nimu : o_nimu s = count (is_cur (o_kdata s)) (o_imus s); r_nreal : o_nreal s = count c_real (o_contacts s) }.
Lemma sig_length kd (is : list imu) : Forall (fun i => i_time i = kd -> length (i_sig i) = 6%nat) is -> Z.of_nat (length (concat (map (sig_of kd) is))) = 6 * count (is_cur kd) is.
Proof.
  intros H. induction H as [|i is Hi H IH]; [reflexivity|]. rewrite count_cons. cbn [map concat]. rewrite app_length. unfold sig_of at 1, is_cur at 1.
  destruct (Z.eqb_spec (i_time i) kd); [rewrite (Hi e)|cbn [length]]; lia.
Qed.
Lemma wrench_length (cs : list contact) : Forall (fun c => c_real c = true -> length (c_wrench c) = 6%nat /\ c_cov c <> None) cs -> Z.of_nat (length (concat (map wrench_of cs))) = 6 * count c_real cs.
Proof.
  intros H. induction H as [|c cs Hi H IH]; [reflexivity|]. rewrite count_cons. cbn [map concat]. rewrite app_length. unfold wrench_of at 1.
  destruct (c_real c); [destruct (Hi eq_refl) as [-> _]|cbn [length]]; lia.
Qed.
Lemma ready_sig maxC maxI s : ready maxC maxI s -> Forall (fun i => i_time i = o_kdata s -> length (i_sig i) = 6%nat) (o_imus s) /\
  Forall (fun c => c_real c = true -> length (c_wrench c) = 6%nat /\ c_cov c <> None) (o_contacts s).
Proof.
  intros Hr. pose proof (r_inv _ _ _ Hr) as Hi. split.
  - eapply Forall_impl; [|apply (v_imu _ _ _ Hi)]. cbn. intros i [_ H] E. apply H. unfold cur. split; [exact E|apply (r_iter _ _ _ Hr)].
  - eapply Forall_impl; [|apply (v_ct _ _ _ Hi)]. cbn. intros c [_ H]. exact H.
Qed.
Lemma prepare_ok md maxC maxI s : ready maxC maxI s ->
  let kd := o_kdata s in let n1 := 6 * count (is_cur kd) (o_imus s) in let n2 := n1 + 6 * count c_real (o_contacts s) in
  exists p r, ko_prepare md s = Ok (set_meas (map Some (meas_state s)) r (set_nreal (o_nreal s) (set_pose p (set_imus (assignI kd 0 (o_imus s)) (set_contacts (assignC n1 (o_contacts s)) s))))) /\
    p_time p = p_time (o_pose s) /\ p_sig p = p_sig (o_pose s) /\ (p_time p = kd -> p_midx p = n2) /\
    r = blocksI kd 0 (o_imus s) ++ blocksC n1 (o_contacts s) ++ (if p_time (o_pose s) =? kd then match p_cov (o_pose s) with Some v => [(n2, v)] | None => [] end else []).
Proof.
  intros Hr. cbv zeta. destruct (ready_sig _ _ _ Hr) as [HI HC]. pose proof (r_inv _ _ _ Hr) as Hi.
  unfold ko_prepare. rewrite drop_lost_ok by apply (r_set _ _ _ Hr). cbn [obind]. cbv zeta.
  rewrite (r_nimu _ _ _ Hr), (r_nreal _ _ _ Hr). change sizeIMUSignal with 6. change sizeWrench with 6. change sizePose with 7.
  set (a := count (is_cur (o_kdata s)) (o_imus s)). set (b := count c_real (o_contacts s)).
  pose proof (count_nonneg (is_cur (o_kdata s)) (o_imus s)) as Ha. fold a in Ha. pose proof (count_nonneg c_real (o_contacts s)) as Hb. fold b in Hb.
  destruct (Z.ltb_spec (6 * a + 6 * b) 0); [lia|].
  set (k := Z.to_nat (if p_time (o_pose s) =? o_kdata s then 6 * a + 6 * b + 7 else 6 * a + 6 * b)).
  assert (Hk : Z.of_nat k = if p_time (o_pose s) =? o_kdata s then 6 * a + 6 * b + 7 else 6 * a + 6 * b) by (unfold k; destruct (p_time (o_pose s) =? o_kdata s); lia).
  pose proof (write_imus_ok md (o_kdata s) (o_imus s) [] k [] HI) as W. cbn [app length] in W. change (Z.of_nat 0) with 0 in W. fold a in W.
  rewrite W by (destruct (p_time (o_pose s) =? o_kdata s); lia). cbn [obind]. clear W.
  pose proof (sig_length _ _ HI) as L1. fold a in L1. pose proof (wrench_length _ HC) as L2. fold b in L2.
  set (k1 := Z.to_nat (Z.of_nat k - 6 * a)). assert (Hk1 : Z.of_nat k1 = Z.of_nat k - 6 * a) by (unfold k1; destruct (p_time (o_pose s) =? o_kdata s); lia).
  replace (0 + 6 * a) with (Z.of_nat (length (map (@Some S) (concat (map (sig_of (o_kdata s)) (o_imus s)))))) by (rewrite map_length; lia).
  rewrite write_contacts_ok by (auto; fold b; destruct (p_time (o_pose s) =? o_kdata s); lia). cbn [obind]. fold b.
  rewrite map_length, L1. rewrite app_assoc, <- map_app.
  set (pre := concat (map (sig_of (o_kdata s)) (o_imus s)) ++ concat (map wrench_of (o_contacts s))).
  set (k2 := Z.to_nat (Z.of_nat k1 - 6 * b)). assert (Hk2 : Z.of_nat k2 = Z.of_nat k1 - 6 * b) by (unfold k2; destruct (p_time (o_pose s) =? o_kdata s); lia).
  destruct (Z.eqb_spec (p_time (o_pose s)) (o_kdata s)) as [E|E].
  - destruct (v_pose _ _ _ Hi) as [_ HP]. destruct HP as [P1 P2]; [split; [exact E|apply (r_iter _ _ _ Hr)]|].
    replace (6 * a + 6 * b) with (Z.of_nat (length (map (@Some S) pre))) by (rewrite map_length; unfold pre; rewrite app_length; lia).
    rewrite seg_tail by (rewrite map_length; lia). cbn [obind]. destruct (p_cov (o_pose s)) as [v|] eqn:Ev; [|congruence]. cbn [obind].
    eexists. eexists. split; [|split; [|split; [|split]]].
    + unfold meas_state. rewrite E, Z.eqb_refl. rewrite map_length. replace (k2 - length (p_sig (o_pose s)))%nat with 0%nat by lia. cbn [repeat]. rewrite app_nil_r.
      rewrite <- map_app. unfold pre. rewrite <- app_assoc. reflexivity.
    + cbn. congruence.
    + reflexivity.
    + reflexivity.
    + rewrite <- app_assoc. reflexivity.
  - exists (o_pose s). eexists. cbn [obind]. split; [|split; [|split; [|split]]].
    + unfold meas_state. apply Z.eqb_neq in E. rewrite E. replace k2 with 0%nat by lia. cbn [repeat]. rewrite !app_nil_r. reflexivity.
    + reflexivity.
    + reflexivity.
    + intros; contradiction.
    + rewrite app_nil_r. reflexivity.
Qed.
End P.
