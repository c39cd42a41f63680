(** Lemmas about sums and differences of states. *)
From Coq Require Import ZArith List Lia Bool Reals Lra.
From Verif Require Import Base Vec3 Rot RotProofs Orient SpecOrient OrientProofs Kine KinObs SpecKin KinSum SpecKinSum KinProofs KinInv KinThms SegProofs.
Import ListNotations.
Open Scope Z_scope.

Definition blk_s (b : blk) : Z := let '(_, i, _) := b in i.
Definition blk_t (b : blk) : Z := let '(_, _, j) := b in j.
Definition slen (b : blk) : nat := match fst (fst b) with BLin n => n | BOri => 4 end.
Definition tlen (b : blk) : nat := match fst (fst b) with BLin n => n | BOri => 3 end.

(** Component [c] lies in block [b]. *)
Definition c_in (mI : Z) (c : comp) (b : blk) : Prop :=
  if is_ori c then b = (BOri, cval false mI c, cval true mI c)
  else exists n o, b = (BLin n, cval false mI c - Z.of_nat o, cval true mI c - Z.of_nat o) /\ (o + 3 <= n)%nat.

Set Default Proof Using "Type".
Section P.
Context {Kn M C : Type}.
Notation obs := (obs R Kn M C).
Notation contact := (contact R Kn M C).
Implicit Types s : obs.

Definition covered s (mI : Z) (b : blk) : Prop :=
  (forall z, blk_s b <= z < blk_s b + Z.of_nat (slen b) -> exists c, active s c /\ cval false mI c <= z < cval false mI c + comp_size false c) /\
  (forall z, blk_t b <= z < blk_t b + Z.of_nat (tlen b) -> exists c, active s c /\ cval true mI c <= z < cval true mI c + comp_size true c).

Lemma gyro_ok md maxI : forall n i, 0 <= i -> i + Z.of_nat n = maxI ->
  exists l, gyro_blocks md maxI n i = Ok l /\ chain blk_s slen (13 + 3 * i) l (13 + 3 * maxI) /\ chain blk_t tlen (12 + 3 * i) l (12 + 3 * maxI) /\
    (forall j, i <= j < maxI -> In (BLin 3, 13 + 3 * j, 12 + 3 * j) l) /\ (forall b, In b l -> exists j, i <= j < maxI /\ b = (BLin 3, 13 + 3 * j, 12 + 3 * j)).
Proof.
  induction n as [|n IH]; intros i Hi E; cbn [gyro_blocks].
  - exists []. split; [reflexivity|]. split; [cbn [chain]; lia|]. split; [cbn [chain]; lia|]. split; [intros; lia|intros b []].
  - assert (G : gyroBiasIndex md maxI i = Ok (13 + 3 * i) /\ gyroBiasIndexTangent md maxI i = Ok (12 + 3 * i)).
    { apply gyro_idx; lia. }
    destruct G as [-> ->]. cbn [obind]. destruct (IH (i + 1)) as (l & -> & C1 & C2 & I1 & I2); try lia. cbn [obind].
    exists ((BLin 3, 13 + 3 * i, 12 + 3 * i) :: l). split; [reflexivity|]. cbn [chain blk_s blk_t].
    change (slen (BLin 3, 13 + 3 * i, 12 + 3 * i)) with 3%nat. change (tlen (BLin 3, 13 + 3 * i, 12 + 3 * i)) with 3%nat. change (Z.of_nat 3) with 3.
    replace (13 + 3 * i + 3) with (13 + 3 * (i + 1)) by lia. replace (12 + 3 * i + 3) with (12 + 3 * (i + 1)) by lia.
    split; [split; [lia|exact C1]|]. split; [split; [lia|exact C2]|]. split.
    + intros j Hj. destruct (Z.eq_dec j i) as [->|]; [now left|right; apply I1; lia].
    + intros b [<-|Hb]; [exists i; split; [lia|reflexivity]|]. destruct (I2 b Hb) as (j & Hj & ->). exists j. split; [lia|reflexivity].
Qed.

Definition cblocks (mI j : Z) : list blk :=
  [(BLin 3, cidx mI j, cidxT mI j); (BOri, cidx mI j + 3, cidxT mI j + 3); (BLin 6, cidx mI j + 7, cidxT mI j + 6)].
Lemma contacts_ok md mI : forall (cs : list contact) i, 0 <= mI -> 0 <= i ->
  (forall k c, nth_error cs k = Some c -> c_set c = true -> c_sidx c = cidx mI (i + Z.of_nat k) /\ c_tidx c = cidxT mI (i + Z.of_nat k)) ->
  exists l, contact_blocks md cs = Ok l /\ chain blk_s slen (cidx mI i) l (cidx mI (i + Z.of_nat (length cs))) /\
    chain blk_t tlen (cidxT mI i) l (cidxT mI (i + Z.of_nat (length cs))) /\
    (forall k c, nth_error cs k = Some c -> c_set c = true -> incl (cblocks mI (i + Z.of_nat k)) l) /\
    (forall b, In b l -> exists k c, nth_error cs k = Some c /\ c_set c = true /\ In b (cblocks mI (i + Z.of_nat k))).
Proof.
  induction cs as [|c cs IH]; intros i Hm Hi H; cbn [contact_blocks length].
  - exists []. split; [reflexivity|]. unfold cidx, cidxT. cbn [chain]. split; [lia|]. split; [lia|]. split; [intros [|k]; discriminate|intros b []].
  - destruct (IH (i + 1)) as (l & E & C1 & C2 & I1 & I2); try lia.
    { intros k c' Hk. specialize (H (S k) c' Hk). replace (i + 1 + Z.of_nat k) with (i + Z.of_nat (S k)) by lia. exact H. }
    replace (i + 1 + Z.of_nat (length cs)) with (i + Z.of_nat (S (length cs))) in C1, C2 by lia.
    assert (I1' : forall k c, nth_error cs k = Some c -> c_set c = true -> incl (cblocks mI (i + Z.of_nat (S k))) l).
    { intros k c' Hk Hs. replace (i + Z.of_nat (S k)) with (i + 1 + Z.of_nat k) by lia. eauto. }
    assert (I2' : forall b, In b l -> exists k c', nth_error (c :: cs) k = Some c' /\ c_set c' = true /\ In b (cblocks mI (i + Z.of_nat k))).
    { intros b Hb. destruct (I2 b Hb) as (k & c' & ? & ? & Hin). exists (S k), c'. replace (i + Z.of_nat (S k)) with (i + 1 + Z.of_nat k) by lia. auto. }
    destruct (c_set c) eqn:Es.
    + destruct (H 0%nat c eq_refl Es) as [H1 H2]. replace (i + Z.of_nat 0) with i in H1, H2 by lia. rewrite H1, H2.
      destruct (Z.ltb_spec 0 (cidx mI i)); [|unfold cidx in *; lia]. destruct (Z.ltb_spec 0 (cidxT mI i)); [|unfold cidxT in *; lia].
      cbn [boost_assert obind]. rewrite E. cbn [obind].
      exists (cblocks mI i ++ l). split; [reflexivity|]. split; [|split; [|split]].
      * apply chain_app with (mid := cidx mI (i + 1)); [|exact C1]. unfold cblocks, cidx. cbn [chain blk_s slen fst]. lia.
      * apply chain_app with (mid := cidxT mI (i + 1)); [|exact C2]. unfold cblocks, cidxT. cbn [chain blk_t tlen fst]. lia.
      * intros [|k] c' Hk Hs; cbn in Hk.
        -- replace (i + Z.of_nat 0) with i by lia. apply incl_appl, incl_refl.
        -- apply incl_appr. eapply I1'; eassumption.
      * intros b Hb. apply in_app_or in Hb. destruct Hb as [Hb|Hb]; [|auto]. exists 0%nat, c. replace (i + Z.of_nat 0) with i by lia. auto.
    + rewrite E. exists l. split; [reflexivity|]. split; [|split; [|split]]; auto.
      * clear -C1. assert (cidx mI i <= cidx mI (i + 1)) by (unfold cidx; lia). destruct l; cbn in *; [lia|]. split; [lia|tauto].
      * clear -C2. assert (cidxT mI i <= cidxT mI (i + 1)) by (unfold cidxT; lia). destruct l; cbn in *; [lia|]. split; [lia|tauto].
      * intros [|k] c' Hk Hs; cbn in Hk; [injection Hk as <-; congruence|]. eauto.
Qed.

Lemma blocks_ok md maxC maxI s : inv maxC maxI s -> (md = Debug -> (0 < maxI)%nat) ->
  exists bs, ko_blocks md s = Ok bs /\ chain blk_s slen 0 bs (vsize false maxC maxI) /\ chain blk_t tlen 0 bs (vsize true maxC maxI) /\
    (forall c, active s c -> exists b, In b bs /\ c_in (Z.of_nat maxI) c b) /\ (forall b, In b bs -> covered s (Z.of_nat maxI) b).
Proof.
  intros Hi Hm. unfold ko_blocks. set (mI := Z.of_nat maxI).
  assert (G : exists g, (if o_withGyro s then gyro_blocks md (o_maxI s) (length (o_imus s)) 0 else Ok []) = Ok g /\
    chain blk_s slen 13 g (13 + 3 * mI) /\ chain blk_t tlen 12 g (12 + 3 * mI) /\
    (forall j, o_withGyro s = true -> 0 <= j < mI -> In (BLin 3, 13 + 3 * j, 12 + 3 * j) g) /\
    (forall b, In b g -> exists j, o_withGyro s = true /\ 0 <= j < mI /\ b = (BLin 3, 13 + 3 * j, 12 + 3 * j))).
  { destruct (o_withGyro s).
    - destruct (gyro_ok md (o_maxI s) (length (o_imus s)) 0) as (g & E & C1 & C2 & I1 & I2); [lia|rewrite (v_maxI _ _ _ Hi), (v_lI _ _ _ Hi); lia|].
      rewrite (v_maxI _ _ _ Hi) in *. exists g. split; [exact E|]. split; [exact C1|]. split; [exact C2|]. split; [auto|].
      intros b Hb. destruct (I2 b Hb) as (j & ? & ?). exists j; auto.
    - exists []. split; [reflexivity|]. cbn [chain]. split; [lia|]. split; [lia|]. split; [intros; discriminate|intros b []]. }
  destruct G as (g & -> & G1 & G2 & G3 & G4). cbn [obind].
  assert (U : exists u, (if o_withUnm s then do a <- unmodeledWrenchIndex md (o_maxI s); do b <- unmodeledWrenchIndexTangent md (o_maxI s); Ok [(BLin 6, a, b)] else Ok []) = Ok u /\
    chain blk_s slen (13 + 3 * mI) u (19 + 3 * mI) /\ chain blk_t tlen (12 + 3 * mI) u (18 + 3 * mI) /\
    (o_withUnm s = true -> In (BLin 6, 13 + 3 * mI, 12 + 3 * mI) u) /\ (forall b, In b u -> o_withUnm s = true /\ b = (BLin 6, 13 + 3 * mI, 12 + 3 * mI))).
  { destruct (o_withUnm s).
    - assert (E1 := comp_start_ok md false maxC maxI s CUForce Hi Hm I). assert (E2 := comp_start_ok md true maxC maxI s CUForce Hi Hm I).
      cbn [comp_start cval] in E1, E2. unfold unmodeledForceIndex, unmodeledForceIndexTangent in *. rewrite E1, E2. cbn [obind].
      exists [(BLin 6, 13 + 3 * mI, 12 + 3 * mI)]. split; [reflexivity|]. cbn [chain blk_s blk_t slen tlen fst]. split; [lia|]. split; [lia|]. split; [left; reflexivity|]. intros b [<-|[]]; auto.
    - exists []. split; [reflexivity|]. cbn [chain]. split; [lia|]. split; [lia|]. split; [intros; discriminate|intros b []]. }
  destruct U as (u & -> & U1 & U2 & U3 & U4). cbn [obind].
  destruct (contacts_ok md mI (o_contacts s) 0) as (l & -> & C1 & C2 & I1 & I2); [lia|lia| |].
  { intros k c Hk Hs. exact (v_ci _ _ _ Hi k c Hk Hs). }
  cbn [obind]. rewrite (v_lC _ _ _ Hi) in C1, C2. rewrite Z.add_0_l in C1, C2.
  rewrite !vsize_eq. fold mI. eexists. split; [reflexivity|].
  split; [|split; [|split]].
  - apply chain_app with (mid := 13); [repeat split; vm_compute; discriminate|]. apply chain_app with (mid := 13 + 3 * mI); [exact G1|].
    apply chain_app with (mid := 19 + 3 * mI); [exact U1|]. unfold cidx in *. rewrite Z.mul_0_r, Z.add_0_r in C1. exact C1.
  - apply chain_app with (mid := 12); [repeat split; vm_compute; discriminate|]. apply chain_app with (mid := 12 + 3 * mI); [exact G2|].
    apply chain_app with (mid := 18 + 3 * mI); [exact U2|]. unfold cidxT in *. rewrite Z.mul_0_r, Z.add_0_r in C2. exact C2.
  - intros c [Hc Ha].
    assert (K : forall j, In j (ko_getListOfContacts s) -> incl (cblocks mI j) l).
    { intros j Hj. apply list_iff in Hj. destruct Hj as (Hj & c' & Hn & Hs). specialize (I1 _ _ Hn Hs). rewrite Z2Nat.id, Z.add_0_l in I1 by lia. exact I1. }
    destruct c as [| | | |i| | |j|j|j|j]; cbn [comp_exists] in Hc; unfold c_in; cbn [is_ori cval].
    + exists (BLin 3, 0, 0). split; [left; reflexivity|]. exists 3%nat, 0%nat. split; [reflexivity|lia].
    + exists (BOri, 3, 3). split; [right; left; reflexivity|reflexivity].
    + exists (BLin 6, 7, 6). split; [do 2 right; left; reflexivity|]. exists 6%nat, 0%nat. split; [reflexivity|lia].
    + exists (BLin 6, 7, 6). split; [do 2 right; left; reflexivity|]. exists 6%nat, 3%nat. split; [reflexivity|lia].
    + exists (BLin 3, 13 + 3 * i, 12 + 3 * i). split; [apply in_or_app; right; apply in_or_app; left; apply G3; [exact Ha|rewrite (v_maxI _ _ _ Hi) in Hc; exact Hc]|].
      exists 3%nat, 0%nat. split; [f_equal; [f_equal|]; lia|lia].
    + exists (BLin 6, 13 + 3 * mI, 12 + 3 * mI). split; [do 2 (apply in_or_app; right); apply in_or_app; left; auto|]. exists 6%nat, 0%nat. split; [f_equal; [f_equal|]; lia|lia].
    + exists (BLin 6, 13 + 3 * mI, 12 + 3 * mI). split; [do 2 (apply in_or_app; right); apply in_or_app; left; auto|]. exists 6%nat, 3%nat. split; [f_equal; [f_equal|]; lia|lia].
    + exists (BLin 3, cidx mI j, cidxT mI j). split; [do 3 (apply in_or_app; right); apply (K j Hc); left; reflexivity|]. exists 3%nat, 0%nat. split; [f_equal; [f_equal|]; lia|lia].
    + exists (BOri, cidx mI j + 3, cidxT mI j + 3). split; [do 3 (apply in_or_app; right); apply (K j Hc); right; left; reflexivity|reflexivity].
    + exists (BLin 6, cidx mI j + 7, cidxT mI j + 6). split; [do 3 (apply in_or_app; right); apply (K j Hc); right; right; left; reflexivity|]. exists 6%nat, 0%nat. split; [f_equal; [f_equal|]; lia|lia].
    + exists (BLin 6, cidx mI j + 7, cidxT mI j + 6). split; [do 3 (apply in_or_app; right); apply (K j Hc); right; right; left; reflexivity|]. exists 6%nat, 3%nat. split; [f_equal; [f_equal|]; lia|lia].
  - assert (T : forall c c' k i j, active s c -> active s c' -> is_ori c = false -> is_ori c' = false ->
       (k = 3 /\ c' = c \/ k = 6 /\ cval false mI c' = cval false mI c + 3 /\ cval true mI c' = cval true mI c + 3) -> i = cval false mI c -> j = cval true mI c ->
       covered s mI (BLin (Z.to_nat k), i, j)).
    { intros c c' k i j A A' O O' K -> ->.
      assert (Z3 : forall t, comp_size t c = 3) by (intros t; destruct c, t; try reflexivity; discriminate).
      assert (Z3' : forall t, comp_size t c' = 3) by (intros t; destruct c', t; try reflexivity; discriminate).
      split; cbn; intros z Hz; (destruct (Z_lt_le_dec z (cval false mI c + 3)) || idtac).
      - exists c. rewrite Z3. split; [exact A|]. destruct K as [[-> ->]|[-> _]]; lia.
      - exists c'. rewrite Z3'. split; [exact A'|]. destruct K as [[-> ->]|[-> [K K']]]; lia.
      - destruct (Z_lt_le_dec z (cval true mI c + 3)).
        + exists c. rewrite Z3. split; [exact A|]. destruct K as [[-> ->]|[-> _]]; lia.
        + exists c'. rewrite Z3'. split; [exact A'|]. destruct K as [[-> ->]|[-> [K K']]]; lia.
      - destruct (Z_lt_le_dec z (cval true mI c + 3)).
        + exists c. rewrite Z3. split; [exact A|]. destruct K as [[-> ->]|[-> _]]; lia.
        + exists c'. rewrite Z3'. split; [exact A'|]. destruct K as [[-> ->]|[-> [K K']]]; lia. }
    assert (TO : forall c i j, active s c -> is_ori c = true -> i = cval false mI c -> j = cval true mI c -> covered s mI (BOri, i, j)).
    { intros c i j A O -> ->. split; cbn; intros z Hz; exists c; (split; [exact A|]); destruct c; try discriminate; cbn [comp_size]; lia. }
    intros b Hb. apply in_app_or in Hb. destruct Hb as [Hb|Hb].
    { destruct Hb as [<-|[<-|[<-|[]]]].
      - apply (T CPos CPos 3); unfold active; cbn; auto.
      - apply (TO COri); unfold active; cbn; auto.
      - apply (T CLinVel CAngVel 6); unfold active; cbn; auto. }
    apply in_app_or in Hb. destruct Hb as [Hb|Hb].
    { destruct (G4 b Hb) as (j & Ha & Hj & ->). apply (T (CGyro j) (CGyro j) 3); unfold active; cbn; rewrite ?(v_maxI _ _ _ Hi); auto. }
    apply in_app_or in Hb. destruct Hb as [Hb|Hb].
    { destruct (U4 b Hb) as (Ha & ->). apply (T CUForce CUTorque 6); unfold active; cbn [comp_exists is_ori cval]; auto. right. repeat split; lia. }
    destruct (I2 b Hb) as (k & c & Hk & Hs & Hin). rewrite Z.add_0_l in Hin.
    assert (Hl : In (Z.of_nat k) (ko_getListOfContacts s)) by (apply list_iff; split; [lia|]; exists c; rewrite Nat2Z.id; auto).
    destruct Hin as [<-|[<-|[<-|[]]]].
    + apply (T (CCPos (Z.of_nat k)) (CCPos (Z.of_nat k)) 3); unfold active; cbn; auto.
    + apply (TO (CCOri (Z.of_nat k))); unfold active; cbn; auto.
    + apply (T (CCForce (Z.of_nat k)) (CCTorque (Z.of_nat k)) 6); unfold active; cbn [comp_exists is_ori cval]; auto. right. repeat split; lia.
Qed.
End P.
