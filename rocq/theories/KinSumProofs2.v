(** The sum and the difference of states, component by component. *)
From Coq Require Import ZArith List Lia Bool Reals Lra.
From Verif Require Import Base Vec3 Rot RotProofs RotProofs2 RotProofs3 Orient SpecOrient OrientProofs Kine KinObs SpecKin KinSum SpecKinSum KinProofs KinInv KinThms SegProofs KinSumProofs.
Import ListNotations.
Open Scope Z_scope.

Lemma zip_nth f a b k : nth_error (zip f a b) k = match nth_error a k, nth_error b k with Some x, Some y => Some (f x y) | _, _ => None end.
Proof.
  unfold zip. revert a b. induction k as [|k IH]; intros [|x a] [|y b]; cbn; auto. destruct (nth_error a k); reflexivity.
Qed.
Lemma zip_seg f a b i n : seg_get i n (zip f a b) = zip f (seg_get i n a) (seg_get i n b).
Proof. apply nth_error_ext. intros k. rewrite zip_nth, !nth_error_seg. destruct (Nat.ltb_spec k n); [apply zip_nth|reflexivity]. Qed.
Lemma zip_length f a b : length a = length b -> length (zip f a b) = length a.
Proof. intros H. unfold zip. rewrite map_length, combine_length. lia. Qed.
Lemma zip_minus_plus a b : length a = length b -> zip Rminus (zip Rplus a b) a = b.
Proof.
  revert b. induction a as [|x a IH]; intros [|y b] H; try discriminate; [reflexivity|]. cbn. f_equal; [ring|]. apply IH. now injection H.
Qed.
Lemma zip_plus_minus a b : length a = length b -> zip Rplus b (zip Rminus a b) = a.
Proof.
  revert b. induction a as [|x a IH]; intros [|y b] H; try discriminate; [reflexivity|]. cbn. f_equal; [ring|]. apply IH. now injection H.
Qed.
Lemma vec_l3 v : vec_of (l3 v) = v. Proof. destruct v; reflexivity. Qed.
Lemma quat_l4 q : quat_of (l4 q) = q. Proof. destruct q; reflexivity. Qed.
Lemma l3_vec l : length l = 3%nat -> l3 (vec_of l) = l.
Proof. destruct l as [|x [|y [|z [|? ?]]]]; try discriminate. reflexivity. Qed.
Lemma l4_quat l : length l = 4%nat -> l4 (quat_of l) = l.
Proof. destruct l as [|x [|y [|z [|w [|? ?]]]]]; try discriminate. reflexivity. Qed.
Lemma rd3_ok md i v : 0 <= i -> i + 3 <= Z.of_nat (length v) -> rd3 md i v = Ok (vec_of (seg_get (Z.to_nat i) 3 v)).
Proof.
  intros H H'. unfold rd3. rewrite seg_rd_ok by lia. cbn [obind].
  assert (L : length (seg_get (Z.to_nat i) 3 v) = 3%nat) by (apply seg_get_length; lia).
  destruct (seg_get (Z.to_nat i) 3 v) as [|x [|y [|z [|? ?]]]]; try discriminate. reflexivity.
Qed.
Lemma rd4_ok md i v : 0 <= i -> i + 4 <= Z.of_nat (length v) -> rd4 md i v = Ok (quat_of (seg_get (Z.to_nat i) 4 v)).
Proof.
  intros H H'. unfold rd4. rewrite seg_rd_ok by lia. cbn [obind].
  assert (L : length (seg_get (Z.to_nat i) 4 v) = 4%nat) by (apply seg_get_length; lia).
  destruct (seg_get (Z.to_nat i) 4 v) as [|x [|y [|z [|w [|? ?]]]]]; try discriminate. reflexivity.
Qed.
Lemma diff_quat md p q : o_diff md (o_quat q) (o_quat p) = Ok (quat_rv (qmul p (qinv q))).
Proof. destruct md; reflexivity. Qed.
Lemma integ_quat md v q : o_integrate md v (o_quat q) = Ok (o_quat (qmul (rv_quat v) q)).
Proof. destruct md; reflexivity. Qed.
Lemma toquat_quat md q : o_toQuat md (o_quat q) = Ok (q, o_quat q).
Proof. destruct md; reflexivity. Qed.

Set Default Proof Using "Type".
Section P.
Context {Kn M C : Type}.
Notation obs := (obs R Kn M C).
Implicit Types s : obs.
Notation nt maxC maxI := (stateTangentSize (Z.of_nat maxC) (Z.of_nat maxI)).
Notation sg t mI c v := (seg_get (Z.to_nat (cval t mI c)) (Z.to_nat (comp_size t c)) v).

Definition Gsum (x t : list R) (b : blk) : list R :=
  let '(k, i, j) := b in
  match k with
  | BLin n => zip Rplus (seg_get (Z.to_nat i) n x) (seg_get (Z.to_nat j) n t)
  | BOri => l4 (qmul (rv_quat (vec_of (seg_get (Z.to_nat j) 3 t))) (quat_of (seg_get (Z.to_nat i) 4 x)))
  end.
Definition Gdiff (x1 x2 : list R) (b : blk) : list R :=
  let '(k, i, j) := b in
  match k with
  | BLin n => zip Rminus (seg_get (Z.to_nat i) n x1) (seg_get (Z.to_nat i) n x2)
  | BOri => l3 (quat_rv (qmul (quat_of (seg_get (Z.to_nat i) 4 x1)) (qinv (quat_of (seg_get (Z.to_nat i) 4 x2)))))
  end.

Lemma c_in_size mI c b (t : bool) : c_in mI c b -> 
  exists o, (if t then blk_t b else blk_s b) + Z.of_nat o = cval t mI c /\ (o + Z.to_nat (comp_size t c) <= (if t then tlen b else slen b))%nat.
Proof.
  unfold c_in. destruct (is_ori c) eqn:E.
  - intros ->. exists 0%nat. destruct c; try discriminate; destruct t; cbn [blk_t blk_s tlen slen fst comp_size]; split; try lia; cbn; lia.
  - intros (n & o & -> & H). exists o. destruct c; try discriminate; destruct t; cbn [blk_t blk_s tlen slen fst comp_size]; split; try lia; cbn; lia.
Qed.

Lemma sum_ok md maxC maxI s x t : inv maxC maxI s -> (md = Debug -> (0 < maxI)%nat) -> length x = nx maxC maxI -> Z.of_nat (length t) = nt maxC maxI ->
  let mI := Z.of_nat maxI in
  exists y, ko_stateSum md s x t = Ok y /\ length y = nx maxC maxI /\
    (forall c, active s c -> is_ori c = false -> sg false mI c y = zip Rplus (sg false mI c x) (sg true mI c t)) /\
    (forall c, active s c -> is_ori c = true -> sg false mI c y = l4 (qmul (rv_quat (vec_of (sg true mI c t))) (quat_of (sg false mI c x)))) /\
    (forall k, (forall c, active s c -> ~ (cval false mI c <= Z.of_nat k < cval false mI c + comp_size false c)) -> nth_error y k = nth_error x k).
Proof.
  intros Hi Hm Hx Ht mI. destruct (blocks_ok md maxC maxI s Hi Hm) as (bs & E & C1 & C2 & I1 & I2). unfold ko_stateSum. rewrite E. cbn [obind].
  assert (V1 : vsize false maxC maxI = Z.of_nat (length x)) by (rewrite Hx, nx_eq, vsize_eq; reflexivity).
  assert (V2 : vsize true maxC maxI = Z.of_nat (length t)) by (rewrite Ht; reflexivity).
  destruct (writes blk_s slen md x (sum_block md x t) (Gsum x t) bs 0 (vsize false maxC maxI) x) as (y & Ey & Ly & W & Fr); auto; try lia.
  - intros b a Hb La Hs. destruct (chain_in _ _ _ _ _ b C1 Hb) as [A1 A2]. destruct (chain_in _ _ _ _ _ b C2 Hb) as [B1 B2].
    destruct b as [[[n|] i] j]; cbn [blk_s blk_t slen tlen fst] in *; unfold sum_block, Gsum.
    + rewrite seg_rd_ok by lia. cbn [obind]. rewrite seg_rd_ok by lia. cbn [obind]. rewrite Hs. reflexivity.
    + rewrite rd4_ok by lia. cbn [obind]. rewrite rd3_ok by lia. cbn [obind]. rewrite integ_quat. cbn [obind]. rewrite toquat_quat. reflexivity.
  - intros b Hb. destruct (chain_in _ _ _ _ _ b C1 Hb) as [A1 A2]. destruct (chain_in _ _ _ _ _ b C2 Hb) as [B1 B2].
    destruct b as [[[n|] i] j]; cbn [blk_s blk_t slen tlen fst] in *; unfold Gsum; [|reflexivity].
    rewrite zip_length; rewrite !seg_get_length by lia; lia.
  - exists y. split; [exact Ey|]. split; [lia|]. split; [|split].
    + intros c Ha Ho. destruct (I1 c Ha) as (b & Hb & Hc). unfold c_in in Hc. rewrite Ho in Hc. destruct Hc as (n & o & -> & Hn).
      specialize (W _ Hb). cbn [blk_s slen fst Gsum] in W. destruct (chain_in _ _ _ _ _ _ C1 Hb) as [A1 A2]. destruct (chain_in _ _ _ _ _ _ C2 Hb) as [B1 B2].
      cbn [blk_s blk_t slen tlen fst] in *. fold mI in W, A1, A2, B1, B2.
      assert (S3 : forall t, Z.to_nat (comp_size t c) = 3%nat) by (intros []; destruct c; try discriminate; reflexivity). rewrite !S3.
      assert (W' := f_equal (seg_get o 3) W). rewrite zip_seg, !seg_get_seg in W' by lia.
      replace (Z.to_nat (cval false mI c - Z.of_nat o) + o)%nat with (Z.to_nat (cval false mI c)) in W' by lia.
      replace (Z.to_nat (cval true mI c - Z.of_nat o) + o)%nat with (Z.to_nat (cval true mI c)) in W' by lia. exact W'.
    + intros c Ha Ho. destruct (I1 c Ha) as (b & Hb & Hc). unfold c_in in Hc. rewrite Ho in Hc. subst b. specialize (W _ Hb). cbn [blk_s slen fst Gsum] in W. fold mI in W.
      assert (S4 : Z.to_nat (comp_size false c) = 4%nat /\ Z.to_nat (comp_size true c) = 3%nat) by (destruct c; try discriminate; split; reflexivity).
      destruct S4 as [-> ->]. exact W.
    + intros k Hk. apply Fr. intros b Hb Hz. destruct (I2 b Hb) as [K _]. destruct (K _ Hz) as (c & Ha & Hc). exact (Hk c Ha Hc).
Qed.

Lemma diff_ok md maxC maxI s x1 x2 d0 : inv maxC maxI s -> (md = Debug -> (0 < maxI)%nat) -> length x1 = nx maxC maxI -> length x2 = nx maxC maxI -> Z.of_nat (length d0) = nt maxC maxI ->
  let mI := Z.of_nat maxI in
  exists d, ko_stateDifference md s x1 x2 d0 = Ok d /\ length d = length d0 /\
    (forall c, active s c -> is_ori c = false -> sg true mI c d = zip Rminus (sg false mI c x1) (sg false mI c x2)) /\
    (forall c, active s c -> is_ori c = true -> sg true mI c d = l3 (quat_rv (qmul (quat_of (sg false mI c x1)) (qinv (quat_of (sg false mI c x2)))))) /\
    (forall k, (forall c, active s c -> ~ (cval true mI c <= Z.of_nat k < cval true mI c + comp_size true c)) -> nth_error d k = nth_error d0 k).
Proof.
  intros Hi Hm Hx Hx2 Ht mI. destruct (blocks_ok md maxC maxI s Hi Hm) as (bs & E & C1 & C2 & I1 & I2). unfold ko_stateDifference. rewrite E. cbn [obind].
  assert (V1 : vsize false maxC maxI = Z.of_nat (length x1)) by (rewrite Hx, nx_eq, vsize_eq; reflexivity).
  assert (V2 : vsize true maxC maxI = Z.of_nat (length d0)) by (rewrite Ht; reflexivity).
  destruct (writes blk_t tlen md d0 (diff_block md x1 x2) (Gdiff x1 x2) bs 0 (vsize true maxC maxI) d0) as (y & Ey & Ly & W & Fr); auto; try lia.
  - intros b a Hb La Hs. destruct (chain_in _ _ _ _ _ b C1 Hb) as [A1 A2]. destruct (chain_in _ _ _ _ _ b C2 Hb) as [B1 B2].
    destruct b as [[[n|] i] j]; cbn [blk_s blk_t slen tlen fst] in *; unfold diff_block, Gdiff.
    + rewrite seg_rd_ok by lia. cbn [obind]. rewrite seg_rd_ok by lia. reflexivity.
    + rewrite rd4_ok by lia. cbn [obind]. rewrite rd4_ok by lia. cbn [obind]. rewrite diff_quat. reflexivity.
  - intros b Hb. destruct (chain_in _ _ _ _ _ b C1 Hb) as [A1 A2]. destruct (chain_in _ _ _ _ _ b C2 Hb) as [B1 B2].
    destruct b as [[[n|] i] j]; cbn [blk_s blk_t slen tlen fst] in *; unfold Gdiff; [|reflexivity].
    rewrite zip_length; rewrite !seg_get_length by lia; lia.
  - exists y. split; [exact Ey|]. split; [lia|]. split; [|split].
    + intros c Ha Ho. destruct (I1 c Ha) as (b & Hb & Hc). unfold c_in in Hc. rewrite Ho in Hc. destruct Hc as (n & o & -> & Hn).
      specialize (W _ Hb). cbn [blk_t tlen fst Gdiff] in W. destruct (chain_in _ _ _ _ _ _ C1 Hb) as [A1 A2]. destruct (chain_in _ _ _ _ _ _ C2 Hb) as [B1 B2].
      cbn [blk_s blk_t slen tlen fst] in *. fold mI in W, A1, A2, B1, B2.
      assert (S3 : forall t, Z.to_nat (comp_size t c) = 3%nat) by (intros []; destruct c; try discriminate; reflexivity). rewrite !S3.
      assert (W' := f_equal (seg_get o 3) W). rewrite zip_seg, !seg_get_seg in W' by lia.
      replace (Z.to_nat (cval false mI c - Z.of_nat o) + o)%nat with (Z.to_nat (cval false mI c)) in W' by lia.
      replace (Z.to_nat (cval true mI c - Z.of_nat o) + o)%nat with (Z.to_nat (cval true mI c)) in W' by lia. exact W'.
    + intros c Ha Ho. destruct (I1 c Ha) as (b & Hb & Hc). unfold c_in in Hc. rewrite Ho in Hc. subst b. specialize (W _ Hb). cbn [blk_t tlen fst Gdiff] in W. fold mI in W.
      assert (S4 : Z.to_nat (comp_size false c) = 4%nat /\ Z.to_nat (comp_size true c) = 3%nat) by (destruct c; try discriminate; split; reflexivity).
      destruct S4 as [-> ->]. exact W.
    + intros k Hk. apply Fr. intros b Hb Hz. destruct (I2 b Hb) as [_ K]. destruct (K _ Hz) as (c & Ha & Hc). exact (Hk c Ha Hc).
Qed.
End P.
