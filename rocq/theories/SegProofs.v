(** Segments of vectors, and sequences of writes to successive segments. *)
From Coq Require Import ZArith List Lia Bool Reals.
From Verif Require Import Base Vec3 Kine KinObs KinSum KinProofs.
Import ListNotations.
Open Scope Z_scope.

Lemma nth_error_ext {A} (a b : list A) : (forall k, nth_error a k = nth_error b k) -> a = b.
Proof.
  revert b. induction a as [|x a IH]; intros [|y b] H; [reflexivity|specialize (H 0%nat); discriminate|specialize (H 0%nat); discriminate|].
  f_equal; [specialize (H 0%nat); now injection H|]. apply IH. intros k. apply (H (S k)).
Qed.
Lemma nth_error_skipn {A} (v : list A) i k : nth_error (skipn i v) k = nth_error v (i + k).
Proof. revert v. induction i as [|i IH]; intros [|x v]; cbn; auto. destruct k; reflexivity. Qed.
Lemma nth_error_firstn {A} (v : list A) n k : nth_error (firstn n v) k = if Nat.ltb k n then nth_error v k else None.
Proof.
  revert v k. induction n as [|n IH]; intros [|x v] [|k]; cbn [firstn nth_error]; auto; [destruct (Nat.ltb (S k) (S n)); reflexivity|].
  rewrite IH. reflexivity.
Qed.
Lemma nth_error_seg {A} (v : list A) i n k : nth_error (seg_get i n v) k = if Nat.ltb k n then nth_error v (i + k) else None.
Proof. unfold seg_get. rewrite nth_error_firstn, nth_error_skipn. reflexivity. Qed.
Lemma seg_get_length {A} (v : list A) i n : (i + n <= length v)%nat -> length (seg_get i n v) = n.
Proof. intros H. unfold seg_get. rewrite firstn_length, skipn_length. lia. Qed.
Lemma seg_rd_ok {A} md i n (v : list A) : 0 <= i -> i + Z.of_nat n <= Z.of_nat (length v) -> seg_rd md i n v = Ok (seg_get (Z.to_nat i) n v).
Proof. intros H H'. unfold seg_rd. destruct (Z.leb_spec 0 i); [|lia]. destruct (Z.leb_spec (i + Z.of_nat n) (Z.of_nat (length v))); [reflexivity|lia]. Qed.
Lemma seg_set_nth {A} md i (w v v' : list A) k : seg_set md i w v = Ok v' ->
  nth_error v' k = if (Z.to_nat i <=? k)%nat && (k <? Z.to_nat i + length w)%nat then nth_error w (k - Z.to_nat i) else nth_error v k.
Proof.
  unfold seg_set. destruct (Z.leb_spec 0 i); [|destruct md; discriminate].
  destruct (Z.leb_spec (i + Z.of_nat (length w)) (Z.of_nat (length v))); [|destruct md; discriminate].
  cbn [andb]. intros E. injection E as <-.
  destruct (Nat.leb_spec (Z.to_nat i) k); cbn [andb].
  - rewrite nth_error_app2; rewrite firstn_length_le by lia; [|lia]. destruct (Nat.ltb_spec k (Z.to_nat i + length w)).
    + rewrite nth_error_app1 by lia. reflexivity.
    + rewrite nth_error_app2 by lia. rewrite nth_error_skipn. f_equal. lia.
  - rewrite nth_error_app1 by (rewrite firstn_length_le; lia). rewrite nth_error_firstn. destruct (Nat.ltb_spec k (Z.to_nat i)); [reflexivity|lia].
Qed.
Lemma seg_set_get {A} md i (w v v' : list A) : seg_set md i w v = Ok v' -> seg_get (Z.to_nat i) (length w) v' = w.
Proof.
  intros E. apply nth_error_ext. intros k. rewrite nth_error_seg, (seg_set_nth _ _ _ _ _ _ E).
  destruct (Nat.ltb_spec k (length w)).
  - destruct (Nat.leb_spec (Z.to_nat i) (Z.to_nat i + k)); [|lia]. destruct (Nat.ltb_spec (Z.to_nat i + k) (Z.to_nat i + length w)); [|lia].
    cbn [andb]. f_equal. lia.
  - symmetry. apply nth_error_None. exact H.
Qed.
Lemma seg_get_seg {A} (v : list A) i n o m : (o + m <= n)%nat -> seg_get o m (seg_get i n v) = seg_get (i + o) m v.
Proof.
  intros H. apply nth_error_ext. intros k. rewrite !nth_error_seg. destruct (Nat.ltb_spec k m); [|reflexivity].
  destruct (Nat.ltb_spec (o + k) n); [|lia]. f_equal. lia.
Qed.
Lemma seg_get_eq {A} (v w : list A) i n : (forall k, (i <= k < i + n)%nat -> nth_error v k = nth_error w k) -> seg_get i n v = seg_get i n w.
Proof. intros H. apply nth_error_ext. intros k. rewrite !nth_error_seg. destruct (Nat.ltb_spec k n); [|reflexivity]. apply H. lia. Qed.
Lemma seg_get_nth_eq {A} (v w : list A) i n k : seg_get i n v = seg_get i n w -> (i <= k < i + n)%nat -> nth_error v k = nth_error w k.
Proof.
  intros H Hk. assert (E := f_equal (fun l => nth_error l (k - i)) H). cbn beta in E. rewrite !nth_error_seg in E.
  destruct (Nat.ltb_spec (k - i) n); [|lia]. replace (i + (k - i))%nat with k in E by lia. exact E.
Qed.

(** Blocks in increasing order. *)
Section W.
Context {A B : Type} (pos : B -> Z) (len : B -> nat).
Fixpoint chain (lo : Z) (bs : list B) (hi : Z) : Prop :=
  match bs with [] => lo <= hi | b :: bs' => lo <= pos b /\ chain (pos b + Z.of_nat (len b)) bs' hi end.
Lemma chain_app lo l1 mid l2 hi : chain lo l1 mid -> chain mid l2 hi -> chain lo (l1 ++ l2) hi.
Proof.
  revert lo. induction l1 as [|b l1 IH]; cbn; intros lo H1 H2.
  - revert lo H1. destruct l2 as [|b l2]; cbn in *; intros lo H1; [lia|]. split; [lia|tauto].
  - destruct H1 as [H1 H3]. split; [exact H1|]. eapply IH; eauto.
Qed.
Lemma chain_in lo bs hi b : chain lo bs hi -> In b bs -> lo <= pos b /\ pos b + Z.of_nat (len b) <= hi.
Proof.
  revert lo. induction bs as [|c bs IH]; cbn; intros lo H Hb; [contradiction|]. destruct H as [H1 H2]. destruct Hb as [->|Hb].
  - split; [exact H1|]. clear IH H1. revert H2. generalize (pos b + Z.of_nat (len b)). induction bs as [|c bs IH]; cbn; intros z H; [exact H|].
    destruct H as [H H']. apply IH in H'. lia.
  - destruct (IH _ H2 Hb). lia.
Qed.
Context (md : mode) (x : list A) (F : B -> list A -> outcome (list A)) (G : B -> list A).
Lemma writes bs : forall lo hi a, 0 <= lo -> chain lo bs hi -> hi <= Z.of_nat (length x) ->
  (forall b a, In b bs -> length a = length x -> seg_get (Z.to_nat (pos b)) (len b) a = seg_get (Z.to_nat (pos b)) (len b) x -> F b a = seg_set md (pos b) (G b) a) ->
  (forall b, In b bs -> length (G b) = len b) ->
  length a = length x -> (forall k, lo <= Z.of_nat k -> nth_error a k = nth_error x k) ->
  exists a', orun F bs a = Ok a' /\ length a' = length x /\ (forall b, In b bs -> seg_get (Z.to_nat (pos b)) (len b) a' = G b) /\
    (forall k, (forall b, In b bs -> ~ (pos b <= Z.of_nat k < pos b + Z.of_nat (len b))) -> nth_error a' k = nth_error a k).
Proof.
  induction bs as [|b bs IH]; intros lo hi a Hlo Hch Hhi HF HG Ha Hx; cbn [orun].
  - exists a. split; [reflexivity|]. split; [exact Ha|]. split; [contradiction|reflexivity].
  - pose proof (chain_in _ _ _ b Hch (or_introl eq_refl)) as Hb. destruct Hch as [Hl Hch]. specialize (HG b (or_introl eq_refl)) as HGb.
    rewrite HF; [|now left|exact Ha|apply seg_get_eq; intros k Hk; apply Hx; lia].
    destruct (seg_set md (pos b) (G b) a) as [a1| | |] eqn:E; try (rewrite seg_set_ok in E by (rewrite ?HGb, ?Ha; lia); discriminate).
    cbn [obind]. pose proof (seg_set_length _ _ _ _ _ E) as L. pose proof (fun k => seg_set_nth _ _ _ _ _ k E) as Hn. rewrite HGb in Hn.
    destruct (IH (pos b + Z.of_nat (len b)) hi a1) as (a' & E' & L' & W & Fr); auto; try lia.
    + intros; apply HF; auto. now right.
    + intros; apply HG; now right.
    + intros k Hk. rewrite Hn. destruct (Nat.ltb_spec k (Z.to_nat (pos b) + len b)); [lia|]. rewrite andb_false_r. apply Hx. lia.
    + exists a'. split; [exact E'|]. split; [exact L'|]. split.
      * intros c [<-|Hc]; [|apply W; exact Hc]. rewrite <- (seg_set_get _ _ _ _ _ E), HGb. apply seg_get_eq. intros k Hk. apply Fr.
        intros c Hc. pose proof (chain_in _ _ _ c Hch Hc). lia.
      * intros k Hk. rewrite Fr by (intros c Hc; apply Hk; now right). rewrite Hn. specialize (Hk b (or_introl eq_refl)).
        destruct (Nat.leb_spec (Z.to_nat (pos b)) k); [|reflexivity]. destruct (Nat.ltb_spec k (Z.to_nat (pos b) + len b)); [lia|reflexivity].
Qed.
End W.
