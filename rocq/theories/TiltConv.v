(** Lemmas about the convergence of the tilt estimator: recurrences of order two, and the step of the tilt on the sphere. *)
From Coq Require Import Reals ZArith List Lra Lia Psatz Classical_Prop.
From Verif Require Import Base Defs ZDO Vec3 Tilt TiltProofs.
Import ListNotations.
Open Scope R_scope.

(** ** Recurrences *)
Definition decays (u : nat -> R) := exists C r, 0 <= C /\ 0 <= r < 1 /\ forall k, Rabs (u k) <= C * r ^ k.

Lemma pow_mono r r' k : 0 <= r <= r' -> r ^ k <= r' ^ k.
Proof. intros H. now apply pow_incr. Qed.

Lemma decays_cv u : decays u -> Un_cv u 0.
Proof.
  intros (C & r & HC & Hr & H) eps He.
  destruct (pow_lt_1_zero r) with (y := eps / (C + 1)) as (N & HN).
  { rewrite Rabs_pos_eq; lra. }
  { apply Rdiv_lt_0_compat; lra. }
  exists N. intros n Hn. unfold R_dist. rewrite Rminus_0_r.
  specialize (HN n Hn). rewrite Rabs_pos_eq in HN by (apply pow_le; lra).
  pose proof (H n). assert (0 <= r ^ n) by (apply pow_le; lra).
  assert (r ^ n * (C + 1) < eps) by (apply (Rmult_lt_compat_r (C + 1)) in HN; [|lra]; unfold Rdiv in HN; rewrite Rmult_assoc, Rinv_l in HN by lra; lra).
  nra.
Qed.

Lemma decays_add u v : decays u -> decays v -> decays (fun k => Rabs (u k) + Rabs (v k)).
Proof.
  intros (C & r & HC & Hr & H) (D & q & HD & Hq & G).
  assert (M1 : r <= Rmax r q) by apply Rmax_l. assert (M2 : q <= Rmax r q) by apply Rmax_r.
  assert (M3 : Rmax r q < 1) by (apply Rmax_lub_lt; lra).
  exists (C + D), (Rmax r q). split; [lra|]. split; [lra|]. intros k.
  rewrite Rabs_pos_eq by (pose proof (Rabs_pos (u k)); pose proof (Rabs_pos (v k)); lra).
  pose proof (H k). pose proof (G k).
  pose proof (pow_mono r (Rmax r q) k ltac:(lra)). pose proof (pow_mono q (Rmax r q) k ltac:(lra)).
  pose proof (Rmult_le_compat_l C _ _ HC H2). pose proof (Rmult_le_compat_l D _ _ HD H3). lra.
Qed.

Lemma decays_le u v : (forall k, Rabs (v k) <= Rabs (u k)) -> decays u -> decays v.
Proof. intros L (C & r & HC & Hr & H). exists C, r. split; [exact HC|]. split; [exact Hr|]. intros k. specialize (L k). specialize (H k). lra. Qed.

Lemma second_order (t d : R) (u : nat -> R) : (forall k, u (S (S k)) = t * u (S k) - d * u k) ->
  d < 1 -> 0 < 1 - t + d -> 0 < 1 + t + d -> decays u.
Proof.
  intros E D1 D2 D3. destruct (Rlt_le_dec (t * t - 4 * d) 0) as [N|P].
  - set (V k := u (S k) * u (S k) - t * (u (S k) * u k) + d * (u k * u k)).
    assert (d0 : 0 < d) by nra.
    assert (VS : forall k, V k = V 0%nat * d ^ k).
    { induction k as [|k IH]; [simpl; ring|]. replace (V (S k)) with (d * V k) by (unfold V; rewrite E; ring). rewrite IH. simpl. ring. }
    set (m := d - t * t / 4). assert (m0 : 0 < m) by (unfold m; lra).
    assert (L : forall k, m * (u k * u k) <= V k).
    { intros k. unfold V, m. pose proof (Rle_0_sqr (u (S k) - t / 2 * u k)) as S. unfold Rsqr in S. nra. }
    assert (V0 : 0 <= V 0%nat) by (pose proof (L 0%nat); pose proof (Rle_0_sqr (u 0%nat)) as S; unfold Rsqr in S; nra).
    exists (sqrt (V 0%nat / m)), (sqrt d). split; [apply sqrt_pos|]. split; [split; [apply sqrt_pos|]|].
    { pose proof (sqrt_lt_1 d 1 ltac:(lra) ltac:(lra) D1) as Q. rewrite sqrt_1 in Q. exact Q. }
    intros k. apply Rsqr_incr_0_var; [|apply Rmult_le_pos; [apply sqrt_pos|apply pow_le, sqrt_pos]].
    rewrite Rsqr_mult, Rsqr_sqrt by (apply Rmult_le_pos; [lra|left; now apply Rinv_0_lt_compat]).
    rewrite <- Rsqr_abs.
    replace (Rsqr (sqrt d ^ k)) with (d ^ k).
    + unfold Rsqr. apply (Rmult_le_reg_l m); [exact m0|]. eapply Rle_trans; [apply L|]. rewrite VS. right. field. lra.
    + unfold Rsqr. rewrite <- Rpow_mult_distr. rewrite sqrt_sqrt by lra. reflexivity.
  - set (s := sqrt (t * t - 4 * d)). assert (s0 : 0 <= s) by apply sqrt_pos.
    assert (ss : s * s = t * t - 4 * d) by (apply sqrt_sqrt; exact P).
    assert (A1 : s < 2 - t) by nra. assert (A2 : s < 2 + t) by nra.
    set (r1 := (t + s) / 2). set (r2 := (t - s) / 2).
    assert (B1 : Rabs r1 < 1) by (unfold r1; apply Rabs_def1; lra).
    assert (B2 : Rabs r2 < 1) by (unfold r2; apply Rabs_def1; lra).
    assert (U : forall k, u (S k) - r1 * u k = (u 1%nat - r1 * u 0%nat) * r2 ^ k).
    { induction k as [|k IH]; [simpl; ring|]. replace (u (S (S k)) - r1 * u (S k)) with (r2 * (u (S k) - r1 * u k)); [rewrite IH; simpl; ring|].
      rewrite E. replace t with (r1 + r2) by (unfold r1, r2; field). replace d with (r1 * r2) by (unfold r1, r2; field_simplify; nra). ring. }
    set (U0 := Rabs (u 1%nat - r1 * u 0%nat)). set (r := Rmax (Rabs r1) (Rabs r2)).
    assert (Q1 : Rabs r1 <= r) by apply Rmax_l. assert (Q2 : Rabs r2 <= r) by apply Rmax_r. assert (Q3 : r < 1) by now apply Rmax_lub_lt.
    pose proof (Rabs_pos r1). pose proof (Rabs_pos r2). pose proof (Rabs_pos (u 0%nat)). assert (0 <= U0) by apply Rabs_pos.
    set (q := (1 + r) / 2). set (C := Rabs (u 0%nat) + U0 / (q - Rabs r1)).
    assert (qd : 0 < q - Rabs r1) by (unfold q; lra).
    assert (C1 : Rabs r1 * C + U0 <= C * q).
    { unfold C. assert (U0 / (q - Rabs r1) * (q - Rabs r1) = U0) by (field; lra). nra. }
    assert (C0 : 0 <= C).
    { unfold C. assert (0 <= U0 / (q - Rabs r1)) by (apply Rmult_le_pos; [lra|left; now apply Rinv_0_lt_compat]). lra. }
    exists C, q. split; [exact C0|]. split; [unfold q; lra|].
    induction k as [|k IH].
    + simpl. unfold C. assert (0 <= U0 / (q - Rabs r1)) by (apply Rmult_le_pos; [lra|left; now apply Rinv_0_lt_compat]). lra.
    + replace (u (S k)) with (r1 * u k + (u (S k) - r1 * u k)) by ring. rewrite U. eapply Rle_trans; [apply Rabs_triang|].
      rewrite !Rabs_mult, <- RPow_abs. fold U0.
      assert (0 <= q ^ k) by (apply pow_le; unfold q; lra).
      assert (Rabs r2 ^ k <= q ^ k) by (apply pow_incr; unfold q; lra).
      simpl. apply Rle_trans with (Rabs r1 * (C * q ^ k) + U0 * q ^ k).
      * apply Rplus_le_compat; [apply Rmult_le_compat_l; [lra|exact IH]|apply Rmult_le_compat_l; lra].
      * replace (C * (q * q ^ k)) with ((C * q) * q ^ k) by ring. replace (Rabs r1 * (C * q ^ k) + U0 * q ^ k) with ((Rabs r1 * C + U0) * q ^ k) by ring.
        now apply Rmult_le_compat_r.
Qed.

(** The pair of errors of one coordinate: velocity and intermediate tilt. *)
Section Pair.
Variables (p q r : R) (a b : nat -> R).
Hypothesis Ea : forall k, a (S k) = (1 - p) * a k - q * b k.
Hypothesis Eb : forall k, b (S k) = b k + r * a k.
Lemma pair_decays : 0 < q * r < p -> 2 * p < 4 + q * r -> decays a /\ decays b.
Proof.
  intros H1 H2. split; apply (second_order (2 - p) (1 - p + q * r)); try lra; intros k.
  - rewrite (Ea (S k)), (Eb k). rewrite (Ea k). ring.
  - rewrite (Eb (S k)), (Ea k). rewrite (Eb k). ring.
Qed.
End Pair.

(** Without the conditions some pair does not vanish. *)
Fixpoint pr (p q r : R) (x : R * R) (k : nat) : R * R :=
  match k with O => x | S k => let x := pr p q r x k in ((1 - p) * fst x - q * snd x, snd x + r * fst x) end.

Lemma cv_shift u l : Un_cv u l -> Un_cv (fun k => u (S k)) l.
Proof. intros H e He. destruct (H e He) as (N & HN). exists N. intros n Hn. apply HN. lia. Qed.
Lemma cv_unshift u l : Un_cv (fun k => u (S k)) l -> Un_cv u l.
Proof. intros H e He. destruct (H e He) as (N & HN). exists (S N). intros [|n] Hn; [lia|]. apply HN. lia. Qed.

(** An eigenvector of an eigenvalue l with |l| >= 1 does not vanish. *)
Lemma pr_eigen p q r l : l * l - (2 - p) * l + (1 - p + q * r) = 0 -> 0 < q -> forall k,
  pr p q r (- (q), l - 1 + p) k = (- q * l ^ k, (l - 1 + p) * l ^ k).
Proof.
  intros H Hq. induction k as [|k IH].
  - simpl. f_equal; ring.
  - simpl pr. rewrite IH. cbn [fst snd]. f_equal.
    + simpl. ring.
    + simpl. transitivity (((l - 1 + p) - r * q) * l ^ k); [ring|]. rewrite <- Rmult_assoc. f_equal. nra.
Qed.
Lemma pow_big l k : 1 <= Rabs l -> 1 <= Rabs (l ^ k).
Proof. intros H. rewrite <- RPow_abs. now apply pow_R1_Rle. Qed.

Lemma pair_necessary p q r : 0 < q -> (forall x, Un_cv (fun k => fst (pr p q r x k)) 0 /\ Un_cv (fun k => snd (pr p q r x k)) 0) ->
  0 < q * r < p /\ 2 * p < 4 + q * r.
Proof.
  intros Hq H.
  assert (NE : forall l, l * l - (2 - p) * l + (1 - p + q * r) = 0 -> 1 <= Rabs l -> False).
  { intros l El Hl. destruct (H (- q, l - 1 + p)) as (C & _). destruct (C q Hq) as (N & HN). specialize (HN N (Nat.le_refl N)).
    unfold R_dist in HN. rewrite (pr_eigen p q r l El Hq) in HN. cbn [fst] in HN. rewrite Rminus_0_r, Rabs_mult, Rabs_Ropp, (Rabs_pos_eq q) in HN by lra.
    pose proof (pow_big l N Hl). nra. }
  set (f l := l * l - (2 - p) * l + (1 - p + q * r)).
  assert (f1 : f 1 = q * r) by (unfold f; ring). assert (fm : f (-1) = 4 - 2 * p + q * r) by (unfold f; ring).
  (* a root beyond 1 or -1 *)
  assert (R1 : 0 < q * r).
  { destruct (Rlt_le_dec 0 (q * r)) as [L|L]; [exact L|exfalso].
    set (D := (2 - p) * (2 - p) - 4 * (1 - p + q * r)). assert (D0 : p * p <= D) by (unfold D; nra).
    assert (D1 : 0 <= D) by (pose proof (Rle_0_sqr p) as Z; unfold Rsqr in Z; lra). pose proof (sqrt_sqrt D D1) as SS. pose proof (sqrt_pos D).
    assert (Rabs p <= sqrt D) by (apply Rsqr_incr_0_var; [unfold Rsqr; rewrite SS, <- Rabs_mult, Rabs_pos_eq; [exact D0|apply Rle_0_sqr]|lra]).
    pose proof (Rle_abs p).
    apply (NE ((2 - p + sqrt D) / 2)).
    - unfold D in SS at 3. nra.
    - rewrite Rabs_pos_eq; lra. }
  assert (R2 : 0 < 4 - 2 * p + q * r).
  { destruct (Rlt_le_dec 0 (4 - 2 * p + q * r)) as [L|L]; [exact L|exfalso].
    set (D := (2 - p) * (2 - p) - 4 * (1 - p + q * r)). assert (D0 : (4 - p) * (4 - p) <= D) by (unfold D; nra).
    assert (D1 : 0 <= D) by (pose proof (Rle_0_sqr (4 - p)) as Z; unfold Rsqr in Z; lra). pose proof (sqrt_sqrt D D1) as SS. pose proof (sqrt_pos D).
    assert (Rabs (4 - p) <= sqrt D) by (apply Rsqr_incr_0_var; [unfold Rsqr; rewrite SS, <- Rabs_mult, Rabs_pos_eq; [exact D0|apply Rle_0_sqr]|lra]).
    pose proof (Rle_abs (4 - p)).
    apply (NE ((2 - p - sqrt D) / 2)).
    - unfold D in SS at 3. nra.
    - rewrite Rabs_left1; lra. }
  split; [split; [exact R1|]|lra].
  destruct (Rlt_le_dec (q * r) p) as [L|L]; [exact L|exfalso].
  set (d := 1 - p + q * r). assert (d1 : 1 <= d) by (unfold d; lra).
  assert (DT : forall k, fst (pr p q r (1, 0) k) * snd (pr p q r (0, 1) k) - fst (pr p q r (0, 1) k) * snd (pr p q r (1, 0) k) = d ^ k).
  { induction k as [|k IH]; [simpl; ring|]. cbn [pr fst snd]. simpl pow. rewrite <- IH. unfold d. ring. }
  destruct (H (1, 0)) as (A1 & A2). destruct (H (0, 1)) as (B1 & B2).
  pose proof (CV_minus _ _ _ _ (CV_mult _ _ _ _ A1 B2) (CV_mult _ _ _ _ B1 A2)) as CV.
  destruct (CV 1 Rlt_0_1) as (N & HN). specialize (HN N (Nat.le_refl N)). unfold R_dist in HN. cbv beta in HN. rewrite DT in HN.
  rewrite !Rmult_0_l, !Rminus_0_r in HN. pose proof (pow_R1_Rle d N d1). rewrite Rabs_pos_eq in HN; lra.
Qed.

(** ** The tilt *)
Lemma cauchy a b : vdot a b * vdot a b <= vsq a * vsq b.
Proof.
  assert (E : vsq a * vsq b - vdot a b * vdot a b = vsq (vcross a b)) by (clear; c3).
  assert (0 <= vsq (vcross a b)) by (unfold vsq, vdot; nra). lra.
Qed.
Lemma vsq_pos a : 0 <= vsq a. Proof. unfold vsq, vdot; nra. Qed.

Lemma INR_above (x : R) : exists n : nat, x < INR n.
Proof.
  exists (Z.to_nat (up x)). destruct (archimed x) as (A & _). rewrite INR_IZR_INZ.
  assert (B : (up x <= Z.of_nat (Z.to_nat (up x)))%Z) by lia. apply IZR_le in B. lra.
Qed.

(** A sequence that keeps its value but for e and grows away from 1 and -1 tends to one of them. *)
Lemma dichotomy (m : R) (c e : nat -> R) : 0 < m -> (forall k, -1 <= c k <= 1) -> (forall k, 0 <= e k) -> Un_cv e 0 ->
  (forall k, e k <= 1 -> c k - 14 * e k <= c (S k)) ->
  (forall k, e k <= 1 -> 28 * e k <= m * (1 - c k * c k) -> c k + m * (1 - c k * c k) / 10 <= c (S k)) ->
  Un_cv c 1 \/ Un_cv c (-1).
Proof.
  intros Hm Hc He Ce I1 I2.
  destruct (classic (exists d, 0 < d /\ forall K, exists k, (K <= k)%nat /\ -1 + d <= c k)) as [(d0 & Hd0 & A)|B].
  - left. intros eta Heta. unfold Rgt in Heta.
    set (d := Rmin d0 (Rmin (eta / 3) (1 / 2))).
    assert (d1 : d <= d0) by apply Rmin_l.
    assert (d2 : d <= eta / 3) by (eapply Rle_trans; [apply Rmin_r|apply Rmin_l]).
    assert (d3 : d <= 1 / 2) by (eapply Rle_trans; [apply Rmin_r|apply Rmin_r]).
    assert (dp : 0 < d) by (unfold d; repeat apply Rmin_glb_lt; lra).
    set (b := Rmin (Rmin (m * d / 28) (d / 14)) 1).
    assert (b1 : b <= m * d / 28) by (eapply Rle_trans; [apply Rmin_l|apply Rmin_l]).
    assert (b2 : b <= d / 14) by (eapply Rle_trans; [apply Rmin_l|apply Rmin_r]).
    assert (b3 : b <= 1) by apply Rmin_r.
    assert (bp : 0 < b) by (unfold b; repeat apply Rmin_glb_lt; nra).
    destruct (Ce b bp) as (K & HK).
    assert (E : forall k, (K <= k)%nat -> e k <= b).
    { intros k Hk. specialize (HK k Hk). unfold R_dist in HK. rewrite Rminus_0_r, Rabs_pos_eq in HK by apply He. lra. }
    destruct (A K) as (k0 & Hk0 & C0).
    assert (S2 : forall k, (K <= k)%nat -> -1 + d <= c k <= 1 - d -> c k + m * d / 10 <= c (S k)).
    { intros k Hk H. specialize (E k Hk). assert (d <= 1 - c k * c k) by nra.
      assert (m * d <= m * (1 - c k * c k)) by (apply Rmult_le_compat_l; lra).
      pose proof (I2 k ltac:(lra) ltac:(lra)). lra. }
    assert (Up : forall n, (exists k, (k0 <= k)%nat /\ 1 - d <= c k) \/ -1 + d + INR n * (m * d / 10) <= c (k0 + n)%nat).
    { induction n as [|n [IH|IH]]; [right; rewrite Nat.add_0_r; simpl; lra|now left|].
      destruct (Rle_lt_dec (1 - d) (c (k0 + n)%nat)) as [L|L]; [left; exists (k0 + n)%nat; split; [lia|exact L]|].
      right. rewrite Nat.add_succ_r. pose proof (S2 (k0 + n)%nat ltac:(lia)) as Q.
      assert (0 <= INR n * (m * d / 10)) by (apply Rmult_le_pos; [apply pos_INR|nra]).
      specialize (Q ltac:(lra)). rewrite S_INR. lra. }
    assert (T : exists k1, (k0 <= k1)%nat /\ 1 - d <= c k1).
    { destruct (INR_above (3 / (m * d / 10))) as (n & Hn). destruct (Up n) as [U|U]; [exact U|exfalso].
      pose proof (Hc (k0 + n)%nat). assert (mp : 0 < m * d / 10) by nra.
      apply (Rmult_lt_compat_r (m * d / 10)) in Hn; [|exact mp]. replace (3 / (m * d / 10) * (m * d / 10)) with 3 in Hn by (field; lra). lra. }
    destruct T as (k1 & Hk1 & C1).
    assert (St : forall n, 1 - 2 * d <= c (k1 + n)%nat).
    { induction n as [|n IH]; [rewrite Nat.add_0_r; lra|]. rewrite Nat.add_succ_r.
      destruct (Rle_lt_dec (1 - d) (c (k1 + n)%nat)) as [L|L].
      - pose proof (E (k1 + n)%nat ltac:(lia)). pose proof (I1 (k1 + n)%nat ltac:(lra)). lra.
      - pose proof (S2 (k1 + n)%nat ltac:(lia) ltac:(lra)). assert (0 < m * d) by nra. lra. }
    exists k1. intros n Hn. replace n with (k1 + (n - k1))%nat by lia. pose proof (St (n - k1)%nat). pose proof (Hc (k1 + (n - k1))%nat).
    unfold R_dist. rewrite Rabs_left1; lra.
  - right. intros eta Heta. unfold Rgt in Heta. apply NNPP. intros N. apply B. exists eta. split; [exact Heta|]. intros K. apply NNPP. intros M.
    apply N. exists K. intros n Hn. unfold R_dist. pose proof (Hc n). rewrite Rabs_pos_eq by lra.
    destruct (Rlt_le_dec (c n - -1) eta) as [L|L]; [exact L|exfalso]. apply M. exists n. split; [lia|lra].
Qed.

Lemma abs_le a b : 0 <= b -> a * a <= b * b -> - b <= a <= b.
Proof. intros; split; nra. Qed.

Lemma scal_step (h c xd td dd eps N : R) : let m := h * (1 - h / 2) in
  let A := (1 - c * c) + 2 * (td - c * xd) + (dd - xd * xd) in let W := c + h * (1 - c * c) + h * (td - xd * c) in
  0 < h < 2 -> -1 <= c <= 1 -> 0 <= eps <= 1 -> - eps <= xd <= eps -> - eps <= td <= eps -> dd <= eps * eps -> 0 <= A ->
  0 <= N -> N * N = 1 + h * h * A ->
  c - 14 * eps <= W / N /\ (28 * eps <= m * (1 - c * c) -> c + m * (1 - c * c) / 10 <= W / N).
Proof.
  intros m A W Hh Hc He Hx Ht Hd HA HN EN.
  assert (N1 : 1 <= N) by nra.
  set (s := 1 - c * c) in *. assert (S0 : 0 <= s <= 1) by (unfold s; nra).
  set (z := td - xd * c). assert (Z : - (2 * eps) <= z <= 2 * eps).
  { unfold z. assert (- eps <= xd * c <= eps) by (split; nra). lra. }
  assert (HA2 : A <= s + 5 * eps).
  { unfold A. fold s. replace (td - c * xd) with z by (unfold z; ring). assert (dd - xd * xd <= eps) by nra. lra. }
  assert (N2 : N <= 1 + h * h * A / 2).
  { apply Rsqr_incr_0_var; [unfold Rsqr; rewrite EN; assert (0 <= h * h * A) by (apply Rmult_le_pos; nra); nra|].
    assert (0 <= h * h * A) by (apply Rmult_le_pos; nra). lra. }
  assert (N5 : N <= 5).
  { apply Rsqr_incr_0_var; [unfold Rsqr; rewrite EN|lra]. assert (h * h <= 4) by nra. assert (h * h * A <= 4 * 6) by (apply Rmult_le_compat; nra). lra. }
  set (G := W - c * N). assert (HG : m * s - 14 * eps <= G).
  { assert (hz : - (4 * eps) <= h * z) by nra. unfold G, W. fold s. fold z. unfold m.
    destruct (Rle_lt_dec c 0) as [L|L].
    - assert (0 <= c * (1 - N)) by nra. assert (0 <= h * h * s) by (apply Rmult_le_pos; nra). nra.
    - assert (c * (N - 1) <= N - 1) by nra. assert (hh : 0 <= h * h <= 4) by nra.
      assert (h * h * A <= h * h * (s + 5 * eps)) by (apply Rmult_le_compat_l; lra).
      assert (h * h * (5 * eps) <= 4 * (5 * eps)) by (apply Rmult_le_compat_r; lra). nra. }
  assert (EW : W / N = c + G / N) by (unfold G; field; lra).
  assert (IN : / 5 <= / N <= 1).
  { split; [apply Rinv_le_contravar; lra|]. rewrite <- Rinv_1. apply Rinv_le_contravar; lra. }
  assert (m0 : 0 < m) by (unfold m; nra). assert (ms : 0 <= m * s) by nra.
  rewrite EW. unfold Rdiv. split.
  - destruct (Rle_lt_dec 0 G) as [L|L]; [assert (0 <= G * / N) by (apply Rmult_le_pos; lra); lra|]. nra.
  - intros H. assert (m * s / 2 <= G) by lra. assert (m * s / 2 * / 5 <= G * / N) by (apply Rmult_le_compat; lra). lra.
Qed.

(** The tilt before the normalisation, with a gyrometer at zero. *)
Lemma euler_tilt e ya x : vsq (x_t x) = 1 -> let h := t_ga e * t_dt e in
  x_t (t_euler e ya v0 x) = vadd (vscal (1 - h * vdot (x_t x) (x_tp x)) (x_t x)) (vscal h (x_tp x)).
Proof.
  intros U h. unfold t_euler, t_dx. cbn [x_t]. unfold h. clear h.
  replace (vscal (t_ga e * t_dt e) (x_tp x)) with (vscal (t_ga e * t_dt e * vsq (x_t x)) (x_tp x)) by (rewrite U; f_equal; ring).
  generalize (x_t x) (x_tp x) (t_ga e) (t_dt e). clear. c3.
Qed.

Lemma update_tilt e ya t x x' eps : let h := t_ga e * t_dt e in let m := h * (1 - h / 2) in let c := vdot (x_t x) t in
  0 < h < 2 -> vsq (x_t x) = 1 -> vsq t = 1 -> 0 <= eps <= 1 -> vsq (vsub (x_tp x) t) <= eps * eps ->
  t_update e (ya, v0) x = Ok x' ->
  c - 14 * eps <= vdot (x_t x') t /\ (28 * eps <= m * (1 - c * c) -> c + m * (1 - c * c) / 10 <= vdot (x_t x') t).
Proof.
  intros h m c Hh Ux Ut He Hd H. unfold t_update in H. cbn [fst snd] in H. unfold t_normalize in H.
  pose proof (euler_tilt e ya x Ux) as EZ. cbv zeta in EZ. fold h in EZ. generalize dependent (t_euler e ya v0 x). intros y H EZ.
  destruct (Req_EM_T _ 0) as [|NZ]; [discriminate|]. injection H as <-. cbn [x_t].
  set (N := vnorm (x_t y)) in *.
  assert (N0 : 0 <= N) by apply sqrt_pos.
  assert (NN : N * N = vsq (x_t y)) by (apply sqrt_sqrt, vsq_pos).
  clearbody N. rewrite EZ in NN |- *. set (d := vsub (x_tp x) t) in *.
  assert (Ed : x_tp x = vadd t d) by (unfold d; generalize (x_tp x) t; clear; c3).
  rewrite Ed in *.
  pose proof (cauchy (x_t x) t) as C1. rewrite Ux, Ut in C1. fold c in C1. pose proof (cauchy (x_t x) d) as C2. rewrite Ux in C2.
  pose proof (cauchy t d) as C3. rewrite Ut in C3. pose proof (cauchy (x_t x) (vadd t d)) as C4. rewrite Ux in C4.
  assert (B1 : -1 <= c <= 1) by (apply abs_le; lra).
  assert (B2 : - eps <= vdot (x_t x) d <= eps) by (apply abs_le; lra).
  assert (B3 : - eps <= vdot t d <= eps) by (apply abs_le; lra).
  assert (E4 : vsq (vadd t d) = 1 + 2 * vdot t d + vsq d) by (rewrite <- Ut; generalize t d; clear; c3).
  assert (E5 : vdot (x_t x) (vadd t d) = c + vdot (x_t x) d) by (unfold c; generalize (x_t x) t d; clear; c3).
  rewrite E4, E5 in C4.
  assert (EN : N * N = 1 + h * h * ((1 - c * c) + 2 * (vdot t d - c * vdot (x_t x) d) + (vsq d - vdot (x_t x) d * vdot (x_t x) d))).
  { rewrite NN.
    transitivity (vsq (x_t x) * (1 - h * (c + vdot (x_t x) d)) * (1 - h * (c + vdot (x_t x) d)) + 2 * h * (1 - h * (c + vdot (x_t x) d)) * (c + vdot (x_t x) d)
                  + h * h * (1 + 2 * vdot t d + vsq d)).
    - rewrite <- E5, <- E4. generalize (x_t x) (vadd t d) h. clear. c3.
    - rewrite Ux. ring. }
  pose proof (scal_step h c (vdot (x_t x) d) (vdot t d) (vsq d) eps N Hh B1 He B2 B3 Hd ltac:(nra) N0 EN) as Q. cbv zeta in Q. fold m in Q.
  replace (vdot (vscal (/ N) (vadd (vscal (1 - h * vdot (x_t x) (vadd t d)) (x_t x)) (vscal h (vadd t d)))) t)
     with ((c + h * (1 - c * c) + h * (vdot t d - vdot (x_t x) d * c)) / N); [exact Q|].
  unfold Rdiv. rewrite E5.
  transitivity ((c + h * (vsq t - c * c) + h * (vdot t d - vdot (x_t x) d * c)) * / N); [now rewrite Ut|].
  unfold c. generalize (x_t x) t d (/ N) h. clear. c3.
Qed.
