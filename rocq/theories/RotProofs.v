(** Proofs about rotations. *)
From Coq Require Import Reals Lra Psatz ZArith.
From Verif Require Import Base Vec3 Rot.
Open Scope R_scope.

(** ** Half-angle formulas: angle-axis as a quaternion and as a matrix *)
Lemma cos_half t : cos t = 1 - 2 * (sin (t / 2) * sin (t / 2)).
Proof. replace t with (2 * (t / 2)) at 1 by lra. rewrite cos_2a_sin; ring. Qed.
Lemma sin_half t : sin t = 2 * (sin (t / 2) * cos (t / 2)).
Proof. replace t with (2 * (t / 2)) at 1 by lra. rewrite sin_2a; ring. Qed.
Lemma sc1 t : sin t * sin t + cos t * cos t = 1.
Proof. pose proof (sin2_cos2 t) as H; unfold Rsqr in H; exact H. Qed.

Lemma aa_quat_unit t u : vsq u = 1 -> qn2 (aa_quat (t, u)) = 1.
Proof.
  intros H. pose proof (sc1 (t / 2)) as E. destruct u as [x y z]; unfold aa_quat; u3.
  generalize dependent (sin (t / 2)); generalize dependent (cos (t / 2)); intros c s E.
  assert (s * s * (x * x + y * y + z * z) = s * s) by (rewrite H; ring). lra.
Qed.
Lemma aa_mat_quat t u : vsq u = 1 -> aa_mat (t, u) = qrot (aa_quat (t, u)).
Proof.
  intros H. unfold aa_mat, aa_quat. rewrite (sin_half t), (cos_half t).
  destruct u as [x y z]; u3.
  generalize (sin (t / 2)); generalize (cos (t / 2)); intros c s.
  assert (s * s * (x * x + y * y + z * z) = s * s) by (rewrite H; ring).
  f_equal; lra.
Qed.
Lemma aa_mat_so3 t u : vsq u = 1 -> so3 (aa_mat (t, u)).
Proof. intros H; rewrite aa_mat_quat by exact H; now apply qrot_so3, aa_quat_unit. Qed.

Lemma vsq_uz : vsq uz = 1. Proof. u3; ring. Qed.
Lemma vsq_ux : vsq ux = 1. Proof. u3; ring. Qed.
Lemma vsq_uy : vsq uy = 1. Proof. u3; ring. Qed.
Lemma vsq_normal v : 0 < vsq v -> vsq (vscal (/ sqrt (vsq v)) v) = 1.
Proof.
  intros H. rewrite vsq_scal. pose proof (sqrt_lt_R0 _ H).
  rewrite <- (sqrt_sqrt (vsq v)) at 3 by lra. field; lra.
Qed.
Lemma epsA2_pos : 0 < epsA * epsA. Proof. pose proof epsA_pos; nra. Qed.
Lemma rv_aa_unit v : vsq (snd (rv_aa v)) = 1.
Proof.
  unfold rv_aa. destruct (Rlt_dec _ _); cbn [snd]; [|apply vsq_uz].
  apply vsq_normal. pose proof epsA2_pos; lra.
Qed.
Lemma rv_mat_quat v : rv_mat v = qrot (rv_quat v).
Proof.
  unfold rv_mat, rv_quat. pose proof (rv_aa_unit v) as H. destruct (rv_aa v) as [t u].
  now apply aa_mat_quat.
Qed.
Lemma rv_quat_unit v : qn2 (rv_quat v) = 1.
Proof. unfold rv_quat. pose proof (rv_aa_unit v) as H. destruct (rv_aa v) as [t u]. now apply aa_quat_unit. Qed.
Lemma rv_mat_so3 v : so3 (rv_mat v).
Proof. rewrite rv_mat_quat. apply qrot_so3, rv_quat_unit. Qed.

Lemma aa_mat_0 u : aa_mat (0, u) = m1.
Proof. unfold aa_mat. rewrite sin_0, cos_0. destruct u; u3; f_equal; ring. Qed.
Lemma aa_quat_0 u : aa_quat (0, u) = q1.
Proof. unfold aa_quat. replace (0 / 2) with 0 by lra. rewrite sin_0, cos_0. destruct u; u3; f_equal; ring. Qed.
Lemma rv_small v : vsq v <= epsA * epsA -> rv_mat v = m1 /\ rv_quat v = q1.
Proof.
  intros H. unfold rv_mat, rv_quat, rv_aa. destruct (Rlt_dec _ _); [lra|].
  split; [apply aa_mat_0|apply aa_quat_0].
Qed.
Lemma rv_neg v : rv_quat (vneg v) = qconj (rv_quat v).
Proof.
  unfold rv_quat, rv_aa. rewrite vsq_neg. destruct (Rlt_dec _ _).
  - unfold aa_quat. destruct v; u3; f_equal; ring.
  - rewrite aa_quat_0; c3.
Qed.
Lemma rv_mat_neg v : rv_mat (vneg v) = mtr (rv_mat v).
Proof. now rewrite !rv_mat_quat, rv_neg, qrot_conj. Qed.

(** ** atan2 *)
Lemma sqrt_pos_mul x : 0 < x -> sqrt x * sqrt x = x /\ 0 < sqrt x.
Proof. intros H; split; [apply sqrt_sqrt; lra|now apply sqrt_lt_R0]. Qed.
Lemma atan_sc x y : 0 < x ->
  let r := sqrt (x * x + y * y) in 0 < r /\ cos (atan (y / x)) = x / r /\ sin (atan (y / x)) = y / r.
Proof.
  intros Hx r. assert (H0 : 0 < x * x + y * y) by nra.
  destruct (sqrt_pos_mul _ H0) as [H1 H2]. fold r in H1, H2.
  assert (E : sqrt (1 + (y / x)²) = r / x).
  { apply Rsqr_inj; [apply sqrt_pos| apply Rlt_le, Rdiv_lt_0_compat; lra|].
    rewrite Rsqr_sqrt by (pose proof (Rle_0_sqr (y / x)); lra). unfold Rsqr.
    replace (r / x * (r / x)) with (r * r / (x * x)) by (field; lra). rewrite H1. field; lra. }
  split; [exact H2|]. rewrite cos_atan, sin_atan, E. split; field; lra.
Qed.
Lemma atan2_sc y x : 0 < x * x + y * y ->
  let r := sqrt (x * x + y * y) in 0 < r /\ cos (atan2 y x) = x / r /\ sin (atan2 y x) = y / r.
Proof.
  intros H0 r. destruct (sqrt_pos_mul _ H0) as [H1 H2]. fold r in H1, H2. split; [exact H2|].
  unfold atan2. destruct (Rlt_dec 0 x) as [Hx | Hx]; [now apply (atan_sc x y Hx)|].
  destruct (Rlt_dec x 0) as [Hx' | Hx'].
  - assert (Hn : 0 < - x) by lra. pose proof (atan_sc (- x) (- y) Hn) as (_ & Ec & Es).
    replace (- x * - x + - y * - y) with (x * x + y * y) in Ec, Es by ring. fold r in Ec, Es.
    replace (- y / - x) with (y / x) in Ec, Es by (field; lra).
    destruct (Rle_dec 0 y).
    + rewrite neg_cos, neg_sin, Ec, Es; split; field; lra.
    + replace (atan (y / x) - PI) with (- (- atan (y / x) + PI)) by ring.
      rewrite cos_neg, sin_neg, neg_cos, neg_sin, cos_neg, sin_neg, Ec, Es; split; field; lra.
  - assert (x = 0) by lra; subst x. replace (0 * 0 + y * y) with (y * y) in * by ring.
    destruct (Rlt_dec 0 y) as [Hy | Hy].
    + assert (r = y) by (unfold r; replace (0 * 0 + y * y) with (y * y) by ring; apply sqrt_square; lra).
      rewrite cos_PI2, sin_PI2, H; split; field; lra.
    + destruct (Rlt_dec y 0); [|exfalso; assert (y = 0) by lra; subst; lra].
      assert (r = - y) by (unfold r; replace (0 * 0 + y * y) with (- y * - y) by ring; apply sqrt_square; lra).
      rewrite cos_neg, sin_neg, cos_PI2, sin_PI2, H; split; field; lra.
Qed.
Lemma atan2_bound y x : - PI < atan2 y x <= PI.
Proof.
  pose proof PI_RGT_0. unfold atan2. pose proof (atan_bound (y / x)) as B.
  destruct (Rlt_dec 0 x); [lra|]. destruct (Rlt_dec x 0) as [Hx|].
  - destruct (Rle_dec 0 y) as [Hy|Hy].
    + split; [lra|]. assert (y / x <= 0).
      { unfold Rdiv. assert (/ x < 0) by now apply Rinv_lt_0_compat. nra. }
      assert (atan (y / x) <= 0); [|lra]. destruct H0 as [H0|H0]; [rewrite <- atan_0; now apply Rlt_le, atan_increasing|rewrite H0, atan_0; lra].
    + assert (0 < y / x). { unfold Rdiv. assert (/ x < 0) by now apply Rinv_lt_0_compat. nra. }
      assert (0 < atan (y / x)) by (rewrite <- atan_0; now apply atan_increasing). lra.
  - destruct (Rlt_dec 0 y); [lra|]. destruct (Rlt_dec y 0); lra.
Qed.
(** An angle is determined by its sine and cosine on (-PI, PI]. *)
Lemma angle_unique a b : - PI < a <= PI -> - PI < b <= PI -> cos a = cos b -> sin a = sin b -> a = b.
Proof.
  intros Ha Hb Hc Hs.
  destruct (Rle_dec 0 a) as [Pa|Pa], (Rle_dec 0 b) as [Pb|Pb].
  - apply cos_inj; try lra; auto.
  - exfalso. assert (0 <= sin a) by (apply sin_ge_0; lra).
    assert (0 < sin (- b)) by (apply sin_gt_0; lra). rewrite sin_neg in H0. lra.
  - exfalso. assert (0 <= sin b) by (apply sin_ge_0; lra).
    assert (0 < sin (- a)) by (apply sin_gt_0; lra). rewrite sin_neg in H0. lra.
  - assert (- a = - b); [|lra]. apply cos_inj; try lra. now rewrite !cos_neg.
Qed.
Lemma atan2_angle k t : 0 < k -> - PI < t <= PI -> atan2 (k * sin t) (k * cos t) = t.
Proof.
  intros Hk Ht. pose proof (sc1 t) as E.
  assert (E2 : k * cos t * (k * cos t) + k * sin t * (k * sin t) = k * k).
  { transitivity (k * k * (sin t * sin t + cos t * cos t)); [ring|rewrite E; ring]. }
  destruct (atan2_sc (k * sin t) (k * cos t)) as (_ & Ec & Es); [rewrite E2; nra|].
  rewrite E2, sqrt_square in Ec, Es by lra.
  apply angle_unique; [apply atan2_bound|exact Ht| |].
  - rewrite Ec; field; lra.
  - rewrite Es; field; lra.
Qed.

(** ** Logarithm of a rotation *)
Definition tiny (v : V3) : Prop := vsq v <= epsA * epsA.

Lemma quat_rv_neg q : qw q <> 0 -> quat_rv (qneg q) = quat_rv q.
Proof.
  intros Hw. unfold quat_rv, quat_aa.
  replace (qvec (qneg q)) with (vneg (qvec q)) by c3.
  unfold vnorm. rewrite vsq_neg. destruct (Req_EM_T _ _); [reflexivity|]. cbn [fst snd].
  replace (qw (qneg q)) with (- qw q) by c3. rewrite Rabs_Ropp. f_equal.
  generalize dependent (sqrt (vsq (qvec q))); intros n Hn.
  destruct (Rlt_dec (- qw q) 0), (Rlt_dec (qw q) 0); try lra; unfold vscal, vneg; destruct q; u3; f_equal; field; lra.
Qed.

(** Logarithm of the exponential, quaternion form. *)
Lemma quat_rv_exp v : ~ tiny v -> vnorm v < PI -> quat_rv (rv_quat v) = v.
Proof.
  intros Ht Hn. unfold tiny in Ht. pose proof epsA2_pos as P. pose proof PI_RGT_0 as PP.
  unfold rv_quat, rv_aa. destruct (Rlt_dec _ _) as [L|L]; [|lra].
  fold (vnorm v). assert (N0 : 0 < vnorm v) by (apply sqrt_lt_R0; lra).
  set (n := vnorm v) in *.
  assert (S0 : 0 < sin (n / 2)) by (apply sin_gt_0; lra).
  assert (C0 : 0 < cos (n / 2)) by (apply cos_gt_0; lra).
  unfold quat_rv, quat_aa.
  replace (qvec (aa_quat (n, vscal (/ n) v))) with (vscal (sin (n / 2) / n) v)
    by (unfold aa_quat; destruct v; u3; f_equal; unfold Rdiv; ring).
  assert (E : vnorm (vscal (sin (n / 2) / n) v) = sin (n / 2)).
  { rewrite vnorm_scal. fold n. rewrite Rabs_pos_eq; [field; lra|]. apply Rlt_le, Rdiv_lt_0_compat; lra. }
  rewrite E. destruct (Req_EM_T _ _); [lra|]. unfold aa_quat; cbn [qw fst snd].
  destruct (Rlt_dec _ _); [lra|]. rewrite Rabs_pos_eq by lra.
  replace (atan2 (sin (n / 2)) (cos (n / 2))) with (n / 2).
  2:{ rewrite <- (atan2_angle 1 (n / 2)) at 1 by lra. now rewrite !Rmult_1_l. }
  rewrite vscal_scal, vscal_scal. rewrite <- (vscal_1 v) at 2. f_equal. field; lra.
Qed.
Lemma quat_rv_small v : tiny v -> quat_rv (rv_quat v) = v0.
Proof.
  intros H. rewrite (proj2 (rv_small v H)). unfold quat_rv, quat_aa.
  replace (vnorm (qvec q1)) with 0.
  - destruct (Req_EM_T 0 0); [|lra]. cbn. u3. f_equal; ring.
  - unfold vnorm. replace (vsq (qvec q1)) with 0 by (u3; ring). now rewrite sqrt_0.
Qed.

(** Exponential of the logarithm, quaternion form: the same rotation. *)
Lemma qn_split q : qn2 q = 1 -> vsq (qvec q) = 1 - qw q * qw q.
Proof. intros H; destruct q; u3; lra. Qed.
Lemma quat_rv_norm q : qn2 q = 1 -> vnorm (quat_rv q) = fst (quat_aa q) /\ 0 <= fst (quat_aa q) <= PI.
Proof.
  intros H. pose proof PI_RGT_0. pose proof (qn_split q H) as E.
  unfold quat_rv, quat_aa. set (n := vnorm (qvec q)). pose proof (vnorm_pos (qvec q)) as N. fold n in N.
  destruct (Req_EM_T n 0) as [Z|Z]; cbn [fst snd].
  - rewrite vscal_0. split; [|lra]. unfold vnorm. replace (vsq v0) with 0 by (u3; ring). apply sqrt_0.
  - assert (A : 0 <= atan2 n (Rabs (qw q)) <= PI / 2).
    { unfold atan2. pose proof (Rabs_pos (qw q)). destruct (Rlt_dec 0 (Rabs (qw q))) as [P|P].
      - pose proof (atan_bound (n / Rabs (qw q))). split; [|lra].
        rewrite <- atan_0. apply Rlt_le, atan_increasing, Rdiv_lt_0_compat; lra.
      - destruct (Rlt_dec _ 0); [lra|]. destruct (Rlt_dec 0 n); [lra|]. destruct (Rlt_dec n 0); lra. }
    split; [|lra]. rewrite !vnorm_scal. fold n.
    rewrite Rabs_pos_eq by lra.
    assert (Rabs (/ (if Rlt_dec (qw q) 0 then - n else n)) = / n) as ->.
    { destruct (Rlt_dec _ _); rewrite Rabs_inv; [rewrite Rabs_Ropp|]; now rewrite Rabs_pos_eq by lra. }
    field; lra.
Qed.
Lemma rv_quat_log q : qn2 q = 1 -> ~ tiny (quat_rv q) -> rv_quat (quat_rv q) = q \/ rv_quat (quat_rv q) = qneg q.
Proof.
  intros H Ht. pose proof PI_RGT_0 as PP. pose proof (qn_split q H) as E. pose proof epsA2_pos as P.
  destruct (quat_rv_norm q H) as [EN B]. unfold tiny in Ht.
  unfold rv_quat, rv_aa. destruct (Rlt_dec _ _) as [L|L]; [|lra]. fold (vnorm (quat_rv q)). rewrite EN.
  revert EN B. unfold quat_rv, quat_aa. set (n := vnorm (qvec q)).
  assert (N : 0 <= n) by apply vnorm_pos.
  assert (E2 : n * n = 1 - qw q * qw q) by (unfold n; rewrite vnorm_sq; exact E).
  destruct (Req_EM_T n 0) as [Z|Z]; cbn [fst snd]; intros EN B.
  - exfalso. revert L. unfold quat_rv, quat_aa. fold n. destruct (Req_EM_T n 0); [|lra]. cbn [fst snd].
    rewrite vscal_0. replace (vsq v0) with 0 by (u3; ring). lra.
  - set (a := atan2 n (Rabs (qw q))) in *.
    assert (R1 : Rabs (qw q) * Rabs (qw q) + n * n = 1).
    { assert (Rabs (qw q) * Rabs (qw q) = qw q * qw q) by (unfold Rabs; destruct (Rcase_abs _); ring). lra. }
    destruct (atan2_sc n (Rabs (qw q))) as (_ & Ec & Es); [lra|]. fold a in Ec, Es.
    rewrite R1, sqrt_1 in Ec, Es. unfold Rdiv in Ec, Es. rewrite Rinv_1, Rmult_1_r in Ec, Es.
    assert (A0 : 0 < a). { destruct B as [[B|B] _]; [lra|]. exfalso. replace a with 0 in Es by lra. rewrite sin_0 in Es. lra. }
    rewrite vscal_scal. replace (/ (2 * a) * (2 * a)) with 1 by (field; lra). rewrite vscal_1.
    unfold aa_quat. replace (2 * a / 2) with a by lra. rewrite Ec, Es.
    destruct q as [w x y z]; unfold Rabs; u3; cbn [qw] in *. destruct (Rcase_abs w), (Rlt_dec w 0); try lra.
    + right; f_equal; field; lra.
    + left; f_equal; field; lra.
Qed.
Lemma rv_mat_log q : qn2 q = 1 -> ~ tiny (quat_rv q) -> rv_mat (quat_rv q) = qrot q.
Proof.
  intros H Ht. rewrite rv_mat_quat. destruct (rv_quat_log q H Ht) as [-> | ->]; [reflexivity|apply qrot_neg].
Qed.
(** The logarithm vanishes only on the identity rotation. *)
Lemma quat_rv_0 q : qn2 q = 1 -> quat_rv q = v0 -> qrot q = m1.
Proof.
  intros H Z. pose proof PI_RGT_0 as PP.
  destruct (quat_rv_norm q H) as [EN B]. rewrite Z in EN.
  replace (vnorm v0) with 0 in EN by (unfold vnorm; replace (vsq v0) with 0 by (u3; ring); now rewrite sqrt_0).
  pose proof (qn_split q H) as E.
  assert (N0 : vnorm (qvec q) = 0).
  { revert EN. unfold quat_aa. destruct (Req_EM_T _ _) as [e|e]; cbn [fst]; [auto|]. intros EA.
    pose proof (vnorm_pos (qvec q)).
    destruct (atan2_sc (vnorm (qvec q)) (Rabs (qw q))) as (R0 & _ & Es); [pose proof (Rabs_pos (qw q)); nra|].
    replace (atan2 _ _) with 0 in Es by lra. rewrite sin_0 in Es.
    exfalso; apply e. apply Rmult_eq_reg_r with (/ sqrt (Rabs (qw q) * Rabs (qw q) + vnorm (qvec q) * vnorm (qvec q))).
    - unfold Rdiv in Es. lra.
    - apply Rgt_not_eq, Rinv_0_lt_compat; lra. }
  assert (S0 : vsq (qvec q) = 0) by (rewrite <- vnorm_sq, N0; ring).
  apply vsq_0 in S0. destruct q; u3. injection S0; intros; subst. f_equal; ring.
Qed.

(** ** Eigen's matrix to quaternion conversion *)
Lemma mat_quat_ok m : so3 m -> qn2 (mat_quat m) = 1 /\ qrot (mat_quat m) = m.
Proof.
  intros H. pose proof (so3_eqs m H) as Q. pose proof (so3_cof m H) as C. clear H.
  destruct m as [a b c d e f g h i]; unfold mat_quat; u3.
  decompose [and] Q; decompose [and] C; clear Q C.
  assert (Key : forall K, 0 < K -> exists s r, s = sqrt K /\ r = / 2 / s /\ s * s = K /\ s * r = / 2 /\ K * (r * r) = / 4).
  { intros K HK. exists (sqrt K), (/ 2 / sqrt K). destruct (sqrt_pos_mul K HK) as [E1 E2].
    repeat split; auto; try (field; lra). rewrite <- E1 at 1. field; lra. }
  Ltac mulrr r := repeat match goal with
    | H : ?l = ?x :> R |- _ => lazymatch x with 1 => idtac | 0 => idtac | _ => is_var x end;
        let H' := fresh in assert (H' : l * (r * r) = x * (r * r)) by (rewrite H; ring); revert H
    end; intros.
  Ltac mulK K r a := let H := fresh in assert (H : a * K * (r * r) = a * / 4) by
    (match goal with HK : _ * (r * r) = / 4 |- _ => rewrite <- HK end; ring).
  Ltac mulS r a := let H := fresh in match goal with HK : ?s * r = / 2 |- _ => 
    assert (H : a * (s * r) = a * / 2) by (rewrite HK; ring) end.
  Ltac fin K := let s := fresh "s" in let r := fresh "r" in
    let Es := fresh in let Er := fresh in let E1 := fresh in let E2 := fresh in let E3 := fresh in
    match goal with Key : forall K, 0 < K -> _ |- _ => destruct (Key K) as (s & r & Es & Er & E1 & E2 & E3); [lra|]; clear Key end;
    rewrite <- ?Es, <- ?Er; clear Es Er; cbn [qw qx qy qz].
  Ltac go K r a b c d e f g h i := mulrr r; mulK K r a; mulK K r b; mulK K r c; mulK K r d; mulK K r e; mulK K r f; mulK K r g;
    mulK K r h; mulK K r i;
    mulS r a; mulS r b; mulS r c; mulS r d; mulS r e; mulS r f; mulS r g; mulS r h; mulS r i; split; [lra|]; f_equal; lra.
  destruct (Rlt_dec 0 (a + e + i)) as [T|T].
  - fin (a + e + i + 1). clear T. go (a + e + i + 1) r a b c d e f g h i.
  - destruct (Rlt_dec a e) as [X|X], (Rlt_dec e i) as [Y|Y], (Rlt_dec a i) as [W|W]; try lra.
    all: try (fin (i - a - e + 1); go (i - a - e + 1) r a b c d e f g h i).
    all: try (fin (e - i - a + 1); go (e - i - a + 1) r a b c d e f g h i).
    all: try (fin (a - e - i + 1); go (a - e - i + 1) r a b c d e f g h i).
Qed.
