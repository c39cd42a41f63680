(** Properties C54 and C81: sums and differences of states and measurements of the kinetics observer. *)
From Coq Require Import ZArith List Lia Bool Reals Lra.
From Verif Require Import Base Vec3 Rot SpecRot RotProofs Orient SpecOrient Kine KinObs SpecKin KinSum SpecKinSum KinProofs KinInv KinThms SegProofs KinSumProofs2 KinSumThms.
Import ListNotations.
Open Scope Z_scope.

Section KineticsSum.
Context {Kn : Type} (k0 : Kn) (kfirst : mode -> Kn -> outcome Kn) (kupd : mode -> Z -> Kn -> Kn -> outcome Kn).
Context {M : Type} (mzero : M -> bool) {C : Type}.
Notation obs := (obs R Kn M C).
Notation init := (ko_init 0%R k0).
Notation run := (ko_run 0%R kfirst kupd mzero).
Notation N maxC maxI := (Z.to_nat (stateSize (Z.of_nat maxC) (Z.of_nat maxI))).
Notation NT maxC maxI := (Z.to_nat (stateTangentSize (Z.of_nat maxC) (Z.of_nat maxI))).
Implicit Types s : obs.

(** ** C54 *)
(** In every state of the observer reached without clearContacts: for every state vector with unit
    quaternions and every tangent vector with rotation parts of norm below pi, the difference between the
    sum and the state is the tangent vector on every active component (a rotation part of norm at most
    1e-16 comes back as zero). What is not active is not touched: the sum keeps the entries of the state,
    the difference keeps the entries [d0] that the vector held after its resize. *)
Theorem C54_difference_of_sum md maxC maxI ds di dw dp s h s' (x d d0 : list R) :
  init md maxC maxI ds di dw dp = Ok s -> forallb no_clear h = true -> Forall (wf_op (N maxC maxI)) h -> run md h s = Ok s' ->
  length x = N maxC maxI -> length d = NT maxC maxI -> length d0 = NT maxC maxI ->
  (forall c, active s' c -> is_ori c = true -> (qn2 (quat_of (part md false s' c x)) = 1 /\ vnorm (vec_of (part md true s' c d)) < PI)%R) ->
  exists y d', ko_stateSum md s' x d = Ok y /\ ko_stateDifference md s' y x d0 = Ok d' /\ length y = length x /\ length d' = length d /\
    (forall c, active s' c -> (is_ori c = true -> / 10000000000000000 < vnorm (vec_of (part md true s' c d)))%R -> part md true s' c d' = part md true s' c d) /\
    (forall c, active s' c -> is_ori c = true -> (vnorm (vec_of (part md true s' c d)) <= / 10000000000000000)%R -> part md true s' c d' = [0; 0; 0]%R) /\
    (forall k, outside md false s' k -> nth_error y k = nth_error x k) /\ (forall k, outside md true s' k -> nth_error d' k = nth_error d0 k).
Proof.
  intros E0 Hn Hw E Lx Ld L0 HU. pose proof (init_inv _ _ _ _ _ _ _ _ _ _ E0) as Hi0. pose proof (run_inv _ _ _ _ _ _ _ _ _ _ Hn Hw Hi0 E) as Hi.
  assert (Hm : md = Debug -> (0 < maxI)%nat) by (intros ->; eapply init_debug; exact E0).
  assert (P : 0 <= stateTangentSize (Z.of_nat maxC) (Z.of_nat maxI)) by (rewrite tangent_eq; unfold cidxT; lia).
  apply (diff_sum md maxC maxI s' x d d0 Hi Hm Lx); [lia|lia|exact HU].
Qed.
(** Conversely, adding to a state the difference from it gives the other state back on every active
    component, the quaternions up to their sign (unless their distance is below 1e-16 without being zero). *)
Theorem C54_sum_of_difference md maxC maxI ds di dw dp s h s' (x1 x2 d0 : list R) :
  init md maxC maxI ds di dw dp = Ok s -> forallb no_clear h = true -> Forall (wf_op (N maxC maxI)) h -> run md h s = Ok s' ->
  length x1 = N maxC maxI -> length x2 = N maxC maxI -> length d0 = NT maxC maxI ->
  (forall c, active s' c -> is_ori c = true -> (qn2 (quat_of (part md false s' c x1)) = 1 /\ qn2 (quat_of (part md false s' c x2)) = 1)%R) ->
  exists d y, ko_stateDifference md s' x1 x2 d0 = Ok d /\ ko_stateSum md s' x2 d = Ok y /\ length y = length x2 /\
    (forall c, active s' c -> is_ori c = false -> part md false s' c y = part md false s' c x1) /\
    (forall c, active s' c -> is_ori c = true -> let v := vec_of (part md true s' c d) in v = v0 \/ (/ 10000000000000000 < vnorm v)%R ->
       quat_of (part md false s' c y) = quat_of (part md false s' c x1) \/ quat_of (part md false s' c y) = qneg (quat_of (part md false s' c x1))) /\
    (forall k, outside md false s' k -> nth_error y k = nth_error x2 k).
Proof.
  intros E0 Hn Hw E Lx Lx2 L0 HU. pose proof (init_inv _ _ _ _ _ _ _ _ _ _ E0) as Hi0. pose proof (run_inv _ _ _ _ _ _ _ _ _ _ Hn Hw Hi0 E) as Hi.
  assert (Hm : md = Debug -> (0 < maxI)%nat) by (intros ->; eapply init_debug; exact E0).
  assert (P : 0 <= stateTangentSize (Z.of_nat maxC) (Z.of_nat maxI)) by (rewrite tangent_eq; unfold cidxT; lia).
  apply (sum_diff md maxC maxI s' x1 x2 d0 Hi Hm Lx Lx2); [lia|exact HU].
Qed.
(** On all entries, the round trip is refuted: in a new observer (the unmodelled wrench is switched off, no
    contact is present) the difference of a state with itself is not zero when the vector that receives it
    held something else, whatever its entries were. *)
Theorem C54_all_entries_refuted md maxC maxI ds di dw dp s (r : R) : r <> 0%R ->
  init md maxC maxI ds di dw dp = Ok s ->
  exists x d0 d', length x = N maxC maxI /\ length d0 = NT maxC maxI /\ qn2 (quat_of (part md false s COri x)) = 1%R /\
    ko_stateDifference md s x x d0 = Ok d' /\ nth_error d' (12 + 3 * maxI) = Some r.
Proof.
  intros Hr E0. pose proof (init_inv _ _ _ _ _ _ _ _ _ _ E0) as Hi.
  assert (Hm : md = Debug -> (0 < maxI)%nat) by (intros ->; eapply init_debug; exact E0).
  assert (P : 0 <= stateTangentSize (Z.of_nat maxC) (Z.of_nat maxI)) by (rewrite tangent_eq; unfold cidxT; lia).
  pose proof (nx_eq maxC maxI) as NE. unfold cidx in NE. pose proof (tangent_eq (Z.of_nat maxC) (Z.of_nat maxI)) as TE. unfold cidxT in TE.
  set (x := [0; 0; 0; 0; 0; 0; 1]%R ++ repeat 0%R (nx maxC maxI - 7)).
  assert (Lx : length x = nx maxC maxI) by (unfold x; rewrite app_length, repeat_length; cbn [length]; lia).
  destruct (diff_ok md maxC maxI s x x (repeat r (NT maxC maxI)) Hi Hm Lx Lx) as (d & Ed & Ld & _ & _ & Fr); [rewrite repeat_length; lia|].
  exists x, (repeat r (NT maxC maxI)), d. split; [exact Lx|]. split; [apply repeat_length|]. split; [|split; [exact Ed|]].
  - unfold part. cbn [comp_start]. change (Z.to_nat oriIndex) with 3%nat. change (Z.to_nat (comp_size false COri)) with 4%nat. unfold x, qn2. cbn. ring.
  - assert (Wu : o_withUnm s = false) by (unfold ko_init in E0; apply obind_Ok_inv in E0; destruct E0 as (? & _ & E0); injection E0 as <-; reflexivity).
    assert (Wc : ko_getListOfContacts s = []).
    { unfold ko_init in E0; apply obind_Ok_inv in E0; destruct E0 as (? & _ & E0); injection E0 as <-. unfold ko_getListOfContacts. cbn [o_contacts].
      clear. generalize 0. induction maxC as [|n IH]; intros z; [reflexivity|]. cbn [repeat list_set_contacts contact_init c_set]. apply IH. }
    rewrite Fr.
    + apply nth_error_repeat. lia.
    + intros c [He Ha]. destruct c as [| | | |i| | |j|j|j|j]; cbn [comp_exists] in *; rewrite ?Wc, ?Wu in *; try discriminate; try contradiction; cbn [cval comp_size]; try lia.
      rewrite (v_maxI _ _ _ Hi) in He. lia.
Qed.

(** ** C81 *)
(** The difference of two measurement vectors of the size built by the update: every entry of the result is
    written (nothing of [d0] is left), the signals are subtracted, the orientation part is the rotation vector
    of R1 R2^T, and the difference of equal vectors is zero. *)
Theorem C81_measurement_difference md s1 s' (y1 y2 d0 : list R) : ko_prepare md s1 = Ok s' ->
  length y1 = length (o_meas s') -> length y2 = length (o_meas s') ->
  let pose := p_time (o_pose s') =? o_kdata s' in
  let n := (length y1 - if pose then 4 else 0)%nat in
  length d0 = (if pose then n + 3 else n)%nat ->
  (pose = true -> qn2 (quat_of (skipn n y1)) = 1 /\ qn2 (quat_of (skipn n y2)) = 1)%R ->
  exists d, ko_measurementDifference md s' y1 y2 d0 = Ok d /\ length d = length d0 /\
    (forall k a b, (k < n)%nat -> nth_error y1 k = Some a -> nth_error y2 k = Some b -> nth_error d k = Some (a - b)%R) /\
    (pose = true -> let v := vec_of (skipn n d) in (vnorm v <= PI)%R /\
       rodrigues v = mmul (qrot (quat_of (skipn n y1))) (mtr (qrot (quat_of (skipn n y2))))) /\
    (y1 = y2 -> d = repeat 0%R (length d0)).
Proof.
  intros Ep L1 L2 pose n L0 HU. destruct (prepare_len md s1 s' Ep) as [Hn Hl]. fold pose in Hl.
  set (m := 6 * o_nimu s' + 6 * o_nreal s') in *.
  destruct (meas_diff md s' y1 y2 d0) as (d & Ed & Ld & D1 & D2); fold m; fold pose;
    [exact Hn|rewrite L1; exact Hl|congruence|subst n; destruct pose; lia|]. fold m pose in D1, D2.
  assert (Nz : pose = true -> Z.to_nat (m + 3) = n) by (intros T; subst n; rewrite T in *; lia).
  assert (Sk : forall A (l : list A) i j, (length l = i + j)%nat -> seg_get i j l = skipn i l).
  { intros A l i j Hij. unfold seg_get. apply firstn_all2. rewrite skipn_length. lia. }
  assert (T3 : pose = true -> skipn n d = l3 (quat_rv (qmul (quat_of (skipn n y1)) (qinv (quat_of (skipn n y2)))))).
  { intros T. specialize (D2 T). rewrite (Nz T) in D2. rewrite T in *. rewrite !Sk in D2; try (subst n; lia). exact D2. }
  exists d. split; [exact Ed|]. split; [exact Ld|]. split; [|split].
  - intros k a b Hk Ha Hb. rewrite D1 by (subst n; destruct pose; lia). apply zip_get; assumption.
  - intros T v. destruct (HU T) as [U1 U2]. unfold v. rewrite (T3 T), vec_l3. destruct (log_rot _ _ U1 U2) as (A & B & _). split; [exact B|exact A].
  - intros <-. apply nth_error_ext. intros k. destruct (Nat.ltb_spec k (length d0)).
    2:{ rewrite (proj2 (nth_error_None d k)) by lia. symmetry. apply nth_error_None. rewrite repeat_length. lia. }
    rewrite nth_error_repeat by lia. destruct (Nat.ltb_spec k n).
    + rewrite D1 by (subst n; destruct pose; lia). rewrite zip_self. apply nth_error_repeat. lia.
    + destruct pose eqn:Tp; [|lia]. specialize (T3 eq_refl). destruct (HU eq_refl) as [U1 _]. destruct (log_rot _ _ U1 U1) as (_ & _ & Z0). rewrite (Z0 eq_refl) in T3.
      replace (nth_error d k) with (nth_error (skipn n d) (k - n)) by (rewrite nth_error_skipn; f_equal; lia). rewrite T3.
      assert (K : (k - n < 3)%nat) by lia. destruct (k - n)%nat as [|[|[|?]]]; try lia; reflexivity.
Qed.
End KineticsSum.
Print Assumptions C54_difference_of_sum.
Print Assumptions C54_sum_of_difference.
Print Assumptions C54_all_entries_refuted.
Print Assumptions C81_measurement_difference.

(** ** Concrete cases *)
Definition xinit md maxC maxI := ko_init (C := unit) 0%R tt md maxC maxI (tt, tt, tt, tt) (tt, tt) tt tt.
Definition xrun md := ko_run (Kn := unit) (M := unit) (C := unit) 0%R (fun _ k => Ok k) (fun _ _ _ k => Ok k) (fun _ => true) md.
(** An observer with a contact and an IMU, a state with two unit quaternions, a tangent vector that turns by
    one radian: the hypotheses of C54. *)
Example C54_case : exists s s', xinit Debug 1 1 = Ok s /\ xrun Debug [KAdd [0; 0; 0; 0; 0; 0; 1]%R 0 (tt, tt, tt, tt)] s = Ok s' /\
  let x := ([1; 2; 3; 0; 0; 0; 1; 4; 5; 6; 7; 8; 9; 1; 1; 1; 0; 0; 0; 0; 0; 0; 1; 0; 0; 1; 0; 0; 0; 10; 0; 0; 0; 0; 0])%R in
  let d := ([1; 1; 1; 0; 1; 0; 1; 1; 1; 1; 1; 1; 2; 2; 2; 3; 3; 3; 3; 3; 3; 4; 4; 4; 1; 0; 0; 5; 5; 5; 5; 5; 5])%R in
  length x = Z.to_nat (stateSize 1 1) /\ length d = Z.to_nat (stateTangentSize 1 1) /\ active s' (CCOri 0) /\ active s' (CGyro 0) /\
  (forall c, active s' c -> is_ori c = true -> (qn2 (quat_of (part Debug false s' c x)) = 1 /\ / 10000000000000000 < vnorm (vec_of (part Debug true s' c d)) < PI)%R).
Proof.
  eexists. eexists. split; [reflexivity|]. split; [reflexivity|]. cbv zeta. split; [reflexivity|]. split; [reflexivity|].
  split; [split; [left; reflexivity|exact I]|]. split; [split; [split; [lia|reflexivity]|reflexivity]|].
  pose proof PI2_3_2.
  intros c [He _] Ho. destruct c as [| | | |i| | |j|j|j|j]; try discriminate.
  - split; [cbv -[IZR Rplus Rmult]; ring|]. match goal with |- (_ < vnorm ?v < _)%R => replace (vnorm v) with 1%R end; [lra|].
    cbv -[IZR Rplus Rmult sqrt]. rewrite <- sqrt_1 at 1. f_equal. ring.
  - cbn [comp_exists] in He. destruct He as [<-|[]]. split; [cbv -[IZR Rplus Rmult]; ring|]. match goal with |- (_ < vnorm ?v < _)%R => replace (vnorm v) with 1%R end; [lra|].
    cbv -[IZR Rplus Rmult sqrt]. rewrite <- sqrt_1 at 1. f_equal. ring.
Qed.
(** The pose is the only signal of the iteration: the hypotheses of C81. *)
Example C81_case : exists s s1 s', xinit Debug 1 1 = Ok s /\ xrun Debug [KPose [1; 2; 3; 0; 0; 0; 1]%R None] s = Ok s1 /\ ko_prepare Debug s1 = Ok s' /\
  length (o_meas s') = 7%nat /\ (p_time (o_pose s') =? o_kdata s') = true /\ (qn2 (quat_of (skipn 3 [1; 2; 3; 0; 0; 0; 1])) = 1)%R.
Proof. do 3 eexists. split; [reflexivity|]. split; [reflexivity|]. split; [reflexivity|]. split; [reflexivity|]. split; [reflexivity|]. unfold qn2. cbn. ring. Qed.
