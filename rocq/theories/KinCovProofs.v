(** Proofs about KinCov.v. *)
From mathcomp Require Import all_ssreflect all_algebra.
From Coq Require Import ZArith Lia List.
From Verif Require Import Base MxLib KinObs SpecKin KinProofs KinInv KinThms KinCov SpecKinCov.
Set Implicit Arguments.
Unset Strict Implicit.
Unset Printing Implicit Defensive.
Import GRing.Theory Num.Theory.
Local Open Scope ring_scope.
Set Default Proof Using "Type".

Section Blocks.
Variable R : rcfType.

Lemma in_segP z k i : reflect (z <= Z.of_nat i < z + k)%Z (in_seg z k i).
Proof. by rewrite /in_seg; apply: (iffP andP) => [[/Z.leb_le ? /Z.ltb_lt ?]|[? ?]]; [lia|split; [apply/Z.leb_le|apply/Z.ltb_lt]]. Qed.
Lemma in_segF z k i : ~ (z <= Z.of_nat i < z + k)%Z -> in_seg z k i = false.
Proof. by move=> H; apply/in_segP. Qed.
Lemma seg_okP n z k : reflect [/\ (0 <= z)%Z, (0 <= k)%Z & (z + k <= Z.of_nat n)%Z] (seg_ok n z k).
Proof. by rewrite /seg_ok; apply: (iffP and3P) => [[/Z.leb_le ? /Z.leb_le ? /Z.leb_le ?]|[? ? ?]]; split=> //; apply/Z.leb_le. Qed.
Lemma mat_at_ord m (B : 'M[R]_m) (a b : 'I_m) : mat_at B a b = B a b.
Proof. by rewrite /mat_at !valK. Qed.

Lemma set_block_ok n md k (P : 'M[R]_n) (B : 'M[R]_k) z : (0 <= z)%Z -> (z + Z.of_nat k <= Z.of_nat n)%Z ->
  exists P', set_block md k P B z = Ok P' /\ isolates z B P P'.
Proof.
move=> z0 zk; rewrite /set_block /block_assign /block_zero.
have -> : seg_ok n z (Z.of_nat k) = true by apply/seg_okP; split; lia.
rewrite eqxx /=.
have -> : seg_ok n 0 z = true by apply/seg_okP; split; lia.
have -> /= : seg_ok n (z + Z.of_nat k) (Z.of_nat n - z - Z.of_nat k) = true by apply/seg_okP; split; lia.
eexists; split; first reflexivity; split.
- move=> i j a b Ei Ej; have [la lb] : (Z.of_nat a < Z.of_nat k)%Z /\ (Z.of_nat b < Z.of_nat k)%Z by split; apply/inj_lt/ltP.
  rewrite !mxE; do 10?(case: in_segP => ? //=); try lia.
  have -> : (i - Z.to_nat z)%nat = a by rewrite /subn /subn_rec; lia.
  have -> : (j - Z.to_nat z)%nat = b by rewrite /subn /subn_rec; lia.
  exact: mat_at_ord.
- move=> i j Hi Hj; have := ltn_ord i; have := ltn_ord j; move=> /ltP Lj /ltP Li.
  rewrite !mxE; do 10?(case: in_segP => ? //=); try lia.
- move=> i j Hi Hj; rewrite !mxE; do 10?(case: in_segP => ? //=); lia.
Qed.

Lemma set_block_inv n md k m (P P' : 'M[R]_n) (B : 'M[R]_m) z : set_block md k P B z = Ok P' ->
  [/\ m = k, (0 <= z)%Z, (z + Z.of_nat m <= Z.of_nat n)%Z & isolates z B P P'].
Proof.
move=> E; have [Em Ez] : m = k /\ seg_ok n z (Z.of_nat k).
  move: E; rewrite /set_block /block_assign; case: ifP => [/andP[? /eqP ?] //|_]; by case: md.
subst m; case/seg_okP: Ez => z0 _ zk; have [P'' [E'' H]] := set_block_ok md P B z0 zk.
by rewrite E'' in E; case: E => <-; split.
Qed.
Lemma set_block_bad n md k m (P : 'M[R]_n) (B : 'M[R]_m) z : m <> k \/ (Z.of_nat n < z + Z.of_nat k)%Z -> set_block md k P B z = eigen_fail _ md.
Proof.
move=> H; rewrite /set_block /block_assign; case: ifP => [/andP[/seg_okP[? ? ?] /eqP ?]|_]; last by case: md.
by case: H => ?; [|lia].
Qed.

(** P' = E P E^T + F^T B F with E the projection outside of the block, F the one on the block. *)
Lemma isolates_psd n k z (B : 'M[R]_k) (P P' : 'M[R]_n) : (0 <= z)%Z -> (z + Z.of_nat k <= Z.of_nat n)%Z ->
  isolates z B P P' -> psd P -> psd B -> psd P'.
Proof.
move=> z0 zk [H1 H2 H3] pP pB.
pose E : 'M[R]_n := diag_mx (\row_i (~~ in_seg z (Z.of_nat k) i)%:R).
pose F : 'M[R]_(n, k) := \matrix_(i, a) (Z.eqb (Z.of_nat i) (z + Z.of_nat a))%:R.
have -> : P' = E *m P *m E^T + F *m B *m F^T; last by apply: psdD; apply: psd_cong.
have EE i j : (E *m P *m E^T) i j = (~~ in_seg z (Z.of_nat k) i)%:R * P i j * (~~ in_seg z (Z.of_nat k) j)%:R.
  by rewrite tr_diag_mx mul_mx_diag mxE mul_diag_mx !mxE.
have F0 (i : 'I_n) (a : 'I_k) : ~ (z <= Z.of_nat i < z + Z.of_nat k)%Z -> F i a = 0.
  move=> Hi; rewrite mxE; case: Z.eqb_spec => //= E1; case: Hi; have /ltP := ltn_ord a; lia.
have ex (i : 'I_n) : (z <= Z.of_nat i < z + Z.of_nat k)%Z -> exists a : 'I_k, Z.of_nat i = (z + Z.of_nat a)%Z.
  move=> Hi; have L : (Z.to_nat (Z.of_nat i - z) < k)%nat by apply/ltP; lia.
  by exists (Ordinal L) => /=; lia.
have F1 (i : 'I_n) (a b : 'I_k) : Z.of_nat i = (z + Z.of_nat a)%Z -> F i b = (b == a)%:R.
  move=> Hi; rewrite mxE; case: Z.eqb_spec => E1; case: eqP => //= E2.
    by case: E2; apply: val_inj => /=; lia.
  by case: E1; rewrite E2.
have S1 (v : 'I_k -> R) (a : 'I_k) : \sum_b v b * (b == a)%:R = v a.
  by rewrite (bigD1 a) //= eqxx mulr1 big1 ?addr0 // => b /negbTE ->; rewrite mulr0.
apply/matrixP => i j; rewrite [in RHS]mxE EE.
case: (in_segP z (Z.of_nat k) i) => Hi; case: (in_segP z (Z.of_nat k) j) => Hj /=.
- have [a Ea] := ex _ Hi; have [b Eb] := ex _ Hj; rewrite (H1 _ _ _ _ Ea Eb) !mul0r add0r.
  rewrite mxE (eq_bigr (fun c => (F *m B) i c * (c == b)%:R)) => [|c _]; last by rewrite [F^T _ _]mxE (F1 _ _ _ Eb).
  rewrite S1 mxE (eq_bigr (fun c => B c b * (c == a)%:R)) => [|c _]; last by rewrite (F1 _ _ _ Ea) mulrC.
  by rewrite S1.
- rewrite (H2 _ _ Hi Hj).1 !mul0r add0r mxE big1 // => c _; by rewrite [F^T c j]mxE (F0 _ _ Hj) mulr0.
- rewrite (H2 _ _ Hj Hi).2 mulr0 add0r mxE big1 // => c _; rewrite mxE big1 ?mul0r // => c' _; by rewrite (F0 _ _ Hi) mul0r.
- rewrite (H3 _ _ Hi Hj) mul1r mulr1 mxE big1 ?addr0 // => c _; by rewrite [F^T c j]mxE (F0 _ _ Hj) mulr0.
Qed.
End Blocks.

Section Cov.
Variable R : rcfType.
Context {S : Type} (s0 : S) {Kn : Type} (kfirst : mode -> Kn -> outcome Kn) (kupd : mode -> Z -> Kn -> Kn -> outcome Kn).
Context {M : Type} (mzero : M -> bool) {C : Type}.
Notation obs := (obs S Kn M C).
Variable nt : nat.
Notation kcov := (kcov R S Kn M C nt).
Notation op := (kc_op R S Kn M C nt).
Notation step := (kc_step s0 kfirst kupd mzero).
Notation run := (kc_run s0 kfirst kupd mzero).
Implicit Types (s : kcov) (o : op).

Arguments set_cov : simpl never.
Definition get_M (q : bool) s := if q then kc_Q s else kc_P s.
Definition with_M (q : bool) X s := if q then with_Q X s else with_P X s.
Lemma set_cov_ok md q k (B : 'M[R]_k) z s : (0 <= z)%Z -> (z + Z.of_nat k <= Z.of_nat nt)%Z ->
  exists X, set_cov md q k B z s = Ok (with_M q X s) /\ isolates z B (get_M q s) X.
Proof.
by move=> z0 zk; have [X [E H]] := set_block_ok md (get_M q s) B z0 zk; exists X; split=> //; move: E; rewrite /set_cov /get_M; case: q {H} => ->.
Qed.
Lemma set_cov_inv md q k m (B : 'M[R]_m) z s s' : set_cov md q k B z s = Ok s' ->
  exists X, [/\ s' = with_M q X s, m = k, (0 <= z)%Z, (z + Z.of_nat m <= Z.of_nat nt)%Z & isolates z B (get_M q s) X].
Proof.
rewrite /set_cov /get_M; case: q => E; have [X [E1 E2]] := obind_Ok_inv _ _ _ E; case: E2 => <-; have [? ? ? ?] := set_block_inv E1; by exists X.
Qed.
Lemma set_cov_bad md q k m (B : 'M[R]_m) z s : m <> k \/ (Z.of_nat nt < z + Z.of_nat k)%Z -> set_cov md q k B z s = eigen_fail _ md.
Proof. by move=> H; rewrite /set_cov !set_block_bad //; case: q; case: md. Qed.

(** ** Positive semi-definiteness *)
Definition good_d (d : defaults R) : Prop :=
  (psd (d_kine d) /\ psd (d_gyro d) /\ psd (d_unm d) /\ psd (d_con d)) /\ (psd (q_kine d) /\ psd (q_gyro d) /\ psd (q_unm d) /\ psd (q_con d)).
Definition good s : Prop := [/\ psd (kc_P s), psd (kc_Q s) & good_d (kc_d s)].
(** Same bookkeeping and default matrices, still covariance matrices. *)
Definition ext s s' : Prop := [/\ kc_obs s' = kc_obs s, kc_d s' = kc_d s & good s -> good s'].
Lemma ext_refl s : ext s s.
Proof. by []. Qed.
Lemma ext_trans s1 s2 s3 : ext s1 s2 -> ext s2 s3 -> ext s1 s3.
Proof. by move=> [A1 A2 A3] [B1 B2 B3]; split; [rewrite B1|rewrite B2|move=> /A3 /B3]. Qed.
Lemma ext_set md q k m (B : 'M[R]_m) z s s' : set_cov md q k B z s = Ok s' -> (good s -> psd B) -> ext s s'.
Proof.
move=> /set_cov_inv [X [-> Ek z0 zk H]] pB; split; try by case: q {H}.
move=> G; have pX : psd X by apply: isolates_psd H _ (pB G) => //; case: G => ? ? ?; case: q.
by case: G => ? ? ?; case: q {H}.
Qed.
Lemma ext_each (f : Z -> kcov -> outcome kcov) (l : list bool) : (forall i s s', f i s = Ok s' -> ext s s') ->
  forall i s s', for_each f l i s = Ok s' -> ext s s'.
Proof.
move=> Hf; elim: l => [|b l IH] i s s' /=; first by case=> <-.
move=> E; have [s1 [E1 E2]] := obind_Ok_inv _ _ _ E; apply: ext_trans (IH _ _ _ E2).
by case: b E1 {E} => [/Hf //|[<-]].
Qed.
Ltac inb E s1 E1 E2 := have [s1 [E1 E2]] := obind_Ok_inv _ _ _ E.
Lemma ext_rkine md s s' : kc_resetStateKinematicsCovMat md s = Ok s' -> ext s s'.
Proof. by move=> E; apply: ext_set E _; case=> _ _ [[]]. Qed.
Lemma ext_rgyro md i s s' : kc_resetStateGyroBiasCovMat md i s = Ok s' -> ext s s'.
Proof. by move=> E; inb E z E1 E2; apply: ext_set E2 _; case=> _ _ [[_ []]]. Qed.
Lemma ext_runm md s s' : kc_resetStateUnmodeledWrenchCovMat md s = Ok s' -> ext s s'.
Proof. by move=> E; inb E z E1 E2; apply: ext_set E2 _; case=> _ _ [[_ [_ []]]]. Qed.
Lemma ext_rcon md n s s' : kc_resetStateContactCovMat md n s = Ok s' -> ext s s'.
Proof. by move=> E; inb E z E1 E2; inb E2 c E3 E4; inb E4 y E5 E6; apply: ext_set E6 _; case=> _ _ [[_ [_ []]]]. Qed.
Lemma ext_rcons md s s' : kc_resetStateContactsCovMat md s = Ok s' -> ext s s'.
Proof. by apply: ext_each => i ? ?; apply: ext_rcon. Qed.
Lemma ext_rall md s s' : kc_resetStateCovarianceMat md s = Ok s' -> ext s s'.
Proof.
move=> E; inb E s1 E1 E2; inb E2 s2 E3 E4; inb E4 s3 E5 E6.
apply: ext_trans (ext_rkine E1) _; apply: ext_trans (ext_trans (ext_runm E5) (ext_rcons E6)).
by apply: ext_each E3 => ? ? ?; apply: ext_rgyro.
Qed.
Lemma ext_pkine md s s' : kc_resetProcessKinematicsCovMat md s = Ok s' -> ext s s'.
Proof. by move=> E; apply: ext_set E _; case=> _ _ [_ []]. Qed.
Lemma ext_pgyro md i s s' : kc_resetProcessGyroBiasCovMat md i s = Ok s' -> ext s s'.
Proof. by move=> E; inb E z E1 E2; apply: ext_set E2 _; case=> _ _ [_ [_ []]]. Qed.
Lemma ext_punm md s s' : kc_resetProcessUnmodeledWrenchCovMat md s = Ok s' -> ext s s'.
Proof. by move=> E; inb E z E1 E2; apply: ext_set E2 _; case=> _ _ [_ [_ [_ []]]]. Qed.
Lemma ext_pcon md n s s' : kc_resetProcessContactCovMat md n s = Ok s' -> ext s s'.
Proof. by move=> E; inb E z E1 E2; inb E2 c E3 E4; inb E4 y E5 E6; apply: ext_set E6 _; case=> _ _ [_ [_ [_ []]]]. Qed.
Lemma ext_pcons md s s' : kc_resetProcessContactsCovMat md s = Ok s' -> ext s s'.
Proof. by apply: ext_each => i ? ?; apply: ext_pcon. Qed.
Lemma ext_pall md s s' : kc_resetProcessCovarianceMat md s = Ok s' -> ext s s'.
Proof.
move=> E; inb E s1 E1 E2; inb E2 s2 E3 E4; inb E4 s3 E5 E6.
apply: ext_trans (ext_pkine E1) _; apply: ext_trans (ext_trans (ext_punm E5) (ext_pcons E6)).
by apply: ext_each E3 => ? ? ?; apply: ext_pgyro.
Qed.
Lemma ext_kcons md (cs : list (contact S Kn M C)) : forall s s', reset_contacts_kine md cs s = Ok s' -> ext s s'.
Proof.
elim: cs => [|c cs IH] s s' /=; first by case=> <-.
move=> E; inb E s1 E1 E2; apply: ext_trans (IH _ _ E2); case: (c_set c) E1 {E} => [E|[<-] //].
by inb E u E3 E4; apply: ext_set E4 _; case=> _ _ [[_ [_ []]]].
Qed.

(** A call does its calls on the bookkeeping, and keeps covariance matrices. *)
Lemma step_ext md o s s' : step md o s = Ok s' ->
  ko_run s0 kfirst kupd mzero md (obs_op o) (kc_obs s) = Ok (kc_obs s') /\ (psd_op o -> good s -> good s').
Proof.
have X s1 s2 : ext s1 s2 -> Ok (kc_obs s1) = Ok (kc_obs s2) /\ (good s1 -> good s2) by case=> -> _.
have add pv num st (B Qc : 'M[R]_12) r : kc_addContact s0 mzero md pv num st B Qc s = Ok r ->
    ko_run s0 kfirst kupd mzero md [:: KAdd pv num st] (kc_obs s) = Ok (kc_obs (snd r)) /\ (good s -> psd B -> psd Qc -> good (snd r)).
  move=> E; inb E r0 E1 E2; case: r0 E1 E2 => n o1 E1 E2; inb E2 c E3 E4; inb E4 s1 E5 E6; inb E6 s2 E7 E8; case: E8 => <- /=.
  rewrite /ko_run /= E1 /=; split; first by case: (set_cov_inv E5) E7 => X1 [-> _ _ _ _] E7; case: (set_cov_inv E7) => X2 [-> _ _ _ _].
  move=> G pB pQ; case: (ext_set E7 (fun _ => pQ)) => _ _; apply; case: (ext_set E5 (fun _ => pB)) => _ _; exact.
have one (o' : ko_op S Kn M C) y : ko_step s0 kfirst kupd mzero md o' (kc_obs s) = Ok y -> ko_run s0 kfirst kupd mzero md [:: o'] (kc_obs s) = Ok y.
  by rewrite /ko_run /= => ->.
case: o => [o f|pv num st B Q|P|Q|m B|q B i|q B|q n B|B|B|B|B|q|q i|q|q n|q|q|kv b|b i|w|v].
- case: o; try (by move=> *; match goal with E : step _ _ _ = Ok _ |- _ => inb E y E1 E2; case: E2 => <-; split; [exact: one|by []] end).
  + move=> pv num st E; inb E r E1 E2; case: E2 => <-; have [A B] := add _ _ _ _ _ _ E1; split=> // _ G; apply: B => //; by case: G => _ _ [[_ [_ [_ ?]]] [_ [_ [_ ?]]]].
  + move=> e E; inb E y E1 E2; case: E2 => <-; split; [exact: one|move=> /= Hf [? ? ?]; split=> //=]. by case: ifP => _ //; apply: Hf.
- move=> E; inb E r E1 E2; case: E2 => <-; have [A H] := add _ _ _ _ _ _ E1; split=> // -[pB pQ] G; exact: H.
- by case=> <-; split=> //= ? [? ? ?].
- by case=> <-; split=> //= ? [? ? ?].
- move=> E; have H : psd B -> ext s s' by move=> pB; apply: ext_set E _. 
  split; last by move=> /H[_ _].
  by case: (set_cov_inv E) => Y [-> _ _ _ _].
- by case: q => E; inb E z E1 E2; (split; [by case: (set_cov_inv E2) => Y [-> _ _ _ _]|move=> pB; by case: (ext_set E2 (fun _ => pB))]).
- by case: q => E; inb E z E1 E2; (split; [by case: (set_cov_inv E2) => Y [-> _ _ _ _]|move=> pB; by case: (ext_set E2 (fun _ => pB))]).
- by case: q => E; inb E z E1 E2; (split; [by case: (set_cov_inv E2) => Y [-> _ _ _ _]|move=> pB; by case: (ext_set E2 (fun _ => pB))]).
- by case=> <-; split=> //= pB [? ? [[? [? [? ?]]] ?]].
- by case=> <-; split=> //= pB [? ? [[? [? [? ?]]] ?]].
- by case=> <-; split=> //= pB [? ? [[? [? [? ?]]] ?]].
- by case=> <-; split=> //= pB [? ? [[? [? [? ?]]] ?]].
- by case: q => E; [have [] := X _ _ (ext_pkine E)|have [] := X _ _ (ext_rkine E)]; split.
- by case: q => E; [have [] := X _ _ (ext_pgyro E)|have [] := X _ _ (ext_rgyro E)]; split.
- by case: q => E; [have [] := X _ _ (ext_punm E)|have [] := X _ _ (ext_runm E)]; split.
- by case: q => E; [have [] := X _ _ (ext_pcon E)|have [] := X _ _ (ext_rcon E)]; split.
- by case: q => E; [have [] := X _ _ (ext_pcons E)|have [] := X _ _ (ext_rcons E)]; split.
- by case: q => E; [have [] := X _ _ (ext_pall E)|have [] := X _ _ (ext_rall E)]; split.
- move=> E; inb E o1 E1 E2; inb E2 s1 E3 E4.
  have H1 : ext (with_obs o1 s) s1 by apply: ext_set E3 _; case=> _ _ [[]].
  have H2 : ext s1 s' by case: b E4 {E E1 E2} => [|[<-] //]; exact: ext_kcons.
  have [A1 A2 A3] := ext_trans H1 H2; rewrite A1; split; [exact: one|by move=> _ [? ? ?]; apply: A3].
- move=> E; inb E o1 E1 E2; inb E2 z E3 E4; have [A1 _ A3] : ext (with_obs o1 s) s' by apply: ext_set E4 _; case=> _ _ [[_ []]].
  by rewrite A1; split; [exact: one|move=> _ [? ? ?]; apply: A3].
- move=> E; inb E o1 E1 E2; inb E2 z E3 E4; have [A1 _ A3] : ext (with_obs o1 s) s' by apply: ext_set E4 _; case=> _ _ [[_ [_ []]]].
  by rewrite A1; split; [exact: one|move=> _ [? ? ?]; apply: A3].
- move=> E; have [A1 _ A3] := ext_rall E; rewrite A1; split; [by []|by move=> _ [? ? ?]; apply: A3].
Qed.
Lemma run_ext md (h : list op) : forall s s', run md h s = Ok s' ->
  ko_run s0 kfirst kupd mzero md (obs_ops h) (kc_obs s) = Ok (kc_obs s') /\ (List.Forall (@psd_op R S Kn M C nt) h -> good s -> good s').
Proof.
elim: h => [|o h IH] s s'; first by case=> <-.
rewrite /run /= => E; inb E s1 E1 E2; have [A B] := step_ext E1; have [A' B'] := IH _ _ E2; split.
- by rewrite /obs_ops /= /ko_run orun_app; move: A; rewrite /ko_run => ->.
- by move=> H G; inversion H; subst; apply: B' => //; apply: B.
Qed.
End Cov.
