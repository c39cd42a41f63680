(** Property C162: the inputs of an extended filter whose feedthroughs are switched off. *)
From Coq Require Import ZArith List Lia Bool.
From mathcomp Require Import all_ssreflect all_algebra.
From Verif Require Import Base Defs ZDO ZDOProofs MxLib Cholesky Kalman KFilter KFProofs EkfFlags.
Set Implicit Arguments.
Unset Strict Implicit.
Unset Printing Implicit Defensive.
Import Order.TTheory GRing.Theory Num.Theory.
Open Scope ring_scope.

(** C162. In a filter with inputs each flag is what was last asked for; in a filter without inputs both stay off. *)
Theorem C162_flags : forall (p : nat) out st ops,
  let f := flags_run p ops (flags_init p out st) in
  let asked (pick : flag_op -> option bool) b := fold_left (fun b o => if pick o is Some b' then b' else b) ops b in
  fl_out f = (0 < p)%N && asked (fun o => if o is FOut b then Some b else None) out /\
  fl_state f = (0 < p)%N && asked (fun o => if o is FState b then Some b else None) st.
Proof.
move=> p out st ops /=; rewrite /flags_init /flags_run /flag_step; case: (0 < p)%N => /=; last first.
  by elim: ops.
have : fl_out (mkFl out st) = out /\ fl_state (mkFl out st) = st by [].
move: (mkFl out st) => f; elim: ops f out st => [|[b|b] ops IH] f out st //= [H1 H2]; exact: IH.
Qed.

(** C162. With both feedthroughs off and a sensor model that does not look at its input, two filters that differ only in their
    inputs, whatever these are, answer the same estimate, or fail alike, and keep the same measurements, covariance, gain and
    innovation. The dynamics may look at its input: it is given zero. *)
Theorem C162_inputs_have_no_effect : forall (R : rcfType) (n nt m mt p : nat) f h ss dd md
  (s1 s2 : zdo 'cV[R]_n 'cV[R]_m 'cV[R]_p (kfe R n nt m mt p)) x k0 k,
  let st := flagged_step f h ss dd (mkFl false false) in
  (forall x u j, h x u j = h x 0 j) ->
  z_x s1 = im_put x k0 -> z_x s2 = im_put x k0 -> z_y s1 = z_y s2 -> z_e s1 = z_e s2 -> Z.lt k0 k -> covered st k0 k s1 -> covered st k0 k s2 ->
  let view := omap (fun r : zdo 'cV[R]_n 'cV[R]_m 'cV[R]_p (kfe R n nt m mt p) * _ => (r.2, z_x r.1, z_y r.1, z_e r.1)) in
  view (z_getEstimatedState (local_step st) md k s1) = view (z_getEstimatedState (local_step st) md k s2).
Proof.
move=> R n nt m mt p f h ss dd md s1 s2 x k0 k st Hh X1 X2 EY EE Hk C1 C2 view.
rewrite (getEstimatedState_spec _ md s1 k0 k x X1 Hk C1) (getEstimatedState_spec _ md s2 k0 k x X2 Hk C2) EY EE.
rewrite (@spec_inputs _ _ _ _ st md _ (ia_get md (z_u s1)) (ia_get md (z_u s2))).
  by case: (est_spec _ _ _ _ _ _ _ _) => [[x' e']| | |] //=; rewrite /view /= EY.
move=> e j x' oy _ _; rewrite /st /flagged_step /kf_step /=; case: (boost_assert md (is_ok oy)) => //= _.
have H : forall u0 u1 v0 v1, @ekf_predict R n nt m mt p f h false false md e j x' u0 u1 = ekf_predict f h false false md e j x' v0 v1.
  move=> u0 u1 v0 v1; rewrite /ekf_predict andbF /=; case: (if _ then _ else Ok (im_put _ _)) => //= xb; case: ifP => //= _.
  case: (im_get md xb) => //= xv; rewrite /ekf_sensor; case: (0 < p)%N => //=.
  by rewrite Hh [in RHS]Hh.
by rewrite (H _ _ (ia_get md (z_u s2) j) (ia_get md (z_u s2) (Z.add j (Zpos xH)))).
Qed.

(** C162. With the state feedthrough off, whatever the other flag and the models are, the input at the time of the state estimate
    is never used: only the inputs at the times of the measurements to come are. *)
Theorem C162_state_input_not_used : forall (R : rcfType) (n nt m mt p : nat) f h ss dd md out
  (s1 s2 : zdo 'cV[R]_n 'cV[R]_m 'cV[R]_p (kfe R n nt m mt p)) x k0 k,
  let st := flagged_step f h ss dd (mkFl out false) in
  (forall t, Z.lt k0 t -> Z.le t k -> ia_get md (z_u s1) t = ia_get md (z_u s2) t) ->
  z_x s1 = im_put x k0 -> z_x s2 = im_put x k0 -> z_y s1 = z_y s2 -> z_e s1 = z_e s2 -> Z.lt k0 k -> covered st k0 k s1 -> covered st k0 k s2 ->
  let view := omap (fun r : zdo 'cV[R]_n 'cV[R]_m 'cV[R]_p (kfe R n nt m mt p) * _ => (r.2, z_x r.1, z_y r.1, z_e r.1)) in
  view (z_getEstimatedState (local_step st) md k s1) = view (z_getEstimatedState (local_step st) md k s2).
Proof.
move=> R n nt m mt p f h ss dd md out s1 s2 x k0 k st Hu X1 X2 EY EE Hk C1 C2 view.
rewrite (getEstimatedState_spec _ md s1 k0 k x X1 Hk C1) (getEstimatedState_spec _ md s2 k0 k x X2 Hk C2) EY EE.
rewrite (@spec_inputs _ _ _ _ st md _ (ia_get md (z_u s1)) (ia_get md (z_u s2))).
  by case: (est_spec _ _ _ _ _ _ _ _) => [[x' e']| | |] //=; rewrite /view /= EY.
move=> e j x' oy H1 H2; rewrite /st /flagged_step /kf_step /=; case: (boost_assert md (is_ok oy)) => //= _.
rewrite (Hu (Z.add j (Zpos xH))); [by rewrite /ekf_predict andbF|lia|lia].
Qed.

(** A filter with one input, given a state, measurements and the inputs us from time 0 on. *)
Definition with_inputs (R : rcfType) (ys us : seq 'cV[R]_1) : list (kop R 1 1 1 1 1) :=
  [:: KS (SetA _ _ _ _ (Some 1%:M)); KS (SetC _ _ _ (Some 1%:M)); KS (SetQ _ _ _ _ (Some 1%:M)); KS (SetR _ _ _ _ (Some 1%:M)); KS (SetP _ _ _ _ (Some 1%:M));
      KZ _ _ (ZSetState 0 Z0)] ++ [seq KZ _ _ (ZPushMeas y) | y <- ys] ++ [seq KZ _ _ (ZPushInput u) | u <- us].
Definition with_inputs_state (R : rcfType) (ys us : seq 'cV[R]_1) : zdo 'cV[R]_1 'cV[R]_1 'cV[R]_1 (kfe R 1 1 1 1 1) :=
  mkZ (Zpos xH) (Zpos xH) (Zpos xH) (im_put 0 Z0) (mkIarr (Zpos xH) ys) (mkIarr Z0 us)
    (mkK (Some 1%:M) (Some 1%:M) (Some 1%:M) (Some 1%:M) (Some 1%:M) None None im_empty im_empty None None).

(** The hypotheses of the two theorems hold, and the estimate is found: a filter reached by calls, two measurements, different inputs. *)
Example C162_case (R : rcfType) (f : 'cV[R]_1 -> 'cV[R]_1 -> Z -> 'cV[R]_1) :
  let h := fun (x u : 'cV[R]_1) (_ : Z) => x in
  let st := flagged_step f h (@vsum R 1) (@vdiff R 1) (mkFl false false) in
  let s1 := with_inputs_state [:: 1; 2%:R] [:: 0; 3%:R] in let s2 := with_inputs_state [:: 1; 2%:R] [:: 5%:R; 7%:R; 1] in
  k_run (ekf_predict f h false false) (@vsum R 1) (@vdiff R 1) Debug (with_inputs [:: 1; 2%:R] [:: 0; 3%:R]) (lkf_init R 1 1 1) = Ok s1 /\
  k_run (ekf_predict f h false false) (@vsum R 1) (@vdiff R 1) Debug (with_inputs [:: 1; 2%:R] [:: 5%:R; 7%:R; 1]) (lkf_init R 1 1 1) = Ok s2 /\
  covered st Z0 (Zpos (xO xH)) s1 /\ covered st Z0 (Zpos (xO xH)) s2 /\
  exists r, z_getEstimatedState (local_step st) Debug (Zpos (xO xH)) s1 = Ok r.
Proof.
move=> h st s1 s2; split; first by []; split; first by [].
have C1 : covered st Z0 (Zpos (xO xH)) s1 by split; [|split; [|right; split; [|left]]].
have C2 : covered st Z0 (Zpos (xO xH)) s2 by split; [|split; [|right; split; [|left]]].
split=> //; split=> //.
have [K [E _ _ pPb]] := @k_cov_spec R 1 1 1%:M 1%:M 1%:M 1%:M 1%:M (pd_psd (pd1 R 1)) (pd1 R 1) (pd_psd (pd1 R 1)).
have pP : psd (joseph 1%:M 1%:M (k_pbar 1%:M 1%:M 1%:M) K) by exact: joseph_psd pPb (pd_psd (pd1 R 1)).
have [K2 [E2 _ _ _]] := @k_cov_spec R 1 1 1%:M 1%:M 1%:M 1%:M _ (pd_psd (pd1 R 1)) (pd1 R 1) pP.
rewrite (getEstimatedState_spec _ Debug s1 Z0 (Zpos (xO xH)) 0 erefl erefl C1) /= /st /flagged_step /kf_step /= E /= E2 /=.
by eexists.
Qed.

(** C162 is false when the sensor model looks at its input: switching the output feedthrough off only removes the check that the input
    of the measurement's time was given. The estimate at time 1, with the input 0 at time 0, depends on whether an input was already
    given at time 1. *)
Theorem C162_inputs_refuted : forall R : rcfType, exists f h (y u : 'cV[R]_1) s1 s2 x1 x2,
  let run := k_run (ekf_predict f h false false) (@vsum R 1) (@vdiff R 1) Debug in
  let st := flagged_step f h (@vsum R 1) (@vdiff R 1) (mkFl false false) in
  run (with_inputs [:: y] [:: 0]) (lkf_init R 1 1 1) = Ok s1 /\
  run (with_inputs [:: y] [:: 0; u]) (lkf_init R 1 1 1) = Ok s2 /\
  omap snd (z_getEstimatedState (local_step st) Debug (Zpos xH) s1) = Ok x1 /\
  omap snd (z_getEstimatedState (local_step st) Debug (Zpos xH) s2) = Ok x2 /\ x1 <> x2.
Proof.
move=> R; have [K [E EK _ _]] := @k_cov_spec R 1 1 1%:M 1%:M 1%:M 1%:M 1%:M (pd_psd (pd1 R 1)) (pd1 R 1) (pd_psd (pd1 R 1)).
pose f := fun (_ _ : 'cV[R]_1) (_ : Z) => 0 : 'cV[R]_1; pose h := fun (_ u : 'cV[R]_1) (_ : Z) => u.
exists f, h, 1, 1, (with_inputs_state [:: 1] [:: 0]), (with_inputs_state [:: 1] [:: 0; 1]), K, 0 => run st.
split; first by []; split; first by [].
have C1 : covered st Z0 (Zpos xH) (with_inputs_state [:: 1] [:: 0]) by split; [|split; [|right; split; [|left]]].
have C2 : covered st Z0 (Zpos xH) (with_inputs_state [:: 1] [:: 0; 1]) by split; [|split; [|right; split; [|left]]].
rewrite (getEstimatedState_spec _ Debug (with_inputs_state [:: 1] [:: 0]) Z0 (Zpos xH) 0 erefl erefl C1).
rewrite (getEstimatedState_spec _ Debug (with_inputs_state [:: 1] [:: 0; 1]) Z0 (Zpos xH) 0 erefl erefl C2).
rewrite /= /st /flagged_step /kf_step /= E /= /vsum /vdiff /h subr0 subrr mulmx1 mulmx0 add0r addr0; split=> //; split=> // K0.
move: EK; rewrite K0 mul0mx /k_pbar !(mul1mx, mulmx1, trmx1) => /matrixP /(_ ord0 ord0); rewrite !mxE /= => /eqP.
by rewrite eq_sym -mulr2n pnatr_eq0.
Qed.

Print Assumptions C162_flags.
Print Assumptions C162_inputs_have_no_effect.
Print Assumptions C162_state_input_not_used.
Print Assumptions C162_case.
Print Assumptions C162_inputs_refuted.
