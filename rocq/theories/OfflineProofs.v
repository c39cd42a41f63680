(** The offline reconstructions follow the reference filter. *)
From Coq Require Import ZArith List Lia.
From mathcomp Require Import all_ssreflect all_algebra.
From Verif Require Import Base Defs ZDO MxLib Cholesky Kalman KFilter KFProofs EKFProofs EKFDemo EKFJac Offline.
Set Implicit Arguments.
Unset Strict Implicit.
Unset Printing Implicit Defensive.
Import Order.TTheory GRing.Theory Num.Theory.
Open Scope ring_scope.

Lemma append_at {T} md k0 (l : list T) v j : length l = j.+1 ->
  ia_setValue md v (Z.add k0 (Z.of_nat j.+1)) (mkIarr k0 l) = Ok (mkIarr k0 (l ++ [:: v])%list).
Proof.
move=> L; rewrite /ia_setValue /ia_checkIndex /ia_size /=.
have -> : Z.ltb (Z.add k0 (Z.of_nat j.+1)) (Z.add k0 (Z.of_nat (length l))) = false.
  by apply/Z.ltb_nlt; rewrite L; lia.
rewrite andbF L Z.eqb_refl orbT.
have -> : boost_assert md true = Ok tt by case: md.
by have -> : Z.eqb (Z.of_nat j.+1) 0 = false by apply/Z.eqb_neq; lia.
Qed.

Section Pf.
Variable R : rcfType.
Variables (n nt m p : nat).
Notation X := 'cV[R]_n.
Notation Y := 'cV[R]_m.
Notation U := 'cV[R]_p.
Notation kfe := (kfe R n nt m m p).
Notation kf := (zdo X Y U kfe).
Variable f : X -> U -> Z -> X.
Variable h : X -> U -> Z -> Y.
Variable ssum : X -> 'cV[R]_nt -> X.
Variable sdiff : X -> X -> 'cV[R]_nt.
Variable mdiff : Y -> Y -> 'cV[R]_m.
Hypothesis p0 : (0 < p)%N.

(** The state of the filter at the time k, before a measurement is given. *)
Definition at_time (k : Z) (x : X) (ky : Z) (ys : seq Y) (us : seq U) (e : kfe) : kf :=
  mkZ (Z.of_nat n) (Z.of_nat m) (Z.of_nat p) (im_put x k) (mkIarr ky ys) (mkIarr k us) e.

(** What the update of the Jacobians must do: the matrices of the reference and predictions that
    are those of the model. *)
Definition good_jac (jac : jacfun R n nt m p) (JA : X -> U -> Z -> 'M[R]_nt)
    (JC : X -> U -> Z -> 'M[R]_(m, nt)) : Prop :=
  forall md k x ky ys u us e, cached_upto e k -> (size us <= 1)%N ->
  exists xy, [/\ jac md x (at_time k x ky ys (u :: us) e) =
    Ok (at_time k x ky ys (u :: us) (k_with_pred e xy), JA x u k, JC (f x u k) (head 0 us) (nxt k)) &
    forall e' : kfe, kxbar e' = xy.1 -> kybar e' = xy.2 ->
      off_predict f h md e' k x (Ok u) (ia_get md (mkIarr k (u :: us)) (nxt k)) =
      Ok (im_put (f x u k) (nxt k), im_put (h (f x u k) (head 0 us) (nxt k)) (nxt k))].

Lemma ia_get_head {T} md k (v : T) l : ia_get md (mkIarr k (v :: l)) k = Ok v.
Proof.
rewrite /ia_get /ia_checkIndex /ia_at /ia_size /= Z.leb_refl Z.sub_diag /=.
have -> : Z.ltb k (Z.add k (Z.pos (Pos.of_succ_nat (length l)))) = true by apply/Z.ltb_lt; lia.
by case: md.
Qed.

Lemma ia_get_snd {T} md k (v w : T) l : ia_get md (mkIarr k (v :: w :: l)) (nxt k) = Ok w.
Proof.
rewrite /ia_get /ia_checkIndex /ia_at /ia_size /=.
have -> : Z.leb k (nxt k) = true by apply/Z.leb_le; lia.
have -> : Z.ltb (nxt k) (Z.add k (Z.pos (Pos.succ (Pos.of_succ_nat (length l))))) = true by apply/Z.ltb_lt; lia.
have -> : Z.to_nat (Z.sub (nxt k) k) = 1%N by lia.
by case: md.
Qed.

Lemma ia_get_out {T} md k (v : T) : is_ok (ia_get md (mkIarr k [:: v]) (nxt k)) = false.
Proof.
rewrite /ia_get /ia_checkIndex /ia_at /ia_size /=.
have -> : Z.ltb (nxt k) (nxt k) = false by apply/Z.ltb_nlt; lia.
rewrite andbF; case: md => //=.
have -> : Z.leb k (nxt k) = true by apply/Z.leb_le; lia.
by have -> : Z.to_nat (Z.sub (nxt k) k) = 1%N by lia.
Qed.

(** The input read at k+1: 0 when there is none. *)
Lemma u1_value md k u us : (size us <= 1)%N ->
  (match ia_get md (mkIarr k (u :: us)) (nxt k) with Ok v => v | _ => 0 end) = head (0 : U) us.
Proof.
case: us => [|w us] _ /=; last by rewrite ia_get_snd.
by have := ia_get_out md k u; case: (ia_get _ _ _).
Qed.

Lemma cached_missx e k : cached_upto e k -> im_set (kxbar (e : kfe)) && Z.eqb (im_k (kxbar e)) (nxt k) = false.
Proof. case=> Hx _; case Es : (im_set _) => //=; have := Hx Es => H; apply/Z.eqb_neq; lia. Qed.
Lemma cached_missy e k : cached_upto e k -> im_set (kybar (e : kfe)) && Z.eqb (im_k (kybar e)) (nxt k) = false.
Proof. case=> _ Hy; case Es : (im_set _) => //=; have := Hy Es => H; apply/Z.eqb_neq; lia. Qed.

Lemma statepred_fresh md e k x u us : cached_upto e k ->
  ekf_statepred f true (e : kfe) k x (ia_get md (mkIarr k (u :: us)) k) = Ok (im_put (f x u k) (nxt k)).
Proof. by move=> H; rewrite /ekf_statepred (cached_missx H) p0 ia_get_head. Qed.

Lemma sensor_value md x k u us : (size us <= 1)%N ->
  ekf_sensor h false md x (nxt k) (ia_get md (mkIarr k (u :: us)) (nxt k)) = Ok (h x (head 0 us) (nxt k)).
Proof.
by move=> S; rewrite /ekf_sensor p0; case: md => /=; rewrite (u1_value _ _ _ S).
Qed.

Lemma predict_hitx md (e : kfe) k x u us : (size us <= 1)%N ->
  kxbar e = im_put (f x u k) (nxt k) ->
  im_set (kybar e) && Z.eqb (im_k (kybar e)) (nxt k) = false ->
  off_predict f h md e k x (Ok u) (ia_get md (mkIarr k (u :: us)) (nxt k)) =
  Ok (im_put (f x u k) (nxt k), im_put (h (f x u k) (head 0 us) (nxt k)) (nxt k)).
Proof.
move=> S Ex Ey; rewrite /off_predict /ekf_predict Ex /= Z.eqb_refl /= Ey.
by case: md => /=; rewrite sensor_value.
Qed.

Lemma predict_hit md (e : kfe) k x u v xb yb :
  kxbar e = im_put xb (nxt k) -> kybar e = im_put yb (nxt k) ->
  off_predict f h md e k x u v = Ok (im_put xb (nxt k), im_put yb (nxt k)).
Proof. by move=> Ex Ey; rewrite /off_predict /ekf_predict Ex Ey /= Z.eqb_refl. Qed.

Lemma good_analytic fA fC :
  good_jac (jac_analytic f fA fC) (fun x _ _ => fA x) (fun x _ _ => fC x).
Proof.
move=> md k x ky ys u us e Ce S.
exists (im_put (f x u k) (nxt k), kybar e); split.
  rewrite /jac_analytic /at_time /z_time /im_time /=.
  case: md => /=; rewrite statepred_fresh //= /k_with_xbar; by case: e Ce => *.
move=> e' Ex Ey; apply: predict_hitx => //; by rewrite Ey cached_missy.
Qed.

Lemma good_fd dx : good_jac (jac_fd f h ssum sdiff dx) (fd_A f ssum sdiff dx) (fd_C h ssum dx).
Proof.
move=> md k x ky ys u us e Ce S.
exists (im_put (f x u k) (nxt k), im_put (h (f x u k) (head 0 us) (nxt k)) (nxt k)); split; last first.
  by move=> e' Ex Ey; apply: predict_hit.
have T0 : forall e0 : kfe, z_time md (at_time k x ky ys (u :: us) e0) = Ok k by case: (md).
have X0 : forall e0 : kfe, im_get md (z_x (at_time k x ky ys (u :: us) e0)) = Ok x by case: (md).
have Xb : forall (v : X) t, im_get md (im_put v t) = Ok v by case: (md).
have Yb : forall (v : Y) t, im_get md (im_put v t) = Ok v by case: (md).
have U0 : forall e0 : kfe, z_u (at_time k x ky ys (u :: us) e0) = mkIarr k (u :: us) by [].
have W0 : forall e0 e1 : kfe, with_e (at_time k x ky ys (u :: us) e0) e1 = at_time k x ky ys (u :: us) e1 by [].
have E0 : forall e0 : kfe, z_e (at_time k x ky ys (u :: us) e0) = e0 by [].
have E1 : off_predict f h md (k_with_xbar e (im_put (f x u k) (nxt k))) k x (Ok u)
  (ia_get md (mkIarr k (u :: us)) (nxt k)) =
  Ok (im_put (f x u k) (nxt k), im_put (h (f x u k) (head 0 us) (nxt k)) (nxt k)).
  apply: predict_hitx => //; first by case: (e).
  by have := cached_missy Ce; case: (e).
rewrite /off_predict in E1.
rewrite /jac_fd /ekf_getA T0 obO X0 obO U0 E0 statepred_fresh // obO Xb obO p0 /andb ia_get_head obO W0 obO.
rewrite [fst _]/= /ekf_getC T0 obO X0 obO U0 E0 ia_get_head E1 obO [fst _]/= [snd _]/= Xb obO Yb obO p0 /andb.
have -> : (if (0 < nt)%N then boost_assert md (~~ false || is_ok (ia_get md (mkIarr k (u :: us)) (nxt k))) else Ok tt) = Ok tt.
  by case: (0 < nt)%N; case: (md).
rewrite obO u1_value // obO W0; congr Ok; congr pair; first congr pair.
- by case: (e).
Qed.

(** *** The calls of one iteration *)
Lemma call_meas md k x ky (y : Y) us e :
  z_setMeasurement (@sym_ R m) md y (nxt k) (at_time k x ky [::] us e) = Ok (at_time k x (nxt k) [:: y] us e).
Proof.
rewrite /z_setMeasurement /at_time /sym_ /= Z.eqb_refl.
have -> : Z.eqb k (Z.sub (nxt k) 1) = true by apply/Z.eqb_eq; lia.
by case: md.
Qed.

Lemma call_input md k x ky ys (u u' : U) e :
  z_setInput (@sup R p) md u' (nxt k) (at_time k x ky ys [:: u] e) = Ok (at_time k x ky ys [:: u; u'] e).
Proof.
rewrite /z_setInput /at_time /sup /=.
have -> : Z.ltb 0 (Z.of_nat p) = true by apply/Z.ltb_lt; case: (p) p0 => // q _; lia.
rewrite Z.eqb_refl /ia_next /ia_size /= Z.eqb_refl /ia_setValue /ia_checkIndex /ia_size /=.
have -> : Z.ltb (nxt k) (nxt k) = false by apply/Z.ltb_nlt; lia.
by rewrite andbF Z.eqb_refl; case: md.
Qed.

Lemma call_state md k x xk y us e : (size us <= 1)%N ->
  z_setState (@sxn R n) md xk (nxt k) (at_time (nxt k) x (nxt k) [:: y] us e) =
  Ok (at_time (nxt k) xk (nxt (nxt k)) [::] us e).
Proof.
move=> S; rewrite /z_setState /at_time /sxn /= Z.eqb_refl.
have -> : Z.ltb 0 (Z.of_nat p) = true by apply/Z.ltb_lt; case: (p) p0 => // q _; lia.
case: md => /=; rewrite ?Z.ltb_irrefl /=;
 (have -> : Z.ltb (nxt k) (nxt (nxt k)) = true by apply/Z.ltb_lt; lia);
 by case: us S => [|w [|]] //= _; rewrite Z.ltb_irrefl.
Qed.

Variables (Q : 'M[R]_nt) (Rm : 'M[R]_m).
Hypothesis pQ : psd Q.
Hypothesis pR : pd Rm.

Definition setup (e : kfe) (P : 'M[R]_nt) : Prop := [/\ kQ e = Some Q, kR e = Some Rm & kP e = Some P].

Lemma kcov_ref A C P : psd P ->
  let Pb := A *m P *m A^T + Q in
  let K := Pb *m C^T *m invmx (C *m Pb *m C^T + Rm) in
  k_cov A C Q Rm P = Some (K, (1%:M - K *m C) *m Pb) /\ psd ((1%:M - K *m C) *m Pb).
Proof.
move=> pP Pb K.
have EPb : k_pbar A Q P = Pb by rewrite /k_pbar /Pb addrC mulmxA.
have ES : k_inoCov C Rm Pb = C *m Pb *m C^T + Rm by rewrite /k_inoCov addrC mulmxA.
have pPb : psd Pb by rewrite -EPb; apply: k_pbar_psd.
have pS : pd (k_inoCov C Rm Pb) := k_inoCov_pd C pR pPb.
have EK : k_gain C Pb (invmx (k_inoCov C Rm Pb)) = K by rewrite /k_gain ES mulmxA.
have [KS _] := k_gain_eq pS.
rewrite EK in KS.
have EU : k_covUpdate C K Pb = (1%:M - K *m C) *m Pb by rewrite /k_covUpdate mulNmx addrC.
have PJ : psd (k_covUpdate C K Pb).
  by rewrite (covUpdate_joseph pPb.1 pR.1 KS); apply: joseph_psd => //; apply: pd_psd.
rewrite -EU; split=> //.
by rewrite /k_cov EPb chol_inverse_pd // EK k_symmetrize_id //; case: PJ.
Qed.

Lemma call_est md k x y u us (e : kfe) A C P xy : (size us <= 1)%N -> setup e P -> psd P ->
  kA e = Some A -> kC e = Some C ->
  off_predict f h md e k x (Ok u) (ia_get md (mkIarr k (u :: us)) (nxt k)) =
      Ok (im_put (f x u k) (nxt k), im_put xy (nxt k)) ->
  let Pb := A *m P *m A^T + Q in
  let K := Pb *m C^T *m invmx (C *m Pb *m C^T + Rm) in
  exists e', [/\ z_getEstimatedState (local_step (off_step f h ssum mdiff)) md (nxt k)
       (at_time k x (nxt k) [:: y] (u :: us) e) =
     Ok (at_time (nxt k) (ssum (f x u k) (K *m mdiff y xy)) (nxt k) [:: y] us e',
         ssum (f x u k) (K *m mdiff y xy)),
    setup e' ((1%:M - K *m C) *m Pb) & cached_upto e' (nxt k)].
Proof.
move=> S [EQ ER EP] pP EA EC Ep Pb K.
have [Ek _] := kcov_ref A C pP; rewrite -/Pb -/K in Ek.
exists (k_with_res (k_with_pred e (im_put (f x u k) (nxt k), im_put xy (nxt k)))
  ((1%:M - K *m C) *m Pb) (K *m mdiff y xy) K).
split; last by case: (e) => *; split=> _ /=; lia.
  2: by case: (e) EQ ER => /= *.
have Y1 : ia_get md (mkIarr (nxt k) [:: y]) (nxt k) = Ok y by rewrite ia_get_head.
have L : local_step (off_step f h ssum mdiff) md (at_time k x (nxt k) [:: y] (u :: us) e) =
  Ok (mkZ (Z.of_nat n) (Z.of_nat m) (Z.of_nat p) (im_put (ssum (f x u k) (K *m mdiff y xy)) (nxt k))
     (mkIarr (nxt k) [:: y]) (mkIarr k (u :: us))
     (k_with_res (k_with_pred e (im_put (f x u k) (nxt k), im_put xy (nxt k)))
        ((1%:M - K *m C) *m Pb) (K *m mdiff y xy) K)).
  rewrite /local_step.
  have -> : z_time md (at_time k x (nxt k) [:: y] (u :: us) e) = Ok k by case: (md).
  have -> : im_get md (z_x (at_time k x (nxt k) [:: y] (u :: us) e)) = Ok x by case: (md).
  rewrite !obO /at_time /off_step /kf_step.
  have -> : z_y (mkZ (Z.of_nat n) (Z.of_nat m) (Z.of_nat p) (im_put x k) (mkIarr (nxt k) [:: y]) (mkIarr k (u :: us)) e) = mkIarr (nxt k) [:: y] by [].
  have -> : z_u (mkZ (Z.of_nat n) (Z.of_nat m) (Z.of_nat p) (im_put x k) (mkIarr (nxt k) [:: y]) (mkIarr k (u :: us)) e) = mkIarr k (u :: us) by [].
  have -> : z_e (mkZ (Z.of_nat n) (Z.of_nat m) (Z.of_nat p) (im_put x k) (mkIarr (nxt k) [:: y]) (mkIarr k (u :: us)) e) = e by [].
  rewrite Y1 ia_get_head EA EC EQ ER EP.
  have -> : boost_assert md (is_ok (Ok y)) = Ok tt by case: (md).
  rewrite /need !obO Ep obO [fst _]/= [snd _]/=.
  have -> : forall A (v : A) t, im_get md (im_put v t) = Ok v by case: (md).
  rewrite obO.
  have -> : forall A (v : A) t, im_get md (im_put v t) = Ok v by case: (md).
  by rewrite !obO Ek.
rewrite /z_getEstimatedState.
have -> : boost_assert md (im_set (z_x (at_time k x (nxt k) [:: y] (u :: us) e))) = Ok tt by case: (md).
have -> : z_time md (at_time k x (nxt k) [:: y] (u :: us) e) = Ok k by case: (md).
rewrite !obO.
have -> : Z.leb k (nxt k) = true by apply/Z.leb_le; lia.
have -> : boost_assert md true = Ok tt by case: (md).
rewrite obO.
have -> : Z.to_nat (Z.sub (nxt k) k) = 1%N by lia.
rewrite /oiter /z_iter L obO /ia_first.
rewrite [Z.ltb (ia_k (z_y _)) _]/= Z.ltb_irrefl obO [z_p _]/=.
have -> : Z.ltb 0 (Z.of_nat p) = true by apply/Z.ltb_lt; case: (p) p0 => // q _; lia.
rewrite [ia_k (z_u _)]/=.
have -> : Z.ltb k (nxt k) = true by apply/Z.ltb_lt; lia.
by case: (md).
Qed.

(** *** The loop *)
Variable jac : jacfun R n nt m p.
Variable JA : X -> U -> Z -> 'M[R]_nt.
Variable JC : X -> U -> Z -> 'M[R]_(m, nt).
Variable reg : X -> X.
Hypothesis gj : good_jac jac JA JC.

Lemma setup_matrices e P xy A C : setup e P ->
  setup (k_set (SetC _ _ _ (Some C)) (k_set (SetA _ _ _ _ (Some A)) (k_with_pred e xy))) P.
Proof. by case: e => *. Qed.

Section Run.
Variables (md : mode) (y : iarr Y) (u : iarr U) (yin : Z -> Y) (uin : Z -> U) (xP0 : X * 'M[R]_nt).
Let N := length (ia_v y).
Let k0 := Z.sub (ia_first y) 1.
Hypothesis Hy : forall t, Z.le (ia_first y) t -> Z.le t (ia_last y) -> ia_get md y t = Ok (yin t).
Hypothesis Hu : forall t, Z.le k0 t -> Z.lt t (ia_last y) -> ia_get md u t = Ok (uin t).
Let uu t := if Z.ltb t (ia_last y) then uin t else 0.
Let rt := ref_traj f h ssum mdiff JA JC reg Q Rm yin uu k0 xP0.

Lemma ref_psd j : psd xP0.2 -> psd (rt j).2.
Proof.
move=> P0; elim: j => [//|j IH]; rewrite /rt /= -/rt.
by rewrite /ref_step; case: (rt j) IH => x P /= IH; have [] := kcov_ref (JA x (uu (Z.add k0 (Z.of_nat j))) (Z.add k0 (Z.of_nat j)))
  (JC (f x (uu (Z.add k0 (Z.of_nat j))) (Z.add k0 (Z.of_nat j))) (uu (nxt (Z.add k0 (Z.of_nat j)))) (nxt (Z.add k0 (Z.of_nat j)))) IH.
Qed.

Lemma off_loop_ref c j ky us e : (c + j)%N = N -> psd xP0.2 -> setup e (rt j).2 ->
  cached_upto e (Z.add k0 (Z.of_nat j)) -> ((0 < c)%N -> us = [:: uu (Z.add k0 (Z.of_nat j))]) ->
  off_loop f h ssum mdiff jac reg md y u c (nxt (Z.add k0 (Z.of_nat j))) (rt j).1
    (at_time (Z.add k0 (Z.of_nat j)) (rt j).1 ky [::] us e)
    (mkIarr k0 (List.map (fun i => (rt i).1) (List.seq 0 j.+1))) =
  Ok (mkIarr k0 (List.map (fun i => (rt i).1) (List.seq 0 N.+1))).
Proof.
elim: c j ky us e => [|c IH] j ky us e EN P0 Se Ce Hus.
  by rewrite add0n in EN; rewrite /= -EN.
rewrite (Hus isT) {us Hus}.
set k := Z.add k0 (Z.of_nat j) in Ce *.
have El : ia_last y = Z.add k0 (Z.of_nat N) by rewrite /ia_last /ia_size -/N /k0 /ia_first; lia.
have Lk : Z.le (nxt k) (ia_last y) by rewrite El /k; move: EN; rewrite addSn => <-; lia.
have Fk : Z.le (ia_first y) (nxt k) by rewrite /k /k0; lia.
have E1 : nxt k = Z.add k0 (Z.of_nat j.+1) by rewrite /k; lia.
set xh := List.map _ _.
rewrite [off_loop _ _ _ _ _ _ _ _ _ _ _ _ _ _]/= Hy // obO call_meas obO.
set us := if Z.ltb (nxt k) (ia_last y) then [:: uu (nxt k)] else [::] : seq U.
have -> : (if Z.ltb (nxt k) (ia_last y) then do ui <- ia_get md u (nxt k);
      z_setInput (@sup R p) md ui (nxt k) (at_time k (rt j).1 (nxt k) [:: yin (nxt k)] [:: uu k] e)
    else Ok (at_time k (rt j).1 (nxt k) [:: yin (nxt k)] [:: uu k] e)) =
  Ok (at_time k (rt j).1 (nxt k) [:: yin (nxt k)] (uu k :: us) e).
  rewrite /us /uu; case Ei : (Z.ltb (nxt k) (ia_last y)) => //.
  rewrite Hu ?obO ?call_input //; last by apply/Z.ltb_lt.
  by rewrite /k; lia.
have Sus : (size us <= 1)%N by rewrite /us; case: (Z.ltb _ _).
have Hh : head 0 us = uu (nxt k) by rewrite /us /uu; case: (Z.ltb _ _).
rewrite obO; have [xy [-> Hp]] := gj md (rt j).1 (nxt k) [:: yin (nxt k)] (uu k) Ce Sus.
rewrite obO [fst (fst _)]/= [snd _]/= [z_e _]/=.
set A := JA _ _ _; set C := JC _ _ _.
set e1 := k_set _ _.
have S1 : setup e1 (rt j).2 by apply: setup_matrices.
have KA : kA e1 = Some A by rewrite /e1; case: (e).
have KC : kC e1 = Some C by rewrite /e1; case: (e).
have pP := ref_psd j P0.
have Hp1 : off_predict f h md e1 k (rt j).1 (Ok (uu k)) (ia_get md (mkIarr k (uu k :: us)) (nxt k)) =
  Ok (im_put (f (rt j).1 (uu k) k) (nxt k), im_put (h (f (rt j).1 (uu k) k) (head 0 us) (nxt k)) (nxt k)).
  by apply: Hp; rewrite /e1; case: (e).
have [e2 [Ee S2 C2]] := call_est (yin (nxt k)) Sus S1 pP KA KC Hp1.
have -> : with_e (at_time k (rt j).1 (nxt k) [:: yin (nxt k)] (uu k :: us) (k_with_pred e xy)) e1 =
  at_time k (rt j).1 (nxt k) [:: yin (nxt k)] (uu k :: us) e1 by [].
rewrite Ee obO [snd _]/= [fst _]/= call_state // obO.
have Er : rt j.+1 = ref_step f h ssum mdiff JA JC reg Q Rm k (uu k) (uu (nxt k)) (yin (nxt k)) (rt j) by [].
have Ex : (rt j.+1).1 = reg (ssum (f (rt j).1 (uu k) k)
   ((A *m (rt j).2 *m A^T + Q) *m C^T *m invmx (C *m (A *m (rt j).2 *m A^T + Q) *m C^T + Rm) *m
      mdiff (yin (nxt k)) (h (f (rt j).1 (uu k) k) (head 0 us) (nxt k)))).
  by rewrite Er /ref_step /A /C Hh; case: (rt j).
have EP : (rt j.+1).2 = (1%:M - (A *m (rt j).2 *m A^T + Q) *m C^T *m invmx (C *m (A *m (rt j).2 *m A^T + Q) *m C^T + Rm) *m C)
   *m (A *m (rt j).2 *m A^T + Q).
  by rewrite Er /ref_step /A /C Hh; case: (rt j).
rewrite -Ex E1 append_at; last by rewrite /xh List.map_length List.seq_length.
rewrite obO.
have -> : (xh ++ [:: (rt j.+1).1])%list =
  List.map (fun i => (rt i).1) (List.seq 0 j.+2).
  by rewrite (List.seq_S j.+1) List.map_app /xh.
apply: IH => //.
- by rewrite addnS -addSn.
- by rewrite EP.
- by rewrite -E1.
move=> c0; rewrite -E1 /us.
have -> // : Z.ltb (nxt k) (ia_last y) = true.
apply/Z.ltb_lt; rewrite El /k; move: EN; rewrite addSn => <-; case: c c0 => // c _; lia.
Qed.

Lemma off_rec_ref : psd xP0.2 -> ia_get md u k0 = Ok (uin k0) ->
  off_rec f h ssum mdiff jac reg md y u xP0.1 xP0.2 Q Rm =
  Ok (mkIarr k0 (List.map (fun i => (rt i).1) (List.seq 0 N.+1))).
Proof.
move=> P0 U0; rewrite /off_rec.
have Ep : Z.ltb 0 (Z.of_nat p) = true by apply/Z.ltb_lt; case: (p) p0 => // q _; lia.
have -> : z_setState (@sxn R n) md xP0.1 (Z.sub (ia_first y) 1) (kf_init R n nt m m p) =
  Ok (mkZ (Z.of_nat n) (Z.of_nat m) (Z.of_nat p) (im_put xP0.1 k0) (mkIarr 0 [::]) (mkIarr 0 [::]) (k_init R n nt m m p)).
  rewrite /z_setState /sxn /= Z.eqb_refl.
  by case: (md) => /=; rewrite Z.ltb_irrefl /= Ep.
rewrite obO -/k0 U0 obO.
have -> : forall e : kfe, z_setInput (@sup R p) md (uin k0) k0 (with_e (mkZ (Z.of_nat n) (Z.of_nat m) (Z.of_nat p) (im_put xP0.1 k0)
   (mkIarr 0 [::]) (mkIarr 0 [::]) (k_init R n nt m m p)) e) = Ok (at_time k0 xP0.1 0 [::] [:: uin k0] e).
  by move=> e; rewrite /z_setInput /sup /= Ep Z.eqb_refl Z.eqb_refl /=; case: (md).
rewrite obO.
have -> : ia_setValue md xP0.1 k0 ia_empty = Ok (mkIarr k0 [:: xP0.1]) by case: (md).
rewrite obO.
have Z0 : Z.add k0 (Z.of_nat 0) = k0 by lia.
have -> : ia_first y = nxt (Z.add k0 (Z.of_nat 0)) by rewrite /k0; lia.
have L := @off_loop_ref N 0 0.
rewrite Z0 in L *; apply: L => //; first by rewrite addn0.
move=> N0; congr cons; rewrite /uu.
have -> // : Z.ltb k0 (ia_last y) = true.
by apply/Z.ltb_lt; rewrite /ia_last /ia_size -/N /k0 /ia_first; case: (N) N0 => // q _; lia.
Qed.
End Run.
End Pf.

(** The array of zeros. *)
Lemma zero_inputs_run (R : rcfType) p md c k (l : list 'cV[R]_p) : (0 < size l)%N ->
  zero_inputs md c (Z.add k (Z.of_nat (size l))) (mkIarr k l) = Ok (mkIarr k (l ++ List.repeat 0 c)%list).
Proof.
elim: c l => [|c IH] l L /=; first by rewrite List.app_nil_r.
case El : (size l) L => [//|j] _; rewrite (@append_at _ md k l 0 j) // obO.
have -> : nxt (Z.add k (Z.of_nat j.+1)) = Z.add k (Z.of_nat (size (l ++ [:: 0 : 'cV[R]_p])%list)).
  have -> : size (l ++ [:: 0 : 'cV[R]_p])%list = length (l ++ [:: 0 : 'cV[R]_p])%list by [].
  by rewrite List.app_length (_ : length l = j.+1) /=; [lia | exact: El].
rewrite IH; first by rewrite -List.app_assoc.
have -> : size (l ++ [:: 0 : 'cV[R]_p])%list = length (l ++ [:: 0 : 'cV[R]_p])%list by [].
by rewrite List.app_length; case: (length l).
Qed.

Lemma zero_inputs_all (R : rcfType) p md c k :
  zero_inputs md c.+1 k ia_empty = Ok (mkIarr k (List.repeat (0 : 'cV[R]_p) c.+1)).
Proof.
have E : ia_setValue md (0 : 'cV[R]_p) k ia_empty = Ok (mkIarr k [:: 0]) by case: md.
have -> : zero_inputs md c.+1 k ia_empty = (do u <- ia_setValue md 0 k ia_empty; zero_inputs md c (nxt k) u) :> outcome (iarr 'cV[R]_p) by [].
rewrite E obO.
have -> : nxt k = Z.add k (Z.of_nat (size [:: 0 : 'cV[R]_p])) by [].
by rewrite zero_inputs_run.
Qed.

(** *** Consequences on the reference *)
Section Ref.
Variable R : rcfType.
Variables (n nt m p : nat).
Notation X := 'cV[R]_n.
Notation Y := 'cV[R]_m.
Notation U := 'cV[R]_p.
Variable f : X -> U -> Z -> X.
Variable h : X -> U -> Z -> Y.
Variable ssum : X -> 'cV[R]_nt -> X.
Variable sdiff : X -> X -> 'cV[R]_nt.
Variable mdiff : Y -> Y -> 'cV[R]_m.
Variable JA : X -> U -> Z -> 'M[R]_nt.
Variable JC : X -> U -> Z -> 'M[R]_(m, nt).
Variable reg : X -> X.
Notation rt := (ref_traj f h ssum mdiff JA JC reg).
Notation at_ k0 j := (Z.add k0 (Z.of_nat j)).

Lemma ref_perfect Q Rm yin uin k0 (tr : Z -> X) P N :
  (forall x, ssum x 0 = x) -> (forall y, mdiff y y = 0) -> (forall t, reg (tr t) = tr t) ->
  (forall j, (j < N)%N -> tr (nxt (at_ k0 j)) = f (tr (at_ k0 j)) (uin (at_ k0 j)) (at_ k0 j)) ->
  (forall j, (j < N)%N -> yin (nxt (at_ k0 j)) = h (tr (nxt (at_ k0 j))) (uin (nxt (at_ k0 j))) (nxt (at_ k0 j))) ->
  forall j, (j <= N)%N -> (rt Q Rm yin uin k0 (tr k0, P) j).1 = tr (at_ k0 j).
Proof.
move=> s0 d0 r0 Hf Hy; elim=> [|j IH] Hj; first by rewrite /=; congr tr; lia.
have {IH} := IH (ltnW Hj); rewrite /=; case: (rt _ _ _ _ _ _ j) => x P' /= ->.
rewrite -Hf // Hy // d0 mulmx0 s0 r0; congr tr; lia.
Qed.

Lemma ref_causal Q Rm yin yin' uin uin' k0 xP j :
  (forall x u u' k, h x u k = h x u' k) -> (forall x u u' k, JC x u k = JC x u' k) ->
  (forall i, (i < j)%N -> yin (nxt (at_ k0 i)) = yin' (nxt (at_ k0 i))) ->
  (forall i, (i < j)%N -> uin (at_ k0 i) = uin' (at_ k0 i)) ->
  rt Q Rm yin uin k0 xP j = rt Q Rm yin' uin' k0 xP j.
Proof.
move=> Hh HC; elim: j => [//|j IH] Hy Hu /=.
have -> : rt Q Rm yin uin k0 xP j = rt Q Rm yin' uin' k0 xP j.
  by apply: IH => i Hi; [apply: Hy|apply: Hu]; apply: leq_trans Hi _.
rewrite Hy // Hu // /ref_step; case: (rt _ _ _ _ _ _ j) => x P.
by rewrite (Hh _ (uin (nxt (at_ k0 j))) (uin' (nxt (at_ k0 j)))) (HC _ (uin (nxt (at_ k0 j))) (uin' (nxt (at_ k0 j)))).
Qed.

Lemma ref_ext Q Rm yin yin' uin uin' k0 xP j :
  (forall i, (i < j)%N -> yin (nxt (at_ k0 i)) = yin' (nxt (at_ k0 i))) ->
  (forall i, (i <= j)%N -> uin (at_ k0 i) = uin' (at_ k0 i)) ->
  rt Q Rm yin uin k0 xP j = rt Q Rm yin' uin' k0 xP j.
Proof.
elim: j => [//|j IH] Hy Hu /=.
have -> : rt Q Rm yin uin k0 xP j = rt Q Rm yin' uin' k0 xP j.
  by apply: IH => i Hi; [apply: Hy|apply: Hu]; apply: leq_trans Hi _.
have E : nxt (at_ k0 j) = at_ k0 j.+1 by lia.
by rewrite Hy // Hu // ?leqnSn // E Hu.
Qed.

(** Open loop. *)
Fixpoint sim (uin : Z -> U) (k0 : Z) (x : X) (j : nat) : X :=
  match j with O => x | j.+1 => f (sim uin k0 x j) (uin (at_ k0 j)) (at_ k0 j) end.

Lemma ref_certain Rm yin uin k0 x j : (forall x, ssum x 0 = x) -> (forall x, reg x = x) ->
  rt 0 Rm yin uin k0 (x, 0) j = (sim uin k0 x j, 0).
Proof.
move=> s0 r0; elim: j => [//|j /= ->] /=.
by rewrite mulmx0 mul0mx addr0 !mul0mx s0 r0 mulmx0.
Qed.

Lemma ref_scale c Q Rm yin uin k0 x P j : 0 < c -> psd Q -> pd Rm -> psd P ->
  (rt (c *: Q) (c *: Rm) yin uin k0 (x, c *: P) j) =
  ((rt Q Rm yin uin k0 (x, P) j).1, c *: (rt Q Rm yin uin k0 (x, P) j).2).
Proof.
move=> c0 pQ pR pP; have cU : c \is a GRing.unit by rewrite unitfE gt_eqF.
have pJ : forall j, psd (rt Q Rm yin uin k0 (x, P) j).2.
  elim=> [//|i IH] /=; case: (rt _ _ _ _ _ _ i) IH => z T /= pT.
  set A := JA _ _ _; set C := JC _ _ _.
  by have [] := @kcov_ref R nt m Q Rm pQ pR A C T pT.
elim: j => [//|j /= ->]; have := pJ j; case: (rt _ _ _ _ _ _ j) => z T /= pT.
set A := JA _ _ _; set C := JC _ _ _.
set Pb := A *m T *m A^T + Q.
have -> : A *m (c *: T) *m A^T + c *: Q = c *: Pb by rewrite -scalemxAr -scalemxAl -scalerDr.
have pPb : psd Pb by rewrite /Pb; apply: psdD => //; apply: psd_cong.
have pS : pd (C *m Pb *m C^T + Rm) by apply: pdD => //; apply: psd_cong.
have -> : C *m (c *: Pb) *m C^T + c *: Rm = c *: (C *m Pb *m C^T + Rm).
  by rewrite -scalemxAr -scalemxAl -scalerDr.
have -> : invmx (c *: (C *m Pb *m C^T + Rm)) = c^-1 *: invmx (C *m Pb *m C^T + Rm).
  by apply: invmxZ; rewrite unitmxZ //; apply: pd_unit pS.
have -> : c *: Pb *m C^T *m (c^-1 *: invmx (C *m Pb *m C^T + Rm)) = Pb *m C^T *m invmx (C *m Pb *m C^T + Rm).
  by rewrite -!scalemxAl -scalemxAr scalerA mulfV ?scale1r // gt_eqF.
by rewrite -scalemxAr.
Qed.
End Ref.

(** *** In terms of the contents of the arrays *)
Lemma ia_at_get {T} md (a : iarr T) t v : ia_at a t = Ok v -> ia_get md a t = Ok v.
Proof.
move=> E; rewrite /ia_get; have -> : ia_checkIndex a t = true; last by rewrite E; case: md.
move: E; rewrite /ia_at /ia_checkIndex /ia_size; case Ek : (Z.leb _ _) => //.
case En : (List.nth_error _ _) => [w|] // _.
have := proj1 (List.nth_error_Some (ia_v a) (Z.to_nat (Z.sub t (ia_k a)))); rewrite En => /(_ ltac:(by [])) H.
have Ek' := Zle_bool_imp_le _ _ Ek.
by apply/andP; split; first (apply/andP; split => //); apply/Z.ltb_lt; lia.
Qed.

Lemma map_seq_at {T} (g : nat -> T) k0 N j : (j <= N)%N ->
  ia_at (mkIarr k0 (List.map g (List.seq 0 N.+1))) (Z.add k0 (Z.of_nat j)) = Ok (g j).
Proof.
move=> Hj; rewrite /ia_at /ia_k /ia_v.
have -> : Z.leb k0 (Z.add k0 (Z.of_nat j)) = true by apply/Z.leb_le; lia.
have -> : Z.to_nat (Z.sub (Z.add k0 (Z.of_nat j)) k0) = j by lia.
rewrite (List.map_nth_error g j (List.seq 0 N.+1) (d := j)) //.
have Hl : (j < N.+1)%coq_nat by apply/ssrnat.ltP.
have := List.seq_nth 0 0 Hl => E.
rewrite (List.nth_error_nth' _ 0%N); first by rewrite E.
by rewrite List.seq_length.
Qed.

(** The two ways of computing the Jacobians. *)
Definition two_jacs (R : rcfType) n nt m p f h ssum sdiff (jac : jacfun R n nt m p) : Prop :=
  (exists dx, jac = jac_fd f h ssum sdiff dx) \/ (exists fA fC, jac = jac_analytic f fA fC).

Lemma two_jacs_good (R : rcfType) n nt m p f h ssum sdiff (jac : jacfun R n nt m p) : (0 < p)%N ->
  two_jacs f h ssum sdiff jac -> exists JA JC, good_jac f h jac JA JC /\
  ((forall x u u' k, h x u k = h x u' k) -> forall x u u' k, JC x u k = JC x u' k).
Proof.
move=> p0 [[dx ->]|[fA [fC ->]]].
  exists (fd_A f ssum sdiff dx), (fd_C h ssum dx); split; first exact: good_fd.
  by move=> H x u u' k; apply/matrixP => i j; rewrite !mxE (H _ u u') (H x u u').
by exists (fun x _ _ => fA x), (fun x _ _ => fC x); split=> //; exact: good_analytic.
Qed.

(** All in one. *)
Lemma off_rec_at (R : rcfType) n nt m p f h ssum mdiff (jac : jacfun R n nt m p) JA JC reg
    md y u yin uin xh0 P Q Rm : (0 < p)%N -> good_jac f h jac JA JC -> psd P -> psd Q -> pd Rm ->
  (forall t, Z.le (ia_first y) t -> Z.le t (ia_last y) -> ia_at y t = Ok (yin t)) ->
  (forall t, Z.le (Z.sub (ia_first y) 1) t -> Z.lt t (ia_last y) \/ t = Z.sub (ia_first y) 1 -> ia_at u t = Ok (uin t)) ->
  off_rec f h ssum mdiff jac reg md y u xh0 P Q Rm =
  Ok (mkIarr (Z.sub (ia_first y) 1) (List.map (fun i => (ref_traj f h ssum mdiff JA JC reg Q Rm yin
    (fun t => if Z.ltb t (ia_last y) then uin t else 0) (Z.sub (ia_first y) 1) (xh0, P) i).1)
    (List.seq 0 (length (ia_v y)).+1))).
Proof.
move=> p0 gj pP pQ pR Hy Hu.
apply: (@off_rec_ref R n nt m p f h ssum mdiff p0 Q Rm pQ pR jac JA JC reg gj md y u yin uin (xh0, P)) => //.
- by move=> t H1 H2; apply: ia_at_get; apply: Hy.
- by move=> t H1 H2; apply: ia_at_get; apply: Hu => //; left.
by apply: ia_at_get; apply: Hu; [lia|right].
Qed.
