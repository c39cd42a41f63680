(** Runs of a linear filter fed one measurement and one input at a time. *)
From Coq Require Import ZArith List Lia.
From mathcomp Require Import all_ssreflect all_algebra.
From Verif Require Import Base Defs ZDO MxLib Cholesky Kalman KFilter KFProofs.
Set Implicit Arguments.
Unset Strict Implicit.
Unset Printing Implicit Defensive.
Import Order.TTheory GRing.Theory Num.Theory.
Open Scope ring_scope.

Section Filter.
Variable R : rcfType.
Variables (n m p : nat).
Hypothesis p0 : (0 < p)%N.
Notation kfe := (kfe R n n m m p).
Notation kf := (zdo 'cV[R]_n 'cV[R]_m 'cV[R]_p kfe).
Notation st := (k_step (@lkf_predict R n m p) (@vsum R n) (@vdiff R m)).

(** All matrices are there and good, no feedthrough. *)
Record mats := mkM { mA : 'M[R]_n; mB : 'M[R]_(n, p); mC : 'M[R]_(m, n); mQ : 'M[R]_n; mR : 'M[R]_m }.
Definition good (g : mats) : Prop := psd (mQ g) /\ pd (mR g).
Definition has (e : kfe) (g : mats) (P : 'M[R]_n) : Prop :=
  [/\ kA e = Some (mA g), kB e = Some (mB g), kC e = Some (mC g), kQ e = Some (mQ g) & kR e = Some (mR g)] /\
  kP e = Some P /\ kD e = None.

(** One step of the filter: prediction, exact gain, update. *)
Definition step_to (g : mats) (P : 'M[R]_n) (x : 'cV[R]_n) (u : 'cV[R]_p) (y : 'cV[R]_m) (x' : 'cV[R]_n) (P' : 'M[R]_n) : Prop :=
  let Pb := mA g *m P *m (mA g)^T + mQ g in
  let S := mC g *m Pb *m (mC g)^T + mR g in
  exists K, [/\ K *m S = Pb *m (mC g)^T, S \in unitmx,
    x' = mA g *m x + mB g *m u + K *m (y - mC g *m (mA g *m x + mB g *m u)) & P' = joseph (mC g) (mR g) Pb K] /\ psd P'.

Lemma lkf_step_ok md e k g P x u v y : good g -> psd P -> has e g P ->
  exists x' P' e', [/\ lkf_step md e k x (Ok y) (Ok u) v = Ok (x', e'), has e' g P' & step_to g P x u y x' P'].
Proof.
case=> pQ pR pP [[EA EB EC EQ ER] [EP ED]].
have [K [Ek KS pS pPb]] := @k_cov_spec R n m (mA g) (mC g) (mQ g) (mR g) P pQ pR pP.
set Pb := mA g *m P *m (mA g)^T + mQ g; set S := mC g *m Pb *m (mC g)^T + mR g.
have EPb : k_pbar (mA g) (mQ g) P = Pb by rewrite /k_pbar mulmxA addrC.
have ES : k_inoCov (mC g) (mR g) Pb = S by rewrite /k_inoCov mulmxA addrC.
rewrite /= EPb ES in Ek KS pS pPb.
pose xb := mA g *m x + mB g *m u.
exists (xb + K *m (y - mC g *m xb)), (joseph (mC g) (mR g) Pb K),
  (k_with_res (k_with_pred e (im_put xb (nxt k), im_put (mC g *m xb) (nxt k))) (joseph (mC g) (mR g) Pb K) (K *m (y - mC g *m xb)) K).
have Ep : lkf_predict md e k x (Ok u) v = Ok (im_put xb (nxt k), im_put (mC g *m xb) (nxt k)).
  rewrite /lkf_predict EA EB EC ED p0; case: md => /=; case: eqP => [B0|_] //=; by rewrite /xb B0 mul0mx addr0.
split.
- by rewrite /lkf_step /kf_step Ep EA EC EQ ER EP; case: md {Ep} => /=; rewrite Ek.
- by case: e EA EB EC EQ ER EP ED {Ep} => a c q r pr b dd xb' yb' i gg /= -> -> -> -> -> _ ->.
- exists K; split; last by apply: joseph_psd => //; exact: pd_psd.
  by split=> //; exact: pd_unit.
Qed.

Definition fs x t ky ys ku us (e : kfe) : kf := mkZ (Z.of_nat n) (Z.of_nat m) (Z.of_nat p) (im_put x t) (mkIarr ky ys) (mkIarr ku us) e.

Lemma pz : Z.ltb Z0 (Z.of_nat p) = true.
Proof. by apply/Z.ltb_lt; move/ssrnat.ltP: p0; lia. Qed.

Ltac zb := repeat match goal with
 | |- context [Z.leb ?a ?b] => first [rewrite (proj2 (Z.leb_le a b)); [|lia] | rewrite (proj2 (Z.leb_gt a b)); [|lia]]
 | |- context [Z.ltb ?a ?b] => first [rewrite (proj2 (Z.ltb_lt a b)); [|lia] | rewrite (proj2 (Z.ltb_ge a b)); [|lia]]
 | |- context [Z.eqb ?a ?b] => first [rewrite (proj2 (Z.eqb_eq a b)); [|lia] | rewrite (proj2 (Z.eqb_neq a b)); [|lia]]
 end.

Lemma get_at {A} md (a : iarr A) k i v : List.nth_error (ia_v a) i = Some v -> k = Z.add (ia_k a) (Z.of_nat i) ->
  ia_get md a k = Ok v.
Proof.
move=> H ->; have : (i < length (ia_v a))%coq_nat by apply/List.nth_error_Some; rewrite H.
rewrite /ia_get /ia_checkIndex /ia_at /ia_size => Hl; zb => /=.
rewrite (_ : Z.to_nat _ = i); last lia.
by rewrite H; case: md.
Qed.

(** One round of the estimation loop. *)
Lemma iter_ok md T g P x t ky y0 ys iy y ku u us e : good g -> psd P -> has e g P ->
  List.nth_error (y0 :: ys) iy = Some y -> Z.add t (Zpos xH) = Z.add ky (Z.of_nat iy) -> ku = t -> Z.lt t T ->
  exists x' P' e', [/\ has e' g P', step_to g P x u y x' P' &
    z_iter (local_step (@lkf_step R n m p)) md T (fs x t ky (y0 :: ys) ku (u :: us) e) =
    Ok (fs x' (nxt t) (if Z.ltb ky T then nxt ky else ky) (if Z.ltb ky T then ys else y0 :: ys) (nxt ku) us e')].
Proof.
move=> gg pP He Hy Ht -> HT.
have [x' [P' [e' [Es He' Hs]]]] := @lkf_step_ok md e t g P x u (ia_get md (mkIarr t (u :: us)) (nxt t)) y gg pP He.
exists x', P', e'; split=> //.
rewrite /z_iter /local_step /z_time /fs.
rewrite [im_time md _](_ : _ = Ok t); last by case: md {Es}.
rewrite [im_get md _](_ : _ = Ok x); last by case: md {Es}.
cbn [obind z_y z_u z_e].
rewrite (@get_at _ md (mkIarr ky (y0 :: ys)) _ iy y) //.
rewrite (@get_at _ md (mkIarr t (u :: us)) t 0%N u) //; last by rewrite /=; lia.
rewrite Es; cbn [obind fst snd with_x with_e z_n z_m z_p z_x z_y z_u z_e ia_first ia_k].
have pop A (k0 : Z) (a0 : A) l : ia_popFront md (mkIarr k0 (a0 :: l)) = Ok (mkIarr (nxt k0) l) by case: md {Es}.
case: (Z.ltb ky T); rewrite ?pop; cbn [obind z_p z_u with_y z_n z_m z_x z_y z_e ia_k]; rewrite pz /ia_first; cbn [ia_k]; rewrite (proj2 (Z.ltb_lt t T) HT); by rewrite pop.
Qed.

(** The five shapes of the buffers between calls. *)
Inductive shape := ShNone | ShOne | ShTwo | ShDone | ShNext.
Definition shaped (sh : shape) (x : 'cV[R]_n) (t : Z) ys us (e : kfe) (s : kf) : Prop :=
  match sh with
  | ShNone => ys = [::] /\ us = [::] /\ exists ky ku, s = fs x t ky [::] ku [::] e
  | ShOne => length ys = 1%N /\ length us = 1%N /\ s = fs x t (nxt t) ys t us e
  | ShTwo => length ys = 2%N /\ length us = 2%N /\ s = fs x t (nxt t) ys t us e
  | ShDone => length ys = 1%N /\ us = [::] /\ exists ku, s = fs x t t ys ku [::] e
  | ShNext => length ys = 2%N /\ length us = 1%N /\ s = fs x t t ys t us e
  end.

Lemma estimate_unfold md x t ky y0 ys ku us e k : k = Z.sub (Z.add ky (Z.of_nat (S (length ys)))) (Zpos xH) -> Z.le t k ->
  st md (KZ _ _ (@ZEstimate _ _ _)) (fs x t ky (y0 :: ys) ku us e) =
  obind (oiter (Z.to_nat (Z.sub k t)) (z_iter (local_step (@lkf_step R n m p)) md k) (fs x t ky (y0 :: ys) ku us e))
    (fun s' => obind (im_get md (z_x s')) (fun _ => obind (z_time md s') (fun _ => Ok s'))).
Proof.
move=> Hk Hle.
rewrite /k_step; cbn [resizes z_step]; rewrite /z_estimateState /z_getEstimatedState.
rewrite (_ : Z.ltb Z0 (ia_size (z_y (fs x t ky (y0 :: ys) ku us e))) = true); last by [].
rewrite (_ : ia_last (z_y (fs x t ky (y0 :: ys) ku us e)) = k); last by rewrite Hk.
have bt : boost_assert md true = Ok tt by case: md.
have zt : z_time md (fs x t ky (y0 :: ys) ku us e) = Ok t by case: md {bt}.
rewrite ?bt; cbn [obind]; rewrite ?zt ?bt; cbn [obind]; rewrite ?zt ?bt; cbn [obind]; rewrite (proj2 (Z.leb_le _ _) Hle) ?bt.
cbn [obind]; case: (oiter _ _ _) => //= s'.
by case: (im_get md (z_x s')) => //= a; case: (z_time md s').
Qed.

Lemma estimate_idle md sh x t ys us e s : sh = ShNone \/ sh = ShDone -> shaped sh x t ys us e s ->
  st md (KZ _ _ (@ZEstimate _ _ _)) s = Ok s.
Proof.
case=> ->.
- case=> _ [_ [ky [ku ->]]]; by case: md.
- case: ys => [|y [|? ?]]; case=> // _ [_ [ku ->]].
  rewrite (@estimate_unfold md x t t y [::] ku [::] e t); [|rewrite /=; lia|lia].
  rewrite Z.sub_diag /=; by case: md.
Qed.

Lemma estimate_next md x t ys us e s g P : good g -> psd P -> has e g P -> shaped ShNext x t ys us e s \/ shaped ShOne x t ys us e s ->
  forall u y, List.hd_error us = Some u -> List.nth_error ys (length ys).-1 = Some y ->
  exists x' P' e' s', [/\ st md (KZ _ _ (@ZEstimate _ _ _)) s = Ok s', has e' g P', step_to g P x u y x' P' &
     shaped ShDone x' (nxt t) [:: y] [::] e' s'].
Proof.
move=> gg pP He [] [Ly [Lu ->]] u y; case: us Lu => [|u0 [|? ?]] // _ [->].
- case: ys Ly => [|y0 [|y1 [|? ?]]] // _ [E1]; subst y1.
  rewrite (@estimate_unfold md x t t y0 [:: y] t [:: u] e (nxt t)); [|rewrite /=; lia|lia].
  rewrite (_ : Z.to_nat _ = 1%N); last lia.
  have [x' [P' [e' [He' Hs Hi]]]] := @iter_ok md (nxt t) g P x t t y0 [:: y] 1 y t u [::] e gg pP He erefl erefl erefl ltac:(lia).
  rewrite /= Hi; cbn [obind]; rewrite (_ : Z.ltb t (nxt t) = true); last by apply/Z.ltb_lt; lia.
  exists x', P', e', (fs x' (nxt t) (nxt t) [:: y] (nxt t) [::] e'); split=> //.
  by split=> //; split=> //; exists (nxt t).
- case: ys Ly => [|y0 [|? ?]] // _ [E1]; subst y0.
  rewrite (@estimate_unfold md x t (nxt t) y [::] t [:: u] e (nxt t)); [|rewrite /=; lia|lia].
  rewrite (_ : Z.to_nat _ = 1%N); last lia.
  have [x' [P' [e' [He' Hs Hi]]]] := @iter_ok md (nxt t) g P x t (nxt t) y [::] 0 y t u [::] e gg pP He erefl ltac:(rewrite /=; lia) erefl ltac:(lia).
  rewrite /= Hi; cbn [obind]; rewrite Z.ltb_irrefl.
  exists x', P', e', (fs x' (nxt t) (nxt t) [:: y] (nxt t) [::] e'); split=> //.
  by split=> //; split=> //; exists (nxt t).
Qed.

Lemma estimate_two md x t y1 y2 u1 u2 e s g P : good g -> psd P -> has e g P -> shaped ShTwo x t [:: y1; y2] [:: u1; u2] e s ->
  exists x1 P1 x' P' e' s', [/\ st md (KZ _ _ (@ZEstimate _ _ _)) s = Ok s', has e' g P', step_to g P x u1 y1 x1 P1,
     step_to g P1 x1 u2 y2 x' P' & shaped ShDone x' (nxt (nxt t)) [:: y2] [::] e' s'].
Proof.
move=> gg pP He [_ [_ ->]].
rewrite (@estimate_unfold md x t (nxt t) y1 [:: y2] t [:: u1; u2] e (nxt (nxt t))); [|rewrite /=; lia|lia].
rewrite (_ : Z.to_nat _ = 2%N); last lia.
have [x1 [P1 [e1 [He1 Hs1 Hi1]]]] := @iter_ok md (nxt (nxt t)) g P x t (nxt t) y1 [:: y2] 0 y1 t u1 [:: u2] e gg pP He erefl ltac:(rewrite /=; lia) erefl ltac:(lia).
have pP1 : psd P1 by case: Hs1 => ? [].
have [x' [P' [e' [He' Hs Hi]]]] := @iter_ok md (nxt (nxt t)) g P1 x1 (nxt t) (nxt (nxt t)) y2 [::] 0 y2 (nxt t) u2 [::] e1 gg pP1 He1 erefl ltac:(rewrite /=; lia) erefl ltac:(lia).
rewrite /= Hi1; cbn [obind]; rewrite (_ : Z.ltb (nxt t) (nxt (nxt t)) = true); last (by apply/Z.ltb_lt; lia); rewrite Hi; cbn [obind].
rewrite Z.ltb_irrefl.
exists x1, P1, x', P', e', (fs x' (nxt (nxt t)) (nxt (nxt t)) [:: y2] (nxt (nxt t)) [::] e'); split=> //.
by split=> //; split=> //; exists (nxt (nxt t)).
Qed.

(** Pushing one measurement and one input. *)
Definition sh_push (sh : shape) : shape := match sh with ShNone => ShOne | ShOne => ShTwo | ShDone => ShNext | s => s end.
Lemma push_ok md sh x t ys us e s y u : sh = ShNone \/ sh = ShOne \/ sh = ShDone -> shaped sh x t ys us e s ->
  exists s', lkf_run md [:: KZ _ _ (ZPushMeas y); KZ _ _ (ZPushInput u)] s = Ok s' /\
    shaped (sh_push sh) x t (ys ++ [:: y]) (us ++ [:: u]) e s'.
Proof.
have zm (q : 'cV[R]_m) : Z.eqb (sym_ q) (Z.of_nat m) = true by rewrite /sym_ Z.eqb_refl.
have zp (q : 'cV[R]_p) : Z.eqb (sup q) (Z.of_nat p) = true by rewrite /sup Z.eqb_refl.
case=> [->|[->|->]].
- case=> -> [-> [ky [ku ->]]]; exists (fs x t (nxt t) [:: y] t [:: u] e); split=> //.
  by case: md; rewrite /lkf_run /k_run /= /z_pushMeasurement /= zm /= /z_pushInput /= pz zp.
- case=> Ly [Lu ->]; exists (fs x t (nxt t) (ys ++ [:: y]) t (us ++ [:: u]) e); split; last first.
    by split; [|split]=> //; rewrite ?List.app_length /= ?Ly ?Lu.
  rewrite /lkf_run /k_run /= /z_pushMeasurement /fs /=; rewrite zm /ia_size /= Ly /= /z_pushInput /= zp pz /ia_size /= Lu.
  by case: md.
- case=> Ly [-> [ku ->]]; exists (fs x t t (ys ++ [:: y]) t [:: u] e); split; last first.
    by split; [|split]=> //; rewrite ?List.app_length /= ?Ly.
  rewrite /lkf_run /k_run /= /z_pushMeasurement /fs /=; rewrite zm /ia_size /= Ly /= /z_pushInput /= zp pz /ia_size /=.
  by case: md.
Qed.

(** Setter calls change the matrices only. *)
Lemma shaped_e sh x t ys us e s e' : shaped sh x t ys us e s -> shaped sh x t ys us e' (with_e s e') /\ z_e s = e.
Proof.
case: sh => /=.
- by case=> -> [-> [ky [ku ->]]]; split=> //; do 2!split=> //; exists ky, ku.
- by case=> ? [? ->].
- by case=> ? [? ->].
- by case=> ? [-> [ku ->]]; split=> //; do 2!split=> //; exists ku.
- by case=> ? [? ->].
Qed.
Lemma shaped_x sh x t ys us e s x' md : shaped sh x t ys us e s ->
  z_x s = im_put x t /\ exists s', st md (KZ _ _ (ZSetCurrentState x')) s = Ok s' /\ shaped sh x' t ys us e s'.
Proof.
have zn (q : 'cV[R]_n) : Z.eqb (sxn q) (Z.of_nat n) = true by rewrite /sxn Z.eqb_refl.
have H ky kys ku kus : st md (KZ _ _ (ZSetCurrentState x')) (fs x t ky kys ku kus e) = Ok (fs x' t ky kys ku kus e).
  by rewrite /= /z_setCurrentState /= zn; case: md.
case: sh.
- by case=> -> [-> [ky [ku ->]]]; split=> //; exists (fs x' t ky [::] ku [::] e); rewrite H; split=> //; do 2!split=> //; exists ky, ku.
- by case=> ? [? ->]; split=> //; rewrite H; eexists; split.
- by case=> ? [? ->]; split=> //; rewrite H; eexists; split.
- by case=> ? [-> [ku ->]]; split=> //; rewrite H; eexists; split; [reflexivity|]; do 2!split=> //; exists ku.
- by case=> ? [? ->]; split=> //; rewrite H; eexists; split.
Qed.
Lemma shaped_reset sh x t ys us e s x' k' md : shaped sh x t ys us e s ->
  exists s', lkf_run md [:: KZ _ _ (@ZReset _ _ _); KZ _ _ (ZSetState x' k')] s = Ok s' /\
    shaped ShNone x' k' [::] [::] (k_set (SetP _ _ _ _ None) e) s'.
Proof.
have zn (q : 'cV[R]_n) : Z.eqb (sxn q) (Z.of_nat n) = true by rewrite /sxn Z.eqb_refl.
move=> H; have Hs : exists ky kys ku kus, s = fs x t ky kys ku kus e.
  case: sh H.
  - by case=> ? [? [ky [ku ->]]]; do 4!eexists.
  - by case=> ? [? ->]; do 4!eexists.
  - by case=> ? [? ->]; do 4!eexists.
  - by case=> ? [? [ku ->]]; do 4!eexists.
  - by case=> ? [? ->]; do 4!eexists.
case: Hs => ky [kys [ku [kus ->]]].
exists (fs x' k' Z0 [::] Z0 [::] (k_set (SetP _ _ _ _ None) e)); split; last by do 2!split=> //; exists Z0, Z0.
by case: md; rewrite /lkf_run /k_run /= /z_setState /= zn /z_time /= Z.ltb_irrefl pz.
Qed.
End Filter.
