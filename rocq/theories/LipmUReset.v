(** The reset of the unidimensional LIPM estimator. *)
From Coq Require Import ZArith List Lia.
From mathcomp Require Import all_ssreflect all_algebra.
From Verif Require Import Base Defs ZDO MxLib Cholesky Kalman KFilter KFProofs Lipm SpecLipm LipmFilter LipmProofs KalmanLS KalmanLSThms KalmanBound KalmanConv LipmBound LipmUnidim LipmConv.
Set Implicit Arguments.
Unset Strict Implicit.
Unset Printing Implicit Defensive.
Import Order.TTheory GRing.Theory Num.Theory.
Open Scope ring_scope.

Section Reset.
Variable R : rcfType.
Lemma u_reset_ok md (l : ulip R) v0 ds0 sh x t ys us P dcm zmp wb dr ds zs b0 ub : UI l v0 ds0 sh x t ys us P -> ds != 0 ->
  exists l', u_reset md dcm zmp wb dr ds zs b0 ub l = Ok l' /\
    UI l' (dr * u_dt l) ds ShNone (if wb then col_mx (sc (dcm - b0)) (sc b0) else col_mx (sc dcm) (sc b0)) Z0 [::] [::]
      (if wb then lipPbias (dblsq 1 ds) (dblsq 1 ub) else block_mx (dblsq 1 ds) 0 0 (dblsq 1 ub)) /\
    [/\ u_om l' = u_om l, u_dt l' = u_dt l, u_dr l' = dr, u_zs l' = zs & u_pz l' = zmp].
Proof.
case=> e [Hs He _ pP] d0; rewrite /u_reset; set x1 := (if wb then _ else _); set P1 := (if wb then lipPbias _ _ else _).
have pP1 : psd P1.
  by rewrite /P1; case: (wb); [apply: psd_lipPbias|apply: psd_block]; exact: psd_dblsq.
have [ky [kys [ku [kus Ef]]]] : exists ky kys ku kus, u_f l = fs x t ky kys ku kus e.
  case: sh Hs.
  - by case=> ? [? [ky [ku ->]]]; do 4!eexists.
  - by case=> ? [? ->]; do 4!eexists.
  - by case=> ? [? ->]; do 4!eexists.
  - by case=> ? [? [ku ->]]; do 4!eexists.
  - by case=> ? [? ->]; do 4!eexists.
pose e' := k_set (SetP _ _ _ _ (Some P1)) (k_set (SetR _ _ _ _ (Some (dblsq 1 ds)))
  (k_set (SetQ _ _ _ _ (Some (lipQ 1 (u_om l) (u_dt l) zs dr))) (k_set (SetB _ _ _ (Some (lipB 1 (u_om l) (u_dt l))))
  (k_set (SetA _ _ _ _ (Some (block_mx (dbl 1 (1 + u_om l * u_dt l)) 0 0 1%:M))) (k_set (SetP _ _ _ _ None) e))))).
exists (mkUL (u_om l) (u_dt l) dr zs zmp (fs x1 Z0 Z0 [::] Z0 [::] e')); split.
  by rewrite /uonf Ef; case: md.
split=> //; exists e'; split=> //; first by do 2!split=> //; exists Z0, Z0.
by rewrite /e'; case: (e) He => a c q r pr b dd xb yb i gg [[/= _ _ -> _ _] [_ ->]].
Qed.
End Reset.
