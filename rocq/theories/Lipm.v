(** Model of LipmDcmEstimator (src/lipm-dcm-estimator.cpp and its header) and of
    UnidimLipmDcmEstimator (src/unidim-lipm-dcm-estimator.cpp and its header) on top of the
    model of the linear Kalman filter (KFilter.v). Doubles are elements of a real closed field.
    Not modelled: the overloads taking a yaw angle or a 3x3 rotation (header lines 148-179 and
    250-264), which only compute the 2x2 matrix, and getFilter() (direct access to the filter). *)
From Coq Require Import ZArith List.
From mathcomp Require Import all_ssreflect all_algebra.
From Verif Require Import Base Defs ZDO MxLib Cholesky Kalman KFilter.
Set Implicit Arguments.
Unset Strict Implicit.
Unset Printing Implicit Defensive.
Import Order.TTheory GRing.Theory Num.Theory.
Open Scope ring_scope.

Section Blocks.
Variable R : rcfType.
Variable d : nat.

(** lipm-dcm-estimator.hpp:342-345 Vec2ToSqDiag. *)
Definition sqdiag (v : 'cV[R]_d) : 'M[R]_d := diag_mx (\row_i (v i 0 ^+ 2)).
(** lipm-dcm-estimator.hpp:348-357 dblToDiag and dblToSqDiag; for d = 1, square() of
    unidim-lipm-dcm-estimator.cpp. *)
Definition dbl (x : R) : 'M[R]_d := x%:M.
Definition dblsq (x : R) : 'M[R]_d := (x * x)%:M.

(** lipm-dcm-estimator.cpp:245-246, unidim-lipm-dcm-estimator.cpp:200-201. *)
Definition lipB (om dt : R) : 'M[R]_(d + d, d) := col_mx (dbl (- om * dt)) 0.
(** lipm-dcm-estimator.cpp:38, unidim-lipm-dcm-estimator.cpp:36. *)
Definition lipC : 'M[R]_(d, d + d) := row_mx 1%:M 1%:M.
(** lipm-dcm-estimator.cpp:248-249, unidim-lipm-dcm-estimator.cpp:203-204. *)
Definition lipQ (om dt zs dr : R) : 'M[R]_(d + d) := block_mx (dblsq (om * dt * zs)) 0 0 (dblsq (dr * dt)).
(** lipm-dcm-estimator.cpp:85-86, unidim-lipm-dcm-estimator.cpp:86-87. *)
Definition lipPbias (Rm B : 'M[R]_d) : 'M[R]_(d + d) := block_mx (B + Rm) (- B) (- B) B.
(** lipm-dcm-estimator.cpp:127-129 and 158-160. *)
Definition setPbias (P : 'M[R]_(d + d)) (B : 'M[R]_d) : 'M[R]_(d + d) := block_mx (ulsubmx P) 0 0 B.
Definition setPdcm (P : 'M[R]_(d + d)) (B : 'M[R]_d) : 'M[R]_(d + d) := block_mx B 0 0 (drsubmx P).
End Blocks.

Notation lkf R d := (zdo 'cV[R]_(d + d) 'cV[R]_d 'cV[R]_d (kfe R (d + d) (d + d) d d d)).
Notation kopL R d := (kop R (d + d) (d + d) d d d).

(** miscellaneous-algorithms.hpp:98-127 clampScalar(x, limit). *)
Definition clampS (R : rcfType) (x lim : R) : R := if lim < x then lim else if x < - lim then - lim else x.

(** ** The planar estimator *)
Section Planar.
Variable R : rcfType.

(** Members (lipm-dcm-estimator.hpp:319-339); B_ and C_ are only written to be given to the filter. *)
Record lip := mkL {
  l_om : R; l_dt : R; l_dr : R; l_zs : R;
  l_pz : 'cV[R]_2; l_lim : 'cV[R]_2;
  l_f : lkf R 2;
  l_A : 'M[R]_(2 + 2); l_R : 'M[R]_2; l_Q : 'M[R]_(2 + 2);
  l_po : 'M[R]_2 }.
Definition with_f (l : lip) f := mkL (l_om l) (l_dt l) (l_dr l) (l_zs l) (l_pz l) (l_lim l) f (l_A l) (l_R l) (l_Q l) (l_po l).
(** Calls on the filter. *)
Definition onf (md : mode) (ops : list (kopL R 2)) (l : lip) : outcome lip :=
  do f <- lkf_run md ops (l_f l); Ok (with_f l f).
Definition KSt := @KS R (2 + 2) (2 + 2) 2 2 2.
Definition KZt := @KZ R (2 + 2) (2 + 2) 2 2 2.

(** lipm-dcm-estimator.cpp:238-255 updateMatricesABQ_. *)
Definition l_updABQ (md : mode) (l : lip) : outcome lip :=
  let A := block_mx (dbl 2 (1 + l_om l * l_dt l)) (ursubmx (l_A l)) (dlsubmx (l_A l)) (drsubmx (l_A l)) in
  let Q := lipQ 2 (l_om l) (l_dt l) (l_zs l) (l_dr l) in
  onf md [:: KSt (SetA _ _ _ _ (Some A)); KSt (SetB _ _ _ (Some (lipB 2 (l_om l) (l_dt l)))); KSt (SetQ _ _ _ _ (Some Q))]
    (mkL (l_om l) (l_dt l) (l_dr l) (l_zs l) (l_pz l) (l_lim l) (l_f l) A (l_R l) Q (l_po l)).

(** lipm-dcm-estimator.cpp:23-51 constructor. R_ and Q_ are uninitialised until they are assigned
    (lines 39 and 37); nothing reads them before, so they start as zero here. *)
Definition l_new (md : mode) (dt om dr ds zs : R) (lim z0 x0 b0 ux ub : 'cV[R]_2) : outcome lip :=
  do l <- l_updABQ md (mkL om dt dr zs z0 lim (lkf_init R (2 + 2) 2 2) 1%:M 0 0 1%:M);
  let l := mkL (l_om l) (l_dt l) (l_dr l) (l_zs l) (l_pz l) (l_lim l) (l_f l) (l_A l) (dblsq 2 ds) (l_Q l) (l_po l) in
  onf md [:: KSt (SetC _ _ _ (Some (lipC R 2))); KSt (SetR _ _ _ _ (Some (l_R l))); KZt (ZSetState (col_mx x0 b0) Z0);
             KSt (SetP _ _ _ _ (Some (block_mx (sqdiag ux) 0 0 (sqdiag ub))))] l.

(** lipm-dcm-estimator.cpp:53-98 resetWithMeasurements. *)
Definition l_reset (md : mode) (dcm zmp : 'cV[R]_2) (yaw : 'M[R]_2) (wb : bool) (b0 ub : 'cV[R]_2) (l : lip) : outcome lip :=
  let x := if wb then col_mx (dcm - b0) b0 else col_mx dcm b0 in
  let P := if wb then lipPbias (l_R l) (sqdiag ub) else block_mx (l_R l) 0 0 (sqdiag ub) in
  onf md [:: KZt (@ZReset _ _ _); KZt (ZSetState x Z0); KSt (SetP _ _ _ _ (Some P))]
    (mkL (l_om l) (l_dt l) (l_dr l) (l_zs l) zmp (l_lim l) (l_f l) (l_A l) (l_R l) (l_Q l) yaw).

(** filter_.getCurrentEstimatedState() and filter_.getStateCovariance(); an empty covariance
    cannot be copied into a Matrix4. *)
Definition l_state (md : mode) (l : lip) : outcome 'cV[R]_(2 + 2) := im_get md (z_x (l_f l)).
Definition l_cov (md : mode) (l : lip) : outcome 'M[R]_(2 + 2) := need md (kP (z_e (l_f l))).
(** lipm-dcm-estimator.cpp:228-236 getUnbiasedDCM, getBias; hpp:292-295 getLocalBias. *)
Definition l_getDcm md l : outcome 'cV[R]_2 := do x <- l_state md l; Ok (usubmx x).
Definition l_getBias md l : outcome 'cV[R]_2 := do x <- l_state md l; Ok (dsubmx x).
Definition l_getLocalBias md l : outcome 'cV[R]_2 := do b <- l_getBias md l; Ok ((l_po l)^T *m b).

(** lipm-dcm-estimator.cpp:114-131 setBias. *)
Definition l_setBias md (b : 'cV[R]_2) l : outcome lip :=
  do x <- l_state md l; onf md [:: KZt (ZSetCurrentState (col_mx (usubmx x) b))] l.
Definition l_setBiasU md (b u : 'cV[R]_2) l : outcome lip :=
  do l <- l_setBias md b l; do P <- l_cov md l;
  onf md [:: KSt (SetP _ _ _ _ (Some (setPbias P (sqdiag u))))] l.
(** lipm-dcm-estimator.cpp:145-162 setUnbiasedDCM. *)
Definition l_setDcm md (x1 : 'cV[R]_2) l : outcome lip :=
  do x <- l_state md l; onf md [:: KZt (ZSetCurrentState (col_mx x1 (dsubmx x)))] l.
Definition l_setDcmU md (x1 u : 'cV[R]_2) l : outcome lip :=
  do l <- l_setDcm md x1 l; do P <- l_cov md l;
  onf md [:: KSt (SetP _ _ _ _ (Some (setPdcm P (sqdiag u))))] l.
(** lipm-dcm-estimator.cpp:133-138 setBiasDriftPerSecond. *)
Definition l_setDrift md (v : R) l : outcome lip :=
  let Q := block_mx (ulsubmx (l_Q l)) (ursubmx (l_Q l)) (dlsubmx (l_Q l)) (dblsq 2 v) in
  onf md [:: KSt (SetQ _ _ _ _ (Some Q))]
    (mkL (l_om l) (l_dt l) (l_dr l) (l_zs l) (l_pz l) (l_lim l) (l_f l) (l_A l) (l_R l) Q (l_po l)).
(** lipm-dcm-estimator.cpp:102-112, 140-143, 164-174. *)
Definition l_setOm md (om : R) l := l_updABQ md (mkL om (l_dt l) (l_dr l) (l_zs l) (l_pz l) (l_lim l) (l_f l) (l_A l) (l_R l) (l_Q l) (l_po l)).
Definition l_setDt md (dt : R) l := l_updABQ md (mkL (l_om l) dt (l_dr l) (l_zs l) (l_pz l) (l_lim l) (l_f l) (l_A l) (l_R l) (l_Q l) (l_po l)).
Definition l_setLim (lim : 'cV[R]_2) l := mkL (l_om l) (l_dt l) (l_dr l) (l_zs l) (l_pz l) lim (l_f l) (l_A l) (l_R l) (l_Q l) (l_po l).
Definition l_setZs md (zs : R) l := l_updABQ md (mkL (l_om l) (l_dt l) (l_dr l) zs (l_pz l) (l_lim l) (l_f l) (l_A l) (l_R l) (l_Q l) (l_po l)).
Definition l_setDs (std : R) (l : lip) : lip := let _ := dblsq 2 std in l.

(** lipm-dcm-estimator.cpp:176-195 update. With only one positive limit the other component of
    clampedLocalBias is read uninitialised (line 192). *)
Definition l_update (md : mode) (l : lip) : outcome lip :=
  do l <- onf md [:: KZt (@ZEstimate _ _ _)] l;
  let lx := l_lim l 0 0 in let ly := l_lim l 1 0 in
  if (0 < lx) || (0 < ly) then
    if (0 < lx) && (0 < ly) then
      do lb <- l_getLocalBias md l;
      let c := \col_i clampS (lb i 0) (l_lim l i 0) in
      do l <- l_setBias md (l_po l *m c) l;
      do x <- l_getDcm md l;
      l_setDcm md (x + lb - c) l
    else UB
  else Ok l.

(** lipm-dcm-estimator.cpp:197-226 setInputs(dcm, zmp, R). The default values of
    resetWithMeasurements are those of hpp:130-135. *)
Definition l_setInputs (md : mode) (dcm zmp : 'cV[R]_2) (o : 'M[R]_2) (l : lip) : outcome lip :=
  if im_set (z_x (l_f l)) then
    do l <- (if Z.ltb (Zpos xH) (ia_size (z_y (l_f l))) then l_update md l else Ok l);
    let A := block_mx (ulsubmx (l_A l)) (ursubmx (l_A l)) (dlsubmx (l_A l)) (o *m (l_po l)^T) in
    onf md [:: KZt (ZPushMeas dcm); KZt (ZPushInput (l_pz l)); KSt (SetA _ _ _ _ (Some A))]
      (mkL (l_om l) (l_dt l) (l_dr l) (l_zs l) zmp (l_lim l) (l_f l) A (l_R l) (l_Q l) o)
  else l_reset md dcm zmp o true 0 (const_mx (100%:R^-1)) l.

(** The public calls. *)
Inductive l_op :=
| LReset of 'cV[R]_2 & 'cV[R]_2 & 'M[R]_2 & bool & 'cV[R]_2 & 'cV[R]_2
| LOm of R | LDt of R | LDrift of R | LZs of R | LDs of R | LLim of 'cV[R]_2
| LBias of 'cV[R]_2 | LBiasU of 'cV[R]_2 & 'cV[R]_2 | LDcm of 'cV[R]_2 | LDcmU of 'cV[R]_2 & 'cV[R]_2
| LUpdate | LInputs of 'cV[R]_2 & 'cV[R]_2 & 'M[R]_2.
Definition l_step (md : mode) (o : l_op) (l : lip) : outcome lip :=
  match o with
  | LReset dcm zmp yaw wb b0 ub => l_reset md dcm zmp yaw wb b0 ub l
  | LOm x => l_setOm md x l
  | LDt x => l_setDt md x l
  | LDrift x => l_setDrift md x l
  | LZs x => l_setZs md x l
  | LDs x => Ok (l_setDs x l)
  | LLim v => Ok (l_setLim v l)
  | LBias b => l_setBias md b l
  | LBiasU b u => l_setBiasU md b u l
  | LDcm x => l_setDcm md x l
  | LDcmU x u => l_setDcmU md x u l
  | LUpdate => l_update md l
  | LInputs dcm zmp o => l_setInputs md dcm zmp o l
  end.
Definition l_run md ops l := orun (l_step md) ops l.
End Planar.

(** ** The unidimensional estimator *)
Section Unidim.
Variable R : rcfType.

(** Members (unidim-lipm-dcm-estimator.hpp:188-204) that are read again; A_, B_, C_, R_ and Q_ are
    only written to be given to the filter. *)
Record ulip := mkUL { u_om : R; u_dt : R; u_dr : R; u_zs : R; u_pz : R; u_f : lkf R 1 }.
Definition uonf (md : mode) (ops : list (kopL R 1)) (l : ulip) : outcome ulip :=
  do f <- lkf_run md ops (u_f l); Ok (mkUL (u_om l) (u_dt l) (u_dr l) (u_zs l) (u_pz l) f).
Definition KSu := @KS R (1 + 1) (1 + 1) 1 1 1.
Definition KZu := @KZ R (1 + 1) (1 + 1) 1 1 1.
Definition sc (x : R) : 'cV[R]_1 := x%:M.

(** unidim-lipm-dcm-estimator.cpp:194-210 updateMatricesABQ_. *)
Definition u_updABQ (md : mode) (l : ulip) : outcome ulip :=
  uonf md [:: KSu (SetA _ _ _ _ (Some (block_mx (dbl 1 (1 + u_om l * u_dt l)) 0 0 1%:M)));
              KSu (SetB _ _ _ (Some (lipB 1 (u_om l) (u_dt l))));
              KSu (SetQ _ _ _ _ (Some (lipQ 1 (u_om l) (u_dt l) (u_zs l) (u_dr l))))] l.
(** unidim-lipm-dcm-estimator.cpp:22-49 constructor. *)
Definition u_new (md : mode) (dt om dr x0 z0 b0 ds zs ux ub : R) : outcome ulip :=
  do l <- u_updABQ md (mkUL om dt dr zs z0 (lkf_init R (1 + 1) 1 1));
  uonf md [:: KSu (SetC _ _ _ (Some (lipC R 1))); KSu (SetR _ _ _ _ (Some (dblsq 1 ds))); KZu (ZSetState (col_mx (sc x0) (sc b0)) Z0);
              KSu (SetP _ _ _ _ (Some (block_mx (dblsq 1 ux) 0 0 (dblsq 1 ub))))] l.
(** unidim-lipm-dcm-estimator.cpp:51-99 resetWithInputs. *)
Definition u_reset (md : mode) (dcm zmp : R) (wb : bool) (dr ds zs b0 ub : R) (l : ulip) : outcome ulip :=
  let x := if wb then col_mx (sc (dcm - b0)) (sc b0) else col_mx (sc dcm) (sc b0) in
  let P := if wb then lipPbias (dblsq 1 ds) (dblsq 1 ub) else block_mx (dblsq 1 ds) 0 0 (dblsq 1 ub) in
  do l <- uonf md [:: KZu (@ZReset _ _ _)] l;
  do l <- u_updABQ md (mkUL (u_om l) (u_dt l) dr zs zmp (u_f l));
  uonf md [:: KSu (SetR _ _ _ _ (Some (dblsq 1 ds))); KZu (ZSetState x Z0); KSu (SetP _ _ _ _ (Some P))] l.
(** unidim-lipm-dcm-estimator.cpp:101-111, 157-167. *)
Definition u_setOm md (om : R) l := u_updABQ md (mkUL om (u_dt l) (u_dr l) (u_zs l) (u_pz l) (u_f l)).
Definition u_setDt md (dt : R) l := u_updABQ md (mkUL (u_om l) dt (u_dr l) (u_zs l) (u_pz l) (u_f l)).
Definition u_setZs md (zs : R) l := u_updABQ md (mkUL (u_om l) (u_dt l) (u_dr l) zs (u_pz l) (u_f l)).
Definition u_setDs (std : R) (l : ulip) : ulip := let _ := dblsq 1 std in l.
(** unidim-lipm-dcm-estimator.cpp:113-129, 139-155. *)
Definition u_state (md : mode) (l : ulip) := im_get md (z_x (u_f l)).
Definition u_cov (md : mode) (l : ulip) := need md (kP (z_e (u_f l))).
Definition u_setBias md (b : R) l : outcome ulip :=
  do x <- u_state md l; uonf md [:: KZu (ZSetCurrentState (col_mx (usubmx x) (sc b)))] l.
Definition u_setBiasU md (b u : R) l : outcome ulip :=
  do l <- u_setBias md b l; do P <- u_cov md l; uonf md [:: KSu (SetP _ _ _ _ (Some (setPbias P (dblsq 1 u))))] l.
Definition u_setDcm md (x1 : R) l : outcome ulip :=
  do x <- u_state md l; uonf md [:: KZu (ZSetCurrentState (col_mx (sc x1) (dsubmx x)))] l.
Definition u_setDcmU md (x1 u : R) l : outcome ulip :=
  do l <- u_setDcm md x1 l; do P <- u_cov md l; uonf md [:: KSu (SetP _ _ _ _ (Some (setPdcm P (dblsq 1 u))))] l.
(** unidim-lipm-dcm-estimator.cpp:131-137 setBiasDriftPerSecond. *)
Definition u_setDrift md (v : R) l : outcome ulip :=
  do Q <- need md (kQ (z_e (u_f l)));
  uonf md [:: KSu (SetQ _ _ _ _ (Some (block_mx (ulsubmx Q) (ursubmx Q) (dlsubmx Q) (dblsq 1 v))))] l.
(** unidim-lipm-dcm-estimator.cpp:169-182 setInputs. *)
Definition u_setInputs md (dcm zmp : R) l : outcome ulip :=
  uonf md [:: KZu (ZPushMeas (sc dcm)); KZu (ZPushInput (sc (u_pz l)))] (mkUL (u_om l) (u_dt l) (u_dr l) (u_zs l) zmp (u_f l)).
(** unidim-lipm-dcm-estimator.hpp:153-156 update; getMeasurementTime asserts that there is one. *)
Definition u_update md l : outcome ulip :=
  do _ <- boost_assert md (Z.ltb Z0 (ia_size (z_y (u_f l))));
  uonf md [:: KZu (ZGetEstimate (ia_last (z_y (u_f l))))] l.
(** unidim-lipm-dcm-estimator.cpp:184-192. *)
Definition u_getDcm md l : outcome R := do x <- u_state md l; Ok (usubmx x 0 0).
Definition u_getBias md l : outcome R := do x <- u_state md l; Ok (dsubmx x 0 0).

Inductive u_op :=
| UReset of R & R & bool & R & R & R & R & R
| UOm of R | UDt of R | UDrift of R | UZs of R | UDs of R
| UBias of R | UBiasU of R & R | UDcm of R | UDcmU of R & R
| UUpdate | UInputs of R & R.
Definition u_step (md : mode) (o : u_op) (l : ulip) : outcome ulip :=
  match o with
  | UReset dcm zmp wb dr ds zs b0 ub => u_reset md dcm zmp wb dr ds zs b0 ub l
  | UOm x => u_setOm md x l
  | UDt x => u_setDt md x l
  | UDrift x => u_setDrift md x l
  | UZs x => u_setZs md x l
  | UDs x => Ok (u_setDs x l)
  | UBias b => u_setBias md b l
  | UBiasU b u => u_setBiasU md b u l
  | UDcm x => u_setDcm md x l
  | UDcmU x u => u_setDcmU md x u l
  | UUpdate => u_update md l
  | UInputs dcm zmp => u_setInputs md dcm zmp l
  end.
Definition u_run md ops l := orun (u_step md) ops l.
End Unidim.
