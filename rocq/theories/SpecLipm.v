(** Notions used to state the properties of the LIPM estimators. *)
From mathcomp Require Import all_ssreflect all_algebra.
From Verif Require Import Base Defs Lipm.
Set Implicit Arguments.
Unset Strict Implicit.
Unset Printing Implicit Defensive.
Import Order.TTheory GRing.Theory Num.Theory.
Open Scope ring_scope.

Section Spec.
Variable R : rcfType.

(** The configuration a user expects after a list of calls: the last value given for each
    parameter. [c_bias] is the standard deviation that the bias noise really gets: see C42. *)
Record lcfg := mkC { c_om : R; c_dt : R; c_zs : R; c_dr : R; c_ds : R; c_bias : R; c_lim : 'cV[R]_2; c_po : 'M[R]_2 }.
Definition c_step (o : l_op R) (c : lcfg) : lcfg :=
  match o with
  | LOm om => mkC om (c_dt c) (c_zs c) (c_dr c) (c_ds c) (c_dr c * c_dt c) (c_lim c) (c_po c)
  | LDt dt => mkC (c_om c) dt (c_zs c) (c_dr c) (c_ds c) (c_dr c * dt) (c_lim c) (c_po c)
  | LZs zs => mkC (c_om c) (c_dt c) zs (c_dr c) (c_ds c) (c_dr c * c_dt c) (c_lim c) (c_po c)
  | LDrift v => mkC (c_om c) (c_dt c) (c_zs c) (c_dr c) (c_ds c) v (c_lim c) (c_po c)
  | LLim lim => mkC (c_om c) (c_dt c) (c_zs c) (c_dr c) (c_ds c) (c_bias c) lim (c_po c)
  | LReset _ _ o _ _ _ | LInputs _ _ o => mkC (c_om c) (c_dt c) (c_zs c) (c_dr c) (c_ds c) (c_bias c) (c_lim c) o
  | _ => c
  end.
Definition c_run (ops : list (l_op R)) (c : lcfg) : lcfg := List.fold_left (fun c o => c_step o c) ops c.
(** The configuration given to the constructor. *)
Definition c_new (dt om dr ds zs : R) (lim : 'cV[R]_2) : lcfg := mkC om dt zs dr ds (dr * dt) lim 1%:M.

(** Both bias limits are active or none is. *)
Definition lim_ok (lim : 'cV[R]_2) : bool := (0 < lim 0 0) == (0 < lim 1 0).
(** The history never sets only one of the two limits. *)
Definition op_lim_ok (o : l_op R) : bool := if o is LLim lim then lim_ok lim else true.
(** The orientations given are orthogonal. *)
Definition orth (o : 'M[R]_2) : Prop := o^T *m o = 1%:M /\ o *m o^T = 1%:M.
Definition op_orth (o : l_op R) : Prop :=
  match o with LReset _ _ o _ _ _ | LInputs _ _ o => orth o | _ => True end.

(** The same calls with every standard deviation multiplied by k. *)
Definition scale_op (k : R) (o : l_op R) : l_op R :=
  match o with
  | LReset dcm zmp yaw wb b0 ub => LReset dcm zmp yaw wb b0 (k *: ub)
  | LDrift x => LDrift (k * x)
  | LZs x => LZs (k * x)
  | LDs x => LDs (k * x)
  | LBiasU b u => LBiasU b (k *: u)
  | LDcmU x u => LDcmU x (k *: u)
  | o => o
  end.

(** One sample of a run: the measured DCM, the measured ZMP and the orientation, followed by an update. *)
Definition samples (l : list ('cV[R]_2 * 'cV[R]_2 * 'M[R]_2)) : list (l_op R) :=
  List.flat_map (fun s => [:: LInputs s.1.1 s.1.2 s.2; LUpdate R]) l.

(** Calls that exist both on the planar estimator and, axis by axis, on the unidimensional one. *)
Inductive a_op :=
| AOm of R | ADt of R | AZs of R | ADrift of R | ADs of R
| ABias of 'cV[R]_2 | ABiasU of 'cV[R]_2 & 'cV[R]_2 | ADcm of 'cV[R]_2 | ADcmU of 'cV[R]_2 & 'cV[R]_2
| ASample of 'cV[R]_2 & 'cV[R]_2.
Definition planar (o : a_op) : list (l_op R) :=
  match o with
  | AOm x => [:: LOm x] | ADt x => [:: LDt x] | AZs x => [:: LZs x] | ADrift x => [:: LDrift x] | ADs x => [:: LDs x]
  | ABias b => [:: LBias b] | ABiasU b u => [:: LBiasU b u] | ADcm x => [:: LDcm x] | ADcmU x u => [:: LDcmU x u]
  | ASample dcm zmp => [:: LInputs dcm zmp 1%:M; LUpdate R]
  end.
Definition axis (i : 'I_2) (o : a_op) : list (u_op R) :=
  match o with
  | AOm x => [:: UOm x] | ADt x => [:: UDt x] | AZs x => [:: UZs x] | ADrift x => [:: UDrift x] | ADs x => [:: UDs x]
  | ABias b => [:: UBias (b i 0)] | ABiasU b u => [:: UBiasU (b i 0) (u i 0)]
  | ADcm x => [:: UDcm (x i 0)] | ADcmU x u => [:: UDcmU (x i 0) (u i 0)]
  | ASample dcm zmp => [:: UInputs (dcm i 0) (zmp i 0); UUpdate R]
  end.
End Spec.
