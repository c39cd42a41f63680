(** Vocabulary of the statements about the covariances of the kinetics observer. *)
From mathcomp Require Import all_ssreflect all_algebra.
From Coq Require Import ZArith.
From Verif Require Import Base MxLib KinObs SpecKin KinCov.
Set Implicit Arguments.
Unset Strict Implicit.
Unset Printing Implicit Defensive.
Import GRing.Theory Num.Theory.
Local Open Scope ring_scope.

Section Spec.
Variable R : rcfType.

(** [P'] has the block [B] on the diagonal at [z], zero covariances between it and the rest, and the
    other entries of [P]. *)
Definition isolates n k (z : Z) (B : 'M[R]_k) (P P' : 'M[R]_n) : Prop :=
  let inside (i : 'I_n) := (z <= Z.of_nat i < z + Z.of_nat k)%Z in
  [/\ forall (i j : 'I_n) (a b : 'I_k), Z.of_nat i = (z + Z.of_nat a)%Z -> Z.of_nat j = (z + Z.of_nat b)%Z -> P' i j = B a b,
      forall i j, inside i -> ~ inside j -> P' i j = 0 /\ P' j i = 0
    & forall i j, ~ inside i -> ~ inside j -> P' i j = P i j].

Context {S Kn M C : Type}.
Notation obs := (obs S Kn M C).
Notation kcov := (kcov R S Kn M C).

(** The matrix that a call changes (true: process covariance), the first of the components concerned,
    and the matrix it must put there. *)
Definition target nt (d : defaults R) (o : kc_op R S Kn M C nt) : option (bool * comp * {k : nat & 'M[R]_k}) :=
  match o with
  | @CKine _ _ _ _ _ _ _ B => Some (false, CPos, existT (fun k => 'M[R]_k) _ B)
  | CGyroCov q B i => Some (q, CGyro i, existT (fun k => 'M[R]_k) _ B)
  | CUnm q B => Some (q, CUForce, existT (fun k => 'M[R]_k) _ B)
  | CContact q n B => Some (q, CCPos n, existT (fun k => 'M[R]_k) _ B)
  | CRKine q => Some (q, CPos, existT (fun k => 'M[R]_k) _ (if q then q_kine d else d_kine d))
  | CRGyro q i => Some (q, CGyro i, existT (fun k => 'M[R]_k) _ (if q then q_gyro d else d_gyro d))
  | CRUnm q => Some (q, CUForce, existT (fun k => 'M[R]_k) _ (if q then q_unm d else d_unm d))
  | CRContact q n => Some (q, CCPos n, existT (fun k => 'M[R]_k) _ (if q then q_con d else d_con d))
  | CSetKine _ false => Some (false, CPos, existT (fun k => 'M[R]_k) _ (d_kine d))
  | _ => None
  end.
(** The blocks that a reset of the whole state (process) covariance must write; [imus]: the IMUs
    concerned. *)
Definition groups (imus : list Z) (q : bool) (d : defaults R) (o : obs) : list (comp * {k : nat & 'M[R]_k}) :=
  let bl (c : comp) k (B : 'M[R]_k) := (c, existT (fun k => 'M[R]_k) k B) in
  bl CPos _ (if q then q_kine d else d_kine d) ::
  map (fun i => bl (CGyro i) _ (if q then q_gyro d else d_gyro d)) imus ++
  bl CUForce _ (if q then q_unm d else d_unm d) ::
  map (fun n => bl (CCPos n) _ (if q then q_con d else d_con d)) (ko_getListOfContacts o).
(** The IMUs that reported in the current iteration (before any: all of them). *)
Definition current_imus (o : obs) : list Z :=
  List.filter (fun i => match List.nth_error (o_imus o) (Z.to_nat i) with Some u => Z.eqb (i_time u) (o_kdata o) | None => false end) (zseq (length (o_imus o))).
(** [P'] has each block of [l] at the place [start] of its component, zero covariances between each of
    them and the rest, and the entries of [P] elsewhere. *)
Definition resets n (start : comp -> Z -> Prop) (l : list (comp * {k : nat & 'M[R]_k})) (P P' : 'M[R]_n) : Prop :=
  let inside z k (i : 'I_n) := (z <= Z.of_nat i < z + Z.of_nat k)%Z in
  [/\ forall p z, List.In p l -> start p.1 z -> forall (i j : 'I_n) (a b : 'I_(projT1 p.2)),
        Z.of_nat i = (z + Z.of_nat a)%Z -> Z.of_nat j = (z + Z.of_nat b)%Z -> P' i j = projT2 p.2 a b,
      forall p z, List.In p l -> start p.1 z -> forall i j, inside z (projT1 p.2) i -> ~ inside z (projT1 p.2) j -> P' i j = 0 /\ P' j i = 0
    & forall i j, (forall p z, List.In p l -> start p.1 z -> ~ inside z (projT1 p.2) i /\ ~ inside z (projT1 p.2) j) -> P' i j = P i j].
(** Arguments that are covariance matrices, and functions that give one. *)
Definition psd_op nt (o : kc_op R S Kn M C nt) : Prop :=
  match o with
  | COp _ f => forall P, psd P -> psd (f P)
  | CAdd _ _ _ B Q => psd B /\ psd Q
  | CState P => psd P
  | CProcess Q => psd Q
  | @CKine _ _ _ _ _ _ _ B => psd B
  | CGyroCov _ B _ => psd B
  | CUnm _ B => psd B
  | CContact _ _ B => psd B
  | CDKine B => psd B
  | CDGyro B => psd B
  | CDUnm B => psd B
  | CDContact B => psd B
  | _ => True
  end.
(** The calls on the bookkeeping that a call does. *)
Definition obs_op nt (o : kc_op R S Kn M C nt) : list (ko_op S Kn M C) :=
  match o with
  | COp o _ => [:: o]
  | CAdd pv num st _ _ => [:: KAdd pv num st]
  | CSetKine kv b => [:: KSetKine kv b]
  | CSetBias b i => [:: KSetBias b i]
  | CSetWrench w => [:: KSetWrench w]
  | CSetVector v => [:: KSetVector v]
  | _ => [::]
  end.
Definition obs_ops nt (h : list (kc_op R S Kn M C nt)) : list (ko_op S Kn M C) := flatten (map (@obs_op nt) h).
End Spec.
