(** Vocabulary of the statements about sums and differences of states. *)
From Coq Require Import Reals ZArith List Bool.
From Verif Require Import Base Vec3 KinObs SpecKin.
Import ListNotations.
Open Scope Z_scope.

Definition is_ori (c : comp) : bool := match c with COri | CCOri _ => true | _ => false end.
Definition vec_of (l : list R) : V3 := mkV (nth 0 l 0%R) (nth 1 l 0%R) (nth 2 l 0%R).
Definition quat_of (l : list R) : Q4 := mkQ (nth 3 l 0%R) (nth 0 l 0%R) (nth 1 l 0%R) (nth 2 l 0%R).

Section S.
Context {Kn M C : Type}.
Notation obs := (obs R Kn M C).
(** The components that exist and are not switched off. *)
Definition active (s : obs) (c : comp) : Prop :=
  comp_exists s c /\ match c with CGyro _ => o_withGyro s = true | CUForce | CUTorque => o_withUnm s = true | _ => True end.
(** A component of a state vector ([t] false) or of a tangent vector ([t] true), found with the public
    index functions. *)
Definition part (md : mode) (t : bool) (s : obs) (c : comp) (v : list R) : list R :=
  match comp_start md t s c with
  | Ok z => firstn (Z.to_nat (comp_size t c)) (skipn (Z.to_nat z) v)
  | _ => []
  end.
(** Index [k] belongs to no active component. *)
Definition outside (md : mode) (t : bool) (s : obs) (k : nat) : Prop :=
  forall c z, active s c -> comp_start md t s c = Ok z -> ~ (z <= Z.of_nat k < z + comp_size t c).
End S.
