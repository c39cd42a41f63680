(** Vocabulary of the statements about the dynamics of the kinetics observer. *)
From Coq Require Import Reals ZArith List Bool.
From Verif Require Import Base Vec3 Orient SpecOrient Kine KinObs SpecKin SpecKinSum KinDyn.
Import ListNotations.
Open Scope R_scope.

Definition vsum (l : list V3) : V3 := fold_right vadd v0 l.

Section S.
Context {C : Type}.
Notation obs := (obs R Kin M3 C).
(** The rotation, position and velocities of each present contact in the frame of the robot, as last given
    by the user. *)
Record frames := mkFr { fr : Z -> M3; fp : Z -> V3; fv : Z -> V3; fw : Z -> V3 }.
Definition contacts_at (s : obs) (a : frames) : Prop := forall j, In j (ko_getListOfContacts s) ->
  exists c, nth_error (o_contacts s) (Z.to_nat j) = Some c /\ coh (ko (c_kine c)) /\ rot (ko (c_kine c)) = Some (fr a j) /\
    kp (c_kine c) = Some (fp a j) /\ kv (c_kine c) = Some (fv a j) /\ kw (c_kine c) = Some (fw a j).
(** A vector component of the state, and the orientation. *)
Definition vat (md : mode) (s : obs) (x : list R) (c : comp) : V3 := vec_of (part md false s c x).
Definition qat (md : mode) (s : obs) (x : list R) : Q4 := quat_of (part md false s COri x).
(** The wrench on the robot at its origin, in its own frame: the given one, the unmodelled one and that of each
    present contact. *)
Definition total_force (md : mode) (b : body) (s : obs) (a : frames) (x : list R) : V3 :=
  vadd (b_addF b) (vadd (vat md s x CUForce) (vsum (map (fun j => mvec (fr a j) (vat md s x (CCForce j))) (ko_getListOfContacts s)))).
Definition total_torque (md : mode) (b : body) (s : obs) (a : frames) (x : list R) : V3 :=
  vadd (b_addT b) (vadd (vat md s x CUTorque) (vsum (map (fun j =>
    vadd (mvec (fr a j) (vat md s x (CCTorque j))) (vcross (fp a j) (mvec (fr a j) (vat md s x (CCForce j))))) (ko_getListOfContacts s)))).
End S.

(** The states of the observer in which its dynamics and measurement functions are used: the one reached by a
    history of calls, or the one of the update that follows, in which the filter calls them. *)
Section U.
Context {S Kn M C : Type} (s0 : S) (kfirst : mode -> Kn -> outcome Kn) (kupd : mode -> Z -> Kn -> Kn -> outcome Kn) (mzero : M -> bool).
Definition in_use (md : mode) (h : list (ko_op S Kn M C)) (s s' : KinObs.obs S Kn M C) : Prop :=
  ko_run s0 kfirst kupd mzero md h s = Ok s' \/ exists s1, ko_run s0 kfirst kupd mzero md h s = Ok s1 /\ ko_prepare md s1 = Ok s'.
End U.
