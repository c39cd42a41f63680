(** Vocabulary of the properties of the models of an inertial unit. *)
From Coq Require Import ZArith List Bool Reals.
From Verif Require Import Base Vec3 Rot SpecRot SpecKine Kine Sensors ImuSys.
Import ListNotations.
Open Scope R_scope.

(** What a call returns. *)
Definition out {A S} (r : outcome (A * S)) : outcome A := do (y, _) <- r; Ok y.
(** A noise source returns as many values as it is given. *)
Definition keeps_size (nz : noises R) : Prop := forall id n l y, nz id n l = Ok y -> length y = length l.
(** The outcome of adding the noise [id], if any, for the n-th time. *)
Definition with_noise (nz : noises R) (o : option nat) (n : nat) (y : list R) : outcome (list R) := match o with None => Ok y | Some id => nz id n y end.
(** The vectors for which the library computes the rotation exactly: not shorter than 1e-16, or null. *)
Definition exact_rv (v : V3) : Prop := epsA * epsA < vsq v \/ v = v0.

(** The motion of the unit: that of the state, or, on a flexible base, the composition of the motion of the base and of the
    motion of the unit on the base. *)
Definition unit_motion (kd : ikind) (base mi mg : motion) : Prop :=
  match kd with
  | KImu | KMag => mg = base
  | _ => forall u, mp mg u = vadd (mp base u) (mvec (mr base u) (mp mi u)) /\ mr mg u = mmul (mr base u) (mr mi u)
  end.

(** The state after n steps fed back to the model, with the inputs [u 0], [u 1], ... *)
Fixpoint feed (nz : noises R) (kd : ikind) (md : mode) (u : nat -> list R) (n : nat) (x : list R) (s : isys) : outcome (list R * isys) :=
  match n with
  | O => Ok (x, s)
  | S n => do (x, s) <- feed nz kd md u n x s; i_stateDynamics nz kd md x (u n) s
  end.

(** The angular momentum about the contact of a mass m at (p, h) in the frame turned by th, in the plane. *)
Definition pend_x (p h th : R) : R := p * cos th - h * sin th.
Definition pend_y (p h th : R) : R := p * sin th + h * cos th.
