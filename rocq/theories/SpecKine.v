(** What kinematics are: motions of a frame, independent of the code. *)
From Coq Require Import Reals.
From Verif Require Import Vec3 Rot Orient SpecOrient Kine.
Open Scope R_scope.

(** Derivatives of curves of vectors and matrices, coefficient by coefficient. *)
Definition vderiv (f : R -> V3) (t : R) (d : V3) : Prop :=
  derivable_pt_lim (fun s => vx (f s)) t (vx d) /\ derivable_pt_lim (fun s => vy (f s)) t (vy d) /\
  derivable_pt_lim (fun s => vz (f s)) t (vz d).
Definition mderiv (f : R -> M3) (t : R) (d : M3) : Prop :=
  (derivable_pt_lim (fun s => m00 (f s)) t (m00 d) /\ derivable_pt_lim (fun s => m01 (f s)) t (m01 d) /\ derivable_pt_lim (fun s => m02 (f s)) t (m02 d)) /\
  (derivable_pt_lim (fun s => m10 (f s)) t (m10 d) /\ derivable_pt_lim (fun s => m11 (f s)) t (m11 d) /\ derivable_pt_lim (fun s => m12 (f s)) t (m12 d)) /\
  (derivable_pt_lim (fun s => m20 (f s)) t (m20 d) /\ derivable_pt_lim (fun s => m21 (f s)) t (m21 d) /\ derivable_pt_lim (fun s => m22 (f s)) t (m22 d)).

(** A motion of a frame: position, rotation, velocities and accelerations in the parent frame,
    each the derivative of the one before (R' = [w]x R). *)
Record motion := mkMo { mp : R -> V3; mr : R -> M3; mv : R -> V3; mw : R -> V3; ma : R -> V3; mal : R -> V3 }.
Definition is_motion (m : motion) : Prop := forall t,
  (mmul (mr m t) (mtr (mr m t)) = m1 /\ mdet (mr m t) = 1) /\
  vderiv (mp m) t (mv m t) /\ vderiv (mv m) t (ma m t) /\ mderiv (mr m) t (mmul (skew (mw m t)) (mr m t)) /\ vderiv (mw m) t (mal m t).

(** A kinematics object holding the motion at time t, whatever the representation of the rotation. *)
Definition holds (k : Kin) (m : motion) (t : R) : Prop :=
  kp k = Some (mp m t) /\ coh (ko k) /\ rot (ko k) = Some (mr m t) /\ kv k = Some (mv m t) /\ kw k = Some (mw m t) /\
  ka k = Some (ma m t) /\ kal k = Some (mal m t).

(** Two kinematics with the same components and the same rotation. *)
Definition same_kin (a b : Kin) : Prop :=
  kp a = kp b /\ rot (ko a) = rot (ko b) /\ kv a = kv b /\ kw a = kw b /\ ka a = ka b /\ kal a = kal b.
