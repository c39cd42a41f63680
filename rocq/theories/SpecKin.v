(** Vocabulary of the statements about the bookkeeping of the kinetics observer. *)
From Coq Require Import ZArith List Lia Bool.
From Verif Require Import Base KinObs.
Import ListNotations.
Open Scope Z_scope.

(** ** Components of the state vector *)
Inductive comp := CPos | COri | CLinVel | CAngVel | CGyro (i : Z) | CUForce | CUTorque
| CCPos (j : Z) | CCOri (j : Z) | CCForce (j : Z) | CCTorque (j : Z).
(** Number of entries in the state vector, and in the tangent vector (orientations have 3 there). *)
Definition comp_size (tangent : bool) (c : comp) : Z :=
  match c with COri | CCOri _ => if tangent then 3 else 4 | _ => 3 end.

Section S.
Context {S Kn M C : Type}.
Notation obs := (obs S Kn M C).
Notation ko_op := (ko_op S Kn M C).

(** First index of a component, from the public index functions. *)
Definition comp_start (md : mode) (tangent : bool) (s : obs) (c : comp) : outcome Z :=
  match c with
  | CPos => Ok (if tangent then posIndexTangent else posIndex)
  | COri => Ok (if tangent then oriIndexTangent else oriIndex)
  | CLinVel => Ok (if tangent then linVelIndexTangent else linVelIndex)
  | CAngVel => Ok (if tangent then angVelIndexTangent else angVelIndex)
  | CGyro i => (if tangent then gyroBiasIndexTangent else gyroBiasIndex) md (o_maxI s) i
  | CUForce => (if tangent then unmodeledForceIndexTangent else unmodeledForceIndex) md (o_maxI s)
  | CUTorque => (if tangent then unmodeledTorqueIndexTangent else unmodeledTorqueIndex) md (o_maxI s)
  | CCPos j => if tangent then ko_contactPosIndexTangent md j s else ko_contactPosIndex md j s
  | CCOri j => if tangent then ko_contactOriIndexTangent md j s else ko_contactOriIndex md j s
  | CCForce j => if tangent then ko_contactForceIndexTangent md j s else ko_contactForceIndex md j s
  | CCTorque j => if tangent then ko_contactTorqueIndexTangent md j s else ko_contactTorqueIndex md j s
  end.
(** The components that exist: the biases of the IMUs, the parts of the present contacts. *)
Definition comp_exists (s : obs) (c : comp) : Prop :=
  match c with
  | CGyro i => 0 <= i < o_maxI s
  | CCPos j | CCOri j | CCForce j | CCTorque j => In j (ko_getListOfContacts s)
  | _ => True
  end.

(** ** Histories *)
Definition no_clear (o : ko_op) : bool := match o with KClear => false | _ => true end.
(** Arguments of the right sizes (they have fixed sizes in the code, except the state vector). *)
Definition wf_op (nx : nat) (o : ko_op) : Prop :=
  match o with
  | KAdd pv _ _ => length pv = 7%nat
  | KIMU sig _ _ _ => length sig = 6%nat
  | KWrench w _ _ _ => length w = 6%nat
  | KPose sig _ => length sig = 7%nat
  | KSetKine kv _ => length kv = 13%nat
  | KSetBias b i => length b = 3%nat /\ 0 <= i
  | KSetWrench w => length w = 6%nat
  | KSetVector v => length v = nx
  | KUpdate e => forall x y, length x = nx -> length (e x y) = nx
  | _ => True
  end.

(** ** The set of contacts that a history describes *)
(** Whether an iteration is being prepared, the contacts present, those updated in this iteration. *)
Record cset := mkCset { cs_iter : bool; cs_present : Z -> bool; cs_fresh : Z -> bool }.
Definition upd (f : Z -> bool) (n : Z) (b : bool) : Z -> bool := fun j => if j =? n then b else f j.
Fixpoint first_free (fuel : nat) (p : Z -> bool) (n : Z) : Z :=
  match fuel with O => n | Datatypes.S f => if p n then first_free f p (n + 1) else n end.
Definition begin_iter (a : cset) : cset := if cs_iter a then a else mkCset true (cs_present a) (fun _ => false).
Definition cset_step (maxC : nat) (o : ko_op) (a : cset) : cset :=
  match o with
  | KAdd _ num _ =>
      let n := if num <? 0 then first_free maxC (cs_present a) 0 else num in
      let n := Z.min n (Z.of_nat maxC - 1) in
      mkCset (cs_iter a) (upd (cs_present a) n true) (cs_fresh a)
  | KRemove n => mkCset (cs_iter a) (upd (cs_present a) n false) (cs_fresh a)
  | KWrench _ _ _ n | KNoSensor _ n => let a := begin_iter a in mkCset true (cs_present a) (upd (cs_fresh a) n true)
  | KIMU _ _ _ _ | KPose _ _ | KInput => begin_iter a
  | KResetInputs => mkCset (cs_iter a) (cs_present a) (fun _ => false)
  | KUpdate _ => if cs_iter a then mkCset false (fun j => cs_present a j && cs_fresh a j) (cs_fresh a) else a
  | _ => a
  end.
Definition cset_run maxC (h : list ko_op) : cset := fold_left (fun a o => cset_step maxC o a) h (mkCset false (fun _ => false) (fun _ => false)).

(** ** The signals reported by a history *)
Definition last_some {A B} (f : A -> option B) (l : list A) : option B :=
  fold_left (fun acc a => match f a with Some b => Some b | None => acc end) l None.
Definition imu_signal (h : list ko_op) (i : Z) : option (list S) :=
  last_some (fun o => match o with KIMU sig _ _ num => if num =? i then Some sig else None | _ => None end) h.
Definition pose_signal (h : list ko_op) : option (list S) :=
  last_some (fun o => match o with KPose sig _ => Some sig | _ => None end) h.
(** The wrench of a contact: the last update with a sensor, unless updated without sensor since. *)
Definition contact_signal (h : list ko_op) (j : Z) : option (list S) :=
  match last_some (fun o => match o with
    | KWrench w _ _ n => if n =? j then Some (Some w) else None
    | KNoSensor _ n => if n =? j then Some None else None
    | _ => None end) h with Some x => x | None => None end.
Definition opt_list {A} (o : option (list A)) : list A := match o with Some l => l | None => [] end.
(** The indices 0..n-1. *)
Definition zseq (n : nat) : list Z := map Z.of_nat (seq 0 n).
(** A measurement vector made of the signals of the IMUs, of the contacts and of the pose sensor. *)
Definition meas_of {A} (maxI maxC : nat) (fI fC : Z -> option (list A)) (fP : option (list A)) : list A :=
  concat (map (fun i => opt_list (fI i)) (zseq maxI)) ++ concat (map (fun j => opt_list (fC j)) (zseq maxC)) ++ opt_list fP.
(** The calls that report data (they begin an iteration), and those that neither end one nor discard
    the reported data. *)
Definition reports (o : ko_op) : bool :=
  match o with KIMU _ _ _ _ | KWrench _ _ _ _ | KNoSensor _ _ | KPose _ _ | KInput => true | _ => false end.
Definition in_iteration (o : ko_op) : bool :=
  match o with KUpdate _ | KClear | KResetInputs => false | _ => true end.
Definition no_wrench (o : ko_op) : bool := match o with KWrench _ _ _ _ => false | _ => true end.
Definition updates_contact (j : Z) (o : ko_op) : bool :=
  match o with KWrench _ _ _ n | KNoSensor _ n => n =? j | _ => false end.
End S.
