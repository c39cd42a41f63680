(** What a history of orientation operations should compute: one rotation matrix per object
    ([None]: not set), with no notion of representation or cache. *)
From Coq Require Import Reals List Bool.
From Verif Require Import Vec3 Rot Orient.
Import ListNotations.
Open Scope R_scope.

Definition rots := nat -> option M3.
Definition sput (s : rots) (i : nat) (m : option M3) : rots := fun j => if Nat.eqb j i then m else s j.

(** [None] when the call uses an orientation that is not set, or aliases a no-alias product. *)
Definition spec_step (op : oop) (s : rots) : option rots :=
  let need1 i f := match s i with Some m => f m | None => None end in
  match op with
  | OVec i v => Some (sput s i (Some (rv_mat v)))
  | OQuat i q => Some (sput s i (Some (qrot q)))
  | OMat i m => Some (sput s i (Some m))
  | OAA i a => Some (sput s i (Some (aa_mat a)))
  | ORpy i r p y => Some (sput s i (Some (mmul (mmul (aa_mat (y, uz)) (aa_mat (p, uy))) (aa_mat (r, ux)))))
  | OBoth i _ m => Some (sput s i (Some m))
  | OZero i | OZeroMat i => Some (sput s i (Some m1))
  | OCopy i j => Some (sput s i (s j))
  | OReset i => Some (sput s i None)
  | OMul i j k => need1 j (fun a => need1 k (fun b => Some (sput s i (Some (mmul a b)))))
  | OSetProd i j k => if Nat.eqb i j || Nat.eqb i k then None
                      else need1 j (fun a => need1 k (fun b => Some (sput s i (Some (mmul a b)))))
  | OInv i j => need1 j (fun a => Some (sput s i (Some (mtr a))))
  | OInteg i v => need1 i (fun a => Some (sput s i (Some (mmul (rv_mat v) a))))
  | OSync i | OReadMat i | OReadQuat i | OReadVec i | OReadRpy i | OReadAA i | ORotate i _ => need1 i (fun _ => Some s)
  | ODiff i j => need1 i (fun _ => need1 j (fun _ => Some s))
  end.
Fixpoint spec_run (ops : list oop) (s : rots) : option rots :=
  match ops with
  | [] => Some s
  | o :: os => match spec_step o s with Some s' => spec_run os s' | None => None end
  end.

(** Arguments a caller may give: unit quaternions, rotation matrices, unit axes, and a matrix
    matching the quaternion when both are given. *)
Definition valid_op (op : oop) : Prop :=
  match op with
  | OQuat _ q => qn2 q = 1
  | OMat _ m => mmul m (mtr m) = m1 /\ mdet m = 1
  | OAA _ (_, u) => vsq u = 1
  | OBoth _ q m => qn2 q = 1 /\ m = qrot q
  | _ => True
  end.

(** The rotation held by an orientation, and coherence of its two representations. *)
Definition rot (o : Ori) : option M3 :=
  match om o with Some m => Some m | None => match oq o with Some q => Some (qrot q) | None => None end end.
Definition coh (o : Ori) : Prop :=
  (forall q, oq o = Some q -> qn2 q = 1) /\ (forall m, om o = Some m -> mmul m (mtr m) = m1 /\ mdet m = 1) /\
  (forall q m, oq o = Some q -> om o = Some m -> qrot q = m).

