(** Model of kine::Orientation (rigid-body-kinematics.hpp:354-465, .hxx:687-1028): an
    orientation held as a quaternion, a matrix, or both, with caches filled by reading. *)
From Coq Require Import Reals List Bool.
From Verif Require Import Base Vec3 Rot.
Import ListNotations.
Open Scope R_scope.

(** rigid-body-kinematics.hpp:463-464: the two CheckedItem members. [None]: isSet() is false.
    What an unset item still holds is not modelled: reading it is an assertion failure in debug
    and counted as undefined in release. *)
Record Ori := mkO { oq : option Q4; om : option M3 }.

(** definitions.hxx:87-116 CheckedItem::operator()(). *)
Definition oget {A} (md : mode) (x : option A) : outcome A :=
  match x with Some a => Ok a | None => match md with Debug => AssertFail | Release => UB end end.
Definition isSome {A} (x : option A) : bool := match x with Some _ => true | None => false end.

(** rigid-body-kinematics.hxx:687 Orientation(true): nothing set. *)
Definition o_empty : Ori := mkO None None.
(** .hxx:689-700 constructors and .hxx:709-735, 744-747 assignments from a rotation vector, a
    quaternion, a matrix, an angle-axis, roll-pitch-yaw (the other item is reset). *)
Definition o_quat (q : Q4) : Ori := mkO (Some q) None.
Definition o_mat (m : M3) : Ori := mkO None (Some m).
Definition o_vec (v : V3) : Ori := o_quat (rv_quat v).
Definition o_aa (a : AA) : Ori := o_quat (aa_quat a).
Definition o_rpy (r p y : R) : Ori := o_quat (rpy_quat r p y).
(** .hxx:702 Orientation(q, m) and .hxx:737-742 setValue. *)
Definition o_both (q : Q4) (m : M3) : Ori := mkO (Some q) (Some m).
(** .hxx:754-769 setZeroRotation, .hxx:1018-1021 zeroRotation. *)
Definition o_zero : Ori := o_quat q1.
Definition o_zero_mat : Ori := o_mat m1.
Definition o_zero_both : Ori := o_both q1 m1.

(** .hxx:933-936 isSet. *)
Definition o_isSet (o : Ori) : bool := isSome (om o) || isSome (oq o).
(** .hxx:1003-1006 check_. *)
Definition o_check (md : mode) (o : Ori) : outcome unit := boost_assert md (isSome (oq o) || isSome (om o)).
(** .hxx:1008-1016 quaternionToMatrix_, matrixToQuaternion_ (they fill the mutable cache). *)
Definition o_q2m (md : mode) (o : Ori) : outcome (M3 * Ori) :=
  do q <- oget md (oq o); Ok (qrot q, mkO (oq o) (Some (qrot q))).
Definition o_m2q (md : mode) (o : Ori) : outcome (Q4 * Ori) :=
  do m <- oget md (om o); Ok (mat_quat m, mkO (Some (mat_quat m)) (om o)).
(** .hxx:812-820 toMatrix3, .hxx:822-830 toQuaternion (also toVector4, 771-774). *)
Definition o_toMat (md : mode) (o : Ori) : outcome (M3 * Ori) :=
  do _ <- o_check md o; match om o with Some m => Ok (m, o) | None => o_q2m md o end.
Definition o_toQuat (md : mode) (o : Ori) : outcome (Q4 * Ori) :=
  do _ <- o_check md o; match oq o with Some q => Ok (q, o) | None => o_m2q md o end.
(** .hxx:776-787 toRotationVector (no cache filled), 799-810 toAngleAxis. *)
Definition o_toVec (md : mode) (o : Ori) : outcome V3 :=
  do _ <- o_check md o;
  match oq o with Some q => Ok (quat_rv q) | None => do m <- oget md (om o); Ok (mat_rv m) end.
Definition o_toAA (md : mode) (o : Ori) : outcome AA :=
  do _ <- o_check md o;
  match om o with Some m => Ok (mat_aa m) | None => do q <- oget md (oq o); Ok (quat_aa q) end.
(** .hxx:789-797 toRollPitchYaw. *)
Definition o_toRPY (md : mode) (o : Ori) : outcome (V3 * Ori) :=
  do (m, o') <- o_toMat md o; Ok (mat_rpy m, o').
(** .hxx:983-991 operator*(Vector3). *)
Definition o_rot (md : mode) (o : Ori) (v : V3) : outcome (V3 * Ori) :=
  do (m, o') <- o_toMat md o; Ok (mvec m v, o').
(** .hxx:842-877 setToProductNoAlias: the product and the operands, whose caches may be filled.
    The result must be another object than the operands (as its name says). *)
Definition o_mul (md : mode) (a b : Ori) : outcome (Ori * Ori * Ori) :=
  do _ <- o_check md a; do _ <- o_check md b;
  match oq a, oq b with
  | Some qa, Some qb =>
      Ok (mkO (Some (qmul qa qb)) (match om a, om b with Some ma, Some mb => Some (mmul ma mb) | _, _ => None end), a, b)
  | _, _ =>
      match om a with
      | None => do (ma, a') <- o_q2m md a; do mb <- oget md (om b); Ok (o_mat (mmul ma mb), a', b)
      | Some ma => match om b with
                   | None => do (mb, b') <- o_q2m md b; Ok (o_mat (mmul ma mb), a, b')
                   | Some mb => Ok (o_mat (mmul ma mb), a, b)
                   end
      end
  end.
(** .hxx:884-902 inverse. *)
Definition o_inv (md : mode) (o : Ori) : outcome Ori :=
  do _ <- o_check md o;
  match oq o, om o with
  | Some q, Some m => Ok (o_both (qinv q) (mtr m))
  | Some q, None => Ok (o_quat (qinv q))
  | None, _ => do m <- oget md (om o); Ok (o_mat (mtr m))
  end.
(** .hxx:904-925 integrate (argument: dt * omega, world frame). *)
Definition o_integrate (md : mode) (v : V3) (o : Ori) : outcome Ori :=
  do _ <- o_check md o;
  match oq o, om o with
  | Some q, Some m => let d := rv_quat v in Ok (o_both (qmul d q) (mmul (qrot d) m))
  | Some q, None => Ok (o_quat (qmul (rv_quat v) q))
  | None, _ => do m <- oget md (om o); Ok (o_mat (mmul (rv_mat v) m))
  end.
(** .hxx:927-931 differentiate: log of R_k1 * this^-1. R_k1 is passed by value, so no cache of
    the caller is touched. *)
Definition o_diff (md : mode) (o k1 : Ori) : outcome V3 :=
  do _ <- o_check md o; do i <- o_inv md o; do (p, _, _) <- o_mul md k1 i; o_toVec md p.
(** .hxx:938-955 synchronize. *)
Definition o_sync (md : mode) (o : Ori) : outcome Ori :=
  do _ <- o_check md o;
  match om o, oq o with
  | Some _, None => do (_, o') <- o_m2q md o; Ok o'
  | None, Some _ => do (_, o') <- o_q2m md o; Ok o'
  | _, _ => Ok o
  end.

(** ** Histories of operations on a collection of Orientation objects *)
Definition store := nat -> Ori.
Definition put (s : store) (i : nat) (o : Ori) : store := fun j => if Nat.eqb j i then o else s j.

(** The public operations, on object [i] (and [j], [k]). *)
Inductive oop :=
| OVec (i : nat) (v : V3) | OQuat (i : nat) (q : Q4) | OMat (i : nat) (m : M3) | OAA (i : nat) (a : AA)
| ORpy (i : nat) (r p y : R) | OBoth (i : nat) (q : Q4) (m : M3) | OZero (i : nat) | OZeroMat (i : nat)
| OCopy (i j : nat) | OReset (i : nat) | OMul (i j k : nat) | OSetProd (i j k : nat) | OInv (i j : nat) | OInteg (i : nat) (v : V3)
| OSync (i : nat) | OReadMat (i : nat) | OReadQuat (i : nat) | OReadVec (i : nat) | OReadRpy (i : nat)
| OReadAA (i : nat) | ORotate (i : nat) (v : V3) | ODiff (i j : nat).

(** One public call. [OMul] is operator* followed by an assignment (the product is a new object,
    .hxx:879-882, 704-707); [OSetProd] is setToProductNoAlias into object [i]: with [i] equal to an
    operand it is outside the contract of the code (counted as undefined). *)
Definition o_step (md : mode) (op : oop) (s : store) : outcome store :=
  match op with
  | OVec i v => Ok (put s i (o_vec v))
  | OQuat i q => Ok (put s i (o_quat q))
  | OMat i m => Ok (put s i (o_mat m))
  | OAA i a => Ok (put s i (o_aa a))
  | ORpy i r p y => Ok (put s i (o_rpy r p y))
  | OBoth i q m => Ok (put s i (o_both q m))
  | OZero i => Ok (put s i o_zero)
  | OZeroMat i => Ok (put s i o_zero_mat)
  | OCopy i j => Ok (put s i (s j))
  | OReset i => Ok (put s i o_empty)
  | OMul i j k => do (p, a, b) <- o_mul md (s j) (s k); Ok (put (put (put s k b) j a) i p)
  | OSetProd i j k => if (Nat.eqb i j || Nat.eqb i k)%bool then UB else
                      do (p, a, b) <- o_mul md (s j) (s k); Ok (put (put (put s k b) j a) i p)
  | OInv i j => do p <- o_inv md (s j); Ok (put s i p)
  | OInteg i v => do p <- o_integrate md v (s i); Ok (put s i p)
  | OSync i => do p <- o_sync md (s i); Ok (put s i p)
  | OReadMat i => do (_, p) <- o_toMat md (s i); Ok (put s i p)
  | OReadQuat i => do (_, p) <- o_toQuat md (s i); Ok (put s i p)
  | OReadVec i => do _ <- o_toVec md (s i); Ok s
  | OReadRpy i => do (_, p) <- o_toRPY md (s i); Ok (put s i p)
  | OReadAA i => do _ <- o_toAA md (s i); Ok s
  | ORotate i v => do (_, p) <- o_rot md (s i) v; Ok (put s i p)
  | ODiff i j => do _ <- o_diff md (s i) (s j); Ok s
  end.
