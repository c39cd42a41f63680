(** Model of CheckedItem, IndexedMatrixT and IndexedMatrixArrayT
    (include/state-observation/tools/definitions.hpp and definitions.hxx).
    Values are of an arbitrary type [A] (the matrix type parameter). *)
From Coq Require Import ZArith List Lia Bool.
From Verif Require Import Base.
Import ListNotations.
Open Scope Z_scope.

(** ** DebugItem / CheckedItem *)

(** definitions.hpp:283-336, instantiation CheckedItem<T,false,false,true,_>
    (CheckedVector3 etc., lines 338-343): a flag and a stored value. The stored
    value is [None] while nothing was ever written (uninitialised memory). *)
Record checked (A : Type) := mkChecked { ci_set : bool; ci_val : option A }.
Arguments mkChecked {A} _ _.
Arguments ci_set {A} _.
Arguments ci_val {A} _.

(** definitions.hxx:1-6 CheckedItem(true). *)
Definition ci_empty {A} : checked A := mkChecked false None.
(** definitions.hxx:30-41 CheckedItem(v), operator=(v). *)
Definition ci_of {A} (v : A) : checked A := mkChecked true (Some v).
(** definitions.hxx:124-128 reset(): only the flag is cleared. *)
Definition ci_reset {A} (c : checked A) : checked A := mkChecked false (ci_val c).
(** definitions.hxx:137-141 set(bool). *)
Definition ci_set_flag {A} (b : bool) (c : checked A) : checked A := mkChecked b (ci_val c).
(** definitions.hxx:87-116 operator()() with chckitm_check_: assertion on the flag
    (assertion=true), then in debug the exception branch which is unreachable after
    the assertion; in release no check, so an unwritten item is an uninitialised read. *)
Definition ci_get {A} (md : mode) (c : checked A) : outcome A :=
  do _ <- boost_assert md (ci_set c);
  match ci_val c with Some v => Ok v | None => UB end.

(** ** IndexedMatrixT *)

(** definitions.hpp:353-397, definitions.hxx:160-173; lazy=false. *)
Record imat (A : Type) := mkImat { im_set : bool; im_k : Z; im_v : option A }.
Arguments mkImat {A} _ _ _.
Arguments im_set {A} _.
Arguments im_k {A} _.
Arguments im_v {A} _.

(** definitions.hxx:168-173. *)
Definition im_empty {A} : imat A := mkImat false 0 None.
(** definitions.hxx:183-190 set(v,k) *)
Definition im_put {A} (v : A) (k : Z) : imat A := mkImat true k (Some v).
(** definitions.hxx:200-204 reset(): flag only. *)
Definition im_reset {A} (m : imat A) : imat A := mkImat false (im_k m) (im_v m).
(** definitions.hxx:229-242 operator()() . *)
Definition im_get {A} (md : mode) (m : imat A) : outcome A :=
  do _ <- boost_assert md (im_set m);
  match im_v m with Some v => Ok v | None => UB end.
(** definitions.hxx:245-250 getTime(). k_ is always initialised. *)
Definition im_time {A} (md : mode) (m : imat A) : outcome Z :=
  do _ <- boost_assert md (im_set m); Ok (im_k m).
(** definitions.hxx:221-226 setIndex(). *)
Definition im_setIndex {A} (md : mode) (k : Z) (m : imat A) : outcome (imat A) :=
  do _ <- boost_assert md (im_set m); Ok (mkImat (im_set m) k (im_v m)).

(** ** IndexedMatrixArrayT *)

(** definitions.hpp:411-, members k_ (first index) and v_ (std::deque). *)
Record iarr (A : Type) := mkIarr { ia_k : Z; ia_v : list A }.
Arguments mkIarr {A} _ _.
Arguments ia_k {A} _.
Arguments ia_v {A} _.

(** Conversion long -> int of the parameters of setFirstIndex / setLastIndex
    (definitions.hxx:356,362): two's complement truncation to 32 bits. *)
Definition narrow32 (z : Z) : Z := (z + 2147483648) mod 4294967296 - 2147483648.

Section Array.
Context {A : Type}.
Implicit Types a : iarr A.

(** v_.size() as TimeIndex, definitions.hxx:367-371. *)
Definition ia_size a : Z := Z.of_nat (length (ia_v a)).
(** definitions.hxx:428-433 default constructor. *)
Definition ia_empty : iarr A := mkIarr 0 [].
(** definitions.hxx:333-353. *)
Definition ia_last a : Z := ia_k a + ia_size a - 1.
Definition ia_next a : Z := ia_k a + ia_size a.
Definition ia_first a : Z := ia_k a.
(** definitions.hxx:388-394 checkIndex. *)
Definition ia_checkIndex a (t : Z) : bool :=
  (0 <? ia_size a) && (ia_k a <=? t) && (t <? ia_k a + ia_size a).
(** v_[size_t(time-k_)] (definitions.hxx:293,301): out of range is undefined.
    A negative offset becomes a huge size_t, also out of range. *)
Definition ia_at a (t : Z) : outcome A :=
  if (ia_k a <=? t) then
    match nth_error (ia_v a) (Z.to_nat (t - ia_k a)) with Some v => Ok v | None => UB end
  else UB.
(** definitions.hxx:288-302 operator[] read. *)
Definition ia_get (md : mode) a (t : Z) : outcome A :=
  do _ <- boost_assert md (ia_checkIndex a t); ia_at a t.
(** definitions.hxx:256-272 setValue. The write through operator[] of line 262 is
    in range because checkIndex holds. *)
Definition ia_setValue (md : mode) (v : A) (k : Z) a : outcome (iarr A) :=
  if ia_checkIndex a k then
    Ok (mkIarr (ia_k a) (list_set (Z.to_nat (k - ia_k a)) v (ia_v a)))
  else
    do _ <- boost_assert md ((ia_size a =? 0) || (ia_k a + ia_size a =? k));
    Ok (mkIarr (if ia_size a =? 0 then k else ia_k a) (ia_v a ++ [v])).
(** definitions.hxx:274-278. *)
Definition ia_pushBack (v : A) a : iarr A := mkIarr (ia_k a) (ia_v a ++ [v]).
(** definitions.hxx:280-286: pop_front on an empty deque is undefined. *)
Definition ia_popFront (md : mode) a : outcome (iarr A) :=
  do _ <- boost_assert md (negb (ia_size a =? 0));
  match ia_v a with [] => UB | _ :: l => Ok (mkIarr (ia_k a + 1) l) end.
(** definitions.hxx:305-331 front(), back(): unchecked. *)
Definition ia_front a : outcome A :=
  match ia_v a with [] => UB | x :: _ => Ok x end.
Definition ia_back a : outcome A :=
  match rev (ia_v a) with [] => UB | x :: _ => Ok x end.
(** definitions.hxx:355-359 setLastIndex(int). *)
Definition ia_setLastIndex (i : Z) a : iarr A :=
  mkIarr (narrow32 i - (ia_size a + 1)) (ia_v a).
(** definitions.hxx:361-365 setFirstIndex(int). *)
Definition ia_setFirstIndex (i : Z) a : iarr A := mkIarr (narrow32 i) (ia_v a).
(** definitions.hxx:373-379 reset. *)
Definition ia_reset a : iarr A := mkIarr 0 [].
(** definitions.hxx:381-386 clear. *)
Definition ia_clear a : iarr A := mkIarr (ia_k a + ia_size a) [].
(** definitions.hxx:421-426 resize(i,m); a negative size converts to a huge size_t
    and std::deque::resize throws std::length_error. *)
Definition ia_resize (i : Z) (m : A) a : outcome (iarr A) :=
  if i <? 0 then Throw else Ok (mkIarr (ia_k a) (list_resize (Z.to_nat i) m (ia_v a))).
(** definitions.hxx:442-453 getArray. *)
Definition ia_getArray a : list A := ia_v a.
(** definitions.hxx:455-472 truncateAfter. The call resize(TimeSize) of line 464 only
    shrinks, so its default matrix is never used: modelled by [firstn]. *)
Definition ia_truncateAfter (t : Z) a : iarr A :=
  if 0 <? ia_size a then
    if ia_first a <=? t then
      if t <? ia_last a then mkIarr (ia_k a) (firstn (Z.to_nat (t - ia_first a + 1)) (ia_v a))
      else a
    else mkIarr (ia_k a) []
  else a.
(** definitions.hxx:474-493 truncateBefore: the loop pops (time - first) elements (none
    if that is negative; time < last so the deque never runs empty); setFirstIndex takes
    an int. *)
Definition ia_truncateBefore (t : Z) a : iarr A :=
  if 0 <? ia_size a then
    if t <? ia_last a then
      ia_setFirstIndex t (mkIarr (ia_k a) (skipn (Z.to_nat (t - ia_first a)) (ia_v a)))
    else mkIarr (ia_k a) []
  else a.

(** Public mutators, as an operation alphabet (see the individual definitions). *)
Inductive ia_op :=
| OSet (v : A) (k : Z)
| OPush (v : A)
| OPop
| OTruncAfter (t : Z)
| OClear
| OReset
| OResize (i : Z) (m : A).

(** Dispatch of [ia_op] to the modelled functions. *)
Definition ia_step (md : mode) (o : ia_op) a : outcome (iarr A) :=
  match o with
  | OSet v k => ia_setValue md v k a
  | OPush v => Ok (ia_pushBack v a)
  | OPop => ia_popFront md a
  | OTruncAfter t => Ok (ia_truncateAfter t a)
  | OClear => Ok (ia_clear a)
  | OReset => Ok (ia_reset a)
  | OResize i m => ia_resize i m a
  end.

Definition ia_run (md : mode) (ops : list ia_op) a := orun (ia_step md) ops a.
End Array.
