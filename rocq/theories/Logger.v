(** Model of the Logger (src/logger.cpp, include/state-observation/tools/logger.hxx, logger.hpp).
    Addresses are integers. The memory is a function giving the value read at an address with a
    type; it is an argument of push. Matrices are values of an arbitrary type. *)
From Coq Require Import String ZArith List Lia Bool.
From Verif Require Import Base Defs Simulator.
Import ListNotations.
Open Scope Z_scope.

Section Log.
Context {V : Type}.

(** The static types (std::type_info). [TOther n]: any other type. Eigen's Index is long. *)
Inductive ty := TyMatrix | TyMatrix3 | TyVector | TyVector3 | TyInt | TyUnsigned | TyLong | TyDouble | TyFloat | TyOther (n : nat).
(** logger.hxx:11-18. *)
Definition recordable (t : ty) : bool :=
  match t with TyUnsigned | TyOther _ => false | _ => true end.
(** logger.cpp:83-128: the types update_ reads. *)
Definition readable (t : ty) : bool := match t with TyOther _ => false | _ => true end.
Definition memory := Z -> ty -> V.

(** logger.hpp:63-83. [l_scalar] is scalar_: its content is uninitialised after resize(1,1)
    (logger.cpp:8-11). *)
Record log_s := mkLog { g_array : iarr V; g_file : string; g_type : ty }.
Record logger := mkLogger { l_logs : list (Z * log_s); l_scalar : option V }.
(** logger.cpp:8-11. *)
Definition logger_init : logger := mkLogger [] None.

(** std::map::find and erase on the sorted list of entries. *)
Fixpoint map_find {B} (k : Z) (l : list (Z * B)) : option B :=
  match l with [] => None | (k', b) :: l' => if k =? k' then Some b else map_find k l' end.
Definition map_erase {B} (k : Z) (l : list (Z * B)) : list (Z * B) := filter (fun p => negb (fst p =? k)) l.

(** logger.hxx:6-34. *)
Definition lg_record (md : mode) (a : Z) (t : ty) (file : string) (l : logger) : outcome logger :=
  if recordable t then Ok (mkLogger (map_insert a (mkLog ia_empty file t) (l_logs l)) (l_scalar l))
  else match md with Debug => AssertFail | Release => Throw end.

(** logger.cpp:79-131: value pushed and new content of scalar_. For a type update_ does not know,
    scalar_ is pushed as it is. *)
Definition is_scalar (t : ty) : bool := match t with TyMatrix | TyMatrix3 | TyVector | TyVector3 => false | _ => true end.
Definition lg_update (m : memory) (a : Z) (g : log_s) (sc : option V) : outcome (log_s * option V) :=
  let push v := mkLog (ia_pushBack v (g_array g)) (g_file g) (g_type g) in
  if negb (is_scalar (g_type g)) then Ok (push (m a (g_type g)), sc)
  else if readable (g_type g) then Ok (push (m a (g_type g)), Some (m a (g_type g)))
  else match sc with Some v => Ok (push v, sc) | None => UB end.
(** logger.cpp:71-77, in the order of the map. *)
Fixpoint lg_push_all (m : memory) (l : list (Z * log_s)) (sc : option V) : outcome (list (Z * log_s) * option V) :=
  match l with
  | [] => Ok ([], sc)
  | (a, g) :: l' => do (g, sc) <- lg_update m a g sc; do (l', sc) <- lg_push_all m l' sc; Ok ((a, g) :: l', sc)
  end.
Definition lg_push (m : memory) (l : logger) : outcome logger :=
  do (logs, sc) <- lg_push_all m (l_logs l) (l_scalar l); Ok (mkLogger logs sc).
(** logger.hxx:36-47 push(address): the update is made, then the throw of line 45 is executed in
    every case (it is not part of the else branch). The pair is the logger as the exception leaves
    it and the outcome. *)
Definition lg_pushOne (md : mode) (m : memory) (a : Z) (l : logger) : logger * outcome unit :=
  match map_find a (l_logs l) with
  | Some g => match lg_update m a g (l_scalar l) with
              | Ok (g', sc) => (mkLogger (map (fun p => if fst p =? a then (a, g') else p) (l_logs l)) sc, Throw)
              | _ => (l, UB)
              end
  | None => (l, match md with Debug => AssertFail | Release => Throw end)
  end.
(** logger.hxx:55-72. *)
Definition lg_updateAddress (md : mode) (old new : Z) (t : ty) (l : logger) : outcome logger :=
  match map_find old (l_logs l) with
  | None => match md with Debug => AssertFail | Release => Throw end
  | Some g => Ok (mkLogger (map_erase old (map_insert new (mkLog ia_empty (g_file g) t) (l_logs l))) (l_scalar l))
  end.
(** logger.cpp:34-45. *)
Definition lg_clearTracking (l : logger) : logger := mkLogger [] (l_scalar l).
Definition lg_clearLogs (l : logger) : logger :=
  mkLogger (map (fun p => (fst p, mkLog (ia_clear (g_array (snd p))) (g_file (snd p)) (g_type (snd p)))) (l_logs l)) (l_scalar l).
(** logger.cpp:23-32; [canopen] tells which files could be opened. The content of the files is in
    ArrayIO.v; here only the effect on the logs (definitions.hxx:623-672: cleared when the file was
    opened and clear is set). *)
Definition lg_save (canopen : string -> bool) (clear : bool) (l : logger) : logger :=
  mkLogger (map (fun p => if negb (String.eqb (g_file (snd p)) "") && canopen (g_file (snd p)) && clear
                          then (fst p, mkLog (ia_clear (g_array (snd p))) (g_file (snd p)) (g_type (snd p))) else p) (l_logs l)) (l_scalar l).
(** logger.cpp:47-69. *)
Definition lg_getRecord (md : mode) (a : Z) (l : logger) : outcome (iarr V) :=
  match map_find a (l_logs l) with
  | Some g => Ok (g_array g)
  | None => match md with Debug => AssertFail | Release => Throw end
  end.

(** The public calls that change the logger. *)
Inductive lg_op := LRecord (a : Z) (t : ty) (file : string) | LPush (m : memory) | LUpdate (old new : Z) (t : ty)
| LClearTracking | LClearLogs | LSave (canopen : string -> bool) (clear : bool).
Definition lg_step (md : mode) (o : lg_op) (l : logger) : outcome logger :=
  match o with
  | LRecord a t f => lg_record md a t f l
  | LPush m => lg_push m l
  | LUpdate old new t => lg_updateAddress md old new t l
  | LClearTracking => Ok (lg_clearTracking l)
  | LClearLogs => Ok (lg_clearLogs l)
  | LSave c b => Ok (lg_save c b l)
  end.
Definition lg_run md ops l := orun (lg_step md) ops l.
End Log.
Arguments memory : clear implicits.
Arguments logger : clear implicits.
Arguments lg_op : clear implicits.
