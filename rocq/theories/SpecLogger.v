(** Vocabulary of the statements about the logger. *)
From Coq Require Import String ZArith List Bool.
From Verif Require Import Base Defs Logger.
Import ListNotations.
Open Scope Z_scope.

Section S.
Context {V : Type}.
Notation lg_op := (lg_op V).

(** The pushes of a history, in order. *)
Fixpoint pushes (ops : list lg_op) : list (memory V) :=
  match ops with [] => [] | LPush m :: os => m :: pushes os | _ :: os => pushes os end.
(** The calls that empty the log written in [file]: clearLogs, and save with the clear flag when the
    file could be opened. *)
Definition clears (file : string) (o : lg_op) : bool :=
  match o with LClearLogs => true | LSave c b => negb (String.eqb file "") && c file && b | _ => false end.
(** Calls that keep tracking address a. *)
Definition keeps (a : Z) (o : lg_op) : bool := match o with LClearTracking => false | LUpdate old _ t => negb (old =? a) && readable t | _ => true end.
(** Calls that keep every type known to update_. *)
Definition known (o : lg_op) : bool := match o with LUpdate _ _ t => readable t | _ => true end.

(** Histories that do not fail: the types are recordable and updateAddress is not used. *)
Definition plain (o : lg_op) : bool := match o with LRecord _ t _ => recordable t | LUpdate _ _ _ => false | _ => true end.
End S.
