(** Specification of a time-indexed array, independent of the deque:
    a partial map from time indices to values defined on an interval [lo,hi). *)
From Coq Require Import ZArith List Bool.
From Verif Require Import Base Defs.
Open Scope Z_scope.

Section Spec.
Context {A : Type}.

Record wmap := mkW { w_lo : Z; w_hi : Z; w_m : Z -> option A }.

Definition upd (m : Z -> option A) (k : Z) (o : option A) : Z -> option A :=
  fun t => if t =? k then o else m t.

Definition w_empty_at (k : Z) : wmap := mkW k k (fun _ => None).

(** Abstract effect of each operation; [None] is a rejected call. *)
Definition w_step (o : @ia_op A) (w : wmap) : option wmap :=
  let '(mkW lo hi m) := w in
  match o with
  | OSet v k =>
      if (lo <=? k) && (k <? hi) then Some (mkW lo hi (upd m k (Some v)))
      else if lo =? hi then Some (mkW k (k + 1) (upd (fun _ => None) k (Some v)))
      else if k =? hi then Some (mkW lo (hi + 1) (upd m k (Some v)))
      else None
  | OPush v => Some (mkW lo (hi + 1) (upd m hi (Some v)))
  | OPop => if lo <? hi then Some (mkW (lo + 1) hi (upd m lo None)) else None
  | OTruncAfter t =>
      Some (mkW lo (Z.min hi (Z.max lo (t + 1))) (fun i => if i <=? t then m i else None))
  | OClear => Some (w_empty_at hi)
  | OReset => Some (w_empty_at 0)
  | OResize n d =>
      if n <? 0 then None
      else Some (mkW lo (lo + n)
             (fun i => if (lo <=? i) && (i <? lo + n)
                       then match m i with Some v => Some v | None => Some d end
                       else None))
  end.

Fixpoint w_run (ops : list ia_op) (w : wmap) : option wmap :=
  match ops with
  | nil => Some w
  | cons o os => match w_step o w with Some w' => w_run os w' | None => None end
  end.
End Spec.
Arguments wmap A : clear implicits.

(** What an observer sees of an array at time [t] (debug build reads). *)
Definition seen {A} (a : iarr A) (t : Z) : option A :=
  match ia_get Debug a t with Ok v => Some v | _ => None end.

(** Agreement of an array with an abstract window: bounds, size, and every read in
    both build modes; reads outside the window assert in debug builds and are
    undefined in release builds. *)
Definition agrees {A} (a : iarr A) (w : wmap A) : Prop :=
  ia_first a = w_lo w /\ ia_next a = w_hi w /\ w_lo w <= w_hi w /\
  ia_size a = w_hi w - w_lo w /\
  forall t,
    ((w_lo w <= t < w_hi w) ->
       exists v, w_m w t = Some v /\ ia_get Debug a t = Ok v /\ ia_get Release a t = Ok v) /\
    (~ (w_lo w <= t < w_hi w) ->
       w_m w t = None /\ ia_get Debug a t = AssertFail /\ ia_get Release a t = UB).
