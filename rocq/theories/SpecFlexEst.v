(** Specification of the flexibility estimators, independent of the buffers of the filter: an
    automaton that holds at most one pending measurement, the input of the current time and the
    input of the next time. *)
From Coq Require Import Reals ZArith List Bool.
From Verif Require Import Base Defs ZDO Vec3 Sensors FlexEst.
Import ListNotations.
Open Scope Z_scope.

Section Spec.
Context {Y U E : Type}.
Notation X := (list fl).
Variable sy : Y -> Z.
Variable su : U -> Z.
Variable st : @stepfun X Y U E.
Variable jac : mode -> E -> Z -> X -> outcome Y -> outcome U -> outcome U -> outcome E.
Variable creset preset setQ : E -> E.
Variable esize : Z -> Z -> E -> E.

(** Filter data, time, state of the filter, last vector returned, pending measurement, inputs. *)
Record aut := mkA {
  a_n : Z; a_m : Z; a_p : Z;
  a_e : E; a_t : Z; a_x : X; a_last : X;
  a_y : option Y; a_u : option (U * option U);
  a_on : bool; a_lim : bool; a_lf : V3; a_lt : V3 }.

(** What reading a datum that was not given does. *)
Definition missing {A} (md : mode) : outcome A := match md with Debug => AssertFail | Release => UB end.
Definition given {A} (md : mode) (o : option A) : outcome A :=
  match o with Some a => Ok a | None => missing md end.

(** The state of the filter is replaced (a debug build checks its size). *)
Definition a_state (md : mode) (x : X) (a : aut) : outcome aut :=
  do _ <- boost_assert md (Z.of_nat (length x) =? a_n a);
  Ok (mkA (a_n a) (a_m a) (a_p a) (a_e a) (a_t a) x (a_last a) (a_y a) (a_u a) (a_on a) (a_lim a) (a_lf a) (a_lt a)).
Definition a_extra (e : E) (a : aut) : aut :=
  mkA (a_n a) (a_m a) (a_p a) e (a_t a) (a_x a) (a_last a) (a_y a) (a_u a) (a_on a) (a_lim a) (a_lf a) (a_lt a).
Definition a_answer (l : X) (a : aut) : aut :=
  mkA (a_n a) (a_m a) (a_p a) (a_e a) (a_t a) (a_x a) l (a_y a) (a_u a) (a_on a) (a_lim a) (a_lf a) (a_lt a).
Definition a_data (y : option Y) (u : option (U * option U)) (a : aut) : aut :=
  mkA (a_n a) (a_m a) (a_p a) (a_e a) (a_t a) (a_x a) (a_last a) y u (a_on a) (a_lim a) (a_lf a) (a_lt a).

(** One step of the filter: consumes the measurement, the input of the next time becomes the one
    of the current time. *)
Definition a_filter (md : mode) (y : Y) (a : aut) : outcome (aut * X) :=
  let u0 := option_map fst (a_u a) in
  let u1 := match a_u a with Some (_, n) => n | None => None end in
  do e <- jac md (a_e a) (a_t a) (a_x a) (Ok y) (given md u0) (given md u1);
  do xe <- st md e (a_t a) (a_x a) (Ok y) (given md u0) (given md u1);
  do _ <- given md u0;
  Ok (mkA (a_n a) (a_m a) (a_p a) (snd xe) (a_t a + 1) (fst xe) (a_last a) None
        (option_map (fun u => (u, None)) u1) (a_on a) (a_lim a) (a_lf a) (a_lt a), fst xe).

(** getFlexibilityVector of ModelBaseEKFFlexEstimatorIMU. *)
Definition a_get (md : mode) (a : aut) : outcome (aut * X) :=
  if a_on a then
    match a_y a with
    | None => Ok (a, a_last a)
    | Some y =>
        do r <- a_filter md y a;
        if has_nan (snd r) then
          do a1 <- a_state md (a_last a) (fst r);
          Ok (if 1 <? a_t a1 then a_extra (preset (creset (a_e a1))) a1 else a1, a_last a)
        else
          do x1 <- regulate_at (snd r);
          let l := if a_lim a then saturate (a_lf a) (a_lt a) x1 else x1 in
          do a1 <- a_state md l (fst r);
          Ok (a_answer l a1, l)
    end
  else
    let l := map (fun _ => Fin 0) (a_last a) in
    do a1 <- a_state md l a;
    Ok (a_answer l (match a_y a with
                    | None => a1
                    | Some _ => a_extra (preset (a_e a1)) (a_data None None a1)
                    end), l).

(** getFlexibilityVector of FixedContactEKFFlexEstimatorIMU. *)
Definition a_fget (md : mode) (a : aut) : outcome (aut * X) :=
  match a_y a with
  | None => Ok (a, a_last a)
  | Some y =>
      do r <- a_filter md y a;
      if has_nan (snd r) then
        do a1 <- a_state md (a_last a) (fst r);
        let a2 := if 1 <? a_t a1 then a_extra (creset (a_e a1)) a1 else a1 in
        do l <- regulate_at (a_last a);
        do a3 <- a_state md l a2;
        Ok (a_answer l a3, l)
      else
        do l <- regulate_at (snd r);
        do a1 <- a_state md l (fst r);
        Ok (a_answer l a1, l)
  end.

(** The guess of the state that a column stands for. *)
Definition a_guess (md : mode) (v : X) (a : aut) : outcome aut :=
  if Z.of_nat (length v) =? a_n a then a_state md v a
  else
    do _ <- boost_assert md (Z.of_nat (length v) =? 6);
    do _ <- eigen_assert md (3 <=? Z.of_nat (length v));
    let z := repeat (Fin 0) (Z.to_nat (a_n a)) in
    let n := length v in
    do a1 <- a_state md (list_set 5 (ent v (n - 1)) (list_set 4 (ent v (n - 2)) (list_set 3 (ent v (n - 3))
                 (list_set 2 (ent v 2) (list_set 1 (ent v 1) (list_set 0 (ent v 0) z)))))) a;
    Ok (a_extra (setQ (a_e a1)) a1).

Definition a_step (get : mode -> aut -> outcome (aut * X)) (md : mode) (o : fe_op Y U) (a : aut) :
    outcome (aut * list X) :=
  match o with
  | FeMeas y => do _ <- boost_assert md (sy y =? a_m a); Ok (a_data (Some y) (a_u a) a, [])
  | FeInput u =>
      do _ <- boost_assert md (su u =? a_p a);
      Ok (a_data (a_y a) (Some (u, match a_u a with Some (_, n) => n | None => None end)) a, [])
  | FeMInput u =>
      do _ <- boost_assert md (su u =? a_p a);
      Ok (a_data (a_y a) (Some (match a_u a with Some (c, _) => c | None => u end, Some u)) a, [])
  | FeGet => do r <- get md a; Ok (fst r, [snd r])
  | FeGuess (GCol v) => do a' <- a_guess md v a; Ok (a', [])
  | FeGuess (GMat _ _) => missing md
  | FeBias v =>
      do _ <- eigen_assert md (2 <=? Z.of_nat (length v));
      let l := list_set 31 (ent v 1) (list_set 30 (ent v 0) (a_last a)) in
      do a' <- a_guess md l (a_answer l a); Ok (a', [])
  | FeSizes m p =>
      Ok (mkA (a_n a) m p (esize m p (a_e a)) (a_t a) (a_x a) (a_last a)
            (if m =? a_m a then a_y a else None) (if p =? a_p a then a_u a else None)
            (a_on a) (a_lim a) (a_lf a) (a_lt a), [])
  | FeOn b => Ok (mkA (a_n a) (a_m a) (a_p a) (a_e a) (a_t a) (a_x a) (a_last a) (a_y a) (a_u a) b (a_lim a) (a_lf a) (a_lt a), [])
  | FeLimitOn b => Ok (mkA (a_n a) (a_m a) (a_p a) (a_e a) (a_t a) (a_x a) (a_last a) (a_y a) (a_u a) (a_on a) b (a_lf a) (a_lt a), [])
  | FeForces v => Ok (mkA (a_n a) (a_m a) (a_p a) (a_e a) (a_t a) (a_x a) (a_last a) (a_y a) (a_u a) (a_on a) (a_lim a) v (a_lt a), [])
  | FeTorques v => Ok (mkA (a_n a) (a_m a) (a_p a) (a_e a) (a_t a) (a_x a) (a_last a) (a_y a) (a_u a) (a_on a) (a_lim a) (a_lf a) v, [])
  end.

Fixpoint a_run (get : mode -> aut -> outcome (aut * X)) (md : mode) (ops : list (fe_op Y U)) (a : aut) :
    outcome (aut * list X) :=
  match ops with
  | [] => Ok (a, [])
  | o :: os =>
      do r <- a_step get md o a;
      do r' <- a_run get md os (fst r);
      Ok (fst r', snd r ++ snd r')
  end.

Definition a_init (n m p : Z) (e : E) : aut :=
  let z := repeat (Fin 0) (Z.to_nat n) in
  mkA n m p e 0 z z None None true true
    (vscal (9.8 * 56.8) (mkV 100 100 1000)) (vscal (9.8 * 56.8) (mkV 10 10 100)).
End Spec.
Arguments aut Y U E : clear implicits.
