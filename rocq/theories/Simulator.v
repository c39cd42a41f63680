(** Model of DynamicalSystemSimulator (src/dynamical-system-simulator.cpp and its header).
    The functor is a pair of functions of (state, input, time); functors with an internal
    state or with random noise are covered when each time index is simulated once, because the
    functions may depend on the time in any way. Vectors are values of arbitrary types. *)
From Coq Require Import ZArith List Lia Bool.
From Verif Require Import Base Defs.
Import ListNotations.
Open Scope Z_scope.

Section Sim.
Context {X U Y : Type}.

(** dynamical-system-functor-base.hpp: stateDynamics and measureDynamics. *)
Record functor := mkF { f_dyn : X -> U -> Z -> X; f_meas : X -> U -> Z -> Y }.

(** dynamical-system-simulator.hpp:93-99. The std::map u_ is its list of entries in the order of
    the keys. *)
Record sim := mkSim { s_f : option functor; s_x : iarr X; s_y : iarr Y; s_u : list (Z * U) }.
(** dynamical-system-simulator.cpp:5-8. *)
Definition sim_init : sim := mkSim None ia_empty ia_empty [].

(** std::map::insert (cpp:31): nothing when the key exists. *)
Fixpoint map_insert (k : Z) (u : U) (l : list (Z * U)) : list (Z * U) :=
  match l with
  | [] => [(k, u)]
  | (k', u') :: l' =>
      if k <? k' then (k, u) :: l else if k' <? k then (k', u') :: map_insert k u l' else l
  end.
(** The entry before upper_bound(k) (cpp:63-65). *)
Fixpoint map_before (k : Z) (l : list (Z * U)) : option U :=
  match l with
  | [] => None
  | (k', u') :: l' => if k' <=? k then match map_before k l' with Some u => Some u | None => Some u' end else None
  end.

(** cpp:15-18, 115-126. *)
Definition sim_setFunctor (f : functor) (s : sim) : sim := mkSim (Some f) (s_x s) (s_y s) (s_u s).
Definition sim_resetDynamics (s : sim) : sim := mkSim (s_f s) (ia_reset (s_x s)) (ia_reset (s_y s)) [].
Definition sim_resetSimulator (s : sim) : sim := mkSim None (ia_reset (s_x s)) (ia_reset (s_y s)) [].

(** cpp:20-27. *)
Definition sim_setState (md : mode) (x : X) (k : Z) (s : sim) : outcome sim :=
  do _ <- boost_assert md ((ia_size (s_x s) =? 0) || ((ia_first (s_x s) <=? k) && (k <=? ia_next (s_x s))));
  do xs <- ia_setValue md x k (ia_truncateAfter (k - 1) (s_x s));
  Ok (mkSim (s_f s) xs (s_y s) (s_u s)).
(** cpp:29-32. *)
Definition sim_setInput (u : U) (k : Z) (s : sim) : sim :=
  mkSim (s_f s) (s_x s) (s_y s) (map_insert k u (s_u s)).

(** cpp:60-70. Decrementing the first iterator of the map is undefined; the assertion of line 67 is
    evaluated after the decrement. *)
Definition sim_getInput (md : mode) (k : Z) (s : sim) : outcome U :=
  do _ <- boost_assert md (0 <? Z.of_nat (length (s_u s)));
  match map_before k (s_u s) with Some u => Ok u | None => UB end.

(** cpp:50-58. *)
Definition sim_getCurrentTime (s : sim) : Z := ia_last (s_x s).
Definition sim_getCurrentState (md : mode) (s : sim) : outcome X := ia_get md (s_x s) (ia_last (s_x s)).

(** cpp:72-80. *)
Definition sim_simulate (md : mode) (s : sim) : outcome sim :=
  do _ <- boost_assert md (match s_f s with Some _ => true | None => false end);
  let k := ia_last (s_x s) in
  do u <- sim_getInput md k s;
  match s_f s with
  | None => UB
  | Some f =>
      do x <- ia_get md (s_x s) k;
      do ys <- ia_setValue md (f_meas f x u k) k (s_y s);
      do xs <- ia_setValue md (f_dyn f x u k) (k + 1) (s_x s);
      Ok (mkSim (s_f s) xs ys (s_u s))
  end.
(** cpp:82-88. *)
Definition sim_simulateTo (md : mode) (k : Z) (s : sim) : outcome sim :=
  oiter (Z.to_nat (k - ia_last (s_x s))) (sim_simulate md) s.

(** cpp:34-40 and 42-48; these calls can run the simulation. *)
Definition sim_getMeasurement (md : mode) (k : Z) (s : sim) : outcome (Y * sim) :=
  do _ <- boost_assert md ((ia_size (s_y s) =? 0) || (ia_first (s_y s) <? k));
  do s <- (if ia_next (s_y s) <? k then sim_simulateTo md k s else Ok s);
  do y <- ia_get md (s_y s) k; Ok (y, s).
Definition sim_getState (md : mode) (k : Z) (s : sim) : outcome (X * sim) :=
  do _ <- boost_assert md ((ia_size (s_x s) =? 0) || (ia_first (s_x s) <=? k));
  do s <- (if ia_last (s_x s) <? k then sim_simulateTo md (k - 1) s else Ok s);
  do x <- ia_get md (s_x s) k; Ok (x, s).

(** cpp:90-113 getMeasurementArray and getStateArray. *)
Fixpoint sim_collect {A} (md : mode) (get : Z -> sim -> outcome (A * sim)) (n : nat) (t : Z) (a : iarr A) (s : sim) : outcome (iarr A * sim) :=
  match n with
  | O => Ok (a, s)
  | S n => do (v, s) <- get t s; do a <- ia_setValue md v t a; sim_collect md get n (t + 1) a s
  end.
Definition sim_getMeasurementArray md (t : Z) (d : nat) (s : sim) : outcome (iarr Y * sim) :=
  do _ <- boost_assert md (ia_first (s_y s) <? t); sim_collect md (sim_getMeasurement md) d t ia_empty s.
Definition sim_getStateArray md (t : Z) (d : nat) (s : sim) : outcome (iarr X * sim) :=
  do _ <- boost_assert md (ia_first (s_x s) <? t); sim_collect md (sim_getState md) d t ia_empty s.

(** The public mutating calls. *)
Inductive sim_op :=
| SFunctor (f : functor) | SState (x : X) (k : Z) | SInput (u : U) (k : Z) | SSim | SSimTo (k : Z)
| SGetState (k : Z) | SGetMeas (k : Z) | SResetDyn | SResetSim.
Definition sim_step (md : mode) (o : sim_op) (s : sim) : outcome sim :=
  match o with
  | SFunctor f => Ok (sim_setFunctor f s)
  | SState x k => sim_setState md x k s
  | SInput u k => Ok (sim_setInput u k s)
  | SSim => sim_simulate md s
  | SSimTo k => sim_simulateTo md k s
  | SGetState k => do r <- sim_getState md k s; Ok (snd r)
  | SGetMeas k => do r <- sim_getMeasurement md k s; Ok (snd r)
  | SResetDyn => Ok (sim_resetDynamics s)
  | SResetSim => Ok (sim_resetSimulator s)
  end.
Definition sim_run md ops s := orun (sim_step md) ops s.
End Sim.
Arguments functor : clear implicits.
Arguments sim : clear implicits.
Arguments sim_op : clear implicits.
