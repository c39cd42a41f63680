(** Model of what the kinetics observer does with an estimate that is not a number: kinetics-observer.cpp:134, 321-335,
    1280-1285, over KinObs.v. *)
From Coq Require Import ZArith List Bool.
From Verif Require Import Base KinObs.
Import ListNotations.
Open Scope Z_scope.

Section Nan.
Context {S Kn M C : Type} (s0 : S) (k0 : Kn) (kfirst : mode -> Kn -> outcome Kn) (kupd : mode -> Z -> Kn -> Kn -> outcome Kn) (mzero : M -> bool).
(** Which scalars are NaN. *)
Context (nan : S -> bool).
Notation obs := (obs S Kn M C).
Notation ko_op := (ko_op S Kn M C).

(** Eigen's hasNaN() (cpp:323). *)
Definition has_nan (x : list S) : bool := existsb nan x.
(** The observer with the member oldStateVector_ (hpp:1027). *)
Record kn := mkKn { n_obs : obs; n_old : list S }.
(** cpp:133-134, the constructor. *)
Definition kn_init (md : mode) (maxC maxI : nat) ds di dw dp : outcome kn :=
  do s <- ko_init s0 k0 md maxC maxI ds di dw dp; Ok (mkKn s (o_state s)).
(** cpp:1280-1285 stateNaNCorrection_: assert(false), compiled out in Release. *)
Definition kn_correction (md : mode) (old : list S) : outcome (list S) :=
  match md with Debug => AssertFail | Release => Ok old end.
(** cpp:229-337 update; [e] is the estimation of the filter, which keeps its own estimate. *)
Definition kn_update (md : mode) (e : list S -> list (option S) -> list S) (n : kn) : outcome kn :=
  if o_kest (n_obs n) =? o_kdata (n_obs n) then Ok n
  else
    do s <- ko_prepare md (n_obs n);
    let x := e (o_ekf s) (o_meas s) in
    do (st, old) <- (if has_nan x then do c <- kn_correction md (n_old n); Ok (c, n_old n) else Ok (x, x));
    Ok (mkKn (set_iter (o_kest s + 1) (o_kdata s) (o_nreal s) (o_nimu s) (set_state st x s)) old).
(** The other calls do not use oldStateVector_. *)
Definition kn_step (md : mode) (o : ko_op) (n : kn) : outcome kn :=
  match o with
  | KUpdate e => kn_update md e n
  | o => do s <- ko_step s0 kfirst kupd mzero md o (n_obs n); Ok (mkKn s (n_old n))
  end.
Definition kn_run md ops n := orun (kn_step md) ops n.
End Nan.
