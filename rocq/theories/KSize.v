(** Sizes of the matrices held by the Kalman filters (src/kalman-filter-base.cpp,
    src/linear-kalman-filter.cpp). Only sizes are modelled here; values are in KFilter.v. *)
From Coq Require Import ZArith List Bool Lia.
From Verif Require Import Base.
Import ListNotations.
Open Scope Z_scope.

(** rows and columns; a cleared matrix is 0x0. *)
Definition dim := (Z * Z)%type.
Definition dim_eqb (a b : dim) : bool := (fst a =? fst b) && (snd a =? snd b).
Definition d0 : dim := (0, 0).

(** Members with a size: n_, nt_, m_, mt_, p_; a_, c_, q_, r_, pr_ (kalman-filter-base.hpp:311-374),
    b_, d_ (linear-kalman-filter.hpp:119-126); xbar_, ybar_: size of the cached vector and its
    time, if set; time of x_, if set. *)
Record ksz := mkS {
  s_n : Z; s_nt : Z; s_m : Z; s_mt : Z; s_p : Z;
  s_a : dim; s_c : dim; s_q : dim; s_r : dim; s_pr : dim; s_b : dim; s_d : dim;
  s_xbar : option (Z * Z); s_ybar : option (Z * Z); s_x : option Z }.

(** kalman-filter-base.cpp:17-25. *)
Definition s_init (n nt m mt p : Z) : ksz := mkS n nt m mt p d0 d0 d0 d0 d0 d0 d0 None None None.

Inductive sop :=
| SA (d : dim) | SC (d : dim) | SQ (d : dim) | SR (d : dim) | SP (d : dim) | SB (d : dim) | SD (d : dim)
| SClear          (* clearA, clearC, clearR, clearQ, clearStateCovariance, clearB, clearD *)
| SReset          (* reset / clearStates *)
| SSetState (k : Z)
| SStep           (* one successful step of the filter *)
| SStateSize (n nt : Z)
| SMeasSize (m mt : Z)
| SInputSize (p : Z).

Section Ops.
(** Which class: the linear filter overrides the size setters (linear-kalman-filter.cpp:109-135). *)
Variable linear : bool.

(** Right sizes: checkAmatrix .. checkPmatrix (kalman-filter-base.cpp:205-302), checkBmatrix,
    checkDmatrix (linear-kalman-filter.cpp:83-107). *)
Definition okA s d := dim_eqb d (s_nt s, s_nt s).
Definition okC s d := dim_eqb d (s_mt s, s_nt s).
Definition okR s d := dim_eqb d (s_mt s, s_mt s).
Definition okB s d := dim_eqb d (s_n s, s_p s).
Definition okD s d := dim_eqb d (s_m s, s_p s).

(** The size of the predicted state a filter uses at time k+1: the extended filter returns the
    cached one when its time matches (extended-kalman-filter.cpp:86-105), the linear one
    recomputes it (linear-kalman-filter.cpp:38). *)
Definition pred_size (s : ksz) (k : Z) : Z :=
  if linear then s_n s else
  match s_xbar s with Some (sz, t) => if t =? k + 1 then sz else s_n s | None => s_n s end.
Definition meas_size (s : ksz) (k : Z) : Z :=
  if linear then s_m s else
  match s_ybar s with Some (sz, t) => if t =? k + 1 then sz else s_m s | None => s_m s end.

(** Setters kalman-filter-base.cpp:27-106; step 108-171 (pr_ becomes nt_ x nt_);
    setStateSize 345-363, setMeasureSize 365-379; linear-kalman-filter.cpp:109-135; observer
    part zero-delay-observer.cpp:210-235. *)
Definition s_step (md : mode) (o : sop) (s : ksz) : outcome ksz :=
  let '(mkS n nt m mt p a c q r pr b d xb yb x) := s in
  match o with
  | SA v => do _ <- boost_assert md (okA s v); Ok (mkS n nt m mt p v c q r pr b d xb yb x)
  | SC v => do _ <- boost_assert md (okC s v); Ok (mkS n nt m mt p a v q r pr b d xb yb x)
  | SQ v => do _ <- boost_assert md (okA s v); Ok (mkS n nt m mt p a c v r pr b d xb yb x)
  | SR v => do _ <- boost_assert md (okR s v); Ok (mkS n nt m mt p a c q v pr b d xb yb x)
  | SP v => do _ <- boost_assert md (okA s v); Ok (mkS n nt m mt p a c q r v b d xb yb x)
  | SB v => do _ <- boost_assert md (okB s v); Ok (mkS n nt m mt p a c q r pr v d xb yb x)
  | SD v => do _ <- boost_assert md (okD s v); Ok (mkS n nt m mt p a c q r pr b v xb yb x)
  | SClear => Ok (mkS n nt m mt p d0 d0 d0 d0 d0 d0 d0 xb yb x)
  | SReset => Ok (mkS n nt m mt p a c q r d0 b d xb yb None)
  | SSetState k => Ok (mkS n nt m mt p a c q r pr b d xb yb (Some k))
  | SStep =>
      match x with
      | None => boost_assert md false;; UB
      | Some k =>
        let fit := okA s a && okC s c && okA s q && okR s r && okA s pr && (negb linear || okB s b) in
        do _ <- boost_assert md fit;
        if fit && ((pred_size s k =? n) && (meas_size s k =? m))
        then Ok (mkS n nt m mt p a c q r (nt, nt) b d (Some (n, k + 1)) (Some (m, k + 1)) (Some (k + 1)))
        else UB (* vectors or matrices of different sizes are combined *)
      end
  | SStateSize n' nt' =>
      if linear then
        if n' =? n then Ok s else Ok (mkS n' n' m mt p d0 d0 d0 r d0 d0 d xb yb None)
      else if (n' =? n) && (nt' =? nt) then Ok s
      else Ok (mkS n' nt' m mt p d0 d0 d0 r d0 b d xb yb (if n' =? n then x else None))
  | SMeasSize m' mt' =>
      if linear then
        if m' =? m then Ok s else Ok (mkS n nt m' m' p a d0 q d0 pr b d0 xb yb x)
      else if (m' =? m) && (mt' =? mt) then Ok s
      else Ok (mkS n nt m' mt' p a d0 q d0 pr b d xb yb x)
  | SInputSize p' =>
      if p' =? p then Ok s else
      if linear then Ok (mkS n nt m mt p' a c q r pr d0 d0 xb yb x)
      else Ok (mkS n nt m mt p' a c q r pr b d xb yb x)
  end.
Definition s_run (md : mode) (ops : list sop) (s : ksz) : outcome ksz := orun (s_step md) ops s.
End Ops.
