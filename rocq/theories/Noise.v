(** Model of GaussianWhiteNoise (src/gaussian-white-noise.cpp) and
    ProbabilityLawSimulation::getGaussianVector (tools/probability-law-simulation.hxx). The standard
    normal draws of one call are the argument [z]; matrices are over an arbitrary real closed
    field. *)
From mathcomp Require Import all_ssreflect all_algebra.
From Verif Require Import Base MxLib Cholesky.
Set Implicit Arguments.
Unset Strict Implicit.
Unset Printing Implicit Defensive.
Import Order.TTheory GRing.Theory Num.Theory.
Open Scope ring_scope.

Section Noise.
Variable R : rcfType.

(** definitions.hpp:41,62: Vector and Matrix of dynamic size. *)
Definition dvec := {n : nat & 'cV[R]_n}.
Definition dmat := {mn : nat * nat & 'M[R]_(mn.1, mn.2)}.
Definition dv n (v : 'cV[R]_n) : dvec := existT _ n v.
Definition dm m n (A : 'M[R]_(m, n)) : dmat := existT (fun mn : nat * nat => 'M[R]_(mn.1, mn.2)) (m, n) A.
Definition rows_ (A : dmat) : nat := (projT1 A).1.
Definition cols_ (A : dmat) : nat := (projT1 A).2.
(** The same matrix seen with given sizes (used only when they are its sizes). *)
Definition asm m n (A : dmat) : 'M[R]_(m, n) := conform_mx 0 (projT2 A).
Definition asv n (v : dvec) : 'cV[R]_n := conform_mx 0 (projT2 v).

(** A failed size check of Eigen: assertion in Debug, access out of range in Release. *)
Definition size_check (md : mode) (b : bool) : outcome unit :=
  if b then Ok tt else match md with Debug => AssertFail | Release => UB end.

(** gaussian-white-noise.hpp:66-76: members dim_, std_, bias_ and sum_ (None is
    detail::defaultSum). *)
Record gwn := mkG { g_dim : nat; g_std : dmat; g_bias : dvec; g_sum : option (dvec -> dvec -> outcome dvec) }.
(** cpp:9-15. *)
Definition g_new (d : nat) : gwn := mkG d (dm (1%:M : 'M[R]_d)) (dv (0 : 'cV[R]_d)) None.
Definition g_default : gwn := mkG 0 (dm (0 : 'M[R]_0)) (dv (0 : 'cV[R]_0)) None.

(** cpp:57-67. *)
Definition g_checkMatrix (md : mode) (A : dmat) (g : gwn) : outcome unit :=
  boost_assert md ((rows_ A == g_dim g) && (cols_ A == g_dim g)).
Definition g_checkVector (md : mode) (v : dvec) (g : gwn) : outcome unit := boost_assert md (projT1 v == g_dim g).
(** cpp:26-30. *)
Definition g_setStd md (A : dmat) (g : gwn) : outcome gwn :=
  do _ <- g_checkMatrix md A g; Ok (mkG (g_dim g) A (g_bias g) (g_sum g)).
(** cpp:32-37: the LLT of Eigen asserts a square matrix; its status is not read. *)
Definition g_setCov md (A : dmat) (g : gwn) : outcome gwn :=
  do _ <- g_checkMatrix md A g;
  do _ <- size_check md (rows_ A == cols_ A);
  Ok (mkG (g_dim g) (dm (lowpart (llt (asm (rows_ A) (rows_ A) A)).2)) (g_bias g) (g_sum g)).
(** cpp:39-43. *)
Definition g_setBias md (b : dvec) (g : gwn) : outcome gwn :=
  do _ <- g_checkVector md b g; Ok (mkG (g_dim g) (g_std g) b (g_sum g)).
(** cpp:50-55. *)
Definition g_setDim (d : nat) (g : gwn) : gwn := mkG d (dm (1%:M : 'M[R]_d)) (dv (0 : 'cV[R]_d)) (g_sum g).
(** cpp:69-74. *)
Definition g_setSum f (g : gwn) : gwn := mkG (g_dim g) (g_std g) (g_bias g) (Some f).

(** probability-law-simulation.hxx:10-32 with rows = dim_ and cols = 1: std * ret + bias. *)
Definition gaussianVector md (std : dmat) (bias : dvec) (rows : nat) (z : nat -> R) : outcome dvec :=
  do _ <- size_check md (cols_ std == rows);
  do _ <- size_check md (projT1 bias == rows_ std);
  Ok (dv (asm (rows_ std) rows std *m (\col_(i < rows) z i) + asv (rows_ std) bias)).
(** state-vector-arithmetics.cpp:5-8. *)
Definition defaultSum md (v t : dvec) : outcome dvec :=
  do _ <- size_check md (projT1 t == projT1 v); Ok (dv (projT2 v + asv (projT1 v) t)).
(** cpp:17-24. *)
Definition g_getNoisy md (z : nat -> R) (v : dvec) (g : gwn) : outcome dvec :=
  do _ <- g_checkVector md v g;
  do n <- gaussianVector md (g_std g) (g_bias g) (g_dim g) z;
  match g_sum g with Some f => f v n | None => defaultSum md v n end.

(** The public calls that change the noise. *)
Inductive g_op := GStd (A : dmat) | GCov (A : dmat) | GBias (b : dvec) | GDim (d : nat) | GSum (f : dvec -> dvec -> outcome dvec).
Definition g_step md (o : g_op) (g : gwn) : outcome gwn :=
  match o with
  | GStd A => g_setStd md A g | GCov A => g_setCov md A g | GBias b => g_setBias md b g
  | GDim d => Ok (g_setDim d g) | GSum f => Ok (g_setSum f g)
  end.
Definition g_run md ops g := orun (g_step md) ops g.
End Noise.
