(** Independent description of the rotation of a rotation vector (Rodrigues' formula), used in
    the statements about rotation vectors; it has no threshold and models no code. *)
From Coq Require Import Reals.
From Verif Require Import Vec3.
Open Scope R_scope.

Definition rodrigues (v : V3) : M3 :=
  let n := vnorm v in
  if Req_EM_T n 0 then m1
  else madd (madd m1 (mscal (sin n / n) (skew v))) (mscal ((1 - cos n) / (n * n)) (mmul (skew v) (skew v))).

(** The rotation of angle t around the upward vertical. *)
Definition rot_z (t : R) : M3 := mkM (cos t) (- sin t) 0 (sin t) (cos t) 0 0 0 1.
(** Two angles describing the same direction. *)
Definition same_angle (a b : R) : Prop := cos a = cos b /\ sin a = sin b.
