(** Model of the inputs of the kinetics observer given with or without their derivatives (inertia
    matrix, centre of mass, angular momentum): src/kinetics-observer.cpp:752-855, on top of the
    bookkeeping of KinObs.v. Real arithmetic is exact. *)
From Coq Require Import Reals ZArith List Bool.
From Verif Require Import Base Defs Vec3 KinObs.
Import ListNotations.
Open Scope R_scope.

(** miscellaneous-algorithms.hpp:31-37 derivate, on vectors, matrices and numbers. *)
Definition derivate_v (o1 o2 : V3) (dt : R) : V3 := vscal (1 / dt) (vsub o2 o1).
Definition derivate_m (o1 o2 : M3) (dt : R) : M3 := mscal (1 / dt) (msub o2 o1).
Definition derivate_r (o1 o2 dt : R) : R := (o2 - o1) * (1 / dt).
(** Vector6 of an inertia matrix: the diagonal, then the entries (1,0), (2,0), (2,1). *)
Record V6 := mkV6 { v6d : V3; v6e : R; v6f : R; v6g : R }.
(** cpp:41-48 fillSymmetricMatrix: every entry is written. *)
Definition fillSymmetric (d : V3) (e1 e2 e3 : R) : M3 := mkM (vx d) e1 e2 e1 (vy d) e3 e2 e3 (vz d).
Definition mdiagonal (m : M3) : V3 := mkV (m00 m) (m11 m) (m22 m).

(** The pattern of lines 763-767, 816-820 and 850-854: the derivative is written when the value in
    memory is from an earlier iteration, then the value. *)
Definition fd_set {A} (der : A -> A -> R -> A) (md : mode) (dt : R) (k : Z) (v : A) (x xd : imat A) : outcome (imat A * imat A) :=
  do t <- im_time md x;
  do xd <- (if (t <? k)%Z then do o <- im_get md x; do t <- im_time md x; Ok (im_put (der o v (dt * IZR (k - t))) k) else Ok xd);
  Ok (im_put v k, xd).

Section Input.
Context {S : Type} (s0 : S) {Kn : Type} (k0 : Kn) (kfirst : mode -> Kn -> outcome Kn) (kupd : mode -> Z -> Kn -> Kn -> outcome Kn).
Context {M : Type} (mzero : M -> bool) {C : Type}.
Notation obs := (obs S Kn M C).

(** kinetics-observer.hpp:1029-1043. *)
Record kin := mkKI { ki_obs : obs; ki_dt : R; ki_com : imat V3; ki_comd : imat V3; ki_comdd : imat V3;
  ki_sigma : imat V3; ki_sigmad : imat V3; ki_I : imat M3; ki_Id : imat M3 }.
(** cpp:88-97 (dt_ is defaultdx, line 84) and 164-169: com_ is not set. *)
Definition ki_new (s : obs) : kin :=
  let k := o_kdata s in
  mkKI s (/ 1000000) im_empty (im_put v0 k) (im_put v0 k) (im_put v0 k) (im_put v0 k) (im_put m1 k) (im_put mz k).
Definition ki_init (md : mode) (maxC maxI : nat) ds di dw dp : outcome kin :=
  do s <- ko_init s0 k0 md maxC maxI ds di dw dp; Ok (ki_new s).

Definition with_obs o s := mkKI o (ki_dt s) (ki_com s) (ki_comd s) (ki_comdd s) (ki_sigma s) (ki_sigmad s) (ki_I s) (ki_Id s).
Definition with_I i id s := mkKI (ki_obs s) (ki_dt s) (ki_com s) (ki_comd s) (ki_comdd s) (ki_sigma s) (ki_sigmad s) i id.
Definition with_com c cd cdd s := mkKI (ki_obs s) (ki_dt s) c cd cdd (ki_sigma s) (ki_sigmad s) (ki_I s) (ki_Id s).
Definition with_sigma g gd s := mkKI (ki_obs s) (ki_dt s) (ki_com s) (ki_comd s) (ki_comdd s) g gd (ki_I s) (ki_Id s).
Definition kd (s : kin) : Z := o_kdata (ki_obs s).
Definition ki_start (s : kin) : kin := with_obs (ko_start (ki_obs s)) s.

(** cpp:752-757. *)
Definition ki_setInertia2 (i id : M3) (s : kin) : kin :=
  let s := ki_start s in with_I (im_put i (kd s)) (im_put id (kd s)) s.
(** cpp:759-768. *)
Definition ki_setInertia (md : mode) (i : M3) (s : kin) : outcome kin :=
  let s := ki_start s in do (x, xd) <- fd_set derivate_m md (ki_dt s) (kd s) i (ki_I s) (ki_Id s); Ok (with_I x xd s).
(** cpp:770-781. *)
Definition fill6 (v : V6) : M3 := fillSymmetric (v6d v) (v6e v) (v6f v) (v6g v).
Definition ki_setInertiaV2 (v vd : V6) (s : kin) : kin :=
  let s := ki_start s in with_I (im_put (fill6 v) (kd s)) (im_put (fill6 vd) (kd s)) s.
(** cpp:783-801. *)
Definition ki_setInertiaV (md : mode) (v : V6) (s : kin) : outcome kin :=
  let s := ki_start s in
  do t <- im_time md (ki_I s);
  do id <- (if (t <? kd s)%Z then
              do t <- im_time md (ki_I s); let dt := ki_dt s * IZR (kd s - t) in
              do o <- im_get md (ki_I s);
              Ok (im_put (fillSymmetric (derivate_v (mdiagonal o) (v6d v) dt) (derivate_r (m10 o) (v6e v) dt)
                                        (derivate_r (m20 o) (v6f v) dt) (derivate_r (m21 o) (v6g v) dt)) (kd s))
            else Ok (ki_Id s));
  Ok (with_I (im_put (fill6 v) (kd s)) id s).
(** cpp:803-809. *)
Definition ki_setCom3 (c cd cdd : V3) (s : kin) : kin :=
  let s := ki_start s in with_com (im_put c (kd s)) (im_put cd (kd s)) (im_put cdd (kd s)) s.
(** cpp:811-821. *)
Definition ki_setCom2 (md : mode) (c cd : V3) (s : kin) : outcome kin :=
  let s := ki_start s in
  do (x, xd) <- fd_set derivate_v md (ki_dt s) (kd s) cd (ki_comd s) (ki_comdd s); Ok (with_com (im_put c (kd s)) x xd s).
(** cpp:823-838. *)
Definition ki_setCom1 (md : mode) (c : V3) (s : kin) : outcome kin :=
  let s := ki_start s in
  do t <- im_time md (ki_com s);
  do (cd, cdd) <- (if (t <? kd s)%Z then
                     let dt := ki_dt s * IZR (kd s - t) in
                     do o <- im_get md (ki_com s);
                     let v := derivate_v o c dt in
                     do od <- im_get md (ki_comd s);
                     Ok (im_put v (kd s), im_put (derivate_v od v dt) (kd s))
                   else Ok (ki_comd s, ki_comdd s));
  Ok (with_com (im_put c (kd s)) cd cdd s).
(** cpp:840-845. *)
Definition ki_setMomentum2 (g gd : V3) (s : kin) : kin :=
  let s := ki_start s in with_sigma (im_put g (kd s)) (im_put gd (kd s)) s.
(** cpp:847-855. *)
Definition ki_setMomentum (md : mode) (g : V3) (s : kin) : outcome kin :=
  let s := ki_start s in do (x, xd) <- fd_set derivate_v md (ki_dt s) (kd s) g (ki_sigma s) (ki_sigmad s); Ok (with_sigma x xd s).
(** cpp:219-222 setSamplingTime. *)
Definition ki_setDt (dt : R) (s : kin) : kin :=
  mkKI (ki_obs s) dt (ki_com s) (ki_comd s) (ki_comdd s) (ki_sigma s) (ki_sigmad s) (ki_I s) (ki_Id s).

(** The public calls; [IObs]: every other one (KinObs.v). *)
Inductive ki_op :=
| IObs (o : ko_op S Kn M C) | IDt (dt : R)
| IInertia2 (i id : M3) | IInertia (i : M3) | IInertiaV2 (v vd : V6) | IInertiaV (v : V6)
| ICom3 (c cd cdd : V3) | ICom2 (c cd : V3) | ICom1 (c : V3)
| IMom2 (g gd : V3) | IMom (g : V3).
Definition ki_step (md : mode) (o : ki_op) (s : kin) : outcome kin :=
  match o with
  | IObs o => do x <- ko_step s0 kfirst kupd mzero md o (ki_obs s); Ok (with_obs x s)
  | IDt dt => Ok (ki_setDt dt s)
  | IInertia2 i id => Ok (ki_setInertia2 i id s)
  | IInertia i => ki_setInertia md i s
  | IInertiaV2 v vd => Ok (ki_setInertiaV2 v vd s)
  | IInertiaV v => ki_setInertiaV md v s
  | ICom3 c cd cdd => Ok (ki_setCom3 c cd cdd s)
  | ICom2 c cd => ki_setCom2 md c cd s
  | ICom1 c => ki_setCom1 md c s
  | IMom2 g gd => Ok (ki_setMomentum2 g gd s)
  | IMom g => ki_setMomentum md g s
  end.
Definition ki_run md ops s := orun (ki_step md) ops s.
End Input.
Arguments kin : clear implicits.
Arguments ki_op : clear implicits.
