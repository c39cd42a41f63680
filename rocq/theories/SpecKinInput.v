(** Vocabulary of the statements about the inputs of the kinetics observer. *)
From Coq Require Import Reals ZArith List Bool.
From Verif Require Import Base Defs Vec3 KinObs KinInput.
Import ListNotations.
Open Scope R_scope.

(** What an item gives when it is read (None: it is not set). *)
Definition value {A} (m : imat A) : option A := if im_set m then im_v m else None.

Section S.
Context {S : Type} (s0 : S) {Kn : Type} (k0 : Kn) (kfirst : mode -> Kn -> outcome Kn) (kupd : mode -> Z -> Kn -> Kn -> outcome Kn).
Context {M : Type} (mzero : M -> bool) {C : Type}.
Notation kin := (kin S Kn M C).
Notation op := (ki_op S Kn M C).

(** Data were given since the last estimation. *)
Definition pending (s : kin) : bool := negb (o_kest (ki_obs s) =? o_kdata (ki_obs s))%Z.
Definition is_update (o : op) : bool := match o with IObs (KUpdate _) => true | _ => false end.
(** The number of estimations made along a history: the calls to update that had data. *)
Fixpoint estimations (md : mode) (ops : list op) (s : kin) : Z :=
  match ops with
  | [] => 0%Z
  | o :: os => ((if is_update o && pending s then 1 else 0) +
               match ki_step s0 kfirst kupd mzero md o s with Ok s' => estimations md os s' | _ => 0 end)%Z
  end.
(** The states of an observer after any history of calls. *)
Definition reached (md : mode) (h : list op) (s : kin) : Prop :=
  exists maxC maxI ds di dw dp si, ki_init s0 k0 md maxC maxI ds di dw dp = Ok si /\ ki_run s0 kfirst kupd mzero md h si = Ok s.
(** The calls that give the angular momentum, the inertia, the centre of mass. *)
Definition gives_mom (o : op) : bool := match o with IMom2 _ _ | IMom _ => true | _ => false end.
Definition gives_inertia (o : op) : bool := match o with IInertia2 _ _ | IInertia _ | IInertiaV2 _ _ | IInertiaV _ => true | _ => false end.
Definition gives_com (o : op) : bool := match o with ICom3 _ _ _ | ICom2 _ _ | ICom1 _ => true | _ => false end.
(** A history in which no call satisfies [p], and the value of an angular momentum or inertia call. *)
Definition without (p : op -> bool) (ops : list op) : Prop := forallb (fun o => negb (p o)) ops = true.
Definition mom_of (o : op) : option V3 := match o with IMom2 g _ | IMom g => Some g | _ => None end.
Definition inertia_of (o : op) : option M3 :=
  match o with IInertia2 i _ | IInertia i => Some i | IInertiaV2 v _ | IInertiaV v => Some (fill6 v) | _ => None end.
Definition symmetric (m : M3) : Prop := mtr m = m.
Definition comv_of (o : op) : option (V3 * V3) := match o with ICom3 c d _ | ICom2 c d => Some (c, d) | _ => None end.
(** Every inertia matrix given is symmetric; the same history with Vector6 arguments. *)
Definition sym_op (o : op) : Prop := match o with IInertia2 i id => symmetric i /\ symmetric id | IInertia i => symmetric i | _ => True end.
Definition six (m : M3) : V6 := mkV6 (mkV (m00 m) (m11 m) (m22 m)) (m10 m) (m20 m) (m21 m).
Definition with_six (o : op) : op := match o with IInertia2 i id => IInertiaV2 (six i) (six id) | IInertia i => IInertiaV (six i) | _ => o end.
End S.
