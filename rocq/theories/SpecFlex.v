(** Vocabulary of the properties of the flexible base (FlexSys.v). *)
From Coq Require Import ZArith List Bool Reals.
From Verif Require Import Base Vec3 Rot SpecRot Kine SpecKine Sensors KinDyn FlexSys.
Import ListNotations.
Open Scope R_scope.

(** Positive definite. *)
Definition pdef (m : M3) : Prop := forall v, v <> v0 -> 0 < vdot v (mvec m v).
(** A force and a moment at a point, and the resultants of a list of them: the force, and the moment about the origin. *)
Definition sum_force (l : list (V3 * V3 * V3)) : V3 := fold_right (fun q f => vadd (snd (fst q)) f) v0 l.
Definition sum_moment (l : list (V3 * V3 * V3)) : V3 := fold_right (fun q t => vadd (vadd (vcross (fst (fst q)) (snd (fst q))) (snd q)) t) v0 l.
(** The wrenches on the robot, in the world: the additional one of the input, at the base; the unmodeled one of the state, at the
    origin; and those of the contacts in the state: with elastic contacts, at each contact in its frame; otherwise one, at
    the origin. *)
Definition wrenches (c : fcfg) (x u : list R) : list (V3 * V3 * V3) :=
  let r := rv_mat (seg3 x 3) in let p := seg3 x 0 in
  (p, mvec r (seg3 u 42), mvec r (seg3 u 45)) :: (v0, seg3 x 24, seg3 x 27) ::
  match f_model c with
  | CElastic => map (fun i => let rc := mmul r (rv_mat (seg3 u (51 + 12 * i))) in
      (vadd p (mvec r (seg3 u (48 + 12 * i))), mvec rc (seg3 x (12 + 6 * i)), mvec rc (seg3 x (15 + 6 * i)))) (seq 0 (f_nc c))
  | _ => [(v0, seg3 x 12, seg3 x 15)]
  end.
(** The centre of mass in the base: that of the input less the bias of the state when it is enabled. *)
Definition com_of (c : fcfg) (x u : list R) : V3 := if f_bias c then vsub (seg3 u 0) (mkV (at_ x 30) (at_ x 31) 0) else seg3 u 0.
(** The arguments are of the sizes the object expects, and the contacts at most two when they are elastic. *)
Definition fits (c : fcfg) (x u : list R) : Prop :=
  length x = 35%nat /\ length u = f_isize c /\ (48 + 12 * f_nc c <= length u)%nat /\ (f_model c = CElastic -> (f_nc c <= 2)%nat).
(** A contact model is set. *)
Definition has_model (c : fcfg) : Prop := f_model c = CElastic \/ f_model c = CPendulum.
(** The angular momentum about the origin of the world of a body of mass m whose points move by the motion [mo] of the base and by
    their own motion in it: centre of mass [cc] in the base, [V] in the world, inertia about the origin of the base [Ic],
    and angular momentum in the base about its origin [sc]. It is the sum of p x mV, (R c) x mv, R I R^T w and R sigma. *)
Definition ang_momentum (m : R) (mo : motion) (V cc : R -> V3) (Ic : R -> M3) (sc : R -> V3) (s : R) : V3 :=
  vadd (vadd (vcross (mp mo s) (vscal m (V s))) (vcross (mvec (mr mo s) (cc s)) (vscal m (mv mo s))))
    (mvec (mr mo s) (vadd (mvec (Ic s) (mvec (mtr (mr mo s)) (mw mo s))) (sc s))).
