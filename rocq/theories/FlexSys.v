(** Model of src/imu-elastic-local-frame-dynamical-system.cpp: a robot of known motion on a flexible base, with elastic
    contacts or ropes, and an inertial unit. Line numbers without a file name are of that file; "hpp" is
    include/state-observation/flexibility-estimation/imu-elastic-local-frame-dynamical-system.hpp. *)
From Coq Require Import ZArith List Bool Reals.
From Verif Require Import Base Vec3 Rot Kine Sensors ImuSys KinDyn.
Import ListNotations.
Open Scope R_scope.

(** hrp2.hpp:36 hrp2::m, and 47 contact::nbModeledMax. *)
Definition hrp2_m : R := 568 / 10.
Definition nbModeledMax : nat := 2.
(** hpp:72-78 contactModel. *)
Inductive cmodel := CNone | CElastic | CPendulum | COther.

(** The settings: 76-111 the constructor, hpp:327-380 the members. Simplification: robotMassInv_, always set with robotMass_
    (76-78, 118-122), is the inverse of [f_mass]; getMeasurementSize is not kept, being determined by the
    others (1304-1319). *)
Record fcfg := mkFC { f_dt : R; f_mass : R; f_nc : nat; f_model : cmodel; f_isize : nat;
  f_kfe : M3; f_kfv : M3; f_kte : M3; f_ktv : M3; f_rfe : M3; f_rfv : M3; f_rte : M3; f_rtv : M3; f_pe : V3;
  f_force : bool; f_bias : bool; f_abs : bool; f_unm : bool }.
(** 76-111. *)
Definition fcfg_init (dt : R) : fcfg :=
  mkFC dt hrp2_m 0 CNone 48 (mscal 40000 m1) (mscal 600 m1) (mscal 600 m1) (mscal 60 m1) (mscal 40000 m1) (mscal 600 m1) (mscal 600 m1) (mscal 60 m1) v0
    false false false false.

(** ** Reading a state and an input *)
(** 15-29 buildInertiaTensor on segment<6>(i). *)
Definition tensor (u : list R) (i : nat) : M3 :=
  mkM (at_ u i) (at_ u (i + 3)) (at_ u (i + 4)) (at_ u (i + 3)) (at_ u (i + 1)) (at_ u (i + 5)) (at_ u (i + 4)) (at_ u (i + 5)) (at_ u (i + 2)).
(** A contact of the input (848-857, hpp:57-61): position, orientation, velocity. The angular velocity is never used. *)
Definition contact_of (u : list R) (i : nat) : V3 * V3 * V3 := (seg3 u (48 + 12 * i), seg3 u (48 + 12 * i + 3), seg3 u (48 + 12 * i + 6)).
Definition contacts_of (n : nat) (u : list R) : list (V3 * V3 * V3) := map (contact_of u) (seq 0 n).
(** What the dynamics uses besides the motion of the base: 839-876 (the same in 143-176, 206-236, 492-526, 941-985). *)
Record fbody := mkFB { b_c : V3; b_cd : V3; b_cdd : V3; b_sg : V3; b_sgd : V3; b_I : M3; b_Id : M3; b_cs : list (V3 * V3 * V3);
  b_fm : V3; b_tm : V3; b_fa : V3; b_ta : V3 }.
Definition body_of (c : fcfg) (x u : list R) : fbody :=
  mkFB (let pc := seg3 u 0 in if f_bias c then vsub pc (mkV (at_ x 30) (at_ x 31) 0) else pc) (seg3 u 3) (seg3 u 6) (seg3 u 15) (seg3 u 24)
    (tensor u 9) (tensor u 18) (contacts_of (f_nc c) u) (seg3 x 24) (seg3 x 27) (seg3 u 42) (seg3 u 45).
(** 827-828, 866-870: the efforts of the two contacts of the state, as fc_ and tc_. *)
Definition efforts_f (x : list R) : list V3 := [seg3 x 12; seg3 x 18].
Definition efforts_t (x : list R) : list V3 := [seg3 x 15; seg3 x 21].

(** ** The wrench of the contacts: 442-476 computeContactWrench *)
(** 459-468, the loop over the contacts; fc and tc have room for two contacts. *)
Fixpoint wrench_contacts (md : mode) (r : M3) (p : V3) (cs : list (V3 * V3 * V3)) (fc tc : list V3) (f t : V3) : outcome (V3 * V3) :=
  match cs with
  | [] => Ok (f, t)
  | (cp, co, _) :: cs =>
      match fc, tc with
      | fci :: fc, tci :: tc =>
          let rci := rv_mat co in
          let g := vadd (mvec r cp) p in
          let fi := mvec (mmul r rci) fci in
          wrench_contacts md r p cs fc tc (vadd f fi) (vadd t (vadd (mvec (mmul r rci) tci) (vcross g fi)))
      | _, _ => do _ <- eigen_assert md false; Ok (f, t)
      end
  end.
Definition wrench (md : mode) (c : fcfg) (b : fbody) (r : M3) (p : V3) (fc tc : list V3) : outcome (V3 * V3) :=
  let f := mvec r (b_fa b) in
  let t := vadd (mvec r (b_ta b)) (vcross p f) in
  let f := vadd f (b_fm b) in
  let t := vadd t (b_tm b) in
  match f_model c with
  | CElastic => wrench_contacts md r p (b_cs b) fc tc f t
  | _ => Ok (vadd f (nth 0 fc v0), vadd t (nth 0 tc v0))
  end.

(** ** The accelerations: 538-608 computeAccelerations *)
(** Eigen::LLT<Matrix3>::compute (unblocked, lower triangle); on a pivot that is not positive the factorisation stops and
    the rest of the matrix is left as it is. matrixL() reads the lower triangle. *)
Definition llt3 (m : M3) : M3 :=
  if Rle_dec (m00 m) 0 then m else
  let l00 := sqrt (m00 m) in let l10 := m10 m / l00 in let l20 := m20 m / l00 in
  let x1 := m11 m - l10 * l10 in
  if Rle_dec x1 0 then mkM l00 0 0 l10 (m11 m) 0 l20 (m21 m) (m22 m) else
  let l11 := sqrt x1 in let l21 := (m21 m - l20 * l10) / l11 in
  let x2 := m22 m - (l20 * l20 + l21 * l21) in
  if Rle_dec x2 0 then mkM l00 0 0 l10 l11 0 l20 l21 (m22 m) else
  mkM l00 0 0 l10 l11 0 l20 l21 (sqrt x2).
(** matrixL().solveInPlace, then matrixL().transpose().solveInPlace. *)
Definition solve_lower (l : M3) (b : V3) : V3 :=
  let y0 := vx b / m00 l in let y1 := (vy b - m10 l * y0) / m11 l in
  mkV y0 y1 ((vz b - (m20 l * y0 + m21 l * y1)) / m22 l).
Definition solve_upper (l : M3) (b : V3) : V3 :=
  let z2 := vz b / m22 l in let z1 := (vy b - m21 l * z2) / m11 l in
  mkV ((vx b - (m10 l * z1 + m20 l * z2)) / m00 l) z1 z2.
(** 538-608. [cst::gravity] is [gravity]. *)
Definition accel (md : mode) (c : fcfg) (b : fbody) (p : V3) (r : M3) (w : V3) (fc tc : list V3) : outcome (V3 * V3) :=
  do (f, t) <- wrench md c b r p fc tc;
  let m := f_mass c in
  let skR := mmul (skew w) r in let rt := mtr r in
  let wx2rc := mvec (mmul (skew2 w) r) (b_c b) in
  let wxrv2 := mvec (mscal 2 skR) (b_cd b) in
  let ra := mvec r (b_cdd b) in
  let rc := mvec r (b_c b) in
  let rcp := vadd rc p in
  let rirt := mmul (mmul r (b_I b)) rt in
  let vf := vsub (vsub (vsub (vsub (vscal (/ m) f) ra) wxrv2) wx2rc) gravity in
  let vt := vsub (vsub (vsub (vsub (vsub t (mvec (skew w) (mvec rirt w))) (mvec r (vadd (mvec (b_Id b) (mvec rt w)) (b_sgd b))))
                   (mvec skR (b_sg b))) (vscal m (mvec (skew p) (vadd (vadd wx2rc wxrv2) ra)))) (mvec (mscal m (skew rcp)) gravity) in
  let l := llt3 (madd rirt (mscal m (skew2 rc))) in
  let al := solve_upper l (solve_lower l (vsub vt (vscal m (vcross rcp vf)))) in
  Ok (vadd vf (mvec (skew rc) al), al).

(** ** The cached rotations: 915-926 computeRotation_, hpp:508-541 (four pairs; 3 and above share the last) *)
Definition cache := list (V3 * M3).
Definition cache_init : cache := repeat (v0, m1) 4.
Definition getrot (i : nat) (x : V3) (k : cache) : M3 * cache :=
  let j := Nat.min i 3 in
  let '(o, r) := nth j k (v0, m1) in
  if veqb o x then (r, k) else (rv_mat x, list_set j (x, rv_mat x) k).

(** ** The forces of the contacts *)
(** 277-332 computeElastContactForcesAndMoments. *)
Definition elast_force (c : fcfg) (rci r : M3) (cp cv p v w : V3) : V3 :=
  let rcp := mvec r cp in
  let g := vadd p rcp in
  vadd (mvec (mmul (mmul (mneg (f_kfe c)) (mtr rci)) (mtr r)) (vsub g cp))
       (mvec (mmul (mmul (mneg (f_kfv c)) (mtr rci)) (mtr r)) (vadd (vadd (mvec (skew w) rcp) v) (mvec r cv))).
Definition elast_moment (c : fcfg) (rci r : M3) (th w : V3) : V3 :=
  vadd (mvec (mmul (mmul (mneg (f_kte c)) (mtr rci)) (mtr r)) th) (mvec (mmul (mmul (mneg (f_ktv c)) (mtr rci)) (mtr r)) w).
Fixpoint elast_loop (md : mode) (c : fcfg) (r : M3) (p v th w : V3) (i : nat) (cs : list (V3 * V3 * V3)) (fc tc : list V3) (k : cache) : outcome (list V3 * list V3 * cache) :=
  match cs with
  | [] => Ok (fc, tc, k)
  | (cp, co, cv) :: cs =>
      let '(rci, k) := getrot (i + 2) co k in
      do _ <- eigen_assert md (Nat.ltb i (length fc));
      elast_loop md c r p v th w (S i) cs (list_set i (elast_force c rci r cp cv p v w) fc) (list_set i (elast_moment c rci r th w) tc) k
  end.
(** 334-385 computeElastPendulumForcesAndMoments; the moment of each rope (367) is computed and dropped. Division by a
    zero length is 0 here and not-a-number in the code. *)
Definition rope_force (c : fcfg) (r : M3) (p pr : V3) : V3 :=
  let g := vadd p (mvec r pr) in
  let l := vnorm (vsub pr (f_pe c)) in
  let l' := vnorm (vsub g (f_pe c)) in
  mvec (mscal (- (l' - l)) (f_rfe c)) (vscal (/ l') (vsub g (f_pe c))).
Definition ropes (c : fcfg) (r : M3) (p v th w : V3) (cs : list (V3 * V3 * V3)) : V3 * V3 :=
  (vadd (fold_left (fun f k => vadd f (rope_force c r p (fst (fst k)))) cs v0) (mvec (mneg (f_rfv c)) v),
   vadd (mkV 0 0 (- m22 (f_rte c) * vz th)) (mvec (mneg (f_rtv c)) w)).
(** 387-413 computeForcesAndMoments: the new fc and tc. *)
Definition forces (md : mode) (c : fcfg) (cs : list (V3 * V3 * V3)) (p v th : V3) (r : M3) (w : V3) (k : cache) : outcome (list V3 * list V3 * cache) :=
  match f_model c with
  | CElastic => elast_loop md c r p v th w 0 cs (repeat v0 nbModeledMax) (repeat v0 nbModeledMax) k
  | CPendulum => let '(f, t) := ropes c r p v th w cs in Ok ([f; v0], [t; v0], k)
  | _ => Throw
  end.

(** ** One step *)
(** The base: position, rotation vector, velocities. *)
Record fbase := mkFL { l_p : V3; l_th : V3; l_v : V3; l_w : V3 }.
Definition base_of (x : list R) : fbase := mkFL (seg3 x 0) (seg3 x 3) (seg3 x 6) (seg3 x 9).
(** 610-680 iterateDynamicsEuler. *)
Definition euler (md : mode) (c : fcfg) (b : fbody) (dt : R) (l : fbase) (fc tc : list V3) (k : cache) : outcome (fbase * list V3 * list V3 * cache) :=
  let '(r, k) := getrot 0 (l_th l) k in
  do (a, al) <- accel md c b (l_p l) r (l_w l) fc tc;
  let '(p', v') := int_pv dt a (l_p l) (l_v l) in
  let '(r', w') := int_mw dt al r (l_w l) in
  let th' := mat_rv r' in
  do (fc', tc', k) <- forces md c (b_cs b) p' v' th' r' w' k;
  Ok (mkFL p' th' v' w', fc', tc', k).
(** 682-813 iterateDynamicsRK4. The third evaluation (774-777) passes tc and fc in the other order. *)
Definition rk4 (md : mode) (c : fcfg) (b : fbody) (dt : R) (l : fbase) (fc tc : list V3) (k : cache) : outcome (fbase * list V3 * list V3 * cache) :=
  let '(r, k) := getrot 0 (l_th l) k in
  let p := l_p l in let v := l_v l in let w := l_w l in
  do (a1, al1) <- accel md c b p r w fc tc;
  let p2 := int_p (dt / 2) p v in let r2 := int_m (dt / 2) r w in
  let v2 := vadd v (vscal (dt / 2) a1) in let w2 := vadd w (vscal (dt / 2) al1) in
  do (a2, al2) <- accel md c b p2 r2 w2 fc tc;
  let p3 := int_p (dt / 2) p v2 in let r3 := int_m (dt / 2) r w2 in
  let v3 := vadd v (vscal (dt / 2) a2) in let w3 := vadd w (vscal (dt / 2) al2) in
  do (a3, al3) <- accel md c b p3 r3 w3 tc fc;
  let p4 := int_p dt p v3 in let r4 := int_m dt r w3 in
  let v4 := vadd v (vscal dt a3) in let w4 := vadd w (vscal dt al3) in
  do (a4, al4) <- accel md c b p4 r4 w4 fc tc;
  let p' := int_p (dt / 6) (int_p (dt / 3) (int_p (dt / 3) (int_p (dt / 6) p v) v2) v3) v4 in
  let r' := int_m (dt / 6) (int_m (dt / 3) (int_m (dt / 3) (int_m (dt / 6) r w) w2) w3) w4 in
  let v' := vadd v (vscal (dt / 6) (vadd (vadd (vadd a1 (vscal 2 a2)) (vscal 2 a3)) a4)) in
  let w' := vadd w (vscal (dt / 6) (vadd (vadd (vadd al1 (vscal 2 al2)) (vscal 2 al3)) al4)) in
  let th' := mat_rv r' in
  let '(rf, k) := getrot 0 th' k in
  do (fc', tc', k) <- forces md c (b_cs b) p' v' th' rf w' k;
  Ok (mkFL p' th' v' w', fc', tc', k).

(** ** The object *)
(** hpp:330-541. [f_opxk1] is op_.xk1; [f_eff] tells whether op_.efforts has its two entries; the other members of
    op_ are assigned before they are read in every call. *)
Record fsys := mkFS { f_cfg : fcfg; f_cache : cache; f_fc : list V3; f_tc : list V3; f_eff : bool;
  f_xk : list R; f_uk : list R; f_xk1 : list R; f_opxk1 : list R; f_xf : list R; f_uf : list R; f_kf : Z; f_yk : list R; f_dx : list R;
  f_sens : asensor R; f_pn : option nat; f_pcalls : nat }.
(** 76-111. *)
Definition f_init (dt : R) : fsys :=
  mkFS (fcfg_init dt) cache_init [v0; v0] [v0; v0] false [] [] [] [] [] [] 0 [] [] (a_setMatrixMode true a_init) None 0.
Definition with_cfg (c : fcfg) (s : fsys) : fsys := mkFS c (f_cache s) (f_fc s) (f_tc s) (f_eff s) (f_xk s) (f_uk s) (f_xk1 s) (f_opxk1 s) (f_xf s) (f_uf s) (f_kf s) (f_yk s) (f_dx s) (f_sens s) (f_pn s) (f_pcalls s).
Definition with_work (k : cache) (fc tc : list V3) (e : bool) (s : fsys) : fsys := mkFS (f_cfg s) k fc tc e (f_xk s) (f_uk s) (f_xk1 s) (f_opxk1 s) (f_xf s) (f_uf s) (f_kf s) (f_yk s) (f_dx s) (f_sens s) (f_pn s) (f_pcalls s).
Definition with_x (xk uk xk1 : list R) (s : fsys) : fsys := mkFS (f_cfg s) (f_cache s) (f_fc s) (f_tc s) (f_eff s) xk uk xk1 (f_opxk1 s) (f_xf s) (f_uf s) (f_kf s) (f_yk s) (f_dx s) (f_sens s) (f_pn s) (f_pcalls s).
Definition with_opxk1 (x : list R) (s : fsys) : fsys := mkFS (f_cfg s) (f_cache s) (f_fc s) (f_tc s) (f_eff s) (f_xk s) (f_uk s) (f_xk1 s) x (f_xf s) (f_uf s) (f_kf s) (f_yk s) (f_dx s) (f_sens s) (f_pn s) (f_pcalls s).
Definition with_y (xf uf : list R) (kf : Z) (yk : list R) (sn : asensor R) (s : fsys) : fsys := mkFS (f_cfg s) (f_cache s) (f_fc s) (f_tc s) (f_eff s) (f_xk s) (f_uk s) (f_xk1 s) (f_opxk1 s) xf uf kf yk (f_dx s) sn (f_pn s) (f_pcalls s).
Definition with_dx (dx : list R) (s : fsys) : fsys := mkFS (f_cfg s) (f_cache s) (f_fc s) (f_tc s) (f_eff s) (f_xk s) (f_uk s) (f_xk1 s) (f_opxk1 s) (f_xf s) (f_uf s) (f_kf s) (f_yk s) dx (f_sens s) (f_pn s) (f_pcalls s).
Definition with_pn (o : option nat) (n : nat) (s : fsys) : fsys := mkFS (f_cfg s) (f_cache s) (f_fc s) (f_tc s) (f_eff s) (f_xk s) (f_uk s) (f_xk1 s) (f_opxk1 s) (f_xf s) (f_uf s) (f_kf s) (f_yk s) (f_dx s) (f_sens s) o n.

Section Flex.
Variable nz : noises R.

(** assertStateVector_, assertInputVector_, and the segments of the contacts within the input. *)
Definition f_sizes (md : mode) (x u : list R) (s : fsys) : outcome unit :=
  do _ <- vsize md 35 x; do _ <- vsize md (f_isize (f_cfg s)) u; eigen_assert md (Nat.leb (48 + 12 * f_nc (f_cfg s)) (length u)).
(** 900-908 processNoise_->getNoisy(op_.xk1), or xk1_. *)
Definition f_noise (s : fsys) : outcome (list R * fsys) :=
  match f_pn s with
  | None => Ok (f_xk1 s, s)
  | Some id => do y <- nz id (f_pcalls s) (f_opxk1 s); Ok (y, with_pn (Some id) (S (f_pcalls s)) s)
  end.
(** 886-898 xk1_: the unmodeled forces are multiplied by marginalStabilityFactor_ (0.9999), or set to zero; the rest of x
    (the bias and the drift) is kept. *)
Definition f_pack (c : fcfg) (x : list R) (l : fbase) (fc tc : list V3) : list R :=
  vlist (l_p l) ++ vlist (l_th l) ++ vlist (l_v l) ++ vlist (l_w l) ++
  (vlist (nth 0 fc v0) ++ vlist (nth 0 tc v0)) ++ (vlist (nth 1 fc v0) ++ vlist (nth 1 tc v0)) ++
  (if f_unm c then vlist (vscal (9999 / 10000) (seg3 x 24)) ++ vlist (vscal (9999 / 10000) (seg3 x 27)) else repeat 0 6) ++ skipn 30 x.
(** 815-913 stateDynamics. *)
Definition f_stateDynamics (md : mode) (x u : list R) (s : fsys) : outcome (list R * fsys) :=
  do _ <- f_sizes md x u s;
  let c := f_cfg s in
  do (l, fc, tc, k) <- euler md c (body_of c x u) (f_dt c) (base_of x) (efforts_f x) (efforts_t x) (f_cache s);
  f_noise (with_x x u (f_pack c x l fc tc) (with_work k fc tc true s)).

(** 478-536 computeAccelerations(x, u). *)
Definition f_accelerations (md : mode) (x u : list R) (s : fsys) : outcome (list R * fsys) :=
  do _ <- f_sizes md x u s;
  let c := f_cfg s in
  let '(r, k) := getrot 0 (seg3 x 3) (f_cache s) in
  do (a, al) <- accel md c (body_of c x u) (seg3 x 0) r (seg3 x 9) (efforts_f x) (efforts_t x);
  Ok (vlist a ++ vlist al, with_work k (efforts_f x) (efforts_t x) true s).
(** 134-181 getMomentaDotFromForces; the mass is hrp2::m. *)
Definition f_momentaForces (md : mode) (x u : list R) (s : fsys) : outcome (list R * fsys) :=
  do _ <- f_sizes md x u s;
  let c := f_cfg s in
  let '(r, k) := getrot 0 (seg3 x 3) (f_cache s) in
  let b := body_of c x u in
  do (f, t) <- wrench md c b r (seg3 x 0) (efforts_f x) (efforts_t x);
  Ok (vlist (vsub f (vscal hrp2_m gravity)) ++ vlist (vsub t (mvec (mscal hrp2_m (skew (vadd (mvec r (b_c b)) (seg3 x 0)))) gravity)),
      with_work k (efforts_f x) (efforts_t x) true s).
(** 183-254 getMomentaDotFromKinematics; the accelerations are computed (233-237) with the linear velocity as angular velocity. *)
Definition f_momentaKinematics (md : mode) (x u : list R) (s : fsys) : outcome (list R * fsys) :=
  do _ <- f_sizes md x u s;
  let c := f_cfg s in
  let '(r, k) := getrot 0 (seg3 x 3) (f_cache s) in
  let b := body_of c x u in let p := seg3 x 0 in let w := seg3 x 9 in
  do (a, al) <- accel md c b p r (seg3 x 6) (efforts_f x) (efforts_t x);
  let rc := mvec r (b_c b) in
  let h := vscal hrp2_m (vadd (vadd (vadd (vadd (mvec (mmul (skew al) r) (b_c b)) (mvec (mmul (skew2 w) r) (b_c b)))
                                        (mvec (mmul (mscal 2 (skew w)) r) (b_cd b))) (mvec r (b_cdd b))) a) in
  let sg := vadd (vadd (vadd (vadd (vadd (vadd (mvec (mmul (mmul (mmul (skew w) r) (b_I b)) (mtr r)) w) (mvec (mmul (mmul r (b_Id b)) (mtr r)) w))
                                  (mvec (mmul (mmul r (b_I b)) (mtr r)) al)) (mvec (mmul (skew w) r) (b_sg b))) (mvec r (b_sgd b)))
                  (mvec (skew p) h)) (mvec (mscal hrp2_m (skew rc)) a) in
  Ok (vlist h ++ vlist sg, with_work k (efforts_f x) (efforts_t x) true s).
(** 256-269 getForcesAndMoments(). *)
Definition f_getForces (md : mode) (s : fsys) : outcome (list R) :=
  do _ <- eigen_assert md (Nat.leb (f_nc (f_cfg s)) nbModeledMax);
  Ok (concat (map (fun i => vlist (nth i (f_fc s) v0) ++ vlist (nth i (f_tc s) v0)) (seq 0 (f_nc (f_cfg s))))).
(** 415-440 computeForcesAndMoments(x, u), and 271-275 getForcesAndMoments(x, u). *)
Definition f_forcesOf (md : mode) (x u : list R) (s : fsys) : outcome (list R * fsys) :=
  do _ <- eigen_assert md (Nat.leb 12 (length x)); do _ <- eigen_assert md (Nat.leb (48 + 12 * f_nc (f_cfg s)) (length u));
  let c := f_cfg s in
  let '(r, k) := getrot 0 (seg3 x 3) (f_cache s) in
  do (fc, tc, k) <- forces md c (contacts_of (f_nc c) u) (seg3 x 0) (seg3 x 6) (seg3 x 3) r (seg3 x 9) k;
  let s := with_work k fc tc (f_eff s) s in
  do y <- f_getForces md s; Ok (y, s).

(** 1011-1013 (op_.rimu as a column-major vector). *)
Definition mat_list (m : M3) : list R := [m00 m; m10 m; m20 m; m01 m; m11 m; m21 m; m02 m; m12 m; m22 m].
(** 1032-1033 rdrift. *)
Definition rdrift (a : R) : M3 := mkM (cos a) (- sin a) 0 (sin a) (cos a) 0 0 0 1.
(** 1015-1044: what follows the inertial unit in the state of the sensor: the efforts of the contacts, and the pose of the base
    moved by the drift. *)
Definition f_direct (md : mode) (c : fcfg) (x : list R) (r : M3) : outcome (list R) :=
  do fs <- (if f_force c then do _ <- eigen_assert md (Nat.leb (12 + 6 * f_nc c) 35); Ok (firstn (6 * f_nc c) (skipn 12 x)) else Ok []);
  let ab := if f_abs c then
      let rd := rdrift (at_ x 34) in
      vlist (vadd (mkV (at_ x 32) (at_ x 33) 0) (mvec rd (seg3 x 0))) ++ vlist (mat_rv (mmul rd r))
    else [] in
  Ok (fs ++ ab).
(** 928-1054 measureDynamics. op_.efforts[i] (940) needs the two entries that another call has put there. *)
Definition f_measureDynamics (md : mode) (x u : list R) (t : Z) (s : fsys) : outcome (list R * fsys) :=
  do _ <- f_sizes md x u s;
  do _ <- boost_assert md (f_eff s);
  do _ <- (if f_eff s then Ok tt else UB);
  let c := f_cfg s in
  let '(r, k) := getrot 0 (seg3 x 3) (f_cache s) in
  let '(rc, k) := getrot 1 (seg3 u 30) k in
  let w := seg3 x 9 in
  do (a, al) <- accel md c (body_of c x u) (seg3 x 0) r w (efforts_f x) (efforts_t x);
  let acc := vadd (vadd (mvec (mmul (mscal 2 (skew w)) r) (seg3 u 33)) (vadd a (mvec r (seg3 u 39))))
                  (mvec (mmul (madd (skew al) (mmul (skew w) (skew w))) r) (seg3 u 27)) in
  let om := vadd w (mvec r (seg3 u 36)) in
  do d <- f_direct md c x r;
  do sn <- a_setState accgyro md (mat_list (mmul r rc) ++ vlist acc ++ vlist om ++ d) t (f_sens s);
  do (y, sn) <- a_getMeasurements accgyro nz md true sn;
  Ok (y, with_y x u t y sn (with_work k (efforts_f x) (efforts_t x) true s)).

(** ** The Jacobians by finite differences *)
Definition lsub (a b : list R) : list R := map (fun q => fst q - snd q) (combine a b).
Definition ldiv (a : list R) (h : R) : list R := map (fun q => q / h) a.
(** 1157-1167 (and 1174-1184, 1192-1202, 1216-1226): the columns of indices [is]; xdx[i] += dx[i], the column, xdx[i] = xk[i]. *)
Fixpoint fd_cols (f : list R -> fsys -> outcome (list R * fsys)) (md : mode) (x0 y0 : list R) (is : list nat) (s : fsys) : outcome (list (nat * list R) * fsys) :=
  match is with
  | [] => Ok ([], s)
  | i :: is =>
      do _ <- eigen_assert md (Nat.ltb i (length x0) && Nat.ltb i (length (f_dx s)));
      let h := at_ (f_dx s) i in
      do (y, s) <- f (list_set i (at_ x0 i + h) x0) s;
      do _ <- eigen_assert md (Nat.eqb (length y) (length y0));
      do (cs, s) <- fd_cols f md x0 y0 is s;
      Ok ((i, ldiv (lsub y y0) h) :: cs, s)
  end.
(** Column i of the identity with n rows. *)
Definition unit_col (n i : nat) : list R := map (fun j => if Nat.eqb j i then 1 else 0) (seq 0 n).
(** 1146-1239 stateDynamicsJacobian, as the list of its columns with their indices: computed for the first 24, then for the
    unmodeled forces, the bias and the drift when they are enabled, and otherwise set to those of the identity. *)
Definition f_stateJacobian (md : mode) (s : fsys) : outcome (list (nat * list R) * fsys) :=
  let c := f_cfg s in let xk := f_xk s in let xk1 := f_xk1 s in let uk := f_uk s in
  let s := with_opxk1 xk1 s in
  let f := fun x s => f_stateDynamics md x uk s in
  let block (b : bool) (is : list nat) (s : fsys) := if b then fd_cols f md xk xk1 is s else Ok (map (fun i => (i, unit_col 35 i)) is, s) in
  do (c1, s) <- block true (seq 0 24) s;
  do (c2, s) <- block (f_unm c) (seq 24 6) s;
  do (c3, s) <- block (f_bias c) (seq 30 2) s;
  do (c4, s) <- block (f_abs c) (seq 32 3) s;
  Ok (c1 ++ c2 ++ c3 ++ c4, with_x xk (f_uk s) xk1 s).
(** 1304-1319 updateMeasurementSize_. *)
Definition f_extra (c : fcfg) : nat := ((if f_force c then f_nc c * 6 else 0) + (if f_abs c then 6 else 0))%nat.
Definition f_update (c : fcfg) (s : fsys) : fsys :=
  let s := with_cfg c s in with_y (f_xf s) (f_uf s) (f_kf s) (f_yk s) (a_concatenate accgyro (f_extra c) (f_sens s)) s.
(** 1056-1144 measureDynamicsJacobian: the columns of disabled parts are zero. *)
Definition f_measureJacobian (md : mode) (s : fsys) : outcome (list (nat * list R) * fsys) :=
  let c := f_cfg s in let xf := f_xf s in let yk := f_yk s in let uf := f_uf s in let kf := f_kf s in
  let f := fun x s => f_measureDynamics md x uf kf s in
  let n := (6 + f_extra c)%nat in
  let block (b : bool) (is : list nat) (s : fsys) := if b then fd_cols f md xf yk is s else Ok (map (fun i => (i, repeat 0 n)) is, s) in
  do (c1, s) <- block true (seq 0 24) s;
  do (c2, s) <- block (f_unm c) (seq 24 6) s;
  do (c3, s) <- block (f_bias c) (seq 30 2) s;
  do (c4, s) <- block (f_abs c) (seq 32 3) s;
  Ok (c1 ++ c2 ++ c3 ++ c4, with_y xf (f_uf s) (f_kf s) yk (f_sens s) s).

(** ** The public calls *)
Inductive fset := SetMass (m : R) | SetModel (m : cmodel) | SetPeriod (dt : R) | SetInputSize (n : nat)
  | SetKfe (m : M3) | SetKfv (m : M3) | SetKte (m : M3) | SetKtv (m : M3) | SetRfe (m : M3) | SetRfv (m : M3) | SetRte (m : M3) | SetRtv (m : M3) | SetPe (p : V3)
  | SetWithComBias (b : bool) | SetWithUnmodeled (b : bool).
(** 118-132, 1261-1264, 1276-1279, 1327-1341, 1358-1396, hpp:198-201. *)
Definition f_setting (o : fset) (c : fcfg) : fcfg :=
  match c with mkFC dt m nc md isz a1 a2 a3 a4 b1 b2 b3 b4 pe f b a u =>
  match o with
  | SetMass m => mkFC dt m nc md isz a1 a2 a3 a4 b1 b2 b3 b4 pe f b a u
  | SetModel md => mkFC dt m nc md isz a1 a2 a3 a4 b1 b2 b3 b4 pe f b a u
  | SetPeriod dt => mkFC dt m nc md isz a1 a2 a3 a4 b1 b2 b3 b4 pe f b a u
  | SetInputSize isz => mkFC dt m nc md isz a1 a2 a3 a4 b1 b2 b3 b4 pe f b a u
  | SetKfe a1 => mkFC dt m nc md isz a1 a2 a3 a4 b1 b2 b3 b4 pe f b a u
  | SetKfv a2 => mkFC dt m nc md isz a1 a2 a3 a4 b1 b2 b3 b4 pe f b a u
  | SetKte a3 => mkFC dt m nc md isz a1 a2 a3 a4 b1 b2 b3 b4 pe f b a u
  | SetKtv a4 => mkFC dt m nc md isz a1 a2 a3 a4 b1 b2 b3 b4 pe f b a u
  | SetRfe b1 => mkFC dt m nc md isz a1 a2 a3 a4 b1 b2 b3 b4 pe f b a u
  | SetRfv b2 => mkFC dt m nc md isz a1 a2 a3 a4 b1 b2 b3 b4 pe f b a u
  | SetRte b3 => mkFC dt m nc md isz a1 a2 a3 a4 b1 b2 b3 b4 pe f b a u
  | SetRtv b4 => mkFC dt m nc md isz a1 a2 a3 a4 b1 b2 b3 b4 pe f b a u
  | SetPe pe => mkFC dt m nc md isz a1 a2 a3 a4 b1 b2 b3 b4 pe f b a u
  | SetWithComBias b => mkFC dt m nc md isz a1 a2 a3 a4 b1 b2 b3 b4 pe f b a u
  | SetWithUnmodeled u => mkFC dt m nc md isz a1 a2 a3 a4 b1 b2 b3 b4 pe f b a u
  end end.
(** 1296-1302 setContactsNumber, 1321-1325 setWithForceMeasurements, 1332-1336 setWithAbsolutePosition. *)
Definition set_contacts (n : nat) (c : fcfg) : fcfg :=
  match c with mkFC dt m nc md isz a1 a2 a3 a4 b1 b2 b3 b4 pe f b a u => mkFC dt m n md (48 + 12 * n) a1 a2 a3 a4 b1 b2 b3 b4 pe f b a u end.
Definition set_force (f : bool) (c : fcfg) : fcfg :=
  match c with mkFC dt m nc md isz a1 a2 a3 a4 b1 b2 b3 b4 pe _ b a u => mkFC dt m nc md isz a1 a2 a3 a4 b1 b2 b3 b4 pe f b a u end.
Definition set_abs (a : bool) (c : fcfg) : fcfg :=
  match c with mkFC dt m nc md isz a1 a2 a3 a4 b1 b2 b3 b4 pe f b _ u => mkFC dt m nc md isz a1 a2 a3 a4 b1 b2 b3 b4 pe f b a u end.

Inductive fop := FState (x u : list R) | FMeas (x u : list R) (k : Z) | FAcc (x u : list R) | FMomF (x u : list R) | FMomK (x u : list R)
  | FForces | FForcesOf (x u : list R) | FJx | FJy | FSet (o : fset) | FContacts (n : nat) | FWithForce (b : bool) | FWithAbs (b : bool)
  | FDx (dx : list R) | FProc (o : option nat) | FMNoise (o : option nat).
(** What a call returns: a vector, or the columns of a matrix. *)
Inductive fout := ONone | OVec (y : list R) | OCols (c : list (list R)).
Definition f_step (md : mode) (o : fop) (s : fsys) : outcome (fout * fsys) :=
  match o with
  | FState x u => do (y, s) <- f_stateDynamics md x u s; Ok (OVec y, s)
  | FMeas x u k => do (y, s) <- f_measureDynamics md x u k s; Ok (OVec y, s)
  | FAcc x u => do (y, s) <- f_accelerations md x u s; Ok (OVec y, s)
  | FMomF x u => do (y, s) <- f_momentaForces md x u s; Ok (OVec y, s)
  | FMomK x u => do (y, s) <- f_momentaKinematics md x u s; Ok (OVec y, s)
  | FForces => do y <- f_getForces md s; Ok (OVec y, s)
  | FForcesOf x u => do (y, s) <- f_forcesOf md x u s; Ok (OVec y, s)
  | FJx => do (c, s) <- f_stateJacobian md s; Ok (OCols (map snd c), s)
  | FJy => do (c, s) <- f_measureJacobian md s; Ok (OCols (map snd c), s)
  | FSet o => Ok (ONone, with_cfg (f_setting o (f_cfg s)) s)
  | FContacts n => Ok (ONone, f_update (set_contacts n (f_cfg s)) s)
  | FWithForce b => Ok (ONone, f_update (set_force b (f_cfg s)) s)
  | FWithAbs b => Ok (ONone, f_update (set_abs b (f_cfg s)) s)
  | FDx dx => Ok (ONone, with_dx dx s)
  | FProc o => Ok (ONone, with_pn o (f_pcalls s) s)
  | FMNoise o => Ok (ONone, with_y (f_xf s) (f_uf s) (f_kf s) (f_yk s) (a_setNoise o (f_sens s)) s)
  end.
Fixpoint f_run (md : mode) (ops : list fop) (s : fsys) : outcome fsys :=
  match ops with [] => Ok s | o :: os => do (_, s) <- f_step md o s; f_run md os s end.
End Flex.
