(** Model of kine::Kinematics (rigid-body-kinematics.hpp:467-552, .hxx:1030-1889) and
    kine::invertState (.hxx:654-676). *)
From Coq Require Import Reals List Bool.
From Verif Require Import Base Vec3 Rot Orient.
Import ListNotations.
Open Scope R_scope.

(** rigid-body-kinematics.hpp:529-536: the six members. [None]: not set (as in Orient.v, what an
    unset item still holds is not modelled; reading it is an assertion in debug, undefined in
    release). *)
Record Kin := mkK { kp : option V3; ko : Ori; kv : option V3; kw : option V3; ka : option V3; kal : option V3 }.
Definition k_empty : Kin := mkK None o_empty None None None None.
Definition with_ori (k : Kin) (o : Ori) : Kin := mkK (kp k) o (kv k) (kw k) (ka k) (kal k).

(** rigid-body-kinematics.hpp:469-481 Flags (one bit each), and .hxx:1117-1165 setZero<Quaternion>(flags). *)
Record flags := mkF { fP : bool; fO : bool; fV : bool; fW : bool; fA : bool; fAl : bool }.
Definition k_setZero (f : flags) (k : Kin) : Kin :=
  let z (b : bool) x := if b then Some v0 else x in
  mkK (z (fP f) (kp k)) (if fO f then o_zero else ko k) (z (fV f) (kv k)) (z (fW f) (kw k)) (z (fA f) (ka k)) (z (fAl f) (kal k)).

(** .hxx:1656-1750 setToProductNoAlias: the product, and the operands whose orientation caches
    may have been filled on the way. First the linear part (1664-1709). *)
Definition k_mul_lin (md : mode) (a b : Kin) (o1 : Ori) : outcome (option V3 * option V3 * option V3 * Ori) :=
  match kp b, kp a with
  | Some p2, Some p1 =>
      do (rp2, o1) <- o_rot md o1 p2;
      match kv b, kv a, kw a with
      | Some v2, Some v1, Some w1 =>
          do (rv2, o1) <- o_rot md o1 v2;
          let s := vadd (vcross w1 rp2) rv2 in
          match ka b, ka a, kal a with
          | Some a2, Some a1, Some al1 =>
              do (ra2, o1) <- o_rot md o1 a2;
              Ok (Some (vadd rp2 p1), Some (vadd s v1),
                  Some (vadd (vadd (vadd ra2 (vcross al1 rp2)) (vcross w1 (vadd s rv2))) a1), o1)
          | _, _, _ => Ok (Some (vadd rp2 p1), Some (vadd s v1), None, o1)
          end
      | _, _, _ => Ok (Some (vadd rp2 p1), None, None, o1)
      end
  | _, _ => Ok (None, None, None, o1)
  end.
(** .hxx:1711-1747, the angular part. *)
Definition k_mul_ang (md : mode) (a b : Kin) (o1 : Ori) : outcome (Ori * option V3 * option V3 * Ori * Ori) :=
  if o_isSet (ko b) then
    do (o, o1, o2) <- o_mul md o1 (ko b);
    match kw b, kw a with
    | Some w2, Some w1 =>
        do (rw2, o1) <- o_rot md o1 w2;
        match kal b, kal a with
        | Some al2, Some al1 =>
            do (ral2, o1) <- o_rot md o1 al2;
            Ok (o, Some (vadd rw2 w1), Some (vadd (vadd ral2 (vcross w1 rw2)) al1), o1, o2)
        | _, _ => Ok (o, Some (vadd rw2 w1), None, o1, o2)
        end
    | _, _ => Ok (o, None, None, o1, o2)
    end
  else Ok (o_empty, None, None, o1, ko b).
Definition k_mul (md : mode) (a b : Kin) : outcome (Kin * Kin * Kin) :=
  do _ <- boost_assert md (o_isSet (ko a));
  do _ <- boost_assert md (isSome (kp b) || o_isSet (ko b));
  do (p, v, ac, o1) <- k_mul_lin md a b (ko a);
  do (o, w, al, o1, o2) <- k_mul_ang md a b o1;
  Ok (mkK p o v w ac al, with_ori a o1, with_ori b o2).

(** .hxx:1610-1648 getInverse. *)
Definition k_inv (md : mode) (k : Kin) : outcome Kin :=
  do _ <- boost_assert md (o_isSet (ko k));
  do r <- o_inv md (ko k);
  do (w, al, r) <- match kw k with
    | Some w => do (rw, r) <- o_rot md r w;
        match kal k with
        | Some al => do (ral, r) <- o_rot md r (vsub (vcross w w) al); Ok (Some (vneg rw), Some ral, r)
        | None => Ok (Some (vneg rw), None, r)
        end
    | None => Ok (None, None, r)
    end;
  do (p, v, ac, r) <- match kp k with
    | Some p => do (rp, r) <- o_rot md r p;
        match kv k, kw k with
        | Some v, Some w =>
            let wxp := vcross w p in
            do (rv, r) <- o_rot md r (vsub wxp v);
            match ka k, kal k with
            | Some ac, Some al =>
                do (ra, r) <- o_rot md r (vadd (vsub (vcross w (vsub (vscal 2 v) wxp)) ac) (vcross al p));
                Ok (Some (vneg rp), Some rv, Some ra, r)
            | _, _ => Ok (Some (vneg rp), Some rv, None, r)
            end
        | _, _ => Ok (Some (vneg rp), None, None, r)
        end
    | None => Ok (None, None, None, r)
    end;
  Ok (mkK p r v w ac al).

(** .hxx:1167-1208 integrate. *)
Definition k_integrate (md : mode) (dt : R) (k : Kin) : outcome Kin :=
  do (o, w) <- match kw k with
    | Some w => match kal k with
        | Some al =>
            do o <- (if o_isSet (ko k) then o_integrate md (vadd (vscal dt w) (vscal (dt * dt / 2) al)) (ko k) else Ok (ko k));
            Ok (o, Some (vadd w (vscal dt al)))
        | None =>
            do o <- (if o_isSet (ko k) then o_integrate md (vscal dt w) (ko k) else Ok (ko k));
            Ok (o, Some w)
        end
    | None => Ok (ko k, None)
    end;
  let '(p, v) := match kv k with
    | Some v => match ka k with
        | Some ac => (option_map (fun p => vadd p (vadd (vscal dt v) (vscal (dt * dt / 2) ac))) (kp k), Some (vadd v (vscal dt ac)))
        | None => (option_map (fun p => vadd p (vscal dt v)) (kp k), Some v)
        end
    | None => (kp k, None)
    end in
  Ok (mkK p o v w (ka k) (kal k)).

(** rigid-body-kinematics.hpp:480 Flags::all. *)
Definition f_all : flags := mkF true true true true true true.

(** Eigen coefficient order of a quaternion (x, y, z, w) and of a vector. *)
Definition l3 (v : V3) : list R := [vx v; vy v; vz v].
Definition l4 (q : Q4) : list R := [qx q; qy q; qz q; qw q].
(** .hxx:1752-1815 toVector(flags). *)
Definition k_toVec (md : mode) (f : flags) (k : Kin) : outcome (list R * Kin) :=
  let item (b : bool) (x : option V3) : outcome (list R) := if b then (do v <- oget md x; Ok (l3 v)) else Ok [] in
  do p <- item (fP f) (kp k);
  do (q, o) <- (if fO f then (do (q, o) <- o_toQuat md (ko k); Ok (l4 q, o)) else Ok ([], ko k));
  do v <- item (fV f) (kv k); do w <- item (fW f) (kw k);
  do ac <- item (fA f) (ka k); do al <- item (fAl f) (kal k);
  Ok (p ++ q ++ v ++ w ++ ac ++ al, with_ori k o).
(** .hxx:1817-1879 toVector(): the components that are set. *)
Definition k_flags (k : Kin) : flags :=
  mkF (isSome (kp k)) (o_isSet (ko k)) (isSome (kv k)) (isSome (kw k)) (isSome (ka k)) (isSome (kal k)).
Definition k_toVecAll (md : mode) (k : Kin) : outcome (list R * Kin) := k_toVec md (k_flags k) k.

(** Taking n coefficients at the current index: .hxx:1055-1063 and the like. A short vector trips
    the assertion in debug; in release the component is skipped and the index kept. *)
Definition take3 (md : mode) (b : bool) (l : list R) (old : option V3) : outcome (option V3 * list R) :=
  if b then
    match l with
    | x :: y :: z :: l' => Ok (Some (mkV x y z), l')
    | _ => do _ <- boost_assert md false; Ok (old, l)
    end
  else Ok (old, l).
(** .hxx:1044-1116 fromVector. *)
Definition k_fromVec (md : mode) (l : list R) (f : flags) (k : Kin) : outcome Kin :=
  do (p, l) <- take3 md (fP f) l (kp k);
  do (o, l) <- (if fO f then
                  match l with
                  | x :: y :: z :: w :: l' => Ok (o_quat (mkQ w x y z), l')
                  | _ => do _ <- boost_assert md false; Ok (ko k, l)
                  end
                else Ok (ko k, l));
  do (v, l) <- take3 md (fV f) l (kv k);
  do (w, l) <- take3 md (fW f) l (kw k);
  do (ac, l) <- take3 md (fA f) l (ka k);
  do (al, l) <- take3 md (fAl f) l (kal k);
  Ok (mkK p o v w ac al).

(** .hxx:1212-1408, the linear part of update: how each component is obtained, then the
    arithmetic in the order of the code. Division by dt is real division. *)
Inductive meth := noUpdate | usePosition | useVelocity | useAcceleration | useVelAndAcc | usePosAndVel.
Definition meth_pos (md : mode) (f : bool) (p v a p' : bool) : outcome meth :=
  if f then
    if p' then Ok usePosition
    else do _ <- boost_assert md p;
         Ok (if v then (if a then useVelAndAcc else useVelocity) else (if a then useAcceleration else noUpdate))
  else Ok noUpdate.
Definition meth_vel (md : mode) (f : bool) (p v a p' v' : bool) : outcome meth :=
  if f then
    if v' then Ok useVelocity
    else if (p && p')%bool then Ok usePosition
    else do _ <- boost_assert md v; Ok (if a then useAcceleration else noUpdate)
  else Ok noUpdate.
Definition meth_acc (md : mode) (f : bool) (p v a p' v' a' : bool) (vm : meth) : outcome meth :=
  if f then
    if a' then Ok useAcceleration
    else if (v && v')%bool then Ok useVelocity
    else if (v && match vm with usePosition => true | _ => false end)%bool then Ok usePosAndVel
    else if (p && p')%bool then Ok usePosition
    else do _ <- boost_assert md a; Ok noUpdate
  else Ok noUpdate.

Definition vdivr (v : V3) (d : R) : V3 := vscal (/ d) v.
(** The linear state (position, velocity, acceleration). *)
Definition lin := (option V3 * option V3 * option V3)%type.
Definition upd_lin (md : mode) (dt : R) (fp fv fa : bool) (cur new : lin) : outcome lin :=
  let '(p, v, a) := cur in let '(p', v', a') := new in
  do pm <- meth_pos md fp (isSome p) (isSome v) (isSome a) (isSome p');
  do vm <- meth_vel md fv (isSome p) (isSome v) (isSome a) (isSome p') (isSome v');
  do am <- meth_acc md fa (isSome p) (isSome v) (isSome a) (isSome p') (isSome v') (isSome a') vm;
  do a <- match am with
    | useVelocity => do x' <- oget md v'; do x <- oget md v; Ok (Some (vdivr (vsub x' x) dt))
    | usePosition => do x' <- oget md p'; do x <- oget md p; Ok (Some (vdivr (vscal 2 (vsub x' x)) (dt * dt)))
    | _ => Ok a
    end;
  do (v, a) <- match vm with
    | usePosition =>
        do x' <- oget md p'; do x <- oget md p;
        let nv := vdivr (vsub x' x) dt in
        match am with
        | usePosAndVel => do w <- oget md v; Ok (Some nv, Some (vdivr (vadd (vneg w) nv) dt))
        | _ => Ok (Some nv, a)
        end
    | _ => Ok (v, a)
    end;
  do p <- match pm with
    | usePosition => Ok p'
    | useVelocity => do x <- oget md p; do y <- oget md v; Ok (Some (vadd x (vscal dt y)))
    | useVelAndAcc => do x <- oget md p; do y <- oget md v; do z <- oget md a;
                      Ok (Some (vadd x (vadd (vscal dt y) (vscal (dt * dt / 2) z))))
    | useAcceleration => do x <- oget md p; do z <- oget md a; Ok (Some (vadd x (vscal (dt * dt / (1 / 2)) z)))
    | _ => Ok p
    end;
  do v <- match vm with
    | useVelocity => Ok v'
    | useAcceleration => do y <- oget md v; do z <- oget md a; Ok (Some (vadd y (vscal dt z)))
    | _ => Ok v
    end;
  do a <- match am with useAcceleration => do z <- oget md a'; Ok (Some z) | _ => Ok a end;
  Ok (if fp then p else None, if fv then v else None, if fa then a else None).

(** .hxx:1410-1606, the angular part: the same structure with orientations. [usePosition] stands
    for useOrientation and [usePosAndVel] for useOriAndVel. At .hxx:1538 the code compares
    accMethod with useVelAndAcc, a value it never takes, so the branch computing the
    acceleration from orientation and velocity is dead. Orientation caches filled by
    differentiate are not tracked here: [this] is overwritten or reset afterwards, and the
    argument is taken by value. *)
Definition ang := (Ori * option V3 * option V3)%type.
Definition upd_ang (md : mode) (dt : R) (fp fv fa : bool) (cur new : ang) : outcome ang :=
  let '(p, v, a) := cur in let '(p', v', a') := new in
  do pm <- meth_pos md fp (o_isSet p) (isSome v) (isSome a) (o_isSet p');
  do vm <- meth_vel md fv (o_isSet p) (isSome v) (isSome a) (o_isSet p') (isSome v');
  do am <- meth_acc md fa (o_isSet p) (isSome v) (isSome a) (o_isSet p') (isSome v') (isSome a') vm;
  do a <- match am with
    | useVelocity => do x' <- oget md v'; do x <- oget md v; Ok (Some (vdivr (vsub x' x) dt))
    | usePosition => do d <- o_diff md p' p; Ok (Some (vdivr (vscal 2 d) (dt * dt)))
    | _ => Ok a
    end;
  do (v, a) <- match vm with
    | usePosition =>
        match am with
        | useVelAndAcc => do w <- oget md v; do d <- o_diff md p p';
                          let nv := vdivr d dt in Ok (Some nv, Some (vdivr (vadd (vneg w) nv) dt))
        | _ => do d <- o_diff md p p'; Ok (Some (vdivr d dt), a)
        end
    | _ => Ok (v, a)
    end;
  do p <- match pm with
    | usePosition => Ok p'
    | useVelocity => do y <- oget md v; o_integrate md (vscal dt y) p
    | useVelAndAcc => do y <- oget md v; do z <- oget md a; o_integrate md (vadd (vscal dt y) (vscal (dt * dt / 2) z)) p
    | useAcceleration => do z <- oget md a; o_integrate md (vscal (dt * dt / (1 / 2)) z) p
    | _ => Ok p
    end;
  do v <- match vm with
    | useVelocity => Ok v'
    | useAcceleration => do y <- oget md v; do z <- oget md a; Ok (Some (vadd y (vscal dt z)))
    | _ => Ok v
    end;
  do a <- match am with useAcceleration => do z <- oget md a'; Ok (Some z) | _ => Ok a end;
  Ok (if fp then p else o_empty, if fv then v else None, if fa then a else None).
(** .hxx:1210-1608 update. *)
Definition k_update (md : mode) (new : Kin) (dt : R) (f : flags) (k : Kin) : outcome Kin :=
  do (p, v, a) <- upd_lin md dt (fP f) (fV f) (fA f) (kp k, kv k, ka k) (kp new, kv new, ka new);
  do (o, w, al) <- upd_ang md dt (fO f) (fW f) (fAl f) (ko k, kw k, kal k) (ko new, kw new, kal new);
  Ok (mkK p o v w a al).

(** .hxx:654-676 invertState on the six blocks of an 18-vector (rotation vector form). *)
Record KState := mkKS { sp : V3; so : V3; sv : V3; sw : V3; sa : V3; sal : V3 }.
Definition invert_state (s : KState) : KState :=
  let r2 := rv_mat (vneg (so s)) in
  let wx := skew (sw s) in
  mkKS (mvec (mscal (-1) r2) (sp s)) (vneg (so s))
       (mvec r2 (vsub (mvec wx (sp s)) (sv s)))
       (mvec (mscal (-1) r2) (sw s))
       (mvec r2 (vadd (vsub (mvec wx (vsub (vscal 2 (sv s)) (mvec wx (sp s)))) (sa s)) (mvec (skew (sal s)) (sp s))))
       (mvec r2 (vsub (mvec wx (sw s)) (sal s))).

(** .hxx:16-58 integrateKinematics, its six basic overloads (the other four, 60-120, call these). *)
Definition int_p (dt : R) (p v : V3) : V3 := vadd p (vscal dt v).
Definition int_pv (dt : R) (a p v : V3) : V3 * V3 :=
  (vadd p (vadd (vscal dt v) (vscal (1 / 2 * dt * dt) a)), vadd v (vscal dt a)).
Definition int_m (dt : R) (m : M3) (w : V3) : M3 := mmul (rv_mat (vscal dt w)) m.
Definition int_mw (dt : R) (al : V3) (m : M3) (w : V3) : M3 * V3 :=
  (mmul (rv_mat (vadd (vscal dt w) (vscal (1 / 2 * dt * dt) al))) m, vadd w (vscal dt al)).
Definition int_q (dt : R) (q : Q4) (w : V3) : Q4 := qmul (rv_quat (vscal dt w)) q.
Definition int_qw (dt : R) (al : V3) (q : Q4) (w : V3) : Q4 * V3 :=
  (qmul (rv_quat (vadd (vscal dt w) (vscal (1 / 2 * dt * dt) al))) q, vadd w (vscal dt al)).
