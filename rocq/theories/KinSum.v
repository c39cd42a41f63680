(** Model of the sum and difference of states of the kinetics observer (kinetics-observer.cpp:
    1402-1480) and of measurements (1482-1507), over the layout of KinObs.v. *)
From Coq Require Import Reals ZArith List Bool.
From Verif Require Import Base Vec3 Rot Orient Kine KinObs.
Import ListNotations.
Open Scope Z_scope.

(** v.segment<n>(i), read: eigen_assert on the range; of three and four entries (a quaternion is
    stored x, y, z, w: Orientation::fromVector4, rigid-body-kinematics.hxx:744-747). *)
Definition seg_rd {A} (md : mode) (i : Z) (n : nat) (v : list A) : outcome (list A) :=
  if (0 <=? i) && (i + Z.of_nat n <=? Z.of_nat (length v)) then Ok (seg_get (Z.to_nat i) n v)
  else match md with Debug => AssertFail | Release => UB end.
Definition rd3 (md : mode) (i : Z) (v : list R) : outcome V3 :=
  do l <- seg_rd md i 3 v; match l with [x; y; z] => Ok (mkV x y z) | _ => UB end.
Definition rd4 (md : mode) (i : Z) (v : list R) : outcome Q4 :=
  do l <- seg_rd md i 4 v; match l with [x; y; z; w] => Ok (mkQ w x y z) | _ => UB end.
(** Coefficient-wise operations on segments of the same size. *)
Definition zip (f : R -> R -> R) (a b : list R) : list R := map (fun p => f (fst p) (snd p)) (combine a b).

(** One segment treated by both functions: [BLin n] (n entries added or subtracted) or [BOri] (an
    orientation, 4 entries in the state and 3 in the tangent), with its index in the state vector and
    in the tangent vector. *)
Inductive bk := BLin (n : nat) | BOri.
Definition blk := (bk * Z * Z)%type.

Section Sum.
Context {Kn M C : Type}.
Notation obs := (obs R Kn M C).
Notation contact := (contact R Kn M C).

(** The loops over the IMUs (cpp:1416-1419, 1454-1458), the i-th with gyroBiasIndex(i). *)
Fixpoint gyro_blocks (md : mode) (maxI : Z) (n : nat) (i : Z) : outcome (list blk) :=
  match n with
  | O => Ok []
  | S n' => do a <- gyroBiasIndex md maxI i; do b <- gyroBiasIndexTangent md maxI i;
            do l <- gyro_blocks md maxI n' (i + 1); Ok ((BLin 3, a, b) :: l)
  end.
(** The loops over the contacts (cpp:1426-1436, 1467-1479), with the index functions on iterators
    (kinetics-observer.hxx:76-106, 184-213). *)
Fixpoint contact_blocks (md : mode) (cs : list contact) : outcome (list blk) :=
  match cs with
  | [] => Ok []
  | c :: cs' =>
      if c_set c then
        do _ <- boost_assert md (0 <? c_sidx c); do _ <- boost_assert md (0 <? c_tidx c);
        do l <- contact_blocks md cs';
        Ok ((BLin 3, c_sidx c, c_tidx c) :: (BOri, c_sidx c + sizePos, c_tidx c + sizePos) ::
            (BLin 6, c_sidx c + sizeContactKine, c_tidx c + sizeContactKineTangent) :: l)
      else contact_blocks md cs'
  end.
(** The segments in the order of the two functions. Simplification: here all the indices are computed
    before the first operation (the order only matters for which of two assertions fails first). *)
Definition ko_blocks (md : mode) (s : obs) : outcome (list blk) :=
  do g <- (if o_withGyro s then gyro_blocks md (o_maxI s) (length (o_imus s)) 0 else Ok []);
  do u <- (if o_withUnm s then do a <- unmodeledWrenchIndex md (o_maxI s); do b <- unmodeledWrenchIndexTangent md (o_maxI s); Ok [(BLin 6, a, b)] else Ok []);
  do c <- contact_blocks md (o_contacts s);
  Ok ([(BLin 3, posIndex, posIndexTangent); (BOri, oriIndex, oriIndexTangent); (BLin 6, linVelIndex, linVelIndexTangent)] ++ g ++ u ++ c).

(** cpp:1402-1437 stateSum: [x] the state, [t] the tangent vector, [a] the vector sum so far. The
    linear parts are added to the sum, the orientation is read in the state. *)
Definition sum_block (md : mode) (x t : list R) (b : blk) (a : list R) : outcome (list R) :=
  let '(k, i, j) := b in
  match k with
  | BLin n => do u <- seg_rd md i n a; do v <- seg_rd md j n t; seg_set md i (zip Rplus u v) a
  | BOri => do q <- rd4 md i x; do v <- rd3 md j t; do o <- o_integrate md v (o_quat q);
            do (q', _) <- o_toQuat md o; seg_set md i (l4 q') a
  end.
Definition ko_stateSum (md : mode) (s : obs) (x t : list R) : outcome (list R) :=
  do bs <- ko_blocks md s; orun (sum_block md x t) bs x.
(** cpp:1439-1480 stateDifference. [d0]: what the vector holds after its resize (line 1443): its previous
    entries if it had that size, unspecified ones otherwise. *)
Definition diff_block (md : mode) (x1 x2 : list R) (b : blk) (d : list R) : outcome (list R) :=
  let '(k, i, j) := b in
  match k with
  | BLin n => do u <- seg_rd md i n x1; do v <- seg_rd md i n x2; seg_set md j (zip Rminus u v) d
  | BOri => do q1 <- rd4 md i x1; do q2 <- rd4 md i x2; do v <- o_diff md (o_quat q2) (o_quat q1); seg_set md j (l3 v) d
  end.
Definition ko_stateDifference (md : mode) (s : obs) (x1 x2 d0 : list R) : outcome (list R) :=
  do bs <- ko_blocks md s; orun (diff_block md x1 x2) bs d0.

(** cpp:1482-1507 measurementDifference: the signals subtracted, then the pose. [d0]: as above. *)
Definition ko_measurementDifference (md : mode) (s : obs) (y1 y2 d0 : list R) : outcome (list R) :=
  let n := sizeIMUSignal * o_nimu s + sizeWrench * o_nreal s in
  do u <- seg_rd md 0 (Z.to_nat n) y1; do v <- seg_rd md 0 (Z.to_nat n) y2; do d <- seg_set md 0 (zip Rminus u v) d0;
  if p_time (o_pose s) =? o_kdata s then
    do u <- seg_rd md n 3 y1; do v <- seg_rd md n 3 y2; do d <- seg_set md n (zip Rminus u v) d;
    let n := n + sizePos in
    do q1 <- rd4 md n y1; do q2 <- rd4 md n y2; do w <- o_diff md (o_quat q2) (o_quat q1); seg_set md n (l3 w) d
  else Ok d.
End Sum.
