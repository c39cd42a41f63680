(** Properties C01-C04: indexed arrays. *)
From Coq Require Import ZArith List Lia Bool.
From Verif Require Import Base Defs SpecArray ArrayProofs.
Import ListNotations.
Open Scope Z_scope.

(** C01. Starting from any array that agrees with a window map, every history of
    operations is tracked by the abstract map: accepted histories give the same result in
    both build modes and agree on every read; rejected histories are exactly those that
    assert (or throw) in a debug build. *)
Theorem C01_array_refines_window_map :
  forall (A : Type) (ops : list (@ia_op A)) (a : iarr A) (w : wmap A),
  agrees a w ->
  match w_run ops w with
  | Some w' => exists a', ia_run Debug ops a = Ok a' /\ ia_run Release ops a = Ok a' /\ agrees a' w'
  | None => ia_run Debug ops a = AssertFail \/ ia_run Debug ops a = Throw
  end.
Proof.
  intros A ops a w H. pose proof (run_sim ops a w (agrees_rep a w H)) as S.
  destruct (w_run ops w); auto.
  destruct S as (a' & E1 & E2 & R). exists a'. auto using rep_agrees.
Qed.
Print Assumptions C01_array_refines_window_map.

Theorem C01_empty_array_agrees : forall A : Type, agrees (@ia_empty A) (w_empty_at 0).
Proof. intros A. apply rep_agrees, rep_empty. Qed.
Print Assumptions C01_empty_array_agrees.

Example C01_example :
  let ops := [OSet 10 5; OPush 11; OSet 12 7; OSet 20 6; OPop; OTruncAfter 6] in
  exists a', ia_run Debug ops ia_empty = Ok a' /\ ia_get Debug a' 6 = Ok 20 /\
             ia_first a' = 6 /\ ia_next a' = 7.
Proof. eexists. repeat split. Qed.

Example C01_example_rejected :
  w_run [OSet 10 5; OSet 12 7] (w_empty_at 0) = None /\
  ia_run Debug [OSet 10 5; OSet 12 7] ia_empty = AssertFail.
Proof. split; reflexivity. Qed.

(** C02. truncateAfter keeps exactly the entries up to the given time, for every array
    and every time, and does not move the first index. *)
Theorem C02_truncateAfter_exact :
  forall (A : Type) (a : iarr A) (t i : Z),
  seen (ia_truncateAfter t a) i = (if i <=? t then seen a i else None) /\
  ia_first (ia_truncateAfter t a) = ia_first a.
Proof. intros. split; [apply truncateAfter_exact | apply k_truncAfter]. Qed.
Print Assumptions C02_truncateAfter_exact.

Example C02_example :
  let a := mkIarr 3 [10; 11; 12; 13] in
  map (seen (ia_truncateAfter 4 a)) [2; 3; 4; 5] = [None; Some 10; Some 11; None].
Proof. reflexivity. Qed.

(** C03 as stated is false: truncating before the last index loses the last entry, and
    truncating before a time earlier than the window renumbers every entry. *)
Theorem C03_truncateBefore_exact_refuted :
  exists (a : iarr Z) (t i : Z),
  seen (ia_truncateBefore t a) i <> (if t <=? i then seen a i else None).
Proof. exists (mkIarr 0 [7]), 0, 0. cbn. discriminate. Qed.
Print Assumptions C03_truncateBefore_exact_refuted.

(** The range in which it does what it says. Missing for the full claim: t at the last
    index, t before the window, t outside the 32-bit range. *)
Theorem C03_truncateBefore_exact_partial :
  forall (A : Type) (a : iarr A) (t i : Z),
  ia_first a <= t < ia_last a -> -2147483648 <= t < 2147483648 ->
  seen (ia_truncateBefore t a) i = if t <=? i then seen a i else None.
Proof. exact @truncateBefore_exact. Qed.
Print Assumptions C03_truncateBefore_exact_partial.

(** Exact behaviour at the two bad boundaries, for every non-empty array. *)
Theorem C03_truncateBefore_at_last_loses_everything :
  forall (A : Type) (a : iarr A) (i : Z), ia_v a <> [] ->
  seen (ia_truncateBefore (ia_last a) a) i = None.
Proof. exact @truncateBefore_last. Qed.
Print Assumptions C03_truncateBefore_at_last_loses_everything.

Theorem C03_truncateBefore_early_shifts_times :
  forall (A : Type) (a : iarr A) (t i : Z),
  ia_v a <> [] -> t < ia_first a -> -2147483648 <= t < 2147483648 ->
  seen (ia_truncateBefore t a) i = seen a (i + (ia_first a - t)).
Proof. exact @truncateBefore_early. Qed.
Print Assumptions C03_truncateBefore_early_shifts_times.

Example C03_example :
  let a := mkIarr 3 [10; 11; 12; 13] in
  map (seen (ia_truncateBefore 5 a)) [3; 4; 5; 6; 7] = [None; None; Some 12; Some 13; None] /\
  seen (ia_truncateBefore 6 a) 6 = None /\ seen a 6 = Some 13 /\
  seen (ia_truncateBefore 1 a) 1 = Some 10.
Proof. repeat split. Qed.

(** C04. setFirstIndex does what it says for indices that fit an int ... *)
Theorem C04_setFirstIndex :
  forall (A : Type) (a : iarr A) (i : Z), -2147483648 <= i < 2147483648 ->
  ia_first (ia_setFirstIndex i a) = i /\ ia_getArray (ia_setFirstIndex i a) = ia_getArray a.
Proof. intros A a i H. split; [exact (narrow32_id i H) | reflexivity]. Qed.
Print Assumptions C04_setFirstIndex.

(** ... but setLastIndex does not: the last index ends up two below the argument,
    whatever the array. *)
Theorem C04_setLastIndex_refuted :
  exists (a : iarr Z) (i : Z), ia_last (ia_setLastIndex i a) <> i.
Proof. exists (mkIarr 0 [7; 8]), 9. cbn. discriminate. Qed.
Print Assumptions C04_setLastIndex_refuted.

Theorem C04_setLastIndex_off_by_two :
  forall (A : Type) (a : iarr A) (i : Z), -2147483648 <= i < 2147483648 ->
  ia_last (ia_setLastIndex i a) = i - 2 /\ ia_getArray (ia_setLastIndex i a) = ia_getArray a.
Proof.
  intros A a i H. split; [|reflexivity].
  unfold ia_last, ia_setLastIndex, ia_size. cbn [ia_k ia_v]. rewrite narrow32_id by exact H. lia.
Qed.
Print Assumptions C04_setLastIndex_off_by_two.

Example C04_example :
  ia_last (ia_setLastIndex 10 (mkIarr 0 [1; 2; 3])) = 8 /\
  ia_first (ia_setFirstIndex 10 (mkIarr 0 [1; 2; 3])) = 10.
Proof. split; reflexivity. Qed.
