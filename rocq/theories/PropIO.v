(** Properties C05, C06, C65: file input and output of indexed arrays. *)
From Coq Require Import ZArith List Lia Bool.
From Verif Require Import Base Defs SpecArray ArrayProofs ArrayIO.
Import ListNotations.
Open Scope Z_scope.

(** C05. Writing then reading back: for every array of matrices of one shape whose time
    indices fit an int, in both build modes, whatever the file and the destination held
    before, whatever the printing precision [rnd]; the loop terminates. *)
Theorem C05_stamped_round_trip :
  forall (V : Type) (zero : V) (rnd : V -> V) (ofZ : Z -> V) (md : mode) (r c : nat)
         (f : file) (a b : iarr mat) (clearLog : bool),
  Forall (shaped r c) (ia_v a) ->
  (forall t, ia_first a <= t < ia_next a -> int_ok t) ->
  exists f' a' fuel b',
    writeInFile rnd true clearLog false f a = Ok (f', a') /\
    readFromFile zero ofZ fuel md r c true f' b = Some (Some (Ok b')) /\
    (forall t, seen b' t = option_map (map (map rnd)) (seen a t)) /\
    ia_size b' = ia_size a.
Proof.
  intros V zero rnd ofZ md r c f a b cl Hs Hi.
  do 4 eexists. split; [reflexivity|]. cbn [app].
  split; [apply (read_stamped zero rnd ofZ md r c a b (S (length (ia_v a)))); auto|].
  split.
  - intros t. rewrite !seen_entry. unfold entry; cbn [ia_k ia_v].
    rewrite nth_error_map. unfold ia_size, ia_first.
    destruct (ia_v a) as [|x l] eqn:E; cbn [length].
    + cbn [map]. rewrite !nth_error_nil_any. destruct (_ <=? t), (ia_k a <=? t); reflexivity.
    + destruct (Z.eqb_spec (Z.of_nat (S (length l))) 0); [lia|].
      destruct (ia_k a <=? t); reflexivity.
  - unfold ia_size; cbn [ia_v]. now rewrite map_length.
Qed.
Print Assumptions C05_stamped_round_trip.

Example C05_example :
  let a := mkIarr (-1) [[[1; 2]; [3; 4]]; [[5; 6]; [7; 8]]] in
  readFromFile 0 (fun z => z) 3 Debug 2 2 true
     (print_from (fun x => x) (-1) (ia_v a)) ia_empty = Some (Some (Ok a)).
Proof. reflexivity. Qed.

(** Outside the int range the time stamps overflow the reader's [int k]: everything is lost. *)
Theorem C05_large_time_stamps_refuted :
  exists (a : iarr (@mat Z)) f' a' b',
    Forall (shaped 1 1) (ia_v a) /\
    writeInFile (fun x => x) true false false [] a = Ok (f', a') /\
    readFromFile 0 (fun z => z) 5 Debug 1 1 true f' ia_empty = Some (Some (Ok b')) /\
    seen a 2147483648 = Some [[7]] /\ seen b' 2147483648 = None.
Proof.
  exists (mkIarr 2147483648 [[[7]]]). do 3 eexists.
  split; [repeat constructor|]. repeat split; reflexivity.
Qed.
Print Assumptions C05_large_time_stamps_refuted.

(** Vectors written with time stamps are read back by readVectorsFromFile, whatever their
    sizes (the sizes may differ from one entry to the next). *)
Theorem C05_vectors_stamped_round_trip :
  forall (V : Type) (rnd : V -> V) (ofZ : Z -> V) (md : mode) (a b : iarr (list V)),
  (forall t, ia_first a <= t < ia_next a -> int_ok t) ->
  exists b',
    readVectorsFromFile ofZ md true (vec_print_from rnd (ia_first a) (ia_v a)) b = Some (Ok b') /\
    (forall t, seen b' t = option_map (map rnd) (seen a t)).
Proof.
  intros V rnd ofZ md a b Hi. unfold readVectorsFromFile, ia_reset.
  eexists. split.
  - apply read_vec_stamped; auto. intros i Hi'. apply Hi. unfold ia_next, ia_first, ia_size. lia.
  - intros t. rewrite !seen_entry. unfold entry; cbn [ia_k ia_v app].
    rewrite nth_error_map. unfold ia_first.
    destruct (ia_v a) as [|x l] eqn:E; cbn [length].
    + cbn [map]. rewrite !nth_error_nil_any. destruct (_ <=? t), (ia_k a <=? t); reflexivity.
    + destruct (ia_k a <=? t); reflexivity.
Qed.
Print Assumptions C05_vectors_stamped_round_trip.

Example C05_vectors_example :
  let a := mkIarr 2 [[1; 2]; []; [5; 6; 7]] in
  readVectorsFromFile (fun z => z) Debug true (vec_print_from (fun x => x) 2 (ia_v a)) ia_empty
  = Some (Ok a).
Proof. reflexivity. Qed.

(** C06 as stated is false for readFromFile: *)
Theorem C06_unstamped_count_refuted :
  exists (l : list (@mat Z)) b',
    Forall (shaped 1 1) l /\
    readFromFile 0 (fun z => z) 5 Debug 1 1 false (plain_file l) ia_empty = Some (Some (Ok b')) /\
    ia_size b' <> Z.of_nat (length l).
Proof.
  exists [[[7]]]. eexists. split; [repeat constructor|]. split; [reflexivity|].
  cbn. discriminate.
Qed.
Print Assumptions C06_unstamped_count_refuted.

(** Exact result for every file and every non-zero shape: one extra entry at the end, a copy
    of the last matrix (of the zero matrix for an empty file). *)
Theorem C06_unstamped_adds_one_entry :
  forall (V : Type) (zero : V) (ofZ : Z -> V) (md : mode) (r c : nat) (l : list mat) (b : iarr mat),
  Forall (shaped (S r) (S c)) l ->
  exists fuel,
    readFromFile zero ofZ fuel md (S r) (S c) false (plain_file l) b
    = Some (Some (Ok (mkIarr 0 (l ++ [last l (mzero zero (S r) (S c))])))).
Proof.
  intros V zero ofZ md r c l b H. exists (S (S (length l))).
  unfold readFromFile, ia_reset; rewrite (read_loop_plain ofZ md r c); auto using shaped_zero.
Qed.
Print Assumptions C06_unstamped_adds_one_entry.

(** With a zero number of columns the unstamped reader never terminates. *)
Theorem C06_unstamped_zero_columns_diverges :
  forall (V : Type) (zero : V) (ofZ : Z -> V) (md : mode) (r : nat) (f : file) (b : iarr mat) fuel,
  readFromFile zero ofZ fuel md r 0 false f b = None.
Proof. intros. apply (read_loop_zero_cols ofZ md r (concat f) fuel 0 []). reflexivity. Qed.
Print Assumptions C06_unstamped_zero_columns_diverges.

(** readVectorsFromFile without time stamps does return exactly the vectors of the file. *)
Theorem C06_unstamped_vectors_exact :
  forall (V : Type) (ofZ : Z -> V) (md : mode) (l : list (list V)) (b : iarr (list V)),
  readVectorsFromFile ofZ md false (map (map TNum) l) b = Some (Ok (mkIarr 0 l)).
Proof. intros. apply (read_vec_plain ofZ md l 0 []). reflexivity. Qed.
Print Assumptions C06_unstamped_vectors_exact.

Example C06_example :
  readFromFile 0 (fun z => z) 5 Debug 1 2 false (plain_file [[[1; 2]]; [[3; 4]]]) ia_empty
  = Some (Some (Ok (mkIarr 0 [[[1; 2]]; [[3; 4]]; [[3; 4]]]))) /\
  readVectorsFromFile (fun z => z) Debug false [[TNum 1; TNum 2]; [TNum 3]] ia_empty
  = Some (Ok (mkIarr 0 [[1; 2]; [3]])).
Proof. split; reflexivity. Qed.

(** C65. Pushing values and flushing (append and clear) at arbitrary moments: after a final
    flush, reading the file gives back every pushed value, in order, at consecutive indices
    from the initial one. *)
Theorem C65_incremental_log_is_complete :
  forall (V : Type) (zero : V) (rnd : V -> V) (ofZ : Z -> V) (md : mode) (r c : nat) (k0 : Z)
         (ops : list (@log_op V)) (b : iarr mat),
  Forall (shaped r c) (pushed ops) ->
  (forall i, 0 <= i < Z.of_nat (length (pushed ops)) -> int_ok (k0 + i)) ->
  exists f' a' fuel b',
    orun (log_step rnd) (ops ++ [LFlush]) ([], mkIarr k0 []) = Ok (f', a') /\
    ia_v a' = [] /\ ia_next a' = k0 + Z.of_nat (length (pushed ops)) /\
    readFromFile zero ofZ fuel md r c true f' b = Some (Some (Ok b')) /\
    (forall t, seen b' t = option_map (map (map rnd)) (seen (mkIarr k0 (pushed ops)) t)).
Proof.
  intros V zero rnd ofZ md r c k0 ops b Hs Hi.
  destruct (log_run_inv rnd ops k0 [] [] (mkIarr k0 [])) as (d & f' & a' & E & H1 & H2 & H3);
    auto; [cbn; lia|].
  cbn in H3.
  exists (f' ++ print_from rnd (ia_first a') (ia_v a')), (ia_clear a'), (S (length (pushed ops))).
  assert (Hf : f' ++ print_from rnd (ia_first a') (ia_v a') = print_from rnd k0 (pushed ops)).
  { rewrite <- H3, print_from_app. unfold ia_first. now rewrite H2, H1. }
  rewrite Hf.
  eexists. split.
  { etransitivity; [apply orun_app|]. etransitivity; [apply (f_equal (fun x => obind x _) E)|].
    cbn. rewrite Hf. reflexivity. }
  split; [reflexivity|]. split.
  { unfold ia_next, ia_clear, ia_size; cbn [ia_k ia_v length]. rewrite <- H3, H2, app_length. lia. }
  split.
  { apply (read_stamped zero rnd ofZ md r c (mkIarr k0 (pushed ops))); auto.
    intros t Ht. unfold ia_first, ia_next, ia_size in Ht; cbn [ia_k ia_v] in Ht.
    replace t with (k0 + (t - k0)) by lia. apply Hi. lia. }
  intros t. rewrite !seen_entry. unfold entry; cbn [ia_k ia_v].
  rewrite nth_error_map. unfold ia_size, ia_first; cbn [ia_k ia_v].
  destruct (pushed ops) as [|x l]; cbn [length].
  - cbn [map]. rewrite !nth_error_nil_any. destruct (_ <=? t), (k0 <=? t); reflexivity.
  - destruct (Z.eqb_spec (Z.of_nat (S (length l))) 0); [lia|].
    destruct (k0 <=? t); reflexivity.
Qed.
Print Assumptions C65_incremental_log_is_complete.

Example C65_example :
  let ops := [LPush [[1]]; LFlush; LPush [[2]]; LPush [[3]]; LFlush; LFlush; LPush [[4]]; LFlush] in
  exists f' a',
    orun (log_step (fun x => x)) ops ([], mkIarr 5 []) = Ok (f', a') /\
    readFromFile 0 (fun z => z) 9 Debug 1 1 true f' ia_empty
    = Some (Some (Ok (mkIarr 5 [[[1]]; [[2]]; [[3]]; [[4]]]))).
Proof. do 2 eexists. split; reflexivity. Qed.
