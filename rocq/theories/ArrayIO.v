(** Model of file input and output of IndexedMatrixArrayT
    (include/state-observation/tools/definitions.hxx:495-672).

    A file is a list of lines, a line a list of tokens. A token is a printed time index
    or a printed coefficient. Printing a coefficient loses digits: [rnd] is the value
    obtained by parsing the printed text (arbitrary function). The textual syntax of
    numbers itself is not modelled. *)
From Coq Require Import ZArith List Lia Bool.
From Verif Require Import Base Defs SpecArray ArrayProofs.
Import ListNotations.
Open Scope Z_scope.

Inductive token (V : Type) := TInt (z : Z) | TNum (x : V).
Arguments TInt {V} z.
Arguments TNum {V} x.

Section IO.
Context {V : Type}.
Variable zero : V.
Variable rnd : V -> V.
Variable ofZ : Z -> V.

(** A matrix as the list of its rows. *)
Definition mat := list (list V).
Definition line := list (token V).
Definition file := list line.

(** Matrix::Zero(rows,cols) (definitions.hxx:513). *)
Definition mzero (r c : nat) : mat := repeat (repeat zero c) r.

(** Shape of a matrix. *)
Definition shaped (r c : nat) (m : mat) : Prop :=
  length m = r /\ Forall (fun row => length row = c) m.

(** One line of output, definitions.hxx:644-655: the index, then the coefficients in
    row-major order. *)
Definition print_line (k : Z) (m : mat) : line :=
  TInt k :: map (fun x => TNum (rnd x)) (concat m).

Fixpoint print_from (k : Z) (l : list mat) : file :=
  match l with [] => [] | m :: l' => print_line k m :: print_from (k + 1) l' end.

(** definitions.hxx:623-672 writeInFile: [canopen] tells whether the file could be
    opened (otherwise std::runtime_error); returns the new file content and the array. *)
Definition writeInFile (canopen clearLog append : bool) (f : file) (a : iarr mat)
  : outcome (file * iarr mat) :=
  if canopen then
    Ok ((if append then f else []) ++ print_from (ia_first a) (ia_v a),
        if clearLog then ia_clear a else a)
  else Throw.

(** Input stream: remaining tokens and failbit. *)
Definition stream := (list (token V) * bool)%type.

(** [f >> x] for a double. When the stream has failed or is at its end the variable is
    left unchanged (the sentry fails) and failbit is set. *)
Definition get_num (old : V) (s : stream) : V * stream :=
  let '(toks, fail) := s in
  if fail then (old, s)
  else match toks with
       | [] => (old, ([], true))
       | TNum x :: r => (x, (r, false))
       | TInt z :: r => (ofZ z, (r, false))
       end.

(** [f >> k] for an int; values outside the int range set failbit. Reading an int where
    a coefficient was printed is not modelled ([None]). *)
Definition get_int (old : Z) (s : stream) : option (Z * stream) :=
  let '(toks, fail) := s in
  if fail then Some (old, s)
  else match toks with
       | [] => Some (old, ([], true))
       | TInt z :: r =>
           if (-2147483648 <=? z) && (z <? 2147483648) then Some (z, (r, false))
           else Some ((if z <? 0 then -2147483648 else 2147483647), (r, true))
       | TNum _ :: _ => None
       end.

(** definitions.hxx:534-537 inner loop over the columns. *)
Fixpoint get_row (old : list V) (s : stream) : list V * stream :=
  match old with
  | [] => ([], s)
  | x :: r => let '(y, s1) := get_num x s in
              let '(r', s2) := get_row r s1 in (y :: r', s2)
  end.

(** definitions.hxx:532-538 outer loop over the rows. *)
Fixpoint get_mat (old : mat) (s : stream) : mat * stream :=
  match old with
  | [] => ([], s)
  | row :: m => let '(row', s1) := get_row row s in
                let '(m', s2) := get_mat m s1 in (row' :: m', s2)
  end.

(** definitions.hxx:518-543 main loop. [None] means the loop has not finished within
    [fuel] iterations, [Some None] an unmodelled read. *)
Fixpoint read_loop (fuel : nat) (md : mode) (stamp : bool) (m : mat) (k : Z) (s : stream)
         (a : iarr mat) : option (option (outcome (iarr mat))) :=
  match fuel with
  | O => None
  | S fuel' =>
      match (if stamp then get_int k s else Some (k, s)) with
      | None => Some None
      | Some (k1, s1) =>
          if snd s1 then Some (Some (Ok a))
          else let '(m', s2) := get_mat m s1 in
               match ia_setValue md m' k1 a with
               | Ok a' => read_loop fuel' md stamp m' (k1 + 1) s2 a'
               | e => Some (Some e)
               end
      end
  end.

(** definitions.hxx:501-545 readFromFile on a file that exists. *)
Definition readFromFile (fuel : nat) (md : mode) (rows cols : nat) (stamp : bool) (f : file)
           (a : iarr mat) : option (option (outcome (iarr mat))) :=
  read_loop fuel md stamp (mzero rows cols) 0 (concat f, false) (ia_reset a).

(** definitions.hxx:587-602: all numbers of a line. *)
Definition num_of (t : token V) : V := match t with TInt z => ofZ z | TNum x => x end.

(** definitions.hxx:553-614 readVectorsFromFile. A vector is a list of numbers. With
    time stamps the first token of the line must be an integer; a failed int read leaves
    the string stream failed, so the vector is empty. *)
Fixpoint read_vec_lines (md : mode) (stamp : bool) (k : Z) (f : file) (a : iarr (list V))
  : option (outcome (iarr (list V))) :=
  match f with
  | [] => Some (Ok a)
  | l :: f' =>
      match (if stamp then get_int k (l, false) else Some (k, (l, false))) with
      | None => None
      | Some (k1, (r, fail)) =>
          let v := if fail then [] else map num_of r in
          match ia_setValue md v k1 a with
          | Ok a' => read_vec_lines md stamp (k1 + 1) f' a'
          | e => Some e
          end
      end
  end.
Definition readVectorsFromFile (md : mode) (stamp : bool) (f : file) (a : iarr (list V)) :=
  read_vec_lines md stamp 0 f (ia_reset a).

(** ** Lemmas *)

Definition int_ok (k : Z) : Prop := -2147483648 <= k < 2147483648.

Lemma get_row_ok old row rest :
  length row = length old ->
  get_row old (map (fun x => TNum (rnd x)) row ++ rest, false) = (map rnd row, (rest, false)).
Proof.
  revert row; induction old as [|x old IH]; intros [|y row] H; cbn in *; try discriminate; auto.
  rewrite IH by lia. reflexivity.
Qed.

Lemma get_mat_ok old m rest :
  Forall2 (fun r1 r2 => length (r1 : list V) = length (r2 : list V)) m old ->
  get_mat old (map (fun x => TNum (rnd x)) (concat m) ++ rest, false)
  = (map (map rnd) m, (rest, false)).
Proof.
  intros H. revert rest. induction H as [|row row0 m old Hr Hm IH]; intros rest; auto.
  cbn [get_mat concat map]. rewrite map_app, <- app_assoc, get_row_ok by auto.
  rewrite IH. reflexivity.
Qed.

Lemma shaped_F2 r c m1 m2 : shaped r c m1 -> shaped r c m2 ->
  Forall2 (fun r1 r2 => length (r1 : list V) = length (r2 : list V)) m1 m2.
Proof.
  revert r m2; induction m1 as [|a m1 IH]; intros r m2 [H1 H2] [H3 H4].
  - destruct m2; cbn in *; [constructor|lia].
  - destruct m2 as [|b m2]; cbn in *; [lia|]. inversion H2; inversion H4; subst.
    constructor; [lia|]. eapply (IH (length m1)); split; auto; lia.
Qed.

Lemma shaped_zero r c : shaped r c (mzero r c).
Proof.
  split; [apply repeat_length|]. unfold mzero. apply Forall_forall. intros x Hx.
  apply repeat_spec in Hx. subst. apply repeat_length.
Qed.

Lemma shaped_map r c m : shaped r c m -> shaped r c (map (map rnd) m).
Proof.
  intros [H1 H2]. split; [now rewrite map_length|].
  apply Forall_map. eapply Forall_impl; [|exact H2]. intros x Hx. now rewrite map_length.
Qed.

(** Reading stamped lines appends exactly these matrices. *)
Lemma read_loop_stamped md r c : forall (l : list mat) old k0 k kv (v : list mat) fuel,
  shaped r c old -> Forall (shaped r c) l ->
  (forall i, 0 <= i < Z.of_nat (length l) -> int_ok (k + i)) ->
  (v = [] \/ kv + Z.of_nat (length v) = k) ->
  (length l < fuel)%nat ->
  read_loop fuel md true old k0 (concat (print_from k l), false) (mkIarr kv v)
  = Some (Some (Ok (mkIarr (match v, l with [], _ :: _ => k | _, _ => kv end)
                           (v ++ map (map (map rnd)) l)))).
Proof.
  induction l as [|m l IH]; intros old k0 k kv v fuel Hold Hl Hk Hv Hf;
    (destruct fuel as [|fuel]; [cbn in Hf; lia|]).
  - cbn. rewrite app_nil_r. destruct v; reflexivity.
  - inversion Hl as [|? ? Hm Hl']; subst.
    assert (Hki : int_ok k) by (specialize (Hk 0); rewrite Z.add_0_r in Hk; apply Hk; cbn [length]; lia).
    cbn [read_loop print_from concat print_line get_int app].
    assert ((-2147483648 <=? k) && (k <? 2147483648) = true) as ->.
    { unfold int_ok in Hki. apply andb_true_iff. rewrite Z.leb_le, Z.ltb_lt. exact Hki. }
    cbn [snd].
    rewrite get_mat_ok by (eapply shaped_F2; eauto).
    unfold ia_setValue.
    assert (ia_checkIndex (mkIarr kv v) k = false) as ->.
    { apply checkIndex_false. unfold ia_size. cbn. destruct Hv as [->|Hv]; cbn [length]; lia. }
    assert ((ia_size (mkIarr kv v) =? 0) || (kv + ia_size (mkIarr kv v) =? k) = true) as E.
    { unfold ia_size; cbn [ia_v]. destruct Hv as [->|Hv]; [reflexivity|].
      rewrite Hv, Z.eqb_refl. apply orb_true_r. }
    cbn [ia_k ia_v] in *. rewrite E. cbn [boost_assert obind].
    rewrite IH; auto.
    + cbn [map]. rewrite <- app_assoc. cbn [app].
      unfold ia_size; cbn [ia_v]. destruct v as [|v0 v]; cbn [app length].
      * destruct l; reflexivity.
      * destruct (Z.eqb_spec (Z.of_nat (S (length v))) 0); [lia|]. reflexivity.
    + apply shaped_map; auto.
    + intros i Hi. replace (k + 1 + i) with (k + (1 + i)) by lia. apply Hk. cbn [length]. lia.
    + right. rewrite app_length. cbn [length]. unfold ia_size; cbn [ia_v].
      destruct Hv as [->|Hv]; cbn [length].
      * reflexivity.
      * destruct (Z.eqb_spec (Z.of_nat (length v)) 0); lia.
    + cbn in Hf. lia.
Qed.

(** The matrices as they read back. *)
Definition as_printed (m : mat) : mat := map (map rnd) m.

Lemma read_stamped md r c (a b : iarr mat) fuel :
  Forall (shaped r c) (ia_v a) ->
  (forall t, ia_first a <= t < ia_next a -> int_ok t) ->
  (length (ia_v a) < fuel)%nat ->
  readFromFile fuel md r c true (print_from (ia_first a) (ia_v a)) b
  = Some (Some (Ok (mkIarr (if ia_size a =? 0 then 0 else ia_first a) (map as_printed (ia_v a))))).
Proof.
  intros Hs Hi Hf. unfold readFromFile, ia_reset.
  rewrite (read_loop_stamped md r c); auto using shaped_zero.
  - destruct a as [ka va]; unfold ia_first, ia_size; cbn [ia_v ia_k] in *.
    destruct va; reflexivity.
  - intros i Hi'. apply Hi. unfold ia_next, ia_first, ia_size. lia.
Qed.

Lemma print_from_app k l1 l2 :
  print_from k (l1 ++ l2) = print_from k l1 ++ print_from (k + Z.of_nat (length l1)) l2.
Proof.
  revert k; induction l1 as [|m l1 IH]; intros k; cbn [app print_from length].
  - now rewrite Z.add_0_r.
  - rewrite IH. do 3 f_equal. lia.
Qed.

(** Files without time stamps: only the coefficients. *)
Definition plain_file (l : list mat) : file := map (fun m => map (@TNum V) (concat m)) l.

Lemma get_row_ok' old row rest :
  length row = length old ->
  get_row old (map (@TNum V) row ++ rest, false) = (row, (rest, false)).
Proof.
  revert row; induction old as [|x old IH]; intros [|y row] H; cbn in *; try discriminate; auto.
  rewrite IH by lia. reflexivity.
Qed.

Lemma get_mat_ok' old m rest :
  Forall2 (fun r1 r2 => length (r1 : list V) = length (r2 : list V)) m old ->
  get_mat old (map (@TNum V) (concat m) ++ rest, false) = (m, (rest, false)).
Proof.
  intros H. revert rest. induction H as [|row row0 m old Hr Hm IH]; intros rest; auto.
  cbn [get_mat concat map]. rewrite map_app, <- app_assoc, get_row_ok' by auto.
  rewrite IH. reflexivity.
Qed.

Lemma get_row_fail old : get_row old ([], true) = (old, ([], true)).
Proof. induction old as [|x old IH]; cbn; auto. now rewrite IH. Qed.

Lemma get_row_eof x old : get_row (x :: old) ([], false) = (x :: old, ([], true)).
Proof. cbn. now rewrite get_row_fail. Qed.

Lemma get_mat_fail old : get_mat old ([], true) = (old, ([], true)).
Proof. induction old as [|x old IH]; cbn; auto. rewrite get_row_fail, IH. reflexivity. Qed.

Lemma get_mat_eof r c old : shaped (S r) (S c) old -> get_mat old ([], false) = (old, ([], true)).
Proof.
  intros [H1 H2]. destruct old as [|row old]; [cbn in H1; lia|].
  inversion H2; subst. destruct row as [|x row]; [cbn in *; lia|].
  cbn [get_mat]. rewrite get_row_eof, get_mat_fail. reflexivity.
Qed.

Lemma read_loop_plain md r c : forall (l : list mat) old k (v : list mat) fuel,
  shaped (S r) (S c) old -> Forall (shaped (S r) (S c)) l ->
  k = Z.of_nat (length v) ->
  (S (length l) < fuel)%nat ->
  read_loop fuel md false old k (concat (plain_file l), false) (mkIarr 0 v)
  = Some (Some (Ok (mkIarr 0 (v ++ l ++ [last l old])))).
Proof.
  induction l as [|m l IH]; intros old k v fuel Hold Hl Hk Hf;
    (destruct fuel as [|fuel]; [lia|]).
  - cbn [plain_file map concat read_loop snd]. rewrite (get_mat_eof r c) by auto.
    destruct fuel as [|fuel]; [cbn in Hf; lia|].
    unfold ia_setValue.
    assert (ia_checkIndex (mkIarr 0 v) k = false) as ->.
    { apply checkIndex_false. unfold ia_size. cbn. lia. }
    assert ((ia_size (mkIarr 0 v) =? 0) || (0 + ia_size (mkIarr 0 v) =? k) = true) as E.
    { unfold ia_size; cbn [ia_v]. apply orb_true_iff. right. apply Z.eqb_eq. lia. }
    cbn [ia_k ia_v] in *. rewrite E. cbn [boost_assert obind read_loop snd].
    do 4 f_equal. unfold ia_size; cbn [ia_v]. destruct (Z.eqb_spec (Z.of_nat (length v)) 0); lia.
  - inversion Hl as [|? ? Hm Hl']; subst.
    cbn [plain_file map concat read_loop snd].
    rewrite get_mat_ok' by (eapply shaped_F2; eauto).
    unfold ia_setValue.
    assert (ia_checkIndex (mkIarr 0 v) (Z.of_nat (length v)) = false) as ->.
    { apply checkIndex_false. unfold ia_size. cbn. lia. }
    assert ((ia_size (mkIarr 0 v) =? 0) || (0 + ia_size (mkIarr 0 v) =? Z.of_nat (length v)) = true) as E.
    { unfold ia_size; cbn [ia_v]. apply orb_true_iff. right. apply Z.eqb_eq. lia. }
    cbn [ia_k ia_v] in *. rewrite E. cbn [boost_assert obind].
    fold (plain_file l).
    replace (if ia_size (mkIarr 0 v) =? 0 then Z.of_nat (length v) else 0) with 0
      by (unfold ia_size; cbn [ia_v]; destruct (Z.eqb_spec (Z.of_nat (length v)) 0); lia).
    rewrite IH; auto.
    + rewrite <- app_assoc. cbn [app]. do 7 f_equal. destruct l; [reflexivity|].
      cbn [last]. clear. revert m0. induction l; intros; [reflexivity|]. cbn [last] in *. apply IHl.
    + rewrite app_length. cbn [length]. lia.
    + cbn in Hf. lia.
Qed.

(** Zero-sized unstamped reads never reach the end of the loop. *)
Lemma get_row_nil_cols s : get_row [] s = ([], s).
Proof. reflexivity. Qed.

Lemma get_mat_empty_rows r s : get_mat (repeat [] r) s = (repeat [] r, s).
Proof. induction r as [|r IH]; cbn; auto. rewrite IH. reflexivity. Qed.

Lemma read_loop_zero_cols md r f : forall fuel k v,
  k = Z.of_nat (length v) ->
  read_loop fuel md false (repeat [] r) k (f, false) (mkIarr 0 v) = None.
Proof.
  induction fuel as [|fuel IH]; intros k v Hk; auto.
  cbn [read_loop snd]. rewrite get_mat_empty_rows. subst k.
  unfold ia_setValue.
  assert (ia_checkIndex (mkIarr 0 v) (Z.of_nat (length v)) = false) as ->.
  { apply checkIndex_false. unfold ia_size. cbn. lia. }
  assert ((ia_size (mkIarr 0 v) =? 0) || (0 + ia_size (mkIarr 0 v) =? Z.of_nat (length v)) = true) as E.
  { unfold ia_size; cbn [ia_v]. apply orb_true_iff. right. apply Z.eqb_eq. lia. }
  cbn [ia_k ia_v] in *. rewrite E. cbn [boost_assert obind].
  replace (if ia_size (mkIarr 0 v) =? 0 then Z.of_nat (length v) else 0) with 0
    by (unfold ia_size; cbn [ia_v]; destruct (Z.eqb_spec (Z.of_nat (length v)) 0); lia).
  apply IH. rewrite app_length. cbn [length]. lia.
Qed.

(** Vectors. *)
Definition vec_print_from (k : Z) (l : list (list V)) : file :=
  print_from k (map (fun v => map (fun x => [x]) v) l).

Lemma concat_singletons (v : list V) : concat (map (fun x => [x]) v) = v.
Proof. induction v; cbn; congruence. Qed.

Lemma read_vec_stamped md : forall (l : list (list V)) k0 k kv v,
  (forall i, 0 <= i < Z.of_nat (length l) -> int_ok (k + i)) ->
  (v = [] \/ kv + Z.of_nat (length v) = k) ->
  read_vec_lines md true k0 (vec_print_from k l) (mkIarr kv v)
  = Some (Ok (mkIarr (match v, l with [], _ :: _ => k | _, _ => kv end)
                     (v ++ map (map rnd) l))).
Proof.
  induction l as [|m l IH]; intros k0 k kv v Hk Hv.
  - cbn. rewrite app_nil_r. destruct v; reflexivity.
  - assert (Hki : int_ok k) by (specialize (Hk 0); rewrite Z.add_0_r in Hk; apply Hk; cbn [length]; lia).
    unfold vec_print_from. cbn [map print_from read_vec_lines print_line get_int].
    assert ((-2147483648 <=? k) && (k <? 2147483648) = true) as ->.
    { unfold int_ok in Hki. apply andb_true_iff. rewrite Z.leb_le, Z.ltb_lt. exact Hki. }
    rewrite concat_singletons, map_map. cbn [num_of].
    unfold ia_setValue.
    assert (ia_checkIndex (mkIarr kv v) k = false) as ->.
    { apply checkIndex_false. unfold ia_size. cbn. destruct Hv as [->|Hv]; cbn [length]; lia. }
    assert ((ia_size (mkIarr kv v) =? 0) || (kv + ia_size (mkIarr kv v) =? k) = true) as E.
    { unfold ia_size; cbn [ia_v]. destruct Hv as [->|Hv]; [reflexivity|].
      rewrite Hv, Z.eqb_refl. apply orb_true_r. }
    cbn [ia_k ia_v] in *. rewrite E. cbn [boost_assert obind].
    fold (vec_print_from (k + 1) l). rewrite IH; auto.
    + rewrite <- app_assoc. cbn [app].
      unfold ia_size; cbn [ia_v]. destruct v as [|v0 v]; cbn [app length].
      * destruct l; reflexivity.
      * destruct (Z.eqb_spec (Z.of_nat (S (length v))) 0); [lia|]. reflexivity.
    + intros i Hi. replace (k + 1 + i) with (k + (1 + i)) by lia. apply Hk. cbn [length]. lia.
    + right. rewrite app_length. cbn [length]. unfold ia_size; cbn [ia_v].
      destruct Hv as [->|Hv]; cbn [length].
      * reflexivity.
      * destruct (Z.eqb_spec (Z.of_nat (length v)) 0); lia.
Qed.

Lemma read_vec_plain md : forall (l : list (list V)) k v,
  k = Z.of_nat (length v) ->
  read_vec_lines md false k (map (map (@TNum V)) l) (mkIarr 0 v) = Some (Ok (mkIarr 0 (v ++ l))).
Proof.
  induction l as [|m l IH]; intros k v Hk.
  - cbn. now rewrite app_nil_r.
  - subst k. cbn [map read_vec_lines]. rewrite map_map. cbn [num_of]. rewrite map_id.
    unfold ia_setValue.
    assert (ia_checkIndex (mkIarr 0 v) (Z.of_nat (length v)) = false) as ->.
    { apply checkIndex_false. unfold ia_size. cbn. lia. }
    assert ((ia_size (mkIarr 0 v) =? 0) || (0 + ia_size (mkIarr 0 v) =? Z.of_nat (length v)) = true) as E.
    { unfold ia_size; cbn [ia_v]. apply orb_true_iff. right. apply Z.eqb_eq. lia. }
    cbn [ia_k ia_v] in *. rewrite E. cbn [boost_assert obind].
    replace (if ia_size (mkIarr 0 v) =? 0 then Z.of_nat (length v) else 0) with 0
      by (unfold ia_size; cbn [ia_v]; destruct (Z.eqb_spec (Z.of_nat (length v)) 0); lia).
    rewrite IH; [now rewrite <- app_assoc|]. rewrite app_length. cbn [length]. lia.
Qed.

(** ** Incremental logging: pushes interleaved with flushes. *)
Inductive log_op := LPush (m : mat) | LFlush.

(** pushBack (definitions.hxx:274) and writeInFile(filename, clearLog=true, append=true)
    (definitions.hxx:623), as used by Logger::save (src/logger.cpp). *)
Definition log_step (o : log_op) (s : file * iarr mat) : outcome (file * iarr mat) :=
  match o with
  | LPush m => Ok (fst s, ia_pushBack m (snd s))
  | LFlush => writeInFile true true true (fst s) (snd s)
  end.

Definition pushed (ops : list log_op) : list mat :=
  concat (map (fun o => match o with LPush m => [m] | LFlush => [] end) ops).

Lemma log_run_inv ops : forall k0 done f a,
  f = print_from k0 done -> ia_k a = k0 + Z.of_nat (length done) ->
  exists done' f' a', orun log_step ops (f, a) = Ok (f', a') /\
    f' = print_from k0 done' /\ ia_k a' = k0 + Z.of_nat (length done') /\
    done' ++ ia_v a' = done ++ ia_v a ++ pushed ops.
Proof.
  induction ops as [|o os IH]; intros k0 done f a Hf Hk.
  - exists done, f, a. cbn. rewrite app_nil_r. auto.
  - cbn [orun]. destruct o as [m|]; cbn [log_step obind].
    + destruct (IH k0 done f (ia_pushBack m a)) as (d' & f' & a' & E & H1 & H2 & H3); auto.
      exists d', f', a'. repeat split; auto. cbn [fst snd] in *.
      rewrite H3. cbn. rewrite <- app_assoc. reflexivity.
    + unfold writeInFile; cbn [fst snd obind].
      destruct (IH k0 (done ++ ia_v a) (f ++ print_from (ia_first a) (ia_v a)) (ia_clear a))
        as (d' & f' & a' & E & H1 & H2 & H3).
      * subst f. rewrite print_from_app. unfold ia_first. now rewrite Hk.
      * unfold ia_clear, ia_size. cbn [ia_k]. rewrite app_length. lia.
      * exists d', f', a'. repeat split; auto. rewrite H3. cbn. now rewrite <- app_assoc.
Qed.
End IO.
