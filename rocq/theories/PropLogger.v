(** C62: what the logger records. *)
From Coq Require Import String ZArith List Lia Bool.
From Verif Require Import Base Defs Logger SpecLogger LoggerProofs.
Import ListNotations.
Open Scope Z_scope.

(** For every history in which address [a] is recorded once it is not tracked and is then kept, the
    record of [a] contains exactly the values that the variable had at the pushes made since the last
    clearing of its log, at consecutive indices counted from the record call: clearing does not restart
    the numbering. h3 is the part up to the last clearing, h4 the part after it. *)
Theorem C62_record_holds_pushed_values : forall V md (h1 h3 h4 : list (lg_op V)) a t f l1 l,
  forallb known h1 = true -> lg_run md h1 logger_init = Ok l1 -> (forall arr, lg_getRecord md a l1 <> Ok arr) ->
  forallb (keeps a) (h3 ++ h4) = true ->
  (h3 = [] \/ exists h o, h3 = h ++ [o] /\ clears f o = true) ->
  forallb (fun o => negb (clears f o)) h4 = true ->
  lg_run md (h1 ++ LRecord a t f :: h3 ++ h4) logger_init = Ok l ->
  exists arr, lg_getRecord md a l = Ok arr /\ ia_first arr = Z.of_nat (length (pushes h3)) /\
    ia_size arr = Z.of_nat (length (pushes h4)) /\
    forall i m, nth_error (pushes h4) i = Some m -> ia_get md arr (Z.of_nat (length (pushes h3)) + Z.of_nat i) = Ok (m a t).
Proof. exact @record_thm. Qed.
Print Assumptions C62_record_holds_pushed_values.
(** Two variables; the log is cleared after two pushes; two more pushes follow. *)
Example C62_record_case : let mem (n : nat) : memory nat := fun a t => (Z.to_nat a + n)%nat in
  exists l arr, lg_run Debug ([LRecord 7 TyVector ""] ++ LRecord 3 TyDouble "x" ::
      [LPush (mem 10%nat); LPush (mem 20%nat); LSave (fun _ => true) true] ++ [LPush (mem 30%nat); LRecord 3 TyInt "y"; LPush (mem 40%nat)]) logger_init = Ok l /\
    lg_getRecord Debug 3 l = Ok arr /\ ia_first arr = 2 /\ ia_size arr = 2 /\ ia_get Debug arr 2 = Ok 33%nat /\ ia_get Debug arr 3 = Ok 43%nat.
Proof. intros mem. eexists. eexists. vm_compute. repeat split; reflexivity. Qed.

(** Recording supported types, pushing, clearing and saving never fail, in either build. *)
Theorem C62_logging_never_fails : forall V md (h : list (lg_op V)), forallb plain h = true ->
  exists l, lg_run md h logger_init = Ok l.
Proof. intros V md h H. exact (plain_total md h logger_init H init_inv). Qed.
Print Assumptions C62_logging_never_fails.
Example C62_logging_case : forallb plain [LRecord 1 TyFloat ""; LPush (fun _ _ => 5%nat); LClearLogs; LClearTracking] = true.
Proof. reflexivity. Qed.

(** An address that was neither recorded nor the target of updateAddress has no record. *)
Theorem C62_only_recorded_addresses : forall V md (h : list (lg_op V)) a l, forallb known h = true ->
  (forall o, In o h -> match o with LRecord a' _ _ => a' <> a | LUpdate _ new _ => new <> a | _ => True end) ->
  lg_run md h logger_init = Ok l -> forall arr, lg_getRecord md a l <> Ok arr.
Proof. exact @untracked_thm. Qed.
Print Assumptions C62_only_recorded_addresses.
Example C62_only_recorded_case : exists l, lg_run Release [LRecord 1 TyFloat ""; LPush (fun _ _ => 5%nat); LUpdate 1 2 TyInt] logger_init = Ok l /\
  lg_getRecord Release 9 l = Throw.
Proof. eexists. vm_compute. split; reflexivity. Qed.

(** Full claim: updateAddress moves the record. False: the values logged before are lost and, when the
    new address is the old one, the variable is not tracked any more. *)
Theorem C62_update_address_keeps_record_refuted :
  (exists (h : list (lg_op nat)) l l' arr, lg_run Debug h logger_init = Ok l /\ lg_getRecord Debug 1 l = Ok arr /\ ia_size arr = 2 /\
     lg_updateAddress Debug 1 2 TyInt l = Ok l' /\ lg_getRecord Debug 2 l' = Ok ia_empty) /\
  (exists (h : list (lg_op nat)) l l' arr, lg_run Debug h logger_init = Ok l /\ lg_getRecord Debug 1 l = Ok arr /\
     lg_updateAddress Debug 1 1 TyInt l = Ok l' /\ lg_getRecord Debug 1 l' = AssertFail).
Proof.
  split.
  - exists [LRecord 1 TyInt ""; LPush (fun _ _ => 5%nat); LPush (fun _ _ => 6%nat)]. eexists. eexists. eexists. vm_compute. repeat split; reflexivity.
  - exists [LRecord 1 TyInt ""]. eexists. eexists. eexists. vm_compute. repeat split; reflexivity.
Qed.
Print Assumptions C62_update_address_keeps_record_refuted.

(** Full claim: updateAddress checks the type as record does. False: a type the logger cannot read is
    accepted and every push then logs the value of another variable, or reads an uninitialised buffer;
    and unsigned, which push can read, is refused by record. *)
Theorem C62_type_checks_refuted :
  (exists (h : list (lg_op nat)) l arr, lg_run Debug h logger_init = Ok l /\ lg_getRecord Debug 9 l = Ok arr /\
     h = [LRecord 1 TyInt ""; LRecord 2 TyInt ""; LUpdate 2 9 (TyOther 0); LPush (fun a _ => Z.to_nat a)] /\ ia_get Debug arr 0 = Ok 1%nat) /\
  (exists (h : list (lg_op nat)), lg_run Debug h logger_init = UB) /\
  (readable TyUnsigned = true /\ forall V md a f (l : logger V), lg_record md a TyUnsigned f l = match md with Debug => AssertFail | Release => Throw end).
Proof.
  split; [|split; [|split; [reflexivity|intros; reflexivity]]].
  - eexists. eexists. eexists. split; [|split; [|split; [reflexivity|]]]; vm_compute; reflexivity.
  - exists [LRecord 2 TyInt ""; LUpdate 2 9 (TyOther 0); LPush (fun a _ => Z.to_nat a)]. reflexivity.
Qed.
Print Assumptions C62_type_checks_refuted.

(** Full claim: push(address) logs one variable. False: it never returns normally; when the variable is
    tracked its value has been logged and the call still throws. *)
Theorem C62_push_of_one_variable_refuted :
  (forall V md (m : memory V) a l, snd (lg_pushOne md m a l) <> Ok tt) /\
  exists (l : logger nat) l' arr, lg_run Release [LRecord 1 TyInt ""] logger_init = Ok l /\
    lg_pushOne Release (fun _ _ => 5%nat) 1 l = (l', Throw) /\ lg_getRecord Release 1 l' = Ok arr /\ ia_get Release arr 0 = Ok 5%nat.
Proof.
  split.
  - intros V md m a l. unfold lg_pushOne. destruct (map_find a (l_logs l)) as [g|].
    + destruct (lg_update m a g (l_scalar l)) as [[g' sc]| | |]; cbn; discriminate.
    + destruct md; discriminate.
  - eexists. eexists. eexists. vm_compute. repeat split; reflexivity.
Qed.
Print Assumptions C62_push_of_one_variable_refuted.
