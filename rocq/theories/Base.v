(** Common notions: build modes, outcomes, list helpers.

    Build modes: BOOST_ASSERT and eigen_assert expand to nothing when NDEBUG is
    defined; definitions.hpp:136-140 (isDebug). *)
From Coq Require Import ZArith List Lia Bool.
Import ListNotations.
Open Scope Z_scope.

(** The two build modes, definitions.hpp:136-140. *)
Inductive mode := Debug | Release.

(** Result of a C++ call: normal return, failed assertion (process aborted),
    C++ exception, undefined behaviour. Not a definition of the code itself:
    the four ways a call can end. *)
Inductive outcome (A : Type) : Type :=
| Ok (a : A)
| AssertFail
| Throw
| UB.
Arguments Ok {A} a.
Arguments AssertFail {A}.
Arguments Throw {A}.
Arguments UB {A}.

Definition obind {A B} (x : outcome A) (f : A -> outcome B) : outcome B :=
  match x with
  | Ok a => f a
  | AssertFail => AssertFail
  | Throw => Throw
  | UB => UB
  end.

Notation "'do' x <- e ; f" := (obind e (fun x => f))
  (at level 200, x pattern, e at level 100, f at level 200, right associativity).
Notation "e ;; f" := (obind e (fun _ => f)) (at level 99, f at level 200, right associativity).

Definition omap {A B} (f : A -> B) (x : outcome A) : outcome B :=
  obind x (fun a => Ok (f a)).

(** BOOST_ASSERT(b): aborts in debug builds, nothing in release builds. *)
Definition boost_assert (md : mode) (b : bool) : outcome unit :=
  if b then Ok tt else match md with Debug => AssertFail | Release => Ok tt end.

(** Iterating a fallible step [n] times (C++ counting loops). *)
Fixpoint oiter {A} (n : nat) (f : A -> outcome A) (a : A) : outcome A :=
  match n with
  | O => Ok a
  | S n' => obind (f a) (oiter n' f)
  end.

(** Running a list of fallible operations from left to right. *)
Fixpoint orun {S Op} (step : Op -> S -> outcome S) (ops : list Op) (s : S) : outcome S :=
  match ops with
  | [] => Ok s
  | o :: os => obind (step o s) (orun step os)
  end.

Lemma obind_Ok_inv {A B} (x : outcome A) (f : A -> outcome B) b :
  obind x f = Ok b -> exists a, x = Ok a /\ f a = Ok b.
Proof. destruct x; cbn; intros H; try discriminate; eauto. Qed.

Lemma orun_app {S Op} (step : Op -> S -> outcome S) o1 o2 s :
  orun step (o1 ++ o2) s = obind (orun step o1 s) (orun step o2).
Proof.
  revert s; induction o1 as [|o os IH]; intros s; cbn; [reflexivity|].
  destruct (step o s); cbn; auto.
Qed.

(** Invariants of runs. *)
Lemma orun_invariant {S Op} (step : Op -> S -> outcome S) (I : S -> Prop) :
  (forall o s s', I s -> step o s = Ok s' -> I s') ->
  forall ops s s', I s -> orun step ops s = Ok s' -> I s'.
Proof.
  intros Hstep ops; induction ops as [|o os IH]; cbn; intros s s' Hs H.
  - now inversion H; subst.
  - destruct (obind_Ok_inv _ _ _ H) as (s1 & H1 & H2); eauto.
Qed.

Lemma oiter_S_r {A} n (f : A -> outcome A) a :
  oiter (S n) f a = obind (oiter n f a) f.
Proof.
  revert a; induction n as [|n IH]; intros a.
  - cbn. destruct (f a); reflexivity.
  - change (oiter (S (S n)) f a) with (obind (f a) (oiter (S n) f)).
    change (oiter (S n) f a) with (obind (f a) (oiter n f)).
    destruct (f a); cbn [obind]; auto.
Qed.

Lemma oiter_add {A} n m (f : A -> outcome A) a :
  oiter (n + m) f a = obind (oiter n f a) (oiter m f).
Proof.
  revert a; induction n as [|n IH]; intros a; cbn; [reflexivity|].
  destruct (f a); cbn; auto.
Qed.

(** Replacing the [n]-th element of a list (v_[n] = x on a std::deque). *)
Fixpoint list_set {A} (n : nat) (x : A) (l : list A) : list A :=
  match l, n with
  | [], _ => []
  | _ :: l', O => x :: l'
  | y :: l', S n' => y :: list_set n' x l'
  end.

Lemma list_set_length {A} n (x : A) l : length (list_set n x l) = length l.
Proof. revert n; induction l as [|y l IH]; intros [|n]; cbn; auto. Qed.

Lemma list_set_nth_error {A} n (x : A) l i :
  nth_error (list_set n x l) i =
  if Nat.eqb i n then (match nth_error l i with Some _ => Some x | None => None end)
  else nth_error l i.
Proof.
  revert n i; induction l as [|y l IH]; intros n i.
  - destruct n, i; cbn; try reflexivity. destruct (Nat.eqb i n); reflexivity.
  - destruct n, i; cbn; auto.
Qed.

(** std::deque::resize(n, d). *)
Definition list_resize {A} (n : nat) (d : A) (l : list A) : list A :=
  firstn n l ++ repeat d (n - length l).

Lemma list_resize_length {A} n (d : A) l : length (list_resize n d l) = n.
Proof. unfold list_resize. rewrite app_length, firstn_length, repeat_length. lia. Qed.

Lemma nth_error_repeat_eq {A} (d : A) n i :
  nth_error (repeat d n) i = if Nat.ltb i n then Some d else None.
Proof.
  revert i; induction n as [|n IH]; intros i; cbn.
  - destruct i; reflexivity.
  - destruct i; cbn; auto. rewrite IH. reflexivity.
Qed.

Lemma nth_error_firstn_eq {A} n (l : list A) i :
  nth_error (firstn n l) i = if Nat.ltb i n then nth_error l i else None.
Proof.
  revert l i; induction n as [|n IH]; intros l i; cbn.
  - destruct i; reflexivity.
  - destruct l as [|y l]; destruct i; cbn; auto.
    + match goal with |- context [if ?b then _ else _] => destruct b end; reflexivity.
    + rewrite IH. reflexivity.
Qed.

Lemma list_resize_nth_error {A} n (d : A) l i :
  nth_error (list_resize n d l) i =
  if Nat.ltb i n then (match nth_error l i with Some x => Some x | None => Some d end) else None.
Proof.
  unfold list_resize.
  destruct (Nat.ltb_spec i n) as [Hi|Hi].
  - destruct (Nat.ltb_spec i (length l)) as [Hl|Hl].
    + rewrite nth_error_app1 by (rewrite firstn_length; lia).
      rewrite nth_error_firstn_eq. destruct (Nat.ltb_spec i n); [|lia].
      destruct (nth_error l i) eqn:E; auto.
      apply nth_error_None in E. lia.
    + rewrite nth_error_app2 by (rewrite firstn_length; lia).
      rewrite firstn_length, nth_error_repeat_eq.
      destruct (Nat.ltb_spec (i - Nat.min n (length l)) (n - length l)); [|lia].
      assert (E : nth_error l i = None) by (apply nth_error_None; lia).
      rewrite E. reflexivity.
  - apply nth_error_None. rewrite app_length, firstn_length, repeat_length. lia.
Qed.

Lemma nth_error_skipn {A} n (l : list A) i :
  nth_error (skipn n l) i = nth_error l (n + i).
Proof.
  revert l; induction n as [|n IH]; intros l; cbn; auto.
  destruct l; cbn; auto. destruct i; reflexivity.
Qed.

Lemma nth_error_ext {A} (l1 l2 : list A) :
  (forall i, nth_error l1 i = nth_error l2 i) -> l1 = l2.
Proof.
  revert l2; induction l1 as [|a l1 IH]; intros [|b l2] H; auto.
  - specialize (H O); discriminate.
  - specialize (H O); discriminate.
  - pose proof (H O) as H0. injection H0 as ->. f_equal. apply IH.
    intros i. apply (H (S i)).
Qed.

Lemma nth_error_nil_any {A} i : nth_error (@nil A) i = None.
Proof. destruct i; reflexivity. Qed.
