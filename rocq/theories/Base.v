(** Base definitions shared by all models: outcomes of C++ code, checked array access, list update. *)
From Coq Require Import List Arith Lia Bool.
Import ListNotations.
Set Implicit Arguments.

(** What a call of a C++ function can end in. [Throw]: a C++ exception (ASSERT_THROW / ASSERT_THROW_NOT_IMPLEMENTED,
    include/mfmg/common/exceptions.hpp:59-84).  [Abort]: a debug-only ASSERT fired (exceptions.hpp:42-57).
    [UB]: out-of-range access, null dereference.  [Fuel]: the loop did not end within the fuel given. *)
Inductive outcome (A : Type) : Type :=
| Ok (a : A)
| Throw
| Abort
| UB
| Fuel.
Arguments Ok {A} a.
Arguments Throw {A}.
Arguments Abort {A}.
Arguments UB {A}.
Arguments Fuel {A}.

(** Sequencing of two C++ statements (no counterpart in /repo). *)
Definition bind {A B} (m : outcome A) (f : A -> outcome B) : outcome B :=
  match m with
  | Ok a => f a
  | Throw => Throw
  | Abort => Abort
  | UB => UB
  | Fuel => Fuel
  end.

Notation "'let!' x ':=' m 'in' f" := (bind m (fun x => f))
  (at level 200, x pattern, m at level 100, f at level 200, right associativity).

(** [vec[i]] read of a std::vector; out of range is undefined behaviour (no counterpart in /repo). *)
Definition rd {A} (l : list A) (i : nat) : outcome A :=
  match nth_error l i with Some a => Ok a | None => UB end.

(** In-place list update, unchanged when out of range (no counterpart in /repo; see [wr] for the checked form). *)
Fixpoint upd {A} (l : list A) (i : nat) (a : A) : list A :=
  match l, i with
  | [], _ => []
  | _ :: t, 0 => a :: t
  | x :: t, S i' => x :: upd t i' a
  end.

(** [vec[i] = a] on a std::vector; out of range is undefined behaviour (no counterpart in /repo). *)
Definition wr {A} (l : list A) (i : nat) (a : A) : outcome (list A) :=
  if i <? length l then Ok (upd l i a) else UB.

(** Debug-only ASSERT (include/mfmg/common/exceptions.hpp:42-57): active when [debug], skipped in release builds. *)
Definition assert_dbg (debug c : bool) : outcome unit :=
  if debug && negb c then Abort else Ok tt.

Lemma upd_length : forall A (l : list A) i a, length (upd l i a) = length l.
Proof. induction l; destruct i; simpl; auto. Qed.

Lemma nth_error_upd_eq : forall A (l : list A) i a, i < length l -> nth_error (upd l i a) i = Some a.
Proof. induction l; destruct i; simpl; intros; try lia; auto. apply IHl; lia. Qed.

Lemma nth_error_upd_neq : forall A (l : list A) i j a, i <> j -> nth_error (upd l i a) j = nth_error l j.
Proof. induction l; destruct i, j; simpl; intros; auto; try lia. Qed.

Lemma nth_error_upd : forall A (l : list A) i j a,
  nth_error (upd l i a) j = if (i =? j) && (i <? length l) then Some a else nth_error l j.
Proof.
  intros. destruct (Nat.eqb_spec i j) as [->|Hn]; simpl.
  - destruct (Nat.ltb_spec j (length l)).
    + apply nth_error_upd_eq; auto.
    + transitivity (@None A).
      * apply nth_error_None. rewrite upd_length; auto.
      * symmetry; apply nth_error_None; auto.
  - apply nth_error_upd_neq; auto.
Qed.

Lemma nth_upd_eq : forall A (l : list A) i a d, i < length l -> nth i (upd l i a) d = a.
Proof. induction l; destruct i; simpl; intros; try lia; auto. apply IHl; lia. Qed.

Lemma nth_upd_neq : forall A (l : list A) i j a d, i <> j -> nth j (upd l i a) d = nth j l d.
Proof. induction l; destruct i, j; simpl; intros; auto; try lia. Qed.

Lemma rd_Ok : forall A (l : list A) i a, rd l i = Ok a <-> nth_error l i = Some a.
Proof. intros; unfold rd; destruct (nth_error l i); split; intros H; inversion H; auto. Qed.

Lemma rd_in : forall A (l : list A) i, i < length l -> exists a, rd l i = Ok a /\ nth_error l i = Some a.
Proof.
  intros A l i H. unfold rd. destruct (nth_error l i) eqn:E.
  - eauto.
  - apply nth_error_None in E; lia.
Qed.

Lemma wr_in : forall A (l : list A) i a, i < length l -> wr l i a = Ok (upd l i a).
Proof. intros; unfold wr. destruct (Nat.ltb_spec i (length l)); auto; lia. Qed.

Lemma nth_error_ext : forall A (l l' : list A), (forall i, nth_error l i = nth_error l' i) -> l = l'.
Proof.
  induction l; destruct l'; intros H; auto.
  - specialize (H 0); discriminate.
  - specialize (H 0); discriminate.
  - f_equal.
    + specialize (H 0); simpl in H; congruence.
    + apply IHl. intros i. apply (H (S i)).
Qed.

Lemma nth_error_lt : forall A (l : list A) i a, nth_error l i = Some a -> i < length l.
Proof. intros. apply nth_error_Some. congruence. Qed.

Lemma nth_error_nth_lt : forall A (l : list A) i d, i < length l -> nth_error l i = Some (nth i l d).
Proof. induction l; destruct i; simpl; intros; try lia; auto. apply IHl; lia. Qed.

Lemma list_ext : forall A (l l' : list A) d, length l = length l' -> (forall i, i < length l -> nth i l d = nth i l' d) -> l = l'.
Proof.
  induction l; destruct l'; simpl; intros d H1 H2; try discriminate; auto.
  f_equal.
  - apply (H2 0); lia.
  - apply IHl with d; [lia|]. intros i Hi. apply (H2 (S i)); lia.
Qed.
