(** Specification notions for smoothers on several ranks, independent of the helpers of M_Par. *)
From Coq Require Import List Arith Bool Permutation.
From Verif Require Import Base OField Mat.
Import ListNotations.
Set Implicit Arguments.

(** Every unknown has exactly one owner. *)
Definition distribution (n : nat) (owned : list (list nat)) : Prop := Permutation (concat owned) (seq 0 n).
(** The owner of i also owns j. *)
Definition same_rank (owned : list (list nat)) (i j : nat) : Prop := exists own, In own owned /\ In i own /\ In j own.
(** The same, as a test. *)
Definition sameb (owned : list (list nat)) (i j : nat) : bool := existsb (fun own => existsb (Nat.eqb i) own && existsb (Nat.eqb j) own) owned.

Section Spec.
  Variable K : ofield.
  Local Open Scope K_scope.
  (** The matrix without the couplings between ranks. *)
  Definition blocks (n : nat) (owned : list (list nat)) (A : mat K) : mat K := mkMat n n (fun i j => if sameb owned i j then ent A i j else 0).
  (** The couplings between ranks add at most the factor 2 - delta to the energy. *)
  Definition weakly_coupled (owned : list (list nat)) (A : mat K) (delta : K) : Prop :=
    forall x, length x = nc A -> dot (mulvec A x) x <= (1 + 1 - delta) * dot (mulvec (blocks (nc A) owned A) x) x.
  (** The ranks can be given two colours such that ranks of the same colour do not touch each other. *)
  Definition two_colours (owned : list (list nat)) (A : mat K) : Prop :=
    exists colour : nat -> bool,
      (forall i j, same_rank owned i j -> colour i = colour j) /\
      (forall i j, (i < nc A)%nat -> (j < nc A)%nat -> ent A i j <> 0 -> ~ same_rank owned i j -> colour i <> colour j).
  (** Sum of the absolute values off the diagonal of a row. *)
  Definition off_diagonal (A : mat K) (i : nat) : K := sumn (nc A) (fun j => if (j =? i)%nat then 0 else fabs (ent A i j)).
  Definition dominant (A : mat K) : Prop := forall i, (i < nc A)%nat -> off_diagonal A i <= ent A i i.
  (** From the unknown, nonzero entries lead to a row that is strictly dominant. *)
  Inductive anchored (A : mat K) : nat -> Prop :=
  | anchor : forall i, (i < nc A)%nat -> off_diagonal A i < ent A i i -> anchored A i
  | linked : forall i j, (i < nc A)%nat -> (j < nc A)%nat -> ent A i j <> 0 -> anchored A j -> anchored A i.
  Definition anchored_dominant (A : mat K) : Prop := dominant A /\ forall i, (i < nc A)%nat -> anchored A i.
End Spec.
