(** Specification of permutations and sorting, independent of the model in M_Perm.v. *)
From Coq Require Import List Arith Permutation Sorted.
Import ListNotations.
Set Implicit Arguments.

(** [p] lists a permutation of 0..n-1. *)
Definition is_perm (n : nat) (p : list nat) : Prop := Permutation p (seq 0 n).

(** [v'] is [v] gathered through [p]: v'[i] = v[p[i]] for every i. *)
Definition gathered {T} (p : list nat) (v v' : list T) : Prop :=
  length v' = length v /\ forall i j, nth_error p i = Some j -> nth_error v' i = nth_error v j.

(** A strict weak order given by a boolean comparator. *)
Definition strict_weak_order {T} (cmp : T -> T -> bool) : Prop :=
  (forall x, cmp x x = false) /\
  (forall x y z, cmp x y = true -> cmp y z = true -> cmp x z = true) /\
  (forall x y z, cmp x y = false -> cmp y x = false -> cmp y z = false -> cmp z y = false ->
                 cmp x z = false /\ cmp z x = false).

(** Contract of std::sort: for a strict weak order the result is a rearrangement that is ordered. *)
Definition std_sort_contract {T} (s : (T -> T -> bool) -> list T -> list T) : Prop :=
  forall cmp l, strict_weak_order cmp ->
    Permutation l (s cmp l) /\ StronglySorted (fun a b => cmp b a = false) (s cmp l).

(** Lexicographic order on pairs. *)
Definition lex_le (a b : nat * nat) : Prop := fst a < fst b \/ (fst a = fst b /\ snd a <= snd b).
