(** Specifications for the handles of the CUDA libraries. *)
From Coq Require Import List Arith Bool.
From Verif Require Import Base M_Handle.
Import ListNotations.
Set Implicit Arguments.

(** The program uses and destroys objects only while they exist and gives each new object a new name, as variables in blocks do; it does not assign. *)
Fixpoint scoped (alive : list nat) (l : list cop) : Prop :=
  match l with
  | [] => True
  | CNew id _ _ _ :: r => ~ In id alive /\ scoped (id :: alive) r
  | CDelete id :: r => In id alive /\ scoped (remove Nat.eq_dec id alive) r
  | CUse id _ :: r => In id alive /\ scoped alive r
  | CAssign _ _ :: _ => False
  end.
(** Every creation succeeds. *)
Definition all_created (l : list cop) : Prop := forall id dn sp cs, In (CNew id dn sp cs) l -> dn = true /\ sp = true /\ cs = true.
(** The names of the objects that exist at the end. *)
Fixpoint alive_after (alive : list nat) (l : list cop) : list nat :=
  match l with
  | [] => alive
  | CNew id _ _ _ :: r => alive_after (id :: alive) r
  | CDelete id :: r => alive_after (remove Nat.eq_dec id alive) r
  | _ :: r => alive_after alive r
  end.
(** The resources an object holds. *)
Definition holds (h : handles) (r : resource) : Prop := member (fst r) h = Some (snd r).
(** Number of library calls in the program. *)
Fixpoint calls (l : list cop) : nat := match l with [] => 0 | CUse _ _ :: r => S (calls r) | _ :: r => calls r end.
