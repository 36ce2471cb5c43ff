(** Specification of handle lifetimes, independent of the step function in M_AmgxLife. *)
From Coq Require Import List Arith Bool.
From Verif Require Import Base M_AmgxLife.
Import ListNotations.
Open Scope nat_scope.

(** The handles destroyed, one element per call. *)
Definition destroys (calls : list amgx_call) : list nat := flat_map (fun c => match c with CDestroy _ h => [h] | _ => [] end) calls.
(** The handles created, one element per call. *)
Definition creates (calls : list amgx_call) : list nat := flat_map (fun c => match c with CCreate _ h => [h] | _ => [] end) calls.
(** Every handle is created before it is destroyed, and with the same kind (the list has the latest call first). *)
Definition destroyed_after_created (calls : list amgx_call) : Prop :=
  forall later k h earlier, calls = later ++ CDestroy k h :: earlier -> In (CCreate k h) earlier.
(** A live object has the handle among its members. *)
Definition in_use (s : library) (h : nat) : Prop :=
  exists i o, nth_error (l_objects s) i = Some (Some o) /\ In (Some h) [o_config o; o_res o; o_matrix o; o_rhs o; o_solution o; o_solver o].
(** The program does not copy solver objects. *)
Definition no_copies (ops : list life_op) : Prop := forall i, ~ In (LCopy i) ops.
