(** Model of the preconditioners selected in DealIISmoother (source/dealii/dealii_smoother.cc:40-60), on one rank. They are Trilinos
    objects behind deal.II wrappers: what follows is their documented mathematical action with the default parameters used there
    (omega = 1, one sweep, zero starting vector), not their code. *)
From Coq Require Import List Arith.
From Verif Require Import Base OField Mat M_Hier.
Import ListNotations.
Set Implicit Arguments.

Section Smoother.
  Variable K : ofield.
  Local Open Scope K_scope.

  (** One relaxation of unknown i for A x = b, in place (external: point relaxation, initialised at dealii_smoother.cc:40-51). *)
  Definition gs_update (A : mat K) (b x : vec K) (i : nat) : vec K :=
    upd x i (nth i x 0 + (nth i b 0 - nth i (mulvec A x) 0) / ent A i i).
  (** A sequence of relaxations. *)
  Definition gs_sweep (A : mat K) (b x : vec K) (order : list nat) : vec K := fold_left (gs_update A b) order x.

  (** PreconditionSOR::vmult ("gauss-seidel", dealii_smoother.cc:46-51): one forward sweep from zero. *)
  Definition sor_vmult (A : mat K) (r : vec K) : vec K := gs_sweep A r (vzero (nc A)) (seq 0 (nc A)).
  (** PreconditionSSOR::vmult ("symmetric gauss-seidel", dealii_smoother.cc:40-45): a forward and a backward sweep from zero. *)
  Definition ssor_vmult (A : mat K) (r : vec K) : vec K := gs_sweep A r (vzero (nc A)) (seq 0 (nc A) ++ rev (seq 0 (nc A))).
  (** PreconditionJacobi::vmult ("jacobi", dealii_smoother.cc:52-57): division by the diagonal. *)
  Definition jacobi_vmult (A : mat K) (r : vec K) : vec K := map (fun i => nth i r 0 / ent A i i) (seq 0 (nc A)).

  (** The smoother object for each name; ILU is not modelled (dealii_smoother.cc:40-65, 68-81). *)
  Definition ssor_smoother (A : mat K) : bx_apply K := smoother_apply (TriOp A) (ssor_vmult A).
  (** dealii_smoother.cc:46-51, 68-81 *)
  Definition sor_smoother (A : mat K) : bx_apply K := smoother_apply (TriOp A) (sor_vmult A).
  (** dealii_smoother.cc:52-57, 68-81 *)
  Definition jacobi_smoother (A : mat K) : bx_apply K := smoother_apply (TriOp A) (jacobi_vmult A).
End Smoother.
