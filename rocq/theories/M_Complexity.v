(** Model of the complexities that operators and the hierarchy report. The device operators with a matrix are in M_CudaOp.v. Definitions only. *)
From Coq Require Import List Arith Bool.
From Verif Require Import Base OField Mat M_Hier.
Import ListNotations.
Set Implicit Arguments.
Open Scope nat_scope.

Section Complexity.
  Variable K : ofield.
  (** grid_complexity of the host operators (dealii_trilinos_matrix_operator.cc:116-120; dealii_matrix_free_operator.cc:131-136 throws). *)
  Definition host_grid_complexity (a : op K) : outcome nat :=
    match a with TriOp m => Ok (nr m) | MfOp _ _ => Throw end.
  (** CudaMatrixFreeOperator::grid_complexity (cuda_matrix_free_operator.cu:151-157). *)
  Definition device_matrix_free_grid_complexity : outcome nat := Ok 0.
  (** CudaMatrixFreeOperator::operator_complexity (cuda_matrix_free_operator.cu:159-165). *)
  Definition device_matrix_free_operator_complexity : outcome nat := Ok 0.
  (** Hierarchy::grid_complexity (hierarchy.hpp:311-338): the body is commented out. *)
  Definition hierarchy_grid_complexity (h : hierarchy K) : outcome K := Ok f0.
  (** Hierarchy::operator_complexity (hierarchy.hpp:340-366): the body is commented out. *)
  Definition hierarchy_operator_complexity (h : hierarchy K) : outcome K := Ok f0.
End Complexity.
