(** Specification for the eigenproblem of one agglomerate, independent of M_Eig. *)
From Coq Require Import List Arith Bool.
From Verif Require Import Base OField Mat LinAlg S_Lanczos.
Import ListNotations.
Set Implicit Arguments.
Open Scope nat_scope.

Section S.
  Variable K : ofield.
  Local Open Scope K_scope.
  Notation vec := (vec K).

  Definition square (A : mat K) : Prop := nr A = nc A.
  Definition symmetric_matrix (A : mat K) : Prop := square A /\ forall i j, (i < nr A)%nat -> (j < nr A)%nat -> ent A i j = ent A j i.
  Definition positive_semidefinite (A : mat K) : Prop := forall x, length x = nr A -> 0 <= dot (mulvec A x) x.
  (** Zero at every index of the list. *)
  Definition vanishes (C : list nat) (v : vec) : Prop := forall i, In i C -> nth i v 0 = 0.
  Definition eigenpair (A : mat K) (lambda : K) (v : vec) : Prop := mulvec A v = vscale lambda v.
  Definition residual (A : mat K) (lambda : K) (v : vec) : vec := vsub (mulvec A v) (vscale lambda v).
  (** The rows and columns of the constrained dofs are empty but for the diagonal (what deal.II leaves of homogeneous constraints). *)
  Definition decoupled (A : mat K) (C : list nat) : Prop := forall c j, In c C -> j <> c -> ent A c j = 0 /\ ent A j c = 0.

  (** Contract of LAPACKFullMatrix::compute_eigenvalues_symmetric: orthonormal eigenvectors with eigenvalues in (lower, upper] in ascending order.
      That all of them are found is not needed. *)
  Record spectrum_part (B : mat K) (lower upper : K) (evals : list K) (evecs : list vec) : Prop := {
    sp_len : length evals = length evecs;
    sp_orth : orthonormal (nr B) evecs;
    sp_pair : forall i, (i < length evals)%nat -> eigenpair B (nth i evals 0) (nth i evecs []) /\ lower < nth i evals 0 /\ nth i evals 0 <= upper;
    sp_asc : ascending evals
  }.
  Definition lapack_ok (lapack : mat K -> K -> K -> outcome (list K * list vec)) : Prop :=
    forall B lower upper evals evecs, symmetric_matrix B -> lapack B lower upper = Ok (evals, evecs) -> spectrum_part B lower upper evals evecs.
End S.
Arguments square {K} A.
Arguments symmetric_matrix {K} A.
Arguments positive_semidefinite {K} A.
Arguments vanishes {K} C v.
Arguments eigenpair {K} A lambda v.
Arguments residual {K} A lambda v.
Arguments decoupled {K} A C.
Arguments spectrum_part {K} B lower upper evals evecs.
Arguments lapack_ok {K} lapack.
