(** Model of the smoothers of DealIISmoother (source/dealii/dealii_smoother.cc:38-81) on several MPI ranks, and of the helpers that use them.
    The preconditioners are Trilinos objects behind deal.II wrappers, initialised with their default overlap 0: what follows is their documented
    action, not their code. Definitions only. *)
From Coq Require Import String List Arith Bool.
From Verif Require Import Base OField Mat M_Ptree M_Hier M_Smoother M_Host.
Import ListNotations.
Set Implicit Arguments.
Open Scope list_scope.

Section Par.
  Variable K : ofield.
  Local Open Scope K_scope.
  Notation vec := (vec K).

  (** The rows and columns that one rank owns, with local numbers (external; overlap 0 at dealii_smoother.cc:41-57): couplings to other ranks are
      dropped. *)
  Definition local_block (A : mat K) (own : list nat) : mat K :=
    mkMat (length own) (length own) (fun i j => ent A (nth i own 0%nat) (nth j own 0%nat)).
  (** The owned values of a distributed vector (external). *)
  Definition gather (own : list nat) (x : vec) : vec := map (fun g => nth g x 0) own.
  (** The owned values are written (external). *)
  Fixpoint put_owned (own : list nat) (y : vec) (x : vec) : vec :=
    match own, y with g :: own', v :: y' => put_owned own' y' (upd x g v) | _, _ => x end.
  (** Every rank applies [f] to its block and its values; the results make up the distributed vector (external; dealii_smoother.cc:76-77).
      [owned] lists the owned unknowns of every rank. *)
  Definition on_ranks (f : mat K -> vec -> vec) (owned : list (list nat)) (A : mat K) (r : vec) : vec :=
    fold_left (fun x own => put_owned own (f (local_block A own) (gather own r)) x) owned (vzero (nc A)).
  (** PreconditionSSOR::vmult (dealii_smoother.cc:40-45, 77). *)
  Definition par_ssor_vmult (owned : list (list nat)) (A : mat K) : vec -> vec := on_ranks (@ssor_vmult K) owned A.
  (** PreconditionSOR::vmult (dealii_smoother.cc:46-51, 77). *)
  Definition par_sor_vmult (owned : list (list nat)) (A : mat K) : vec -> vec := on_ranks (@sor_vmult K) owned A.
  (** PreconditionJacobi::vmult (dealii_smoother.cc:52-57, 77). *)
  Definition par_jacobi_vmult (owned : list (list nat)) (A : mat K) : vec -> vec := on_ranks (@jacobi_vmult K) owned A.

  (** The arguments of M_Host.v; [owned_rows A] are the owned rows of the ranks (locally_owned_range_indices). *)
  Variable accepts_double : string -> bool.
  Variable owned_rows : mat K -> list (list nat).
  Variable global_matrix : mat K.
  Variable make_restrictor : ptree -> outcome (mat K * mat K).
  Variable ilu_vmult : mat K -> vec -> vec.
  Variable ml_vmult : ml_list -> mat K -> vec -> vec.
  (** The action of the preconditioner of each kind (dealii_smoother.cc:39-62). *)
  Definition par_kind_vmult (k : smoother_kind) (A : mat K) : vec -> vec :=
    match k with
    | KSsor => par_ssor_vmult (owned_rows A) A
    | KSor => par_sor_vmult (owned_rows A) A
    | KJacobi => par_jacobi_vmult (owned_rows A) A
    | _ => ilu_vmult A
    end.
  (** build_smoother (source/dealii/dealii_hierarchy_helpers.cc:305-312, dealii_smoother.cc:19-81); see M_Host.host_build_smoother. *)
  Definition par_build_smoother (a : op K) (p : ptree) : outcome (bx_apply K) :=
    match a with
    | TriOp A => let! k := dealii_smoother_kind p in Ok (smoother_apply (TriOp A) (par_kind_vmult k A))
    | MfOp _ _ => UB
    end.
  (** DealIIHierarchyHelpers on several ranks (dealii_hierarchy_helpers.cc:30-340): products of matrices, matrix-vector products and the direct
      solver of Trilinos do not depend on the distribution (external), the smoothers do. *)
  Definition par_helpers : helpers K (option (op K)) :=
    {| hh_get_global_operator := fun ap => (Ok (TriOp global_matrix), ap);
       hh_build_restrictor := host_build_restrictor make_restrictor;
       hh_build_smoother := fun a p ap => (par_build_smoother a p, ap);
       hh_build_coarse_solver := fun a p ap => (host_build_coarse_solver accepts_double ml_vmult a p, ap);
       hh_fast_multiply_transpose := fun ap => (deref ap, ap) |}.
End Par.
