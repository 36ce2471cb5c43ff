(** Model of DealIIMatrixFreeHierarchyHelpers::build_restrictor on several MPI ranks, from the meshes of the ranks to the distributed restriction matrix.
    Definitions only.
    mh = source/dealii/dealii_matrix_free_hierarchy_helpers.cc, ah = include/mfmg/dealii/amge_host.templates.hpp, am = include/mfmg/common/amge.templates.hpp. *)
From Coq Require Import String List Arith ZArith Bool.
From Verif Require Import Base OField Mat M_Ptree M_Host M_Agglo M_WorkStream M_Restr M_Lanczos M_Eig M_HostEnd M_ParEnd M_MfEnd.
Import ListNotations.
Set Implicit Arguments.
Open Scope list_scope.
Open Scope nat_scope.

Section ParMfEnd.
  Variable K : ofield.
  Local Notation vec := (vec K).

  (** What one rank has: its part of the mesh in its own numbering (owned and ghost cells; am:51-86), the number of each of these cells in the mesh of all
      ranks (deal.II's CellId; not used by the code below), what Zoltan or METIS returns to it, the user's DealIIMatrixFreeMeshEvaluator on the agglomerate of some
      cells (ah:49-123): the dofs, matrix_free_evaluate_agglomerate, matrix_free_get_agglomerate_diagonal and the constraint lines; the random numbers, and what
      it can read of the locally relevant diagonal (mh:74). *)
  Record mf_rank := mkMfRank {
    mr_mesh : mesh;
    mr_number : nat -> nat;
    mr_partition : partitioner_kind -> list nat;
    mr_dofs : list nat -> list nat;
    mr_op : list nat -> vec -> vec;
    mr_diag : list nat -> list K;
    mr_constrained : list nat -> list nat;
    mr_draws : nat -> nat -> K;
    mr_gd : nat -> option K }.

  (** External code, as in M_HostEnd.v. *)
  Variable parse_unsigned : string -> option Z.
  Variable parse_double : string -> option K.
  Variable lobpcg : (vec -> vec) -> Z -> K -> list vec -> bool * eigensolution K.
  Variable fsqrt : K -> option K.
  Variable dstev : list K -> list K -> outcome (list K * list K).
  Variable tol2 : K.
  Variable rand : nat -> nat -> K.
  Variable std_sort : (nat -> nat -> bool) -> list nat -> list nat.
  Variables (debug dim3 : bool).
  Variable n_dofs : nat.

  (** build_agglomerates on one rank, am:51-86. *)
  Definition mf_rank_agglomerates (rk : mf_rank) : ptree -> list nat -> outcome (list nat * nat) :=
    build_agglomerates parse_unsigned (mr_partition rk) debug dim3 (mr_mesh rk).
  (** The local eigenproblems of one rank, ah:586-606 with ah:278-348. *)
  Definition mf_rank_problem (rk : mf_rank) : ptree -> list nat -> nat -> scratch K -> outcome (agg_result K) :=
    mf_local_problem parse_double lobpcg fsqrt dstev tol2 rand std_sort (mr_dofs rk) (mr_op rk) (mr_diag rk) (mr_constrained rk) (mr_draws rk) debug (mr_mesh rk).
  (** setup_restrictor on one rank up to the collected eigenvectors, ah:494-519, on a mesh whose user indices are 0 as deal.II leaves them. *)
  Definition mf_rank_run (eig agg : ptree) (rk : mf_rank) (d : agg_data K) : Prop :=
    exists ui n ns nb, mf_rank_agglomerates rk agg (repeat 0 (n_cells (mr_mesh rk))) = Ok (ui, n) /\
      collect (mf_rank_problem rk eig ui) (keeps_guess eig) n ns nb d.
  (** build_restrictor without fast_ap (mh:53-76, 288-303 and ah:485-524) on the ranks [ranks]: the matrix [R] a run can end with, whatever the schedules of
      the loops.  check_restriction_matrix is not called for matrix-free evaluators (ah:525-535). *)
  Definition par_mf_restrictor_run (ranks : list mf_rank) (p : ptree) (R : mat K) : Prop :=
    exists eig agg ds ms,
      pt_find p ["eigensolver"%string] = Some eig /\ pt_find p ["agglomeration"%string] = Some agg /\
      Forall2 (mf_rank_run eig agg) ranks ds /\
      assemble debug true (fun q => match nth_error ranks q with Some rk => mr_gd rk | None => fun _ => None end) ds = Ok ms /\
      R = distributed_matrix (n_total_rows (rows_per_proc ds)) n_dofs ms.
End ParMfEnd.
