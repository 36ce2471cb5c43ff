(** Model of DealIIHierarchyHelpers::build_restrictor on several MPI ranks, from the meshes of the ranks to the distributed restriction matrix.
    Definitions only.
    hh = source/dealii/dealii_hierarchy_helpers.cc, ah = include/mfmg/dealii/amge_host.templates.hpp, am = include/mfmg/common/amge.templates.hpp. *)
From Coq Require Import String List Arith ZArith Bool.
From Verif Require Import Base OField Mat M_Ptree M_Host M_Agglo M_WorkStream M_Restr M_Lanczos M_Eig M_HostEnd.
Import ListNotations.
Set Implicit Arguments.
Open Scope list_scope.
Open Scope nat_scope.

Section ParEnd.
  Variable K : ofield.
  Local Notation vec := (vec K).

  (** What one rank has: its part of the mesh in its own numbering (owned and ghost cells; am:51-86), the number of each of these cells in the mesh of all
      ranks (deal.II's CellId; not used by the code below), what Zoltan or METIS returns to it, the user's
      evaluate_agglomerate with the dof map and its constraint lines (ah:593-605), the random numbers, and what it can read of the locally relevant
      diagonal (hh:73). *)
  Record rank_env := mkRank {
    rk_mesh : mesh;
    rk_number : nat -> nat;
    rk_partition : partitioner_kind -> list nat;
    rk_evaluate : list nat -> list nat * mat K;
    rk_constrained : list nat -> list nat;
    rk_draws : nat -> nat -> K;
    rk_gd : nat -> option K }.

  (** External code, as in M_HostEnd.v. *)
  Variable parse_unsigned : string -> option Z.
  Variable parse_double : string -> option K.
  Variable lobpcg : (vec -> vec) -> Z -> K -> list vec -> bool * eigensolution K.
  Variable fsqrt : K -> option K.
  Variable dstev : list K -> list K -> outcome (list K * list K).
  Variable tol2 : K.
  Variable rand : nat -> nat -> K.
  Variable std_sort : (nat -> nat -> bool) -> list nat -> list nat.
  Variable lapack : mat K -> K -> K -> outcome (list K * list vec).
  Variable arpack : mat K -> K -> vec -> nat -> outcome (list K * list vec).
  Variables (debug dim3 : bool).
  Variable n_dofs : nat.

  (** build_agglomerates on one rank, am:51-86. *)
  Definition rank_agglomerates (rk : rank_env) : ptree -> list nat -> outcome (list nat * nat) :=
    build_agglomerates parse_unsigned (rk_partition rk) debug dim3 (rk_mesh rk).
  (** The local eigenproblems of one rank, ah:593-605. *)
  Definition rank_problem (rk : rank_env) : ptree -> list nat -> nat -> scratch K -> outcome (agg_result K) :=
    local_problem parse_double lobpcg fsqrt dstev tol2 rand std_sort lapack arpack (rk_evaluate rk) (rk_constrained rk) (rk_draws rk) debug (rk_mesh rk).
  (** setup_restrictor on one rank up to the collected eigenvectors, ah:494-521, on a mesh whose user indices are 0 as deal.II leaves them. *)
  Definition rank_run (eig agg : ptree) (rk : rank_env) (d : agg_data K) : Prop :=
    exists ui n ns nb, rank_agglomerates rk agg (repeat 0 (n_cells (rk_mesh rk))) = Ok (ui, n) /\
      collect (rank_problem rk eig ui) (keeps_guess eig) n ns nb d.
  (** The distributed matrix whose rows the ranks have filled (no counterpart in /repo: TrilinosWrappers::SparseMatrix after compress). *)
  Definition distributed_matrix (rows cols : nat) (parts : list (rmats K)) : mat K :=
    mkMat rows cols (fun r g => lsum (map (fun m => spm_el (r_R m) r g) parts)).
  (** build_restrictor without fast_ap (hh:56-83, 287-303 and ah:485-526) on the ranks [ranks]: the matrix [R] a run can end with, whatever the schedules of
      the loops.  check_restriction_matrix (include/mfmg/common/utils.hpp:81-155) only asserts and is left out here. *)
  Definition par_restrictor_run (ranks : list rank_env) (p : ptree) (R : mat K) : Prop :=
    exists eig agg ds ms,
      pt_find p ["eigensolver"%string] = Some eig /\ pt_find p ["agglomeration"%string] = Some agg /\
      Forall2 (rank_run eig agg) ranks ds /\
      assemble debug true (fun q => match nth_error ranks q with Some rk => rk_gd rk | None => fun _ => None end) ds = Ok ms /\
      R = distributed_matrix (n_total_rows (rows_per_proc ds)) n_dofs ms.
End ParEnd.
