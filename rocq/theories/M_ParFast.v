(** Model of the fast product A R^T of DealIIHierarchyHelpers::build_restrictor on several MPI ranks.
    Definitions only.
    hh = source/dealii/dealii_hierarchy_helpers.cc, ah = include/mfmg/dealii/amge_host.templates.hpp. *)
From Coq Require Import String List Arith ZArith Bool.
From Verif Require Import Base OField Mat M_Ptree M_Host M_Agglo M_WorkStream M_Restr M_FastAP M_Lanczos M_Eig M_HostEnd M_ParEnd.
Import ListNotations.
Set Implicit Arguments.
Open Scope list_scope.
Open Scope nat_scope.

Section ParFast.
  Variable K : ofield.
  Local Notation vec := (vec K).
  (** External code, as in M_ParEnd.v; [conn q] is the vertex connectivity of the cells rank [q] sees, by GridTools (include/mfmg/common/amge.templates.hpp:106-108). *)
  Variable parse_unsigned : string -> option Z.
  Variable parse_double : string -> option K.
  Variable lobpcg : (vec -> vec) -> Z -> K -> list vec -> bool * eigensolution K.
  Variable fsqrt : K -> option K.
  Variable dstev : list K -> list K -> outcome (list K * list K).
  Variable tol2 : K.
  Variable rand : nat -> nat -> K.
  Variable std_sort : (nat -> nat -> bool) -> list nat -> list nat.
  Variable lapack : mat K -> K -> K -> outcome (list K * list vec).
  Variable arpack : mat K -> K -> vec -> nat -> outcome (list K * list vec).
  Variables (debug dim3 : bool).
  Variable n_dofs : nat.
  Variable conn : nat -> nat -> list nat.

  (** One rank of build_restrictor with fast_ap: its agglomerates and eigenvectors (ah:494-519), the boundary agglomerates and its rows [corr] of the
      correction matrix, which start at the first row the rank owns (hh:77-238). *)
  Definition rank_fast_run (eig agg : ptree) (counts : list nat) (q : nat) (rk : rank_env K) (d : agg_data K) (mm : rmats K) (corr : spm K) : Prop :=
    exists ui n ns nb bd ns' nb',
      rank_agglomerates parse_unsigned debug dim3 rk agg (repeat 0 (n_cells (rk_mesh rk))) = Ok (ui, n) /\
      collect (rank_problem parse_double lobpcg fsqrt dstev tol2 rand std_sort lapack arpack debug rk eig ui) (keeps_guess eig) n ns nb d /\
      build_boundary_agglomerates (rk_mesh rk) ui n (conn q) = Ok bd /\
      fa_corrections (rk_evaluate rk) true (r_E mm) (r_D mm) (n_rows_before counts q) (length (da_evecs d)) ns' nb' bd corr.
  (** Column [r] of the product as the rank that owns row [r] of R computes it, hh:240-287; 0 if rank [q] does not own it. *)
  Definition rank_column (counts : list nat) (q : nat) (d : agg_data K) (mm : rmats K) (corr : spm K) (r g : nat) : K :=
    let first := n_rows_before counts q in
    if (first <=? r) && (r <? first + length (da_evecs d)) then fa_ap (da_evals d) (r_E mm) corr first (r - first) g else 0%K.
  (** build_restrictor with fast_ap (hh:56-303) on the ranks [ranks]: the matrix [R] and the product [AP] a run can end with, whatever the schedules of
      the loops. *)
  Definition par_fast_run (ranks : list (rank_env K)) (p : ptree) (R AP : mat K) : Prop :=
    exists eig agg ds ms (corr : nat -> spm K),
      pt_find p ["eigensolver"%string] = Some eig /\ pt_find p ["agglomeration"%string] = Some agg /\ length ds = length ranks /\
      assemble debug true (fun q => match nth_error ranks q with Some rk => rk_gd rk | None => fun _ => None end) ds = Ok ms /\
      R = distributed_matrix (n_total_rows (rows_per_proc ds)) n_dofs ms /\
      (forall q rk d mm, nth_error ranks q = Some rk -> nth_error ds q = Some d -> nth_error ms q = Some mm ->
         rank_fast_run eig agg (rows_per_proc ds) q rk d mm (corr q)) /\
      AP = mkMat n_dofs (n_total_rows (rows_per_proc ds)) (fun g r =>
        sumn (length ds) (fun q => match nth_error ds q, nth_error ms q with
                                   | Some d, Some mm => rank_column (rows_per_proc ds) q d mm (corr q) r g
                                   | _, _ => 0%K
                                   end)).
End ParFast.
