(** Model of DealIIHierarchyHelpers::build_restrictor on one rank, from the mesh to the restriction matrix and the product for fast_ap.  Definitions only.
    hh = source/dealii/dealii_hierarchy_helpers.cc, ah = include/mfmg/dealii/amge_host.templates.hpp, am = include/mfmg/common/amge.templates.hpp. *)
From Coq Require Import String List Arith ZArith Bool.
From Verif Require Import Base OField Mat M_Ptree M_Host M_Agglo M_WorkStream M_Restr M_FastAP M_Lanczos M_Eig.
Import ListNotations.
Set Implicit Arguments.
Open Scope list_scope.
Open Scope nat_scope.

Section HostEnd.
  Variable K : ofield.
  Local Notation vec := (vec K).

  (** External code and user code: conversions of property_tree, eigensolvers (see M_Eig.v), Zoltan and METIS, vertex connectivity (am:107-109),
      the user's evaluate_agglomerate with the dof map ([evaluate]) and its constraint lines ([constrained]), and the diagonal returned by get_diagonal
      (hh:73): as read by this rank ([gd]) and its owned part ([gdiag]). *)
  Variable parse_unsigned : string -> option Z.
  Variable parse_double : string -> option K.
  Variable lobpcg : (vec -> vec) -> Z -> K -> list vec -> bool * eigensolution K.
  Variable fsqrt : K -> option K.
  Variable dstev : list K -> list K -> outcome (list K * list K).
  Variable tol2 : K.
  Variable rand : nat -> nat -> K.
  Variable std_sort : (nat -> nat -> bool) -> list nat -> list nat.
  Variable lapack : mat K -> K -> K -> outcome (list K * list vec).
  Variable arpack : mat K -> K -> vec -> nat -> outcome (list K * list vec).
  Variable partition : partitioner_kind -> list nat.
  Variable conn : nat -> list nat.
  Variable evaluate : list nat -> list nat * mat K.
  Variable constrained : list nat -> list nat.
  Variable draws : nat -> nat -> K.
  Variables (debug dim3 : bool).
  Variable m : mesh.
  Variable n_dofs : nat.
  Variable gd : nat -> option K.
  Variable gdiag : nat -> K.

  (** build_agglomerates, am:51-86: user indices afterwards and the number returned. *)
  Definition build_agglomerates (t : ptree) (ui : list nat) : outcome (list nat * nat) :=
    let! k := partitioner_choice parse_unsigned dim3 t in
    match k with
    | PBlock [nx; ny] => build_agglomerates_block debug dim3 m (Z.to_nat nx) (Z.to_nat ny) (Z.to_nat ny) ui
    | PBlock [nx; ny; nz] => build_agglomerates_block debug dim3 m (Z.to_nat nx) (Z.to_nat ny) (Z.to_nat nz) ui
    | PBlock _ => UB
    | _ => build_agglomerates_partitioner m (partition k) ui
    end.

  (** "number of eigenvectors" (an int passed on as unsigned int) and "tolerance", hh:66-68. *)
  Definition n_eigenvectors (eig : ptree) : nat := Z.to_nat ((pt_get parse_int ["number of eigenvectors"%string] 1%Z eig) mod 2 ^ 32).
  (** 1e-14, hh:68 and include/mfmg/common/utils.hpp:114, 145. *)
  Definition tol_1e14 : K := (1 / fpos 100000000000000)%K.
  (** hh:68. *)
  Definition eig_tolerance (eig : ptree) : K := pt_get parse_double ["tolerance"%string] tol_1e14 eig.
  (** The test of ah:607-609; the default differs from the one of compute_local_eigenvectors. *)
  Definition keeps_guess (eig : ptree) : bool :=
    String.eqb (get_string ["type"%string] "lanczos" eig) "anasazi" && pt_get parse_bool ["use_initial_guess"%string] false eig.

  (** The eigenproblem of agglomerate [id], ah:593-605: patch, evaluator, eigensolver. *)
  Definition local_problem (eig : ptree) (ui : list nat) (id : nat) (sc : scratch K) : outcome (agg_result K) :=
    let cells := patch_by_id (n_cells m) id ui in
    compute_local_eigenvectors parse_double lobpcg fsqrt dstev tol2 rand std_sort lapack arpack debug (draws id) eig (n_eigenvectors eig) (eig_tolerance eig)
      (snd (evaluate cells)) (constrained cells) (fst (evaluate cells)) sc.

  (** The matrix with the entries collected in [s] (no counterpart in /repo: TrilinosWrappers::SparseMatrix after compress). *)
  Definition spm_matrix (rows cols : nat) (s : spm K) : mat K := mkMat rows cols (fun i g => spm_el s i g).

  (** build_restrictor, hh:56-303, with setup_restrictor, ah:485-584, on one rank: the restriction matrix [R] and, with fast_ap, the product [AP] a run can
      end with, whatever the schedules of the loops; without fast_ap [AP] is not set.  [ui] are the user indices at the call.  Only the overload without
      fast_ap calls check_restriction_matrix. *)
  Definition restrictor_run (ui : list nat) (p : ptree) (R AP : mat K) : Prop :=
    exists eig agg ui' n_agg ns nb d mm,
      pt_find p ["eigensolver"%string] = Some eig /\ pt_find p ["agglomeration"%string] = Some agg /\
      build_agglomerates agg ui = Ok (ui', n_agg) /\
      collect (local_problem eig ui') (keeps_guess eig) n_agg ns nb d /\
      compute_restriction debug true [length (da_evecs d)] 0 gd d = Ok mm /\
      R = spm_matrix (length (da_evecs d)) n_dofs (r_R mm) /\
      if pt_get parse_bool ["fast_ap"%string] false p
      then exists bd ns' nb' corr,
        build_boundary_agglomerates m ui' n_agg conn = Ok bd /\
        fa_corrections evaluate true (r_E mm) (r_D mm) 0 (length (da_evecs d)) ns' nb' bd corr /\
        AP = mkMat n_dofs (length (da_evecs d)) (fun g r => fa_ap (da_evals d) (r_E mm) corr 0 r g)
      else check_restriction debug tol_1e14 n_dofs gdiag gd [d] = Ok tt.
End HostEnd.
Arguments tol_1e14 {K}.
