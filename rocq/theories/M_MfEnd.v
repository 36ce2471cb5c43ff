(** Model of DealIIMatrixFreeHierarchyHelpers::build_restrictor on one rank, from the mesh to the restriction matrix and the product for fast_ap.  Definitions only.
    mh = source/dealii/dealii_matrix_free_hierarchy_helpers.cc, ah = include/mfmg/dealii/amge_host.templates.hpp, am = include/mfmg/common/amge.templates.hpp. *)
From Coq Require Import String List Arith ZArith Bool.
From Verif Require Import Base OField Mat M_Ptree M_Host M_Agglo M_WorkStream M_Restr M_FastAP M_Lanczos M_Eig M_HostEnd.
Import ListNotations.
Set Implicit Arguments.
Open Scope list_scope.
Open Scope nat_scope.

Section MfEnd.
  Variable K : ofield.
  Local Notation vec := (vec K).

  (** External code, as in M_HostEnd.v. *)
  Variable parse_unsigned : string -> option Z.
  Variable parse_double : string -> option K.
  Variable lobpcg : (vec -> vec) -> Z -> K -> list vec -> bool * eigensolution K.
  Variable fsqrt : K -> option K.
  Variable dstev : list K -> list K -> outcome (list K * list K).
  Variable tol2 : K.
  Variable rand : nat -> nat -> K.
  Variable std_sort : (nat -> nat -> bool) -> list nat -> list nat.
  Variable partition : partitioner_kind -> list nat.
  Variable conn : nat -> list nat.
  (** User code on the agglomerate of some cells, DealIIMatrixFreeMeshEvaluator (called at ah:49-123): the dofs in the order of the dof handler, by the result of
      compute_dof_index_map; matrix_free_evaluate_agglomerate; matrix_free_get_agglomerate_diagonal; and the constraint lines the latter leaves behind. *)
  Variable agg_dofs : list nat -> list nat.
  Variable agg_op : list nat -> vec -> vec.
  Variable agg_diag : list nat -> list K.
  Variable constrained : list nat -> list nat.
  Variable draws : nat -> nat -> K.
  Variables (debug dim3 : bool).
  Variable m : mesh.
  Variable n_dofs : nat.
  (** get_diagonal, as read by this rank (mh:74). *)
  Variable gd : nat -> option K.

  (** The eigenproblem of agglomerate [id], ah:586-606 with ah:278-348: patch, operator of the agglomerate, eigensolver. *)
  Definition mf_local_problem (eig : ptree) (ui : list nat) (id : nat) (sc : scratch K) : outcome (agg_result K) :=
    let cells := patch_by_id (n_cells m) id ui in
    compute_local_eigenvectors_mf parse_double lobpcg fsqrt dstev tol2 rand std_sort debug (draws id) eig (n_eigenvectors eig) (eig_tolerance K parse_double eig)
      (length (agg_dofs cells)) (agg_op cells) (agg_diag cells) (constrained cells) (agg_dofs cells) sc.

  (** Loop over j, mh:170-211: [k] rows remain; [op] is agglomerate_operator.vmult. *)
  Fixpoint mfa_rows (E D : spm K) (is_halo : bool) (first n_owned nev i : nat) (cols : list nat) (op : vec -> vec) (k j : nat) (c : fcopy K) : outcome (fcopy K) :=
    match k with
    | 0 => Ok c
    | S k' =>
      let! row := nth_owned_row first n_owned (i * nev + j) in
      let correction := op (delta_eig E D is_halo row cols) in
      let! rows' := wr (fc_rows c) j row in
      let! old := rd (fc_vals c) j in
      let! vals' := wr (fc_vals c) j (vadd correction old) in
      mfa_rows E D is_halo first n_owned nev i cols op k' (S j) (mkFC rows' (fc_cols c) vals')
    end.
  (** The worker, mh:130-212.  No cells: early return (mh:139-142). *)
  Definition mfa_worker (E D : spm K) (is_halo : bool) (first n_owned nev : nat) (it : nat * list nat) (_ : unit) (c : fcopy K) : outcome (unit * fcopy K) :=
    let '(i, cells) := it in
    match cells with
    | [] => Ok (tt, c)
    | _ :: _ =>
      let cols := agg_dofs cells in
      let c1 := mkFC (M_FastAP.resize nev 0 (fc_rows c)) cols (repeat (vzero (length cols)) nev) in
      let! c2 := mfa_rows E D is_halo first n_owned nev i cols (agg_op cells) nev 0 c1 in
      Ok (tt, c2)
    end.
  (** One of the two loops, any schedule, mh:117-231; the copier (mh:214-224) is the one of the matrix version. *)
  Definition mfa_loop (acc : bool) (E D : spm K) (is_halo : bool) (first n_owned nev ns nb : nat) (patches : list (list nat)) (s s' : spm K) : Prop :=
    ws_run (mfa_worker E D is_halo first n_owned nev) (fa_copier acc) (fa_items patches) ns nb tt fcopy_empty s s'.
  (** Both loops, mh:105-234: interior patches first, then halo patches. *)
  Definition mfa_corrections (acc : bool) (E D : spm K) (first n_owned ns nb : nat) (bd : list (list nat * list nat)) (s : spm K) : Prop :=
    let nev := fa_nev n_owned (map fst bd) in
    exists s1, mfa_loop acc E D false first n_owned nev ns nb (map fst bd) [] s1 /\
               mfa_loop acc E D true first n_owned nev ns nb (map snd bd) s1 s.

  (** build_restrictor, mh:53-303, with setup_restrictor, ah:485-584, on one rank: the restriction matrix [R] and, with fast_ap, the product [AP] a run can end with,
      whatever the schedules of the loops; without fast_ap [AP] is not set.  [ui] are the user indices at the call.  check_restriction_matrix is not called for
      matrix-free evaluators (ah:526-536). *)
  Definition mf_restrictor_run (ui : list nat) (p : ptree) (R AP : mat K) : Prop :=
    exists eig agg ui' n_agg ns nb d mm,
      pt_find p ["eigensolver"%string] = Some eig /\ pt_find p ["agglomeration"%string] = Some agg /\
      build_agglomerates parse_unsigned partition debug dim3 m agg ui = Ok (ui', n_agg) /\
      collect (mf_local_problem eig ui') (keeps_guess eig) n_agg ns nb d /\
      compute_restriction debug true [length (da_evecs d)] 0 gd d = Ok mm /\
      R = spm_matrix (length (da_evecs d)) n_dofs (r_R mm) /\
      if pt_get parse_bool ["fast_ap"%string] false p
      then exists bd ns' nb' corr,
        build_boundary_agglomerates m ui' n_agg conn = Ok bd /\
        mfa_corrections true (r_E mm) (r_D mm) 0 (length (da_evecs d)) ns' nb' bd corr /\
        AP = mkMat n_dofs (length (da_evecs d)) (fun g r => fa_ap (da_evals d) (r_E mm) corr 0 r g)
      else True.
End MfEnd.
