(** Model of AMGe_device: eigenvectors of the agglomerates on the device, and the restriction matrix made of them
    (include/mfmg/cuda/amge_device.templates.cuh:28-433; source/cuda/cuda_hierarchy_helpers.cu:54-82). Definitions only.
    File abbreviation: amge_device = include/mfmg/cuda/amge_device.templates.cuh. *)
From Coq Require Import List Arith Bool.
From Verif Require Import Base OField M_SpProd M_Csr M_Dev M_DevSolve M_Restr M_CudaOp.
Import ListNotations.
Set Implicit Arguments.
Open Scope nat_scope.

Section AmgeDev.
  Variable K : ofield.

  (** cusolverDnDsygvd and its buffer size for A x = lambda B x, lower triangles (external; amge_device:137-144, 158-160): the arrays of A, B and W
      afterwards and devInfo. *)
  Record eig_library : Type := mkEigLib {
    z_lwork : nat -> list K -> list K -> nat;
    z_sygvd : nat -> list K -> list K -> list K * list K * list K * nat
  }.
  (** What differs from run to run for one agglomerate (no counterpart in /repo): the order of the threads in the four kernels and what the five new
      buffers contain before they are written. *)
  Record agg_env : Type := mkAggEnv {
    g_order_diag : list nat; g_order_mass : list nat; g_order_values : list nat; g_order_vectors : list nat;
    g_diag : list K; g_mass : list K; g_values : list K; g_smallest : list K; g_vectors : list K
  }.

  (** The whole content of a buffer of values, as a kernel can read it; a null pointer has none (no line in /repo). *)
  Definition buffer (h : heap K) (p : pointer) : outcome (list K) :=
    match p with
    | None => Ok []
    | Some id => match lookup h id with None => dead | Some (CVals l) => Ok l | Some _ => UB end
    end.
  (** A kernel is launched that writes the buffer at p (amge_device:268-269, 275-276, 295-296, 308-310). *)
  Definition kernel (order : list nat) (body : nat -> list K -> outcome (list K)) (p : pointer) (h : heap K) : outcome (heap K) :=
    let! before := buffer h p in
    let! after := launch order body before in
    store_at p (CVals after) h.
  (** A library writes values to the start of a buffer (no line in /repo). *)
  Definition write_vals (p : pointer) (l : list K) (h : heap K) : outcome (heap K) :=
    let! before := buffer h p in
    let! after := wr_at before 0 l in
    store_at p (CVals after) h.

  (** The extract_diag kernel (amge_device:172-181). *)
  Definition extract_diag (matrix : list K) (n_rows n_cols : nat) (i : nat) (diag : list K) : outcome (list K) :=
    if i <? n_rows * n_cols then
      if i / n_rows =? i mod n_cols then let! v := rd matrix i in wr diag (i mod n_cols) v else Ok diag
    else Ok diag.
  (** The fill_identity_matrix kernel (amge_device:183-195). *)
  Definition fill_identity (n_rows n_cols : nat) (i : nat) (matrix : list K) : outcome (list K) :=
    if i <? n_rows * n_cols then
      if i / n_rows =? i mod n_cols then wr matrix i f1 else wr matrix i f0
    else Ok matrix.
  (** The restrict_array kernel (amge_device:197-206); full_array_size is not used there. *)
  Definition restrict_array (full : list K) (size : nat) (i : nat) (restricted : list K) : outcome (list K) :=
    if i <? size then let! v := rd full i in wr restricted i v else Ok restricted.

  (** internal::compute_local_eigenvectors<double> (amge_device:130-170). Left out: the copy A_host of the matrix, which is not used. *)
  Definition sygvd (debug : bool) (Z : eig_library) (n : nat) (A B W : pointer) (h : heap K) : outcome (heap K) :=
    let! a := read_vals debug h A (n * n) in
    let! b := read_vals debug h B (n * n) in
    let (d_work, h1) := malloc_junk (z_lwork Z n a b) h in
    let '(a', b', w, info) := z_sygvd Z n a b in
    let (devInfo, h2) := malloc_ints [info] h1 in
    let! h3 := write_vals A a' h2 in
    let! h4 := write_vals B b' h3 in
    let! h5 := write_vals W w h4 in
    let! _ := (if debug then let! i := read_ints debug h5 devInfo 1 in assert_dbg debug (nth 0 i 0 =? 0) else Ok tt) in
    let! h6 := cuda_free d_work h5 in
    cuda_free devInfo h6.

  (** From the call of evaluate_agglomerate to the release of the sparse matrix (amge_device:233-262) with convert_csr_to_dense (amge_device:57-75).
      [c] is the matrix the user function fills in, with or without handle. The descriptor is never destroyed. *)
  Definition dense_agglomerate (debug : bool) (c : csr K) (with_handle : bool) (h : heap K) : outcome (pointer * heap K) :=
    let (d, h1) := construct c with_handle h in
    let (descr, h2) := alloc (@CDescr K) h1 in
    let! _ := assert_dbg debug (d_n d =? d_m d) in
    let! _ := read_descr debug h2 descr in
    let! c1 := contents debug h2 d in
    let! dense := csr2dense c1 (d_m d) (d_m d) in
    let (dense_dev, h3) := malloc_vals dense h2 in
    let! h4 := destroy d h3 in
    Ok (dense_dev, h4).
  (** AMGe_device::compute_local_eigenvectors (amge_device:216-323): the pointers to the smallest eigenvalues, to the eigenvectors and to the
      diagonal. The map of the dofs (amge_device:317-319) is computed on the host, see compute_dof_index_map in M_Amge.v. *)
  Definition local_eigenvectors (debug : bool) (Z : eig_library) (g : agg_env) (n_eigenvectors : nat) (c : csr K) (with_handle : bool) (h : heap K)
    : outcome (pointer * pointer * pointer * heap K) :=
    let n_rows := c_m c in
    let n_cols := c_n c in
    let! (dense_dev, h1) := dense_agglomerate debug c with_handle h in
    let (diag_dev, h2) := malloc_vals (g_diag g) h1 in
    let! matrix := buffer h2 dense_dev in
    let! h3 := kernel (g_order_diag g) (extract_diag matrix n_rows n_cols) diag_dev h2 in
    let (mass_dev, h4) := malloc_vals (g_mass g) h3 in
    let! h5 := kernel (g_order_mass g) (fill_identity n_rows n_cols) mass_dev h4 in
    let (values_dev, h6) := malloc_vals (g_values g) h5 in
    let! h7 := sygvd debug Z n_rows dense_dev mass_dev values_dev h6 in
    let! h8 := cuda_free mass_dev h7 in
    let (smallest_dev, h9) := malloc_vals (g_smallest g) h8 in
    let! values := buffer h9 values_dev in
    let! h10 := kernel (g_order_values g) (restrict_array values n_eigenvectors) smallest_dev h9 in
    let! h11 := cuda_free values_dev h10 in
    let (vectors_dev, h12) := malloc_vals (g_vectors g) h11 in
    let! vectors := buffer h12 dense_dev in
    let! h13 := kernel (g_order_vectors g) (restrict_array vectors (n_eigenvectors * n_rows)) vectors_dev h12 in
    let! h14 := cuda_free dense_dev h13 in
    Ok (smallest_dev, vectors_dev, diag_dev, h14).

  (** One agglomerate of the loop of setup_restrictor (amge_device:382-423): [dofs] is local_dof_indices_map. The pointer to the eigenvalues is
      dropped. *)
  Definition agglomerate_step (debug : bool) (Z : eig_library) (g : agg_env) (n_eigenvectors : nat) (c : csr K) (with_handle : bool)
    (dofs : list nat) (d : agg_data K) (h : heap K) : outcome (agg_data K * heap K) :=
    let! (_, vectors_dev, diag_dev, h1) := local_eigenvectors debug Z g n_eigenvectors c with_handle h in
    let n := length dofs in
    let! host := read_vals debug h1 vectors_dev (n_eigenvectors * n) in
    let! vectors := mapM (fun i => slice host (i * n) n) (seq 0 n_eigenvectors) in
    let! h2 := cuda_free vectors_dev h1 in
    let! diag := read_vals debug h2 diag_dev n in
    let! h3 := cuda_free diag_dev h2 in
    Ok (mkData (da_evals d) (da_evecs d ++ vectors) (da_diag d ++ [diag]) (da_maps d ++ [dofs]) (da_nloc d ++ [n_eigenvectors]), h3).
  (** One agglomerate: run-time conditions, matrix, whether it has a handle, dofs (no line in /repo: build_agglomerate_triangulation and the user
      function). *)
  Definition agglomerate : Type := (agg_env * csr K * bool * list nat)%type.
  (** The loop over the agglomerates of one rank (amge_device:372-423). *)
  Fixpoint setup_loop (debug : bool) (Z : eig_library) (n_eigenvectors : nat) (aggs : list agglomerate) (d : agg_data K) (h : heap K)
    : outcome (agg_data K * heap K) :=
    match aggs with
    | [] => Ok (d, h)
    | (g, c, w, dofs) :: rest =>
        let! (d1, h1) := agglomerate_step debug Z g n_eigenvectors c w dofs d h in
        setup_loop debug Z n_eigenvectors rest d1 h1
    end.
  (** AMGe_device::setup_restrictor on all ranks up to the device matrix (amge_device:364-432, 325-363): every rank has its device memory. [compress]
      is what Trilinos makes of the entries added on the ranks (external; compress(add) at include/mfmg/common/amge.templates.hpp:323-324), given
      the number of rows of every rank and the owned dofs. [gds p g] is what rank p can read of the diagonal at g, [gdiag] the owned diagonal. The
      buffers of the restriction matrix are not placed in the memory h. *)
  Definition setup_restrictor (debug acc : bool) (tol : K) (Z : eig_library) (compress : list nat -> list (list nat) -> list (spm K) -> list (trilinos K))
    (n_eigenvectors : nat) (owned : list (list nat)) (gds : nat -> nat -> option K) (gd : nat -> option K) (gdiag : nat -> K)
    (ranks : list (list agglomerate * heap K)) : outcome (shared_matrix K * list (heap K)) :=
    let! rs := mapM (fun r : list agglomerate * heap K => setup_loop debug Z n_eigenvectors (fst r) (@data_empty K) (snd r)) ranks in
    let data := map fst rs in
    let! ms := assemble debug acc gds data in
    let! _ := check_restriction debug tol (length (concat owned)) gdiag gd data in
    let! parts := mapM (convert_trilinos debug) (compress (rows_per_proc data) owned (map (@r_R K) ms)) in
    Ok (mkShared parts true true, map snd rs).
End AmgeDev.
Arguments mkEigLib {K} _ _.
Arguments mkAggEnv {K} _ _ _ _ _ _ _ _ _.
Arguments buffer {K} h p.
Arguments kernel {K} order body p h.
Arguments write_vals {K} p l h.
Arguments extract_diag {K} matrix n_rows n_cols i diag.
Arguments fill_identity {K} n_rows n_cols i matrix.
Arguments restrict_array {K} full size i restricted.
Arguments sygvd {K} debug Z n A B W h.
Arguments dense_agglomerate {K} debug c with_handle h.
Arguments local_eigenvectors {K} debug Z g n_eigenvectors c with_handle h.
Arguments agglomerate_step {K} debug Z g n_eigenvectors c with_handle dofs d h.
Arguments setup_loop {K} debug Z n_eigenvectors aggs d h.
Arguments setup_restrictor {K} debug acc tol Z compress n_eigenvectors owned gds gd gdiag ranks.
