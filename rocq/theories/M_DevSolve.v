(** Model of the direct coarse solvers on the device: cholesky, lu_dense and lu_sparse_host
    (source/cuda/dealii_operator_device_helpers.cu:20-257, source/cuda/cuda_solver.cu:42-93). Definitions only. One MPI rank: none of these functions
    communicates. File abbreviations: helpers.cu = source/cuda/dealii_operator_device_helpers.cu, solver.cu = source/cuda/cuda_solver.cu. *)
From Coq Require Import String List Arith Bool.
From Verif Require Import Base OField M_SpProd M_Csr M_Dev.
Import ListNotations.
Set Implicit Arguments.
Open Scope nat_scope.

Section DevSolve.
  Variable K : ofield.

  (** cuSOLVER (external). The rows are what the CSR arrays say, a dense matrix is stored column by column.
      [y_chol n rows b x]: cusolverSpDcsrlsvchol (helpers.cu:145-148, 162-165), the content of x afterwards and whether singularity is -1.
      [y_splu n rows b x]: cusolverSpDcsrlsvluHost (helpers.cu:114-116, 131-133), likewise.
      [y_work n a]: the work space for getrf (helpers.cu:43-63).
      [y_getrf n a]: cusolverDnDgetrf (helpers.cu:65-85), the factors in place, the pivots and info.
      [y_getrs n a pivots b]: cusolverDnDgetrs (helpers.cu:87-104), the solution in place and info. *)
  Record solver_library : Type := mkSolverLib {
    y_chol : nat -> list (list (nat * K)) -> list K -> list K -> list K * bool;
    y_splu : nat -> list (list (nat * K)) -> list K -> list K -> list K * bool;
    y_work : nat -> list K -> nat;
    y_getrf : nat -> list K -> list K * list nat * nat;
    y_getrs : nat -> list K -> list nat -> list K -> list K * nat
  }.

  (** A SparseMatrixDevice as these functions see it: the data and whether cusparse_handle and descr are set
      (include/mfmg/cuda/sparse_matrix_device.cuh:92-104). *)
  Record solver_matrix : Type := mkSolverMatrix { v_csr : csr K; v_handle : bool; v_descr : bool }.

  (** The value of a stored row in a column (no line in /repo: what csr2dense puts there). *)
  Definition stored_value (row : list (nat * K)) (j : nat) : K :=
    match find (fun e : nat * K => fst e =? j) row with Some e => snd e | None => f0 end.
  (** The first m rows of the CSR arrays, as cuSPARSE and cuSOLVER read them; leaving an array is undefined (external; used at helpers.cu:24-28,
      145-148). *)
  Definition csr_rows (c : csr K) (m : nat) : outcome (list (list (nat * K))) := mapM (set_arguments c) (seq 0 m).
  (** cusparseDcsr2dense into a new buffer, leading dimension m (external; helpers.cu:31-40; include/mfmg/cuda/amge_device.templates.cuh:69-74):
      element (i, j) is at i + j * m. *)
  Definition csr2dense (c : csr K) (m n : nat) : outcome (list K) :=
    let! rows := csr_rows c m in
    Ok (map (fun k => stored_value (nth (k mod m) rows []) (k / m)) (seq 0 (m * n))).

  (** cholesky_factorization (helpers.cu:139-171). The memory is not touched. *)
  Definition cholesky (debug : bool) (Y : solver_library) (A : solver_matrix) (b x : list K) : outcome (list K) :=
    let m := c_m (v_csr A) in
    if negb (v_descr A) then failed_call debug else
    let! rows := csr_rows (v_csr A) m in
    let! rhs := slice b 0 m in
    let! before := slice x 0 m in
    let (after, regular) := y_chol Y m rows rhs before in
    let! _ := assert_dbg debug regular in
    wr_at x 0 after.
  (** lu_factorization for dense matrices (helpers.cu:173-233). *)
  Definition lu_dense (debug : bool) (Y : solver_library) (A : solver_matrix) (b x : list K) (h : heap K) : outcome (list K * heap K) :=
    let m := c_m (v_csr A) in
    let n := c_n (v_csr A) in
    let! _ := assert_dbg debug (m =? n) in
    if negb (v_handle A && v_descr A) then failed_call debug else
    let! dense := csr2dense (v_csr A) m n in
    let (dense_matrix_dev, h1) := malloc_vals dense h in
    let workspace_size := y_work Y m dense in
    let! _ := assert_dbg debug (0 <? workspace_size) in
    let (workspace_dev, h2) := malloc_junk workspace_size h1 in
    let '(factors, pivots, info) := y_getrf Y m dense in
    let (pivot_dev, h3) := malloc_ints pivots h2 in
    let (info_dev, h4) := malloc_ints [info] h3 in
    let! h5 := store_at dense_matrix_dev (CVals factors) h4 in
    let! info1 := read_ints debug h5 info_dev 1 in
    let! _ := assert_dbg debug (nth 0 info1 0 =? 0) in
    let! rhs := slice b 0 m in
    let! x1 := wr_at x 0 rhs in
    let! fac := read_vals debug h5 dense_matrix_dev (m * m) in
    let! piv := read_ints debug h5 pivot_dev m in
    let! before := slice x1 0 m in
    let (after, info2) := y_getrs Y m fac piv before in
    let! x2 := wr_at x1 0 after in
    let! h6 := store_at info_dev (CInts [info2]) h5 in
    let! _ := assert_dbg debug (info2 =? 0) in
    let! h7 := cuda_free dense_matrix_dev h6 in
    let! h8 := cuda_free workspace_dev h7 in
    let! h9 := cuda_free pivot_dev h8 in
    let! h10 := cuda_free info_dev h9 in
    Ok (x2, h10).
  (** lu_factorization for sparse matrices (helpers.cu:235-257): everything is copied to the host first. n_nonzero_elements() is _local_nnz on one
      rank. *)
  Definition lu_sparse_host (debug : bool) (Y : solver_library) (A : solver_matrix) (b x : list K) : outcome (list K) :=
    let m := c_m (v_csr A) in
    let! val_host := slice (c_val (v_csr A)) 0 (c_nnz (v_csr A)) in
    let! col_host := slice (c_col (v_csr A)) 0 (c_nnz (v_csr A)) in
    let! ptr_host := slice (c_ptr (v_csr A)) 0 (m + 1) in
    let! b_host := slice b 0 m in
    let! x_host := slice x 0 m in
    if negb (v_descr A) then failed_call debug else
    let! rows := csr_rows (mkCsr val_host col_host ptr_host (c_nnz (v_csr A)) m (c_n (v_csr A)) [] []) m in
    let (after, regular) := y_splu Y m rows b_host x_host in
    let! _ := assert_dbg debug regular in
    wr_at x 0 after.

  (** DirectSolver::apply for device vectors (solver.cu:51-72): [b] and [x] are the local values. *)
  Definition direct_apply (debug : bool) (Y : solver_library) (solver : string) (A : solver_matrix) (b x : list K) (h : heap K)
    : outcome (list K * heap K) :=
    if String.eqb solver "cholesky" then let! y := cholesky debug Y A b x in Ok (y, h)
    else if String.eqb solver "lu_dense" then lu_dense debug Y A b x h
    else if String.eqb solver "lu_sparse_host" then let! y := lu_sparse_host debug Y A b x in Ok (y, h)
    else Throw.
  (** DirectSolver::apply for host vectors (solver.cu:74-93): copies of both vectors on the device (source/cuda/utils.cu:484-497), the solution copied
      back; the copies are released at the end. *)
  Definition direct_apply_host (debug : bool) (Y : solver_library) (solver : string) (A : solver_matrix) (b x : list K) (h : heap K)
    : outcome (list K * heap K) :=
    let (x_dev, h1) := malloc_vals x h in
    let (b_dev, h2) := malloc_vals b h1 in
    let! xv := read_vals debug h2 x_dev (length x) in
    let! bv := read_vals debug h2 b_dev (length b) in
    let! (y, h3) := direct_apply debug Y solver A bv xv h2 in
    let! h4 := store_at x_dev (CVals y) h3 in
    let! x_host := read_vals debug h4 x_dev (length x) in
    let! h5 := cuda_free b_dev h4 in
    let! h6 := cuda_free x_dev h5 in
    let! x1 := wr_at x 0 x_host in
    Ok (x1, h6).
End DevSolve.
Arguments mkSolverLib {K} _ _ _ _ _.
Arguments mkSolverMatrix {K} _ _ _.
Arguments v_csr {K} _.
Arguments v_handle {K} _.
Arguments v_descr {K} _.
Arguments stored_value {K} row j.
Arguments csr_rows {K} c m.
Arguments csr2dense {K} c m n.
Arguments cholesky {K} debug Y A b x.
Arguments lu_dense {K} debug Y A b x h.
Arguments lu_sparse_host {K} debug Y A b x.
Arguments direct_apply {K} debug Y solver A b x h.
Arguments direct_apply_host {K} debug Y solver A b x h.
