(** Model of CudaMatrixOperator (source/cuda/cuda_matrix_operator.cu:22-269) and of the products of device matrices it uses
    (include/mfmg/cuda/sparse_matrix_device.templates.cuh:373-434), as collective calls: a device matrix is the list of the parts of all ranks.
    Definitions only. Memory is in M_Dev.v. *)
From Coq Require Import List Arith Bool.
From Verif Require Import Base OField M_SpProd M_Csr.
Import ListNotations.
Set Implicit Arguments.
Open Scope nat_scope.

Section CudaOp.
  Variable K : ofield.

  (** The libraries (external): inserting rows into a Trilinos matrix, EpetraExt::RowMatrix_Transpose, cusparseDcsrgemm on one rank,
      TrilinosWrappers::SparseMatrix::mmult and EpetraExt::MatrixMatrix::Multiply with the second matrix transposed. *)
  Record libraries : Type := mkLibraries {
    x_fill : list nat -> list (list (nat * K)) -> list nat * list (list (nat * K));
    x_transpose : list (trilinos K) -> list (trilinos K);
    x_gemm : csr K -> csr K -> csr K;
    x_mmult : list (trilinos K) -> list (trilinos K) -> list (trilinos K);
    x_mmult_transpose : list (trilinos K) -> list (trilinos K) -> list (trilinos K)
  }.
  (** A SparseMatrixDevice that operators share (cuda_matrix_operator.cuh: std::shared_ptr members): the parts of all ranks, whether
      cusparse_handle and descr are set. *)
  Record shared_matrix : Type := mkShared { m_parts : list (csr K); m_handle : bool; m_descr : bool }.
  (** A CudaMatrixOperator: _matrix and _transposed_matrix, as numbers of matrices (cuda_matrix_operator.cu:73-78, 97, 126). *)
  Record cuda_operator : Type := mkOperator { o_mat : nat; o_trans : option nat }.
  (** All matrices and operators of the program (no line in /repo). *)
  Record cuda_state : Type := mkCuda { u_mats : list shared_matrix; u_ops : list cuda_operator }.

  (** The transpose of a device matrix through Trilinos (cuda_matrix_operator.cu:102-112, 164-180). *)
  Definition build_transpose (debug : bool) (L : libraries) (parts : list (csr K)) : outcome (list (csr K)) :=
    let! ts := mapM (convert_to_trilinos (x_fill L)) parts in
    mapM (convert_epetra debug) (x_transpose L ts).
  (** CudaMatrixOperator::transpose up to its return value (cuda_matrix_operator.cu:97-127). *)
  Definition make_transpose (debug : bool) (L : libraries) (s : cuda_state) (k : nat) : outcome cuda_state :=
    let! o := rd (u_ops s) k in
    match o_trans o with
    | None =>
        let! m := rd (u_mats s) (o_mat o) in
        let! parts := build_transpose debug L (m_parts m) in
        Ok (mkCuda (u_mats s ++ [mkShared parts (m_handle m) true]) (upd (u_ops s) k (mkOperator (o_mat o) (Some (length (u_mats s))))))
    | Some t => Ok (mkCuda (u_mats s) (upd (u_ops s) k (mkOperator t (Some (o_mat o)))))
    end.
  (** CudaMatrixOperator::transpose (cuda_matrix_operator.cu:93-130): the new operator gets the next number. *)
  Definition op_transpose (debug : bool) (L : libraries) (s : cuda_state) (k : nat) : outcome cuda_state :=
    let! s1 := make_transpose debug L s k in
    let! o := rd (u_ops s1) k in
    match o_trans o with
    | Some t => Ok (mkCuda (u_mats s1) (u_ops s1 ++ [mkOperator t None]))
    | None => UB
    end.
  (** SparseMatrixDevice::vmult on all ranks (sparse_matrix_device.templates.cuh:351-371): without handle or descriptor csrmv fails, which aborts in
      debug builds (ASSERT_CUSPARSE) and leaves the destination as it was in release builds. MatrixOperator::apply for host vectors
      (cuda_matrix_operator.cu:51-70) copies to the device and back around it. *)
  Definition shared_vmult (debug : bool) (m : shared_matrix) (env : nat -> list nat * list K * list K) (owned : list (list nat)) (size : nat)
    (x y : list (list K)) : outcome (list (list K)) :=
    if m_handle m && m_descr m then vmult_all (m_parts m) env owned size x y
    else if debug then Abort else Ok y.
  (** CudaMatrixOperator::apply (cuda_matrix_operator.cu:80-91): the operator that transpose() returns here is dropped. *)
  Definition op_apply (debug : bool) (L : libraries) (s : cuda_state) (k : nat) (trans : bool) (env : nat -> list nat * list K * list K)
    (owned : list (list nat)) (size : nat) (x y : list (list K)) : outcome (cuda_state * list (list K)) :=
    let! o := rd (u_ops s) k in
    let! s1 := (match o_trans o with None => if trans then make_transpose debug L s k else Ok s | Some _ => Ok s end) in
    let! o1 := rd (u_ops s1) k in
    let! m := (if trans then match o_trans o1 with Some t => rd (u_mats s1) t | None => UB end else rd (u_mats s1) (o_mat o1)) in
    let! y' := shared_vmult debug m env owned size x y in
    Ok (s1, y').

  (** m() of a distributed matrix: the same on all ranks (sparse_matrix_device.cuh:63). *)
  Definition parts_m (parts : list (csr K)) : outcome nat := let! c := rd parts 0 in Ok (c_m c).
  (** n() of a distributed matrix: the same on all ranks (sparse_matrix_device.cuh:67). *)
  Definition parts_n (parts : list (csr K)) : outcome nat := let! c := rd parts 0 in Ok (c_n c).
  (** SparseMatrixDevice::mmult into a copy of the first matrix (sparse_matrix_device.templates.cuh:373-434; cuda_matrix_operator.cu:143-146, 194-196).
      The copy has the handle of a and a descriptor. On one process cuSPARSE needs the handle of a and all descriptors. *)
  Definition shared_mmult (debug : bool) (L : libraries) (a b : shared_matrix) : outcome shared_matrix :=
    let! bm := parts_m (m_parts b) in
    let! an := parts_n (m_parts a) in
    let! _ := assert_dbg debug (bm =? an) in
    if length (m_parts a) =? 1 then
      if m_handle a && m_descr a && m_descr b then
        let! ca := rd (m_parts a) 0 in
        let! cb := rd (m_parts b) 0 in
        Ok (mkShared [x_gemm L ca cb] (m_handle a) true)
      else if debug then Abort else UB
    else
      let! a_host := mapM (convert_to_trilinos (x_fill L)) (m_parts a) in
      let! b_host := mapM (convert_to_trilinos (x_fill L)) (m_parts b) in
      let! parts := mapM (convert_trilinos debug) (x_mmult L a_host b_host) in
      Ok (mkShared parts (m_handle a) true).
  (** CudaMatrixOperator::multiply (cuda_matrix_operator.cu:132-149). *)
  Definition op_multiply (debug : bool) (L : libraries) (s : cuda_state) (a b : nat) : outcome cuda_state :=
    let! oa := rd (u_ops s) a in
    let! ob := rd (u_ops s) b in
    let! ma := rd (u_mats s) (o_mat oa) in
    let! mb := rd (u_mats s) (o_mat ob) in
    let! c := shared_mmult debug L ma mb in
    Ok (mkCuda (u_mats s ++ [c]) (u_ops s ++ [mkOperator (length (u_mats s)) None])).
  (** The product of CudaMatrixOperator::multiply_transpose (cuda_matrix_operator.cu:151-225). On several processes the result comes from
      convert_matrix and has neither handle nor descriptor. *)
  Definition shared_mmult_transpose (debug : bool) (L : libraries) (a b : shared_matrix) : outcome shared_matrix :=
    if length (m_parts b) =? 1 then
      let! bt := build_transpose debug L (m_parts b) in
      shared_mmult debug L a (mkShared bt (m_handle a) true)
    else
      let! b_host := mapM (convert_to_trilinos (x_fill L)) (m_parts b) in
      let! a_host := mapM (convert_to_trilinos (x_fill L)) (m_parts a) in
      let! parts := mapM (convert_trilinos debug) (x_mmult_transpose L a_host b_host) in
      Ok (mkShared parts false false).
  (** CudaMatrixOperator::multiply_transpose (cuda_matrix_operator.cu:151-225). *)
  Definition op_multiply_transpose (debug : bool) (L : libraries) (s : cuda_state) (a b : nat) : outcome cuda_state :=
    let! oa := rd (u_ops s) a in
    let! ob := rd (u_ops s) b in
    let! ma := rd (u_mats s) (o_mat oa) in
    let! mb := rd (u_mats s) (o_mat ob) in
    let! c := shared_mmult_transpose debug L ma mb in
    Ok (mkCuda (u_mats s ++ [c]) (u_ops s ++ [mkOperator (length (u_mats s)) None])).
  (** grid_complexity (cuda_matrix_operator.cu:251-255) on one rank: m(). *)
  Definition op_grid_complexity (s : cuda_state) (k rank : nat) : outcome nat :=
    let! o := rd (u_ops s) k in let! m := rd (u_mats s) (o_mat o) in let! c := rd (m_parts m) rank in Ok (c_m c).
  (** operator_complexity (cuda_matrix_operator.cu:257-261) on one rank: n_nonzero_elements(), which is the local count. *)
  Definition op_operator_complexity (s : cuda_state) (k rank : nat) : outcome nat :=
    let! o := rd (u_ops s) k in let! m := rd (u_mats s) (o_mat o) in let! c := rd (m_parts m) rank in Ok (c_nnz c).

  (** What a program does with operators: apply, transpose (which makes a new operator), and the two products (which make one as well). *)
  Inductive call : Type :=
  | CApply (k : nat) (trans : bool) (env : nat -> list nat * list K * list K) (owned : list (list nat)) (size : nat) (x y : list (list K))
  | CTranspose (k : nat)
  | CMultiply (a b : nat)
  | CMultiplyTranspose (a b : nat).
  (** One call and what it returns (nothing, except for apply). *)
  Definition call_step (debug : bool) (L : libraries) (s : cuda_state) (c : call) : outcome (cuda_state * list (list K)) :=
    match c with
    | CApply k trans env owned size x y => op_apply debug L s k trans env owned size x y
    | CTranspose k => let! s1 := op_transpose debug L s k in Ok (s1, [])
    | CMultiply a b => let! s1 := op_multiply debug L s a b in Ok (s1, [])
    | CMultiplyTranspose a b => let! s1 := op_multiply_transpose debug L s a b in Ok (s1, [])
    end.
  (** A program: the final state and the results of all calls. *)
  Fixpoint call_run (debug : bool) (L : libraries) (s : cuda_state) (cs : list call) : outcome (cuda_state * list (list (list K))) :=
    match cs with
    | [] => Ok (s, [])
    | c :: t =>
        let! (s1, y) := call_step debug L s c in
        let! (s2, ys) := call_run debug L s1 t in
        Ok (s2, y :: ys)
    end.
End CudaOp.
Arguments mkLibraries {K} _ _ _ _ _.
Arguments mkShared {K} _ _ _.
Arguments mkCuda {K} _ _.
Arguments CApply {K} _ _ _ _ _ _ _.
Arguments CTranspose {K} _.
Arguments CMultiply {K} _ _.
Arguments CMultiplyTranspose {K} _ _.
