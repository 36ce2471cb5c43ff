(** Model of the device sparse matrix as data: conversions (source/cuda/utils.cu:22-204), gathering and product
    (include/mfmg/cuda/sparse_matrix_device.templates.cuh:25-138, 351-371; utils.cu:305-482) and the Jacobi smoother
    (source/cuda/cuda_smoother.cu:39-162). Definitions only. Ownership of the device buffers is in M_Dev.v. One list element per MPI rank where a
    call is collective. Indices are natural numbers: int and unsigned overflow is not modelled. *)
From Coq Require Import List Arith Bool.
From Verif Require Import Base OField M_SpProd.
Import ListNotations.
Set Implicit Arguments.
Open Scope nat_scope.

(** A loop over a list that carries a state and stops at the first failure (no counterpart in /repo). *)
Fixpoint foldM {A B} (f : B -> A -> outcome B) (b : B) (l : list A) : outcome B :=
  match l with
  | [] => Ok b
  | a :: t => let! b1 := f b a in foldM f b1 t
  end.
(** The n elements from pointer [data() + a] on; leaving the array is undefined (utils.cu:195-198). *)
Definition slice {A} (l : list A) (a n : nat) : outcome (list A) :=
  if a + n <=? length l then Ok (firstn n (skipn a l)) else UB.
(** Reading [column_index[i]] without a range check: inside the vector the element, outside whatever [over] says (utils.cu:73). *)
Definition rd_over {A} (over : nat -> outcome A) (l : list A) (i : nat) : outcome A :=
  match nth_error l i with Some a => Ok a | None => over i end.
(** internal::copy_to_gpu (utils.cu:22-36): debug assertion that the vector is not empty, then [&val[0]]. cudaMalloc and cudaMemcpy are external
    and taken to succeed. *)
Definition copy_to_gpu {A} (debug : bool) (l : list A) : outcome (list A) :=
  let! _ := assert_dbg debug (0 <? length l) in
  let! _ := rd l 0 in
  Ok l.
(** dealii::IndexSet(size) after add_indices(l) and compress() (external; utils.cu:129-138, 239-241): the members in increasing order. *)
Definition index_set (size : nat) (l : list nat) : list nat := filter (fun i => existsb (Nat.eqb i) l) (seq 0 size).
(** Threads of a kernel launch run one after the other in the order [sched]; every kernel modelled here writes at most one element per thread
    and reads only arrays that it does not write (no counterpart in /repo). *)
Definition launch {B} (sched : list nat) (body : nat -> B -> outcome B) (buffer : B) : outcome B :=
  foldM (fun b i => body i b) buffer sched.
(** mfmg::block_size (include/mfmg/cuda/utils.cuh:35). *)
Definition block_size : nat := 512.
(** Number of threads of [<<<1 + (size - 1) / block_size, block_size>>>] (sparse_matrix_device.templates.cuh:134-136, cuda_smoother.cu:142-153).
    Simplified: for size 0 the unsigned subtraction wraps and more blocks are launched; none of their threads does anything. *)
Definition n_threads (size : nat) : nat := (1 + (size - 1) / block_size) * block_size.
(** The iota kernel (source/cuda/dealii_operator_device_helpers.cu:259-264). *)
Definition iota (size value : nat) (i : nat) (data : list nat) : outcome (list nat) :=
  if i <? size then wr data i (i + value) else Ok data.
(** The displs loop of all_gather (utils.cu:317-319, 335-337, 355-357). *)
Fixpoint displs (from : nat) (counts : list nat) : list nat :=
  match counts with
  | [] => []
  | c :: t => from :: displs (from + c) t
  end.
(** A block of data is written into a buffer at a position; leaving the buffer is undefined (memcpy and MPI receive, no counterpart in /repo). *)
Definition wr_at {A} (buffer : list A) (off : nat) (l : list A) : outcome (list A) :=
  if off + length l <=? length buffer then Ok (firstn off buffer ++ l ++ skipn (off + length l) buffer) else UB.
(** all_gather (utils.cu:305-361): every rank's elements are received at its displacement. [buffer] is the content of recv_buffer before. *)
Definition all_gather {A} (parts : list (list A)) (buffer : list A) : outcome (list A) :=
  foldM (fun b (p : nat * list A) => wr_at b (fst p) (snd p)) buffer (combine (displs 0 (map (@length A) parts)) parts).
(** all_gather_dev (utils.cu:363-482): with one process a copy, otherwise all_gather, through host buffers of recv_count elements if MPI cannot
    read device memory. Simplified: the host buffer is initialised with the content of the device buffer instead of zeros. *)
Definition all_gather_dev {A} (parts : list (list A)) (buffer : list A) : outcome (list A) :=
  match parts with
  | [p] => wr_at buffer 0 p
  | _ => all_gather parts buffer
  end.

Section Csr.
  Variable K : ofield.

  (** The data of a SparseMatrixDevice on one rank (include/mfmg/cuda/sparse_matrix_device.cuh:92-103): val_dev, column_index_dev, row_ptr_dev,
      _local_nnz, the sizes m() and n() and the elements of the range and domain index sets. *)
  Record csr : Type := mkCsr {
    c_val : list K;
    c_col : list nat;
    c_ptr : list nat;
    c_nnz : nat;
    c_m : nat;
    c_n : nat;
    c_range : list nat;
    c_domain : list nat
  }.
  (** A dealii::SparseMatrix: sizes and, row by row, the stored (column, value) pairs in storage order (utils.cu:41-58). *)
  Record host_mat : Type := mkHost {
    h_m : nat;
    h_n : nat;
    h_rows : list (list (nat * K))
  }.
  (** One rank's part of a TrilinosWrappers::SparseMatrix (utils.cu:92-120): sizes, owned range and domain indices, the map from local to
      global columns (global_column_index, GCID) and the stored rows with local columns (ExtractMyRowView). *)
  Record trilinos : Type := mkTri {
    t_m : nat;
    t_n : nat;
    t_range : list nat;
    t_domain : list nat;
    t_colmap : list nat;
    t_rows : list (list (nat * K))
  }.

  (** The while loop that moves the entries below the diagonal to the left (utils.cu:72-78). [over] answers reads outside column_index.
      [fuel] bounds the iterations only. *)
  Fixpoint shift_left (fuel : nat) (over : nat -> outcome nat) (row offset counter : nat) (val : list K) (col : list nat) (pos : nat)
    : outcome (list K * list nat * nat) :=
    match fuel with
    | 0 => Fuel
    | S fuel' =>
        let! c := rd_over over col (offset + pos) in
        if (c <? row) && (pos <? counter) then
          let! v := rd val (offset + pos) in
          let! val1 := wr val (offset + pos - 1) v in
          let! d := rd col (offset + pos) in
          let! col1 := wr col (offset + pos - 1) d in
          shift_left fuel' over row offset counter val1 col1 (S pos)
        else Ok (val, col, pos)
    end.
  (** One pass of the row loop (utils.cu:52-82). The state is val, column_index, row_ptr. diag_element(row) is the first stored entry of the row
      (external). *)
  Definition convert_row (over : nat -> outcome nat) (square : bool) (state : list K * list nat * list nat) (row : nat * list (nat * K))
    : outcome (list K * list nat * list nat) :=
    let '(val0, col0, ptr0) := state in
    let val := val0 ++ map snd (snd row) in
    let col := col0 ++ map fst (snd row) in
    let counter := length (snd row) in
    let! p := rd ptr0 (fst row) in
    let! ptr := wr ptr0 (fst row + 1) (p + counter) in
    if square then
      let! offset := rd ptr (fst row) in
      let! diag_index := rd col offset in
      let! diag_elem := rd (map snd (snd row)) 0 in
      let! (val1, col1, pos) := shift_left (S counter) over (fst row) offset counter val col 1 in
      let! val2 := wr val1 (offset + pos - 1) diag_elem in
      let! col2 := wr col1 (offset + pos - 1) diag_index in
      Ok (val2, col2, ptr)
    else Ok (val, col, ptr).
  (** convert_matrix(dealii::SparseMatrix) (utils.cu:39-89). *)
  Definition convert_dealii (debug : bool) (over : nat -> outcome nat) (h : host_mat) : outcome csr :=
    let! (val, col, ptr) := foldM (convert_row over (h_m h =? h_n h)) ([], [], repeat 0 (h_m h + 1)) (combine (seq 0 (h_m h)) (h_rows h)) in
    let! val_dev := copy_to_gpu debug val in
    let! col_dev := copy_to_gpu debug col in
    let! ptr_dev := copy_to_gpu debug ptr in
    Ok (mkCsr val_dev col_dev ptr_dev (length (concat (h_rows h))) (h_m h) (h_n h) (seq 0 (h_m h)) (seq 0 (h_n h))).

  (** One pass of the row loop of convert_matrix for Trilinos matrices (utils.cu:99-114). *)
  Definition convert_tri_row (colmap : list nat) (state : list K * list nat * list nat) (row : nat * list (nat * K))
    : outcome (list K * list nat * list nat) :=
    let '(val0, col0, ptr0) := state in
    let! p := rd ptr0 (fst row) in
    let! ptr := wr ptr0 (fst row + 1) (p + length (snd row)) in
    let! columns := mapM (fun e : nat * K => rd colmap (fst e)) (snd row) in
    Ok (val0 ++ map snd (snd row), col0 ++ columns, ptr).
  (** convert_matrix(TrilinosWrappers::SparseMatrix) on one rank (utils.cu:91-121); local_size() is the number of owned rows. *)
  Definition convert_trilinos (debug : bool) (t : trilinos) : outcome csr :=
    let! (val, col, ptr) :=
      foldM (convert_tri_row (t_colmap t)) ([], [], repeat 0 (length (t_range t) + 1)) (combine (seq 0 (length (t_range t))) (t_rows t)) in
    let! val_dev := copy_to_gpu debug val in
    let! col_dev := copy_to_gpu debug col in
    let! ptr_dev := copy_to_gpu debug ptr in
    Ok (mkCsr val_dev col_dev ptr_dev (length (concat (t_rows t))) (t_m t) (t_n t) (t_range t) (t_domain t)).
  (** convert_matrix(Epetra_CrsMatrix) on one rank (utils.cu:123-168): the index sets are rebuilt from the maps, the arrays are taken as they are
      stored (ExtractCrsDataPointers, external: the rows one after the other), only the columns go through copy_to_gpu. *)
  Definition convert_epetra (debug : bool) (t : trilinos) : outcome csr :=
    let! col := mapM (fun e : nat * K => rd (t_colmap t) (fst e)) (concat (t_rows t)) in
    let! col_dev := copy_to_gpu debug col in
    Ok (mkCsr (map snd (concat (t_rows t))) col_dev
          (displs 0 (map (@length (nat * K)) (t_rows t)) ++ [length (concat (t_rows t))])
          (length (concat (t_rows t))) (t_m t) (t_n t) (index_set (t_m t) (t_range t)) (index_set (t_n t) (t_domain t))).
  (** The arguments of one call of set (utils.cu:194-198). *)
  Definition set_arguments (c : csr) (pos : nat) : outcome (list (nat * K)) :=
    let! a := rd (c_ptr c) pos in
    let! b := rd (c_ptr c) (pos + 1) in
    if b <? a then UB else
    let! columns := slice (c_col c) a (b - a) in
    let! values := slice (c_val c) a (b - a) in
    Ok (combine columns values).
  (** convert_to_trilinos_matrix (utils.cu:170-204). [fill] stands for set and compress(insert) (external): from the owned domain indices and the
      inserted rows with global columns it makes a column map and rows with local columns. *)
  Definition convert_to_trilinos (fill : list nat -> list (list (nat * K)) -> list nat * list (list (nat * K))) (c : csr) : outcome trilinos :=
    let! rows := mapM (set_arguments c) (seq 0 (length (c_range c))) in
    Ok (mkTri (c_m c) (c_n c) (c_range c) (c_domain c) (fst (fill (c_domain c) rows)) (snd (fill (c_domain c) rows))).

  (** The reorder_vector kernel (sparse_matrix_device.templates.cuh:25-32). *)
  Definition reorder_vector (size : nat) (src : list K) (indices : list nat) (i : nat) (dst : list K) : outcome (list K) :=
    if i <? size then
      let! j := rd indices i in
      let! v := rd src i in
      wr dst j v
    else Ok dst.
  (** gather_vector (sparse_matrix_device.templates.cuh:104-138), as seen by one rank: [values] and [owned] are the local values and owned
      indices of every rank, [garbage] and [dst] the uninitialised contents of dst_buffer and of the destination. std::vector indices starts with
      zeros. *)
  Definition gather_vector (sched : list nat) (values : list (list K)) (owned : list (list nat)) (size : nat) (garbage dst : list K)
    : outcome (list K) :=
    let! dst_buffer := all_gather_dev values garbage in
    let! indices := all_gather owned (repeat 0 size) in
    launch sched (reorder_vector size dst_buffer indices) dst.
  (** cusparseDcsrmv for one row, alpha = 1, beta = 0 (external; sparse_matrix_device.templates.cuh:53-70). *)
  Definition csrmv_row (c : csr) (x : list K) (r : nat) : outcome K :=
    let! entries := set_arguments c r in
    let! products := mapM (fun e : nat * K => let! v := rd x (fst e) in Ok (fmul (snd e) v)) entries in
    Ok (lsum products).
  (** SparseMatrixDevice::vmult on one rank (sparse_matrix_device.templates.cuh:351-371); [dst] is the local part of the destination. *)
  Definition vmult (c : csr) (sched : list nat) (values : list (list K)) (owned : list (list nat)) (size : nat) (garbage1 garbage2 dst : list K)
    : outcome (list K) :=
    let! src := gather_vector sched values owned size garbage1 garbage2 in
    let! y := mapM (csrmv_row c src) (seq 0 (length (c_range c))) in
    wr_at dst 0 y.

  (** cusparseXcsr2coo (external; cuda_smoother.cu:137-140, utils.cu:217-220): the row of every stored entry. *)
  Definition csr2coo (ptr : list nat) (n_rows : nat) : list nat :=
    flat_map (fun r => repeat r (nth (S r) ptr 0 - nth r ptr 0)) (seq 0 n_rows).
  (** The extract_inv_diag kernel (cuda_smoother.cu:86-96). *)
  Definition extract_inv_diag (val : list K) (col row : list nat) (size : nat) (idx : nat) (value : list K) : outcome (list K) :=
    if idx <? size then
      let! c := rd col idx in
      let! r := rd row idx in
      if c =? r then
        let! v := rd val idx in
        wr value c (fdiv f1 v)
      else Ok value
    else Ok value.
  (** The constructor of CudaSmoother from the assertion on (cuda_smoother.cu:118-159), on one rank: the three kernels with their schedules and the
      uninitialised contents of the buffers. *)
  Definition cuda_smoother (debug : bool) (c : csr) (sched1 sched2 sched3 : list nat) (garbage : list K) (garbage_col garbage_ptr : list nat)
    : outcome csr :=
    let! _ := assert_dbg debug (c_m c =? c_n c) in
    let size := length (c_range c) in
    let row_index := csr2coo (c_ptr c) size in
    let! val := launch sched1 (extract_inv_diag (c_val c) (c_col c) row_index (c_nnz c)) garbage in
    let! first := rd (c_range c) 0 in
    let! col := launch sched2 (iota size first) garbage_col in
    let! ptr := launch sched3 (iota (size + 1) 0) garbage_ptr in
    Ok (mkCsr val col ptr size (c_m c) (c_m c) (c_range c) (c_range c)).

  (** vmult on all ranks: one schedule and one set of uninitialised buffers per rank (sparse_matrix_device.templates.cuh:351-371). *)
  Definition vmult_all (cs : list csr) (env : nat -> list nat * list K * list K) (owned : list (list nat)) (size : nat) (values dst : list (list K))
    : outcome (list (list K)) :=
    mapM (fun r => let! c := rd cs r in
                   let! d := rd dst r in
                   vmult c (fst (fst (env r))) values owned size (snd (fst (env r))) (snd (env r)) d) (seq 0 (length cs)).
  (** SmootherOperator::apply (cuda_smoother.cu:39-60): r = A x - b, tmp = S r, x -= tmp, on all ranks; [env1] and [env2] are the environments of
      the two products. *)
  Definition device_smoother_apply (cs ss : list csr) (env1 env2 : nat -> list nat * list K * list K) (owned : list (list nat)) (size : nat)
    (b x : list (list K)) : outcome (list (list K)) :=
    let! r := vmult_all cs env1 owned size x b in
    let r1 := map (fun p : list K * list K => vaxpy (fopp f1) (snd p) (fst p)) (combine r b) in
    let! tmp := vmult_all ss env2 owned size r1 x in
    Ok (map (fun p : list K * list K => vaxpy (fopp f1) (snd p) (fst p)) (combine x tmp)).
End Csr.
Arguments mkCsr {K} _ _ _ _ _ _ _ _.
Arguments c_val {K} _.
Arguments c_col {K} _.
Arguments c_ptr {K} _.
Arguments c_nnz {K} _.
Arguments c_m {K} _.
Arguments c_n {K} _.
Arguments c_range {K} _.
Arguments c_domain {K} _.
Arguments mkHost {K} _ _ _.
Arguments h_m {K} _.
Arguments h_n {K} _.
Arguments h_rows {K} _.
Arguments mkTri {K} _ _ _ _ _ _.
Arguments t_m {K} _.
Arguments t_n {K} _.
Arguments t_range {K} _.
Arguments t_domain {K} _.
Arguments t_colmap {K} _.
Arguments t_rows {K} _.
Arguments shift_left {K} fuel over row offset counter val col pos.
Arguments convert_row {K} over square state row.
Arguments convert_dealii {K} debug over h.
Arguments convert_tri_row {K} colmap state row.
Arguments convert_trilinos {K} debug t.
Arguments convert_epetra {K} debug t.
Arguments set_arguments {K} c pos.
Arguments convert_to_trilinos {K} fill c.
Arguments reorder_vector {K} size src indices i dst.
Arguments gather_vector {K} sched values owned size garbage dst.
Arguments csrmv_row {K} c x r.
Arguments vmult {K} c sched values owned size garbage1 garbage2 dst.
Arguments extract_inv_diag {K} val col row size idx value.
Arguments cuda_smoother {K} debug c sched1 sched2 sched3 garbage garbage_col garbage_ptr.
Arguments vmult_all {K} cs env owned size values dst.
Arguments device_smoother_apply {K} cs ss env1 env2 owned size b x.
