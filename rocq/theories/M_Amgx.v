(** Model of the AMGX coarse solver: renumbering (source/cuda/utils.cu:206-303), communication maps and constructor, destructor, solve
    (source/cuda/cuda_solver.cu:108-515). Definitions only. One list element per MPI rank where a call is collective. Indices are natural numbers:
    int overflow and negative values are not modelled. *)
From Coq Require Import List Arith Bool.
From Verif Require Import Base OField M_Perm M_SpProd M_Csr.
Import ListNotations.
Set Implicit Arguments.
Open Scope nat_scope.

(** std::unordered_map<int, int>: (key, value) pairs, every key once; the order is that of an iteration (external). *)
Definition umap := list (nat * nat).
(** [m[k] = v] (external; utils.cu:236, 247, 264, 269). *)
Definition put (m : umap) (k v : nat) : umap := (k, v) :: filter (fun e : nat * nat => negb (fst e =? k)) m.
(** [m[k]] as a value: 0 for a new key (external; utils.cu:252, 277, 281, cuda_solver.cu:401-404). Simplified: a new key is not inserted; no key
    that is looked up is new in the theorems. *)
Definition get (m : umap) (k : nat) : nat := match find (fun e : nat * nat => fst e =? k) m with Some e => snd e | None => 0 end.
(** Membership in a set, index set or unordered_set of indices (external; utils.cu:245, 262, cuda_solver.cu:319, 370). *)
Definition mem (l : list nat) (i : nat) : bool := existsb (Nat.eqb i) l.

(** [for i < n_local_rows: halo_map[global_rows[i]] = i] (utils.cu:234-236). *)
Definition owned_map (range : list nat) : umap := fold_left (fun m (p : nat * nat) => put m (fst p) (snd p)) (combine range (seq 0 (length range))) [].
(** The loop over the column index set (utils.cu:242-250). *)
Fixpoint halo_loop (range cols : list nat) (next_free_id : nat) (m : umap) : umap :=
  match cols with
  | [] => m
  | index :: t => if negb (mem range index) then halo_loop range t (S next_free_id) (put m index next_free_id) else halo_loop range t next_free_id m
  end.
(** The loop that numbers the rows (utils.cu:260-272). *)
Fixpoint local_loop (rows_sent rows : list nat) (next_free_local_id next_free_id : nat) (m : umap) : umap :=
  match rows with
  | [] => m
  | i :: t => if negb (mem rows_sent i) then local_loop rows_sent t (S next_free_local_id) next_free_id (put m i next_free_local_id)
              else local_loop rows_sent t next_free_local_id (S next_free_id) (put m i next_free_id)
  end.
(** cusparseXcoo2csr for sorted row indices (external; utils.cu:295-297). *)
Definition coo2csr (rows : list nat) (n : nat) : list nat := map (fun r => length (filter (fun x => x <? r) rows)) (seq 0 (n + 1)).

(** The elements of std::set (external; cuda_solver.cu:367-374): increasing, each once. *)
Fixpoint set_insert (x : nat) (l : list nat) : list nat :=
  match l with
  | [] => [x]
  | y :: t => if x <? y then x :: l else if x =? y then l else y :: set_insert x t
  end.

Section Amgx.
  Variable K : ofield.

  (** csr_to_amgx (utils.cu:206-303). [std_sort] stands for std::sort. The copies to the host read local_nnz elements of each device array. The
      fuel of the permutation loops is the number of entries. Simplified: the subtraction in strictly_owned_rows is of natural numbers. *)
  Definition csr_to_amgx (debug : bool) (std_sort : (nat -> nat -> bool) -> list nat -> list nat) (rows_sent : list nat) (c : csr K)
    : outcome (umap * umap * csr K) :=
    let local_nnz := c_nnz c in
    let n_local_rows := length (c_range c) in
    let! value_host := slice (c_val c) 0 local_nnz in
    let! col_host := slice (c_col c) 0 local_nnz in
    let! row_host := slice (csr2coo (c_ptr c) n_local_rows) 0 local_nnz in
    let halo_map := halo_loop (c_range c) (index_set (c_n c) col_host) n_local_rows (owned_map (c_range c)) in
    let col1 := map (get halo_map) col_host in
    let strictly_owned_rows := n_local_rows - length rows_sent in
    let local_map := local_loop rows_sent (seq 0 n_local_rows) 0 strictly_owned_rows [] in
    let col2 := map (fun col => if col <? n_local_rows then get local_map col else col) col1 in
    let row2 := map (get local_map) row_host in
    let! permutation := sort_permutation debug std_sort row2 col2 in
    let! value3 := apply_permutation_in_place local_nnz permutation value_host in
    let! col3 := apply_permutation_in_place local_nnz permutation col2 in
    let! row3 := apply_permutation_in_place local_nnz permutation row2 in
    Ok (halo_map, local_map, mkCsr value3 col3 (coo2csr row3 n_local_rows) local_nnz (c_m c) (c_n c) (c_range c) (c_domain c)).

  (** sparsity_pattern_buffer (cuda_solver.cu:288-296). *)
  Definition pattern_buffer (c : csr K) : list nat := [length (c_range c); c_nnz c] ++ c_range c ++ firstn (c_nnz c) (c_col c).
  (** global_columns of rank i: the buffer from 2 + buffer[0] on (cuda_solver.cu:310-313). *)
  Definition columns_of (buffer : list nat) : list nat := skipn (2 + nth 0 buffer 0) buffer.
  (** The rows of rank i as read by the receive side (cuda_solver.cu:363-365). *)
  Definition rows_of (buffer : list nat) : list nat := firstn (nth 0 buffer 0) (skipn 2 buffer).
  (** The local rows sent to a rank with the given columns (cuda_solver.cu:314-322). *)
  Definition send_halo (range columns : list nat) : list nat :=
    filter (fun j => mem columns (nth j range 0)) (seq 0 (length range)).
  (** The set of columns received from a rank with the given rows (cuda_solver.cu:362-374). *)
  Definition recv_set (m : nat) (rows columns : list nat) : list nat :=
    fold_left (fun s col => if mem (index_set m rows) col then set_insert col s else s) columns [].
  (** The other ranks in the order of the loops (cuda_solver.cu:306-308, 357-359). *)
  Definition others (comm_size rank : nat) : list nat := filter (fun i => negb (i =? rank)) (seq 0 comm_size).

  (** What the constructor hands to AMGX, and what it keeps (cuda_solver.cu:300-441). *)
  Record amgx_data := mkAmgx { a_neighbors : list nat; a_send : list (list nat); a_recv : list (list nat); a_row_map : umap; a_matrix : csr K }.

  (** The part of the constructor from the sparsity pattern to the upload, on one rank (cuda_solver.cu:262-441). [patterns] is the result of
      all_gather. Simplified: the communicator of the matrix is MPI_COMM_WORLD; row_ptr_host is copied but not used and left out. *)
  Definition amgx_rank (debug : bool) (std_sort : (nat -> nat -> bool) -> list nat -> list nat) (patterns : list (list nat)) (rank : nat) (c : csr K)
    : outcome amgx_data :=
    let ranks := others (length patterns) rank in
    let sends := filter (fun p : nat * list nat => 0 <? length (snd p))
                        (map (fun i => (i, send_halo (c_range c) (columns_of (nth i patterns [])))) ranks) in
    let neighbors := map fst sends in
    let row_halo := map snd sends in
    let rows_sent := nodup Nat.eq_dec (concat row_halo) in
    let recv_halo := filter (fun l : list nat => 0 <? length l)
                            (map (fun i => recv_set (c_m c) (rows_of (nth i patterns [])) (firstn (c_nnz c) (c_col c))) ranks) in
    let! recv := mapM (rd recv_halo) (seq 0 (length neighbors)) in
    let! (halo_map, row_map, matrix) := csr_to_amgx debug std_sort rows_sent c in
    Ok (mkAmgx neighbors (map (map (get row_map)) row_halo) (map (map (get halo_map)) recv) row_map matrix).
  (** All ranks together. *)
  Definition amgx_setup (debug : bool) (std_sort : (nat -> nat -> bool) -> list nat -> list nat) (cs : list (csr K)) : outcome (list amgx_data) :=
    mapM (fun r => let! c := rd cs r in amgx_rank debug std_sort (map pattern_buffer cs) r c) (seq 0 (length cs)).

  (** [for pos : row_map: dst[pos.second] = src[pos.first]] (cuda_solver.cu:126-127, 169-170). *)
  Definition renumber (row_map : umap) (src dst : list K) : outcome (list K) :=
    foldM (fun d (pos : nat * nat) => let! v := rd src (fst pos) in wr d (snd pos) v) dst row_map.
  (** [for pos : row_map: dst[pos.first] = src[pos.second]] (cuda_solver.cu:147-148, 196-197). *)
  Definition number_back (row_map : umap) (src dst : list K) : outcome (list K) :=
    foldM (fun d (pos : nat * nat) => let! v := rd src (snd pos) in wr d (fst pos) v) dst row_map.

  (** amgx_solve for device vectors on all ranks (cuda_solver.cu:108-152). [solver] stands for AMGX: from the setup of all ranks, the uploaded
      right-hand sides and initial guesses to the solutions. Result: what the caller's b and x hold afterwards. *)
  Definition amgx_solve_cuda (solver : list amgx_data -> list (list K) -> list (list K) -> list (list K)) (datas : list amgx_data)
    (b x : list (list K)) : outcome (list (list K) * list (list K)) :=
    let n_local_rows r := length (c_range (a_matrix r)) in
    let! b1 := mapM (fun p : amgx_data * list K => let! val_host := slice (snd p) 0 (n_local_rows (fst p)) in renumber (a_row_map (fst p)) val_host val_host)
                    (combine datas b) in
    let sol := solver datas b1 x in
    let! x1 := mapM (fun p : amgx_data * list K => let! solution_host := slice (snd p) 0 (n_local_rows (fst p)) in
                                                   number_back (a_row_map (fst p)) solution_host solution_host)
                    (combine datas sol) in
    Ok (b1, x1).
  (** amgx_solve for host vectors (cuda_solver.cu:154-200): the device copies x_dev and b_dev are local, x_dev starts from zero. *)
  Definition amgx_solve_host (solver : list amgx_data -> list (list K) -> list (list K) -> list (list K)) (datas : list amgx_data)
    (b x : list (list K)) : outcome (list (list K)) :=
    let n_local_rows r := length (c_range (a_matrix r)) in
    let! b1 := mapM (fun p : amgx_data * list K => let! val_host := wr_at (repeat f0 (n_local_rows (fst p))) 0 (snd p) in
                                                   renumber (a_row_map (fst p)) val_host val_host)
                    (combine datas b) in
    let sol := solver datas b1 (map (fun l => repeat f0 (length l)) b) in
    mapM (fun p : (amgx_data * list K) * list K =>
            let! tmp := slice (snd (fst p)) 0 (n_local_rows (fst (fst p))) in number_back (a_row_map (fst (fst p))) tmp (snd p))
         (combine (combine datas sol) x).
End Amgx.
Arguments csr_to_amgx {K} debug std_sort rows_sent c.
Arguments pattern_buffer {K} c.
Arguments mkAmgx {K} _ _ _ _ _.
Arguments a_neighbors {K} _.
Arguments a_send {K} _.
Arguments a_recv {K} _.
Arguments a_row_map {K} _.
Arguments a_matrix {K} _.
Arguments amgx_rank {K} debug std_sort patterns rank c.
Arguments amgx_setup {K} debug std_sort cs.
Arguments renumber {K} row_map src dst.
Arguments number_back {K} row_map src dst.
Arguments amgx_solve_cuda {K} solver datas b x.
Arguments amgx_solve_host {K} solver datas b x.
