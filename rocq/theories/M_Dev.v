(** Model of the device memory that SparseMatrixDevice objects own: constructors, destructor, move assignment, reinit, vmult and mmult
    (include/mfmg/cuda/sparse_matrix_device.templates.cuh:104-138, 141-335, 351-434; include/mfmg/cuda/utils.cuh:66-79). Definitions only.
    One MPI rank. What the numbers in the buffers mean is in M_Csr.v. *)
From Coq Require Import List Arith Bool.
From Verif Require Import Base OField M_Csr.
Import ListNotations.
Set Implicit Arguments.
Open Scope nat_scope.

(** A pointer; None is nullptr (sparse_matrix_device.cuh:93-97). *)
Definition pointer := option nat.
(** The marker for memory that is used or released after its release, or released twice. None of the modelled functions throws a C++ exception, so
    that Throw means this and nothing else here (no line in /repo). *)
Definition dead {A : Type} : outcome A := Throw.
(** A failed call of the CUDA runtime or of cuSPARSE: ASSERT_CUDA and ASSERT_CUSPARSE abort in debug builds; in release builds the program goes on
    with a buffer that was never written, which is left undefined (include/mfmg/common/exceptions.hpp:204-228). *)
Definition failed_call {A : Type} (debug : bool) : outcome A := if debug then Abort else UB.

Section Dev.
  Variable K : ofield.

  (** The content of one device allocation: values, indices, a matrix descriptor, or nothing written yet (cudaMalloc, cusparseCreateMatDescr). *)
  Inductive cell : Type := CVals (l : list K) | CInts (l : list nat) | CDescr | CJunk.
  (** The live allocations by their number, and the next number (external: the CUDA allocator; every allocation is taken to succeed). *)
  Record heap : Type := mkHeap { h_next : nat; h_cells : list (nat * cell) }.
  (** The content of a live allocation (no line in /repo: what dereferencing a device pointer means). *)
  Definition lookup (h : heap) (id : nat) : option cell := option_map snd (find (fun p : nat * cell => fst p =? id) (h_cells h)).
  (** cudaMalloc of a positive size or cusparseCreateMatDescr (utils.cuh:75-79, sparse_matrix_device.templates.cuh:198). *)
  Definition alloc (c : cell) (h : heap) : pointer * heap := (Some (h_next h), mkHeap (S (h_next h)) ((h_next h, c) :: h_cells h)).
  (** The allocations other than one (no line in /repo). *)
  Definition without (id : nat) (h : heap) : list (nat * cell) := filter (fun p : nat * cell => negb (fst p =? id)) (h_cells h).
  (** cudaFree or cusparseDestroyMatDescr of a non-null pointer (utils.cuh:66-72, sparse_matrix_device.templates.cuh:268). *)
  Definition release (id : nat) (h : heap) : outcome heap :=
    match lookup h id with Some _ => Ok (mkHeap (h_next h) (without id h)) | None => dead end.
  (** A library call writes a whole buffer (no line in /repo: cusparseXcsrgemmNnz and cusparseDcsrgemm fill the arrays of C). *)
  Definition store (id : nat) (c : cell) (h : heap) : outcome heap :=
    match lookup h id with Some _ => Ok (mkHeap (h_next h) ((id, c) :: without id h)) | None => dead end.
  (** cuda_malloc for values (utils.cuh:75-79): for no elements cudaMalloc returns nullptr. The elements are written right after the allocation
      everywhere in the code; here they are the initial content. *)
  Definition malloc_vals (l : list K) (h : heap) : pointer * heap := match l with [] => (None, h) | _ => alloc (CVals l) h end.
  (** cuda_malloc for indices (utils.cuh:75-79). *)
  Definition malloc_ints (l : list nat) (h : heap) : pointer * heap := match l with [] => (None, h) | _ => alloc (CInts l) h end.
  (** cuda_malloc of n elements that are not written yet (utils.cuh:75-79). *)
  Definition malloc_junk (n : nat) (h : heap) : pointer * heap := match n with 0 => (None, h) | _ => alloc CJunk h end.
  (** cuda_free (utils.cuh:66-72): cudaFree(nullptr) does nothing; the destructor tests for nullptr first (sparse_matrix_device.templates.cuh:247-271). *)
  Definition cuda_free (p : pointer) (h : heap) : outcome heap := match p with None => Ok h | Some id => release id h end.
  (** Writing a buffer of which the pointer may be null because it has no elements (no line in /repo). *)
  Definition store_at (p : pointer) (c : cell) (h : heap) : outcome heap := match p with None => Ok h | Some id => store id c h end.
  (** Reading n values from a pointer: cudaMemcpy (sparse_matrix_device.templates.cuh:177-181) or a cuSPARSE kernel. No elements: nothing happens.
      A null pointer makes the call fail. Unwritten or too short memory is undefined. *)
  Definition read_vals (debug : bool) (h : heap) (p : pointer) (n : nat) : outcome (list K) :=
    if n =? 0 then Ok [] else
    match p with
    | None => failed_call debug
    | Some id => match lookup h id with
                 | None => dead
                 | Some (CVals l) => if n <=? length l then Ok (firstn n l) else UB
                 | Some _ => UB
                 end
    end.
  (** Reading n indices from a pointer, as above (sparse_matrix_device.templates.cuh:184-194). *)
  Definition read_ints (debug : bool) (h : heap) (p : pointer) (n : nat) : outcome (list nat) :=
    if n =? 0 then Ok [] else
    match p with
    | None => failed_call debug
    | Some id => match lookup h id with
                 | None => dead
                 | Some (CInts l) => if n <=? length l then Ok (firstn n l) else UB
                 | Some _ => UB
                 end
    end.
  (** A descriptor is passed to cuSPARSE: nullptr makes the call fail (sparse_matrix_device.templates.cuh:389-394). *)
  Definition read_descr (debug : bool) (h : heap) (p : pointer) : outcome unit :=
    match p with None => failed_call debug | Some id => match lookup h id with None => dead | Some _ => Ok tt end end.

  (** The members of a SparseMatrixDevice (sparse_matrix_device.cuh:92-104). The handle is only null or not: it belongs to the user. _local_nnz and
      _nnz are None while uninitialised. m() and n() are the sizes of the index sets. _comm is left out. *)
  Record device : Type := mkDevice {
    d_val : pointer; d_col : pointer; d_ptr : pointer; d_handle : bool; d_descr : pointer; d_lnnz : option nat; d_nnz : option nat;
    d_m : nat; d_n : nat; d_range : list nat; d_domain : list nat }.
  (** The default constructor (sparse_matrix_device.templates.cuh:141-146): _local_nnz and _nnz stay uninitialised. *)
  Definition default_device : device := mkDevice None None None false None None None 0 0 [] [].
  (** What a move leaves behind (sparse_matrix_device.templates.cuh:157-167, 288-298). *)
  Definition moved_from : device := mkDevice None None None false None (Some 0) (Some 0) 0 0 [] [].
  (** The device memory and the objects by their number; None once destroyed (no line in /repo: the state of the program). *)
  Record state : Type := mkState { s_heap : heap; s_objects : list (option device) }.
  (** At the start nothing is allocated. *)
  Definition start : state := mkState (mkHeap 0 []) [].

  (** Members are read: an uninitialised one is undefined (sparse_matrix_device.templates.cuh:153, 174). *)
  Definition known (n : option nat) : outcome nat := match n with Some x => Ok x | None => UB end.
  (** An object of the program; using one that does not exist or is destroyed is an error of the program and left undefined. *)
  Definition object (s : state) (i : nat) : outcome device := match nth_error (s_objects s) i with Some (Some d) => Ok d | _ => UB end.

  (** Three buffers with the data of c are allocated, as convert_matrix does (source/cuda/utils.cu:84-88, 116-120, 140-167). *)
  Definition new_buffers (c : csr K) (h : heap) : pointer * pointer * pointer * heap :=
    let (val, h1) := malloc_vals (c_val c) h in
    let (col, h2) := malloc_ints (c_col c) h1 in
    let (ptr, h3) := malloc_ints (c_ptr c) h2 in
    (val, col, ptr, h3).
  (** The constructor from buffers without handle (sparse_matrix_device.templates.cuh:207-220); the result of MPI::sum is not used. *)
  Definition device_of (c : csr K) (val col ptr : pointer) : device :=
    mkDevice val col ptr false None (Some (c_nnz c)) (Some (c_nnz c)) (c_m c) (c_n c) (c_range c) (c_domain c).
  (** A handle is set and a descriptor created (sparse_matrix_device.templates.cuh:232-241, 319-327; source/cuda/cuda_matrix_operator.cu:113-122). *)
  Definition attach (d : device) (h : heap) : device * heap :=
    let (descr, h1) := alloc CDescr h in
    (mkDevice (d_val d) (d_col d) (d_ptr d) true descr (d_lnnz d) (d_nnz d) (d_m d) (d_n d) (d_range d) (d_domain d), h1).
  (** Both constructors from buffers (sparse_matrix_device.templates.cuh:207-242). *)
  Definition construct (c : csr K) (with_handle : bool) (h : heap) : device * heap :=
    let '(val, col, ptr, h1) := new_buffers c h in
    if with_handle then attach (device_of c val col ptr) h1 else (device_of c val col ptr, h1).
  (** The data of a matrix as it is read from the device; used by the copy constructor, by convert_to_trilinos_matrix (utils.cu:179-187) and by
      cuSPARSE. *)
  Definition contents (debug : bool) (h : heap) (d : device) : outcome (csr K) :=
    let! nnz := known (d_lnnz d) in
    let! val := read_vals debug h (d_val d) nnz in
    let! col := read_ints debug h (d_col d) nnz in
    let! ptr := read_ints debug h (d_ptr d) (length (d_range d) + 1) in
    Ok (mkCsr val col ptr nnz (d_m d) (d_n d) (d_range d) (d_domain d)).
  (** The copy constructor (sparse_matrix_device.templates.cuh:170-205): new buffers, the same handle, a new descriptor. *)
  Definition copy_construct (debug : bool) (d : device) (h : heap) : outcome (device * heap) :=
    let! nnz := known (d_nnz d) in
    let! c := contents debug h d in
    let '(val, col, ptr, h1) := new_buffers c h in
    let (descr, h2) := alloc CDescr h1 in
    Ok (mkDevice val col ptr (d_handle d) descr (d_lnnz d) (d_nnz d) (d_m d) (d_n d) (d_range d) (d_domain d), h2).
  (** The destructor (sparse_matrix_device.templates.cuh:244-272). *)
  Definition destroy (d : device) (h : heap) : outcome heap :=
    let! h1 := cuda_free (d_val d) h in
    let! h2 := cuda_free (d_col d) h1 in
    let! h3 := cuda_free (d_ptr d) h2 in
    cuda_free (d_descr d) h3.
  (** The members that move construction and move assignment take over (sparse_matrix_device.templates.cuh:148-156, 277-287): reading an uninitialised
      count is undefined. *)
  Definition take (d : device) : outcome device := let! _ := known (d_lnnz d) in let! _ := known (d_nnz d) in Ok d.

  (** vmult (sparse_matrix_device.templates.cuh:351-371) with gather_vector (104-138), as far as memory is concerned, for a source of [size]
      elements: src_val_dev, dst_buffer and indices_dev are allocated, dst_buffer is freed. With a null handle or descriptor csrmv fails, which in
      release builds leaves the result as it was. *)
  Definition vmult_memory (debug : bool) (d : device) (size : nat) (h : heap) : outcome heap :=
    let (src_val_dev, h1) := malloc_junk size h in
    let (dst_buffer, h2) := malloc_junk size h1 in
    let (indices_dev, h3) := malloc_junk size h2 in
    let! h4 := cuda_free dst_buffer h3 in
    if d_handle d && (match d_descr d with Some _ => true | None => false end) then
      let! _ := read_descr debug h4 (d_descr d) in
      let! _ := contents debug h4 d in
      Ok h4
    else if debug then Abort else Ok h4.

  (** mmult on one process (sparse_matrix_device.templates.cuh:388-414) for objects number a, b and c (which may be the same). [gemm] is the product
      computed by cuSPARSE (external). The first call of cuSPARSE reads only the patterns of A and B; here it reads their values as well, which at this
      point are released in no case. A failing call leaves C unusable. *)
  Definition mmult_serial (debug : bool) (gemm : csr K -> csr K -> csr K) (s : state) (a b c : nat) : outcome state :=
    let! da := object s a in
    let! db := object s b in
    let! dc := object s c in
    let! h1 := cuda_free (d_ptr dc) (s_heap s) in
    let (ptr, h2) := malloc_junk (length (d_range da) + 1) h1 in
    let dc1 := mkDevice (d_val dc) (d_col dc) ptr (d_handle dc) (d_descr dc) (d_lnnz dc) (d_nnz dc) (d_m dc) (d_n dc) (d_range dc) (d_domain dc) in
    let s2 := mkState h2 (upd (s_objects s) c (Some dc1)) in
    let! da2 := object s2 a in
    let! db2 := object s2 b in
    if negb (d_handle da2) then failed_call debug else
    let! _ := read_descr debug h2 (d_descr da2) in
    let! _ := read_descr debug h2 (d_descr db2) in
    let! _ := read_descr debug h2 (d_descr dc1) in
    let! ca := contents debug h2 da2 in
    let! cb := contents debug h2 db2 in
    let r := gemm ca cb in
    let! h3 := store_at ptr (CInts (c_ptr r)) h2 in
    let! h4 := cuda_free (d_val dc1) h3 in
    let! h5 := cuda_free (d_col dc1) h4 in
    let (val, h6) := malloc_junk (c_nnz r) h5 in
    let (col, h7) := malloc_junk (c_nnz r) h6 in
    let dc2 := mkDevice val col ptr (d_handle dc1) (d_descr dc1) (Some (c_nnz r)) (Some (c_nnz r)) (d_m da2) (d_n db2) (d_range da2) (d_domain db2) in
    let s3 := mkState h7 (upd (s_objects s2) c (Some dc2)) in
    let! da3 := object s3 a in
    let! db3 := object s3 b in
    let! _ := contents debug h7 da3 in
    let! _ := contents debug h7 db3 in
    let! h8 := store_at val (CVals (c_val r)) h7 in
    let! h9 := store_at col (CInts (c_col r)) h8 in
    Ok (mkState h9 (s_objects s3)).
  (** mmult on several processes (sparse_matrix_device.templates.cuh:416-433); [r] is this rank's part of the product computed by Trilinos (external).
      The temporary that convert_matrix returns is moved into C, so that its destructor has nothing to release. *)
  Definition mmult_parallel (debug : bool) (s : state) (a b c : nat) (r : csr K) : outcome state :=
    let! da := object s a in
    let! db := object s b in
    let! dc := object s c in
    let! _ := contents debug (s_heap s) da in
    let! _ := contents debug (s_heap s) db in
    let (d, h1) := construct r false (s_heap s) in
    Ok (mkState h1 (upd (s_objects s) c (Some (mkDevice (d_val d) (d_col d) (d_ptr d) (d_handle dc) (d_descr dc) (d_lnnz d) (d_nnz d) (d_m d) (d_n d)
                                                 (d_range d) (d_domain d))))).

  (** What a program does with device matrices. In OMult the last argument is None on one process. *)
  Inductive op : Type :=
  | ODefault | ONew (c : csr K) (with_handle : bool) | OCopy (i : nat) | OMove (i : nat) | OAssign (i j : nat) | OReinit (i : nat) (c : csr K)
  | OAttach (i : nat) | OVmult (i size : nat) | OMult (a b c : nat) (parallel : option (csr K)) | ODelete (i : nat).
  (** One step. The sources are those of the functions above; move constructor and assignment sparse_matrix_device.templates.cuh:148-168, 274-301
      (the members of other are cleared after they have been taken over, also if other is the same object), reinit 303-335. *)
  Definition step (debug : bool) (gemm : csr K -> csr K -> csr K) (s : state) (o : op) : outcome state :=
    match o with
    | ODefault => Ok (mkState (s_heap s) (s_objects s ++ [Some default_device]))
    | ONew c w => let (d, h) := construct c w (s_heap s) in Ok (mkState h (s_objects s ++ [Some d]))
    | OCopy i => let! d := object s i in
                 let! (d', h) := copy_construct debug d (s_heap s) in
                 Ok (mkState h (s_objects s ++ [Some d']))
    | OMove i => let! d := object s i in
                 let! d' := take d in
                 Ok (mkState (s_heap s) (upd (s_objects s) i (Some moved_from) ++ [Some d']))
    | OAssign i j => let! _ := object s i in
                     let! d := object s j in
                     let! d' := take d in
                     Ok (mkState (s_heap s) (upd (upd (s_objects s) i (Some d')) j (Some moved_from)))
    | OReinit i c => let! d := object s i in
                     let! _ := assert_dbg debug (match d_val d, d_col d, d_ptr d with None, None, None => true | _, _, _ => false end) in
                     let (d', h) := construct c true (s_heap s) in
                     Ok (mkState h (upd (s_objects s) i (Some d')))
    | OAttach i => let! d := object s i in
                   let (d', h) := attach d (s_heap s) in
                   Ok (mkState h (upd (s_objects s) i (Some d')))
    | OVmult i size => let! d := object s i in
                       let! h := vmult_memory debug d size (s_heap s) in
                       Ok (mkState h (s_objects s))
    | OMult a b c parallel =>
        let! da := object s a in
        let! db := object s b in
        let! _ := assert_dbg debug (d_m db =? d_n da) in
        match parallel with None => mmult_serial debug gemm s a b c | Some r => mmult_parallel debug s a b c r end
    | ODelete i => let! d := object s i in
                   let! h := destroy d (s_heap s) in
                   Ok (mkState h (upd (s_objects s) i None))
    end.
  (** A whole program. *)
  Fixpoint run (debug : bool) (gemm : csr K -> csr K -> csr K) (s : state) (ops : list op) : outcome state :=
    match ops with
    | [] => Ok s
    | o :: t => let! s' := step debug gemm s o in run debug gemm s' t
    end.
End Dev.
Arguments CVals {K} _.
Arguments CInts {K} _.
Arguments CDescr {K}.
Arguments CJunk {K}.
Arguments ODefault {K}.
Arguments ONew {K} _ _.
Arguments OCopy {K} _.
Arguments OMove {K} _.
Arguments OAssign {K} _ _.
Arguments OReinit {K} _ _.
Arguments OAttach {K} _.
Arguments OVmult {K} _ _.
Arguments OMult {K} _ _ _ _.
Arguments ODelete {K} _.
Arguments start {K}.
