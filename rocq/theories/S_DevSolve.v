(** Specification of the direct coarse solvers, independent of M_DevSolve's programs. *)
From Coq Require Import String List Arith Bool.
From Verif Require Import Base OField Mat M_Csr S_Csr M_Dev S_CudaOp S_Eig M_DevSolve.
Import ListNotations.
Set Implicit Arguments.
Open Scope nat_scope.

Section S.
  Variable K : ofield.
  Implicit Types A : mat K.
  (** Only zero is mapped to zero. *)
  Definition regular A : Prop := forall x, length x = nc A -> mulvec A x = @vzero K (nr A) -> x = @vzero K (nc A).
  (** Symmetric positive definite. *)
  Definition spd A : Prop := symmetric_matrix A /\ forall x, length x = nc A -> x <> @vzero K (nc A) -> (0 < dot (mulvec A x) x)%K.
  (** The n by n matrix stored row by row, and the one stored in one array column by column. *)
  Definition rows_matrix (n : nat) (rows : list (list (nat * K))) : mat K := mkMat n n (fun i j => entry (nth i rows []) j).
  Definition columns_matrix (n : nat) (a : list K) : mat K := mkMat n n (fun i j => nth (i + j * n) a f0).
  (** Every stored row has each column at most once and only columns below n. *)
  Definition proper_rows (n : nat) (rows : list (list (nat * K))) : Prop :=
    length rows = n /\ forall row, In row rows -> simple_row row /\ forall e, In e row -> fst e < n.

  (** What cuSOLVER promises: the solvers solve the systems of regular (for cholesky: symmetric positive definite) matrices and report the others. *)
  Record solver_library_ok (Y : solver_library K) : Prop := {
    yo_chol : forall n rows b x, proper_rows n rows -> length b = n -> length x = n -> symmetric_matrix (rows_matrix n rows) ->
      (spd (rows_matrix n rows) -> snd (y_chol Y n rows b x) = true /\ mulvec (rows_matrix n rows) (fst (y_chol Y n rows b x)) = b) /\
      (~ spd (rows_matrix n rows) -> snd (y_chol Y n rows b x) = false) /\ length (fst (y_chol Y n rows b x)) = n;
    yo_splu : forall n rows b x, proper_rows n rows -> length b = n -> length x = n ->
      (regular (rows_matrix n rows) -> snd (y_splu Y n rows b x) = true /\ mulvec (rows_matrix n rows) (fst (y_splu Y n rows b x)) = b) /\
      (~ regular (rows_matrix n rows) -> snd (y_splu Y n rows b x) = false) /\ length (fst (y_splu Y n rows b x)) = n;
    yo_work : forall n a, 0 < n -> 0 < y_work Y n a;
    yo_lu : forall n a, length a = n * n ->
      length (fst (fst (y_getrf Y n a))) = n * n /\ length (snd (fst (y_getrf Y n a))) = n /\
      (~ regular (columns_matrix n a) -> snd (y_getrf Y n a) <> 0) /\
      (regular (columns_matrix n a) -> snd (y_getrf Y n a) = 0 /\
         forall b, length b = n ->
           let s := y_getrs Y n (fst (fst (y_getrf Y n a))) (snd (fst (y_getrf Y n a))) b in
           snd s = 0 /\ length (fst s) = n /\ mulvec (columns_matrix n a) (fst s) = b)
  }.

  (** The names of the direct solvers and what they need of the matrix. *)
  Definition direct_solvable (solver : string) A : Prop :=
    (solver = "cholesky"%string /\ spd A) \/ ((solver = "lu_dense"%string \/ solver = "lu_sparse_host"%string) /\ regular A).
  (** The one a debug build refuses. *)
  Definition direct_unsolvable (solver : string) A : Prop :=
    (solver = "cholesky"%string /\ symmetric_matrix A /\ ~ spd A) \/
    ((solver = "lu_dense"%string \/ solver = "lu_sparse_host"%string) /\ ~ regular A).
  (** The stored rows have each column at most once. *)
  Definition columns_once (c : csr K) : Prop := forall rows, csr_holds c rows -> forall row, In row rows -> simple_row row.
  (** The device memory is as before: the same allocations with the same contents. *)
  Definition same_memory (h h' : heap K) : Prop := forall id, lookup h' id = lookup h id.
  (** Allocation numbers are below the next one (every state of the allocator has this). *)
  Definition allocator_ok (h : heap K) : Prop := forall id, h_next h <= id -> lookup h id = None.
End S.
Arguments regular {K} A.
Arguments spd {K} A.
Arguments rows_matrix {K} n rows.
Arguments columns_matrix {K} n a.
Arguments proper_rows {K} n rows.
Arguments solver_library_ok {K} Y.
Arguments direct_solvable {K} solver A.
Arguments direct_unsolvable {K} solver A.
Arguments columns_once {K} c.
Arguments same_memory {K} h h'.
Arguments allocator_ok {K} h.
