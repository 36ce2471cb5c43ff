(** Specification of the eigenvectors computed on the device and of the restriction made of them, independent of the programs in M_AmgeDev. *)
From Coq Require Import List Arith Bool.
From Verif Require Import Base OField Mat LinAlg S_SpProd M_Csr S_Csr M_Dev S_CudaOp S_Lanczos S_Eig M_DevSolve S_DevSolve M_Restr S_Restr M_AmgeDev.
Import ListNotations.
Set Implicit Arguments.
Open Scope nat_scope.

Section S.
  Variable K : ofield.
  Local Open Scope K_scope.
  Notation vec := (vec K).

  (** Orthonormal eigenvectors of A for the smallest eigenvalues: every eigenvector orthogonal to them belongs to an eigenvalue that is not
      smaller. *)
  Record smallest_eigenvectors (A : mat K) (evals : list K) (vs : list vec) : Prop := {
    se_length : length evals = length vs;
    se_orthonormal : orthonormal (nr A) vs;
    se_pairs : forall i, (i < length vs)%nat -> eigenpair A (nth i evals 0) (nth i vs []);
    se_ascending : ascending evals;
    se_smallest : forall mu (v : vec), length v = nr A -> v <> vzero (nr A) -> eigenpair A mu v -> orth_to vs v ->
      forall i, (i < length vs)%nat -> nth i evals 0 <= mu
  }.
  Definition identity_matrix (A : mat K) : Prop :=
    square A /\ forall i j, (i < nr A)%nat -> (j < nr A)%nat -> ent A i j = if (i =? j)%nat then 1 else 0.
  (** What cuSOLVER promises if it reports success: all eigenvalues in increasing order and orthonormal eigenvectors, stored one after another in the
      place of A; the place of B is overwritten. *)
  Definition eig_library_ok (Z : eig_library K) : Prop :=
    forall n a b, length a = (n * n)%nat -> length b = (n * n)%nat -> symmetric_matrix (columns_matrix n a) -> identity_matrix (columns_matrix n b) ->
    let '(a', b', w, info) := z_sygvd Z n a b in
    length b' = (n * n)%nat /\ length a' = (n * n)%nat /\ length w = n /\ (info = 0%nat -> eigen_system (columns_matrix n a) w a').
  (** cuSOLVER reports success for the matrix, however stored. *)
  Definition eig_succeeds (Z : eig_library K) (A : mat K) : Prop :=
    forall a b, length a = (nr A * nr A)%nat -> meq (columns_matrix (nr A) a) A -> length b = (nr A * nr A)%nat ->
      identity_matrix (columns_matrix (nr A) b) -> snd (z_sygvd Z (nr A) a b) = 0%nat.
  Definition eig_fails (Z : eig_library K) (A : mat K) : Prop :=
    forall a b, length a = (nr A * nr A)%nat -> meq (columns_matrix (nr A) a) A -> length b = (nr A * nr A)%nat ->
      identity_matrix (columns_matrix (nr A) b) -> snd (z_sygvd Z (nr A) a b) <> 0%nat.
  Local Close Scope K_scope.
  (** Any order of the threads, any content of the new buffers, which have the sizes that were asked for. *)
  Record agg_env_ok (n n_eig : nat) (g : agg_env K) : Prop := {
    go_diag : some_order (n * n) (g_order_diag g);
    go_mass : some_order (n * n) (g_order_mass g);
    go_values : some_order n_eig (g_order_values g);
    go_vectors : some_order (n_eig * n) (g_order_vectors g);
    go_len_diag : length (g_diag g) = n;
    go_len_mass : length (g_mass g) = n * n;
    go_len_values : length (g_values g) = n;
    go_len_smallest : length (g_smallest g) = n_eig;
    go_len_vectors : length (g_vectors g) = n_eig * n
  }.
  (** The memory h' is h with the given allocations in addition. *)
  Definition memory_plus (h h' : heap K) (cells : list (cell K)) : Prop :=
    exists ids, length ids = length cells /\ NoDup ids /\ (forall id, In id ids -> lookup h id = None) /\
      (forall i, i < length ids -> lookup h' (nth i ids 0) = nth_error cells i) /\
      forall id, ~ In id ids -> lookup h' id = lookup h id.

  (** An agglomerate with system matrix A. *)
  Record agglomerate_ok (n_eig : nat) (a : agglomerate K) (A : mat K) : Prop := {
    ao_matrix : exists range domain, device_matrix [snd (fst (fst a))] [range] [domain] A;
    ao_once : columns_once (snd (fst (fst a)));
    ao_symmetric : symmetric_matrix A;
    ao_env : agg_env_ok (nr A) n_eig (fst (fst (fst a)));
    ao_dofs : length (snd a) = nr A;
    ao_size : 0 < n_eig <= nr A
  }.
  (** What is wanted for it: its smallest eigenvectors, its diagonal, its dofs. *)
  Definition agglomerate_result (n_eig : nat) (a : agglomerate K) (A : mat K) (r : agg_result K) : Prop :=
    length (ag_evecs r) = n_eig /\ smallest_eigenvectors A (ag_evals r) (ag_evecs r) /\
    ag_diag r = map (fun i => ent A i i) (seq 0 (nr A)) /\ ag_map r = snd a.
  (** What an agglomerate leaves behind in the device memory: a descriptor and the eigenvalues. *)
  Definition left_behind (r : agg_result K) : list (cell K) := [@CDescr K; CVals (ag_evals r)].
  (** The containers without the eigenvalues, which are dropped. *)
  Definition data_without_values (l : list (agg_result K)) : agg_data K :=
    mkData [] (flat_map (@ag_evecs K) l) (map (@ag_diag K) l) (map (@ag_map K) l) (map (fun c => length (ag_evecs c)) l).

  (** Consecutive blocks of the given lengths. *)
  Fixpoint blocks (from : nat) (counts : list nat) : list (list nat) :=
    match counts with [] => [] | c :: t => seq from c :: blocks (from + c) t end.
  (** What Trilinos promises: the sum of what the ranks added, rows in consecutive blocks. *)
  Definition compress_ok (compress : list nat -> list (list nat) -> list (spm K) -> list (trilinos K)) : Prop :=
    forall counts owned n parts, length parts = length counts -> parts <> [] -> distribution n owned -> length owned = length counts ->
      (forall m r g v, In m parts -> In (r, g, v) m -> r < list_sum counts /\ g < n) ->
      trilinos_matrix (compress counts owned parts) (blocks 0 counts) owned (stacked parts (list_sum counts) n).

  (** The diagonal entry that an agglomerate contributes at dof g. *)
  Definition local_diagonal (a : agglomerate K) (A : mat K) (g : nat) : K :=
    sumn (nr A) (fun j => if nth j (snd a) 0 =? g then ent A j j else f0).
  (** The agglomerates of all ranks with their matrices, and the memory of the ranks: every rank has an agglomerate, the dofs of an agglomerate are
      different and below n, the diagonal is the sum of the local ones and can be read where it is needed. *)
  Record problem_ok (Z : eig_library K) (n_eig n : nat) (owned : list (list nat)) (gds : nat -> nat -> option K) (gd : nat -> option K) (D : nat -> K)
    (problem : list (list (agglomerate K * mat K) * heap K)) : Prop := {
    po_some : problem <> [];
    po_owned : distribution n owned;
    po_ranks : length owned = length problem;
    po_rank : forall r, In r problem -> fst r <> [] /\ allocator_ok (snd r);
    po_agglomerate : forall r a A, In r problem -> In (a, A) (fst r) -> agglomerate_ok n_eig a A /\ eig_succeeds Z A;
    po_diagonal : forall r a A i, In r problem -> In (a, A) (fst r) -> i < nr A -> ent A i i <> f0;
    po_dofs : forall r a A, In r problem -> In (a, A) (fst r) -> NoDup (snd a) /\ forall g, In g (snd a) -> g < n;
    po_read : forall p r a A g, nth_error problem p = Some r -> In (a, A) (fst r) -> In g (snd a) -> gds p g = Some (D g) /\ gd g = Some (D g);
    po_sum : forall g, g < n -> D g <> f0 /\ lsum (map (fun aA => local_diagonal (fst aA) (snd aA) g) (flat_map fst problem)) = D g
  }.
  (** What is wanted for a rank: the results for its agglomerates, and what is left behind in its memory. *)
  Definition rank_result (n_eig : nat) (r : list (agglomerate K * mat K) * heap K) (o : list (agg_result K) * heap K) : Prop :=
    Forall2 (fun p c => agglomerate_result n_eig (fst p) (snd p) c) (fst r) (fst o) /\ memory_plus (snd r) (snd o) (flat_map left_behind (fst o)) /\
    allocator_ok (snd o).
  (** The restriction matrix of the results c of all agglomerates: one row per eigenvector, weighted with the diagonal. *)
  Definition restriction_of (n : nat) (D : nat -> K) (cs : list (agg_result K)) (R : mat K) : Prop :=
    nr R = length (rows_of cs) /\ nc R = n /\
    forall r c e g, nth_error (rows_of cs) r = Some (c, e) -> g < n ->
      (forall j, j < length (ag_map c) -> nth j (ag_map c) 0 = g -> ent R r g = (nth j (ag_diag c) f0 / D g * nth j e f0)%K) /\
      (~ In g (ag_map c) -> ent R r g = f0).
End S.
Arguments local_diagonal {K} a A g.
Arguments problem_ok {K} Z n_eig n owned gds gd D problem.
Arguments rank_result {K} n_eig r o.
Arguments restriction_of {K} n D cs R.
Arguments smallest_eigenvectors {K} A evals vs.
Arguments identity_matrix {K} A.
Arguments eig_library_ok {K} Z.
Arguments eig_succeeds {K} Z A.
Arguments eig_fails {K} Z A.
Arguments agg_env_ok {K} n n_eig g.
Arguments memory_plus {K} h h' cells.
Arguments agglomerate_ok {K} n_eig a A.
Arguments agglomerate_result {K} n_eig a A r.
Arguments left_behind {K} r.
Arguments data_without_values {K} l.
Arguments compress_ok {K} compress.
