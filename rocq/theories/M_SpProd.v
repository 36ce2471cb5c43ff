(** Model of the sparse product of a matrix-free operator with the transpose of a distributed matrix
    (include/mfmg/dealii/dealii_utils.hpp:22-81, source/dealii/dealii_utils.cc:20-60). Definitions only. One list element per MPI rank. *)
From Coq Require Import List Arith Bool.
From Verif Require Import Base OField Mat.
Import ListNotations.
Set Implicit Arguments.
Open Scope nat_scope.

(** IndexSet::index_within_set: position of a global index in the increasing list of owned indices, invalid_dof_index is [None]
    (external; source/dealii/dealii_utils.cc:28-29, dealii_utils.hpp:70-71). *)
Fixpoint index_within (l : list nat) (g : nat) : option nat :=
  match l with
  | [] => None
  | h :: t => if h =? g then Some 0 else option_map S (index_within t g)
  end.
(** A loop that stops at the first failure (no counterpart in /repo). *)
Fixpoint mapM {A B} (f : A -> outcome B) (l : list A) : outcome (list B) :=
  match l with
  | [] => Ok []
  | a :: t => let! b := f a in let! r := mapM f t in Ok (b :: r)
  end.

Section SpProd.
  Variable K : ofield.
  Local Open Scope K_scope.

  (** A distributed TrilinosWrappers::SparseMatrix as dealii_utils.cc:20-60 sees it: numbers of rows and columns, and for every rank the owned
      rows, the owned domain indices, the column map (GCID, line 43) and the stored rows (ExtractMyRowView, lines 32-33) with local columns. *)
  Record dist_mat : Type := mkDist {
    d_m : nat;
    d_n : nat;
    d_range : list (list nat);
    d_domain : list (list nat);
    d_colmap : list (list nat);
    d_rows : list (list (list (nat * K)))
  }.
  (** A distributed vector without ghosts: the owned values of every rank (dealii_utils.cc:56-58). *)
  Definition dist_vec : Type := list (list K).

  (** The entries of row global_j known to rank r, with global columns: none unless the rank owns the row (dealii_utils.cc:24-36, 41-43). *)
  Definition row_entries (d : dist_mat) (global_j r : nat) : outcome (list (nat * K)) :=
    match index_within (nth r (d_range d) []) global_j with
    | None => Ok []
    | Some local_j =>
        let! entries := rd (nth r (d_rows d) []) local_j in
        mapM (fun e : nat * K => let! g := rd (nth r (d_colmap d) []) (fst e) in Ok (g, snd e)) entries
    end.
  (** The ghosted vector of one rank: zeroed, then one assignment per entry (dealii_utils.cc:45-53). Simplified: indexed by global index, 0 at
      the indices the rank has no storage for; those are never written because every written index was made a ghost before (38-44). *)
  Definition ghosted_values (d : dist_mat) (entries : list (nat * K)) : vec K :=
    fold_left (fun v (e : nat * K) => upd v (fst e) (snd e)) entries (vzero (d_n d)).
  (** compress(VectorOperation::add) (external; dealii_utils.cc:54): the owner adds what the other ranks have in their ghost entries. *)
  Definition compress_add (domain : list (list nat)) (entries : list (list (nat * K))) (values : list (vec K)) : dist_vec :=
    map (fun s : nat =>
      map (fun i =>
        lsum (map (fun r : nat =>
          if (r =? s)%nat then nth i (nth r values []) 0
          else if existsb (fun e : nat * K => fst e =? i)%nat (nth r entries []) then nth i (nth r values []) 0 else 0)
          (seq 0 (length values))))
        (nth s domain []))
      (seq 0 (length domain)).
  (** extract_row (dealii_utils.cc:20-60). *)
  Definition extract_row (d : dist_mat) (global_j : nat) : outcome dist_vec :=
    let! entries := mapM (row_entries d global_j) (seq 0 (length (d_range d))) in
    Ok (compress_add (d_domain d) entries (map (ghosted_values d) entries)).

  (** The entries one rank sets in C from one product (dealii_utils.hpp:66-79): all rows i in turn, those owned by the rank, those above eps
      (1e-14 in the code). *)
  Definition set_column (eps : K) (n j : nat) (index_set : list nat) (dst : list K) : outcome (list (nat * nat * K)) :=
    let! l := mapM (fun i =>
      match index_within index_set i with
      | None => Ok []
      | Some local_i => let! value := rd dst local_i in Ok (if (eps <? fabs value) then [(i, j, value)] else [])
      end) (seq 0 n) in
    Ok (concat l).
  (** matrix_transpose_matrix_multiply (dealii_utils.hpp:32-85): [apply] is A.apply on distributed vectors, [owned] the index sets of
      A.build_range_vector(), [n] its global size. Result: for every rank the entries set, in order; compress(insert) adds nothing because every
      rank sets rows it owns. Simplified: the loop counters do not overflow int. *)
  Definition mtmm (eps : K) (apply : dist_vec -> outcome dist_vec) (owned : list (list nat)) (n : nat) (b : dist_mat)
    : outcome (list (list (nat * nat * K))) :=
    let! columns := mapM (fun j =>
      let! src := extract_row b j in
      let! dst := apply src in
      mapM (fun r => set_column eps n j (nth r owned []) (nth r dst [])) (seq 0 (length owned))) (seq 0 (d_m b)) in
    Ok (map (fun r => concat (map (fun c => nth r c []) columns)) (seq 0 (length owned))).
End SpProd.
Arguments mkDist {K} _ _ _ _ _ _.
Arguments d_m {K} _.
Arguments d_n {K} _.
Arguments d_range {K} _.
Arguments d_domain {K} _.
Arguments d_colmap {K} _.
Arguments d_rows {K} _.
Arguments row_entries {K} d global_j r.
Arguments ghosted_values {K} d entries.
Arguments compress_add {K} domain entries values.
Arguments extract_row {K} d global_j.
Arguments set_column {K} eps n j index_set dst.
Arguments mtmm {K} eps apply owned n b.
