(** Specification of device matrices, independent of the functions in M_Csr. *)
From Coq Require Import List Arith Bool Permutation Sorted.
From Verif Require Import Base OField Mat M_Csr.
Import ListNotations.
Set Implicit Arguments.
Open Scope nat_scope.

Section S.
  Variable K : ofield.
  (** The value a row given by (column, value) pairs has in column g: the sum of what is stored there. *)
  Definition entry (row : list (nat * K)) (g : nat) : K := lsum (map snd (filter (fun e : nat * K => fst e =? g) row)).
  (** Strictly increasing columns. *)
  Definition sorted_row (row : list (nat * K)) : Prop := StronglySorted lt (map fst row).
  (** No column is stored twice. *)
  Definition simple_row (row : list (nat * K)) : Prop := NoDup (map fst row).

  (** The same entries, now with increasing columns. *)
  Definition resorted (row row' : list (nat * K)) : Prop := Permutation row row' /\ sorted_row row'.

  (** The CSR arrays are the given rows, one after the other, with the matching row pointers and count. *)
  Record csr_holds (c : csr K) (rows : list (list (nat * K))) : Prop := {
    cs_rows : length rows = length (c_range c);
    cs_col : c_col c = map fst (concat rows);
    cs_val : c_val c = map snd (concat rows);
    cs_nnz : c_nnz c = length (concat rows);
    cs_ptr_length : length (c_ptr c) = length rows + 1;
    cs_ptr : forall r, r <= length rows -> nth r (c_ptr c) 0 = length (concat (firstn r rows))
  }.

  (** What deal.II stores: in a square matrix each row starts with the diagonal and the other columns increase; otherwise all columns increase. *)
  Definition dealii_layout (h : host_mat K) : Prop :=
    length (h_rows h) = h_m h /\
    (forall row e, In row (h_rows h) -> In e row -> fst e < h_n h) /\
    (h_m h = h_n h -> forall i, i < h_m h ->
       exists d rest, nth i (h_rows h) [] = (i, d) :: rest /\ sorted_row rest /\ ~ In i (map fst rest)) /\
    (h_m h <> h_n h -> forall row, In row (h_rows h) -> sorted_row row).

  (** A row with local columns read through a column map. *)
  Definition global_row (colmap : list nat) (row : list (nat * K)) : list (nat * K) := map (fun e => (nth (fst e) colmap 0, snd e)) row.
  (** One rank's part of a Trilinos matrix: one stored row per owned row, local columns inside the column map. *)
  Definition trilinos_layout (t : trilinos K) : Prop :=
    length (t_rows t) = length (t_range t) /\ forall row e, In row (t_rows t) -> In e row -> fst e < length (t_colmap t).
  (** The rows of t with global columns. *)
  Definition trilinos_rows (t : trilinos K) : list (list (nat * K)) := map (global_row (t_colmap t)) (t_rows t).
  (** Contract of inserting rows into an empty Trilinos matrix and compressing it: the same rows as functions of the global column, each column stored
      once, exactly the inserted columns stored. *)
  Definition fill_ok (fill : list nat -> list (list (nat * K)) -> list nat * list (list (nat * K))) : Prop :=
    forall domain rows,
      length (snd (fill domain rows)) = length rows /\
      (forall row e, In row (snd (fill domain rows)) -> In e row -> fst e < length (fst (fill domain rows))) /\
      forall i, i < length rows ->
        simple_row (global_row (fst (fill domain rows)) (nth i (snd (fill domain rows)) [])) /\
        (forall g, In g (map fst (global_row (fst (fill domain rows)) (nth i (snd (fill domain rows)) []))) <-> In g (map fst (nth i rows []))) /\
        forall g, entry (global_row (fst (fill domain rows)) (nth i (snd (fill domain rows)) [])) g = entry (nth i rows []) g.

  (** The rank-local matrices hold the rows of B that the ranks own. *)
  Definition distributed_as (cs : list (csr K)) (range : list (list nat)) (B : mat K) : Prop :=
    map (@c_range K) cs = range /\ (forall i, In i (concat range) -> i < nr B) /\
    forall r c, nth_error cs r = Some c ->
      exists rows, csr_holds c rows /\
        forall i, i < length rows ->
          (forall e, In e (nth i rows []) -> fst e < nc B) /\
          forall g, g < nc B -> entry (nth i rows []) g = ent B (nth i (nth r range []) 0) g.
  (** The threads of a launch for [size] elements, in some order. *)
  Definition some_order (size : nat) (sched : list nat) : Prop := Permutation sched (seq 0 (n_threads size)).
  (** Admissible conditions of the products of all ranks: any order of the threads, any content of the buffers of the right size. *)
  Definition any_environment (size : nat) (env : nat -> list nat * list K * list K) : Prop :=
    forall r, some_order size (fst (fst (env r))) /\ length (snd (fst (env r))) = size /\ length (snd (env r)) = size.
End S.
Arguments entry {K} row g.
Arguments sorted_row {K} row.
Arguments simple_row {K} row.
Arguments resorted {K} row row'.
Arguments csr_holds {K} c rows.
Arguments dealii_layout {K} h.
Arguments global_row {K} colmap row.
Arguments trilinos_layout {K} t.
Arguments trilinos_rows {K} t.
Arguments fill_ok {K} fill.
Arguments distributed_as {K} cs range B.
Arguments any_environment {K} size env.
