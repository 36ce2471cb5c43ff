(** Model of DealIIMeshEvaluator::get_diagonal on several MPI ranks, and of check_restriction_matrix with what each rank can read of that diagonal.
    Definitions only.
    me = source/dealii/dealii_mesh_evaluator.cc, ut = include/mfmg/common/utils.hpp. *)
From Coq Require Import List Arith Bool.
From Verif Require Import Base OField Mat M_Restr.
Import ListNotations.
Set Implicit Arguments.
Open Scope list_scope.
Open Scope nat_scope.

Section Diag.
  Variable K : ofield.
  (** Membership in an index set (me:67-71; dealii::IndexSet). *)
  Definition idx_mem (g : nat) (s : list nat) : bool := existsb (Nat.eqb g) s.
  (** LinearAlgebra::distributed::Vector (me:72, 80): per rank, what operator[] gives for a global index; [None]: an index that is neither owned nor
      ghost on this rank. *)
  Definition dvec := list (nat -> option K).
  (** TrilinosWrappers::SparseMatrix::diag_element (me:76) on the rank that stores the rows [rows]: operator() aborts in debug and el() answers 0 in
      release if the row is stored by another rank. *)
  Definition diag_element (debug : bool) (A : mat K) (rows : list nat) (g : nat) : outcome K :=
    if idx_mem g rows then Ok (ent A g g) else if debug then Abort else Ok 0%K.
  (** The loop me:74-77 over the owned indices of one rank; [v] is the vector under construction. *)
  Fixpoint fill_diag (debug : bool) (A : mat K) (rows l : list nat) (v : nat -> option K) : outcome (nat -> option K) :=
    match l with
    | [] => Ok v
    | g :: r =>
      let! d := diag_element debug A rows g in
      fill_diag debug A rows r (fun h => if h =? g then Some d else v h)
    end.
  (** locally_owned_global_diag of one rank, me:72-78: no ghost indices, so compress(insert) sends nothing. *)
  Definition owned_diag (debug : bool) (A : mat K) (rows own : list nat) : outcome (nat -> option K) :=
    fill_diag debug A rows own (fun g => if idx_mem g own then Some 0%K else None).
  (** [owned_diag] on all ranks (me:72-78): [rows] and [owned] are the row and the column (domain) distribution of the matrix, one list per rank. *)
  Fixpoint owned_diags (debug : bool) (A : mat K) (rows owned : list (list nat)) : outcome dvec :=
    match rows, owned with
    | rw :: rs, ow :: os =>
      let! v := owned_diag debug A rw ow in
      let! vs := owned_diags debug A rs os in
      Ok (v :: vs)
    | _, _ => Ok []
    end.
  (** The value of the rank that owns [g] (me:83: what update_ghost_values receives). *)
  Fixpoint owner_value (owned : list (list nat)) (v : dvec) (g : nat) : option K :=
    match owned, v with
    | o :: os, f :: fs => if idx_mem g o then f g else owner_value os fs g
    | _, _ => None
    end.
  (** Assignment to a vector with ghost indices, me:80-83: owned entries are copied, and as the right-hand side has no ghost indices the ghost entries are
      imported from their owners. *)
  Definition import_rank (owned : list (list nat)) (src : dvec) (f : nat -> option K) (own relevant : list nat) (g : nat) : option K :=
    if idx_mem g own then f g else if idx_mem g relevant then owner_value owned src g else None.
  (** [import_rank] on all ranks, me:80-83; [relevant] are the results of extract_locally_relevant_dofs, one list per rank. *)
  Fixpoint import_from (all : list (list nat)) (src : dvec) (fs : dvec) (owned relevant : list (list nat)) : dvec :=
    match fs, owned, relevant with
    | f :: fs', o :: os, r :: rs => import_rank all src f o r :: import_from all src fs' os rs
    | _, _, _ => []
    end.
  (** [get_diagonal], me:57-86, on all ranks.  [A], [rows], [owned]: the matrix evaluate_global made (me:62), its row distribution and
      locally_owned_domain_indices (me:67-68); [relevant]: me:69-71. *)
  Definition get_diagonal (debug : bool) (A : mat K) (rows owned relevant : list (list nat)) : outcome dvec :=
    let! v := owned_diags debug A rows owned in
    Ok (import_from owned v v owned relevant).

  (** Sum of the diagonals of one agglomerate on a rank that can read [gd], ut:105-109: new_global_diag has the partitioner of the diagonal (ut:95-96), so an
      index the rank cannot read it cannot write either. *)
  Fixpoint check_sum_rank (gd : nat -> option K) (m : list nat) (dg : list K) (k j : nat) (dv : nat -> K) : outcome (nat -> K) :=
    match k with
    | 0 => Ok dv
    | S k' =>
      let! g := rd m j in
      let! d := rd dg j in
      let! _ := @gd_get K gd g in
      check_sum_rank gd m dg k' (S j) (fun h => if h =? g then (dv h + d)%K else dv h)
    end.
  (** The loops of all ranks (ut:98-110, 127-139), each with what it can read; compress(add), ut:111, 142. *)
  Fixpoint check_all (f : (nat -> option K) -> list nat -> list K -> nat -> nat -> (nat -> K) -> outcome (nat -> K)) (gds : dvec) (ranks : list (agg_data K))
      (v : nat -> K) : outcome (nat -> K) :=
    match gds, ranks with
    | gd :: gs, d :: ds => let! v' := check_aggs (f gd) d (da_nloc d) 0 0 v in check_all f gs ds v'
    | _, _ => Ok v
    end.
  (** The owned entries of the diagonal on all ranks together (ut:112-114). *)
  Definition owned_part (owned : list (list nat)) (gds : dvec) (g : nat) : K := match owner_value owned gds g with Some d => d | None => 0%K end.
  (** [check_restriction_matrix], ut:81-155, on all ranks: [owned] and [gds] are the owned indices of the locally relevant diagonal and what the ranks read
      of it, [tol] = 1e-14.  Simplification: 0/0 in line 113 (all-zero diagonal) is not NaN here. *)
  Definition par_check (debug : bool) (tol : K) (n : nat) (owned : list (list nat)) (gds : dvec) (ranks : list (agg_data K)) : outcome unit :=
    if debug then
      let! s := check_all check_sum_rank gds ranks (fun _ => 0%K) in
      let! _ := assert_dbg true (fltb (linf n (fun g => s g - owned_part owned gds g)%K / linf n (owned_part owned gds))%K tol) in
      let! w := check_all (@check_weight_agg K) gds ranks (fun _ => 0%K) in
      assert_dbg true (forallb (fun g => fltb (fabs (w g - 1)%K) tol) (concat owned))
    else Ok tt.
End Diag.
