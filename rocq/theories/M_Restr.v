(** Model of the assembly of the restriction matrix.  Definitions only.
    File abbreviations: amge = include/mfmg/common/amge.templates.hpp, amge_host = include/mfmg/dealii/amge_host.templates.hpp,
    utils = include/mfmg/common/utils.hpp. *)
From Coq Require Import List Arith Bool.
From Verif Require Import Base OField Mat M_WorkStream.
Import ListNotations.
Set Implicit Arguments.

Section Restr.
  Variable K : ofield.
  Local Notation vec := (vec K).

  (** A Trilinos matrix under assembly, on one rank: the values handed in so far, as (row, column, value); external type used at
      amge:289, 336.  Simplification: storage and communication of off-rank entries are left out, all rows written are owned. *)
  Definition spm := list (nat * nat * K).

  (** Value at (row, column), i.e. SparseMatrix::el after compress: the sum of what was added (external, used at
      source/dealii/dealii_hierarchy_helpers.cc:187-201). *)
  Fixpoint spm_el (m : spm) (i j : nat) : K :=
    match m with
    | [] => 0%K
    | (r, c, v) :: t => if (r =? i) && (c =? j) then (v + spm_el t i j)%K else spm_el t i j
    end.

  (** Sparsity pattern: list of (row, column), amge:623-640. *)
  Definition spat := list (nat * nat).
  (** Membership in the pattern (no counterpart in /repo; deal.II looks the entry up). *)
  Definition spat_mem (sp : spat) (i j : nat) : bool := existsb (fun e => (fst e =? i) && (snd e =? j)) sp.

  (** SparseMatrix::add on a matrix with a fixed pattern: an entry outside the pattern is an exception (deal.II, used at amge:313, 387). *)
  Definition spm_add (sp : spat) (m : spm) (i j : nat) (v : K) : outcome spm :=
    if spat_mem sp i j then Ok (m ++ [(i, j, v)]) else Throw.

  (** SparseMatrix::set on a matrix without pattern (amge:396; source/dealii/dealii_hierarchy_helpers.cc:218-228).
      [acc]: the value is added to what is there, which the comment at dealii_hierarchy_helpers.cc:221-222 states is what happens until
      compress; otherwise it replaces it, which is what the name of the function says. *)
  Definition spm_set (acc : bool) (m : spm) (i j : nat) (v : K) : spm :=
    if acc then m ++ [(i, j, v)]
    else filter (fun e => negb ((fst (fst e) =? i) && (snd (fst e) =? j))) m ++ [(i, j, v)].

  (** locally_relevant_global_diag[g]: [None] if g is not locally relevant, an access deal.II forbids (amge:315). *)
  Definition gd_get (gd : nat -> option K) (g : nat) : outcome K :=
    match gd g with Some d => Ok d | None => UB end.

  (** CopyData of one agglomerate, include/mfmg/dealii/amge_host.hpp:122-128.  Simplification: eigenvalues are real (amge_host:647-650
      keeps the real parts only). *)
  Record agg_result := mkAgg {
    ag_evals : list K;
    ag_evecs : list vec;
    ag_diag : list K;
    ag_map : list nat
  }.

  (** What the copier fills, amge_host:502-505, 555-558. *)
  Record agg_data := mkData {
    da_evals : list K;
    da_evecs : list vec;
    da_diag : list (list K);
    da_maps : list (list nat);
    da_nloc : list nat
  }.

  (** Empty containers, amge_host:502-505. *)
  Definition data_empty : agg_data := mkData [] [] [] [] [].

  (** [copy_local_to_global_eig], amge_host:635-650 (and copy_local_to_global, 617-633, which leaves the eigenvalues out). *)
  Definition copy_local_to_global (c : agg_result) (d : agg_data) : agg_data :=
    mkData (da_evals d ++ ag_evals c) (da_evecs d ++ ag_evecs c) (da_diag d ++ [ag_diag c])
           (da_maps d ++ [ag_map c]) (da_nloc d ++ [length (ag_evecs c)]).

  (** n_rows_per_proc after MPI_Allgather, amge:606-612: the number of eigenvectors of every rank. *)
  Definition rows_per_proc (ranks : list agg_data) : list nat := map (fun d => length (da_evecs d)) ranks.
  (** n_total_rows, amge:614-616.  64-bit overflow not modelled. *)
  Definition n_total_rows (counts : list nat) : nat := list_sum counts.
  (** n_rows_before, amge:617-619. *)
  Definition n_rows_before (counts : list nat) (rank : nat) : nat := list_sum (firstn rank counts).

  (** Inner loop of the pattern, amge:632-637: [k] rows remain for this agglomerate. *)
  Fixpoint pattern_rows (first k row : nat) (m : list nat) (sp : spat) : spat * nat :=
    match k with
    | 0 => (sp, row)
    | S k' => pattern_rows first k' (S row) m (sp ++ map (fun g => ((first + row), g)) m)
    end.

  (** Loop over the agglomerates, amge:629-638; agglomerate [i] is the head of [nloc]. *)
  Fixpoint pattern_aggs (first : nat) (maps : list (list nat)) (nloc : list nat) (i row : nat) (sp : spat) : outcome spat :=
    match nloc with
    | [] => Ok sp
    | n :: rest =>
      match n with
      | 0 => pattern_aggs first maps rest (S i) row sp
      | S _ =>
        let! m := rd maps i in
        let '(sp', row') := pattern_rows first n row m sp in
        pattern_aggs first maps rest (S i) row' sp'
      end
    end.

  (** [compute_restriction_sparsity_pattern] on one rank, amge:596-643. *)
  Definition sparsity_pattern (counts : list nat) (rank : nat) (d : agg_data) : outcome spat :=
    pattern_aggs (n_rows_before counts rank) (da_maps d) (da_nloc d) 0 0 [].

  (** Matrices of the first overload (amge:271-325): the restriction matrix; of the second (amge:327-410): also the eigenvector and the
      delta matrix.  The second overload's loop does what the first does and fills two more matrices, so one model serves both. *)
  Record rmats := mkR { r_R : spm; r_E : spm; r_D : spm }.

  (** Loop over j, amge:308-318 and 382-402: [k] entries remain. *)
  Fixpoint fill_row (acc : bool) (sp : spat) (gd : nat -> option K) (m : list nat) (dg : list K) (ev : vec) (row k j : nat) (s : rmats)
    : outcome rmats :=
    match k with
    | 0 => Ok s
    | S k' =>
      let! g := rd m j in
      let! d := rd dg j in
      let! D := gd_get gd g in
      let! e := rd ev j in
      let! R' := spm_add sp (r_R s) row g (d / D * e)%K in
      let! E' := spm_add sp (r_E s) row g e in
      let D' := spm_set acc (r_D s) row g ((d / D - 1) * e)%K in
      fill_row acc sp gd m dg ev row k' (S j) (mkR R' E' D')
    end.

  (** Loop over k, amge:301-320 and 375-404: [k] eigenvectors remain; returns [pos] too. *)
  Fixpoint fill_rows (debug acc : bool) (sp : spat) (gd : nat -> option K) (d : agg_data) (first i k pos : nat) (s : rmats)
    : outcome (rmats * nat) :=
    match k with
    | 0 => Ok (s, pos)
    | S k' =>
      let! ev := rd (da_evecs d) pos in
      let! m := rd (da_maps d) i in
      let! _ := assert_dbg debug (length ev =? length m) in
      let! dg := (if length ev =? 0 then Ok [] else rd (da_diag d) i) in
      let! s' := fill_row acc sp gd m dg ev (first + pos) (length ev) 0 s in
      fill_rows debug acc sp gd d first i k' (S pos) s'
    end.

  (** Loop over the agglomerates, amge:298-321 and 372-405. *)
  Fixpoint fill_aggs (debug acc : bool) (sp : spat) (gd : nat -> option K) (d : agg_data) (first : nat) (nloc : list nat) (i pos : nat)
    (s : rmats) : outcome rmats :=
    match nloc with
    | [] => Ok s
    | n :: rest =>
      let! (s', pos') := fill_rows debug acc sp gd d first i n pos s in
      fill_aggs debug acc sp gd d first rest (S i) pos' s'
    end.

  (** [compute_restriction_sparse_matrix] on one rank, amge:271-325, 327-410.  local_range.first is the first row of the rank. *)
  Definition compute_restriction (debug acc : bool) (counts : list nat) (rank : nat) (gd : nat -> option K) (d : agg_data)
    : outcome rmats :=
    let! sp := sparsity_pattern counts rank d in
    let! _ := assert_dbg debug (length (da_nloc d) =? length (da_maps d)) in
    fill_aggs debug acc sp gd d (n_rows_before counts rank) (da_nloc d) 0 0 (mkR [] [] []).

  (** The same on every rank, from rank [p] on; [gds p] is what rank p can read of the diagonal; amge:271-325, 327-410. *)
  Fixpoint assemble_from (debug acc : bool) (counts : list nat) (gds : nat -> nat -> option K) (p : nat) (ranks : list agg_data)
    : outcome (list rmats) :=
    match ranks with
    | [] => Ok []
    | d :: rest =>
      let! m := compute_restriction debug acc counts p (gds p) d in
      let! ms := assemble_from debug acc counts gds (S p) rest in
      Ok (m :: ms)
    end.

  (** All ranks, amge:271-410 with the counts of the Allgather of amge:606-612. *)
  Definition assemble (debug acc : bool) (gds : nat -> nat -> option K) (ranks : list agg_data) : outcome (list rmats) :=
    assemble_from debug acc (rows_per_proc ranks) gds 0 ranks.

  (** Sum of the diagonals, one agglomerate, utils:105-109: [k] entries remain; [dv] is the vector under construction. *)
  Fixpoint check_sum_agg (m : list nat) (dg : list K) (k j : nat) (dv : nat -> K) : outcome (nat -> K) :=
    match k with
    | 0 => Ok dv
    | S k' =>
      let! g := rd m j in
      let! d := rd dg j in
      check_sum_agg m dg k' (S j) (fun h => if h =? g then (dv h + d)%K else dv h)
    end.

  (** Weights of one agglomerate, utils:131-137. *)
  Fixpoint check_weight_agg (gd : nat -> option K) (m : list nat) (dg : list K) (k j : nat) (w : nat -> K) : outcome (nat -> K) :=
    match k with
    | 0 => Ok w
    | S k' =>
      let! g := rd m j in
      let! d := rd dg j in
      let! D := gd_get gd g in
      check_weight_agg gd m dg k' (S j) (fun h => if h =? g then (w h + d / D)%K else w h)
    end.

  (** Loops over the agglomerates of one rank, utils:98-110 and 127-139: [f] is one of the two functions above; the number of entries is the size of
      the agglomerate's first eigenvector (utils:101-103, 130). *)
  Fixpoint check_aggs (f : list nat -> list K -> nat -> nat -> (nat -> K) -> outcome (nat -> K)) (d : agg_data) (nloc : list nat) (i pos : nat)
    (v : nat -> K) : outcome (nat -> K) :=
    match nloc with
    | [] => Ok v
    | n :: rest =>
      let! ev := rd (da_evecs d) pos in
      let! m := (if length ev =? 0 then Ok [] else rd (da_maps d) i) in
      let! dg := (if length ev =? 0 then Ok [] else rd (da_diag d) i) in
      let! v' := f m dg (length ev) 0 v in
      check_aggs f d rest (S i) (pos + n) v'
    end.

  (** All ranks add into one distributed vector, resp. matrix diagonal; compress(add), utils:111, 142. *)
  Fixpoint check_ranks (f : list nat -> list K -> nat -> nat -> (nat -> K) -> outcome (nat -> K)) (ranks : list agg_data) (v : nat -> K)
    : outcome (nat -> K) :=
    match ranks with
    | [] => Ok v
    | d :: rest => let! v' := check_aggs f d (da_nloc d) 0 0 v in check_ranks f rest v'
    end.

  (** linfty_norm over n dofs, utils:113-114. *)
  Fixpoint linf (n : nat) (v : nat -> K) : K :=
    match n with 0 => 0%K | S n' => fmax (linf n' v) (fabs (v n')) end.

  (** [check_restriction_matrix], utils:81-155, all ranks together; [gdiag] is the owned part of the global diagonal, [gd] what the ranks can
      read, [tol] = 1e-14.  Simplification: 0/0 in line 113 (all-zero diagonal) is not NaN here. *)
  Definition check_restriction (debug : bool) (tol : K) (n : nat) (gdiag : nat -> K) (gd : nat -> option K) (ranks : list agg_data) : outcome unit :=
    if debug then
      let! s := check_ranks check_sum_agg ranks (fun _ => 0%K) in
      let! _ := assert_dbg true (fltb (linf n (fun g => s g - gdiag g)%K / linf n gdiag)%K tol) in
      let! w := check_ranks (check_weight_agg gd) ranks (fun _ => 0%K) in
      assert_dbg true (forallb (fun g => fltb (fabs (w g - 1)%K) tol) (seq 0 n))
    else Ok tt.

  (** LobpcgScratchData: the guess carried from one agglomerate to the next, include/mfmg/dealii/amge_host.hpp:23-26. *)
  Definition scratch := list vec.

  (** [local_worker], amge_host:586-615: [solve] stands for lines 594-604 (patch, evaluator, eigensolver); it sees the scratch data only in
      the anasazi branch.  [keep] is the test of lines 606-608. *)
  Definition local_worker (solve : nat -> scratch -> outcome agg_result) (keep : bool) (id : nat) (sc : scratch) (_ : agg_result)
    : outcome (scratch * agg_result) :=
    let! c := solve id sc in
    Ok (if keep then ag_evecs c else sc, c).

  (** agglomerate_ids, amge_host:499-500, 552-553. *)
  Definition agglomerate_ids (n : nat) : list nat := seq 1 n.

  (** The WorkStream loop of [setup_restrictor], amge_host:509-520, 561-574: what the copier's containers can hold afterwards on a
      rank with [n] agglomerates, [ns] scratch and [nb] copy-data objects. *)
  Definition collect (solve : nat -> scratch -> outcome agg_result) (keep : bool) (n ns nb : nat) (d : agg_data) : Prop :=
    ws_run (local_worker solve keep) (fun c o => Ok (copy_local_to_global c o)) (agglomerate_ids n) ns nb
           [] (mkAgg [] [] [] []) data_empty d.
End Restr.
Arguments data_empty {K}.
Arguments check_sum_agg {K} m dg k j dv.
Arguments linf {K} n v.
Arguments check_restriction {K} debug tol n gdiag gd ranks.
Arguments check_weight_agg {K} gd m dg k j w.
Arguments mkR {K}.
