(** Model of the fast computation of A * R^T ("fast_ap").  Definitions only.
    hh = source/dealii/dealii_hierarchy_helpers.cc; source/dealii/dealii_matrix_free_hierarchy_helpers.cc:55-303 does the same. *)
From Coq Require Import List Arith Bool.
From Verif Require Import Base OField Mat M_WorkStream M_Restr.
Import ListNotations.
Set Implicit Arguments.

Section FastAP.
  Variable K : ofield.
  Local Notation vec := (vec K).

  (** CopyData of the correction loop, hh:122-127. *)
  Record fcopy := mkFC { fc_rows : list nat; fc_cols : list nat; fc_vals : list vec }.
  (** The sample copy data, hh:127. *)
  Definition fcopy_empty : fcopy := mkFC [] [] [].

  (** nth_index_in_set of the owned row range [first, first + n_owned), hh:178-180.  Past the end is forbidden by deal.II. *)
  Definition nth_owned_row (first n_owned local_row : nat) : outcome nat :=
    if local_row <? n_owned then Ok (first + local_row) else UB.

  (** The vector to multiply, hh:182-201: delta, or delta plus eigenvector for halo patches. *)
  Definition delta_eig (E D : spm K) (is_halo : bool) (row : nat) (cols : list nat) : vec :=
    map (fun g => if is_halo then (spm_el D row g + spm_el E row g)%K else spm_el D row g) cols.

  (** Loop over j, hh:173-214: [k] rows remain. *)
  Fixpoint fa_rows (E D : spm K) (is_halo : bool) (first n_owned nev i : nat) (cols : list nat) (M : mat K) (k j : nat) (c : fcopy) : outcome fcopy :=
    match k with
    | 0 => Ok c
    | S k' =>
      let! row := nth_owned_row first n_owned (i * nev + j) in
      let correction := mulvec M (delta_eig E D is_halo row cols) in
      let! rows' := wr (fc_rows c) j row in
      let! old := rd (fc_vals c) j in
      let! vals' := wr (fc_vals c) j (vadd correction old) in
      fa_rows E D is_halo first n_owned nev i cols M k' (S j) (mkFC rows' (fc_cols c) vals')
    end.

  (** [std::vector::resize], hh:158, 168 (no counterpart in /repo). *)
  Definition resize {A} (n : nat) (d : A) (l : list A) : list A := firstn n l ++ repeat d (n - length l).

  (** The worker, hh:129-216.  [evaluate] stands for the patch triangulation, the user's evaluate_agglomerate and
      compute_dof_index_map (hh:134-164): it gives the dof map and the patch matrix.  No cells: early return (hh:141-144). *)
  Definition fa_worker (evaluate : list nat -> list nat * mat K) (E D : spm K) (is_halo : bool) (first n_owned nev : nat)
    (it : nat * list nat) (_ : unit) (c : fcopy) : outcome (unit * fcopy) :=
    let '(i, cells) := it in
    match cells with
    | [] => Ok (tt, c)
    | _ :: _ =>
      let '(cols, M) := evaluate cells in
      let c1 := mkFC (resize nev 0 (fc_rows c)) cols (repeat (vzero (length cols)) nev) in
      let! c2 := fa_rows E D is_halo first n_owned nev i cols M nev 0 c1 in
      Ok (tt, c2)
    end.

  (** SparseMatrix::set of one row with elide_zero_values, hh:223-226: [k] entries remain. *)
  Fixpoint fa_set_row (acc : bool) (row : nat) (cols : list nat) (vals : vec) (k j : nat) (m : spm K) : outcome (spm K) :=
    match k with
    | 0 => Ok m
    | S k' =>
      let! g := rd cols j in
      let! v := rd vals j in
      fa_set_row acc row cols vals k' (S j) (if feqb v 0%K then m else spm_set acc m row g v)
    end.

  (** The copier, hh:218-228: [k] rows remain. *)
  Fixpoint fa_copy_rows (acc : bool) (c : fcopy) (k i : nat) (m : spm K) : outcome (spm K) :=
    match k with
    | 0 => Ok m
    | S k' =>
      let! row := rd (fc_rows c) i in
      let! vals := rd (fc_vals c) i in
      let! m' := fa_set_row acc row (fc_cols c) vals (length (fc_cols c)) 0 m in
      fa_copy_rows acc c k' (S i) m'
    end.
  (** The copier, hh:218-228. *)
  Definition fa_copier (acc : bool) (c : fcopy) (m : spm K) : outcome (spm K) := fa_copy_rows acc c (length (fc_rows c)) 0 m.

  (** Items of the loop with their position, hh:171, 230-232. *)
  Definition fa_items (patches : list (list nat)) : list (nat * list nat) := combine (seq 0 (length patches)) patches.

  (** n_local_eigenvectors, hh:111-115. *)
  Definition fa_nev (n_owned : nat) (interior : list (list nat)) : nat :=
    match interior with [] => 0 | _ => n_owned / length interior end.

  (** One of the two loops, any schedule, hh:117-235. *)
  Definition fa_loop (evaluate : list nat -> list nat * mat K) (acc : bool) (E D : spm K) (is_halo : bool) (first n_owned nev ns nb : nat)
    (patches : list (list nat)) (m m' : spm K) : Prop :=
    ws_run (fa_worker evaluate E D is_halo first n_owned nev) (fa_copier acc) (fa_items patches) ns nb tt fcopy_empty m m'.

  (** Both loops, hh:117-238: interior patches first, then halo patches. *)
  Definition fa_corrections (evaluate : list nat -> list nat * mat K) (acc : bool) (E D : spm K) (first n_owned ns nb : nat)
    (bd : list (list nat * list nat)) (m : spm K) : Prop :=
    let nev := fa_nev n_owned (map fst bd) in
    exists m1, fa_loop evaluate acc E D false first n_owned nev ns nb (map fst bd) [] m1 /\
               fa_loop evaluate acc E D true first n_owned nev ns nb (map snd bd) m1 m.

  (** Row [first + r] of the transpose of ap, hh:241-281: eigenvalue times eigenvector row plus correction row.
      Eigenvalues beyond the list are the zeros of the freshly built vector (hh:250-256). *)
  Definition fa_ap (evals : list K) (E corr : spm K) (first r g : nat) : K :=
    (nth r evals 0 * spm_el E (first + r)%nat g + spm_el corr (first + r)%nat g)%K.
End FastAP.
Arguments fcopy_empty {K}.
