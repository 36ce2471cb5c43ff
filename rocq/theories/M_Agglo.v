(** Model of the agglomeration code, include/mfmg/common/amge.templates.hpp:51-225, 412-594.
    Active cells are numbered 0..n-1 in iteration order (= active_cell_index).  User indices are a list, one per active cell. *)
From Coq Require Import List Arith Bool ZArith.
From Verif Require Import Base.
Import ListNotations.
Set Implicit Arguments.

(** What lies behind a face of a cell: the domain boundary, an active cell (with the flag "has the level of the cell
    the block started from"), or a refined, i.e. inactive, cell.  Abstraction of cell->at_boundary(f), cell->neighbor(f),
    neighbor->active(), neighbor->level(); amge.templates.hpp:445-484. *)
Inductive face :=
| FBoundary
| FCell (c : nat) (same_level : bool)
| FInactive.

(** The part of the deal.II mesh the code looks at (no counterpart in /repo).  [fx], [fy], [fz] are the faces x_p = 1,
    y_p = 3, z_p = 5 of amge.templates.hpp:418-420.  Simplification: the level comparison is against the neighbour's own cell, not
    against the first cell of the block; the two agree as long as nothing was thrown. *)
Record mesh := {
  n_cells : nat;
  owned : nat -> bool;
  fx : nat -> face;
  fy : nat -> face;
  fz : nat -> face
}.

(** x step, amge.templates.hpp:445-458: [None] is [break], [Some c] the cell to go on with.  The debug check precedes the ownership
    test.  In release builds an inactive neighbour is used although deal.II forbids it: UB. *)
Definition step_x (debug : bool) (m : mesh) (cur : nat) : outcome (option nat) :=
  match fx m cur with
  | FBoundary => Ok None
  | FInactive => if debug then Throw else UB
  | FCell nb same =>
    if debug && negb same then Throw
    else if owned m nb then Ok (Some nb) else Ok (Some cur)
  end.

(** y and z steps, amge.templates.hpp:463-475 and 477-489: the ownership test precedes the debug check.
    An inactive neighbour is asked for its owner first, which deal.II's own debug assertion rejects: Throw in debug, UB in release. *)
Definition step_yz (debug : bool) (m : mesh) (f : face) (cur : nat) : outcome (option nat) :=
  match f with
  | FBoundary => Ok None
  | FInactive => if debug then Throw else UB
  | FCell nb same =>
    if owned m nb then (if debug && negb same then Throw else Ok (Some nb)) else Ok (Some cur)
  end.

(** Innermost loop over i, amge.templates.hpp:442-461; [k] iterations remain. *)
Fixpoint loop_x (debug : bool) (m : mesh) (agg k cur : nat) (ui : list nat) : outcome (list nat) :=
  match k with
  | 0 => Ok ui
  | S k' =>
    let! ui1 := wr ui cur agg in
    let! nx := step_x debug m cur in
    match nx with
    | None => Ok ui1
    | Some c => loop_x debug m agg k' c ui1
    end
  end.

(** Loop over j, amge.templates.hpp:439-476. *)
Fixpoint loop_y (debug : bool) (m : mesh) (agg bx k cur : nat) (ui : list nat) : outcome (list nat) :=
  match k with
  | 0 => Ok ui
  | S k' =>
    let! ui1 := loop_x debug m agg bx cur ui in
    let! nx := step_yz debug m (fy m cur) cur in
    match nx with
    | None => Ok ui1
    | Some c => loop_y debug m agg bx k' c ui1
    end
  end.

(** Loop over k, amge.templates.hpp:436-490; in two dimensions the loop ends after the first iteration ([dim3] = (dim == 3)). *)
Fixpoint loop_z (debug dim3 : bool) (m : mesh) (agg bx by_ k cur : nat) (ui : list nat) : outcome (list nat) :=
  match k with
  | 0 => Ok ui
  | S k' =>
    let! ui1 := loop_y debug m agg bx by_ cur ui in
    if dim3 then
      let! nx := step_yz debug m (fz m cur) cur in
      match nx with
      | None => Ok ui1
      | Some c => loop_z debug dim3 m agg bx by_ k' c ui1
      end
    else Ok ui1
  end.

(** Body of the cell loop for a cell without id, amge.templates.hpp:433-490.  [bz] is agglomerate_dim.back() (435). *)
Definition mark_block (debug dim3 : bool) (m : mesh) (bx by_ bz agg cell : nat) (ui : list nat) : outcome (list nat) :=
  let! ui1 := wr ui cell agg in
  loop_z debug dim3 m agg bx by_ (if dim3 then bz else 1) cell ui1.

(** Loop over all active cells, amge.templates.hpp:424-494: [k] cells remain, [cell] is the current one. *)
Fixpoint block_loop (debug dim3 : bool) (m : mesh) (bx by_ bz k cell agg : nat) (ui : list nat)
  : outcome (list nat * nat) :=
  match k with
  | 0 => Ok (ui, agg)
  | S k' =>
    let! u := rd ui cell in
    if owned m cell && (u =? 0) then
      let! ui1 := mark_block debug dim3 m bx by_ bz agg cell ui in
      block_loop debug dim3 m bx by_ bz k' (S cell) (S agg) ui1
    else block_loop debug dim3 m bx by_ bz k' (S cell) agg ui
  end.

(** [build_agglomerates_block], amge.templates.hpp:412-499: user indices after the call and the returned number. *)
Definition build_agglomerates_block (debug dim3 : bool) (m : mesh) (bx by_ bz : nat) (ui : list nat)
  : outcome (list nat * nat) :=
  let! (ui1, agg) := block_loop debug dim3 m bx by_ bz (n_cells m) 0 1 ui in
  Ok (ui1, agg - 1).

(** Lookup in [agglomerate_renumbering] (std::unordered_map), amge.templates.hpp:569,576. *)
Fixpoint assoc (k : nat) (l : list (nat * nat)) : option nat :=
  match l with
  | [] => None
  | (a, b) :: t => if a =? k then Some b else assoc k t
  end.

(** Renumbering loop of the partitioner path, amge.templates.hpp:570-589.  [idx] is the running local index that [index_map]
    (517-527) stores for the owned cells; simplification: the map keyed by (level, index) is replaced by the position among the
    owned cells, which is what it holds.  [part] is partition_indices (562). *)
Fixpoint renumber_loop (ow : nat -> bool) (part : list nat) (k cell idx n : nat) (ren : list (nat * nat))
  (ui : list nat) : outcome (list nat * nat) :=
  match k with
  | 0 => Ok (ui, n)
  | S k' =>
    if ow cell then
      let! p := rd part idx in
      match assoc p ren with
      | None =>
        let! ui1 := wr ui cell (S n) in
        renumber_loop ow part k' (S cell) (S idx) (S n) ((p, S n) :: ren) ui1
      | Some id =>
        let! ui1 := wr ui cell id in
        renumber_loop ow part k' (S cell) (S idx) n ren ui1
      end
    else renumber_loop ow part k' (S cell) idx n ren ui
  end.

(** [build_agglomerates_partitioner], amge.templates.hpp:501-594.  [part] is whatever the external partitioner returned
    (562-564); it has n_active_cells entries, of which the first #owned are used. *)
Definition build_agglomerates_partitioner (m : mesh) (part : list nat) (ui : list nat) : outcome (list nat * nat) :=
  renumber_loop (owned m) part (n_cells m) 0 0 0 [] ui.

(** [std::set::insert], used at amge.templates.hpp:104,140: sorted insertion without repetition. *)
Fixpoint set_insert (x : nat) (l : list nat) : list nat :=
  match l with
  | [] => [x]
  | y :: t => if x <? y then x :: l else if x =? y then l else y :: set_insert x t
  end.

(** [std::set::count] as a boolean, amge.templates.hpp:132. *)
Definition set_mem (x : nat) (l : list nat) : bool := existsb (Nat.eqb x) l.

(** First loop, amge.templates.hpp:95-105: cells of every agglomerate.  user_index 0 makes the unsigned index wrap around,
    an id above the number of agglomerates is out of range as well: UB. *)
Fixpoint agg_cells_loop (ow : nat -> bool) (ui : list nat) (k cell : nat) (acc : list (list nat))
  : outcome (list (list nat)) :=
  match k with
  | 0 => Ok acc
  | S k' =>
    if ow cell then
      let! u := rd ui cell in
      match u with
      | 0 => UB
      | S a =>
        let! s := rd acc a in
        let! acc1 := wr acc a (set_insert cell s) in
        agg_cells_loop ow ui k' (S cell) acc1
      end
    else agg_cells_loop ow ui k' (S cell) acc
  end.

(** Connectivity loop of one cell, amge.templates.hpp:122-142. State: flag cell_in_agg, interior list, halo set. *)
Fixpoint conn_loop (agg_cell : list nat) (cell : nat) (conn : list nat) (st : bool * list nat * list nat)
  : bool * list nat * list nat :=
  match conn with
  | [] => st
  | c :: t =>
    let '(in_agg, interior, halo) := st in
    if set_mem c agg_cell then conn_loop agg_cell cell t st
    else
      let '(in_agg', interior') := if in_agg then (in_agg, interior) else (true, interior ++ [cell]) in
      conn_loop agg_cell cell t (in_agg', interior', set_insert c halo)
  end.

(** Loop over the cells of one agglomerate, amge.templates.hpp:117-143. *)
Fixpoint agg_loop (conn : nat -> list nat) (agg_cell cells : list nat) (interior halo : list nat)
  : list nat * list nat :=
  match cells with
  | [] => (interior, halo)
  | c :: t =>
    let '(_, interior1, halo1) := conn_loop agg_cell c (conn c) (false, interior, halo) in
    agg_loop conn agg_cell t interior1 halo1
  end.

(** [build_boundary_agglomerates], amge.templates.hpp:87-151.  [conn c] lists the columns of row c of the vertex connectivity computed by
    deal.II (107-109).  Returns one (interior, halo) pair per agglomerate. *)
Definition build_boundary_agglomerates (m : mesh) (ui : list nat) (n_agg : nat) (conn : nat -> list nat)
  : outcome (list (list nat * list nat)) :=
  let! sets := agg_cells_loop (owned m) ui (n_cells m) 0 (repeat [] n_agg) in
  Ok (map (fun s => agg_loop conn s s [] []) sets).

(** [build_agglomerate_triangulation(id, ...)], amge.templates.hpp:153-169: the cells collected for the patch. *)
Definition patch_by_id (n id : nat) (ui : list nat) : list nat :=
  filter (fun c => nth c ui 0 =? id) (seq 0 n).

(** [std::advance(cell, d)] on the active cell iterator, amge.templates.hpp:185,190.  [d] is an unsigned int, widened to the
    64-bit difference type of the iterator, hence never negative; moving beyond the end iterator is UB. *)
Definition advance (n cell : nat) (d : Z) : outcome nat :=
  if (0 <=? d)%Z && (Z.of_nat cell + d <=? Z.of_nat n)%Z then Ok (Z.to_nat (Z.of_nat cell + d)) else UB.

(** unsigned int subtraction (32 bit), amge.templates.hpp:190. *)
Definition usub (a b : nat) : Z := ((Z.of_nat a - Z.of_nat b) mod 2 ^ 32)%Z.

(** Dereferencing the collected iterator (later use at 655-672): the end iterator is not a cell. *)
Definition deref (n cell : nat) : outcome nat := if cell <? n then Ok cell else UB.

(** Loop of amge.templates.hpp:188-192. *)
Fixpoint patch_loop (n prev cell : nat) (l acc : list nat) : outcome (list nat) :=
  match l with
  | [] => Ok acc
  | x :: t =>
    let! c := advance n cell (usub x prev) in
    let! c' := deref n c in
    patch_loop n x c' t (acc ++ [c'])
  end.

(** [build_agglomerate_triangulation(cell_index, ...)], amge.templates.hpp:171-197: the cells collected for the patch. *)
Definition patch_by_index (n : nat) (cell_index : list nat) : outcome (list nat) :=
  match cell_index with
  | [] => Ok []
  | x :: t =>
    let! c := advance n 0 (Z.of_nat x) in
    let! c' := deref n c in
    patch_loop n x c' t [c']
  end.

(** Inner loop of [compute_dof_index_map], amge.templates.hpp:220-221. *)
Fixpoint dof_inner (agg_dofs glob_dofs : list nat) (k i : nat) (map : list nat) : outcome (list nat) :=
  match k with
  | 0 => Ok map
  | S k' =>
    let! a := rd agg_dofs i in
    let! g := rd glob_dofs i in
    let! map1 := wr map a g in
    dof_inner agg_dofs glob_dofs k' (S i) map1
  end.

(** Cell loop, amge.templates.hpp:215-222.  [cells] are the patch cells, [agg_dofs c] the dofs of patch cell c,
    [glob_dofs c] those of the mesh cell it maps to (patch_to_global_map.at throws if the patch cell is unknown: [None]). *)
Fixpoint dof_cells (dofs_per_cell : nat) (agg_dofs : nat -> list nat) (glob_dofs : nat -> option (list nat))
  (cells : list nat) (map : list nat) : outcome (list nat) :=
  match cells with
  | [] => Ok map
  | c :: t =>
    match glob_dofs c with
    | None => Throw
    | Some g =>
      let! map1 := dof_inner (agg_dofs c) g dofs_per_cell 0 map in
      dof_cells dofs_per_cell agg_dofs glob_dofs t map1
    end
  end.

(** [compute_dof_index_map], amge.templates.hpp:199-225; the vector starts filled with zeros (207-208). *)
Definition compute_dof_index_map (n_dofs dofs_per_cell : nat) (agg_dofs : nat -> list nat)
  (glob_dofs : nat -> option (list nat)) (cells : list nat) : outcome (list nat) :=
  dof_cells dofs_per_cell agg_dofs glob_dofs cells (repeat 0 n_dofs).

(** File name list of [output], amge.templates.hpp:262-265: every iteration assigns entry 0.  [name i] is
    filename + i + ".vtu"; entries start out as empty strings ([None]). *)
Fixpoint pvtu_loop (name : nat -> nat) (k i : nat) (l : list (option nat)) : outcome (list (option nat)) :=
  match k with
  | 0 => Ok l
  | S k' => let! l1 := wr l 0 (Some (name i)) in pvtu_loop name k' (S i) l1
  end.

(** The list handed to write_pvtu_record, amge.templates.hpp:260-267. *)
Definition pvtu_list (name : nat -> nat) (comm_size : nat) : outcome (list (option nat)) :=
  pvtu_loop name comm_size 0 (repeat None comm_size).
