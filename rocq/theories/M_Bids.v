(** Model of the transfer of boundary ids to the mesh of an agglomerate, include/mfmg/common/amge.templates.hpp:645-698. *)
From Coq Require Import List Arith Bool.
From Verif Require Import Base M_Agglo.
Import ListNotations.
Set Implicit Arguments.

(** The global mesh as the function sees it (no counterpart in /repo): [nf] faces per cell, GeometryInfo<dim>::faces_per_cell, and for the
    face [f] of the cell [c] either [None] (cell->face(f)->at_boundary() is false) or its boundary id, amge.templates.hpp:663-671. *)
Record gmesh := {
  nf : nat;
  gface : nat -> nat -> option nat
}.

(** cell->at_boundary(), amge.templates.hpp:662: some face of the cell lies on the boundary. *)
Definition at_boundary (g : gmesh) (c : nat) : bool :=
  existsb (fun f => match gface g c f with Some _ => true | None => false end) (seq 0 (nf g)).

(** [boundary_ids[cell].push_back(x)] on the std::map, whose entries are ordered by their keys, amge.templates.hpp:669. *)
Fixpoint map_push (k : nat) (x : nat * nat) (m : list (nat * list (nat * nat))) : list (nat * list (nat * nat)) :=
  match m with
  | [] => [(k, [x])]
  | (k', v) :: t =>
    if k =? k' then (k', v ++ [x]) :: t
    else if k <? k' then (k, [x]) :: m
    else (k', v) :: map_push k x t
  end.

(** The loop over the faces of one cell, amge.templates.hpp:664-673; [k] faces remain, [f] is the next one. *)
Fixpoint collect_faces (g : gmesh) (c k f : nat) (m : list (nat * list (nat * nat))) : list (nat * list (nat * nat)) :=
  match k with
  | 0 => m
  | S k' => collect_faces g c k' (S f) (match gface g c f with Some b => map_push c (f, b) m | None => m end)
  end.

(** The loop over the cells, amge.templates.hpp:661-674. *)
Fixpoint collect_cells (g : gmesh) (agg : list nat) (m : list (nat * list (nat * nat))) : list (nat * list (nat * nat)) :=
  match agg with
  | [] => m
  | c :: t => collect_cells g t (if at_boundary g c then collect_faces g c (nf g) 0 m else m)
  end.

(** The mesh of the agglomerate (no counterpart in /repo): the map from its active cells to global cells in the order of its keys, the number
    of faces, the face with local number [f] of a cell, whether a face lies on the boundary of the agglomerate mesh, and the boundary ids. *)
Record patch := {
  pmap : list (nat * nat);
  n_faces : nat;
  pface : nat -> nat -> nat;
  pbound : nat -> bool;
  pids : list nat
}.

(** std::find_if over agglomerate_to_global_tria_map, amge.templates.hpp:687-692. *)
Definition find_agg_cell (pm : list (nat * nat)) (c : nat) : option (nat * nat) :=
  find (fun e => snd e =? c) pm.

(** face->set_boundary_id(b), amge.templates.hpp:695-696.  deal.II asserts in debug builds that the face is at the boundary. *)
Definition set_boundary_id (debug : bool) (p : patch) (i b : nat) (ids : list nat) : outcome (list nat) :=
  let! _ := assert_dbg debug (pbound p i) in
  wr ids i b.

(** The loop over the faces of one boundary cell, amge.templates.hpp:694-696. *)
Fixpoint copy_faces (debug : bool) (p : patch) (l : nat) (fs : list (nat * nat)) (ids : list nat) : outcome (list nat) :=
  match fs with
  | [] => Ok ids
  | (f, b) :: t =>
    let! ids1 := set_boundary_id debug p (pface p l f) b ids in
    copy_faces debug p l t ids1
  end.

(** The loop over the boundary cells, amge.templates.hpp:683-697. *)
Fixpoint copy_cells (debug : bool) (p : patch) (m : list (nat * list (nat * nat))) (ids : list nat) : outcome (list nat) :=
  match m with
  | [] => Ok ids
  | (c, fs) :: t =>
    match find_agg_cell (pmap p) c with
    | Some (l, _) =>
      let! ids1 := copy_faces debug p l fs ids in
      copy_cells debug p t ids1
    | None => copy_cells debug p t ids
    end
  end.

(** [build_agglomerate_triangulation(agglomerate, ...)], amge.templates.hpp:645-698.  [from_patch] is
    GridTools::build_triangulation_from_patch, lines 680-681; [empty] the mesh and the map passed by the caller, which an empty agglomerate leaves
    untouched, lines 654-655. *)
Definition build_agglomerate_triangulation (debug : bool) (g : gmesh) (from_patch : list nat -> patch) (empty : patch) (agg : list nat)
  : outcome patch :=
  match agg with
  | [] => Ok empty
  | _ :: _ =>
    let m := collect_cells g agg [] in
    let p := from_patch agg in
    let! ids := copy_cells debug p m (pids p) in
    Ok {| pmap := pmap p; n_faces := n_faces p; pface := pface p; pbound := pbound p; pids := ids |}
  end.

(** The overload for one agglomerate id, amge.templates.hpp:153-169. *)
Definition triangulation_of_id (debug : bool) (g : gmesh) (from_patch : list nat -> patch) (empty : patch) (n id : nat) (ui : list nat)
  : outcome patch :=
  build_agglomerate_triangulation debug g from_patch empty (patch_by_id n id ui).

(** The overload for a list of cell numbers, amge.templates.hpp:171-197. *)
Definition triangulation_of_cells (debug : bool) (g : gmesh) (from_patch : list nat -> patch) (empty : patch) (n : nat) (cells : list nat)
  : outcome patch :=
  let! agg := patch_by_index n cells in
  build_agglomerate_triangulation debug g from_patch empty agg.
