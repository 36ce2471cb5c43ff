(** Specifications for the agglomeration code, independent of the loops in M_Agglo.v. *)
From Coq Require Import List Arith Bool Sorted.
From Verif Require Import Base M_Agglo.
Import ListNotations.
Set Implicit Arguments.

(** A face that points into the mesh, to an active cell; in debug builds to one on the same level (no local refinement). *)
Definition face_ok (debug : bool) (n : nat) (f : face) : Prop :=
  match f with
  | FBoundary => True
  | FCell c same => c < n /\ (debug = true -> same = true)
  | FInactive => False
  end.

(** A mesh without local refinement. *)
Definition mesh_ok (debug : bool) (m : mesh) : Prop :=
  forall c, c < n_cells m -> face_ok debug (n_cells m) (fx m c) /\ face_ok debug (n_cells m) (fy m c) /\ face_ok debug (n_cells m) (fz m c).

(** Cell numbers grow in the positive axis directions (true for deal.II's numbering of a refined box). *)
Definition mesh_monotone (m : mesh) : Prop :=
  forall c nb s, c < n_cells m -> fx m c = FCell nb s \/ fy m c = FCell nb s \/ fz m c = FCell nb s -> c < nb.

(** Every owned cell that had no id now has one in 1..n; an owned cell that had one keeps it or has a new one; other cells keep their index. *)
Definition covers (m : mesh) (ui ui' : list nat) (n : nat) : Prop :=
  length ui' = length ui /\
  (forall c, c < n_cells m -> owned m c = true -> nth c ui 0 = 0 -> 1 <= nth c ui' 0 <= n) /\
  (forall c, c < n_cells m -> owned m c = true -> nth c ui 0 <> 0 -> nth c ui' 0 = nth c ui 0 \/ 1 <= nth c ui' 0 <= n) /\
  (forall c, owned m c = false -> nth c ui' 0 = nth c ui 0).

(** A serial structured box of nx * ny * nz cells: [at_] maps coordinates to cell numbers, [X],[Y],[Z] back.
    The numbering is any one that grows along the axes (lexicographic, or the hierarchical one of deal.II). *)
Record box (m : mesh) (nx ny nz : nat) (X Y Z : nat -> nat) (at_ : nat -> nat -> nat -> nat) : Prop := {
  box_coord : forall c, c < n_cells m -> X c < nx /\ Y c < ny /\ Z c < nz /\ at_ (X c) (Y c) (Z c) = c;
  box_at : forall i j k, i < nx -> j < ny -> k < nz ->
     at_ i j k < n_cells m /\ X (at_ i j k) = i /\ Y (at_ i j k) = j /\ Z (at_ i j k) = k;
  box_mono : forall i j k i' j' k', i <= i' -> j <= j' -> k <= k' -> i' < nx -> j' < ny -> k' < nz ->
     at_ i j k <= at_ i' j' k';
  box_owned : forall c, c < n_cells m -> owned m c = true;
  box_fx : forall c, c < n_cells m -> fx m c = if S (X c) <? nx then FCell (at_ (S (X c)) (Y c) (Z c)) true else FBoundary;
  box_fy : forall c, c < n_cells m -> fy m c = if S (Y c) <? ny then FCell (at_ (X c) (S (Y c)) (Z c)) true else FBoundary;
  box_fz : forall c, c < n_cells m -> fz m c = if S (Z c) <? nz then FCell (at_ (X c) (Y c) (S (Z c))) true else FBoundary
}.

(** ceil(n / b) *)
Definition ceil_div (n b : nat) : nat := (n + b - 1) / b.

(** Lists that are strictly increasing. *)
Definition increasing (l : list nat) : Prop := StronglySorted lt l.

(** Exact content of the boundary agglomerates of agglomerate [a]. *)
Definition in_agg (m : mesh) (ui : list nat) (a c : nat) : Prop :=
  c < n_cells m /\ owned m c = true /\ nth c ui 0 = a.

(** First cell of the tile of size bx * by_ * bz that contains cell [c]. *)
Definition tile_corner (at_ : nat -> nat -> nat -> nat) (X Y Z : nat -> nat) (bx by_ bz c : nat) : nat :=
  at_ (X c / bx * bx) (Y c / by_ * by_) (Z c / bz * bz).

(** Part of owned cell [c]: entry number (owned cells before c) of the partitioner's output. *)
Definition part_of (ow : nat -> bool) (part : list nat) (c : nat) : nat :=
  nth (length (filter ow (seq 0 c))) part 0.

(** Owned cells in iteration order. *)
Definition owned_cells (m : mesh) : list nat := filter (owned m) (seq 0 (n_cells m)).

(** Lists that are nondecreasing. *)
Definition nondecreasing (l : list nat) : Prop := StronglySorted le l.
