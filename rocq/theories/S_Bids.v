(** Specification of the boundary ids on the mesh of an agglomerate, independent of the loops in M_Bids.v. *)
From Coq Require Import List Arith Bool.
From Verif Require Import Base M_Bids.
Import ListNotations.
Set Implicit Arguments.

(** What deal.II's build_triangulation_from_patch promises for the cells [agg]: distinct cells of the patch stand for distinct global cells, every
    cell of [agg] is present, faces are numbered as in the global cell, a face on the domain boundary is on the boundary of the patch and belongs
    to one cell only, and all ids are 0, the default of a new mesh. *)
Record patch_contract (g : gmesh) (agg : list nat) (p : patch) : Prop := {
  pc_global : NoDup (map snd (pmap p));
  pc_local : NoDup (map fst (pmap p));
  pc_all : forall c, In c agg -> exists l, In (l, c) (pmap p);
  pc_face : forall l c f, In (l, c) (pmap p) -> f < nf g -> pface p l f < n_faces p;
  pc_boundary : forall l c f b, In (l, c) (pmap p) -> f < nf g -> gface g c f = Some b -> pbound p (pface p l f) = true;
  pc_single : forall l c f l' c' f', In (l, c) (pmap p) -> In (l', c') (pmap p) -> f < nf g -> f' < nf g ->
     pbound p (pface p l f) = true -> pface p l f = pface p l' f' -> l = l' /\ f = f';
  pc_ids : pids p = repeat 0 (n_faces p)
}.

(** The boundary id of the face [f] of the patch cell [l]. *)
Definition id_of (p : patch) (l f : nat) : nat := nth (pface p l f) (pids p) 0.

(** The patch has no cell outside the agglomerate (no hanging nodes). *)
Definition exact_patch (agg : list nat) (p : patch) : Prop := forall l c, In (l, c) (pmap p) -> In c agg.

(** A user who imposes a condition on the boundary faces with an id in [D] meets the face [f] of the patch cell [l]. *)
Definition constrained (D : nat -> bool) (p : patch) (l f : nat) : Prop := pbound p (pface p l f) = true /\ D (id_of p l f) = true.

(** The same condition on the global mesh. *)
Definition constrained_global (D : nat -> bool) (g : gmesh) (c f : nat) : Prop := exists b, gface g c f = Some b /\ D b = true.
