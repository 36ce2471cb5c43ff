(** Property C85: boundary ids on the mesh of an agglomerate (include/mfmg/common/amge.templates.hpp:645-698). *)
From Coq Require Import List Arith Lia Bool.
From Verif Require Import Base M_Agglo M_Bids S_Bids P_Bids.
Import ListNotations.
Set Implicit Arguments.

(** C85: on the mesh of an agglomerate, the faces of its cells on the domain boundary carry the global boundary id, all others the id 0. *)
Theorem C85_boundary_ids : forall debug g from_patch empty agg, agg <> [] -> patch_contract g agg (from_patch agg) ->
  exists p, build_agglomerate_triangulation debug g from_patch empty agg = Ok p /\
    pmap p = pmap (from_patch agg) /\ pface p = pface (from_patch agg) /\ pbound p = pbound (from_patch agg) /\
    n_faces p = n_faces (from_patch agg) /\ length (pids p) = n_faces p /\
    (forall l c f b, In (l, c) (pmap p) -> f < nf g -> In c agg -> gface g c f = Some b -> id_of p l f = b) /\
    (forall l c f, In (l, c) (pmap p) -> f < nf g -> (~ In c agg \/ gface g c f = None) -> id_of p l f = 0).
Proof. exact boundary_ids. Qed.
Print Assumptions C85_boundary_ids.

(** C85: a condition on nonzero ids holds on the same faces of the agglomerate mesh and of the global mesh, if the patch has no extra cells. *)
Theorem C85_same_conditions : forall debug g from_patch empty n id ui, (exists c, c < n /\ nth c ui 0 = id) ->
  patch_contract g (patch_by_id n id ui) (from_patch (patch_by_id n id ui)) ->
  exact_patch (patch_by_id n id ui) (from_patch (patch_by_id n id ui)) ->
  forall D, D 0 = false ->
  exists p, triangulation_of_id debug g from_patch empty n id ui = Ok p /\
    (forall c, c < n -> nth c ui 0 = id -> exists l, In (l, c) (pmap p)) /\
    (forall l c f, In (l, c) (pmap p) -> f < nf g ->
       c < n /\ nth c ui 0 = id /\ (constrained D p l f <-> constrained_global D g c f)).
Proof.
  intros debug g fp empty n id ui (c0 & Hc0 & Hi0) C X D D0.
  assert (M : forall c, In c (patch_by_id n id ui) <-> c < n /\ nth c ui 0 = id).
  { intros c. unfold patch_by_id. rewrite filter_In, in_seq, Nat.eqb_eq. intuition lia. }
  destruct (@same_conditions debug g fp empty (patch_by_id n id ui)) with (D := D) as (p & E & Em & H); auto.
  { intros Z. assert (In c0 (patch_by_id n id ui)) as I by (apply M; auto). rewrite Z in I. destruct I. }
  exists p. split; [exact E|]. split.
  - intros c Hc Hi. rewrite Em. apply (pc_all C). apply M; auto.
  - intros l c f Hl Hf. assert (In c (patch_by_id n id ui)) as I by (rewrite Em in Hl; eapply X; eauto).
    apply M in I. destruct I. repeat split; auto; apply (H l c f Hl Hf); auto.
Qed.
Print Assumptions C85_same_conditions.

(** Four cells in a row; the left end has id 1, bottom and top id 2, the right end id 3. *)
Definition row_mesh : gmesh := {| nf := 4; gface := fun c f =>
  match f with
  | 0 => if c =? 0 then Some 1 else None
  | 1 => if c =? 3 then Some 3 else None
  | _ => Some 2
  end |}.

(** The patch of the cells a and b next to each other, cells 0 and 1 of the patch. *)
Definition pair_patch (a b : nat) : patch := {| pmap := [(0, a); (1, b)]; n_faces := 7;
  pface := fun l f => nth f (if l =? 0 then [0; 1; 2; 3] else [1; 4; 5; 6]) 0;
  pbound := fun i => negb (i =? 1); pids := repeat 0 7 |}.

Lemma pair_contract : forall agg a b, a <> b -> incl agg [a; b] -> (forall c, In c [a; b] -> c < 4) ->
  S a = b -> patch_contract row_mesh agg (pair_patch a b).
Proof.
  intros agg a b N I L S1. subst b. split; simpl.
  - constructor; [simpl; intuition|]. constructor; [simpl; auto|constructor].
  - constructor; [simpl; lia|]. constructor; [simpl; auto|constructor].
  - intros c Hc. apply I in Hc. destruct Hc as [<-|[<-|[]]]; eauto.
  - intros l c f H Hf. destruct H as [H|[H|[]]]; inversion H; subst; do 4 (destruct f as [|f]; [simpl; lia|]); lia.
  - intros l c f b H Hf. assert (a < 4 /\ S a < 4) as [L1 L2] by (split; apply L; simpl; auto).
    assert (F : f = 0 \/ f = 1 \/ f = 2 \/ f = 3) by lia.
    destruct H as [H|[H|[]]]; inversion H; subst; destruct F as [->|[->|[->| ->]]]; simpl; try reflexivity; try discriminate.
    destruct (Nat.eqb_spec c 3); [lia|discriminate].
  - intros l c f l' c' f' H H' Hf Hf'.
    destruct H as [H|[H|[]]]; destruct H' as [H'|[H'|[]]]; inversion H; inversion H'; subst;
    do 4 (destruct f as [|f]; [do 4 (destruct f' as [|f']; [simpl; intros; try discriminate; auto; lia|]); lia|]); lia.
  - reflexivity.
Qed.

(** The agglomerate of the cells 0 and 1: the left end keeps id 1, the artificial right end has id 0. *)
Example C85_example :
  patch_by_id 4 1 [1; 1; 2; 2] = [0; 1] /\
  patch_contract row_mesh [0; 1] (pair_patch 0 1) /\ exact_patch [0; 1] (pair_patch 0 1) /\
  (let! p := triangulation_of_id true row_mesh (fun _ => pair_patch 0 1) (pair_patch 0 1) 4 1 [1; 1; 2; 2] in Ok (pids p)) =
  Ok [1; 0; 2; 2; 0; 2; 2].
Proof.
  split; [reflexivity|]. split; [|split; [|vm_compute; reflexivity]].
  - apply pair_contract; auto; [intros c H; exact H|]. simpl; intros; lia.
  - intros l c H. simpl in H. destruct H as [H|[H|[]]]; inversion H; subst; simpl; auto.
Qed.

(** C85: with a condition on id 0, the default id of deal.II's meshes, every artificial face of every agglomerate is constrained as well. *)
Theorem C85_id_zero : forall debug g from_patch empty agg, agg <> [] -> patch_contract g agg (from_patch agg) ->
  forall D, D 0 = true ->
  exists p, build_agglomerate_triangulation debug g from_patch empty agg = Ok p /\
    forall l c f, In (l, c) (pmap p) -> f < nf g -> gface g c f = None -> pbound p (pface p l f) = true -> constrained D p l f.
Proof. exact zero_constrains_artificial. Qed.
Print Assumptions C85_id_zero.

(** C85 for a condition on id 0 is false: the face between the cells 1 and 2 is constrained on the agglomerate of the cells 0 and 1. *)
Theorem C85_id_zero_refuted : exists g from_patch empty agg D p,
  agg <> [] /\ patch_contract g agg (from_patch agg) /\ exact_patch agg (from_patch agg) /\
  build_agglomerate_triangulation true g from_patch empty agg = Ok p /\
  exists l c f, In (l, c) (pmap p) /\ f < nf g /\ constrained D p l f /\ ~ constrained_global D g c f.
Proof.
  exists row_mesh, (fun _ => pair_patch 0 1), (pair_patch 0 1), [0; 1], (fun b => b =? 0). eexists.
  split; [discriminate|]. split; [apply C85_example|]. split; [apply C85_example|]. split; [vm_compute; reflexivity|].
  exists 1, 1, 1. simpl. split; [auto|]. split; [lia|]. split; [split; reflexivity|]. intros (b & H & _). discriminate H.
Qed.
Print Assumptions C85_id_zero_refuted.

(** C85: the faces of cells that the patch contains beside the agglomerate (hanging nodes) are never constrained. *)
Theorem C85_extra_cells : forall debug g from_patch empty agg, agg <> [] -> patch_contract g agg (from_patch agg) ->
  forall D, D 0 = false ->
  exists p, build_agglomerate_triangulation debug g from_patch empty agg = Ok p /\
    forall l c f, In (l, c) (pmap p) -> f < nf g -> ~ In c agg -> ~ constrained D p l f.
Proof. exact extra_cells_unconstrained. Qed.
Print Assumptions C85_extra_cells.

(** C85 for a patch with extra cells is false: the agglomerate of cell 0 whose patch contains cell 1 too; cell 1 is on the domain boundary. *)
Theorem C85_extra_cells_refuted : exists g from_patch empty agg D p,
  agg <> [] /\ patch_contract g agg (from_patch agg) /\ D 0 = false /\
  build_agglomerate_triangulation true g from_patch empty agg = Ok p /\
  exists l c f, In (l, c) (pmap p) /\ f < nf g /\ constrained_global D g c f /\ ~ constrained D p l f.
Proof.
  exists row_mesh, (fun _ => pair_patch 0 1), (pair_patch 0 1), [0], (fun b => b =? 2). eexists.
  split; [discriminate|]. split; [|split; [reflexivity|split; [vm_compute; reflexivity|]]].
  - apply pair_contract; auto; [|simpl; intros; lia]. intros c H. simpl in *. intuition.
  - exists 1, 1, 3. simpl. split; [auto|]. split; [lia|]. split.
    + exists 2. auto.
    + intros [_ H]. discriminate H.
Qed.
Print Assumptions C85_extra_cells_refuted.

Example C85_extra_example : patch_contract row_mesh [2] (pair_patch 1 2) /\
  (let! p := build_agglomerate_triangulation true row_mesh (fun _ => pair_patch 1 2) (pair_patch 1 2) [2] in Ok (pids p)) = Ok [0; 0; 0; 0; 0; 2; 2].
Proof.
  split; [|vm_compute; reflexivity]. apply pair_contract; auto; [|simpl; intros; lia]. intros c H. simpl in *. intuition.
Qed.
