(** Properties C04 to C10, C52, C55: agglomerates (include/mfmg/common/amge.templates.hpp). *)
From Coq Require Import List Arith Lia Bool ZArith.
From Verif Require Import Base M_Agglo S_Agglo P_Agglo P_AggloBox P_Agglo2.
Import ListNotations.
Set Implicit Arguments.

(** C04: the block agglomeration returns and covers every owned cell, whatever mesh, ownership and block sizes. *)
Theorem C04_block_covers_owned_cells : forall debug dim3 m, mesh_ok debug m -> forall bx by_ bz ui, length ui = n_cells m ->
  exists ui' N, build_agglomerates_block debug dim3 m bx by_ bz ui = Ok (ui', N) /\ covers m ui ui' N.
Proof. exact block_covers. Qed.
Print Assumptions C04_block_covers_owned_cells.

Example C04_example : mesh_ok true ghost_mesh /\
  build_agglomerates_block true false ghost_mesh 2 1 1 [0; 0; 0; 0] = Ok ([1; 0; 2; 2], 2).
Proof. split; [apply ghost_mesh_ok|reflexivity]. Qed.

(** C05: on a serial box numbered in any order that grows along the axes, the agglomerates are the tiles, numbered by their first cell. *)
Theorem C05_block_tiles_box : forall debug dim3 m nx ny nz X Y Z at_ bx by_ bz0,
  box m nx ny nz X Y Z at_ -> 1 <= bx -> 1 <= by_ -> 1 <= bz0 -> (dim3 = false -> nz <= 1) ->
  let bz := if dim3 then bz0 else 1 in
  let N := ceil_div nx bx * ceil_div ny by_ * ceil_div nz bz in
  exists ui',
    build_agglomerates_block debug dim3 m bx by_ bz0 (repeat 0 (n_cells m)) = Ok (ui', N) /\
    length ui' = n_cells m /\
    (forall c, c < n_cells m -> 1 <= nth c ui' 0 <= N) /\
    (forall c d, c < n_cells m -> d < n_cells m -> (nth c ui' 0 = nth d ui' 0 <->
       (X c / bx = X d / bx /\ Y c / by_ = Y d / by_ /\ Z c / bz = Z d / bz))) /\
    (forall c d, c < n_cells m -> d < n_cells m ->
       tile_corner at_ X Y Z bx by_ bz c < tile_corner at_ X Y Z bx by_ bz d -> nth c ui' 0 < nth d ui' 0) /\
    (forall a, 1 <= a <= N -> exists c, c < n_cells m /\ nth c ui' 0 = a).
Proof. exact box_tiles_spec. Qed.
Print Assumptions C05_block_tiles_box.

(** Every lexicographic grid is a box; a 5 x 3 grid with 2 x 2 blocks. *)
Example C05_example : (forall nx ny nz, box (grid_mesh nx ny nz) nx ny nz (fun c => c mod nx) (fun c => (c / nx) mod ny)
    (fun c => c / nx / ny) (fun i j k => i + nx * (j + ny * k))) /\
  build_agglomerates_block true false (grid_mesh 5 3 1) 2 2 1 (repeat 0 15) =
    Ok ([1; 1; 2; 2; 3; 1; 1; 2; 2; 3; 4; 4; 5; 5; 6], 6).
Proof. split; [apply grid_box|vm_compute; reflexivity]. Qed.

(** C06: no id is left without a cell when cell numbers grow along the axes, for any ownership ... *)
Theorem C06_block_ids_nonempty : forall debug dim3 m, mesh_ok debug m -> mesh_monotone m ->
  forall bx by_ bz ui ui' N, length ui = n_cells m ->
  build_agglomerates_block debug dim3 m bx by_ bz ui = Ok (ui', N) ->
  forall a, 1 <= a <= N -> exists c, c < n_cells m /\ owned m c = true /\ nth c ui' 0 = a.
Proof. exact block_nonempty. Qed.
Print Assumptions C06_block_ids_nonempty.

Example C06_example : mesh_ok true ghost_mesh /\ mesh_monotone ghost_mesh.
Proof. exact ghost_mesh_ok. Qed.

(** ... but not in general. *)
Theorem C06_block_ids_nonempty_refuted : exists m, mesh_ok true m /\
  exists ui' N a, build_agglomerates_block true false m 2 1 1 [0; 0] = Ok (ui', N) /\ 1 <= a <= N /\
    forall c, c < n_cells m -> nth c ui' 0 <> a.
Proof. exists backward_mesh. exact backward_mesh_empty. Qed.
Print Assumptions C06_block_ids_nonempty_refuted.

(** C07: the partitioner path numbers the parts 1..N densely and respects the partition. *)
Theorem C07_partitioner_renumbering : forall m part ui, length ui = n_cells m -> length (owned_cells m) <= length part ->
  let po := part_of (owned m) part in
  exists ui' N, build_agglomerates_partitioner m part ui = Ok (ui', N) /\ length ui' = n_cells m /\
    (forall c, c < n_cells m -> owned m c = true -> 1 <= nth c ui' 0 <= N) /\
    (forall c d, c < n_cells m -> d < n_cells m -> owned m c = true -> owned m d = true ->
       (nth c ui' 0 = nth d ui' 0 <-> po c = po d)) /\
    (forall a, 1 <= a <= N -> exists c, c < n_cells m /\ owned m c = true /\ nth c ui' 0 = a) /\
    N = length (nodup Nat.eq_dec (map po (owned_cells m))) /\
    (forall c, owned m c = false -> nth c ui' 0 = nth c ui 0).
Proof. exact partitioner_correct. Qed.
Print Assumptions C07_partitioner_renumbering.

Example C07_example : length (owned_cells ghost_mesh) <= length [7; 3; 7; 0] /\
  build_agglomerates_partitioner ghost_mesh [7; 3; 7; 0] [0; 0; 0; 0] = Ok ([1; 0; 2; 1], 2).
Proof. split; [vm_compute; lia|reflexivity]. Qed.

(** C08: exact content of interior and halo lists. *)
Theorem C08_boundary_agglomerates_exact : forall m ui N conn, length ui = n_cells m ->
  (forall c, c < n_cells m -> owned m c = true -> 1 <= nth c ui 0 <= N) ->
  exists res, build_boundary_agglomerates m ui N conn = Ok res /\ length res = N /\
    forall a, 1 <= a <= N -> let '(interior, halo) := nth (a - 1) res ([], []) in
      increasing interior /\ increasing halo /\
      (forall c, In c interior <-> (in_agg m ui a c /\ exists d, In d (conn c) /\ ~ in_agg m ui a d)) /\
      (forall d, In d halo <-> (~ in_agg m ui a d /\ exists c, in_agg m ui a c /\ In d (conn c))).
Proof. exact boundary_correct. Qed.
Print Assumptions C08_boundary_agglomerates_exact.

(** A row of six cells in agglomerates of three: the cells next to the cut are found. *)
Example C08_example : build_boundary_agglomerates (grid_mesh 6 1 1) [1; 1; 1; 2; 2; 2] 2 (fun c => [c - 1; c; c + 1]) =
  Ok [([2], [3]); ([3; 5], [2; 6])].
Proof. reflexivity. Qed.

(** C09: patches by id, patches by index list, and the index lists the code itself produces. *)
Theorem C09_patch_by_id_exact : forall n id ui, length ui = n ->
  increasing (patch_by_id n id ui) /\ forall c, In c (patch_by_id n id ui) <-> nth_error ui c = Some id.
Proof. exact patch_by_id_spec. Qed.
Print Assumptions C09_patch_by_id_exact.

Theorem C09_patch_by_index_exact : forall n l, (Z.of_nat n < 2 ^ 32)%Z -> (forall x, In x l -> (Z.of_nat x < 2 ^ 32)%Z) ->
  ((nondecreasing l /\ forall x, In x l -> x < n) -> patch_by_index n l = Ok l) /\
  (~ (nondecreasing l /\ forall x, In x l -> x < n) -> patch_by_index n l = UB).
Proof. exact patch_by_index_spec. Qed.
Print Assumptions C09_patch_by_index_exact.

Theorem C09_boundary_patches_stay_in_mesh : forall m ui N conn res, (Z.of_nat (n_cells m) < 2 ^ 32)%Z -> length ui = n_cells m ->
  (forall c, c < n_cells m -> owned m c = true -> 1 <= nth c ui 0 <= N) ->
  (forall c d, In d (conn c) -> d < n_cells m) ->
  build_boundary_agglomerates m ui N conn = Ok res ->
  forall interior halo, In (interior, halo) res ->
    patch_by_index (n_cells m) interior = Ok interior /\ patch_by_index (n_cells m) halo = Ok halo.
Proof. exact boundary_patches_ok. Qed.
Print Assumptions C09_boundary_patches_stay_in_mesh.

Example C09_example : patch_by_index 9 [1; 4; 4; 8] = Ok [1; 4; 4; 8] /\ patch_by_index 9 [4; 1] = UB /\
  patch_by_id 4 2 [1; 2; 0; 2] = [1; 3].
Proof. vm_compute. auto. Qed.

(** C10: the dof map of a consistent patch is the map of locations; an unknown patch cell throws. *)
Theorem C10_dof_index_map_correct : forall n_dofs dpc agg_dofs glob_dofs cells (g : nat -> nat),
  (forall c, In c cells -> length (agg_dofs c) = dpc /\ (forall a, In a (agg_dofs c) -> a < n_dofs) /\
     glob_dofs c = Some (map g (agg_dofs c))) ->
  (forall a, a < n_dofs -> exists c, In c cells /\ In a (agg_dofs c)) ->
  compute_dof_index_map n_dofs dpc agg_dofs glob_dofs cells = Ok (map g (seq 0 n_dofs)).
Proof. exact dof_map_correct. Qed.
Print Assumptions C10_dof_index_map_correct.

Theorem C10_unknown_patch_cell_throws : forall n_dofs dpc agg_dofs glob_dofs c t, glob_dofs c = None ->
  compute_dof_index_map n_dofs dpc agg_dofs glob_dofs (c :: t) = Throw.
Proof. exact dof_map_unknown. Qed.
Print Assumptions C10_unknown_patch_cell_throws.

(** Two cells sharing the patch dof 1; patch dof a lives at global dof 10 - 2a. *)
Example C10_example : compute_dof_index_map 3 2 (fun c => [c; S c]) (fun c => Some [10 - 2 * c; 8 - 2 * c]) [0; 1] = Ok [10; 8; 6].
Proof. reflexivity. Qed.

(** C52: the visualisation record lists every rank's file if and only if there is at most one rank. *)
Theorem C52_pvtu_record_correct_iff : forall name n,
  pvtu_list name n = Ok (map (fun i => Some (name i)) (seq 0 n)) <-> n <= 1.
Proof. exact pvtu_correct_iff. Qed.
Print Assumptions C52_pvtu_record_correct_iff.

Theorem C52_pvtu_record_content : forall name n, pvtu_list name (S n) = Ok (Some (name n) :: repeat None n).
Proof. exact pvtu_list_spec. Qed.
Print Assumptions C52_pvtu_record_content.

Example C52_example : pvtu_list (fun i => i) 3 = Ok [Some 2; None; None].
Proof. reflexivity. Qed.

(** C55: agglomerating the same mesh again returns zero agglomerates and changes nothing. *)
Theorem C55_second_block_agglomeration_is_empty : forall debug dim3 m bx by_ bz bx' by_' bz' ui ui1 N, mesh_ok debug m -> length ui = n_cells m ->
  (forall c, c < n_cells m -> owned m c = true -> nth c ui 0 = 0) ->
  build_agglomerates_block debug dim3 m bx by_ bz ui = Ok (ui1, N) ->
  build_agglomerates_block debug dim3 m bx' by_' bz' ui1 = Ok (ui1, 0).
Proof. exact block_second_call. Qed.
Print Assumptions C55_second_block_agglomeration_is_empty.

Example C55_example : build_agglomerates_block true false (grid_mesh 2 2 1) 2 1 1 [0; 0; 0; 0] = Ok ([1; 1; 2; 2], 2) /\
  build_agglomerates_block true false (grid_mesh 2 2 1) 2 2 1 [1; 1; 2; 2] = Ok ([1; 1; 2; 2], 0).
Proof. split; reflexivity. Qed.
