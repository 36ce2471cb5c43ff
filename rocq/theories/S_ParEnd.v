(** Specifications for the restriction on several ranks. *)
From Coq Require Import String List Arith Bool Permutation.
From Verif Require Import Base OField Mat LinAlg M_Ptree M_Agglo S_Agglo M_Restr S_FastAP S_HostEnd S_Rate M_ParEnd.
Import ListNotations.
Set Implicit Arguments.
Open Scope list_scope.
Open Scope nat_scope.

Section SParEnd.
  Variable K : ofield.
  (** Every cell of the mesh of all ranks has one owner. *)
  Definition ranks_cover (N : nat) (ranks : list (rank_env K)) : Prop :=
    Permutation (flat_map (fun rk => map (rk_number rk) (owned_cells (rk_mesh rk))) ranks) (seq 0 N).
  (** One rank: its part of the mesh is in order, the partitioners answer for all its cells, its evaluator assembles the matrices of the cells it owns, and
      it can read the diagonal at the dofs of these cells. *)
  Definition rank_ok (debug : bool) (F : fem K) (D : nat -> K) (rk : rank_env K) : Prop :=
    mesh_ok debug (rk_mesh rk) /\
    (forall k, length (owned_cells (rk_mesh rk)) <= length (rk_partition rk k)) /\
    (forall cells, NoDup cells -> incl cells (owned_cells (rk_mesh rk)) ->
       patch_ok F (map (rk_number rk) cells) (fst (rk_evaluate rk cells)) (snd (rk_evaluate rk cells))) /\
    (forall cells, rk_constrained rk cells = []) /\
    (forall c g, In c (owned_cells (rk_mesh rk)) -> In g (f_cd F (rk_number rk c)) -> rk_gd rk g = Some (D g)).
  (** As [rank_ok], with any constrained dofs. *)
  Definition rank_ready (debug : bool) (F : fem K) (D : nat -> K) (rk : rank_env K) : Prop :=
    mesh_ok debug (rk_mesh rk) /\
    (forall k, length (owned_cells (rk_mesh rk)) <= length (rk_partition rk k)) /\
    (forall cells, NoDup cells -> incl cells (owned_cells (rk_mesh rk)) ->
       patch_ok F (map (rk_number rk) cells) (fst (rk_evaluate rk cells)) (snd (rk_evaluate rk cells))) /\
    (forall c g, In c (owned_cells (rk_mesh rk)) -> In g (f_cd F (rk_number rk c)) -> rk_gd rk g = Some (D g)).
End SParEnd.
Arguments ranks_cover {K} N ranks.
Arguments rank_ok {K} debug F D rk.
Arguments rank_ready {K} debug F D rk.
