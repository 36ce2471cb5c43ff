(** Specifications for the fast product of matrix-based evaluators on several ranks. *)
From Coq Require Import String List Arith Bool.
From Verif Require Import Base OField Mat LinAlg M_Ptree M_Agglo S_Agglo M_Restr S_Restr S_FastAP M_HostEnd S_HostEnd M_ParEnd.
Import ListNotations.
Set Implicit Arguments.
Open Scope list_scope.
Open Scope nat_scope.

Section SParFast.
  Variable K : ofield.
  (** The discretisation in the numbering of a rank. *)
  Definition host_rank_fem (F : fem K) (rk : rank_env K) : fem K := mkFem K (f_ndofs F) (fun c => f_cd F (rk_number rk c)) (fun c => f_cm F (rk_number rk c)).
  (** The cells a rank sees are cells of the mesh of all ranks, each seen once, and among them are all cells with a dof in common with a cell it owns. *)
  Definition host_sees_neighbours (F : fem K) (N : nat) (rk : rank_env K) : Prop :=
    (forall c, c < n_cells (rk_mesh rk) -> rk_number rk c < N) /\
    (forall c c', c < n_cells (rk_mesh rk) -> c' < n_cells (rk_mesh rk) -> rk_number rk c = rk_number rk c' -> c = c') /\
    (forall c d g, c < n_cells (rk_mesh rk) -> owned (rk_mesh rk) c = true -> d < N -> In g (f_cd F (rk_number rk c)) -> In g (f_cd F d) ->
       exists c', c' < n_cells (rk_mesh rk) /\ rk_number rk c' = d).
  (** On a rank all agglomerates have cells with neighbours outside them, or none has. *)
  Definition host_rank_touches (agglomerates : ptree -> list nat -> outcome (list nat * nat)) (rk : rank_env K) (conn : nat -> list nat) (p : ptree) : Prop :=
    forall agg ui n, pt_find p ["agglomeration"%string] = Some agg -> agglomerates agg (repeat 0 (n_cells (rk_mesh rk))) = Ok (ui, n) ->
      (forall a, 1 <= a <= n -> touches_others (rk_mesh rk) ui conn a) \/ (forall a, 1 <= a <= n -> ~ touches_others (rk_mesh rk) ui conn a).
  (** What the fast product needs of a rank: it sees the neighbours of its cells, its evaluator also assembles patches with ghost cells, the connectivity
      lists the neighbours, and its agglomerates are alike in having neighbours. *)
  Definition ready_for_fast (F : fem K) (N : nat) (agglomerates : ptree -> list nat -> outcome (list nat * nat)) (rk : rank_env K) (conn : nat -> list nat) (p : ptree) : Prop :=
    host_sees_neighbours F N rk /\ evaluate_ok (host_rank_fem F rk) (rk_evaluate rk) /\ connectivity_ok (host_rank_fem F rk) (rk_mesh rk) conn /\
    host_rank_touches agglomerates rk conn p.
End SParFast.
Arguments host_rank_fem {K} F rk.
Arguments host_sees_neighbours {K} F N rk.
Arguments host_rank_touches {K} agglomerates rk conn p.
Arguments ready_for_fast {K} F N agglomerates rk conn p.
