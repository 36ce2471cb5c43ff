(** Specifications for the fast product on several ranks. *)
From Coq Require Import String List Arith Bool.
From Verif Require Import Base OField Mat LinAlg M_Ptree M_Agglo S_Agglo M_Restr S_Restr S_FastAP M_HostEnd S_HostEnd S_Lanczos S_Eig S_MfEnd M_ParMfEnd.
Import ListNotations.
Set Implicit Arguments.
Open Scope list_scope.
Open Scope nat_scope.

Section SParMfFast.
  Variable K : ofield.
  (** The discretisation in the numbering of a rank. *)
  Definition rank_fem (F : fem K) (rk : mf_rank K) : fem K := mkFem K (f_ndofs F) (fun c => f_cd F (mr_number rk c)) (fun c => f_cm F (mr_number rk c)).
  (** The cells a rank sees are cells of the mesh of all ranks, each seen once, and among them are all cells with a dof in common with a cell it owns. *)
  Definition sees_neighbours (F : fem K) (N : nat) (rk : mf_rank K) : Prop :=
    (forall c, c < n_cells (mr_mesh rk) -> mr_number rk c < N) /\
    (forall c c', c < n_cells (mr_mesh rk) -> c' < n_cells (mr_mesh rk) -> mr_number rk c = mr_number rk c' -> c = c') /\
    (forall c d g, c < n_cells (mr_mesh rk) -> owned (mr_mesh rk) c = true -> d < N -> In g (f_cd F (mr_number rk c)) -> In g (f_cd F d) ->
       exists c', c' < n_cells (mr_mesh rk) /\ mr_number rk c' = d).
  (** On a rank all agglomerates have cells with neighbours outside them, or none has. *)
  Definition rank_touches (agglomerates : ptree -> list nat -> outcome (list nat * nat)) (rk : mf_rank K) (conn : nat -> list nat) (p : ptree) : Prop :=
    forall agg ui n, pt_find p ["agglomeration"%string] = Some agg -> agglomerates agg (repeat 0 (n_cells (mr_mesh rk))) = Ok (ui, n) ->
      (forall a, 1 <= a <= n -> touches_others (mr_mesh rk) ui conn a) \/ (forall a, 1 <= a <= n -> ~ touches_others (mr_mesh rk) ui conn a).
End SParMfFast.
Arguments rank_fem {K} F rk.
Arguments sees_neighbours {K} F N rk.
Arguments rank_touches {K} agglomerates rk conn p.
