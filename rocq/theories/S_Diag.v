(** Specifications for the diagonal on several ranks. *)
From Coq Require Import String List Arith Bool Permutation.
From Verif Require Import Base OField Mat LinAlg M_Ptree M_Agglo S_Agglo M_Restr S_FastAP M_Eig S_Eig M_ParEnd S_Rate.
Import ListNotations.
Set Implicit Arguments.
Open Scope list_scope.
Open Scope nat_scope.

Section SDiag.
  Variable K : ofield.
  (** Every rank reads the diagonal of the matrix at the dofs it owns and at its ghost dofs, and nothing else. *)
  Definition reads_diagonal (A : mat K) (owned relevant : list (list nat)) (vs : list (nat -> option K)) : Prop :=
    length vs = length owned /\
    forall r own rel v, nth_error owned r = Some own -> nth_error relevant r = Some rel -> nth_error vs r = Some v ->
      forall g, (In g own \/ In g rel -> v g = Some (ent A g g)) /\ (~ In g own -> ~ In g rel -> v g = None).
  (** The ghost dofs of each rank are dofs; with the dofs it owns they contain the dofs of its cells. *)
  Definition relevant_ok (n : nat) (F : fem K) (owned relevant : list (list nat)) (ranks : list (rank_env K)) : Prop :=
    length owned = length ranks /\ length relevant = length ranks /\
    (forall rel g, In rel relevant -> In g rel -> g < n) /\
    forall r own rel rk, nth_error owned r = Some own -> nth_error relevant r = Some rel -> nth_error ranks r = Some rk ->
      forall c g, In c (owned_cells (rk_mesh rk)) -> In g (f_cd F (rk_number rk c)) -> In g own \/ In g rel.
  (** One rank without its diagonal: its part of the mesh is in order, the partitioners answer for all its cells, its evaluator assembles the matrices of the
      cells it owns. *)
  Definition rank_prepared (debug : bool) (F : fem K) (rk : rank_env K) : Prop :=
    mesh_ok debug (rk_mesh rk) /\
    (forall k, length (owned_cells (rk_mesh rk)) <= length (rk_partition rk k)) /\
    (forall cells, NoDup cells -> incl cells (owned_cells (rk_mesh rk)) ->
       patch_ok F (map (rk_number rk) cells) (fst (rk_evaluate rk cells)) (snd (rk_evaluate rk cells))).
  (** The eigensolver keeps at least one vector per agglomerate, of the size of the agglomerate. *)
  Definition keeps_vectors (agglomerates : ptree -> list nat -> outcome (list nat * nat)) (problem : ptree -> list nat -> nat -> scratch K -> outcome (agg_result K))
      (evaluate : list nat -> list nat * mat K) (m : mesh) (eig agg : ptree) : Prop :=
    forall ui n a sc c, agglomerates agg (repeat 0 (n_cells m)) = Ok (ui, n) -> 1 <= a <= n -> problem eig ui a sc = Ok c ->
      ag_evecs c <> [] /\ sized_all (nr (snd (evaluate (agg_cells m ui a)))) (ag_evecs c).
End SDiag.
Arguments reads_diagonal {K} A owned relevant vs.
Arguments relevant_ok {K} n F owned relevant ranks.
Arguments rank_prepared {K} debug F rk.
Arguments keeps_vectors {K} agglomerates problem evaluate m eig agg.
