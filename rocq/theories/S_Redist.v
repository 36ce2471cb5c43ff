(** Specifications for cells distributed over ranks in two ways. *)
From Coq Require Import String List Arith Bool Permutation.
From Verif Require Import Base OField Mat LinAlg M_Ptree M_Agglo M_Restr M_WorkStream M_ParEnd.
Import ListNotations.
Set Implicit Arguments.
Open Scope list_scope.
Open Scope nat_scope.

Section SRedist.
  Variable K : ofield.
  (** The rows of the two matrices span the same space. *)
  Definition same_span (R R' : mat K) : Prop :=
    nc R = nc R' /\
    (forall c, length c = nr R -> exists c', length c' = nr R' /\ mulTvec R' c' = mulTvec R c) /\
    (forall c', length c' = nr R' -> exists c, length c = nr R /\ mulTvec R c = mulTvec R' c').
  (** The results [l] of the local problems of the agglomerates of a rank, in order. *)
  Definition rank_results (agglomerates : rank_env K -> ptree -> list nat -> outcome (list nat * nat))
    (problem : rank_env K -> ptree -> list nat -> nat -> scratch K -> outcome (agg_result K)) (eig agg : ptree) (rk : rank_env K) (l : list (agg_result K)) : Prop :=
    exists ui n, agglomerates rk agg (repeat 0 (n_cells (rk_mesh rk))) = Ok (ui, n) /\ Forall2 (fun a c => problem rk eig ui a [] = Ok c) (seq 1 n) l.
  (** Two lists of ranks have the same agglomerates with the same results, whichever rank has which and in whatever order. *)
  Definition same_agglomerates (agglomerates : rank_env K -> ptree -> list nat -> outcome (list nat * nat))
    (problem : rank_env K -> ptree -> list nat -> nat -> scratch K -> outcome (agg_result K)) (p : ptree) (ranks ranks' : list (rank_env K)) : Prop :=
    forall eig agg ls ls', pt_find p ["eigensolver"%string] = Some eig -> pt_find p ["agglomeration"%string] = Some agg ->
      Forall2 (rank_results agglomerates problem eig agg) ranks ls -> Forall2 (rank_results agglomerates problem eig agg) ranks' ls' ->
      Permutation (concat ls) (concat ls').
  (** The cells of the agglomerates of a rank, as numbered on the whole mesh. *)
  Definition rank_patches (agglomerates : rank_env K -> ptree -> list nat -> outcome (list nat * nat)) (agg : ptree) (rk : rank_env K) (l : list (list nat)) : Prop :=
    exists ui n, agglomerates rk agg (repeat 0 (n_cells (rk_mesh rk))) = Ok (ui, n) /\
      l = map (fun a => map (rk_number rk) (filter (fun c => nth c ui 0 =? a) (seq 0 (n_cells (rk_mesh rk))))) (seq 1 n).
  (** Two lists of ranks cut the whole mesh into the same agglomerates, whichever rank has which and in whatever order. *)
  Definition same_patches (agglomerates : rank_env K -> ptree -> list nat -> outcome (list nat * nat)) (p : ptree) (ranks ranks' : list (rank_env K)) : Prop :=
    forall agg ls ls', pt_find p ["agglomeration"%string] = Some agg ->
      Forall2 (rank_patches agglomerates agg) ranks ls -> Forall2 (rank_patches agglomerates agg) ranks' ls' -> Permutation (concat ls) (concat ls').
  (** What the evaluator returns for a patch depends on its cells only, not on the rank that asks. *)
  Definition one_evaluator (evaluate : list nat -> list nat * mat K) (constrained : list nat -> list nat) (rk : rank_env K) : Prop :=
    forall cells, rk_evaluate rk cells = evaluate (map (rk_number rk) cells) /\ rk_constrained rk cells = constrained (map (rk_number rk) cells).
End SRedist.
Arguments same_span {K} R R'.
