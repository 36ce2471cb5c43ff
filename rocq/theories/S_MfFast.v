(** Specification of the fast product A R^T with pairs of the agglomerates that are not exact. *)
From Coq Require Import String List Arith Bool.
From Verif Require Import Base OField Mat LinAlg M_Ptree M_Agglo S_Agglo M_Restr S_Restr S_FastAP M_HostEnd S_HostEnd S_Lanczos S_Eig S_MfEnd.
Import ListNotations.
Set Implicit Arguments.
Open Scope list_scope.
Open Scope nat_scope.

Section SMfFast.
  Variable K : ofield.
  (** On every agglomerate the pairs kept are as many as asked for, and the squares of the norms of their residuals are at most [tau]. *)
  Definition mf_kept_pairs (F : fem K) (agglomerates : ptree -> list nat -> outcome (list nat * nat)) (problem : ptree -> list nat -> nat -> scratch K -> outcome (agg_result K))
      (agg_dofs : list nat -> list nat) (m : mesh) (p : ptree) (tau : K) : Prop :=
    forall eig agg ui n a sc c, pt_find p ["eigensolver"%string] = Some eig -> pt_find p ["agglomeration"%string] = Some agg ->
      agglomerates agg (repeat 0 (n_cells m)) = Ok (ui, n) -> 1 <= a <= n -> problem eig ui a sc = Ok c ->
      let cells := agg_cells m ui a in let M := patch_matrix F cells (agg_dofs cells) in
      length (ag_evecs c) = n_eigenvectors eig /\ length (ag_evals c) = n_eigenvectors eig /\
      forall k, k < n_eigenvectors eig -> let v := residual M (nth k (ag_evals c) 0%K) (nth k (ag_evecs c) []) in fle (dot v v) tau.
  (** Two matrices of the same dimensions; the squares of the norms of the differences of their columns are at most [tau]. *)
  Definition columns_within (tau : K) (T M : mat K) : Prop :=
    nr T = nr M /\ nc T = nc M /\
    forall j, j < nc M -> fle (sumn (nr M) (fun i => ((ent M i j - ent T i j) * (ent M i j - ent T i j))%K)) tau.
End SMfFast.
Arguments mf_kept_pairs {K} F agglomerates problem agg_dofs m p tau.
Arguments columns_within {K} tau T M.
