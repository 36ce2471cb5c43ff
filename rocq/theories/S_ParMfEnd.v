(** Specifications for the matrix-free restriction on several ranks. *)
From Coq Require Import String List Arith Bool Permutation.
From Verif Require Import Base OField Mat LinAlg M_Ptree M_Agglo S_Agglo M_Restr S_Restr S_FastAP S_HostEnd S_Lanczos S_Eig M_Hier S_Hier S_Rate M_HostEnd S_MfEnd M_ParMfEnd.
Import ListNotations.
Set Implicit Arguments.
Open Scope list_scope.
Open Scope nat_scope.

Section SParMfEnd.
  Variable K : ofield.
  Local Notation vec := (vec K).
  Variable F : fem K.
  (** The dofs with a Dirichlet constraint. *)
  Variable fixed : nat -> bool.

  (** Every cell of the mesh of all ranks has one owner. *)
  Definition mf_ranks_cover (N : nat) (ranks : list (mf_rank K)) : Prop :=
    Permutation (flat_map (fun rk => map (mr_number rk) (owned_cells (mr_mesh rk))) ranks) (seq 0 N).
  (** The matrix of the agglomerate of some cells of a rank. *)
  Definition rank_patch (rk : mf_rank K) (cells : list nat) : mat K := patch_matrix F (map (mr_number rk) cells) (mr_dofs rk cells).
  (** The contract of the evaluator of a rank on agglomerates of cells it owns, as [mf_evaluator_ok]. *)
  Definition rank_evaluator_ok (rk : mf_rank K) : Prop :=
    forall cells, NoDup cells -> incl cells (owned_cells (mr_mesh rk)) -> let dofs := mr_dofs rk cells in
      NoDup dofs /\ (forall g, In g dofs <-> exists c, In c cells /\ In g (f_cd F (mr_number rk c))) /\
      (forall x, length x = length dofs -> zero_at_fixed fixed dofs x -> mr_op rk cells x = mulvec (rank_patch rk cells) x) /\
      (forall k, k < length dofs -> (In k (mr_constrained rk cells) <-> fixed (nth k dofs 0) = true)) /\
      length (mr_diag rk cells) = length dofs /\
      (forall k, k < length dofs -> fixed (nth k dofs 0) = false -> nth k (mr_diag rk cells) 0%K = ent (rank_patch rk cells) k k).
  (** On all vectors, too, the operators of the agglomerates are symmetric matrices that couple no constrained dof with another dof. *)
  Definition rank_operator_ok (rk : mf_rank K) : Prop :=
    forall cells, NoDup cells -> incl cells (owned_cells (mr_mesh rk)) -> let dofs := mr_dofs rk cells in
      exists B : mat K, nr B = length dofs /\ symmetric_matrix B /\
        (forall k l, k < length dofs -> l < length dofs -> k <> l -> fixed (nth k dofs 0) = true -> ent B k l = 0%K) /\
        forall x, length x = length dofs -> mr_op rk cells x = mulvec B x.
  (** One rank: its part of the mesh is in order, the partitioners answer for all its cells, the evaluator keeps its contract, and at the dofs of the cells the rank owns it can
      read the diagonal of the operator, or any value but zero where a dof is constrained. *)
  Definition mf_rank_ok (debug : bool) (A : mat K) (rk : mf_rank K) : Prop :=
    mesh_ok debug (mr_mesh rk) /\
    (forall k, length (owned_cells (mr_mesh rk)) <= length (mr_partition rk k)) /\
    rank_evaluator_ok rk /\
    (forall c g, In c (owned_cells (mr_mesh rk)) -> In g (f_cd F (mr_number rk c)) ->
       exists v, mr_gd rk g = Some v /\ v <> 0%K /\ (fixed g = false -> v = ent A g g)).

  (** On every agglomerate of the rank the vectors kept are zero at the constrained dofs and represent every vector. *)
  Definition rank_represent (agglomerates : ptree -> list nat -> outcome (list nat * nat)) (problem : ptree -> list nat -> nat -> scratch K -> outcome (agg_result K))
      (rk : mf_rank K) (p : ptree) (lambda eps : K) : Prop :=
    forall eig agg ui n a sc c, pt_find p ["eigensolver"%string] = Some eig -> pt_find p ["agglomeration"%string] = Some agg ->
      agglomerates agg (repeat 0 (n_cells (mr_mesh rk))) = Ok (ui, n) -> 1 <= a <= n -> problem eig ui a sc = Ok c ->
      let cells := agg_cells (mr_mesh rk) ui a in let M := rank_patch rk cells in
      sized_all (nr M) (ag_evecs c) /\ (forall e, In e (ag_evecs c) -> zero_at_fixed fixed (mr_dofs rk cells) e) /\
      approximates_up_to M (rows_matrix (nr M) (ag_evecs c)) lambda eps.
  (** On every agglomerate of the rank the energy of what is orthogonal to the vectors kept is at least [lambda] times its square. *)
  Definition rank_gap (agglomerates : ptree -> list nat -> outcome (list nat * nat)) (problem : ptree -> list nat -> nat -> scratch K -> outcome (agg_result K))
      (rk : mf_rank K) (p : ptree) (lambda : K) : Prop :=
    forall eig agg ui n a sc c, pt_find p ["eigensolver"%string] = Some eig -> pt_find p ["agglomeration"%string] = Some agg ->
      agglomerates agg (repeat 0 (n_cells (mr_mesh rk))) = Ok (ui, n) -> 1 <= a <= n -> problem eig ui a sc = Ok c ->
      let cells := agg_cells (mr_mesh rk) ui a in let dofs := mr_dofs rk cells in let M := rank_patch rk cells in
      (forall k, k < nr M -> fixed (nth k dofs 0) = true -> fle lambda (ent M k k)) /\
      forall x, length x = nr M -> zero_at_fixed fixed dofs x -> (forall e, In e (ag_evecs c) -> dot e x = 0%K) -> fle (lambda * dot x x)%K (dot (mulvec M x) x).
End SParMfEnd.
Arguments mf_ranks_cover {K} N ranks.
Arguments rank_patch {K} F rk cells.
Arguments rank_evaluator_ok {K} F fixed rk.
Arguments rank_operator_ok {K} fixed rk.
Arguments mf_rank_ok {K} F fixed debug A rk.
Arguments rank_represent {K} F fixed agglomerates problem rk p lambda eps.
Arguments rank_gap {K} F fixed agglomerates problem rk p lambda.
