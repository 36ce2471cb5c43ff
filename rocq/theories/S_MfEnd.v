(** Specifications for matrix-free preconditioners from the mesh to vmult. *)
From Coq Require Import String List Arith Bool.
From Verif Require Import Base OField Mat LinAlg M_Ptree M_Agglo S_Agglo M_Restr S_Restr S_FastAP S_HostEnd S_Lanczos S_Eig M_Hier S_Hier S_Rate M_HostEnd.
Import ListNotations.
Set Implicit Arguments.
Open Scope list_scope.
Open Scope nat_scope.

Section SMfEnd.
  Variable K : ofield.
  Local Notation vec := (vec K).
  Variable F : fem K.
  (** The dofs with a Dirichlet constraint. *)
  Variable fixed : nat -> bool.

  (** The sum of the matrices of [cells], in the numbering of [dofs]. *)
  Definition patch_matrix (cells dofs : list nat) : mat K :=
    mkMat (length dofs) (length dofs) (fun k l => lsum (map (fun c => f_cm F c (nth k dofs 0) (nth l dofs 0)) cells)).
  (** A vector on the patch is zero at the constrained dofs. *)
  Definition zero_at_fixed (dofs : list nat) (x : vec) : Prop := forall k, k < length dofs -> fixed (nth k dofs 0) = true -> nth k x 0%K = 0%K.
  (** Constrained dofs are coupled with no other dof. *)
  Definition fixed_decoupled : Prop := forall c g h, fixed g = true -> g <> h -> f_cm F c g h = 0%K /\ f_cm F c h g = 0%K.

  (** The contract of a matrix-free evaluator: the dofs of the cells, each once; the operator on vectors that are zero at the constrained dofs; the constraint
      lines; the diagonal, which at the constrained dofs is arbitrary. *)
  Definition mf_evaluator_ok (agg_dofs : list nat -> list nat) (agg_op : list nat -> vec -> vec) (agg_diag : list nat -> list K) (constrained : list nat -> list nat) : Prop :=
    forall cells, NoDup cells -> let dofs := agg_dofs cells in
      NoDup dofs /\ (forall g, In g dofs <-> exists c, In c cells /\ In g (f_cd F c)) /\
      (forall x, length x = length dofs -> zero_at_fixed dofs x -> agg_op cells x = mulvec (patch_matrix cells dofs) x) /\
      (forall k, k < length dofs -> (In k (constrained cells) <-> fixed (nth k dofs 0) = true)) /\
      length (agg_diag cells) = length dofs /\
      (forall k, k < length dofs -> fixed (nth k dofs 0) = false -> nth k (agg_diag cells) 0%K = ent (patch_matrix cells dofs) k k).
  (** On all vectors, too, the operator of an agglomerate is a symmetric matrix that couples no constrained dof with another dof. *)
  Definition mf_operator_ok (agg_dofs : list nat -> list nat) (agg_op : list nat -> vec -> vec) : Prop :=
    forall cells, NoDup cells -> let dofs := agg_dofs cells in exists B : mat K, nr B = length dofs /\ symmetric_matrix B /\
      (forall k l, k < length dofs -> l < length dofs -> k <> l -> fixed (nth k dofs 0) = true -> ent B k l = 0%K) /\
      forall x, length x = length dofs -> agg_op cells x = mulvec B x.
  (** The contract of get_diagonal: at the constrained dofs any value but zero. *)
  Definition mf_diagonal_ok (A : mat K) (gd : nat -> option K) : Prop :=
    forall g, g < f_ndofs F -> exists v, gd g = Some v /\ v <> 0%K /\ (fixed g = false -> v = ent A g g).

  (** On every agglomerate the vectors kept are zero at the constrained dofs and represent every vector. *)
  Definition mf_kept_represent (agglomerates : ptree -> list nat -> outcome (list nat * nat)) (problem : ptree -> list nat -> nat -> scratch K -> outcome (agg_result K))
      (agg_dofs : list nat -> list nat) (m : mesh) (p : ptree) (lambda eps : K) : Prop :=
    forall eig agg ui n a sc c, pt_find p ["eigensolver"%string] = Some eig -> pt_find p ["agglomeration"%string] = Some agg ->
      agglomerates agg (repeat 0 (n_cells m)) = Ok (ui, n) -> 1 <= a <= n -> problem eig ui a sc = Ok c ->
      let cells := agg_cells m ui a in let M := patch_matrix cells (agg_dofs cells) in
      sized_all (nr M) (ag_evecs c) /\ (forall e, In e (ag_evecs c) -> zero_at_fixed (agg_dofs cells) e) /\
      approximates_up_to M (rows_matrix (nr M) (ag_evecs c)) lambda eps.
  (** On every agglomerate the energy of what is orthogonal to the vectors kept is at least [lambda] times its square. *)
  Definition mf_gap (agglomerates : ptree -> list nat -> outcome (list nat * nat)) (problem : ptree -> list nat -> nat -> scratch K -> outcome (agg_result K))
      (agg_dofs : list nat -> list nat) (m : mesh) (p : ptree) (lambda : K) : Prop :=
    forall eig agg ui n a sc c, pt_find p ["eigensolver"%string] = Some eig -> pt_find p ["agglomeration"%string] = Some agg ->
      agglomerates agg (repeat 0 (n_cells m)) = Ok (ui, n) -> 1 <= a <= n -> problem eig ui a sc = Ok c ->
      let cells := agg_cells m ui a in let dofs := agg_dofs cells in let M := patch_matrix cells dofs in
      (forall k, k < nr M -> fixed (nth k dofs 0) = true -> fle lambda (ent M k k)) /\
      forall x, length x = nr M -> zero_at_fixed dofs x -> (forall e, In e (ag_evecs c) -> dot e x = 0%K) -> fle (lambda * dot x x)%K (dot (mulvec M x) x).
  (** On every agglomerate the pairs kept are as many as asked for, and eigenpairs. *)
  Definition mf_kept_exact (agglomerates : ptree -> list nat -> outcome (list nat * nat)) (problem : ptree -> list nat -> nat -> scratch K -> outcome (agg_result K))
      (agg_dofs : list nat -> list nat) (m : mesh) (p : ptree) : Prop :=
    forall eig agg ui n a sc c, pt_find p ["eigensolver"%string] = Some eig -> pt_find p ["agglomeration"%string] = Some agg ->
      agglomerates agg (repeat 0 (n_cells m)) = Ok (ui, n) -> 1 <= a <= n -> problem eig ui a sc = Ok c ->
      let cells := agg_cells m ui a in let M := patch_matrix cells (agg_dofs cells) in
      length (ag_evecs c) = n_eigenvectors eig /\ length (ag_evals c) = n_eigenvectors eig /\
      forall k, k < n_eigenvectors eig -> eigenpair M (nth k (ag_evals c) 0%K) (nth k (ag_evecs c) []).
End SMfEnd.
Arguments patch_matrix {K} F cells dofs.
Arguments zero_at_fixed {K} fixed dofs x.
Arguments fixed_decoupled {K} F fixed.
Arguments mf_evaluator_ok {K} F fixed agg_dofs agg_op agg_diag constrained.
Arguments mf_operator_ok {K} fixed agg_dofs agg_op.
Arguments mf_gap {K} F fixed agglomerates problem agg_dofs m p lambda.
Arguments mf_diagonal_ok {K} F fixed A gd.
Arguments mf_kept_represent {K} F fixed agglomerates problem agg_dofs m p lambda eps.
Arguments mf_kept_exact {K} F agglomerates problem agg_dofs m p.
