(** Specification of the quality of the coarse space and of the rate of convergence. *)
From Coq Require Import String List Arith ZArith Bool.
From Verif Require Import Base OField Mat LinAlg M_Ptree S_Ptree M_Agglo M_Restr S_Eig M_Eig M_Hier S_Hier M_Host S_Host S_FastAP.
Import ListNotations.
Set Implicit Arguments.
Open Scope list_scope.
Open Scope nat_scope.

Section SRate.
  Variable K : ofield.
  Local Open Scope K_scope.
  Local Notation vec := (vec K).

  (** The Rayleigh quotient of [M] is at least [lambda] on the vectors orthogonal to [vs]: if [vs] are the first eigenvectors of a symmetric matrix, every
      further eigenvalue is at least [lambda]. *)
  Definition gap (M : mat K) (vs : list vec) (lambda : K) : Prop :=
    forall x, length x = nc M -> (forall v, In v vs -> dot v x = 0) -> lambda * dot x x <= dot (mulvec M x) x.
  (** Contract of LAPACKFullMatrix::compute_eigenvalues_symmetric beyond [lapack_ok]: for a matrix without eigenvalues below [lower], all pairs up to
      [upper] are found. *)
  Definition lapack_complete (lapack : mat K -> K -> K -> outcome (list K * list vec)) : Prop :=
    forall B lower upper evals evecs, symmetric_matrix B -> (forall x, length x = nr B -> lower * dot x x <= dot (mulvec B x) x) ->
      lapack B lower upper = Ok (evals, evecs) -> gap B evecs upper.

  (** Energy of the function with the values [u] at the dofs in one cell. *)
  Definition cell_energy (F : fem K) (c : nat) (u : nat -> K) : K :=
    sumn (f_ndofs F) (fun g => sumn (f_ndofs F) (fun h => f_cm F c g h * u h) * u g).

  (** The matrix with the given rows. *)
  Definition rows_matrix (n : nat) (es : list vec) : mat K := mkMat (length es) n (fun i j => nth j (nth i es []) 0).
  (** Every vector is, up to its energy over [lambda], in the range of R^T. *)
  Definition approximates (A R : mat K) (lambda : K) : Prop :=
    forall v, length v = nc A -> exists w, length w = nr R /\
      lambda * dot (vsub v (mulTvec R w)) (vsub v (mulTvec R w)) <= energy (mulvec A) v.
  (** The same up to a multiple of the square of the vector. *)
  Definition approximates_up_to (A R : mat K) (lambda eps : K) : Prop :=
    forall v, length v = nc A -> exists w, length w = nr R /\
      lambda * dot (vsub v (mulTvec R w)) (vsub v (mulTvec R w)) <= energy (mulvec A) v + eps * dot v v.
  (** At most [k] cells meet in a dof. *)
  Definition cells_per_dof (F : fem K) (N k : nat) : Prop :=
    forall g, (g < f_ndofs F)%nat -> (length (filter (fun c => existsb (Nat.eqb g) (f_cd F c)) (seq 0 N)) <= k)%nat.
  (** A smoothing step removes at least [theta] times the square of the residual from the energy of the error. *)
  Definition smooths (n : nat) (A B : vec -> vec) (theta : K) : Prop :=
    forall e, length e = n -> theta * dot (A e) (A e) <= energy A e - energy A (error_step A B e).
  (** A bound of the lower triangle relative to the diagonal: sum of a_ij^2 / a_jj over j <= i. *)
  Definition triangle_bound (A : mat K) : K :=
    sumn (nr A) (fun i => sumn (S i) (fun j => ent A i j * ent A i j / ent A j j)).
  (** [k] calls of Hierarchy::vmult, each on the result of the one before; stops at the first exception. *)
  Fixpoint repeated_vmult (te : tenv) (h : hierarchy K) (b : vec) (k : nat) (x : vec) (l : list tev) : outcome vec * list tev :=
    match k with
    | O => (Ok x, l)
    | S k' => match hierarchy_vmult te h x b l with (Ok y, l') => repeated_vmult te h b k' y l' | r => r end
    end.
  (** rho^k *)
  Fixpoint fpow (rho : K) (k : nat) : K := match k with O => 1 | S k' => rho * fpow rho k' end.

  (** [lambda] is at most every eigenvalue of an agglomerate matrix whose eigenvectors are not represented in the coarse space, and within the interval of the
      (shifted) spectrum that is searched.  [agglomerates]: the partition of the mesh; [problem]: the local eigenproblem of an agglomerate;
      [evaluate]: the matrix of a patch of cells. *)
  Definition discarded_above (agglomerates : ptree -> list nat -> outcome (list nat * nat)) (problem : ptree -> list nat -> nat -> scratch K -> outcome (agg_result K))
      (evaluate : list nat -> list nat * mat K) (m : mesh) (p : ptree) (lambda : K) : Prop :=
    forall eig agg ui n a c, pt_find p ["eigensolver"%string] = Some eig -> pt_find p ["agglomeration"%string] = Some agg ->
      agglomerates agg (repeat 0%nat (n_cells m)) = Ok (ui, n) -> (1 <= a <= n)%nat -> problem eig ui a [] = Ok c ->
      let M := snd (evaluate (agg_cells m ui a)) in
      lambda + average_diagonal M <= fpos 100 /\
      forall mu v, length v = nr M -> v <> vzero (nr M) -> eigenpair M mu v -> (forall e, In e (ag_evecs c) -> dot e v = 0) -> lambda <= mu.
  (** The vectors kept of each agglomerate represent every vector on the agglomerate, up to its energy and [eps] times its square, over [lambda]; whatever the scratch data the local
      problem starts with. *)
  Definition kept_represent (agglomerates : ptree -> list nat -> outcome (list nat * nat)) (problem : ptree -> list nat -> nat -> scratch K -> outcome (agg_result K))
      (evaluate : list nat -> list nat * mat K) (m : mesh) (p : ptree) (lambda eps : K) : Prop :=
    forall eig agg ui n a sc c, pt_find p ["eigensolver"%string] = Some eig -> pt_find p ["agglomeration"%string] = Some agg ->
      agglomerates agg (repeat 0%nat (n_cells m)) = Ok (ui, n) -> (1 <= a <= n)%nat -> problem eig ui a sc = Ok c ->
      let M := snd (evaluate (agg_cells m ui a)) in
      sized_all (nr M) (ag_evecs c) /\ approximates_up_to M (rows_matrix (nr M) (ag_evecs c)) lambda eps.
End SRate.

(** The two-level hierarchy with its default smoother and coarse solver. *)
Definition default_two_level (p : ptree) : Prop :=
  (0 < c_steps p)%nat /\ c_levels p = 2%Z /\ ci_eq (text_at p ["coarse"; "type"]%string "direct") "direct" /\
  ci_eq (text_at p ["smoother"; "type"]%string "Symmetric Gauss-Seidel") "symmetric gauss-seidel".
Arguments gap {K} M vs lambda.
Arguments lapack_complete {K} lapack.
Arguments cell_energy {K} F c u.
Arguments rows_matrix {K} n es.
Arguments approximates {K} A R lambda.
Arguments smooths {K} n A B theta.
Arguments triangle_bound {K} A.
Arguments repeated_vmult {K} te h b k x l.
Arguments fpow {K} rho k.
Arguments approximates_up_to {K} A R lambda eps.
Arguments cells_per_dof {K} F N k.
Arguments kept_represent {K} agglomerates problem evaluate m p lambda eps.
Arguments discarded_above {K} agglomerates problem evaluate m p lambda.
