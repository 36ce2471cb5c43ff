(** Model of the choices by name (evaluator, smoother, coarse solver, eigensolver, partitioner) and of DealIIHierarchyHelpers. Definitions only. *)
From Coq Require Import String List Arith ZArith Ascii Bool.
From Verif Require Import Base OField Mat M_Ptree M_Hier M_Smoother.
Import ListNotations.
Set Implicit Arguments.
Open Scope list_scope.
Open Scope nat_scope.

(** ::tolower in the C locale (external; source/dealii/dealii_smoother.cc:37-38). *)
Definition lower_ascii (c : ascii) : ascii :=
  let n := nat_of_ascii c in if (65 <=? n) && (n <=? 90) then ascii_of_nat (n + 32) else c.
(** std::transform(..., ::tolower) over a string (source/dealii/dealii_smoother.cc:37-38, dealii_solver.cc:39-41). *)
Fixpoint lower (s : string) : string :=
  match s with EmptyString => EmptyString | String c t => String (lower_ascii c) (lower t) end.
(** params->get(path, "text") (source/dealii/dealii_smoother.cc:25-26): texts convert to strings as they are. *)
Definition get_string (path : list string) (dflt : string) (p : ptree) : string := pt_get (@Some string) path dflt p.

(** ** Evaluators (include/mfmg/common/hierarchy.hpp:49-153) *)
Inductive helpers_kind : Type := HostHelpers (dim : Z) | MatrixFreeHelpers (dim : Z) | CudaHelpers (dim : Z).
(** The test of the dimension (hierarchy.hpp:57-63 and its copies). *)
Definition by_dim (dim : Z) (k : Z -> helpers_kind) : outcome helpers_kind :=
  if (dim =? 2)%Z then Ok (k 2%Z) else if (dim =? 3)%Z then Ok (k 3%Z) else Throw.
(** create_hierarchy_helpers (hierarchy.hpp:49-107); [with_cuda] is MFMG_WITH_CUDA. *)
Definition create_hierarchy_helpers (with_cuda : bool) (evaluator_type : string) (dim : Z) : outcome helpers_kind :=
  if String.eqb evaluator_type "DealIIMeshEvaluator" then by_dim dim HostHelpers
  else if String.eqb evaluator_type "DealIIMatrixFreeMeshEvaluator" then by_dim dim MatrixFreeHelpers
  else if with_cuda && String.eqb evaluator_type "CudaMeshEvaluator" then by_dim dim CudaHelpers
  else Throw.
(** The specialisation for device vectors (hierarchy.hpp:109-153). *)
Definition create_hierarchy_helpers_device (evaluator_type : string) (dim : Z) : outcome helpers_kind :=
  if String.eqb evaluator_type "CudaMeshEvaluator" then by_dim dim CudaHelpers else Throw.

(** ** Smoothers *)
Inductive smoother_kind : Type := KSsor | KSor | KJacobi | KIlu | KChebyshev.
(** DealIISmoother::DealIISmoother (source/dealii/dealii_smoother.cc:25-66). *)
Definition dealii_smoother_kind (p : ptree) : outcome smoother_kind :=
  let prec_name := lower (get_string ["smoother"; "type"]%string "Symmetric Gauss-Seidel" p) in
  if String.eqb prec_name "symmetric gauss-seidel" then Ok KSsor
  else if String.eqb prec_name "gauss-seidel" then Ok KSor
  else if String.eqb prec_name "jacobi" then Ok KJacobi
  else if String.eqb prec_name "ilu" then Ok KIlu
  else Throw.
(** DealIIMatrixFreeSmoother::DealIIMatrixFreeSmoother (source/dealii/dealii_matrix_free_smoother.cc:24-60). *)
Definition matrix_free_smoother_kind (p : ptree) : outcome smoother_kind :=
  let prec_name := lower (get_string ["smoother"; "type"]%string "Chebyshev" p) in
  if String.eqb prec_name "chebyshev" then Ok KChebyshev else Throw.
(** CudaSmoother::CudaSmoother (source/cuda/cuda_smoother.cu:105-110). *)
Definition cuda_smoother_kind (p : ptree) : outcome smoother_kind :=
  let prec_type := lower (get_string ["smoother"; "type"]%string "Jacobi" p) in
  if String.eqb prec_type "jacobi" then Ok KJacobi else Throw.

(** ** Coarse solvers *)
(** The parameters handed to ML: the smoothed aggregation defaults, or a list read from the tree (source/dealii/dealii_solver.cc:52-62). *)
Inductive ml_list : Type := MlDefaults | MlUser (l : plist).
Inductive coarse_kind : Type := KDirect | KMl (l : ml_list).
Section Choices.
  (** get_value_optional<double> (source/common/utils.cc:44) *)
  Variable accepts_double : string -> bool.
  (** DealIISolver::DealIISolver (source/dealii/dealii_solver.cc:31-73). ptree2plist assigns its second argument, so that the defaults set
      before are replaced, not augmented (source/common/utils.cc:69,79). *)
  Definition dealii_solver_kind (p : ptree) : outcome coarse_kind :=
    let coarse_type := lower (get_string ["coarse"; "type"]%string "direct" p) in
    if String.eqb coarse_type "direct" then Ok KDirect
    else if String.eqb coarse_type "ml" then
      match pt_find p ["coarse"; "params"]%string with
      | None => Ok (KMl MlDefaults)
      | Some ml_tree => let! l := ptree2plist accepts_double ml_tree in Ok (KMl (MlUser l))
      end
    else Throw.
End Choices.

Inductive cuda_solver_choice : Type := KCholesky | KLuDense | KLuSparseHost | KAmgx.
(** CudaSolver::CudaSolver followed by one apply (source/cuda/cuda_solver.cu:215-222, 496-515, 61-71): the constructor accepts every name
    (only "amgx" is looked at, and only in builds with AmgX), the check is in apply. First component: constructor, second: apply. *)
Definition cuda_solver_kind (with_amgx : bool) (p : ptree) : outcome unit * outcome cuda_solver_choice :=
  let solver := lower (get_string ["solver"; "type"]%string "lu_dense" p) in
  let at_construction :=
    if with_amgx && String.eqb solver "amgx"
    then match pt_find p ["solver"; "config_file"]%string with Some _ => Ok tt | None => Throw end
    else Ok tt in
  let at_apply :=
    if with_amgx && String.eqb solver "amgx" then Ok KAmgx
    else if String.eqb solver "cholesky" then Ok KCholesky
    else if String.eqb solver "lu_dense" then Ok KLuDense
    else if String.eqb solver "lu_sparse_host" then Ok KLuSparseHost
    else Throw in
  (at_construction, at_apply).

(** ** Eigensolvers *)
(** [ESkipped]: no solver is called, the eigenvalues and eigenvectors keep their initial value zero. *)
Inductive eigensolver_kind : Type := EArpack | ELanczos | EAnasazi | ELapack | ESkipped.
(** Matrix-based agglomerates (include/mfmg/dealii/amge_host.templates.hpp:405-471); [debug] is MFMG_DEBUG. Names are compared as they are. *)
Definition eigensolver_matrix (debug : bool) (eig : ptree) : outcome eigensolver_kind :=
  let eigensolver_type := get_string ["type"%string] "arpack" eig in
  if String.eqb eigensolver_type "arpack" then Ok EArpack
  else if String.eqb eigensolver_type "lanczos" then Ok ELanczos
  else if String.eqb eigensolver_type "anasazi" then Ok EAnasazi
  else if String.eqb eigensolver_type "lapack" then Ok ELapack
  else let! _ := assert_dbg debug false in Ok ESkipped.
(** Matrix-free agglomerates (include/mfmg/dealii/amge_host.templates.hpp:310-340). *)
Definition eigensolver_matrix_free (debug : bool) (eig : ptree) : outcome eigensolver_kind :=
  let eigensolver_type := get_string ["type"%string] "lanczos" eig in
  if String.eqb eigensolver_type "lanczos" then Ok ELanczos
  else if String.eqb eigensolver_type "anasazi" then Ok EAnasazi
  else if String.eqb eigensolver_type "arpack" then Throw
  else if String.eqb eigensolver_type "lapack" then Throw
  else let! _ := assert_dbg debug false in Ok ESkipped.

(** ** Partitioners (include/mfmg/common/amge.templates.hpp:51-85) *)
Inductive partitioner_kind : Type := PZoltan (n : Z) | PMetis (n : Z) | PBlock (dims : list Z).
(** ptree.get<T>(path): throws when the path is missing or the text does not convert (external). *)
Definition pt_require {A} (parse : string -> option A) (path : list string) (t : ptree) : outcome A :=
  match pt_find t path with Some c => match parse (pt_data c) with Some a => Ok a | None => Throw end | None => Throw end.
(** build_agglomerates (amge.templates.hpp:51-85); [parse_unsigned] is the conversion to unsigned int (external, not modelled further). *)
Definition partitioner_choice (parse_unsigned : string -> option Z) (three_d : bool) (t : ptree) : outcome partitioner_kind :=
  let! name := pt_require (@Some string) ["partitioner"%string] t in
  let name := lower name in
  if String.eqb name "zoltan" || String.eqb name "metis" then
    let! n := pt_require parse_unsigned ["n_agglomerates"%string] t in
    Ok (if String.eqb name "zoltan" then PZoltan n else PMetis n)
  else if String.eqb name "block" then
    let! nx := pt_require parse_unsigned ["nx"%string] t in
    let! ny := pt_require parse_unsigned ["ny"%string] t in
    if three_d then let! nz := pt_require parse_unsigned ["nz"%string] t in Ok (PBlock [nx; ny; nz]) else Ok (PBlock [nx; ny])
  else Throw.

Section Host.
  Variable K : ofield.
  Local Open Scope K_scope.
  Notation vec := (vec K).

  (** TrilinosWrappers::SolverDirect (external; source/dealii/dealii_solver.cc:45-46,81): the action of a direct solver, here elimination
      without pivoting, which is defined for every positive definite matrix. Not its code. *)
  Fixpoint eliminate (n : nat) (a : nat -> nat -> K) (b : vec) : vec :=
    match n with
    | O => []
    | S n' =>
        let schur := fun i j => a (S i) (S j) - a (S i) O * a O (S j) / a O O in
        let y := eliminate n' schur (map (fun i => nth (S i) b 0 - a (S i) O * nth O b 0 / a O O) (seq 0 n')) in
        (nth O b 0 - sumn n' (fun j => a O (S j) * nth j y 0)) / a O O :: y
    end.
  (** SolverDirect::solve (dealii_solver.cc:81) *)
  Definition direct_solve (A : mat K) (b : vec) : vec := eliminate (nc A) (ent A) b.

  (** The assembled matrix, the restriction with the locally assembled product for fast_ap, incomplete LU and the ML cycle are parameters. *)
  Variable accepts_double : string -> bool.
  Variable global_matrix : mat K.
  Variable make_restrictor : ptree -> outcome (mat K * mat K).
  Variable ilu_vmult : mat K -> vec -> vec.
  Variable ml_vmult : ml_list -> mat K -> vec -> vec.

  (** The action of the preconditioner of each kind (dealii_smoother.cc:39-62). *)
  Definition kind_vmult (k : smoother_kind) (A : mat K) : vec -> vec :=
    match k with
    | KSsor => ssor_vmult A
    | KSor => sor_vmult A
    | KJacobi => jacobi_vmult A
    | _ => ilu_vmult A
    end.
  (** build_smoother (source/dealii/dealii_hierarchy_helpers.cc:305-312, dealii_smoother.cc:19-81). The downcast is checked by ASSERT only:
      for an operator of another type the null pointer is dereferenced; in debug builds the program stops. Simplified: [UB] for both. *)
  Definition host_build_smoother (a : op K) (p : ptree) : outcome (bx_apply K) :=
    match a with
    | TriOp A => let! k := dealii_smoother_kind p in Ok (smoother_apply (TriOp A) (kind_vmult k A))
    | MfOp _ _ => UB
    end.
  (** build_coarse_solver (dealii_hierarchy_helpers.cc:314-321, dealii_solver.cc:25-87). *)
  Definition host_build_coarse_solver (a : op K) (p : ptree) : outcome (bx_apply K) :=
    match a with
    | TriOp A =>
        let! k := dealii_solver_kind accepts_double p in
        Ok (fun b x =>
              if (length b =? nr A)%nat && (length x =? nc A)%nat
              then Ok (match k with KDirect => direct_solve A b | KMl l => ml_vmult l A b end)
              else UB)
    | MfOp _ _ => UB
    end.
  (** build_restrictor (dealii_hierarchy_helpers.cc:56-303): needs the subtrees "eigensolver" and "agglomeration"; with fast_ap it leaves the
      product in _ap_operator (276-287). The state is that member. *)
  Definition host_build_restrictor (p : ptree) (ap : option (op K)) : outcome (op K) * option (op K) :=
    match pt_find p ["eigensolver"%string], pt_find p ["agglomeration"%string] with
    | Some _, Some _ =>
        match make_restrictor p with
        | Ok (R, AP) => (Ok (TriOp R), if pt_get parse_bool ["fast_ap"%string] false p then Some (TriOp AP) else ap)
        | Throw => (Throw, ap) | Abort => (Abort, ap) | UB => (UB, ap) | Fuel => (Fuel, ap)
        end
    | _, _ => (Throw, ap)
    end.
  (** DealIIHierarchyHelpers (dealii_hierarchy_helpers.cc:33-54, 323-328). *)
  Definition host_helpers : helpers K (option (op K)) :=
    {| hh_get_global_operator := fun ap => (Ok (TriOp global_matrix), ap);
       hh_build_restrictor := host_build_restrictor;
       hh_build_smoother := fun a p ap => (host_build_smoother a p, ap);
       hh_build_coarse_solver := fun a p ap => (host_build_coarse_solver a p, ap);
       hh_fast_multiply_transpose := fun ap => (deref ap, ap) |}.
End Host.
