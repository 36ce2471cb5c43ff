(** Model of the multigrid hierarchy on the device: the template of include/mfmg/common/hierarchy.hpp:159-309 for vectors in device memory, with
    the helpers of source/cuda/cuda_hierarchy_helpers.cu:29-103, the Jacobi smoother (source/cuda/cuda_smoother.cu:39-175) and the direct coarse
    solvers (source/cuda/cuda_solver.cu:42-93, 498-516). Definitions only. One list element per MPI rank. Simplified: the timer is left out
    (M_Hier.v has it); the buffers of matrices and vectors are not placed in the device memory of the ranks (M_Dev.v has the ownership of matrices);
    the AMGX solver is in M_Amgx.v. *)
From Coq Require Import String List Arith ZArith Bool.
From Verif Require Import Base OField M_Ptree M_Hier M_Host M_SpProd M_Csr M_Dev M_CudaOp M_DevSolve M_Restr M_AmgeDev.
Import ListNotations.
Set Implicit Arguments.
Open Scope nat_scope.

Section CudaHier.
  Variable K : ofield.
  (** LinearAlgebra::distributed::Vector on all ranks (external): the owned indices and the values. *)
  Record dvec : Type := mkDvec { v_owned : list (list nat); v_vals : list (list K) }.
  (** size() (external). *)
  Definition v_size (v : dvec) : nat := length (concat (v_owned v)).
  (** x = 0. (external; hierarchy.hpp:258). *)
  Definition v_zero (v : dvec) : dvec := mkDvec (v_owned v) (map (map (fun _ => f0)) (v_vals v)).
  (** y.add(s, x) (external; hierarchy.hpp:287, 303; cuda_smoother.cu:52, 58): the local sizes have to agree. *)
  Definition v_add (y : dvec) (s : K) (x : dvec) : outcome dvec :=
    if list_eq_dec Nat.eq_dec (map (@length K) (v_vals y)) (map (@length K) (v_vals x))
    then Ok (mkDvec (v_owned y) (map (fun p : list K * list K => vaxpy s (snd p) (fst p)) (combine (v_vals y) (v_vals x))))
    else UB.
  (** Under what conditions products of matrices and vectors run (no line in /repo): for the number of the product since the start, its size and the
      rank, the order of the threads and the contents of the buffers. *)
  Definition conditions : Type := nat -> nat -> nat -> list nat * list K * list K.
  (** The state of the program: matrices and operators, device memory of the ranks, number of products so far (no line in /repo). *)
  Record device : Type := mkDevice { d_ops : cuda_state K; d_heaps : list (heap K); d_products : nat }.

  (** Operator::apply for an operator of the hierarchy (cuda_matrix_operator.cu:80-91). *)
  Definition dev_apply (debug : bool) (L : libraries K) (cond : conditions) (k : nat) (trans : bool) (x y : dvec) (d : device)
    : outcome (dvec * device) :=
    let! (s, vals) := op_apply debug L (d_ops d) k trans (cond (d_products d) (v_size x)) (v_owned x) (v_size x) (v_vals x) (v_vals y) in
    Ok (mkDvec (v_owned y) vals, mkDevice s (d_heaps d) (S (d_products d))).
  (** CudaMatrixOperator::get_matrix (cuda_matrix_operator.cu:263-268). *)
  Definition get_matrix (s : cuda_state K) (k : nat) : outcome (shared_matrix K) :=
    let! o := rd (u_ops s) k in rd (u_mats s) (o_mat o).
  (** CudaMatrixOperator::build_domain_vector (cuda_matrix_operator.cu:227-237): a new vector is zero. *)
  Definition build_domain_vector (s : cuda_state K) (k : nat) : outcome dvec :=
    let! m := get_matrix s k in
    Ok (mkDvec (map (@c_domain K) (m_parts m)) (map (fun c => vzero (length (c_domain c))) (m_parts m))).

  (** A CudaSmoother (cuda_smoother.cuh:20-45): the number of its operator, the matrix _smoother. *)
  Record dev_smoother : Type := mkDevSmoother { sm_op : nat; sm_matrix : shared_matrix K }.
  (** CudaSmoother::apply and SmootherOperator::apply for device vectors (cuda_smoother.cu:39-60, 164-175). *)
  Definition dev_smoother_apply (debug : bool) (cond : conditions) (sm : dev_smoother) (b x : dvec) (d : device) : outcome (dvec * device) :=
    let! m := get_matrix (d_ops d) (sm_op sm) in
    let r := b in
    let! r := shared_vmult debug m (cond (d_products d) (v_size x)) (v_owned x) (v_size x) (v_vals x) (v_vals r) in
    let! r := v_add (mkDvec (v_owned b) r) (fopp f1) b in
    let tmp := x in
    let! tmp := shared_vmult debug (sm_matrix sm) (cond (S (d_products d)) (v_size r)) (v_owned r) (v_size r) (v_vals r) (v_vals tmp) in
    let! x1 := v_add x (fopp f1) (mkDvec (v_owned x) tmp) in
    Ok (x1, mkDevice (d_ops d) (d_heaps d) (S (S (d_products d)))).
  (** Solver::apply on the coarsest level (include/mfmg/common/solver.hpp). *)
  Definition dev_solver : Type := dvec -> dvec -> device -> outcome (dvec * device).
  (** CudaSolver::apply with DirectSolver::apply (cuda_solver.cu:51-72, 498-516): every rank works on its part. *)
  Definition direct_solver (debug : bool) (Y : solver_library K) (k : nat) (name : string) : dev_solver := fun b x d =>
    let! m := get_matrix (d_ops d) k in
    let! rs := mapM (fun r => let! c := rd (m_parts m) r in
                              let! vb := rd (v_vals b) r in
                              let! vx := rd (v_vals x) r in
                              let! h := rd (d_heaps d) r in
                              direct_apply debug Y name (mkSolverMatrix c (m_handle m) (m_descr m)) vb vx h) (seq 0 (length (m_parts m))) in
    Ok (mkDvec (v_owned x) (map fst rs), mkDevice (d_ops d) (map snd rs) (d_products d)).

  (** A Level (include/mfmg/common/level.hpp:24-77); operators by number. *)
  Record dev_level : Type := mkDevLevel {
    dl_op : option nat;
    dl_restrictor : option nat;
    dl_smoother : option dev_smoother;
    dl_solver : option dev_solver
  }.
  (** Level::build_vector (level.hpp:64-71). *)
  Definition dev_build_vector (s : cuda_state K) (l : dev_level) : outcome dvec := let! k := deref (dl_op l) in build_domain_vector s k.
  (** The loop calling the smoother (hierarchy.hpp:276-277, 305-306). *)
  Fixpoint dev_smooth_loop (debug : bool) (cond : conditions) (n : nat) (sm : option dev_smoother) (b x : dvec) (d : device) : outcome (dvec * device) :=
    match n with
    | O => Ok (x, d)
    | S n' =>
        let! f := deref sm in
        let! (x1, d1) := dev_smoother_apply debug cond f b x d in
        dev_smooth_loop debug cond n' sm b x1 d1
    end.
  (** Hierarchy::apply (hierarchy.hpp:246-309); as in M_Hier.v [lv] is _levels[level_index], [rest] the levels after it, [first] is
      level_index == 0. *)
  Fixpoint dev_apply_levels (debug : bool) (L : libraries K) (cond : conditions) (prec : bool) (n : nat) (first : bool) (lv : dev_level)
    (rest : list dev_level) (b x : dvec) (d : device) : outcome (dvec * device) :=
    let x := if negb first || prec then v_zero x else x in
    match rest with
    | [] => let! s := deref (dl_solver lv) in s b x d
    | lc :: rest' =>
        let! (x, d) := dev_smooth_loop debug cond n (dl_smoother lv) b x d in
        let! res := dev_build_vector (d_ops d) lv in
        let! a := deref (dl_op lv) in
        let! (res, d) := dev_apply debug L cond a false x res d in
        let! res := v_add res (fopp f1) b in
        let! b_coarse := dev_build_vector (d_ops d) lc in
        let! r := deref (dl_restrictor lc) in
        let! (b_coarse, d) := dev_apply debug L cond r false res b_coarse d in
        let! x_coarse := dev_build_vector (d_ops d) lc in
        let! (x_coarse, d) := dev_apply_levels debug L cond prec n false lc rest' b_coarse x_coarse d in
        let! x_correction := dev_build_vector (d_ops d) lv in
        let! (x_correction, d) := dev_apply debug L cond r true x_coarse x_correction d in
        let! x := v_add x (fopp f1) x_correction in
        dev_smooth_loop debug cond n (dl_smoother lv) b x d
    end.
  (** The members of Hierarchy (hierarchy.hpp:366-372). *)
  Record dev_hierarchy : Type := mkDevHierarchy { dh_levels : list dev_level; dh_is_preconditioner : bool; dh_n_smoothing_steps : nat }.
  (** Hierarchy::vmult (hierarchy.hpp:238-244). *)
  Definition dev_vmult (debug : bool) (L : libraries K) (cond : conditions) (h : dev_hierarchy) (x b : dvec) (d : device) : outcome (dvec * device) :=
    match dh_levels h with
    | [] => UB
    | lv :: rest => dev_apply_levels debug L cond (dh_is_preconditioner h) (dh_n_smoothing_steps h) true lv rest b x d
    end.
  (** A program that calls vmult (x, b) again and again: the results (no line in /repo). *)
  Fixpoint dev_vmults (debug : bool) (L : libraries K) (cond : conditions) (h : dev_hierarchy) (qs : list (dvec * dvec)) (d : device)
    : outcome (list dvec * device) :=
    match qs with
    | [] => Ok ([], d)
    | (x, b) :: t =>
        let! (y, d1) := dev_vmult debug L cond h x b d in
        let! (ys, d2) := dev_vmults debug L cond h t d1 in
        Ok (y :: ys, d2)
    end.

  (** ** Construction *)
  (** Thread orders and buffers of the three kernels of the smoother's constructor on one rank (no line in /repo); below [z k r c] for operator k,
      rank r and its matrix c. *)
  Record smoother_conditions : Type := mkSmootherConditions {
    z_order1 : list nat; z_order2 : list nat; z_order3 : list nat; z_val : list K; z_col : list nat; z_ptr : list nat }.
  (** CudaHierarchyHelpers::build_smoother and the constructor of CudaSmoother (cuda_hierarchy_helpers.cu:84-91, cuda_smoother.cu:98-162): csr2coo
      needs the handle of the matrix; reinit gives _smoother that handle and a descriptor. *)
  Definition build_smoother (debug : bool) (z : nat -> nat -> csr K -> smoother_conditions) (p : ptree) (s : cuda_state K) (k : nat) : outcome dev_smoother :=
    let prec_type := lower (get_string ["smoother"; "type"]%string "Jacobi" p) in
    if negb (String.eqb prec_type "jacobi") then Throw
    else
      let! m := get_matrix s k in
      if m_handle m then
        let! parts := mapM (fun r => let! c := rd (m_parts m) r in
                                     cuda_smoother debug c (z_order1 (z k r c)) (z_order2 (z k r c)) (z_order3 (z k r c)) (z_val (z k r c)) (z_col (z k r c))
                                       (z_ptr (z k r c))) (seq 0 (length (m_parts m))) in
        Ok (mkDevSmoother k (mkShared parts true true))
      else if debug then Abort else UB.
  (** CudaHierarchyHelpers::build_coarse_solver and the constructor of CudaSolver without AMGX (cuda_hierarchy_helpers.cu:93-103,
      cuda_solver.cu:204-217). *)
  Definition build_coarse_solver (debug : bool) (Y : solver_library K) (p : ptree) (k : nat) : dev_solver :=
    direct_solver debug Y k (lower (get_string ["solver"; "type"]%string "lu_dense" p)).
  (** CudaHierarchyHelpers::build_restrictor (cuda_hierarchy_helpers.cu:54-82) for the agglomerates that the ranks have after build_agglomerates and
      compute_local_matrices (M_AmgeDev.v has the meaning of the arguments). Simplified: the parameters are read; a tree without the subtrees
      "eigensolver" and "agglomeration" is an exception (get_child), for which [restr] below may be Throw. *)
  Definition build_restrictor (debug acc : bool) (tol : K) (Z : eig_library K) (compress : list nat -> list (list nat) -> list (spm K) -> list (trilinos K))
    (n_eigenvectors : nat) (owned : list (list nat)) (gds : nat -> nat -> option K) (gd : nat -> option K) (gdiag : nat -> K)
    (aggs : list (list (agglomerate K))) (hs : list (heap K)) : outcome (shared_matrix K * list (heap K)) :=
    setup_restrictor debug acc tol Z compress n_eigenvectors owned gds gd gdiag (combine aggs hs).
  (** A matrix becomes an operator (cuda_matrix_operator.cu:73-78). *)
  Definition new_operator (s : cuda_state K) (m : shared_matrix K) : cuda_state K :=
    mkCuda (u_mats s ++ [m]) (u_ops s ++ [mkOperator (length (u_mats s)) None]).
  (** The loop over the levels (hierarchy.hpp:178-234) from the one whose operator is number k on; [ro] is the restrictor to this level, [todo] the
      number of levels after it, [restr] is build_restrictor with the parameters of the hierarchy:
      it depends on the level only through the device memory. fast_multiply_transpose is not implemented (hierarchy_helpers.hpp:44-49). *)
  Fixpoint dev_setup (debug : bool) (L : libraries K) (Y : solver_library K) (z : nat -> nat -> csr K -> smoother_conditions)
    (restr : list (heap K) -> outcome (shared_matrix K * list (heap K))) (p : ptree) (todo : nat) (ro : option nat) (k : nat) (d : device)
    : outcome (list dev_level * device) :=
    match todo with
    | O => Ok ([mkDevLevel (Some k) ro None (Some (build_coarse_solver debug Y p k))], d)
    | S todo' =>
        let! sm := build_smoother debug z p (d_ops d) k in
        let! (rm, hs) := restr (d_heaps d) in
        let s1 := new_operator (d_ops d) rm in
        let r := length (u_ops (d_ops d)) in
        let! s2 := (if pt_get parse_bool ["fast_ap"%string] false p then Throw else op_multiply_transpose debug L s1 k r) in
        let! s3 := op_multiply debug L s2 r (length (u_ops s1)) in
        let! (ls, d') := dev_setup debug L Y z restr p todo' (Some r) (length (u_ops s2)) (mkDevice s3 hs (d_products d)) in
        Ok (mkDevLevel (Some k) ro (Some sm) None :: ls, d')
    end.
  (** The constructor (hierarchy.hpp:159-236) with an existing parameter tree and an evaluator of type CudaMeshEvaluator; [global] is the matrix
      of evaluate_global (cuda_hierarchy_helpers.cu:29-52), which becomes the next operator. The parameter that is written for a hierarchy of one
      level (hierarchy.hpp:186-191) is not read by the helpers of the device. *)
  Definition dev_construct (debug : bool) (L : libraries K) (Y : solver_library K) (z : nat -> nat -> csr K -> smoother_conditions)
    (restr : list (heap K) -> outcome (shared_matrix K * list (heap K))) (global : shared_matrix K) (p : ptree) (d : device)
    : outcome (dev_hierarchy * device) :=
    let prec := pt_get parse_bool ["is preconditioner"%string] true p in
    let n_smoothing_steps := Z.to_nat ((pt_get parse_int ["smoother"; "n_smoothing_steps"]%string 1%Z p) mod 2 ^ 32) in
    let num_levels := pt_get parse_int ["max levels"%string] 2%Z p in
    let! _ := assert_dbg debug (0 <? num_levels)%Z in
    if (num_levels <? 0)%Z then Throw
    else if (num_levels =? 0)%Z then UB
    else
      let d0 := mkDevice (new_operator (d_ops d) global) (d_heaps d) (d_products d) in
      let! (ls, d1) := dev_setup debug L Y z restr p (Z.to_nat num_levels - 1) None (length (u_ops (d_ops d))) d0 in
      Ok (mkDevHierarchy ls prec n_smoothing_steps, d1).
End CudaHier.
Arguments mkDvec {K} _ _.
Arguments v_owned {K} _.
Arguments v_vals {K} _.
Arguments v_size {K} v.
Arguments v_zero {K} v.
Arguments v_add {K} y s x.
Arguments mkDevice {K} _ _ _.
Arguments d_ops {K} _.
Arguments d_heaps {K} _.
Arguments d_products {K} _.
Arguments dev_apply {K} debug L cond k trans x y d.
Arguments get_matrix {K} s k.
Arguments build_domain_vector {K} s k.
Arguments mkDevSmoother {K} _ _.
Arguments sm_op {K} _.
Arguments sm_matrix {K} _.
Arguments dev_smoother_apply {K} debug cond sm b x d.
Arguments direct_solver {K} debug Y k name b x d.
Arguments mkDevLevel {K} _ _ _ _.
Arguments dl_op {K} _.
Arguments dl_restrictor {K} _.
Arguments dl_smoother {K} _.
Arguments dl_solver {K} _.
Arguments dev_build_vector {K} s l.
Arguments dev_smooth_loop {K} debug cond n sm b x d.
Arguments dev_apply_levels {K} debug L cond prec n first lv rest b x d.
Arguments mkDevHierarchy {K} _ _ _.
Arguments dh_levels {K} _.
Arguments dh_is_preconditioner {K} _.
Arguments dh_n_smoothing_steps {K} _.
Arguments dev_vmult {K} debug L cond h x b d.
Arguments dev_vmults {K} debug L cond h qs d.
Arguments mkSmootherConditions {K} _ _ _ _ _ _.
Arguments build_smoother {K} debug z p s k.
Arguments build_coarse_solver {K} debug Y p k b x d.
Arguments build_restrictor {K} debug acc tol Z compress n_eigenvectors owned gds gd gdiag aggs hs.
Arguments new_operator {K} s m.
Arguments dev_setup {K} debug L Y z restr p todo ro k d.
Arguments dev_construct {K} debug L Y z restr global p d.
