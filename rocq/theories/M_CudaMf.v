(** Model of CudaMatrixFreeOperator (source/cuda/cuda_matrix_free_operator.cu:23-165) as collective calls, with the operators of M_CudaOp.v. Definitions
    only. *)
From Coq Require Import List Arith Bool.
From Verif Require Import Base OField M_SpProd M_Csr M_CudaOp.
Import ListNotations.
Set Implicit Arguments.
Open Scope nat_scope.

Section CudaMf.
  Variable K : ofield.

  (** A CudaMatrixFreeOperator: matrix_free_evaluate_global of its evaluator, which the user overrides (external;
      cuda_matrix_free_mesh_evaluator.cuh:62-69), from the source and the destination before to the destination after, and the owned dofs of
      build_range_vector (cuda_matrix_free_mesh_evaluator.cu:26-46). *)
  Record mf_operator : Type := mkMf { f_evaluate : dist_vec K -> dist_vec K -> outcome (dist_vec K); f_owned : list (list nat) }.
  (** The operator of an evaluator that does not override it (cuda_matrix_free_mesh_evaluator.cuh:62-69). *)
  Definition default_operator (owned : list (list nat)) : mf_operator := mkMf (fun _ _ => Throw) owned.

  (** apply for vectors on the device (cuda_matrix_free_operator.cu:32-37, 60-70). *)
  Definition mf_apply (o : mf_operator) (x y : dist_vec K) (trans : bool) : outcome (dist_vec K) :=
    if trans then Throw else f_evaluate o x y.
  (** apply for vectors on the host (cuda_matrix_free_operator.cu:39-58). Simplified: copy_from_host and copy_from_dev (source/cuda/utils.cu:484-510)
      are the identity on the owned values. *)
  Definition mf_apply_host (o : mf_operator) (x y : dist_vec K) (trans : bool) : outcome (dist_vec K) :=
    if trans then Throw else
    let x_dev := x in
    let y_dev := y in
    let! y' := f_evaluate o x_dev y_dev in
    Ok y'.
  (** transpose() (cuda_matrix_free_operator.cu:72-79). *)
  Definition mf_transpose (o : mf_operator) (s : cuda_state K) : outcome (cuda_state K) := Throw.
  (** multiply() (cuda_matrix_free_operator.cu:81-89). *)
  Definition mf_multiply (o : mf_operator) (s : cuda_state K) (b : nat) : outcome (cuda_state K) := Throw.

  (** A Trilinos matrix as dealii_utils.cc:20-60 sees it: the sizes are the same on all ranks. *)
  Definition dist_of (ts : list (trilinos K)) : outcome (dist_mat K) :=
    let! t := rd ts 0 in
    Ok (mkDist (t_m t) (t_n t) (map (@t_range K) ts) (map (@t_domain K) ts) (map (@t_colmap K) ts) (map (@t_rows K) ts)).
  (** The vector dst with which matrix_transpose_matrix_multiply calls apply: zero (dealii_utils.hpp:56-57). *)
  Definition zeros_on (owned : list (list nat)) : dist_vec K := map (map (fun _ => f0)) owned.
  (** The entries set in one row, with global columns (dealii_utils.hpp:74). *)
  Definition set_entries (entries : list (nat * nat * K)) (i : nat) : list (nat * K) :=
    map (fun e => (snd (fst e), snd e)) (filter (fun e => fst (fst e) =? i) entries).
  (** The matrix C on one rank after compress(insert) (dealii_utils.hpp:42-43, 74, 79), with [fill] of M_CudaOp.libraries. *)
  Definition product_matrix (fill : list nat -> list (list (nat * K)) -> list nat * list (list (nat * K))) (m n : nat) (range domain : list nat)
    (entries : list (nat * nat * K)) : trilinos K :=
    let f := fill domain (map (set_entries entries) range) in
    mkTri m n range domain (fst f) (snd f).
  (** multiply_transpose() (cuda_matrix_free_operator.cu:91-132): the result takes the handle of b (117) and gets a descriptor (118-126). [eps] is 1e-14
      (dealii_utils.hpp:72). *)
  Definition mf_multiply_transpose (debug : bool) (L : libraries K) (eps : K) (o : mf_operator) (s : cuda_state K) (b : nat) : outcome (cuda_state K) :=
    let! ob := rd (u_ops s) b in
    let! mb := rd (u_mats s) (o_mat ob) in
    let! b_host := mapM (convert_to_trilinos (x_fill L)) (m_parts mb) in
    let! d := dist_of b_host in
    let n := length (concat (f_owned o)) in
    let! entries := mtmm eps (fun src => mf_apply_host o src (zeros_on (f_owned o)) false) (f_owned o) n d in
    let c_host := map (fun r => product_matrix (x_fill L) n (d_m d) (nth r (f_owned o) []) (nth r (d_range d) []) (nth r entries [])) (seq 0 (length (f_owned o))) in
    let! parts := mapM (convert_trilinos debug) c_host in
    Ok (mkCuda (u_mats s ++ [mkShared parts (m_handle mb) true]) (u_ops s ++ [mkOperator (length (u_mats s)) None])).
End CudaMf.
Arguments mkMf {K} _ _.
Arguments f_evaluate {K} _ _ _.
Arguments f_owned {K} _.
Arguments default_operator {K} owned.
Arguments mf_apply {K} o x y trans.
Arguments mf_apply_host {K} o x y trans.
Arguments mf_transpose {K} o s.
Arguments mf_multiply {K} o s b.
Arguments dist_of {K} ts.
Arguments set_entries {K} entries i.
Arguments product_matrix {K} fill m n range domain entries.
Arguments mf_multiply_transpose {K} debug L eps o s b.
