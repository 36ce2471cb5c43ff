(** Model of the smoother of matrix-free levels on the host (source/dealii/dealii_matrix_free_smoother.cc) and of the helpers of matrix-free
    hierarchies (source/dealii/dealii_matrix_free_hierarchy_helpers.cc), on one rank. Definitions only. *)
From Coq Require Import String List Arith ZArith NArith Bool.
From Verif Require Import Base OField Mat M_Ptree M_Hier M_Host.
Import ListNotations.
Set Implicit Arguments.
Open Scope nat_scope.

(** ptree::get_optional<T> (boost; called at dealii_matrix_free_smoother.cc:38,42,47): nothing when the entry is missing and nothing when its
    text is not the text of a T. *)
Definition pt_get_optional {A} (parse : string -> option A) (path : list string) (t : ptree) : option A :=
  match pt_find t path with Some c => parse (pt_data c) | None => None end.

Section Cheby.
  Variable K : ofield.
  Local Open Scope K_scope.
  Notation vec := (vec K).

  (** The fields of dealii::PreconditionChebyshev::AdditionalData that matter (deal.II, external; dealii_matrix_free_smoother.cc:37).
      The preconditioner is kept apart; eig_cg_residual, never set here, belongs to [cg_eigenvalues] below. *)
  Record cheb_data : Type := mkCheb {
    cd_degree : N;
    cd_smoothing_range : K;
    cd_eig_cg_n_iterations : N;
    cd_max_eigenvalue : K
  }.
  (** Default arguments of its constructor (deal.II 9.1, external; used at dealii_matrix_free_smoother.cc:37): degree 1, smoothing range 0,
      8 iterations of conjugate gradients for the eigenvalues, largest eigenvalue 1. *)
  Definition cheb_defaults : cheb_data := mkCheb 1 0 8 1.
  (** get<double> (dealii_matrix_free_smoother.cc:43,48): text to number. *)
  Variable parse_double : string -> option K.
  (** The options read by the constructor (dealii_matrix_free_smoother.cc:37-51). The int is assigned to an unsigned int. *)
  Definition mf_cheb_data (p : ptree) : cheb_data :=
    let data := cheb_defaults in
    let data := match pt_get_optional parse_int ["smoother"; "degree"]%string p with
                | Some degree => mkCheb (Z.to_N (degree mod 2 ^ 32)) (cd_smoothing_range data) (cd_eig_cg_n_iterations data) (cd_max_eigenvalue data)
                | None => data
                end in
    let data := match pt_get_optional parse_double ["smoother"; "smoothing_range"]%string p with
                | Some smoothing_range => mkCheb (cd_degree data) smoothing_range (cd_eig_cg_n_iterations data) (cd_max_eigenvalue data)
                | None => data
                end in
    match pt_get_optional parse_double ["smoother"; "max_eigenvalue"]%string p with
    | Some max_eigenvalue => mkCheb (cd_degree data) (cd_smoothing_range data) (cd_eig_cg_n_iterations data) max_eigenvalue
    | None => data
    end.

  (** *** dealii::PreconditionChebyshev (deal.II 9.1, external; initialised at dealii_matrix_free_smoother.cc:55, applied at 72).
      What follows is its documented algorithm in exact arithmetic. *)
  (** The eigenvalue estimates of the conjugate gradient iteration for the operator and the diagonal preconditioner: smallest and largest, or
      nothing when the iteration stopped at once; for a given number of iterations (external). *)
  Variable cg_eigenvalues : N -> nat -> (vec -> vec) -> vec -> option (K * K).
  (** The degree chosen from the largest eigenvalue, the lower end of the range and the tolerance, when the given degree is the largest
      unsigned int (external). *)
  Variable auto_degree : K -> K -> K -> N.

  (** PreconditionChebyshev::estimate_eigenvalues, first part (external; called from the first vmult): smallest and largest eigenvalue. *)
  Definition cheb_eigenvalues (data : cheb_data) (n : nat) (A : vec -> vec) (dinv : vec) : K * K :=
    if (cd_eig_cg_n_iterations data =? 0)%N then (cd_max_eigenvalue data / cd_smoothing_range data, cd_max_eigenvalue data)
    else match cg_eigenvalues (cd_eig_cg_n_iterations data) n A dinv with
         | None => (1, 1)
         | Some (lo, hi) => (lo, fpos 12 / fpos 10 * hi)
         end.
  (** Lower end of the range (external, estimate_eigenvalues). *)
  Definition cheb_alpha (data : cheb_data) (lo hi : K) : K :=
    if fltb 1 (cd_smoothing_range data) then hi / cd_smoothing_range data
    else if fleb lo (fpos 9 / fpos 10 * hi) then lo else fpos 9 / fpos 10 * hi.
  (** Smallest half width for which the iteration goes on (external: 1e-40). *)
  Definition cheb_tiny : K := 1 / fpos (10 ^ 40).

  (** The diagonal preconditioner, get_diagonal_inverse() (dealii_matrix_free_smoother.cc:53; dealii_matrix_free_operator.cc:145-150). *)
  Definition diag_apply (dinv r : vec) : vec := vmap2 fmul dinv r.
  (** Steps after the first (external, PreconditionChebyshev::vmult): the three term recurrence. *)
  Fixpoint cheb_loop (k : nat) (A : vec -> vec) (dinv b : vec) (sigma delta rhok : K) (x_old x : vec) : vec :=
    match k with
    | O => x
    | S k' =>
        let rhokp := 1 / ((1 + 1) * sigma - rhok) in
        let factor1 := rhokp * rhok in
        let factor2 := (1 + 1) * rhokp / delta in
        let x_new := vadd (vadd x (vscale factor1 (vsub x x_old))) (vscale factor2 (diag_apply dinv (vsub b (A x)))) in
        cheb_loop k' A dinv b sigma delta rhokp x x_new
    end.
  (** PreconditionChebyshev::vmult (external). *)
  Definition cheb_vmult (data : cheb_data) (n : nat) (A : vec -> vec) (dinv b : vec) : vec :=
    let (lo, hi) := cheb_eigenvalues data n A dinv in
    let alpha := cheb_alpha data lo hi in
    let degree := if (cd_degree data =? 2 ^ 32 - 1)%N then auto_degree hi alpha (cd_smoothing_range data) else cd_degree data in
    let delta := (hi - alpha) / (1 + 1) in
    let theta := (hi + alpha) / (1 + 1) in
    let x := vscale (1 / theta) (diag_apply dinv b) in
    if (degree <? 2)%N || fltb (fabs delta) cheb_tiny then x
    else cheb_loop (N.to_nat (degree - 1)) A dinv b (theta / delta) delta (delta / theta) (vzero n) x.

  (** *** The helpers *)
  (** The evaluator: size, matrix_free_evaluate_global and the inverse diagonal; text to number for ML; the restriction with the product for
      fast_ap; the cycle of ML. *)
  Variable n : nat.
  Variable evaluate_global : vec -> vec.
  Variable diagonal_inverse : vec.
  Variable accepts_double : string -> bool.
  Variable make_restrictor : ptree -> outcome (mat K * mat K).
  Variable ml_vmult : ml_list -> mat K -> vec -> vec.

  (** build_smoother (dealii_matrix_free_hierarchy_helpers.cc:305-312, dealii_matrix_free_smoother.cc:19-60). The operator of every level but
      the finest is a matrix: the downcast yields a null pointer, checked by ASSERT only, and dereferenced at line 53. Simplified: [UB] also
      for debug builds, where the program stops. *)
  Definition mf_build_smoother (a : op K) (p : ptree) : outcome (bx_apply K) :=
    let! _ := matrix_free_smoother_kind p in
    match a with
    | MfOp n A => Ok (smoother_apply (MfOp n A) (cheb_vmult (mf_cheb_data p) n A diagonal_inverse))
    | TriOp _ => UB
    end.
  (** DealIIMatrixFreeHierarchyHelpers (dealii_matrix_free_hierarchy_helpers.cc:35-51, 53-303, 305-330): build_restrictor differs from that of
      DealIIHierarchyHelpers in the type of the evaluator only; build_coarse_solver is the same. *)
  Definition mf_helpers : helpers K (option (op K)) :=
    {| hh_get_global_operator := fun ap => (Ok (MfOp n evaluate_global), ap);
       hh_build_restrictor := host_build_restrictor make_restrictor;
       hh_build_smoother := fun a p ap => (mf_build_smoother a p, ap);
       hh_build_coarse_solver := fun a p ap => (host_build_coarse_solver accepts_double ml_vmult a p, ap);
       hh_fast_multiply_transpose := fun ap => (deref ap, ap) |}.
End Cheby.
Arguments mf_cheb_data {K} parse_double p.
Arguments mkCheb {K} _ _ _ _.
