(** Model of the Lanczos eigensolver and its deflated operator (include/mfmg/common/lanczos.templates.hpp, lanczos_deflatedop.templates.hpp).
    Definitions only. Scalars are exact; int parameters are natural numbers (negative values are not modelled). *)
From Coq Require Import List Arith Bool.
From Verif Require Import Base OField M_Perm.
Import ListNotations.
Set Implicit Arguments.
Open Scope nat_scope.

(** std::vector::resize (external): cuts the list or appends default values. *)
Definition resize {A} (l : list A) (n : nat) (dflt : A) : list A := firstn n l ++ repeat dflt (n - length l).
(** std::vector::erase of a range (external). *)
Definition erase {A} (l : list A) (first last : nat) : list A := firstn first l ++ skipn last l.

Section Lanczos.
  Variable K : ofield.
  Local Open Scope K_scope.
  Notation vec := (vec K).

  (** std::sqrt (external): [None] where the field has no root; over the real numbers it is defined for every nonnegative argument. *)
  Variable fsqrt : K -> option K.
  (** MFMG_DEBUG *)
  Variable debug : bool.

  (** A square root the field lacks ends the run in [Fuel]: outside the model. *)
  Definition root (x : K) : outcome K := match fsqrt x with Some s => Ok s | None => Fuel end.
  (** l2_norm (external; lanczos.templates.hpp:204,247). *)
  Definition l2_norm (v : vec) : outcome K := root (dot v v).
  (** operator/= by a scalar (external; lanczos.templates.hpp:227, lanczos_deflatedop.templates.hpp:108). Division by zero fills the vector with
      values that are not numbers: [UB]. *)
  Definition vdiv (v : vec) (s : K) : outcome vec := if s =? 0 then UB else Ok (vscale (1 / s) v).

  (** ** Deflation (lanczos_deflatedop.templates.hpp) *)
  (** vec.add(-(vec * d), d) (lanczos_deflatedop.templates.hpp:78, 125). *)
  Definition remove_component (v d : vec) : vec := vaxpy (- dot v d) d v.
  (** DeflatedOperator::deflate (lanczos_deflatedop.templates.hpp:120-126); [ds] is _deflation_vecs. *)
  Definition deflate (ds : list vec) (v : vec) : vec := fold_left remove_component ds v.
  (** DeflatedOperator::vmult (lanczos_deflatedop.templates.hpp:31-46). *)
  Definition deflated_vmult (op : vec -> vec) (ds : list vec) (x : vec) : vec := deflate ds (op x).
  (** The search for the longest remaining vector (lanczos_deflatedop.templates.hpp:90-100): [k] values of j are left. *)
  Fixpoint find_longest (k : nat) (arr : list vec) (i j : nat) (perm_ind : list nat) (dot_best : K) : outcome (list nat * K) :=
    match k with
    | O => Ok (perm_ind, dot_best)
    | S k' =>
        let! pj := rd perm_ind j in
        let! v := rd arr pj in
        let dot_this := dot v v in
        if dot_best <? dot_this
        then let! perm_ind' := swap perm_ind i j in find_longest k' arr i (S j) perm_ind' dot_this
        else find_longest k' arr i (S j) perm_ind dot_best
    end.
  (** Orthogonalisation of the later vectors (lanczos_deflatedop.templates.hpp:111-115): [k] values of j are left. *)
  Fixpoint orthogonalise_later (k : nat) (arr : list vec) (i j : nat) (perm_ind : list nat) : outcome (list vec) :=
    match k with
    | O => Ok arr
    | S k' =>
        let! p_i := rd perm_ind i in
        let! pj := rd perm_ind j in
        let! vi := rd arr p_i in
        let! vj := rd arr pj in
        let a := dot vi vj in
        let! arr' := wr arr pj (vaxpy (- a) vi vj) in
        orthogonalise_later k' arr' i (S j) perm_ind
    end.
  (** The loop over i (lanczos_deflatedop.templates.hpp:85-116): [k] values of i are left. dot_best starts at -1. *)
  Fixpoint orthonormalise (k num_new i : nat) (arr : list vec) (perm_ind : list nat) : outcome (list vec) :=
    match k with
    | O => Ok arr
    | S k' =>
        let! pb := find_longest (num_new - i) arr i i perm_ind (- (1)) in
        let perm_ind := fst pb in
        let! norm := root (snd pb) in
        let! _ := assert_dbg debug (negb (norm =? 0)) in
        let! p_i := rd perm_ind i in
        let! vi := rd arr p_i in
        let! vi' := vdiv vi norm in
        let! arr := wr arr p_i vi' in
        let! arr := orthogonalise_later (num_new - (i + 1)) arr i (i + 1) perm_ind in
        orthonormalise k' num_new (i + 1) arr perm_ind
    end.
  (** DeflatedOperator::add_deflation_vecs (lanczos_deflatedop.templates.hpp:57-117). *)
  Definition add_deflation_vecs (ds vecs : list vec) : outcome (list vec) :=
    let num_old := length ds in
    let num_new := length vecs in
    let arr := ds ++ map (deflate ds) vecs in
    orthonormalise num_new num_new 0 arr (seq num_old num_new).

  (** ** Eigenpairs of the tridiagonal matrix (lanczos.templates.hpp:297-453) *)
  (** LAPACKE_dstev (external): eigenvalues in ascending order and the flat array of eigenvectors, one after another. *)
  Variable dstev : list K -> list K -> outcome (list K * list K).
  (** tol2 = 5e-12 (lanczos.templates.hpp:344) *)
  Variable tol2 : K.

  (** lanczos.templates.hpp:357-358 *)
  Definition is_repeated (evals : list K) (i : nat) : bool :=
    let n := length evals in
    ((0 <? i)%nat && (nth i evals 0 <=? nth (i - 1) evals 0 + tol2)) ||
    ((i <? n - 1)%nat && (nth (i + 1) evals 0 <=? nth i evals 0 + tol2)).
  (** lanczos.templates.hpp:363 *)
  Definition is_marked (evals : list K) (i : nat) : bool :=
    (i =? 0)%nat || (nth (i - 1) evals 0 + tol2 <? nth i evals 0).
  (** The inner loop over j (lanczos.templates.hpp:398-417): [k] values of j are left; result: spurious?, j_start. *)
  Fixpoint seek_match (k : nat) (evals2 : list K) (e : K) (j j_start : nat) : bool * nat :=
    match k with
    | O => (false, j_start)
    | S k' =>
        let e2 := nth j evals2 0 in
        if e2 <? e - tol2 then seek_match k' evals2 e (S j) j
        else if e + tol2 <? e2 then (false, j_start)
        else (true, j_start)
    end.
  (** The loop over i (lanczos.templates.hpp:387-418): [k] values of i are left; result: is_spurious from i on. *)
  Fixpoint spurious_from (k : nat) (evals evals2 : list K) (i j_start : nat) : list bool :=
    match k with
    | O => []
    | S k' =>
        if is_repeated evals i then false :: spurious_from k' evals evals2 (S i) j_start
        else let r := seek_match (length evals2 - j_start) evals2 (nth i evals 0) j_start j_start in
             fst r :: spurious_from k' evals evals2 (S i) (snd r)
    end.
  (** is_spurious (lanczos.templates.hpp:366-419): the second eigenproblem is solved only if n - 1 >= 1 and n - 1 >= num_requested. *)
  Definition find_spurious (main_diagonal sub_diagonal evals : list K) (num_requested : nat) : outcome (list bool) :=
    let n := length main_diagonal in
    if (1 <=? n - 1)%nat && (num_requested <=? n - 1)%nat then
      let! ev2 := dstev (tl main_diagonal) (tl sub_diagonal) in
      Ok (spurious_from n evals (fst ev2) 0 0)
    else Ok (repeat false n).
  (** The purge (lanczos.templates.hpp:421-432), from the last index to the first: [k] indices are left. *)
  Fixpoint purge (k n : nat) (bad : nat -> bool) (evals evecs_aux : list K) : list K * list K :=
    match k with
    | O => (evals, evecs_aux)
    | S i =>
        if bad i then purge i n bad (erase evals i (i + 1)) (erase evecs_aux (n * i) (n * (i + 1)))
        else purge i n bad evals evecs_aux
    end.
  (** Copy of the kept vectors, normalised (lanczos.templates.hpp:440-451): [k] values of i are left. *)
  Fixpoint save_normalised (k n i : nat) (evecs_aux : list K) : outcome (list K) :=
    match k with
    | O => Ok []
    | S k' =>
        let v := firstn n (skipn (n * i) evecs_aux) in
        let! norm := root (dot v v) in
        let! w := vdiv v norm in
        let! r := save_normalised k' n (S i) evecs_aux in
        Ok (w ++ r)
    end.
  (** details_calc_tridiag_epairs (lanczos.templates.hpp:297-453). *)
  Definition calc_tridiag_epairs (main_diagonal sub_diagonal : list K) (num_requested : nat) : outcome (list K * list K) :=
    let n := length main_diagonal in
    let! _ := assert_dbg debug (1 <=? n)%nat in
    let! _ := assert_dbg debug (length sub_diagonal =? n - 1)%nat in
    if (n <? num_requested)%nat then Ok ([], [])
    else
      let! ev := dstev main_diagonal sub_diagonal in
      let evals := fst ev in
      let! is_spurious := find_spurious main_diagonal sub_diagonal evals num_requested in
      let kept := purge n n (fun i => nth i is_spurious false || negb (is_marked evals i)) evals (snd ev) in
      if (length (fst kept) <? num_requested)%nat then Ok ([], [])
      else
        let! evecs := save_normalised num_requested n 0 (snd kept) in
        Ok (firstn num_requested (fst kept), evecs).

  (** details_check_convergence (lanczos.templates.hpp:456-479): [k] values of i are left. *)
  Fixpoint check_bounds (k : nat) (beta : K) (num_evecs i : nat) (tol : K) (evecs : list K) (is_converged : bool) : outcome bool :=
    match k with
    | O => Ok is_converged
    | S k' =>
        let! x := rd evecs (num_evecs - 1 + num_evecs * i) in
        check_bounds k' beta num_evecs (S i) tol evecs (is_converged && (beta * fabs x <=? tol))
    end.
  Definition check_convergence (beta : K) (num_evecs num_requested : nat) (tol : K) (evecs : list K) : outcome bool :=
    if (num_evecs <? num_requested)%nat then Ok false else check_bounds num_requested beta num_evecs 0 tol evecs true.

  (** details_calc_evecs (lanczos.templates.hpp:483-503): the inner loop over j ([k] values left), then the loop over i. *)
  Fixpoint sum_evec (k n i j : nat) (lanc_vectors : list vec) (evecs_tridiag : list K) (y : vec) : outcome vec :=
    match k with
    | O => Ok y
    | S k' =>
        let! c := rd evecs_tridiag (j + n * i) in
        let! v := rd lanc_vectors j in
        sum_evec k' n i (S j) lanc_vectors evecs_tridiag (vaxpy c v y)
    end.
  Fixpoint calc_evecs_from (k n i dim : nat) (lanc_vectors : list vec) (evecs_tridiag : list K) : outcome (list vec) :=
    match k with
    | O => Ok []
    | S k' =>
        let! y := sum_evec n n i 0 lanc_vectors evecs_tridiag (vzero dim) in
        let! r := calc_evecs_from k' n (S i) dim lanc_vectors evecs_tridiag in
        Ok (y :: r)
    end.
  Definition calc_evecs (num_requested n : nat) (lanc_vectors : list vec) (evecs_tridiag : list K) : outcome (list vec) :=
    let! v0 := rd lanc_vectors 0 in
    calc_evecs_from num_requested n 0 (length v0) lanc_vectors evecs_tridiag.

  (** ** The iteration (lanczos.templates.hpp:179-293) *)
  (** The local variables of details_solve_lanczos; [s_checks] records the iterations in which convergence was checked, the latest first (not in
      the code). *)
  Record lanczos_state : Type := mkLS {
    s_it : nat;
    s_prev_check : nat;
    s_beta : K;
    s_vectors : list vec;
    s_main : list K;
    s_sub : list K;
    s_evals : list K;
    s_evecs : list K;
    s_checks : list nat
  }.
  (** Normalisation, product and recurrence (lanczos.templates.hpp:223-247): result new beta, vectors, diagonals. *)
  Definition lanczos_step (op : vec -> vec) (it : nat) (beta : K) (vs : list vec) (main sub : list K)
    : outcome (K * list vec * list K * list K) :=
    let! _ := assert_dbg debug (negb (beta =? 0)) in
    let! v := rd vs (it - 1) in
    let! v := vdiv v beta in
    let! vs := wr vs (it - 1) v in
    let w := op v in
    let! ws := (if (it =? 1)%nat then Ok (w, sub)
                else let! u := rd vs (it - 2) in Ok (vaxpy (- beta) u w, sub ++ [beta])) in
    let w := fst ws in
    let alpha := dot v w in
    let w := vaxpy (- alpha) v w in
    let! beta := l2_norm w in
    Ok (beta, vs ++ [w], main ++ [alpha], snd ws).
  (** The test at lanczos.templates.hpp:252-256. *)
  Definition check_due (percent_overshoot maxit prev it : nat) : bool :=
    (it =? 1)%nat || (it =? maxit)%nat || (percent_overshoot * prev <? 100 * (it - prev))%nat.
  (** The loop (lanczos.templates.hpp:219-276): [k] = maxit + 1 - it iterations are left. *)
  Fixpoint lanczos_loop (k : nat) (op : vec -> vec) (num_requested maxit : nat) (tol : K) (percent_overshoot : nat) (s : lanczos_state)
    : outcome lanczos_state :=
    match k with
    | O => Ok s
    | S k' =>
        let it := s_it s in
        let! st := lanczos_step op it (s_beta s) (s_vectors s) (s_main s) (s_sub s) in
        let '(beta, vs, main, sub) := st in
        if check_due percent_overshoot maxit (s_prev_check s) it then
          let! _ := assert_dbg debug (it =? length main)%nat in
          let! ep := calc_tridiag_epairs main sub num_requested in
          let! conv := check_convergence beta it num_requested tol (snd ep) in
          let s' := mkLS it (s_prev_check s) beta vs main sub (fst ep) (snd ep) (it :: s_checks s) in
          if conv then Ok s'
          else lanczos_loop k' op num_requested maxit tol percent_overshoot
                 (mkLS (S it) it beta vs main sub (fst ep) (snd ep) (it :: s_checks s))
        else lanczos_loop k' op num_requested maxit tol percent_overshoot
               (mkLS (S it) (s_prev_check s) beta vs main sub (s_evals s) (s_evecs s) (s_checks s))
    end.
  (** The loop from its initial state (lanczos.templates.hpp:184-276). *)
  Definition lanczos_run (op : vec -> vec) (num_requested maxit : nat) (tol : K) (percent_overshoot : nat) (initial_guess : vec)
    : outcome lanczos_state :=
    let! _ := assert_dbg debug (percent_overshoot <? 100)%nat in
    let! _ := assert_dbg debug (0 <=? tol) in
    let! _ := assert_dbg debug (num_requested <=? maxit)%nat in
    let! beta := l2_norm initial_guess in
    lanczos_loop maxit op num_requested maxit tol percent_overshoot (mkLS 1 0 beta [initial_guess] [] [] [] [] []).
  (** details_solve_lanczos (lanczos.templates.hpp:179-293). *)
  Definition solve_lanczos (op : vec -> vec) (num_requested maxit : nat) (tol : K) (percent_overshoot : nat) (initial_guess : vec)
    : outcome (list K * list vec) :=
    let! s := lanczos_run op num_requested maxit tol percent_overshoot initial_guess in
    let it := if (s_it s <? maxit)%nat then s_it s else maxit in
    let! _ := assert_dbg debug (num_requested <=? it)%nat in
    let! evecs := calc_evecs num_requested it (s_vectors s) (s_evecs s) in
    Ok (s_evals s, evecs).

  (** ** The cycles (lanczos.templates.hpp:83-176) *)
  (** dist(gen) of the generator seeded with [seed], call number i, a value in [0, 1) (external). *)
  Variable rand : nat -> nat -> K.
  (** details_set_initial_guess (lanczos.templates.hpp:36-49). *)
  Fixpoint perturb_from (seed i : nat) (v : vec) : vec :=
    match v with
    | [] => []
    | x :: t => (1 + rand seed i) * x :: perturb_from seed (S i) t
    end.
  Definition set_initial_guess (v : vec) (seed : nat) : vec := perturb_from seed 0 v.

  (** push_back of the first pairs of a cycle (lanczos.templates.hpp:133-137): [k] values of i are left. *)
  Fixpoint push_pairs (k i : nat) (cycle_evals : list K) (cycle_evecs : list vec) : outcome (list (K * vec)) :=
    match k with
    | O => Ok []
    | S k' =>
        let! e := rd cycle_evals i in
        let! v := rd cycle_evecs i in
        let! r := push_pairs k' (S i) cycle_evals cycle_evecs in
        Ok ((e, v) :: r)
    end.
  (** The loop over the cycles (lanczos.templates.hpp:111-146): [k] cycles are left. Result: the pairs in order. *)
  Fixpoint cycles (k cycle : nat) (op : vec -> vec) (num_evecs_per_cycle maxit : nat) (tol : K) (percent_overshoot : nat)
    (ds : list vec) (guess : vec) : outcome (list (K * vec)) :=
    match k with
    | O => Ok []
    | S k' =>
        let guess := if (0 <? cycle)%nat then set_initial_guess guess cycle else guess in
        let guess := deflate ds guess in
        let! ce := solve_lanczos (deflated_vmult op ds) num_evecs_per_cycle maxit tol percent_overshoot guess in
        let! pairs := push_pairs num_evecs_per_cycle 0 (fst ce) (snd ce) in
        let! ds := (if (k' =? 0)%nat then Ok ds else add_deflation_vecs ds (snd ce)) in
        let! r := cycles k' (S cycle) op num_evecs_per_cycle maxit tol percent_overshoot ds guess in
        Ok (pairs ++ r)
    end.
  (** std::sort of the indices (external; lanczos.templates.hpp:163-164). *)
  Variable std_sort : (nat -> nat -> bool) -> list nat -> list nat.
  (** Lanczos::solve (lanczos.templates.hpp:83-176) with the parameters read: without is_deflated there is one cycle. Simplified: the pairs are
      kept together where the code keeps two parallel vectors; resize pads with the eigenvalue 0 and an empty vector. *)
  Definition solve (op : vec -> vec) (is_deflated : bool) (n_eigenvectors num_eigenpairs_per_cycle num_cycles_param maxit : nat) (tol : K)
    (percent_overshoot : nat) (initial_guess : vec) : outcome (list (K * vec)) :=
    let num_evecs_per_cycle := if is_deflated then num_eigenpairs_per_cycle else n_eigenvectors in
    let num_cycles := if is_deflated then num_cycles_param else 1%nat in
    let! _ := assert_dbg debug (1 <=? num_cycles)%nat in
    let! _ := assert_dbg debug (1 <=? num_evecs_per_cycle)%nat in
    let! pairs := cycles num_cycles 0 op num_evecs_per_cycle maxit tol percent_overshoot [] initial_guess in
    let pairs := resize pairs n_eigenvectors (0, []) in
    if (1 <? num_cycles)%nat then
      let perm_index := std_sort (fun i j => fst (nth i pairs (0, [])) <? fst (nth j pairs (0, []))) (seq 0 n_eigenvectors) in
      Ok (map (fun i => nth i pairs (0, [])) perm_index)
    else Ok pairs.
End Lanczos.
Arguments root {K} fsqrt x.
Arguments l2_norm {K} fsqrt v.
Arguments vdiv {K} v s.
Arguments remove_component {K} v d.
Arguments deflate {K} ds v.
Arguments deflated_vmult {K} op ds x.
Arguments find_longest {K} k arr i j perm_ind dot_best.
Arguments orthogonalise_later {K} k arr i j perm_ind.
Arguments orthonormalise {K} fsqrt debug k num_new i arr perm_ind.
Arguments add_deflation_vecs {K} fsqrt debug ds vecs.
Arguments is_repeated {K} tol2 evals i.
Arguments is_marked {K} tol2 evals i.
Arguments seek_match {K} tol2 k evals2 e j j_start.
Arguments spurious_from {K} tol2 k evals evals2 i j_start.
Arguments find_spurious {K} dstev tol2 main_diagonal sub_diagonal evals num_requested.
Arguments purge {K} k n bad evals evecs_aux.
Arguments save_normalised {K} fsqrt k n i evecs_aux.
Arguments calc_tridiag_epairs {K} fsqrt debug dstev tol2 main_diagonal sub_diagonal num_requested.
Arguments check_bounds {K} k beta num_evecs i tol evecs is_converged.
Arguments check_convergence {K} beta num_evecs num_requested tol evecs.
Arguments sum_evec {K} k n i j lanc_vectors evecs_tridiag y.
Arguments calc_evecs_from {K} k n i dim lanc_vectors evecs_tridiag.
Arguments calc_evecs {K} num_requested n lanc_vectors evecs_tridiag.
Arguments mkLS {K} _ _ _ _ _ _ _ _ _.
Arguments s_it {K} _.
Arguments s_prev_check {K} _.
Arguments s_beta {K} _.
Arguments s_vectors {K} _.
Arguments s_main {K} _.
Arguments s_sub {K} _.
Arguments s_evals {K} _.
Arguments s_evecs {K} _.
Arguments s_checks {K} _.
Arguments lanczos_step {K} fsqrt debug op it beta vs main sub.
Arguments lanczos_loop {K} fsqrt debug dstev tol2 k op num_requested maxit tol percent_overshoot s.
Arguments lanczos_run {K} fsqrt debug dstev tol2 op num_requested maxit tol percent_overshoot initial_guess.
Arguments solve_lanczos {K} fsqrt debug dstev tol2 op num_requested maxit tol percent_overshoot initial_guess.
Arguments perturb_from {K} rand seed i v.
Arguments set_initial_guess {K} rand v seed.
Arguments push_pairs {K} k i cycle_evals cycle_evecs.
Arguments cycles {K} fsqrt debug dstev tol2 rand k cycle op num_evecs_per_cycle maxit tol percent_overshoot ds guess.
Arguments solve {K} fsqrt debug dstev tol2 rand std_sort op is_deflated n_eigenvectors num_eigenpairs_per_cycle num_cycles_param maxit tol percent_overshoot initial_guess.
