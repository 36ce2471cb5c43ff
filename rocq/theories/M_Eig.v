(** Model of the eigenproblem of one agglomerate: initial guesses, shift, choice of the solver, extraction of the results.  Definitions only.
    ah = include/mfmg/dealii/amge_host.templates.hpp, an = include/mfmg/dealii/anasazi.templates.hpp,
    me = source/dealii/dealii_mesh_evaluator.cc. *)
From Coq Require Import String List Arith Bool ZArith.
From Verif Require Import Base OField Mat M_Ptree M_Host M_Restr M_Lanczos.
Import ListNotations.
Set Implicit Arguments.
Open Scope list_scope.
Open Scope nat_scope.

(** std::copy into existing storage (ah:203-206, 272-275): writing past the end is undefined. *)
Definition std_copy {A} (src dst : list A) : outcome (list A) :=
  if length src <=? length dst then Ok (src ++ skipn (length src) dst) else UB.

Section Eig.
  Variable K : ofield.
  Local Open Scope K_scope.
  Notation vec := (vec K).

  (** ** Initial guesses *)
  (** DealIIMeshEvaluator::set_initial_guess (me:43-55): [draw c] is the value of call number c of the generator, which is called for
      unconstrained indices only; [k] values of i are left. *)
  Fixpoint guess_from (draw : nat -> K) (is_constrained : nat -> bool) (k i calls : nat) : vec :=
    match k with
    | O => []
    | S k' =>
        if is_constrained i then 0 :: guess_from draw is_constrained k' (S i) calls
        else draw calls :: guess_from draw is_constrained k' (S i) (S calls)
    end.
  Definition evaluator_guess (draw : nat -> K) (is_constrained : nat -> bool) (n : nat) : vec := guess_from draw is_constrained n 0 0.

  (** The copies of the vectors of the previous agglomerate (ah:234-237): [k] values of i are left. *)
  Fixpoint copy_lobpcg (k i : nat) (lobpcg_vectors : list vec) : outcome (list vec) :=
    match k with
    | O => Ok []
    | S k' => let! v := rd lobpcg_vectors i in let! r := copy_lobpcg k' (S i) lobpcg_vectors in Ok (v :: r)
    end.
  (** One entry of one vector (ah:247-252, 256-262); [g] is initial_guess[i]. *)
  Definition repair_entry (g : K) (i : nat) (v : vec) : outcome vec :=
    if g =? 0 then wr v i 0
    else let! x := rd v i in if x =? 0 then wr v i g else Ok v.
  (** The loops over j (ah:247-263): all vectors, entry i. *)
  Fixpoint repair_all (g : K) (i : nat) (vs : list vec) : outcome (list vec) :=
    match vs with
    | [] => Ok []
    | v :: t => let! v' := repair_entry g i v in let! t' := repair_all g i t in Ok (v' :: t')
    end.
  (** The loop over i (ah:244-264): [k] values of i are left. *)
  Fixpoint repair_from (k i : nat) (initial_guess : vec) (vs : list vec) : outcome (list vec) :=
    match k with
    | O => Ok vs
    | S k' => let! g := rd initial_guess i in let! vs := repair_all g i vs in repair_from k' (S i) initial_guess vs
    end.
  (** The initial guess of LOBPCG (ah:221-265). *)
  Definition lobpcg_guess (n_eigenvectors : nat) (lobpcg_vectors : list vec) (initial_guess : vec) : outcome (list vec) :=
    match lobpcg_vectors with
    | [] => Ok [initial_guess]
    | v0 :: _ =>
        if negb (length v0 =? length initial_guess)%nat then Ok [initial_guess]
        else let! vs := copy_lobpcg n_eigenvectors 0 lobpcg_vectors in repair_from (length initial_guess) 0 initial_guess vs
    end.

  (** ** Anasazi (an:36-105) *)
  (** Anasazi::Eigensolution (external): numVecs, Evals (real parts), index (not 0 for a complex value), Evecs. *)
  Record eigensolution : Type := mkSol { so_numVecs : Z; so_evals : list K; so_index : list Z; so_evecs : list vec }.
  (** The loop of an:95-100: [k] values of i are left. *)
  Fixpoint extract_from (debug : bool) (s : eigensolution) (k i : nat) (evals : list K) (evecs : list vec) : outcome (list K * list vec) :=
    match k with
    | O => Ok (evals, evecs)
    | S k' =>
        let! _ := (if debug then let! ix := rd (so_index s) i in assert_dbg true (Z.eqb ix 0) else Ok tt) in
        let! e := rd (so_evals s) i in
        let! evals := wr evals i e in
        let! v := rd (so_evecs s) i in
        let! evecs := wr evecs i v in
        extract_from debug s k' (S i) evals evecs
    end.
  (** The extraction of the solution (an:86-102); [n_eigenvectors] is the parameter, an int.  A negative number of vectors, converted to
      size_t, is too large for std::vector, which throws. *)
  Definition anasazi_extract (debug : bool) (n_eigenvectors : Z) (s : eigensolution) : outcome (list K * list vec) :=
    let num_converged := Z.min (so_numVecs s) n_eigenvectors in
    if (num_converged <? 0)%Z then Throw
    else extract_from debug s (length (so_evals s)) 0 (repeat 0 (Z.to_nat num_converged)) (repeat [] (Z.to_nat num_converged)).

  (** ptree.get<double> (external; an:58). *)
  Variable parse_double : string -> option K.
  (** LOBPCG (external; an:46-77): number of vectors, tolerance, initial guess; whether it converged, and the solution. *)
  Variable lobpcg : (vec -> vec) -> Z -> K -> list vec -> bool * eigensolution.
  (** AnasaziSolver::solve (an:36-105).  Simplified: the parameters "max_iterations", "full_ortho" and "verbosity" have defaults and do not change
      the path; setProblem succeeds. *)
  Definition anasazi_solve (debug : bool) (op : vec -> vec) (params : ptree) (initial_guess : list vec) : outcome (list K * list vec) :=
    let! n_eigenvectors := pt_require parse_int ["number of eigenvectors"%string] params in
    let! tolerance := pt_require parse_double ["tolerance"%string] params in
    let r := lobpcg op n_eigenvectors tolerance initial_guess in
    let! _ := assert_dbg debug (fst r) in
    anasazi_extract debug n_eigenvectors (snd r).
  (** anasazi_compute_eigenvalues_and_eigenvectors (ah:209-275). *)
  Definition anasazi_wrapper (debug : bool) (op : vec -> vec) (n_eigenvectors : nat) (params : ptree) (initial_guess : vec) (lobpcg_vectors : list vec)
    (eigenvalues : list K) : outcome (list K * list vec) :=
    let! guess := lobpcg_guess n_eigenvectors lobpcg_vectors initial_guess in
    let! r := anasazi_solve debug op params guess in
    let! _ := assert_dbg debug (n_eigenvectors =? length (snd r))%nat in
    let! eigenvalues := std_copy (fst r) eigenvalues in
    Ok (eigenvalues, snd r).

  (** ** Lanczos (ah:164-207) *)
  Variable fsqrt : K -> option K.
  Variable dstev : list K -> list K -> outcome (list K * list K).
  Variable tol2 : K.
  Variable rand : nat -> nat -> K.
  Variable std_sort : (nat -> nat -> bool) -> list nat -> list nat.
  (** 1e-4 (ah:181) *)
  Definition lanczos_min_tolerance : K := 1 / fpos 10000.
  (** lanczos_compute_eigenvalues_and_eigenvectors (ah:164-207).  Simplified: the tolerance passes through the tree unchanged; int parameters are
      natural numbers, a negative one is taken as 0. *)
  Definition lanczos_wrapper (debug : bool) (op : vec -> vec) (n_eigenvectors : nat) (tolerance : K) (params : ptree) (initial_guess : vec)
    (eigenvalues : list K) : outcome (list K * list vec) :=
    let tol := fmax tolerance lanczos_min_tolerance in
    let max_iterations := Z.to_nat (pt_get parse_int ["max_iterations"%string] 200%Z params) in
    let percent_overshoot := Z.to_nat (pt_get parse_int ["percent_overshoot"%string] 5%Z params) in
    let is_deflated := pt_get parse_bool ["is_deflated"%string] false params in
    let! cm := (if is_deflated
                then let! c := pt_require parse_int ["num_cycles"%string] params in
                     let! m := pt_require parse_int ["num_eigenpairs_per_cycle"%string] params in Ok (Z.to_nat c, Z.to_nat m)
                else Ok (1%nat, n_eigenvectors)) in
    let! r := solve fsqrt debug dstev tol2 rand std_sort op is_deflated n_eigenvectors (snd cm) (fst cm) max_iterations tol percent_overshoot initial_guess in
    let! _ := assert_dbg debug (n_eigenvectors =? length r)%nat in
    let! eigenvalues := std_copy (map fst r) eigenvalues in
    Ok (eigenvalues, map snd r).

  (** ** LAPACK (ah:441-466) *)
  (** LAPACKFullMatrix::compute_eigenvalues_symmetric (external): the eigenvalues in (lower, upper] in ascending order and the eigenvectors, as the
      columns of the matrix returned; both are resized to the number found. *)
  Variable lapack : mat K -> K -> K -> outcome (list K * list vec).
  (** Copy of the eigenvalues (ah:459-460): [k] values of i are left. *)
  Fixpoint read_first {A} (k i : nat) (l : list A) : outcome (list A) :=
    match k with
    | O => Ok []
    | S k' => let! e := rd l i in let! r := read_first k' (S i) l in Ok (e :: r)
    end.
  Definition lapack_wrapper (B : mat K) (n_eigenvectors : nat) : outcome (list K * list vec) :=
    let! r := lapack B (- (1 / (1 + 1))) (fpos 100) in
    let! eigenvalues := read_first n_eigenvectors 0 (fst r) in
    let! eigenvectors := read_first n_eigenvectors 0 (snd r) in
    Ok (eigenvalues, eigenvectors).

  (** ARPACK in shift-invert mode (external; ah:407-431): matrix, tolerance, start vector, number of pairs. *)
  Variable arpack : mat K -> K -> vec -> nat -> outcome (list K * list vec).

  (** ** The shift (ah:378-394) *)
  (** diag_elements (ah:378-381). *)
  Definition diag_elements (A : mat K) : list K := map (fun i => ent A i i) (seq 0 (nr A)).
  (** average_diagonal (ah:384-386). *)
  Definition average_diagonal (A : mat K) : K := sumn (nr A) (fun i => ent A i i) / fnat (nr A).
  (** The matrix after ah:387-394; [constrained] are the indices of the constraint lines. *)
  Definition shifted (A : mat K) (constrained : list nat) : mat K :=
    mkMat (nr A) (nc A) (fun i j =>
      if (i =? j)%nat then (if existsb (Nat.eqb i) constrained then fpos 200 else ent A i i + average_diagonal A) else ent A i j).
  (** eigenvalues[i] -= average_diagonal (ah:473-475): [k] values of i are left. *)
  Fixpoint shift_back (k i : nat) (average : K) (eigenvalues : list K) : outcome (list K) :=
    match k with
    | O => Ok eigenvalues
    | S k' => let! e := rd eigenvalues i in let! l := wr eigenvalues i (e - average) in shift_back k' (S i) average l
    end.

  (** What is passed on to the eigensolver (ah:396-403). *)
  Definition initial_vector (draw : nat -> K) (A : mat K) (constrained : list nat) : vec :=
    evaluator_guess draw (fun i => existsb (Nat.eqb i) constrained) (nr A).
  (** The eigensolver of the given name on the shifted matrix (ah:405-471). *)
  Definition local_solver (debug : bool) (kind : eigensolver_kind) (params : ptree) (n_eigenvectors : nat) (tolerance : K) (B : mat K) (guess : vec)
    (scratch_vectors : list vec) : outcome (list K * list vec) :=
    let eigenvalues := repeat 0 n_eigenvectors in
    match kind with
    | EArpack => arpack B tolerance guess n_eigenvectors
    | ELanczos => lanczos_wrapper debug (mulvec B) n_eigenvectors tolerance params guess eigenvalues
    | EAnasazi => anasazi_wrapper debug (mulvec B) n_eigenvectors params guess scratch_vectors eigenvalues
    | ELapack => lapack_wrapper B n_eigenvectors
    | ESkipped => Ok (eigenvalues, repeat (vzero (nr B)) n_eigenvectors)
    end.
  (** compute_local_eigenvectors for assembled agglomerate matrices (ah:350-483): [A] is what the user's evaluate_agglomerate assembled,
      [constrained] its constraint lines, [dof_map] the result of compute_dof_index_map. *)
  Definition compute_local_eigenvectors (debug : bool) (draw : nat -> K) (params : ptree) (n_eigenvectors : nat) (tolerance : K) (A : mat K)
    (constrained : list nat) (dof_map : list nat) (scratch_vectors : list vec) : outcome (agg_result K) :=
    let! kind := eigensolver_matrix debug params in
    let! r := local_solver debug kind params n_eigenvectors tolerance (shifted A constrained) (initial_vector draw A constrained) scratch_vectors in
    let! eigenvalues := shift_back n_eigenvectors 0 (average_diagonal A) (fst r) in
    Ok (mkAgg eigenvalues (snd r) (diag_elements A) dof_map).

  (** compute_local_eigenvectors for matrix-free agglomerates (ah:278-348): no shift; [op], [diag] and [n] are the operator of the agglomerate
      (ah:49-123), its diagonal and its size. *)
  Definition compute_local_eigenvectors_mf (debug : bool) (draw : nat -> K) (params : ptree) (n_eigenvectors : nat) (tolerance : K) (n : nat) (op : vec -> vec)
    (diag : list K) (constrained : list nat) (dof_map : list nat) (scratch_vectors : list vec) : outcome (agg_result K) :=
    let guess := evaluator_guess draw (fun i => existsb (Nat.eqb i) constrained) n in
    let eigenvalues := repeat 0 n_eigenvectors in
    let! kind := eigensolver_matrix_free debug params in
    let! r := match kind with
              | ELanczos => lanczos_wrapper debug op n_eigenvectors tolerance params guess eigenvalues
              | EAnasazi => anasazi_wrapper debug op n_eigenvectors params guess scratch_vectors eigenvalues
              | _ => Ok (eigenvalues, repeat (vzero n) n_eigenvectors)
              end in
    Ok (mkAgg (fst r) (snd r) diag dof_map).
End Eig.
Arguments guess_from {K} draw is_constrained k i calls.
Arguments evaluator_guess {K} draw is_constrained n.
Arguments copy_lobpcg {K} k i lobpcg_vectors.
Arguments repair_entry {K} g i v.
Arguments repair_all {K} g i vs.
Arguments repair_from {K} k i initial_guess vs.
Arguments lobpcg_guess {K} n_eigenvectors lobpcg_vectors initial_guess.
Arguments mkSol {K} _ _ _ _.
Arguments so_numVecs {K} _.
Arguments so_evals {K} _.
Arguments so_index {K} _.
Arguments so_evecs {K} _.
Arguments extract_from {K} debug s k i evals evecs.
Arguments anasazi_extract {K} debug n_eigenvectors s.
Arguments anasazi_solve {K} parse_double lobpcg debug op params initial_guess.
Arguments anasazi_wrapper {K} parse_double lobpcg debug op n_eigenvectors params initial_guess lobpcg_vectors eigenvalues.
Arguments lanczos_min_tolerance {K}.
Arguments lanczos_wrapper {K} fsqrt dstev tol2 rand std_sort debug op n_eigenvectors tolerance params initial_guess eigenvalues.
Arguments lapack_wrapper {K} lapack B n_eigenvectors.
Arguments diag_elements {K} A.
Arguments average_diagonal {K} A.
Arguments shifted {K} A constrained.
Arguments shift_back {K} k i average eigenvalues.
Arguments initial_vector {K} draw A constrained.
Arguments local_solver {K} parse_double lobpcg fsqrt dstev tol2 rand std_sort lapack arpack debug kind params n_eigenvectors tolerance B guess scratch_vectors.
Arguments compute_local_eigenvectors {K} parse_double lobpcg fsqrt dstev tol2 rand std_sort lapack arpack debug draw params n_eigenvectors tolerance A constrained dof_map scratch_vectors.
Arguments compute_local_eigenvectors_mf {K} parse_double lobpcg fsqrt dstev tol2 rand std_sort debug draw params n_eigenvectors tolerance n op diag constrained dof_map scratch_vectors.
