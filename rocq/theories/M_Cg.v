(** The solve of tests/hierarchy_driver.cc: conjugate gradients preconditioned with the hierarchy. *)
From Coq Require Import String List Arith Bool.
From Verif Require Import Base OField Mat M_Ptree M_Hier.
Import ListNotations.
Set Implicit Arguments.
Open Scope nat_scope.

(** dealii::SolverControl::State (external; object of tests/hierarchy_driver.cc:107, 204). *)
Inductive control : Type := CIterate | CSuccess | CFailure.

Section Cg.
  Variable K : ofield.
  Local Open Scope K_scope.
  Notation vec := (vec K).

  (** dealii::SolverControl::check (external; tests/hierarchy_driver.cc:107, 204): success when the norm is at most the tolerance, then failure
      when the number of steps is used up. Simplified: the squares of norm and tolerance are compared (no square root), tolerances are not
      negative, norms are numbers. *)
  Definition control_check (max_steps : nat) (tol : K) (step : nat) (g : vec) : control :=
    if fleb (dot g g) (tol * tol) then CSuccess else if (max_steps <=? step)%nat then CFailure else CIterate.

  (** The loop of dealii::SolverCG::solve (external; called at tests/hierarchy_driver.cc:111-113, 208-210). [A] is vmult of the matrix, [prec]
      vmult of the preconditioner: destination (old contents) and source. The two Asserts on divisors abort in debug mode; otherwise division
      by zero is undefined here (the code computes with infinities). NoConvergence is thrown when the control gives up. *)
  Fixpoint cg_loop (debug : bool) (A : vec -> vec) (prec : vec -> vec -> prog vec) (max_steps : nat) (tol : K)
      (fuel it : nat) (x g d : vec) (gh : K) : prog (nat * vec) :=
    match fuel with
    | O => plift Fuel
    | S fuel' =>
        let h := A d in
        let dh := dot d h in
        do! _ := plift (if feqb dh 0 then (if debug then Abort else UB) else Ok tt) in
        let alpha := gh / dh in
        let x := vadd x (vscale alpha d) in
        let g := vadd g (vscale alpha h) in
        match control_check max_steps tol (S it) g with
        | CSuccess => pret (S it, x)
        | CFailure => plift Throw
        | CIterate =>
            do! h := prec h g in
            do! _ := plift (if feqb gh 0 then (if debug then Abort else UB) else Ok tt) in
            let gh' := dot g h in
            let d := vsub (vscale (gh' / gh) d) h in
            cg_loop debug A prec max_steps tol fuel' (S it) x g d gh'
        end
    end.

  (** dealii::SolverCG::solve (external; tests/hierarchy_driver.cc:111-113, 208-210): the number of steps and the new x. [h0] is what the work
      vector h, taken from a pool, holds. A control that gives up before the first step is not reported. *)
  Definition cg_solve (debug : bool) (A : vec -> vec) (prec : vec -> vec -> prog vec) (max_steps : nat) (tol : K) (h0 x b : vec) : prog (nat * vec) :=
    let g := if forallb (fun t => feqb t 0) x then vscale (- (1)) b else vsub (A x) b in
    match control_check max_steps tol 0 g with
    | CIterate =>
        do! h := prec h0 g in
        cg_loop debug A prec max_steps tol max_steps 0 x g (vscale (- (1)) h) (dot g h)
    | _ => pret (0%nat, x)
    end.

  (** The branch of matrix_free_two_grids and matrix_based_two_grids for "is preconditioner" (tests/hierarchy_driver.cc:102-116, 199-213): the
      control allows solution.size() steps. Simplified: one rank; [tol] is "solver.tolerance". *)
  Definition driver_solve (te : tenv) (debug : bool) (A : vec -> vec) (h : hierarchy K) (tol : K) (h0 x b : vec) : prog (nat * vec) :=
    cg_solve debug A (hierarchy_vmult te h) (length x) tol h0 x b.
End Cg.
