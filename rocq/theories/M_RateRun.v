(** The convergence rate measured by tests/hierarchy_driver.cc and tests/test_hierarchy.cc. *)
From Coq Require Import String List Arith Bool.
From Verif Require Import Base OField Mat M_Ptree M_Hier.
Import ListNotations.
Set Implicit Arguments.
Open Scope nat_scope.

Section RateRun.
  Variable K : ofield.
  Local Open Scope K_scope.
  Notation vec := (vec K).

  (** A double that is not negative (tests/hierarchy_driver.cc:81, 99, the vector res and conv_rate). Simplified: exact numbers. *)
  Inductive xnum : Type := Num (x : K) | Inf | NaN.
  (** Division of doubles that are not negative (tests/hierarchy_driver.cc:95, 99): no exception on division by zero. *)
  Definition xdiv (a b : xnum) : xnum :=
    match a, b with
    | Num x, Num y => if feqb y 0 then (if feqb x 0 then NaN else Inf) else Num (x / y)
    | Inf, Num _ => Inf
    | Num _, Inf => Num 0
    | _, _ => NaN
    end.
  (** operator.vmult(residual, solution); residual.sadd(-1., 1., rhs) (tests/hierarchy_driver.cc:83-84, 93-94, 180-181, 190-191;
      tests/test_hierarchy.cc:101-102, 112-113, 178-179, 189-190). *)
  Definition rhs_residual (A : vec -> vec) (x b : vec) : vec := vadd (vscale (- (1)) (A x)) b.

  (** The loop over the cycles (tests/hierarchy_driver.cc:89-97, 186-194; tests/test_hierarchy.cc:108-117, 185-194). [res]: the entries filled so
      far; simplified: the squares of the entries are kept (no square root); the part of the vector not yet filled is left out. *)
  Fixpoint rate_loop (te : tenv) (A : vec -> vec) (h : hierarchy K) (b : vec) (r0 : K) (n : nat) (x : vec) (res : list xnum) : prog (list xnum) :=
    match n with
    | O => pret res
    | S n' =>
        do! x := hierarchy_vmult te h x b in
        let r := rhs_residual A x b in
        rate_loop te A h b r0 n' x (res ++ [xdiv (Num (dot r r)) (Num r0)])
    end.
  (** The branch for "is preconditioner" false with any number of cycles: the square of conv_rate (tests/hierarchy_driver.cc:75-102, 172-199;
      tests/test_hierarchy.cc:95-123, 172-200). *)
  Definition vcycle_rate (te : tenv) (A : vec -> vec) (h : hierarchy K) (n_cycles : nat) (x b : vec) : prog xnum :=
    let r := rhs_residual A x b in
    do! res := rate_loop te A h b (dot r r) n_cycles x [Num 1] in
    pret (xdiv (nth n_cycles res NaN) (nth (n_cycles - 1) res NaN)).
  (** n_cycles = 20 (tests/hierarchy_driver.cc:80, 177; tests/test_hierarchy.cc:98, 175; tests/test_hierarchy_device.cu:319). *)
  Definition reported_rate (te : tenv) (A : vec -> vec) (h : hierarchy K) (x b : vec) : prog xnum := vcycle_rate te A h 20 x b.
End RateRun.
Arguments Num {K} x. Arguments Inf {K}. Arguments NaN {K}.
Arguments reported_rate {K} te A h x b.
