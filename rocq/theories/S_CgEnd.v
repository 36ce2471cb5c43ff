(** Specification of the preconditioned solve of the driver. *)
From Coq Require Import String List Arith Bool.
From Verif Require Import Base OField Mat M_Hier M_Cg S_Hier S_Rate S_Cg.
Import ListNotations.
Set Implicit Arguments.
Open Scope nat_scope.

Section S.
  Variable K : ofield.
  Local Open Scope K_scope.
  Notation vec := (vec K).
  (** Every solve of the driver with operator [f] and hierarchy [h] ends normally after at most n steps with a residual within the tolerance, and with every r
      whose square is at least c / a the energy norm of the error after [it] steps is at most 2 ((r - 1) / (r + 1))^it times that of the start (tests/hierarchy_driver.cc:100-116, 197-214). *)
  Definition driver_converges (n : nat) (f : vec -> vec) (h : hierarchy K) (a c : K) : Prop :=
    forall te dbg tol h0 x b l, 0 <= tol -> length h0 = n -> length x = n -> length b = n -> open_sections l = [] ->
      exists it y l', driver_solve te dbg f h tol h0 x b l = (Ok (it, y), l') /\ (it <= n)%nat /\ open_sections l' = [] /\ length y = n /\
        dot (vsub b (f y)) (vsub b (f y)) <= tol * tol /\
        forall xs r, length xs = n -> b = f xs -> 1 < r -> c <= r * r * a ->
          fpow ((r + 1) * (r + 1)) it * energy f (vsub xs y) <= (1 + 1) * (1 + 1) * (fpow ((r - 1) * (r - 1)) it * energy f (vsub xs x)).
End S.
Arguments driver_converges {K} n f h a c.
