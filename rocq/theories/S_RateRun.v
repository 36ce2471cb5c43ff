(** Specification of the measured convergence rate. *)
From Coq Require Import String List Arith Bool.
From Verif Require Import Base OField Mat M_Ptree M_Hier M_RateRun S_Hier S_Rate.
Import ListNotations.
Set Implicit Arguments.
Open Scope nat_scope.

Section S.
  Variable K : ofield.
  Local Open Scope K_scope.
  Notation vec := (vec K).
  (** Square of the norm of the residual b - A y. *)
  Definition residual2 (A : vec -> vec) (b y : vec) : K := dot (vsub b (A y)) (vsub b (A y)).
  (** The quotient a / b as a double: not a number if b = 0. *)
  Definition reports (a b : K) (v : xnum K) : Prop := (b = 0 /\ v = NaN) \/ (b <> 0 /\ v = Num (a / b)).
  (** Every cycle ends normally and reduces the energy norm of the error by the factor [rho]. *)
  Definition reducing_cycle (n : nat) (A : vec -> vec) (h : hierarchy K) (rho : K) : Prop :=
    forall te x xs l, open_sections l = [] -> length x = n -> length xs = n ->
      exists y l', hierarchy_vmult te h x (A xs) l = (Ok y, l') /\ open_sections l' = [] /\ length y = n /\
        energy A (vsub xs y) <= rho * rho * energy A (vsub xs x).
  (** The map from the error before a cycle to the error after it is symmetric and positive semidefinite in the energy inner product. *)
  Definition symmetric_cycle (n : nat) (A : vec -> vec) (h : hierarchy K) : Prop :=
    forall te te' x x' xs xs' l l' l1 l1' y y', open_sections l = [] -> open_sections l' = [] -> length x = n -> length x' = n -> length xs = n -> length xs' = n ->
      hierarchy_vmult te h x (A xs) l = (Ok y, l1) -> hierarchy_vmult te' h x' (A xs') l' = (Ok y', l1') ->
      dot (A (vsub xs y)) (vsub xs' x') = dot (A (vsub xs x)) (vsub xs' y') /\ 0 <= dot (A (vsub xs y)) (vsub xs x).
  (** After N + 1 cycles the reported number is the quotient of the last two residuals; it and the last residual obey the bounds with mu <= v^T A^2 v / v^T A v <= Lam, and the
      factor of the energies over the last cycle is at least the mean over the cycles before. *)
  Definition measures_rate (n : nat) (A : vec -> vec) (h : hierarchy K) (rho mu Lam : K) : Prop :=
    forall te x xs l N, open_sections l = [] -> length x = n -> length xs = n ->
      exists z y v l1 l2, repeated_vmult te h (A xs) N x l = (Ok z, l1) /\ repeated_vmult te h (A xs) (S N) x l = (Ok y, l2) /\ open_sections l2 = [] /\
        vcycle_rate te A h (S N) x (A xs) l = (Ok v, l2) /\ reports (residual2 A (A xs) y) (residual2 A (A xs) z) v /\
        mu * residual2 A (A xs) y <= Lam * (rho * rho) * residual2 A (A xs) z /\
        mu * residual2 A (A xs) y <= Lam * fpow (rho * rho) (S N) * residual2 A (A xs) x /\
        energy A (vsub xs y) <= rho * rho * energy A (vsub xs z) /\
        fpow (energy A (vsub xs z)) (S N) <= fpow (energy A (vsub xs y)) N * energy A (vsub xs x).
  (** The factors by which successive cycles reduce the energy never decrease. *)
  Definition growing_factors (n : nat) (A : vec -> vec) (h : hierarchy K) : Prop :=
    forall te x xs l k, open_sections l = [] -> length x = n -> length xs = n ->
      exists y0 y1 y2 l0 l1 l2, repeated_vmult te h (A xs) k x l = (Ok y0, l0) /\ hierarchy_vmult te h y0 (A xs) l0 = (Ok y1, l1) /\ hierarchy_vmult te h y1 (A xs) l1 = (Ok y2, l2) /\
        energy A (vsub xs y1) * energy A (vsub xs y1) <= energy A (vsub xs y0) * energy A (vsub xs y2).
End S.
Arguments residual2 {K} A b y.
Arguments reports {K} a b v.
