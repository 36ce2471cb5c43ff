(** Specification of the effect of the threshold in the matrix-free product. *)
From Coq Require Import String List Arith ZArith Bool.
From Verif Require Import Base OField Mat LinAlg M_Hier S_Hier S_Rate.
Import ListNotations.
Set Implicit Arguments.
Open Scope list_scope.
Open Scope nat_scope.

Section S.
  Variable K : ofield.
  Local Open Scope K_scope.
  Notation vec := (vec K).
  (** The eigenvalues of [f] are at least [mu]. *)
  Definition above (n : nat) (f : vec -> vec) (mu : K) : Prop := 0 < mu /\ forall v, length v = n -> mu * dot v v <= energy f v.
  (** The threshold [eps] is small relative to the smallest eigenvalues [mu] of the operator (n unknowns) and [nu] of its Galerkin product (m unknowns):
      eps sqrt(n m) <= delta sqrt(mu nu), with delta < 1. *)
  Definition negligible (n m : nat) (eps mu nu delta : K) : Prop :=
    0 <= delta /\ delta < 1 /\ fnat n * fnat m * (eps * eps) <= delta * delta * (mu * nu).
  (** Two matrices of the same dimensions whose entries differ by at most [eps]. *)
  Definition within (eps : K) (T M : mat K) : Prop :=
    nr T = nr M /\ nc T = nc M /\ forall i j, (i < nr M)%nat -> (j < nc M)%nat -> fabs (ent T i j - ent M i j) <= eps.
  (** Two matrices of the same dimensions whose difference maps z to a vector whose square is at most [c] times that of z. *)
  Definition off_by (c : K) (T M : mat K) : Prop :=
    nr T = nr M /\ nc T = nc M /\ forall z, length z = nc M -> let v := vsub (mulvec T z) (mulvec M z) in dot v v <= c * dot z z.
  (** [c] is small relative to the smallest eigenvalues of the operator and of its Galerkin product: sqrt(c) <= delta sqrt(mu nu), with delta < 1. *)
  Definition minor (c mu nu delta : K) : Prop := 0 <= delta /\ delta < 1 /\ c <= delta * delta * (mu * nu).
  (** The two-grid cycle whose coarse system has the matrix R T, [T] in place of A R^T. *)
  Definition perturbed_two_grid (A R T : mat K) (B : vec -> vec) (k : nat) (b x0 y : vec) : Prop :=
    let g := correction_step (mulvec A) B b in let u := iter k g x0 in
    exists c, length c = nr R /\ mulvec R (mulvec T c) = mulvec R (vsub b (mulvec A u)) /\ y = iter k g (vadd u (mulTvec R c)).
End S.
Arguments off_by {K} c T M.
Arguments minor {K} c mu nu delta.
Arguments within {K} eps T M.
Arguments perturbed_two_grid {K} A R T B k b x0 y.
Arguments above {K} n f mu.
Arguments negligible {K} n m eps mu nu delta.
