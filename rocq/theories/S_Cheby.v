(** Specification notions for the matrix-free smoother. *)
From Coq Require Import String List Arith ZArith NArith Bool.
From Verif Require Import Base OField Mat M_Ptree M_Hier S_Hier.
Import ListNotations.
Set Implicit Arguments.
Open Scope nat_scope.

Section Spec.
  Variable K : ofield.
  Local Open Scope K_scope.
  Notation vec := (vec K).

  (** [dinv] holds the inverses of the positive numbers [d]. *)
  Definition inverse_diagonal (n : nat) (d dinv : vec) : Prop :=
    length d = n /\ length dinv = n /\ forall i, (i < n)%nat -> 0 < nth i d 0 /\ nth i dinv 0 = 1 / nth i d 0.
  (** No eigenvalue of D^-1 A is above [hi]: <A x, x> <= hi <D x, x>. *)
  Definition bounded_by (n : nat) (A : vec -> vec) (d : vec) (hi : K) : Prop :=
    forall x, length x = n -> energy A x <= hi * sumn n (fun i => nth i d 0 * nth i x 0 * nth i x 0).
  (** The estimates [lo], [hi] of the conjugate gradient iteration are usable: positive (only the larger one matters when a range is given),
      and the larger one, with the safety factor 1.2, bounds the eigenvalues. *)
  Definition usable_estimate (n : nat) (A : vec -> vec) (d : vec) (range lo hi : K) : Prop :=
    0 < hi /\ (1 < range \/ 0 < lo) /\ bounded_by n A d (fpos 12 / fpos 10 * hi).
  (** Every entry of A R^T is zero or above [eps] in modulus. *)
  Definition no_small_entry (eps : K) (A R : mat K) : Prop :=
    forall i j, (i < nr A)%nat -> (j < nr R)%nat -> ent (mmul A (mtrans R)) i j = 0 \/ eps < fabs (ent (mmul A (mtrans R)) i j).
  (** [f] is the matrix [A] as a function. *)
  Definition is_matrix (n : nat) (f : vec -> vec) (A : mat K) : Prop :=
    nr A = n /\ nc A = n /\ forall x, length x = n -> f x = mulvec A x.
  (** Two constructions that fail in the same way or yield smoothers with the same steps. *)
  Definition same_smoother (m1 m2 : outcome (bx_apply K)) : Prop :=
    match m1, m2 with
    | Ok s1, Ok s2 => forall b x, s1 b x = s2 b x
    | Throw, Throw | Abort, Abort | UB, UB | Fuel, Fuel => True
    | _, _ => False
    end.
  (** [lam] is an eigenvalue of D^-1 A. *)
  Definition eigenvalue_of (n : nat) (A : vec -> vec) (d : vec) (lam : K) : Prop :=
    exists v, length v = n /\ v <> vzero n /\ A v = vscale lam (vmap2 fmul d v).
  (** The matrix s A. *)
  Definition scaled (s : K) (A : mat K) : mat K := mkMat (nr A) (nc A) (fun i j => s * ent A i j).
  Definition zero_matrix (A : mat K) : Prop := forall i j, (i < nr A)%nat -> (j < nc A)%nat -> ent A i j = 0.
  (** Lower end of the interval on which the Chebyshev polynomial is small, for the upper end [hi]: hi / range, or the smaller of the estimate and 9/10 of [hi]. *)
  Definition interval_low (range lo hi : K) : K :=
    if fltb 1 range then hi / range else if fleb lo (fpos 9 / fpos 10 * hi) then lo else fpos 9 / fpos 10 * hi.
  (** [theta] is at most 4 a / (dmax (b + a)^2), where [a], [b] are the ends of the interval. *)
  Definition cheb_gain (dmax a b theta : K) : Prop := theta * dmax * ((b + a) * (b + a)) <= (1 + 1) * (1 + 1) * a.
End Spec.
Arguments interval_low {K} range lo hi.
Arguments cheb_gain {K} dmax a b theta.
