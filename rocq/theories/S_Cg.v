(** Specification of the preconditioned conjugate gradient method. *)
From Coq Require Import String List Arith Bool.
From Verif Require Import Base OField Mat M_Hier S_Hier.
Import ListNotations.
Set Implicit Arguments.
Open Scope nat_scope.

Section S.
  Variable K : ofield.
  Local Open Scope K_scope.
  Notation vec := (vec K).

  (** The Chebyshev polynomials: T_0 = 1, T_1 = x, T_(k+2) = 2 x T_(k+1) - T_k. *)
  Fixpoint chebT (k : nat) (x : K) : K :=
    match k with
    | O => 1
    | S k' => match k' with O => x | S k'' => (1 + 1) * x * chebT k' x - chebT k'' x end
    end.

  (** A call that, whatever its destination holds, returns [M] applied to its source, and leaves no timer section open. *)
  Definition applies_operator (n : nat) (prec : vec -> vec -> prog vec) (M : vec -> vec) : Prop :=
    forall x b l, open_sections l = [] -> length x = n -> length b = n -> exists l', prec x b l = (Ok (M b), l') /\ open_sections l' = [].

  (** The spectrum of [M A] lies in [a, c]. *)
  Definition spectrum_in (n : nat) (A M : vec -> vec) (a c : K) : Prop :=
    forall e, length e = n -> a * energy A e <= dot (M (A e)) (A e) /\ dot (M (A e)) (A e) <= c * energy A e.
End S.
Arguments chebT {K} k x.
Arguments applies_operator {K} n prec M.
Arguments spectrum_in {K} n A M a c.
