(** Specification of an inexact coarse solver. *)
From Coq Require Import String List Arith ZArith Bool.
From Verif Require Import Base OField Mat LinAlg M_Ptree S_Ptree M_Hier S_Hier M_Host S_Host.
Import ListNotations.
Set Implicit Arguments.
Open Scope list_scope.
Open Scope nat_scope.

Section SCoarse.
  Variable K : ofield.
  Local Open Scope K_scope.
  Local Notation vec := (vec K).

  (** One application of the solver [B] of [M], as a linear map, is symmetric and spectrally equivalent to the inverse of [M]: the eigenvalues of B M are
      between [alpha] and [beta]. *)
  Definition near_solver (M : mat K) (B : vec -> vec) (alpha beta : K) : Prop :=
    linear (nc M) (nc M) B /\ self_adjoint (nc M) B /\
    forall w, length w = nc M ->
      alpha * energy (mulvec M) w <= dot (B (mulvec M w)) (mulvec M w) /\ dot (B (mulvec M w)) (mulvec M w) <= beta * energy (mulvec M) w.
  (** One application, from the guess zero, leaves at most the fraction [gamma] of the error in the energy norm. *)
  Definition reducing_solver (M : mat K) (B : vec -> vec) (gamma : K) : Prop :=
    forall w, length w = nc M -> energy (mulvec M) (vsub w (B (mulvec M w))) <= gamma * gamma * energy (mulvec M) w.
  (** One two-grid cycle from [x0] with the coarse correction R^T C R (b - A u). *)
  Definition inexact_two_grid (A R : mat K) (B C : vec -> vec) (k : nat) (b x0 : vec) : vec :=
    let u := iter k (correction_step (mulvec A) B b) x0 in
    iter k (correction_step (mulvec A) B b) (vadd u (mulTvec R (C (mulvec R (vsub b (mulvec A u)))))).
End SCoarse.
Arguments near_solver {K} M B alpha beta.
Arguments reducing_solver {K} M B gamma.
Arguments inexact_two_grid {K} A R B C k b x0.

(** Two levels, symmetric Gauss-Seidel, and the coarse solver ML. *)
Definition ml_two_level (p : ptree) : Prop :=
  (0 < c_steps p)%nat /\ c_levels p = 2%Z /\ ci_eq (text_at p ["coarse"; "type"]%string "direct") "ml" /\
  ci_eq (text_at p ["smoother"; "type"]%string "Symmetric Gauss-Seidel") "symmetric gauss-seidel".
(** The parameters given to ML: its defaults, or those in the subtree "coarse.params". *)
Definition ml_parameters (accepts_double : string -> bool) (p : ptree) (l : ml_list) : Prop :=
  match pt_find p ["coarse"; "params"]%string with
  | None => l = MlDefaults
  | Some t => exists u, ptree2plist accepts_double t = Ok u /\ l = MlUser u
  end.
