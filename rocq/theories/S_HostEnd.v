(** Specifications for the host preconditioner from the mesh to vmult. *)
From Coq Require Import List Arith Bool.
From Verif Require Import Base OField Mat LinAlg M_Agglo S_Agglo S_FastAP M_Hier S_Hier.
Import ListNotations.
Set Implicit Arguments.
Open Scope nat_scope.

Section SHostEnd.
  Variable K : ofield.
  Local Notation vec := (vec K).

  (** The matrix assembled from the cell matrices. *)
  Definition assembled (F : fem K) (m : mesh) : mat K :=
    mkMat (f_ndofs F) (f_ndofs F) (fun g h => lsum (map (fun c => f_cm F c g h) (seq 0 (n_cells m)))).

  (** One rank: it owns all cells. *)
  Definition serial (m : mesh) : Prop := forall c, c < n_cells m -> owned m c = true.

  (** Agglomerate [a] has a cell with a neighbour outside it. *)
  Definition touches_others (m : mesh) (ui : list nat) (conn : nat -> list nat) (a : nat) : Prop :=
    exists c d, in_agg m ui a c /\ In d (conn c) /\ ~ in_agg m ui a d.

  (** One two-grid cycle from [x0]: [k] smoothing steps with the correction B, a coarse correction R^T c with R A R^T c = R (b - A u), [k] steps. *)
  Definition two_grid (A R : mat K) (B : vec -> vec) (k : nat) (b x0 y : vec) : Prop :=
    exists c, let u := iter k (correction_step (mulvec A) B b) x0 in
      length c = nr R /\ mulvec R (mulvec A (mulTvec R c)) = mulvec R (vsub b (mulvec A u)) /\
      y = iter k (correction_step (mulvec A) B b) (vadd u (mulTvec R c)).
End SHostEnd.
