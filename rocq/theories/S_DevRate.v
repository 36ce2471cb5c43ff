(** What the rate of the hierarchy on the device depends on. *)
From Coq Require Import List Arith Permutation Field.
From Verif Require Import Base OField Mat S_Hier S_Eig S_Lanczos S_Rate S_FastAP M_Dev M_CudaOp M_AmgeDev S_AmgeDev M_CudaHier S_CudaHier.
Import ListNotations.
Set Implicit Arguments.
Open Scope nat_scope.

Section SDevRate.
  Variable K : ofield.
  Local Open Scope K_scope.
  Local Notation vec := (vec K).
  (** e^T D e for the diagonal D of A. *)
  Definition diagonal_energy (A : mat K) (e : vec) : K := sumn (nc A) (fun i => ent A i i * (nth i e 0 * nth i e 0)).
  (** A is at most beta times its diagonal, and no diagonal entry is above dmax. *)
  Definition diagonal_bounds (A : mat K) (beta dmax : K) : Prop :=
    (forall e, length e = nc A -> energy (mulvec A) e <= beta * diagonal_energy A e) /\ forall i, (i < nc A)%nat -> ent A i i <= dmax.
  (** lambda is at most every eigenvalue with an eigenvector orthogonal to the vectors vs. *)
  Definition discarded_from (A : mat K) (vs : list vec) (lambda : K) : Prop :=
    forall mu v, length v = nr A -> v <> vzero (nr A) -> eigenpair A mu v -> orth_to vs v -> lambda <= mu.
  (** The matrices of the agglomerates xs are the sums of the matrices of their cells, and every one of the N cells is in one agglomerate. *)
  Definition cells_of_agglomerates (F : fem K) (N : nat) (xs : list (agglomerate K * mat K)) (cells : list (list nat)) : Prop :=
    Forall2 (fun x c => patch_ok F c (snd (fst x)) (snd x)) xs cells /\ Permutation (concat cells) (seq 0 N).
  (** [k] calls of vmult on the device, each on the result of the one before. *)
  Fixpoint repeated_dev_vmult (debug : bool) (L : libraries K) (cond : conditions K) (H : dev_hierarchy K) (b : dvec K) (k : nat) (x : dvec K) (d : device K)
    : outcome (dvec K * device K) :=
    match k with
    | O => Ok (x, d)
    | S k' => let! (y, d1) := dev_vmult debug L cond H x b d in repeated_dev_vmult debug L cond H b k' y d1
    end.
End SDevRate.
Arguments diagonal_energy {K} A e.
Arguments diagonal_bounds {K} A beta dmax.
Arguments discarded_from {K} A vs lambda.
Arguments cells_of_agglomerates {K} F N xs cells.
Arguments repeated_dev_vmult {K} debug L cond H b k x d.
