(** Specifications for the restriction matrix, independent of the assembly loops in M_Restr.v. *)
From Coq Require Import List Arith Bool.
From Verif Require Import Base OField Mat M_Restr.
Import ListNotations.
Set Implicit Arguments.

Section SRestr.
  Variable K : ofield.
  Local Notation vec := (vec K).

  (** An agglomerate's data fit together: one diagonal entry and one eigenvector component per patch dof. *)
  Definition agg_ok (c : agg_result K) : Prop :=
    length (ag_diag c) = length (ag_map c) /\ forall e, In e (ag_evecs c) -> length e = length (ag_map c).

  (** Rows of the agglomerates [l], in order: the agglomerate and its eigenvector. *)
  Definition rows_of (l : list (agg_result K)) : list (agg_result K * vec) :=
    flat_map (fun c => map (fun e => (c, e)) (ag_evecs c)) l.

  (** Sum over the patch dofs that are global dof [g] of [f] (patch dof). *)
  Definition at_dof (c : agg_result K) (g : nat) (f : nat -> K) : K :=
    sumn (length (ag_map c)) (fun j => if nth j (ag_map c) 0 =? g then f j else 0%K).

  (** Entry of the restriction matrix: weighted eigenvector; of the eigenvector matrix; of the delta matrix. *)
  Definition r_entry (D : nat -> K) (ce : agg_result K * vec) (g : nat) : K :=
    at_dof (fst ce) g (fun j => (nth j (ag_diag (fst ce)) 0 / D g * nth j (snd ce) 0)%K).
  Definition e_entry (ce : agg_result K * vec) (g : nat) : K := at_dof (fst ce) g (fun j => nth j (snd ce) 0%K).

  (** Containers filled by the agglomerates [l] in order. *)
  Definition data_of (l : list (agg_result K)) : agg_data K :=
    mkData (flat_map (@ag_evals K) l) (flat_map (@ag_evecs K) l) (map (@ag_diag K) l) (map (@ag_map K) l) (map (fun c => length (ag_evecs c)) l).

  (** What a rank can read of the global diagonal agrees with it and contains the dofs of its agglomerates. *)
  Definition gd_ok (D : nat -> K) (l : list (agg_result K)) (gd : nat -> option K) : Prop :=
    forall c, In c l -> forall g, In g (ag_map c) -> gd g = Some (D g).

  (** First row of agglomerate [a]: the number of eigenvectors of those before it. *)
  Definition row_start (cs : list (agg_result K)) (a : nat) : nat :=
    list_sum (map (fun c => length (ag_evecs c)) (firstn a cs)).

  (** All rows of all ranks stacked: row [r], column [g]. *)
  Definition stacked (parts : list (spm K)) (n_rows n_cols : nat) : mat K :=
    mkMat n_rows n_cols (fun r g => lsum (map (fun m => spm_el m r g) parts)).

  (** The diagonals of the agglomerates [cs] sum up to D at dof g. *)
  Definition diag_sum (cs : list (agg_result K)) (g : nat) : K :=
    lsum (map (fun c => at_dof c g (fun j => nth j (ag_diag c) 0%K)) cs).
End SRestr.
