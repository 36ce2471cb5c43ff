(** Specification of complexities. *)
From Coq Require Import List Arith Bool.
From Verif Require Import Base OField Mat M_Hier.
Import ListNotations.
Set Implicit Arguments.
Open Scope nat_scope.

Section S.
  Variable K : ofield.
  (** The columns in which row i is not zero. *)
  Definition nonzero_columns (B : mat K) (i : nat) : list nat := filter (fun j => negb (feqb (ent B i j) f0)) (seq 0 (nc B)).
  (** The number of entries that are not zero. *)
  Definition n_nonzeros (B : mat K) : nat := list_sum (map (fun i => length (nonzero_columns B i)) (seq 0 (nr B))).
  (** Unknowns of a level. *)
  Definition level_size (l : level K) : nat := match lv_op l with Some a => op_ran a | None => 0 end.
  (** The grid complexity in the sense of the multigrid literature: the unknowns of all levels relative to those of the finest. *)
  Definition grid_complexity (h : hierarchy K) : K :=
    (fnat (list_sum (map level_size (h_levels h))) / fnat (level_size (nth 0 (h_levels h) (mkLevel None None None None))))%K.
End S.
Arguments n_nonzeros {K} B.
Arguments nonzero_columns {K} B i.
Arguments level_size {K} l.
Arguments grid_complexity {K} h.
