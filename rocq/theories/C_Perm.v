(** Properties C01, C02, C03: permutation utilities (include/mfmg/common/utils.hpp). *)
From Coq Require Import List Arith Lia Permutation Sorted.
From Verif Require Import Base M_Perm S_Perm P_Perm.
Import ListNotations.
Set Implicit Arguments.

(** C01: the in-place permutation ends in range and gathers exactly. *)
Theorem C01_apply_permutation_gathers : forall T (perm : list nat) (vec : list T) fuel,
  is_perm (length vec) perm -> fuel >= length vec ->
  exists vec', apply_permutation_in_place fuel perm vec = Ok vec' /\ gathered perm vec vec' /\ Permutation vec vec'.
Proof. exact apply_perm_correct. Qed.
Print Assumptions C01_apply_permutation_gathers.

(** A permutation with a 3-cycle, a fixed point and a 2-cycle meets the hypotheses. *)
Example C01_example : is_perm 6 [2; 4; 1; 3; 0; 5] /\
  apply_permutation_in_place 6 [2; 4; 1; 3; 0; 5] [10; 11; 12; 13; 14; 15] = Ok [12; 14; 11; 13; 10; 15].
Proof.
  split; [|reflexivity]. apply NoDup_range_is_perm; auto.
  - repeat constructor; simpl; intuition discriminate.
  - simpl; intuition lia.
Qed.

(** C02: sorting permutation, applied in place to keys and companion array. *)
Theorem C02_sort_permutation_sorts : forall T debug std_sort (v1 v2 : list nat) (w : list T) fuel,
  std_sort_contract std_sort -> length v1 = length v2 -> length v1 = length w -> fuel >= length v1 ->
  exists p v1' v2' w',
    sort_permutation debug std_sort v1 v2 = Ok p /\ is_perm (length v1) p /\
    apply_permutation_in_place fuel p v1 = Ok v1' /\
    apply_permutation_in_place fuel p v2 = Ok v2' /\
    apply_permutation_in_place fuel p w = Ok w' /\
    StronglySorted lex_le (combine v1' v2') /\
    Permutation (combine (combine v1 v2) w) (combine (combine v1' v2') w').
Proof. exact sort_permutation_correct. Qed.
Print Assumptions C02_sort_permutation_sorts.

(** The contract of std::sort is satisfiable, and the run on an unsorted pair of arrays with a tie. *)
Example C02_example : std_sort_contract (@insertion_sort nat) /\
  sort_permutation true insertion_sort [3; 1; 3; 0] [2; 9; 1; 5] = Ok [3; 1; 2; 0] /\
  apply_permutation_in_place 4 [3; 1; 2; 0] [3; 1; 3; 0] = Ok [0; 1; 3; 3] /\
  apply_permutation_in_place 4 [3; 1; 2; 0] [2; 9; 1; 5] = Ok [5; 9; 1; 2].
Proof. split; [apply insertion_sort_contract|]. vm_compute. auto. Qed.

(** C02: arrays of different lengths: rejected in debug builds; in release builds a companion that is too short is read out of range, one that is too long
    does no harm and the keys are still sorted. *)
Theorem C02_sizes : forall std_sort (v1 v2 : list nat), std_sort_contract std_sort -> length v1 <> length v2 ->
  sort_permutation true std_sort v1 v2 = Abort /\
  (length v2 < length v1 -> sort_permutation false std_sort v1 v2 = UB) /\
  (length v1 < length v2 -> exists p, sort_permutation false std_sort v1 v2 = Ok p /\ is_perm (length v1) p /\
     StronglySorted (fun i j => nth i v1 0 <= nth j v1 0) p).
Proof.
  intros std_sort v1 v2 Hs N. unfold sort_permutation, assert_dbg. replace (length v1 =? length v2) with false by (symmetry; apply Nat.eqb_neq; exact N). cbn [negb andb bind].
  split; [reflexivity|]. split.
  - intros H. replace (length v2 <? length v1) with true by (symmetry; apply Nat.ltb_lt; exact H). reflexivity.
  - intros H. replace (length v2 <? length v1) with false by (symmetry; apply Nat.ltb_ge; lia).
    destruct (Hs (sort_cmp v1 v2) (seq 0 (length v1)) (sort_cmp_swo v1 v2)) as [Hp Hss]. eexists. split; [reflexivity|]. split; [apply Permutation_sym; exact Hp|].
    clear Hp. induction Hss as [|x l Hl IH Hf]; [constructor|]. constructor; [exact IH|]. eapply Forall_impl; [|exact Hf].
    intros y Hy. cbn beta in Hy. unfold sort_cmp in Hy. destruct (nth y v1 0 =? nth x v1 0) eqn:E; cbn [negb] in Hy.
    + apply Nat.eqb_eq in E. lia.
    + apply Nat.ltb_ge in Hy. exact Hy.
Qed.
Print Assumptions C02_sizes.
Example C02_sizes_example : sort_permutation true insertion_sort [3; 1] [2] = Abort /\ sort_permutation false insertion_sort [3; 1] [2] = UB /\
  sort_permutation false insertion_sort [3; 1] [2; 9; 1] = Ok [1; 0].
Proof. vm_compute. auto. Qed.

(** C03: termination if and only if the index array is a bijection; otherwise divergence for every fuel. *)
Theorem C03_apply_permutation_terminates_iff : forall T (perm : list nat) (vec : list T),
  length perm = length vec -> (forall x, In x perm -> x < length vec) ->
  ((exists fuel, apply_permutation_in_place fuel perm vec <> Fuel) <-> is_perm (length vec) perm).
Proof. exact apply_terminates_iff. Qed.
Print Assumptions C03_apply_permutation_terminates_iff.

(** An in-range array that is not a bijection. *)
Example C03_example : length [1; 1] = length [7; 8] /\ (forall x, In x [1; 1] -> x < length [7; 8]) /\
  apply_permutation_in_place 50 [1; 1] [7; 8] = Fuel.
Proof. split; [reflexivity|split; [simpl; intuition lia|vm_compute; reflexivity]]. Qed.
