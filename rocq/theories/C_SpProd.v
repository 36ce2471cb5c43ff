(** Property C17: the sparse product of a matrix-free operator with the transpose of a distributed matrix. *)
From Coq Require Import List Arith Lia Bool Field QArith Qcanon.
From Verif Require Import Base OField Mat M_SpProd S_SpProd P_SpProd M_Hier.
Import ListNotations.
Set Implicit Arguments.
Open Scope nat_scope.

Section C.
  Variable K : ofield.
  Add Field KfCSp : (f_field K).
  Local Open Scope K_scope.

  (** extract_row delivers row j of the matrix as a distributed vector, however rows and columns are spread over the ranks. *)
  Theorem C17_extract_row : forall (d : dist_mat K) (B : mat K) j, holds d B -> (j < nr B)%nat ->
    extract_row d j = Ok (scatter (d_domain d) (row B j)).
  Proof. intros d B j H Hj. apply extract_row_spec; auto. rewrite (ho_m H) in Hj. auto. Qed.

  (** What is stored: exactly the products above the threshold, each by the rank owning its row, and nothing else. *)
  Theorem C17_stored_entries : forall (d : dist_mat K) (B : mat K) f apply owned n eps,
    holds d B -> partition n owned -> computes apply (d_domain d) owned (nc B) n f ->
    exists C, mtmm eps apply owned n d = Ok C /\ length C = length owned /\
      (forall r i j v, In (i, j, v) (nth r C []) -> In i (nth r owned [])) /\
      forall i j v, stored C i j v <-> (i < n)%nat /\ (j < nr B)%nat /\ v = nth i (f (row B j)) 0 /\ eps < fabs v.
  Proof.
    intros d B f apply owned n eps H Ho Ha. rewrite (ho_n H) in Ha. rewrite (ho_m H). apply mtmm_stored; auto.
  Qed.

  (** For a linear operator given by a matrix A: every entry of the result is that of A B^T up to the threshold, and equal to it above. *)
  Theorem C17_product_within_threshold : forall (d : dist_mat K) (A B : mat K) apply owned eps,
    holds d B -> nc A = nc B -> partition (nr A) owned -> computes apply (d_domain d) owned (nc B) (nr A) (mulvec A) -> 0 <= eps ->
    exists C, mtmm eps apply owned (nr A) d = Ok C /\
      forall i j, (i < nr A)%nat -> (j < nr B)%nat ->
        fabs (value_of C i j - ent (mmul A (mtrans B)) i j) <= eps /\
        (eps < fabs (ent (mmul A (mtrans B)) i j) -> value_of C i j = ent (mmul A (mtrans B)) i j) /\
        (fabs (ent (mmul A (mtrans B)) i j) <= eps -> value_of C i j = 0).
  Proof.
    intros d A B apply owned eps H Hd Ho Ha He.
    destruct (C17_stored_entries eps H Ho Ha) as (C & E & _ & _ & S). exists C. split; auto. intros i j Hi Hj.
    assert (U : forall i j v w, stored C i j v -> stored C i j w -> v = w).
    { intros i0 j0 v w Hv Hw. apply S in Hv, Hw. destruct Hv as (_ & _ & -> & _). destruct Hw as (_ & _ & -> & _). auto. }
    destruct (@stored_value K C U i j) as [V1 V2]. rewrite <- (@mulvec_row K A B i j Hd Hi).
    assert (W1 : eps < fabs (nth i (mulvec A (row B j)) 0) -> value_of C i j = nth i (mulvec A (row B j)) 0).
    { intros T. apply V1. apply S. auto. }
    assert (W2 : fabs (nth i (mulvec A (row B j)) 0) <= eps -> value_of C i j = 0).
    { intros T. apply V2. intros v Hv. apply S in Hv. destruct Hv as (_ & _ & -> & T'). apply T'. auto. }
    split; [apply dropped_error; auto|]. auto.
  Qed.

  (** The same on the whole matrix as the hierarchy uses it (M_Hier.matrix_transpose_matrix_multiply): the distributed code refines it. *)
  Theorem C17_refines_global_form : forall (d : dist_mat K) (B : mat K) f apply owned n eps,
    holds d B -> partition n owned -> computes apply (d_domain d) owned (nc B) n f -> 0 <= eps ->
    exists C, mtmm eps apply owned n d = Ok C /\
      forall i j, (i < n)%nat -> (j < nr B)%nat -> value_of C i j = ent (matrix_transpose_matrix_multiply eps n f B) i j.
  Proof.
    intros d B f apply owned n eps H Ho Ha He.
    destruct (C17_stored_entries eps H Ho Ha) as (C & E & _ & _ & S). exists C. split; auto. intros i j Hi Hj.
    assert (U : forall i j v w, stored C i j v -> stored C i j w -> v = w).
    { intros i0 j0 v w Hv Hw. apply S in Hv, Hw. destruct Hv as (_ & _ & -> & _). destruct Hw as (_ & _ & -> & _). auto. }
    destruct (@stored_value K C U i j) as [V1 V2]. simpl. destruct (eps <? fabs (nth i (f (row B j)) 0)) eqn:T.
    - apply V1. apply S. apply fltb_lt in T. auto.
    - apply V2. intros v Hv. apply S in Hv. destruct Hv as (_ & _ & -> & T'). apply fltb_lt in T'. congruence.
  Qed.

  (** The coarse matrix R (A R^T) computed from the stored product differs from the Galerkin product R A R^T in entry (p, q) by at most
      the threshold times the sum of the moduli of row p of R. *)
  Theorem C17_galerkin_error : forall (d : dist_mat K) (A R : mat K) apply owned eps,
    holds d R -> nc A = nc R -> nr A = nc R -> partition (nr A) owned -> computes apply (d_domain d) owned (nc R) (nr A) (mulvec A) -> 0 <= eps ->
    exists C, mtmm eps apply owned (nr A) d = Ok C /\
      forall p q, (p < nr R)%nat -> (q < nr R)%nat ->
        fabs (ent (mmul R (mkMat (nr A) (nr R) (value_of C))) p q - ent (mmul R (mmul A (mtrans R))) p q) <= sumn (nc R) (fun k => fabs (ent R p k)) * eps.
  Proof.
    intros d A R apply owned eps H Hd Hs Ho Ha He.
    destruct (C17_product_within_threshold _ H Hd Ho Ha He) as (C & E & S). exists C. split; auto. intros p q Hp Hq. simpl.
    rewrite <- sumn_sub. rewrite <- sumn_scale_r. apply fabs_sumn. intros k Hk.
    assert (Hk' : (k < nr A)%nat) by (rewrite Hs; exact Hk).
    destruct (S k q Hk' Hq) as [S1 _].
    replace (ent R p k * value_of C k q - ent R p k * sumn (nc A) (fun k0 => ent A k k0 * ent R q k0))
      with (ent R p k * (value_of C k q - ent (mmul A (mtrans R)) k q)).
    - apply fabs_mul_le. exact S1.
    - simpl. ring.
  Qed.
End C.
Print Assumptions C17_extract_row.
Print Assumptions C17_stored_entries.
Print Assumptions C17_product_within_threshold.
Print Assumptions C17_refines_global_form.
Print Assumptions C17_galerkin_error.

(** Two ranks. B = [[1 2 0], [0 0 3]]: rank 1 owns row 0, rank 0 owns row 1; columns 0 and 2 belong to rank 0, column 1 to rank 1. *)
Definition q (z : Z) : QcOF := Q2Qc (inject_Z z).
Definition ex_d : dist_mat QcOF :=
  @mkDist QcOF 2 3 [[1]; [0]] [[0; 2]; [1]] [[2]; [1; 0]] [[[(0, q 3)]]; [[(0, q 2); (1, q 1)]]].
Definition ex_B : mat QcOF := @of_rows QcOF 2 3 [[q 1; q 2; q 0]; [q 0; q 0; q 3]].
Definition ex_eps : QcOF := Q2Qc (1 # 100000000000000).
(** A = [[1 0 0], [0 1 1e-15], [0 0 2]]: the product A B^T has the entry 3e-15, which is dropped. *)
Definition ex_A : mat QcOF := @of_rows QcOF 3 3 [[q 1; q 0; q 0]; [q 0; q 1; Q2Qc (1 # 1000000000000000)]; [q 0; q 0; q 2]].
(** The operator on vectors distributed like the columns of B. *)
Definition ex_gather (x : dist_vec QcOF) : vec QcOF :=
  [nth 0 (nth 0 x []) f0; nth 0 (nth 1 x []) f0; nth 1 (nth 0 x []) f0].
Definition ex_apply (x : dist_vec QcOF) : outcome (dist_vec QcOF) := Ok (scatter [[0; 2]; [1]] (mulvec ex_A (ex_gather x))).

Example C17_example_holds : holds ex_d ex_B.
Proof.
  assert (P2 : partition 2 [[1]; [0]]).
  { split; [repeat constructor; simpl; intuition lia|]. intros i. simpl. lia. }
  assert (P3 : partition 3 [[0; 2]; [1]]).
  { split; [repeat constructor; simpl; intuition lia|]. intros i. simpl. lia. }
  constructor; auto.
  intros r lj Hr Hl. simpl in Hr. destruct r as [|[|r]]; [| |lia]; simpl in Hl; assert (lj = 0) by lia; subst lj.
  - exists [(0, q 3)]. split; [reflexivity|]. split; [|split].
    + intros e [<-|[]]. simpl. lia.
    + simpl. repeat constructor. simpl. tauto.
    + intros k Hk. simpl in Hk. split.
      * intros e [<-|[]] E. simpl in E. subst k. reflexivity.
      * intros N. destruct k as [|[|[|k]]]; [reflexivity|reflexivity| |lia]. exfalso. apply (N (0, q 3)); simpl; auto.
  - exists [(0, q 2); (1, q 1)]. split; [reflexivity|]. split; [|split].
    + intros e [<-|[<-|[]]]; simpl; lia.
    + simpl. repeat constructor; simpl; intuition lia.
    + intros k Hk. simpl in Hk. split.
      * intros e [<-|[<-|[]]] E; simpl in E; subst k; reflexivity.
      * intros N. destruct k as [|[|[|k]]]; [| |reflexivity|lia]; exfalso; [apply (N (1, q 1))|apply (N (0, q 2))]; simpl; auto.
Qed.
Example C17_example_computes : computes ex_apply (d_domain ex_d) [[0; 2]; [1]] (nc ex_B) (nr ex_A) (mulvec ex_A).
Proof.
  intros x Hx. split; [apply mulvec_length|].   destruct x as [|a [|b [|c [|e x]]]]; try discriminate Hx. reflexivity.
Qed.
(** The entry 3e-15 is dropped, the entries 1, 2, 6 are stored by the owners of their rows. *)
Example C17_example_result : exists C, mtmm ex_eps ex_apply [[0; 2]; [1]] 3 ex_d = Ok C /\
  map (map fst) C = [[(0, 0); (2, 1)]; [(1, 0)]] /\ ~ ent (mmul ex_A (mtrans ex_B)) 1 1 = Q2Qc 0.
Proof.
  eexists. split; [reflexivity|]. split; [vm_compute; reflexivity|].
  intros E. apply (f_equal (fun x : Qc => Qc_eq_bool x 0)) in E. vm_compute in E. discriminate.
Qed.

(** Dropping entries can make the coarse matrix of a symmetric positive definite operator unsymmetric: A = [[1 1e-14], [1e-14 1]], R = [[1 1], [0 1]]. *)
Theorem C17_galerkin_symmetry_refuted : exists (A R : mat QcOF),
  (forall i j, ent A i j = ent A j i) /\
  (forall x, length x = 2%nat -> x <> vzero 2 -> (0 < dot x (mulvec A x))%K) /\
  let C := matrix_transpose_matrix_multiply ex_eps 2 (mulvec A) R in
  ent (mmul R C) 0 1 <> ent (mmul R C) 1 0.
Proof.
  exists (mkMat 2 2 (fun i j => if i =? j then q 1 else ex_eps)).
  exists (@of_rows QcOF 2 2 [[q 1; q 1]; [q 0; q 1]]).
  split; [intros i j; simpl; rewrite Nat.eqb_sym; auto|]. split.
  - intros x Hx Hn. destruct x as [|a [|b [|c x]]]; try discriminate Hx.
    set (e := ex_eps).
    assert (He : (e * e < 1)%K) by (apply fltb_lt; vm_compute; reflexivity).
    assert (E : dot [a; b] (mulvec (mkMat 2 2 (fun i j => if i =? j then q 1 else e)) [a; b]) =
      ((a + e * b) * (a + e * b) + (1 - e * e) * (b * b))%K).
    { clearbody e. unfold mulvec, dot. simpl. change (q 1) with (1%Qc). unfold fadd, fmul, fsub, f0, f1. simpl. ring. }
    rewrite E. clear E. apply flt_sub_0 in He.
    destruct (feq_dec QcOF b 0%K) as [->|Hb].
    + assert (Ha : a <> 0%K). { intros ->. apply Hn. reflexivity. }
      replace ((a + e * 0) * (a + e * 0) + (1 - e * e) * (0 * 0))%K with (a * a)%K by (unfold fadd, fmul, fsub, f0, f1; simpl; ring).
      apply fle_neq_lt; [apply fsquare_nonneg|]. intros X. symmetry in X. apply Ha. apply fsquare_0. auto.
    + assert (P : (0 < (1 - e * e) * (b * b))%K).
      { apply fmul_pos; auto. apply fle_neq_lt; [apply fsquare_nonneg|]. intros X. symmetry in X. apply Hb. apply fsquare_0. auto. }
      intros X. apply P. eapply fle_trans; [|exact X].
      replace ((1 - e * e) * (b * b))%K with (0 + (1 - e * e) * (b * b))%K at 1 by (unfold fadd, fmul, fsub, f0, f1; simpl; ring).
      apply fle_add. apply fsquare_nonneg.
  - intros C E. apply (f_equal (fun x : Qc => Qc_eq_bool x (ent (mmul (@of_rows QcOF 2 2 [[q 1; q 1]; [q 0; q 1]]) C) 1 0))) in E.
    vm_compute in E. discriminate.
Qed.
Print Assumptions C17_galerkin_symmetry_refuted.
