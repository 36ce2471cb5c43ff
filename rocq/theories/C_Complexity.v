(** Property theorem about the complexities that operators and hierarchies report: C88. *)
From Coq Require Import List Arith ZArith Bool Lia Permutation Field QArith Qcanon.
From Verif Require Import Base OField Mat LinAlg M_SpProd S_SpProd M_Csr S_Csr M_CudaOp S_CudaOp P_CudaOp E_CudaOp C_CudaOp M_Hier M_Complexity S_Complexity.
Import ListNotations.
Set Implicit Arguments.
Open Scope nat_scope.

Section CComplexity.
  Variable K : ofield.
  Add Field KfieldCComplexity : (f_field K).

  Lemma stored_columns : forall (row : list (nat * K)) (B : mat K) i, (forall g, g < nc B -> entry row g = ent B i g) ->
    length (nonzero_columns B i) <= length row.
  Proof.
    intros row B i H. rewrite <- (map_length fst row). apply NoDup_incl_length; [apply NoDup_filter, seq_NoDup|].
    intros g Hg. unfold nonzero_columns in Hg. apply filter_In in Hg. destruct Hg as (Hg & N). apply in_seq in Hg. rewrite <- H in N by lia.
    unfold entry in N. destruct (filter (fun e : nat * K => fst e =? g) row) as [|e l] eqn:E.
    - cbn [map lsum] in N. rewrite (proj2 (@feqb_eq K f0 f0) eq_refl) in N. discriminate.
    - assert (I : In e (filter (fun e : nat * K => fst e =? g) row)) by (rewrite E; left; reflexivity).
      apply filter_In in I. destruct I as (I1 & I2). apply Nat.eqb_eq in I2. rewrite <- I2. apply in_map. exact I1.
  Qed.
  Lemma sum_rows : forall (rows : list (list (nat * K))) (own : list nat) (B : mat K), length rows = length own ->
    (forall i, i < length rows -> forall g, g < nc B -> entry (nth i rows []) g = ent B (nth i own 0) g) ->
    list_sum (map (fun i => length (nonzero_columns B i)) own) <= length (concat rows).
  Proof.
    induction rows as [|row rows IH]; intros [|o own] B L H; try discriminate; cbn [map concat list_sum fold_right]; [lia|].
    rewrite app_length. assert (H0 := @stored_columns row B o (H 0 ltac:(cbn; lia))).
    assert (H1 : list_sum (map (fun i => length (nonzero_columns B i)) own) <= length (concat rows)).
    { apply IH; [cbn in L; lia|]. intros i Hi. exact (H (S i) ltac:(cbn; lia)). }
    unfold list_sum in H1. lia.
  Qed.
  Lemma list_sum_perm : forall l l' : list nat, Permutation l l' -> list_sum l = list_sum l'.
  Proof. intros l l' P. induction P; cbn [list_sum fold_right]; unfold list_sum in *; lia. Qed.
  Lemma sum_ranks : forall (cs : list (csr K)) (range : list (list nat)) (B : mat K), map (@c_range K) cs = range ->
    (forall r c, nth_error cs r = Some c -> exists rows, csr_holds c rows /\
        forall i, i < length rows -> forall g, g < nc B -> entry (nth i rows []) g = ent B (nth i (nth r range []) 0) g) ->
    list_sum (map (fun i => length (nonzero_columns B i)) (concat range)) <= list_sum (map (@c_nnz K) cs).
  Proof.
    induction cs as [|c cs IH]; intros range B <- H; cbn [map concat list_sum fold_right]; [lia|].
    rewrite map_app, list_sum_app. destruct (H 0 c eq_refl) as (rows & HC & HR).
    assert (A := @sum_rows rows (c_range c) B (cs_rows HC) HR). rewrite <- (cs_nnz HC) in A.
    assert (R := IH (map (@c_range K) cs) B eq_refl (fun r c' E => H (S r) c' E)). unfold list_sum in R |- *. unfold list_sum in A. lia.
  Qed.

  (** C88: the grid complexity of a host operator is the number of unknowns of the vectors it yields, also for rectangular matrices such as the restrictor, and
      the number of those it takes when transposed. *)
  Theorem C88_host_operators : forall (a : op K) k, host_grid_complexity a = Ok k ->
    (forall x y z, op_apply a false x y = Ok z -> length z = k) /\ (forall x y z, op_apply a true x y = Ok z -> length x = k) /\
    (exists x y z, op_apply a false x y = Ok z).
  Proof.
    intros [m|n f] k H; [|discriminate]. injection H as <-. unfold op_apply. split; [|split].
    - intros x y z E. destruct (_ && _)%bool; [injection E as <-; unfold mulvec; rewrite map_length, seq_length; reflexivity|discriminate].
    - intros x y z E. destruct ((length x =? nr m) && (length y =? nc m))%bool eqn:T; [|discriminate]. apply andb_prop in T. apply Nat.eqb_eq. tauto.
    - exists (repeat f0 (nc m)), (repeat f0 (nr m)). rewrite !repeat_length, !Nat.eqb_refl. cbn [andb]. eauto.
  Qed.

  (** C88: whatever the program has done with its device operators, an operator that stands for B reports the rows of B as grid complexity on every rank; its
      operator complexity is the number of entries stored on that rank; over all ranks these are at least the nonzero entries of B. *)
  Theorem C88_device_operators : forall debug (L : libraries K) s0 ms0 cs ms ys, libraries_ok L -> state_means s0 ms0 -> calls_effect ms0 cs ms ys ->
    exists s, call_run debug L s0 cs = Ok (s, ys) /\
      forall k a, nth_error ms k = Some a ->
        exists counts, length counts = length (a_range a) /\ n_nonzeros (a_mat a) <= list_sum counts /\
          forall r, r < length (a_range a) ->
            op_grid_complexity s k r = Ok (nr (a_mat a)) /\ op_operator_complexity s k r = Ok (nth r counts 0) /\
            (nth r counts 0 = 0 -> forall i j, In i (nth r (a_range a) []) -> j < nc (a_mat a) -> ent (a_mat a) i j = f0).
  Proof.
    intros debug L s0 ms0 cs ms ys HL H0 E. destruct (@call_run_ok K debug L ms0 cs ms ys HL E s0 H0) as (s & R & M). exists s. split; [exact R|].
    intros k a Ha. assert (Q : exists o, nth_error (u_ops s) k = Some o /\ operator_means s o a).
    { unfold state_means in M. clear -M Ha. revert k Ha. induction M as [|o b os bs HO M IH]; intros [|k] Ha; try discriminate.
      - injection Ha as <-. exists o. auto.
      - apply IH. exact Ha. }
    destruct Q as (o & Eo & ((m & Em & D & _) & _)). destruct D as [DS DH DD DZ DR DC]. destruct DH as (D1 & D2 & D3).
    assert (Lc : length (m_parts m) = length (a_range a)) by (rewrite <- D1, map_length; reflexivity).
    exists (map (@c_nnz K) (m_parts m)). split; [rewrite map_length; exact Lc|]. split.
    - unfold n_nonzeros. rewrite (@list_sum_perm _ (map (fun i => length (nonzero_columns (a_mat a) i)) (concat (a_range a)))).
      + apply sum_ranks; [exact D1|]. intros r c Ec. destruct (D3 r c Ec) as (rows & HC & HR). exists rows. split; [exact HC|]. intros i Hi. apply HR. exact Hi.
      + apply Permutation_map. apply NoDup_Permutation; [apply seq_NoDup|apply DR|]. intros i. rewrite in_seq. destruct DR as ((_ & DR) & _). rewrite DR. lia.
    - intros r Hr. rewrite <- Lc in Hr. destruct (nth_error (m_parts m) r) as [c|] eqn:Ec; [|apply nth_error_None in Ec; lia].
      assert (Ic := nth_error_In _ _ Ec). assert (Rd1 := proj2 (@rd_Ok _ _ _ _) Eo). assert (Rd2 := proj2 (@rd_Ok _ _ _ _) Em). assert (Rd3 := proj2 (@rd_Ok _ _ _ _) Ec).
      assert (En : nth r (map (@c_nnz K) (m_parts m)) 0 = c_nnz c) by (apply nth_error_nth, map_nth_error; exact Ec). rewrite En.
      split; [unfold op_grid_complexity; rewrite Rd1; cbn [bind]; rewrite Rd2; cbn [bind]; rewrite Rd3; cbn [bind]; f_equal; apply DZ; exact Ic|].
      split; [unfold op_operator_complexity; rewrite Rd1; cbn [bind]; rewrite Rd2; cbn [bind]; rewrite Rd3; reflexivity|].
      intros Z i j Hi Hj. destruct (D3 r c Ec) as (rows & HC & HR). destruct (In_nth _ _ 0 Hi) as (p & Hp & <-).
      assert (Er : nth r (a_range a) [] = c_range c) by (rewrite <- D1; apply nth_error_nth, map_nth_error; exact Ec).
      assert (Lp : p < length rows) by (rewrite (cs_rows HC), <- Er; exact Hp). rewrite <- (proj2 (HR p Lp) j Hj).
      assert (Nil : nth p rows [] = []).
      { rewrite (cs_nnz HC) in Z. apply length_zero_iff_nil in Z. clear -Z. revert p. induction rows as [|row rows IH]; intros [|p]; cbn [nth]; auto.
        - cbn [concat] in Z. apply app_eq_nil in Z. apply Z.
        - apply IH. cbn [concat] in Z. apply app_eq_nil in Z. apply Z. }
      rewrite Nil. reflexivity.
  Qed.

  (** C88: the hierarchy reports neither: a grid complexity is never less than 1, and the reported one is always 0. *)
  Theorem C88_hierarchy_refuted : forall h : hierarchy K, 0 < level_size (nth 0 (h_levels h) (mkLevel None None None None)) ->
    fle f1 (grid_complexity h) /\ hierarchy_grid_complexity h <> Ok (grid_complexity h).
  Proof.
    intros h H. unfold grid_complexity. set (n := level_size _) in *. set (N := list_sum _).
    assert (LN : n <= N) by (unfold n, N; destruct (h_levels h) as [|l ls]; cbn [nth map list_sum fold_right]; [cbn; lia|]; lia).
    set (x := fnat n : K). set (y := fnat N : K). assert (P : flt f0 x) by (unfold x; destruct n; [lia|apply fnat_pos]). assert (Q : fle x y) by (apply fnat_le; exact LN).
    assert (G : fle f1 (y / x)%K).
    { replace (f1 : K) with (finv x * x)%K by (field; intros Z; rewrite Z in P; exact (@flt_irrefl K f0 P)). rewrite (Fdiv_def (f_field K)).
      replace (y * finv x)%K with (finv x * y)%K by ring. apply fle_mul_l; [apply flt_le, finv_pos; exact P|exact Q]. }
    split; [exact G|]. intros E. injection E as E. rewrite <- E in G. exact (@flt_irrefl K f0 (@flt_le_trans K _ _ _ (f0_lt_1 K) G)).
  Qed.
End CComplexity.
Print Assumptions C88_device_operators.
Print Assumptions C88_hierarchy_refuted.

(** One call on two ranks: the product R A reports 2 rows on both ranks, and 3 entries of 6 on each. *)
Example C88_example : exists s, call_run true (dense_libraries QcOF) ex_state [CMultiply 1 0] = Ok (s, [[]]) /\
  op_grid_complexity s 2 0 = Ok 2 /\ op_grid_complexity s 2 1 = Ok 2 /\
  exists n0 n1, op_operator_complexity s 2 0 = Ok n0 /\ op_operator_complexity s 2 1 = Ok n1 /\ 6 <= n0 + n1.
Proof.
  destruct (@C88_device_operators QcOF true (dense_libraries QcOF) ex_state ex_meaning [CMultiply 1 0] (ex_meaning ++ [mkMeaning (mmul ex_R ex_A) coarse fine false true]) [[]]
    (dense_libraries_ok QcOF) ex_state_means) as (s & R & H).
  - econstructor; [|constructor]. eapply (@MMultiply QcOF ex_meaning 1 0 ex_R ex_A coarse fine fine false false true true); try reflexivity; [cbn; lia|].
    intros _. apply no_zero_rankb_ok. vm_compute. reflexivity.
  - destruct (H 2 _ eq_refl) as (counts & L & N & V). cbn [a_range a_mat] in *. destruct counts as [|n0 [|n1 [|? ?]]]; try discriminate L.
    destruct (V 0 ltac:(cbn; lia)) as (G0 & O0 & _). destruct (V 1 ltac:(cbn; lia)) as (G1 & O1 & _).
    exists s. split; [exact R|]. split; [exact G0|]. split; [exact G1|]. exists n0, n1. split; [exact O0|]. split; [exact O1|].
    assert (Q : n_nonzeros (mmul ex_R ex_A) = 6) by (vm_compute; reflexivity). rewrite Q in N. cbn in N. lia.
Qed.
(** On two ranks no rank reports the number of entries of the matrix. *)
Theorem C88_operator_complexity_refuted : exists s, state_means s ex_meaning /\ n_nonzeros ex_A = 9 /\
  op_operator_complexity s 0 0 = Ok 6 /\ op_operator_complexity s 0 1 = Ok 3.
Proof. exists ex_state. split; [apply ex_state_means|]. split; [vm_compute; reflexivity|]. split; vm_compute; reflexivity. Qed.
(** Matrix-free operators: the host throws, the device reports 0. *)
Theorem C88_matrix_free_refuted : forall (K : ofield) n f, 0 < n -> host_grid_complexity (@MfOp K n f) = Throw /\ device_matrix_free_grid_complexity <> Ok n.
Proof. intros K n f H. split; [reflexivity|]. intros E. injection E as E. lia. Qed.
Example C88_host_example : host_grid_complexity (TriOp ex_R) = Ok 2 /\ nc ex_R = 3.
Proof. split; reflexivity. Qed.
(** Two levels with 3 and 2 unknowns: 5/3, not 0. *)
Example C88_hierarchy_example : exists h : hierarchy QcOF, grid_complexity h = (fnat 5 / fnat 3)%K /\ hierarchy_grid_complexity h = Ok f0.
Proof.
  exists (mkHierarchy [mkLevel (Some (TriOp ex_A)) None None None; mkLevel (Some (TriOp (mmul ex_R (mtrans ex_R)))) None None None] true 1).
  split; [reflexivity|reflexivity].
Qed.
Print Assumptions C88_operator_complexity_refuted.
Print Assumptions C88_matrix_free_refuted.
Print Assumptions C88_host_operators.
