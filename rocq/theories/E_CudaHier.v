(** Matrices stored with all entries, and computable tests for the hypotheses about the hierarchy on the device. For the examples. *)
From Coq Require Import String List Arith Lia ZArith Bool Sorted Field.
From Verif Require Import Base OField Mat LinAlg M_Ptree M_Hier S_Hier P_Hier P_Hier2 M_Host M_SpProd S_SpProd P_SpProd M_Csr S_Csr P_Csr P_Csr3 P_Csr4 M_Dev M_CudaOp
  S_CudaOp P_CudaOp S_Eig M_DevSolve S_DevSolve P_DevSolve E_Solve E_CudaOp M_CudaHier S_CudaHier P_CudaHier2.
Import ListNotations.
Set Implicit Arguments.
Open Scope nat_scope.

Lemma first_range : forall n, distribution n [seq 0 n].
Proof.
  intros n. split; [split|].
  - simpl. rewrite app_nil_r. apply seq_NoDup.
  - intros i. simpl. rewrite app_nil_r, in_seq. lia.
  - intros p [<-|[]]. apply P_Csr3.seq_sorted.
Qed.

Section E.
  Variable K : ofield.
  Add Field KfECudaHier : (f_field K).
  Implicit Types (A B R : mat K).
  (** The part of B with the rows [range]. *)
  Definition full_part (range domain : list nat) B : trilinos K := mkTri (nr B) (nc B) range domain (seq 0 (nc B)) (map (full_row B) range).
  Lemma full_holds : forall range domain B, csr_holds (to_csr (full_part range domain B)) (map (full_row B) range).
  Proof.
    intros range domain B. assert (Hl : trilinos_layout (full_part range domain B)).
    { split; cbn [full_part t_rows t_range t_colmap]; [apply map_length|]. intros row e Hr He. apply in_map_iff in Hr. destruct Hr as [i [<- _]].
      apply in_map_iff in He. destruct He as [j [<- Hj]]. apply in_seq in Hj. rewrite seq_length. simpl. lia. }
    destruct (to_csr_rank Hl) as [Q _]. replace (map (full_row B) range) with (trilinos_rows (full_part range domain B)); auto.
    unfold trilinos_rows, full_part. cbn [t_rows t_colmap]. rewrite map_map. apply map_ext. intros i. apply global_full.
  Qed.
  Lemma stored_rows : forall (c : csr K) rows rows', csr_holds c rows -> csr_holds c rows' -> rows = rows'.
  Proof.
    intros c rows rows' H H'. assert (L : length rows = length rows') by (rewrite (cs_rows H), (cs_rows H'); auto).
    apply (nth_ext _ _ [] []); auto. intros i Hi. pose proof (P_Csr.set_arguments_spec H Hi) as E. pose proof (@P_Csr.set_arguments_spec K c rows' i H') as E'.
    rewrite E in E'. specialize (E' ltac:(lia)). congruence.
  Qed.
  Lemma full_columns : forall B i, map fst (full_row B i) = seq 0 (nc B).
  Proof. intros B i. unfold full_row. rewrite map_map. apply map_id. Qed.
  Lemma full_once : forall range domain B, columns_once (to_csr (full_part range domain B)).
  Proof.
    intros range domain B rows H row Hr. rewrite (stored_rows H (full_holds range domain B)) in Hr. apply in_map_iff in Hr. destruct Hr as [i [<- _]].
    unfold simple_row. rewrite full_columns. apply seq_NoDup.
  Qed.
  Lemma dense_gemm_once : gemm_once (dense_libraries K).
  Proof. intros ca cb range inner domain A B _ _ _. apply full_once. Qed.
  (** The whole matrix on one rank. *)
  Definition whole_part B : csr K := to_csr (full_part (seq 0 (nr B)) (seq 0 (nc B)) B).
  Lemma whole_device : forall B, device_matrix [whole_part B] [seq 0 (nr B)] [seq 0 (nc B)] B.
  Proof. intros B. apply (@device_of_ok K [seq 0 (nr B)] [seq 0 (nc B)] B); auto; [discriminate| |]; apply first_range. Qed.
  Lemma whole_ready : forall B, nr B = nc B -> jacobi_ready (whole_part B).
  Proof.
    intros B Hsq rows H. rewrite (stored_rows H (full_holds _ _ B)). split.
    - intros row Hr. apply in_map_iff in Hr. destruct Hr as [i [<- _]]. unfold simple_row. rewrite full_columns. apply seq_NoDup.
    - intros i Hi. rewrite map_length, seq_length in Hi. rewrite (nth_map_lt _ (seq 0 (nr B)) [] 0) by (rewrite seq_length; auto). rewrite full_columns. apply in_seq. lia.
  Qed.

  (** R R^T is positive definite. *)
  Lemma rank_test : forall R, S_DevSolve.spd (mmul R (mtrans R)) -> full_row_rank R.
  Proof.
    intros R [_ S] x Hx E. destruct (list_eq_dec (@feq_dec K) x (vzero (nr R))) as [|N]; auto. exfalso. specialize (S x Hx N).
    rewrite mulvec_mmul in S by auto. unfold mulTvec in E. rewrite E in S. rewrite (lin_zero (@mulvec_linear K R)) in S. rewrite dot_zero_l in S. apply (flt_irrefl S).
  Qed.
  (** The energy before a step of Jacobi's method minus the energy after it. *)
  Definition msub A B : mat K := mkMat (nr A) (nc A) (fun i j => ent A i j - ent B i j)%K.
  Lemma mulvec_msub : forall A B x, nr B = nr A -> nc B = nc A -> mulvec (msub A B) x = vsub (mulvec A x) (mulvec B x).
  Proof.
    intros A B x Hr Hc. apply vec_ext; [rewrite vsub_length, !mulvec_length; simpl; lia|]. intros i Hi. rewrite mulvec_length in Hi. simpl in Hi.
    rewrite nth_vsub by (rewrite !mulvec_length; auto). rewrite !nth_mulvec by (simpl; auto; lia). simpl nc. rewrite Hc.
    assert (X : forall n (f g : nat -> K), (sumn n f - sumn n g)%K = sumn n (fun i => (f i - g i)%K)).
    { induction n as [|n IH]; intros f g; simpl; [ring|]. rewrite <- IH. ring. }
    rewrite X. apply sumn_ext. intros j Hj. simpl. ring.
  Qed.
  Definition one_matrix (n : nat) : mat K := mkMat n n (fun i j => if i =? j then f1 else f0).
  Lemma mulvec_one : forall n x, length x = n -> mulvec (one_matrix n) x = x.
  Proof.
    intros n x Hx. apply vec_ext; [rewrite mulvec_length; auto|]. intros i Hi. rewrite mulvec_length in Hi. simpl in Hi. rewrite nth_mulvec by auto. simpl nc.
    rewrite (@sumn_single K n i); auto; simpl.
    - rewrite Nat.eqb_refl. ring.
    - intros j Hj N. replace (i =? j) with false by (symmetry; apply Nat.eqb_neq; auto). ring.
  Qed.
  Definition jacobi_matrix A : mat K := msub (one_matrix (nr A)) (mmul (inverse_diagonal (nr A) A) A).
  Definition energy_gain A : mat K := msub A (mmul (mtrans (jacobi_matrix A)) (mmul A (jacobi_matrix A))).
  Lemma jacobi_test : forall A, nr A = nc A -> S_DevSolve.spd (energy_gain A) -> jacobi_reduces A.
  Proof.
    intros A Hsq [_ S] e He Ne. specialize (S e He Ne).
    assert (EJ : jacobi_step A (vzero (nc A)) e = mulvec (jacobi_matrix A) e).
    { rewrite <- (@jacobi_correction K (nc A) A (vzero (nc A)) e); auto; [|apply vzero_length]. unfold jacobi_matrix. rewrite mulvec_msub by (simpl; auto).
      rewrite mulvec_one by congruence. rewrite mulvec_mmul by (simpl; auto). unfold correction_step. rewrite vsub_zero_r by (rewrite mulvec_length; auto). rewrite Hsq. auto. }
    rewrite EJ. unfold energy. apply flt_sub_0. unfold energy_gain in S. rewrite mulvec_msub in S by (simpl; auto).
    rewrite mulvec_mmul in S by (simpl; auto). rewrite mulvec_mmul in S by (simpl; auto).
    set (y := mulvec (jacobi_matrix A) e) in *. assert (Ly : length y = nc A) by (unfold y; rewrite mulvec_length; simpl; auto).
    assert (X : dot (mulvec (mtrans (jacobi_matrix A)) (mulvec A y)) e = dot (mulvec A y) y).
    { rewrite (dot_comm (mulvec A y) y). unfold y at 2. rewrite (@mulvec_adjoint K (jacobi_matrix A)); [apply dot_comm| |]; simpl; auto; rewrite ?mulvec_length; auto; congruence. }
    rewrite <- X. assert (Z : forall a b c : list K, length a = length b -> length a = length c -> dot (vsub a b) c = (dot a c - dot b c)%K).
    { intros a b c L1 L2. rewrite vsub_as_add by auto. rewrite dot_add_l by (rewrite ?vscale_length; auto). rewrite dot_scale_l. ring. }
    rewrite <- Z; auto; rewrite !mulvec_length; simpl; auto. congruence.
  Qed.
  (** A normalised eigenvector of a symmetric 2 x 2 matrix that is not diagonal has no zero component. *)
  Lemma eigen_nonzero : forall (p t s l x y : K), t <> 0%K -> (0 + p * x + t * y = l * x)%K -> (0 + t * x + s * y = l * y)%K -> (x * x + (y * y + 0) = 1)%K -> x <> 0%K /\ y <> 0%K.
  Proof.
    intros p t s l x y Ht E1 E2 N. split; intros Q; rewrite Q in *.
    - assert (Y : (t * y = 0)%K) by (replace (t * y)%K with (0 + p * 0 + t * y)%K by ring; rewrite E1; ring).
      destruct (@fmul_eq_0 K _ _ Y) as [|Y0]; auto. rewrite Y0 in N. apply (@f1_neq_0 K). rewrite <- N. ring.
    - assert (Y : (t * x = 0)%K) by (replace (t * x)%K with (0 + t * x + s * 0)%K by ring; rewrite E2; ring).
      destruct (@fmul_eq_0 K _ _ Y) as [|Y0]; auto. rewrite Y0 in N. apply (@f1_neq_0 K). rewrite <- N. ring.
  Qed.
  Lemma corner_rank : forall R : mat K, nr R = 2 -> nc R = 3 -> ent R 0 0 <> 0%K -> ent R 1 0 = 0%K -> ent R 0 2 = 0%K -> ent R 1 2 <> 0%K -> full_row_rank R.
  Proof.
    intros R H2 H3 A B C D x Hx E. unfold mulTvec, mulvec, mtrans in E. cbn [nr nc ent] in E. rewrite H2 in *. rewrite H3 in *.
    destruct x as [|x0 [|x1 [|]]]; try discriminate. injection E as E0 _ E2. cbn [sumn nth] in E0, E2. rewrite B in E0. rewrite C in E2.
    assert (F0 : (ent R 0 0 * x0 = 0)%K) by (rewrite <- E0; ring). assert (F2 : (ent R 1 2 * x1 = 0)%K) by (rewrite <- E2; ring).
    destruct (@fmul_eq_0 K _ _ F0) as [|G0]; [contradiction|]. destruct (@fmul_eq_0 K _ _ F2) as [|G2]; [contradiction|]. subst. reflexivity.
  Qed.
  Lemma div_mul_self : forall u w : K, u <> 0%K -> w = (u / u * w)%K.
  Proof. intros. field. auto. Qed.
End E.
