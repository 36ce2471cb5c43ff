(** C73: the direct coarse solvers on the device. *)
From Coq Require Import String List Arith Lia Bool Sorted QArith Qcanon.
From Verif Require Import Base OField Mat M_SpProd S_SpProd M_Csr S_Csr M_Dev S_CudaOp S_Eig M_DevSolve S_DevSolve P_DevSolve E_Solve E_Lanczos.
Import ListNotations.
Set Implicit Arguments.
Open Scope nat_scope.

(** C73: on one rank each of the three solvers leaves the solution of A y = b in x, whatever x contained; it is the only solution; the device memory
    is as before. [cholesky] for symmetric positive definite matrices, [lu_dense] and [lu_sparse_host] for all regular ones. *)
Theorem C73_direct_solve : forall (K : ofield) debug Y solver (c : csr K) range domain A b x h,
  solver_library_ok Y -> device_matrix [c] [range] [domain] A -> nr A = nc A -> 0 < nr A -> columns_once c -> direct_solvable solver A ->
  length b = nr A -> length x = nr A -> allocator_ok h ->
  exists y h', direct_apply debug Y solver (mkSolverMatrix c true true) b x h = Ok (y, h') /\ length y = nr A /\ mulvec A y = b /\
    (forall z, length z = nc A -> mulvec A z = b -> z = y) /\ same_memory h h'.
Proof.
  intros K debug Y solver c range domain A b x h HY HA Hsq Hn Ho Hs Hb Hx Ha.
  destruct (@direct_solved K debug Y solver c range domain A b x h HY HA Hsq Hn Ho Hs Hb Hx Ha) as [y [h' [E [L [S [M _]]]]]]. exists y, h'. split; auto. split; auto. split; auto. split; auto.
  intros z Hz Ez. apply (@regular_unique K A z y); try congruence. destruct Hs as [[_ Q]|[_ Q]]; auto. apply spd_regular. auto.
Qed.
Print Assumptions C73_direct_solve.

(** C73: the same for vectors in host memory: the same result, and the copies on the device are released. *)
Theorem C73_host_vectors : forall (K : ofield) debug Y solver (c : csr K) range domain A b x h,
  solver_library_ok Y -> device_matrix [c] [range] [domain] A -> nr A = nc A -> 0 < nr A -> columns_once c -> direct_solvable solver A ->
  length b = nr A -> length x = nr A -> allocator_ok h ->
  exists y h', direct_apply_host debug Y solver (mkSolverMatrix c true true) b x h = Ok (y, h') /\ length y = nr A /\ mulvec A y = b /\ same_memory h h'.
Proof.
  intros K debug Y solver c range domain A b x h HY HA Hsq Hn Ho Hs Hb Hx Ha.
  destruct (@direct_solved K debug Y solver c range domain A b x h HY HA Hsq Hn Ho Hs Hb Hx Ha) as [y [h0 [E [L [S _]]]]].
  destruct (@direct_host K debug Y solver (mkSolverMatrix c true true) b x h y Ha) as [h' [E' [M _]]].
  - intros ->. simpl in Hb. lia.
  - intros ->. simpl in Hx. lia.
  - congruence.
  - intros h1 Ha1. destruct (@direct_solved K debug Y solver c range domain A b x h1 HY HA Hsq Hn Ho Hs Hb Hx Ha1) as [y1 [h2 [E1 [L1 [S1 [M1 O1]]]]]]. exists h2. split; auto.
    rewrite E1. do 2 f_equal. apply (@regular_unique K A y1 y); try congruence. destruct Hs as [[_ Q]|[_ Q]]; auto. apply spd_regular. auto.
  - exists y, h'. auto.
Qed.
Print Assumptions C73_host_vectors.

(** C73: a debug build refuses a symmetric matrix that is not positive definite, resp. a singular one. *)
Theorem C73_singular_refused : forall (K : ofield) Y solver (c : csr K) range domain A b x h,
  solver_library_ok Y -> device_matrix [c] [range] [domain] A -> nr A = nc A -> 0 < nr A -> columns_once c -> direct_unsolvable solver A ->
  length b = nr A -> length x = nr A -> allocator_ok h ->
  direct_apply true Y solver (mkSolverMatrix c true true) b x h = Abort.
Proof. intros. eapply direct_refused; eauto. Qed.
Print Assumptions C73_singular_refused.

(** C73: any other name is an exception, before anything is touched. *)
Theorem C73_unknown_name : forall (K : ofield) debug Y solver (A : solver_matrix K) b x h,
  solver <> "cholesky"%string -> solver <> "lu_dense"%string -> solver <> "lu_sparse_host"%string -> direct_apply debug Y solver A b x h = Throw.
Proof.
  intros K debug Y solver A b x h H1 H2 H3. unfold direct_apply. apply String.eqb_neq in H1, H2, H3. rewrite H1, H2, H3. auto.
Qed.
Print Assumptions C73_unknown_name.

(** On several ranks none of them works: a rank that does not own all rows reads beyond its arrays, for every matrix, vector and build. *)
Theorem C73_several_ranks_refuted : forall (K : ofield) debug Y solver cs range domain (A : mat K) r c b x h,
  device_matrix cs range domain A -> nr A = nc A -> nth_error cs r = Some c -> length (nth r range []) < nr A ->
  solver = "cholesky"%string \/ solver = "lu_dense"%string \/ solver = "lu_sparse_host"%string ->
  direct_apply debug Y solver (mkSolverMatrix c true true) b x h = UB.
Proof.
  intros K debug Y solver cs range domain A r c b x h H Hsq Hc Hl Hs. destruct (dm_holds H) as [Hr [_ Hd]]. destruct (Hd r c Hc) as [rows [R1 _]].
  destruct (dm_sizes H c) as [S1 S2]; [eapply nth_error_In; eauto|].
  apply (@direct_short K debug Y solver c rows b x h R1); auto; [|congruence]. rewrite (cs_rows R1), S1.
  replace (c_range c) with (nth r range []); auto. rewrite <- Hr. apply nth_error_nth. rewrite nth_error_map, Hc. auto.
Qed.
Print Assumptions C73_several_ranks_refuted.

(** Example: a 2 by 2 symmetric positive definite matrix on one rank. *)
Definition dq (a : Z) (b : positive) : QcOF := Q2Qc (Qmake a b).
Definition ds_rows : list (list (nat * QcOF)) := [[(0, dq 2 1); (1, dq 1 1)]; [(0, dq 1 1); (1, dq 3 1)]].
Definition ds_csr : csr QcOF := mkCsr (map snd (concat ds_rows)) (map fst (concat ds_rows)) [0; 2; 4] 4 2 2 [0; 1] [0; 1].
Definition ds_mat : mat QcOF := of_rows 2 2 [[dq 2 1; dq 1 1]; [dq 1 1; dq 3 1]].
Lemma seq_distribution : forall n, distribution n [seq 0 n].
Proof.
  intros n. split; [split|].
  - simpl. rewrite app_nil_r. apply seq_NoDup.
  - intros i. simpl. rewrite app_nil_r, in_seq. lia.
  - intros p [<-|[]]. apply P_Csr3.seq_sorted.
Qed.
Lemma ds_holds : csr_holds ds_csr ds_rows.
Proof. split; auto. intros r Hr. cbn [length ds_rows] in Hr. destruct r as [|[|[|r]]]; auto. lia. Qed.
Lemma ds_device : device_matrix [ds_csr] [[0; 1]] [[0; 1]] ds_mat.
Proof.
  split; auto.
  - discriminate.
  - split; auto. split; [simpl; intros i H; lia|]. intros [|[|r]] c Hc; try discriminate. injection Hc as <-. exists ds_rows. split; [apply ds_holds|].
    intros i Hi. cbn [length ds_rows] in Hi. destruct i as [|[|i]]; [| |exfalso; lia]; (split; [intros e He; destruct He as [<-|[<-|[]]]; simpl; lia|]);
      (intros g Hg; cbn [ds_mat of_rows nc] in Hg; destruct g as [|[|g]]; [| |exfalso; lia]; apply Qc_is_canon; vm_compute; reflexivity).
  - intros c [<-|[]]. auto.
  - apply (seq_distribution 2).
  - apply (seq_distribution 2).
Qed.

Lemma holds_unique : forall (K : ofield) (c : csr K) rows rows', csr_holds c rows -> csr_holds c rows' -> rows = rows'.
Proof.
  intros K c rows rows' H H'. assert (L : length rows = length rows') by (rewrite (cs_rows H), (cs_rows H'); auto).
  apply (nth_ext _ _ [] []); auto. intros i Hi. pose proof (P_Csr.set_arguments_spec H Hi) as E. pose proof (@P_Csr.set_arguments_spec K c rows' i H') as E'.
  rewrite E in E'. specialize (E' ltac:(lia)). congruence.
Qed.
Lemma ds_once : columns_once ds_csr.
Proof.
  intros rows H row Hr. rewrite (holds_unique H ds_holds) in Hr. destruct Hr as [<-|[<-|[]]]; (constructor; [simpl; lia|constructor; [auto|constructor]]).
Qed.
Lemma ds_symmetric : symmetric_matrix ds_mat.
Proof.
  split; [reflexivity|]. intros i j Hi Hj. cbn [ds_mat of_rows nr] in *. destruct i as [|[|i]]; [| |exfalso; lia];
    (destruct j as [|[|j]]; [| |exfalso; lia]); apply Qc_is_canon; vm_compute; reflexivity.
Qed.
Lemma ds_spd : spd ds_mat.
Proof. apply (posdef_spd ds_symmetric). vm_compute. reflexivity. Qed.
Lemma ds_regular : regular ds_mat.
Proof. apply spd_regular, ds_spd. Qed.
Definition no_memory : heap QcOF := mkHeap 0 [].
Lemma no_memory_ok : allocator_ok no_memory.
Proof. intros id H. reflexivity. Qed.
(** 2 x + y = 3, x + 3 y = 4 is solved by all three from any start, on the device and on the host. *)
Definition ds_b : list QcOF := [dq 3 1; dq 4 1].
Definition solved_vector (r : outcome (list QcOF * heap QcOF)) : list QcOF := match r with Ok (x, _) => x | _ => [] end.
Example C73_solve_example : forall solver, In solver ["cholesky"; "lu_dense"; "lu_sparse_host"]%string ->
  direct_solvable solver ds_mat /\
  solved_vector (direct_apply true (exact_library QcOF) solver (mkSolverMatrix ds_csr true true) ds_b [dq 7 1; dq 9 1] no_memory) = [dq 1 1; dq 1 1] /\
  solved_vector (direct_apply_host true (exact_library QcOF) solver (mkSolverMatrix ds_csr true true) ds_b [dq 7 1; dq 9 1] no_memory) = [dq 1 1; dq 1 1].
Proof.
  intros solver [<-|[<-|[<-|[]]]]; (split; [unfold direct_solvable; pose proof ds_spd; pose proof ds_regular; tauto|]);
    split; apply veqb_eq; vm_compute; reflexivity.
Qed.
(** All hypotheses of the theorem are met. *)
Example C73_hypotheses_example : exists y h',
  direct_apply true (exact_library QcOF) "lu_dense" (mkSolverMatrix ds_csr true true) ds_b [dq 7 1; dq 9 1] no_memory = Ok (y, h') /\ mulvec ds_mat y = ds_b.
Proof.
  destruct (@C73_direct_solve QcOF true (exact_library QcOF) "lu_dense" ds_csr [0; 1] [0; 1] ds_mat ds_b [dq 7 1; dq 9 1] no_memory) as [y [h' [E [_ [S _]]]]]; auto.
  - apply exact_library_ok.
  - apply ds_device.
  - simpl. lia.
  - apply ds_once.
  - right. split; auto. apply ds_regular.
  - apply no_memory_ok.
  - exists y, h'. auto.
Qed.
(** A singular matrix is refused by all of them in a debug build; in a release build they return something else than a solution. *)
Definition sg_rows : list (list (nat * QcOF)) := [[(0, dq 1 1); (1, dq 1 1)]; [(0, dq 1 1); (1, dq 1 1)]].
Definition sg_csr : csr QcOF := mkCsr (map snd (concat sg_rows)) (map fst (concat sg_rows)) [0; 2; 4] 4 2 2 [0; 1] [0; 1].
Definition aborted {A} (r : outcome A) : bool := match r with Abort => true | _ => false end.
Example C73_singular_example : forall solver, In solver ["cholesky"; "lu_dense"; "lu_sparse_host"]%string ->
  aborted (direct_apply true (exact_library QcOF) solver (mkSolverMatrix sg_csr true true) ds_b ds_b no_memory) = true /\
  solved_vector (direct_apply false (exact_library QcOF) solver (mkSolverMatrix sg_csr true true) ds_b ds_b no_memory) = [dq 0 1; dq 0 1].
Proof. intros solver [<-|[<-|[<-|[]]]]; split; [vm_compute; reflexivity|apply veqb_eq; vm_compute; reflexivity|vm_compute; reflexivity|apply veqb_eq; vm_compute; reflexivity|vm_compute; reflexivity|apply veqb_eq; vm_compute; reflexivity]. Qed.
(** The first of two ranks that own one row each. *)
Definition half_csr : csr QcOF := mkCsr [dq 2 1; dq 1 1] [0; 1] [0; 2] 2 2 2 [0] [0].
Example C73_several_ranks_example : forall solver, In solver ["cholesky"; "lu_dense"; "lu_sparse_host"]%string ->
  direct_apply true (exact_library QcOF) solver (mkSolverMatrix half_csr true true) [dq 3 1] [dq 0 1] no_memory = UB.
Proof. intros solver [<-|[<-|[<-|[]]]]; vm_compute; reflexivity. Qed.
Example C73_unknown_example : direct_apply true (exact_library QcOF) "qr" (mkSolverMatrix ds_csr true true) ds_b ds_b no_memory = Throw.
Proof. reflexivity. Qed.
