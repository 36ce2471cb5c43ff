(** C76 to C79: the multigrid hierarchy on the device. *)
From Coq Require Import String List Arith Lia ZArith Bool Permutation QArith Qcanon.
From Verif Require Import Base OField Mat LinAlg M_Ptree M_Hier S_Hier P_Hier P_Hier2 M_Host M_SpProd S_SpProd M_Csr S_Csr P_Csr4 M_Dev M_CudaOp S_CudaOp P_CudaOp S_Eig
  M_DevSolve S_DevSolve P_DevSolve M_Restr S_Restr M_AmgeDev S_AmgeDev M_CudaHier S_CudaHier P_CudaHier P_CudaHier2 P_CudaHier3 E_Solve E_Lanczos E_CudaOp E_CudaHier
  C_Csr C_DevSolve C_AmgeDev.
Import ListNotations.
Set Implicit Arguments.
Open Scope nat_scope.

(** C76: any number of calls of vmult on device vectors, on any number of ranks and levels, in any order of the threads and with any contents of the
    scratch buffers: every call returns the textbook V-cycle of its own b (and x, unless the hierarchy is a preconditioner); the memory of every rank is
    as before. *)
Theorem C76_cycle : forall (K : ofield) debug L cond s ms prec n lv rest owned ds nc0 C (d : device K) qs,
  libraries_ok L -> any_conditions cond -> state_means s ms -> dev_describes s ms lv rest owned ds nc0 C -> jointly_linear nc0 C ->
  d_ops d = s -> Forall (@allocator_ok K) (d_heaps d) -> length (d_heaps d) = length owned ->
  (forall x b, In (x, b) qs -> length x = top_size ds nc0 /\ length b = top_size ds nc0) ->
  exists d', dev_vmults debug L cond (mkDevHierarchy (lv :: rest) prec n) (vmult_requests owned qs) d =
      Ok (map (fun q => spread owned (textbook_vcycle n ds nc0 C (snd q) (if prec then vzero (top_size ds nc0) else fst q))) qs, d') /\
    memory_kept (d_heaps d) (d_heaps d') /\ keeps s (d_ops d').
Proof.
  intros K debug L cond s ms prec n lv rest owned ds nc0 C d qs HL HC HS DD JC Ed Ha Hl Hq.
  destruct (@vmults_run K debug L cond s ms (d_heaps d) HL HC prec n lv rest owned ds nc0 C DD JC Hl qs d) as [d' [E S]]; auto.
  - split; [rewrite Ed; apply keeps_refl|]. split; [exists ms; rewrite Ed; split; auto; intros j B r0 dm cc rr Hj; eauto|]. apply kept_refl. auto.
  - exists d'. split; auto. split; apply S.
Qed.
Print Assumptions C76_cycle.

(** C77: the hierarchy of two levels that the device helpers build on one process: every vmult is the two-grid method with Jacobi's method and the exact
    solution of the Galerkin system R A R^T; all memory is released. *)
Theorem C77_two_levels : forall (K : ofield) debug L Y z restr global p (d : device K) A R h h',
  device_input L Y z global p d A h -> restricts restr A R h h' ->
  pt_get parse_int ["max levels"%string] 2%Z p = 2%Z -> direct_solvable (solver_name p) (mmul R (mmul A (mtrans R))) ->
  exists H d1, dev_construct debug L Y z restr global p d = Ok (H, d1) /\ d_heaps d1 = [h'] /\
    forall cond qs, any_conditions cond -> (forall x b, In (x, b) qs -> length x = nr A /\ length b = nr A) ->
    exists ys d2, dev_vmults debug L cond H (vmult_requests [seq 0 (nr A)] qs) d1 = Ok (map (spread [seq 0 (nr A)]) ys, d2) /\
      Forall2 (fun q y => two_grid A R (c_steps p) (snd q) (if c_prec p then vzero (nr A) else fst q) y) qs ys /\ memory_kept [h'] (d_heaps d2).
Proof. exact construct_two. Qed.
Print Assumptions C77_two_levels.

(** C77: the hierarchy of one level is the direct solver: vmult solves A y = b. *)
Theorem C77_one_level : forall (K : ofield) debug L Y z restr global p (d : device K) A h,
  device_input L Y z global p d A h -> pt_get parse_int ["max levels"%string] 2%Z p = 1%Z -> direct_solvable (solver_name p) A ->
  exists H d1, dev_construct debug L Y z restr global p d = Ok (H, d1) /\ d_heaps d1 = [h] /\
    forall cond qs, any_conditions cond -> (forall x b, In (x, b) qs -> length x = nr A /\ length b = nr A) ->
    exists ys d2, dev_vmults debug L cond H (vmult_requests [seq 0 (nr A)] qs) d1 = Ok (map (spread [seq 0 (nr A)]) ys, d2) /\
      Forall2 (fun q y => length y = nr A /\ mulvec A y = snd q) qs ys /\ memory_kept [h] (d_heaps d2).
Proof. exact construct_one. Qed.
Print Assumptions C77_one_level.

(** C77 fails for three levels or more: the helpers compute the restriction of the finest mesh on every level, so the second one does not fit the coarse
    matrix; a debug build stops in the constructor. *)
Theorem C77_three_levels_refuted : forall (K : ofield) L Y z restr global p (d : device K) A R h h',
  device_input L Y z global p d A h -> restricts restr A R h h' ->
  (3 <= pt_get parse_int ["max levels"%string] 2%Z p)%Z -> nr R <> nr A ->
  (forall c, any_smoother_conditions c (z (S (S (S (length (u_ops (d_ops d)))))) 0 c)) ->
  (exists R2 h2, restricts restr A R2 h' h2) ->
  dev_construct true L Y z restr global p d = Abort.
Proof. exact construct_many. Qed.
Print Assumptions C77_three_levels_refuted.

(** C77: any other smoother is an exception, whatever the rest is. *)
Theorem C77_unknown_smoother : forall (K : ofield) debug L Y z restr global p (d : device K),
  (2 <= pt_get parse_int ["max levels"%string] 2%Z p)%Z -> lower (get_string ["smoother"; "type"]%string "Jacobi" p) <> "jacobi"%string ->
  dev_construct debug L Y z restr global p d = Throw.
Proof.
  intros K debug L Y z restr global p d Hl Hs. unfold dev_construct, assert_dbg.
  replace (0 <? pt_get parse_int ["max levels"%string] 2 p)%Z with true by (symmetry; apply Z.ltb_lt; lia). cbn [negb andb bind]. rewrite andb_false_r. cbn [bind].
  replace (pt_get parse_int ["max levels"%string] 2 p <? 0)%Z with false by (symmetry; apply Z.ltb_ge; lia).
  replace (pt_get parse_int ["max levels"%string] 2 p =? 0)%Z with false by (symmetry; apply Z.eqb_neq; lia).
  replace (Z.to_nat (pt_get parse_int ["max levels"%string] 2%Z p) - 1) with (S (Z.to_nat (pt_get parse_int ["max levels"%string] 2%Z p) - 2)) by lia.
  cbn [dev_setup]. unfold build_smoother. apply String.eqb_neq in Hs. rewrite Hs. reflexivity.
Qed.
Print Assumptions C77_unknown_smoother.

(** C77: with the option fast_ap no hierarchy of several levels is built. *)
Theorem C77_fast_ap : forall (K : ofield) debug L Y z restr global p (d : device K) r,
  (2 <= pt_get parse_int ["max levels"%string] 2%Z p)%Z -> pt_get parse_bool ["fast_ap"%string] false p = true ->
  dev_construct debug L Y z restr global p d <> Ok r.
Proof.
  intros K debug L Y z restr global p d r Hl Hs. unfold dev_construct, assert_dbg.
  replace (0 <? pt_get parse_int ["max levels"%string] 2 p)%Z with true by (symmetry; apply Z.ltb_lt; lia). cbn [negb andb bind]. rewrite andb_false_r. cbn [bind].
  replace (pt_get parse_int ["max levels"%string] 2 p <? 0)%Z with false by (symmetry; apply Z.ltb_ge; lia).
  replace (pt_get parse_int ["max levels"%string] 2 p =? 0)%Z with false by (symmetry; apply Z.eqb_neq; lia).
  replace (Z.to_nat (pt_get parse_int ["max levels"%string] 2%Z p) - 1) with (S (Z.to_nat (pt_get parse_int ["max levels"%string] 2%Z p) - 2)) by lia.
  cbn [dev_setup]. rewrite Hs. destruct (build_smoother debug z p _ _); cbn [bind]; try discriminate.
  destruct (restr _) as [[rm hs]| | | |]; cbn [bind]; discriminate.
Qed.
Print Assumptions C77_fast_ap.

(** C77 needs one process: with more, the direct solvers read beyond the arrays of the first rank in the first call of vmult, in both builds. *)
Theorem C77_several_ranks_refuted : forall (K : ofield) debug L Y z restr global p (d : device K) A range domain cond x b,
  device_matrix (m_parts global) range domain A -> m_handle global = true -> m_descr global = true -> nr A = nc A -> length (nth 0 range []) < nr A ->
  length (d_heaps d) = length range ->
  pt_get parse_int ["max levels"%string] 2%Z p = 1%Z -> In (solver_name p) ["cholesky"; "lu_dense"; "lu_sparse_host"]%string ->
  exists H d1, dev_construct debug L Y z restr global p d = Ok (H, d1) /\ dev_vmult debug L cond H (spread range x) (spread range b) d1 = UB.
Proof.
  intros K debug L Y z restr global p d A range domain cond x b D Hh Hd Hsq Hs Hm Hlv Hin. pose proof (@C73_several_ranks_refuted K debug Y (solver_name p)) as RF.
  unfold dev_construct. rewrite Hlv. unfold assert_dbg. cbn [Z.ltb Z.compare negb andb]. rewrite andb_false_r. cbn [bind Z.eqb]. change (Z.to_nat 1 - 1) with 0. cbn [dev_setup bind].
  eexists _, _. split; [reflexivity|]. unfold dev_vmult. cbn [dh_levels dh_is_preconditioner dh_n_smoothing_steps dev_apply_levels dl_solver deref bind].
  unfold build_coarse_solver, direct_solver. fold (solver_name p). cbn [d_ops d_heaps].
  assert (Hg : get_matrix (new_operator (d_ops d) global) (length (u_ops (d_ops d))) = Ok global).
  { unfold get_matrix, new_operator. cbn [u_ops u_mats]. rewrite (rd_ok _ _ (nth_snoc (u_ops (d_ops d)) _)). cbn [bind o_mat]. apply rd_ok. apply nth_snoc. }
  rewrite Hg. cbn [bind]. destruct (device_length D) as [L1 L2]. destruct (m_parts global) as [|c cs] eqn:Ep; [exfalso; apply (dm_some D); auto|].
  destruct range as [|r0 range]; [discriminate|]. cbn [nth] in Hs. destruct (d_heaps d) as [|h hs]; [discriminate|]. cbn [length seq mapM rd nth_error bind].
  assert (Q : forall b' x' h', direct_apply debug Y (solver_name p) (mkSolverMatrix c true true) b' x' h' = UB).
  { intros b' x' h'. apply (RF (c :: cs) (r0 :: range) domain A 0 c b' x' h' D Hsq eq_refl Hs). destruct Hin as [<- | [<- | [<- | []]]]; auto. }
  rewrite Hh, Hd. destruct (negb true || pt_get parse_bool ["is preconditioner"%string] true p); cbn [spread v_zero v_vals scatter map nth_error rd bind]; rewrite Q; reflexivity.
Qed.
Print Assumptions C77_several_ranks_refuted.

(** C78: for a symmetric positive definite matrix, a restriction of full rank and a convergent Jacobi method, the hierarchy of two levels is, used as a
    preconditioner, a fixed linear, symmetric and positive definite map, and strictly reduces the energy of every error. *)
Theorem C78_spd : forall (K : ofield) debug L Y z restr global p (d : device K) A R h h',
  device_input L Y z global p d A h -> restricts restr A R h h' ->
  pt_get parse_int ["max levels"%string] 2%Z p = 2%Z -> In (solver_name p) ["cholesky"; "lu_dense"; "lu_sparse_host"]%string ->
  c_prec p = true -> 0 < c_steps p -> S_DevSolve.spd A -> full_row_rank R -> jacobi_reduces A ->
  exists H d1 Mv, dev_construct debug L Y z restr global p d = Ok (H, d1) /\
    linear (nr A) (nr A) Mv /\ self_adjoint (nr A) Mv /\
    (forall b, length b = nr A -> b <> vzero (nr A) -> (0 < dot (Mv b) b)%K) /\
    (forall e, length e = nr A -> e <> vzero (nr A) -> (energy (mulvec A) (vsub e (Mv (mulvec A e))) < energy (mulvec A) e)%K) /\
    forall cond qs, any_conditions cond -> (forall x b, In (x, b) qs -> length x = nr A /\ length b = nr A) ->
    exists d2, dev_vmults debug L cond H (vmult_requests [seq 0 (nr A)] qs) d1 = Ok (map (fun q => spread [seq 0 (nr A)] (Mv (snd q))) qs, d2) /\
      memory_kept [h'] (d_heaps d2).
Proof. exact construct_spd. Qed.
Print Assumptions C78_spd.

(** C79: with the restriction computed on the device from the agglomerates: R consists of the weighted eigenvectors of the agglomerates, and the
    hierarchy of two levels is the two-grid method with this R. *)
Theorem C79_spectral_two_grid : forall (K : ofield) debug acc (tol : K) Z compress n_eig gds gd D L Y z global p (d : device K) A xs h,
  device_input L Y z global p d A h ->
  eig_library_ok Z -> compress_ok compress -> (0 < tol)%K -> problem_ok Z n_eig (nr A) [seq 0 (nr A)] gds gd D [(xs, h)] ->
  pt_get parse_int ["max levels"%string] 2%Z p = 2%Z ->
  exists R rs h', rank_result n_eig (xs, h) (rs, h') /\ restriction_of (nr A) D rs R /\
    (direct_solvable (solver_name p) (mmul R (mmul A (mtrans R))) ->
     exists H d1,
       dev_construct debug L Y z (build_restrictor debug acc tol Z compress n_eig [seq 0 (nr A)] gds gd D [map fst xs]) global p d = Ok (H, d1) /\
       forall cond qs, any_conditions cond -> (forall x b, In (x, b) qs -> length x = nr A /\ length b = nr A) ->
       exists ys d2, dev_vmults debug L cond H (vmult_requests [seq 0 (nr A)] qs) d1 = Ok (map (spread [seq 0 (nr A)]) ys, d2) /\
         Forall2 (fun q y => two_grid A R (c_steps p) (snd q) (if c_prec p then vzero (nr A) else fst q) y) qs ys /\ memory_kept [h'] (d_heaps d2)).
Proof.
  intros K debug acc tol Z compress n_eig gds gd D L Y z global p d A xs h HI HZ HC Ht HP Hlv.
  destruct (@amge_restricts K debug acc tol Z compress n_eig gds gd D A xs h HZ HC Ht HP) as [R [rs [h' [PR [RR RO]]]]].
  exists R, rs, h'. split; auto. split; auto. intros Hsol.
  destruct (@construct_two K debug L Y z _ global p d A R h h' HI PR Hlv Hsol) as [H [d1 [E [_ F]]]]. eauto.
Qed.
Print Assumptions C79_spectral_two_grid.

(** ** Examples *)
(** The one-dimensional Laplacian with three dofs, linear interpolation from two coarse dofs. *)
Definition ch_A : mat QcOF := of_rows 3 3 [[dq 2 1; dq (-1) 1; dq 0 1]; [dq (-1) 1; dq 2 1; dq (-1) 1]; [dq 0 1; dq (-1) 1; dq 2 1]].
Definition ch_R : mat QcOF := of_rows 2 3 [[dq 1 1; dq 1 2; dq 0 1]; [dq 0 1; dq 1 2; dq 1 1]].
Definition ch_tree (levels smoother : string) : ptree :=
  Node "" [("max levels"%string, Node levels []); ("smoother"%string, Node "" [("type"%string, Node smoother [])])].
Definition ch_z (k r : nat) (c : csr QcOF) : smoother_conditions QcOF :=
  mkSmootherConditions (order (c_nnz c)) (order (length (c_range c))) (order (length (c_range c) + 1)) (repeat (dq 7 1) (length (c_range c)))
    (repeat 7 (length (c_range c))) (repeat 7 (length (c_range c) + 1)).
Lemma ch_z_ok : forall k r c, any_smoother_conditions c (ch_z k r c).
Proof. intros k r c. unfold any_smoother_conditions, ch_z. cbn [z_order1 z_order2 z_order3 z_val z_col z_ptr]. rewrite !repeat_length. repeat split; auto; apply order_ok. Qed.
Definition ch_restr (hs : list (heap QcOF)) : outcome (shared_matrix QcOF * list (heap QcOF)) := Ok (mkShared [whole_part ch_R] true true, hs).
Definition ch_global : shared_matrix QcOF := mkShared [whole_part ch_A] true true.
Definition ch_device : device QcOF := mkDevice (mkCuda [] []) [no_memory] 0.
Definition ch_cond : conditions QcOF := fun product size => ex_env size.
Lemma ch_cond_ok : any_conditions ch_cond.
Proof. intros product size. apply ex_env_ok. Qed.
Lemma ch_input : forall levels, device_input (dense_libraries QcOF) (exact_library QcOF) ch_z ch_global (ch_tree levels "Jacobi") ch_device ch_A no_memory.
Proof.
  intros levels. constructor.
  - apply dense_libraries_ok.
  - apply dense_gemm_once.
  - apply exact_library_ok.
  - exists []. constructor.
  - split; [reflexivity|apply no_memory_ok].
  - exists (whole_part ch_A). split; [reflexivity|]. split; [apply whole_device|]. split; [apply whole_ready; reflexivity|apply ch_z_ok].
  - split; reflexivity.
  - split; [reflexivity|simpl; lia].
  - reflexivity.
  - reflexivity.
Qed.
Lemma ch_restricts : restricts ch_restr ch_A ch_R no_memory no_memory.
Proof.
  constructor.
  - exists (mkShared [whole_part ch_R] true true), (whole_part ch_R). split; [reflexivity|]. split; [reflexivity|]. split; [apply (whole_device ch_R)|auto].
  - apply no_memory_ok.
  - simpl. split; [reflexivity|lia].
  - intros q [<-|[]]. exists 0, 0. split; [simpl; auto|]. split; [simpl; lia|]. intros Q. apply (f_equal (fun x : QcOF => Qc_eq_bool x (dq 0 1))) in Q. vm_compute in Q. discriminate.
Qed.
Lemma small_symmetric : forall (B : mat QcOF), nr B = nc B ->
  forallb (fun i => forallb (fun j => Qc_eq_bool (ent B i j) (ent B j i)) (seq 0 (nr B))) (seq 0 (nr B)) = true -> symmetric_matrix B.
Proof.
  intros B Hsq H. split; auto. intros i j Hi Hj. rewrite forallb_forall in H. specialize (H i ltac:(apply in_seq; lia)). rewrite forallb_forall in H.
  specialize (H j ltac:(apply in_seq; lia)). apply Qc_eq_bool_correct in H. auto.
Qed.
Lemma ch_spd : S_DevSolve.spd ch_A.
Proof. apply posdef_spd; [apply small_symmetric; vm_compute; reflexivity|vm_compute; reflexivity]. Qed.
Lemma ch_rank : full_row_rank ch_R.
Proof. apply rank_test. apply posdef_spd; [apply small_symmetric; vm_compute; reflexivity|vm_compute; reflexivity]. Qed.
Lemma ch_jacobi : jacobi_reduces ch_A.
Proof. apply jacobi_test; [reflexivity|]. apply posdef_spd; [apply small_symmetric; vm_compute; reflexivity|vm_compute; reflexivity]. Qed.
Lemma ch_solvable : direct_solvable "lu_dense" (mmul ch_R (mmul ch_A (mtrans ch_R))).
Proof. apply spd_solvable; [simpl; auto|]. apply galerkin_spd; [apply ch_spd|reflexivity|apply ch_rank]. Qed.

(** The hypotheses of the theorems are met, and two calls of vmult computed: b = (1, 0, 0) and b = A (1, 1, 1). *)
Definition ch_run (debug : bool) (levels : string) (qs : list (list QcOF * list QcOF)) : outcome (list (dvec QcOF) * device QcOF) :=
  let! (H, d1) := dev_construct debug (dense_libraries QcOF) (exact_library QcOF) ch_z ch_restr ch_global (ch_tree levels "Jacobi") ch_device in
  dev_vmults debug (dense_libraries QcOF) ch_cond H (vmult_requests [[0; 1; 2]] qs) d1.
Definition ch_values (r : outcome (list (dvec QcOF) * device QcOF)) : list (list QcOF) :=
  match r with Ok (ys, _) => map (fun y => concat (v_vals y)) ys | _ => [] end.
Definition ch_b1 : list QcOF := [dq 1 1; dq 0 1; dq 0 1].
Definition ch_b2 : list QcOF := [dq 1 1; dq 0 1; dq 1 1].
Definition ch_x : list QcOF := [dq 5 1; dq 6 1; dq 7 1].
Example C77_two_levels_example : forall debug, exists H d1 ys d2,
  dev_construct debug (dense_libraries QcOF) (exact_library QcOF) ch_z ch_restr ch_global (ch_tree "2" "Jacobi") ch_device = Ok (H, d1) /\
  dev_vmults debug (dense_libraries QcOF) ch_cond H (vmult_requests [[0; 1; 2]] [(ch_x, ch_b1); (ch_x, ch_b2)]) d1 = Ok (map (spread [[0; 1; 2]]) ys, d2) /\
  Forall2 (fun q y => two_grid ch_A ch_R 1 (snd q) (vzero 3) y) [(ch_x, ch_b1); (ch_x, ch_b2)] ys.
Proof.
  intros debug. destruct (@C77_two_levels QcOF debug (dense_libraries QcOF) (exact_library QcOF) ch_z ch_restr ch_global (ch_tree "2" "Jacobi") ch_device ch_A ch_R no_memory no_memory
    (ch_input "2") ch_restricts eq_refl ch_solvable) as [H [d1 [E [_ F]]]].
  destruct (F ch_cond [(ch_x, ch_b1); (ch_x, ch_b2)] ch_cond_ok) as [ys [d2 [E2 [F2 _]]]].
  { intros x b [Q|[Q|[]]]; injection Q as <- <-; auto. }
  exists H, d1, ys, d2. auto.
Qed.
Example C77_one_level_example : forall debug, exists H d1 ys d2,
  dev_construct debug (dense_libraries QcOF) (exact_library QcOF) ch_z ch_restr ch_global (ch_tree "1" "Jacobi") ch_device = Ok (H, d1) /\
  dev_vmults debug (dense_libraries QcOF) ch_cond H (vmult_requests [[0; 1; 2]] [(ch_x, ch_b1); (ch_x, ch_b2)]) d1 = Ok (map (spread [[0; 1; 2]]) ys, d2) /\
  Forall2 (fun q y => length y = 3 /\ mulvec ch_A y = snd q) [(ch_x, ch_b1); (ch_x, ch_b2)] ys.
Proof.
  intros debug. destruct (@C77_one_level QcOF debug (dense_libraries QcOF) (exact_library QcOF) ch_z ch_restr ch_global (ch_tree "1" "Jacobi") ch_device ch_A no_memory
    (ch_input "1") eq_refl) as [H [d1 [E [_ F]]]].
  { apply spd_solvable; [simpl; auto|apply ch_spd]. }
  destruct (F ch_cond [(ch_x, ch_b1); (ch_x, ch_b2)] ch_cond_ok) as [ys [d2 [E2 [F2 _]]]].
  { intros x b [Q|[Q|[]]]; injection Q as <- <-; auto. }
  exists H, d1, ys, d2. auto.
Qed.
Example C77_three_levels_example : dev_construct true (dense_libraries QcOF) (exact_library QcOF) ch_z ch_restr ch_global (ch_tree "3" "Jacobi") ch_device = Abort.
Proof.
  apply (@C77_three_levels_refuted QcOF (dense_libraries QcOF) (exact_library QcOF) ch_z ch_restr ch_global (ch_tree "3" "Jacobi") ch_device ch_A ch_R no_memory no_memory
    (ch_input "3") ch_restricts); [vm_compute; discriminate|simpl; lia|intros c; apply ch_z_ok|]. exists ch_R, no_memory. apply ch_restricts.
Qed.
Example C77_unknown_smoother_example : dev_construct false (dense_libraries QcOF) (exact_library QcOF) ch_z ch_restr ch_global (ch_tree "2" "Chebyshev") ch_device = Throw.
Proof. apply C77_unknown_smoother; vm_compute; discriminate. Qed.
Example C77_fast_ap_example : forall r,
  dev_construct true (dense_libraries QcOF) (exact_library QcOF) ch_z ch_restr ch_global (Node "" [("fast_ap"%string, Node "true" [])]) ch_device <> Ok r.
Proof. intros r. apply C77_fast_ap; [vm_compute; discriminate|reflexivity]. Qed.
(** Two ranks, one level. *)
Definition ch_two_ranks : list (list nat) := [[0; 1]; [2]].
Lemma ch_two_ranks_ok : distribution 3 ch_two_ranks.
Proof.
  split; [split|].
  - repeat constructor; simpl; lia.
  - intros i. simpl. lia.
  - intros p [<-|[<-|[]]]; repeat constructor.
Qed.
Example C77_several_ranks_example : exists H d1,
  dev_construct true (dense_libraries QcOF) (exact_library QcOF) ch_z ch_restr (mkShared (device_of ch_two_ranks ch_two_ranks ch_A) true true) (ch_tree "1" "Jacobi")
    (mkDevice (mkCuda [] []) [no_memory; no_memory] 0) = Ok (H, d1) /\
  dev_vmult true (dense_libraries QcOF) ch_cond H (spread ch_two_ranks ch_x) (spread ch_two_ranks ch_b1) d1 = UB.
Proof.
  apply (@C77_several_ranks_refuted QcOF true (dense_libraries QcOF) (exact_library QcOF) ch_z ch_restr _ _ _ ch_A ch_two_ranks ch_two_ranks); try reflexivity.
  - cbn [m_parts]. apply device_of_ok; auto; [discriminate| |]; apply ch_two_ranks_ok.
  - simpl. lia.
  - vm_compute. auto.
Qed.
Example C78_example : forall debug, exists H d1 Mv,
  dev_construct debug (dense_libraries QcOF) (exact_library QcOF) ch_z ch_restr ch_global (ch_tree "2" "Jacobi") ch_device = Ok (H, d1) /\
  linear 3 3 Mv /\ self_adjoint 3 Mv /\
  exists d2, dev_vmults debug (dense_libraries QcOF) ch_cond H (vmult_requests [[0; 1; 2]] [(ch_x, ch_b1); (ch_x, ch_b2)]) d1 =
    Ok ([spread [[0; 1; 2]] (Mv ch_b1); spread [[0; 1; 2]] (Mv ch_b2)], d2).
Proof.
  intros debug. destruct (@C78_spd QcOF debug (dense_libraries QcOF) (exact_library QcOF) ch_z ch_restr ch_global (ch_tree "2" "Jacobi") ch_device ch_A ch_R no_memory no_memory
    (ch_input "2") ch_restricts eq_refl (or_intror (or_introl eq_refl)) eq_refl ltac:(vm_compute; lia) ch_spd ch_rank ch_jacobi) as [H [d1 [Mv [E [M1 [M2 [_ [_ F]]]]]]]].
  destruct (F ch_cond [(ch_x, ch_b1); (ch_x, ch_b2)] ch_cond_ok) as [d2 [E2 _]].
  { intros x b [Q|[Q|[]]]; injection Q as <- <-; auto. }
  exists H, d1, Mv. split; auto. split; auto. split; auto. exists d2. exact E2.
Qed.
(** Computed: the two-grid method; the direct solver. *)
Example C77_computed :
  nth 0 (ch_values (ch_run true "2" [(ch_x, ch_b1); (ch_x, ch_b2)])) [] = [dq 5 8; dq 1 2; dq 1 8] /\
  nth 1 (ch_values (ch_run true "2" [(ch_x, ch_b1); (ch_x, ch_b2)])) [] = [dq 3 4; dq 1 1; dq 3 4] /\
  nth 0 (ch_values (ch_run true "1" [(ch_x, ch_b2); (ch_x, ch_b1)])) [] = [dq 1 1; dq 1 1; dq 1 1].
Proof. split; [|split]; apply veqb_eq; vm_compute; reflexivity. Qed.

(** C76: two levels on two ranks, with a coarse solver that multiplies with the inverse of R A R^T. *)
Definition ch_coarse_ranks : list (list nat) := [[0]; [1]].
Lemma ch_coarse_ranks_ok : distribution 2 ch_coarse_ranks.
Proof.
  split; [split|].
  - repeat constructor; simpl; lia.
  - intros i. simpl. lia.
  - intros p [<-|[<-|[]]]; repeat constructor.
Qed.
Definition ch_Ac : mat QcOF := mmul ch_R (mmul ch_A (mtrans ch_R)).
Definition ch_inverse : mat QcOF := of_rows 2 2 [[dq 3 4; dq 1 4]; [dq 1 4; dq 3 4]].
Definition ch_S : mat QcOF := inverse_diagonal 3 ch_A.
Definition ch_solver : dev_solver QcOF := fun b x d => Ok (mkDvec (v_owned x) (scatter (v_owned x) (mulvec ch_inverse (concat (v_vals b)))), d).
Definition ch_shared (range domain : list (list nat)) (B : mat QcOF) : shared_matrix QcOF := mkShared (device_of range domain B) true true.
Definition ch_state : cuda_state QcOF :=
  new_operator (new_operator (new_operator (mkCuda [] []) (ch_shared ch_two_ranks ch_two_ranks ch_A)) (ch_shared ch_coarse_ranks ch_two_ranks ch_R))
    (ch_shared ch_coarse_ranks ch_coarse_ranks ch_Ac).
Definition ch_meanings : list (meaning QcOF) :=
  [mkMeaning ch_A ch_two_ranks ch_two_ranks false true; mkMeaning ch_R ch_coarse_ranks ch_two_ranks false true; mkMeaning ch_Ac ch_coarse_ranks ch_coarse_ranks false true].
Lemma ch_state_means : state_means ch_state ch_meanings.
Proof.
  pose proof ch_two_ranks_ok as H3. pose proof ch_coarse_ranks_ok as H2. unfold ch_state. change ch_meanings with ((([] ++ [mkMeaning ch_A ch_two_ranks ch_two_ranks false true]) ++
    [mkMeaning ch_R ch_coarse_ranks ch_two_ranks false true]) ++ [mkMeaning ch_Ac ch_coarse_ranks ch_coarse_ranks false true])%list.
  repeat apply new_means; auto; try (cbn [ch_shared m_parts]; apply device_of_ok; auto; discriminate). constructor.
Qed.
Definition ch_top : dev_level QcOF := mkDevLevel (Some 0) None (Some (mkDevSmoother 0 (ch_shared ch_two_ranks ch_two_ranks ch_S))) None.
Definition ch_last : dev_level QcOF := mkDevLevel (Some 2) (Some 1) None (Some ch_solver).
Definition ch_C (b x : list QcOF) : list QcOF := mulvec ch_inverse b.
Definition ch_fine : list (fine QcOF) := [mkFine 3 (mulvec ch_A) (correction_step (mulvec ch_A) (mulvec ch_S)) (mulvec ch_R) (mulTvec ch_R)].
Lemma ch_solver_acts : solver_acts ch_state ch_solver ch_coarse_ranks 2 ch_C.
Proof.
  intros [s hs k] b x _ Ha _ Lb Lx. exists hs. split.
  - unfold ch_solver, spread. cbn [v_owned v_vals d_ops d_products]. destruct b as [|b0 [|b1 [|]]]; try discriminate. reflexivity.
  - split; [|unfold ch_C; rewrite mulvec_length; reflexivity]. cbn [d_heaps]. apply kept_refl. auto.
Qed.
Lemma ch_describes : dev_describes ch_state ch_meanings ch_top [ch_last] ch_two_ranks ch_fine 2 ch_C.
Proof.
  eapply (@dev_fine QcOF ch_state ch_meanings) with (k := 0) (r := 1) (A := ch_A) (S := ch_S) (R := ch_R); try reflexivity.
  - cbn [sm_matrix ch_shared m_parts]. apply dm_holds with (domain := ch_two_ranks). apply device_of_ok; auto; [discriminate| |]; apply ch_two_ranks_ok.
  - intros q [<-|[<-|[]]]; [exists 0, 0|exists 2, 1]; (split; [simpl; auto|]; split; [simpl; lia|]); intros Q; apply (f_equal (fun x : QcOF => Qc_eq_bool x (dq 0 1))) in Q; vm_compute in Q; discriminate.
  - eapply (@dev_coarsest QcOF) with (k := 2); try reflexivity. apply ch_solver_acts.
Qed.
Lemma ch_C_linear : jointly_linear 2 ch_C.
Proof.
  intros s t b c x y Hb Hc Hx Hy. unfold ch_C. pose proof (@mulvec_linear QcOF ch_inverse) as LI. cbn [ch_inverse of_rows nr nc] in LI.
  change (@of_rows QcOF 2 2 _) with ch_inverse in LI.
  rewrite (lin_add LI) by (rewrite vscale_length; auto). rewrite !(lin_scale LI) by auto. reflexivity.
Qed.
Example C76_example : forall debug prec n, exists d',
  dev_vmults debug (dense_libraries QcOF) ch_cond (mkDevHierarchy [ch_top; ch_last] prec n) (vmult_requests ch_two_ranks [(ch_x, ch_b1); (ch_x, ch_b2); (ch_x, ch_b1)])
    (mkDevice ch_state [no_memory; no_memory] 0) =
  Ok (map (fun b => spread ch_two_ranks (textbook_vcycle n ch_fine 2 ch_C b (if prec then vzero 3 else ch_x))) [ch_b1; ch_b2; ch_b1], d') /\
  memory_kept [no_memory; no_memory] (d_heaps d').
Proof.
  intros debug prec n.
  destruct (@C76_cycle QcOF debug (dense_libraries QcOF) ch_cond ch_state ch_meanings prec n ch_top [ch_last] ch_two_ranks ch_fine 2 ch_C (mkDevice ch_state [no_memory; no_memory] 0)
    [(ch_x, ch_b1); (ch_x, ch_b2); (ch_x, ch_b1)] (dense_libraries_ok QcOF) ch_cond_ok ch_state_means ch_describes ch_C_linear eq_refl) as [d' [E [M _]]]; auto.
  - repeat constructor; apply no_memory_ok.
  - intros x b [Q|[Q|[Q|[]]]]; injection Q as <- <-; auto.
  - exists d'. split; auto.
Qed.
(** The same numbers as on one rank. *)
Example C76_computed : let r := dev_vmults true (dense_libraries QcOF) ch_cond (mkDevHierarchy [ch_top; ch_last] true 1) (vmult_requests ch_two_ranks [(ch_x, ch_b1); (ch_x, ch_b2)])
    (mkDevice ch_state [no_memory; no_memory] 0) in
  nth 0 (ch_values r) [] = [dq 5 8; dq 1 2; dq 1 8] /\ nth 1 (ch_values r) [] = [dq 3 4; dq 1 1; dq 3 4].
Proof. split; apply veqb_eq; vm_compute; reflexivity. Qed.

(** C79: three dofs and two agglomerates on one process (the matrices of C74_restrictor_example). *)
Definition ch_sum : mat QcOF := of_rows 3 3 [[dq 17 1; dq (-12) 1; dq 0 1]; [dq (-12) 1; dq 27 1; dq (-12) 1]; [dq 0 1; dq (-12) 1; dq 10 1]].
Definition ch_aggs : list (agglomerate QcOF * mat QcOF) := [(ad_agg 1 [0; 1], ad_mat); (ad_agg 1 [1; 2], ad_mat)].
Lemma ch_problem_ok : problem_ok ad_library 1 3 [seq 0 3] (fun _ => ad_read) ad_read ad_diag [(ch_aggs, no_memory)].
Proof.
  assert (X : forall r a A, In r [(ch_aggs, no_memory)] -> In (a, A) (fst r) -> A = ad_mat /\ (a = ad_agg 1 [0; 1] \/ a = ad_agg 1 [1; 2])).
  { intros r a A [<-|[]] [E|[E|[]]]; injection E as <- <-; auto. }
  constructor.
  - discriminate.
  - apply first_range.
  - reflexivity.
  - intros r [<-|[]]. split; [discriminate|apply no_memory_ok].
  - intros r a A Hr Ha. destruct (X r a A Hr Ha) as [-> [-> | ->]]; (split; [apply ad_agg_ok; auto|apply ad_succeeds]).
  - intros r a A i Hr Ha Hi. destruct (X r a A Hr Ha) as [-> _]. change (nr ad_mat) with 2 in Hi.
    destruct i as [|[|i]]; [| |exfalso; lia]; intros Q; apply (f_equal (fun x : QcOF => Qc_eq_bool x (dq 0 1))) in Q; vm_compute in Q; discriminate.
  - intros r a A Hr Ha. destruct (X r a A Hr Ha) as [-> [-> | ->]]; (split; [repeat constructor; simpl; lia|]); intros g [<-|[<-|[]]]; lia.
  - intros. split; reflexivity.
  - intros g Hg. split.
    + destruct g as [|[|[|g]]]; [| | |exfalso; lia]; intros Q; apply (f_equal (fun x : QcOF => Qc_eq_bool x (dq 0 1))) in Q; vm_compute in Q; discriminate.
    + destruct g as [|[|[|g]]]; [| | |exfalso; lia]; apply Qc_is_canon; vm_compute; reflexivity.
Qed.
Lemma ch_sum_input : device_input (dense_libraries QcOF) (exact_library QcOF) ch_z (mkShared [whole_part ch_sum] true true) (ch_tree "2" "Jacobi") ch_device ch_sum no_memory.
Proof.
  constructor.
  - apply dense_libraries_ok.
  - apply dense_gemm_once.
  - apply exact_library_ok.
  - exists []. constructor.
  - split; [reflexivity|apply no_memory_ok].
  - exists (whole_part ch_sum). split; [reflexivity|]. split; [apply whole_device|]. split; [apply whole_ready; reflexivity|apply ch_z_ok].
  - split; reflexivity.
  - split; [reflexivity|simpl; lia].
  - reflexivity.
  - reflexivity.
Qed.
(** No eigenvector of the agglomerates has a zero component, so the restriction has full rank, and the Galerkin matrix is regular. *)
Lemma ch_nonzero : forall a c, agglomerate_result 1 a ad_mat c -> exists x y, ag_evecs c = [[x; y]] /\ x <> f0 /\ y <> f0.
Proof.
  intros a c [L [S _]]. destruct (ag_evecs c) as [|e [|]]; try discriminate L. destruct (se_orthonormal S) as [Z N]. specialize (N 0 0 (Nat.lt_0_succ 0) (Nat.lt_0_succ 0)).
  pose proof (se_pairs S (Nat.lt_0_succ 0)) as P. cbn [nth Nat.eqb] in N, P. assert (Z1 : length e = 2) by (inversion Z; auto).
  destruct e as [|x [|y [|]]]; try discriminate Z1. exists x, y. split; auto. unfold eigenpair in P. set (l := nth 0 (ag_evals c) f0) in P.
  change (mulvec ad_mat [x; y]) with [(0 + dq 17 1 * x + dq (-12) 1 * y)%K; (0 + dq (-12) 1 * x + dq 10 1 * y)%K] in P.
  change (vscale l [x; y]) with [(l * x)%K; (l * y)%K] in P.
  pose proof (f_equal (fun v => nth 0 v f0) P) as P1. pose proof (f_equal (fun v => nth 1 v f0) P) as P2. cbn [nth] in P1, P2. change (dot [x; y] [x; y]) with (x * x + (y * y + 0))%K in N.
  apply (@eigen_nonzero QcOF (dq 17 1) (dq (-12) 1) (dq 10 1) l x y); [|exact P1|exact P2|exact N].
  intros Q; apply (f_equal (fun x : QcOF => Qc_eq_bool x (dq 0 1))) in Q; vm_compute in Q; discriminate.
Qed.
Lemma ch_spectral_rank : forall R rs h', rank_result 1 (ch_aggs, no_memory) (rs, h') -> restriction_of 3 ad_diag rs R -> full_row_rank R.
Proof.
  intros R rs h' [F _] [H2 [H3 HE]]. cbn [fst ch_aggs] in F. inversion F as [|? c0 ? rs1 A0 F1]; subst. inversion F1 as [|? c1 ? rs2 A1 F2]; subst. inversion F2; subst. cbn [fst snd] in *.
  destruct (ch_nonzero A0) as [a [b [E0 [Ha Hb]]]]. destruct (ch_nonzero A1) as [a' [b' [E1 [Ha' Hb']]]]. destruct A0 as [_ [_ [D0 M0]]], A1 as [_ [_ [D1 M1]]]. cbn [snd ad_agg] in *.
  assert (ER : rows_of [c0; c1] = [(c0, [a; b]); (c1, [a'; b'])]) by (unfold rows_of; cbn [flat_map]; rewrite E0, E1; reflexivity). rewrite ER in *.
  pose proof (fun g => HE 0 c0 [a; b] g eq_refl) as Q0. pose proof (fun g => HE 1 c1 [a'; b'] g eq_refl) as Q1. rewrite M0, D0 in Q0. rewrite M1, D1 in Q1.
  assert (U : forall u w : QcOF, u <> f0 -> w <> f0 -> (u / u * w)%K <> f0).
  { intros u w Hu Hw Q. apply Hw. rewrite <- Q. apply div_mul_self. auto. }
  apply corner_rank; auto.
  - rewrite (proj1 (Q0 0 ltac:(lia)) 0) by (simpl; auto). apply U; auto. intros Q; apply (f_equal (fun x : QcOF => Qc_eq_bool x (dq 0 1))) in Q; vm_compute in Q; discriminate.
  - apply (proj2 (Q1 0 ltac:(lia))). simpl. lia.
  - apply (proj2 (Q0 2 ltac:(lia))). simpl. lia.
  - rewrite (proj1 (Q1 2 ltac:(lia)) 1) by (simpl; auto). apply U; auto. intros Q; apply (f_equal (fun x : QcOF => Qc_eq_bool x (dq 0 1))) in Q; vm_compute in Q; discriminate.
Qed.
Lemma ch_sum_spd : S_DevSolve.spd ch_sum.
Proof. apply posdef_spd; [apply small_symmetric; vm_compute; reflexivity|vm_compute; reflexivity]. Qed.
Example C79_example : forall debug cond, any_conditions cond -> exists R H d1 ys d2,
  dev_construct debug (dense_libraries QcOF) (exact_library QcOF) ch_z (build_restrictor debug true (dq 1 1000) ad_library (@dense_compress QcOF) 1 [seq 0 3]
      (fun _ => ad_read) ad_read ad_diag [map fst ch_aggs]) (mkShared [whole_part ch_sum] true true) (ch_tree "2" "Jacobi") ch_device = Ok (H, d1) /\
  dev_vmults debug (dense_libraries QcOF) cond H (vmult_requests [seq 0 3] [(ch_x, ch_b1); (ch_x, ch_b2)]) d1 = Ok (map (spread [seq 0 3]) ys, d2) /\
  Forall2 (fun q y => two_grid ch_sum R 1 (snd q) (vzero 3) y) [(ch_x, ch_b1); (ch_x, ch_b2)] ys.
Proof.
  intros debug cond HC. destruct (@C79_spectral_two_grid QcOF debug true (dq 1 1000) ad_library (@dense_compress QcOF) 1 (fun _ => ad_read) ad_read ad_diag (dense_libraries QcOF)
    (exact_library QcOF) ch_z (mkShared [whole_part ch_sum] true true) (ch_tree "2" "Jacobi") ch_device ch_sum ch_aggs no_memory ch_sum_input (eig_of_ok _)
    (@dense_compress_ok QcOF) ad_tol ch_problem_ok eq_refl) as [R [rs [h' [H1 [H2 X]]]]].
  destruct X as [H [d1 [E X]]].
  - apply spd_solvable; [vm_compute; auto|]. apply galerkin_spd; [apply ch_sum_spd|apply H2|apply (ch_spectral_rank H1 H2)].
  - destruct (X cond [(ch_x, ch_b1); (ch_x, ch_b2)] HC) as [ys [d2 [E2 [F _]]]].
    + intros x b [Q|[Q|[]]]; injection Q as <- <-; auto.
    + exists R, H, d1, ys, d2. auto.
Qed.
Definition ch_spectral (debug : bool) (qs : list (list QcOF * list QcOF)) : outcome (list (dvec QcOF) * device QcOF) :=
  let! (H, d1) := dev_construct debug (dense_libraries QcOF) (exact_library QcOF) ch_z (build_restrictor debug true (dq 1 1000) ad_library (@dense_compress QcOF) 1 [seq 0 3]
      (fun _ => ad_read) ad_read ad_diag [map fst ch_aggs]) (mkShared [whole_part ch_sum] true true) (ch_tree "2" "Jacobi") ch_device in
  dev_vmults debug (dense_libraries QcOF) ch_cond H (vmult_requests [[0; 1; 2]] qs) d1.
Example C79_computed : nth 0 (ch_values (ch_spectral true [(ch_x, ch_b1); (ch_x, ch_b2)])) [] = [dq 15806195 90830099; dq 2839876 16028841; dq 5231624 26714735].
Proof. apply veqb_eq; vm_compute; reflexivity. Qed.
