(** C74, C75: eigenvectors and restriction computed on the device. *)
From Coq Require Import List Arith Lia Bool Sorted Permutation QArith Qcanon.
From Verif Require Import Base OField Mat LinAlg M_SpProd S_SpProd M_Csr S_Csr C_Csr M_Dev M_CudaOp S_CudaOp S_Lanczos S_Eig M_DevSolve S_DevSolve P_DevSolve
  M_Restr S_Restr M_AmgeDev S_AmgeDev P_AmgeDev P_AmgeDev2 P_AmgeDev3 P_AmgeDev4 E_Lanczos E_CudaOp C_DevSolve.
Import ListNotations.
Set Implicit Arguments.
Open Scope nat_scope.

(** C74: the loop over the agglomerates of a rank, in any order of the threads of the kernels and with any contents of the new buffers: for every
    agglomerate the wanted number of orthonormal eigenvectors for the smallest eigenvalues, its diagonal and its dofs, in the order of the agglomerates. *)
Theorem C74_agglomerates : forall (K : ofield) debug (Z : eig_library K) n_eig xs h,
  eig_library_ok Z -> (forall a A, In (a, A) xs -> agglomerate_ok n_eig a A /\ eig_succeeds Z A) -> allocator_ok h ->
  exists cs h', setup_loop debug Z n_eig (map fst xs) (@data_empty K) h = Ok (data_without_values cs, h') /\
    Forall2 (fun p c => agglomerate_result n_eig (fst p) (snd p) c) xs cs.
Proof.
  intros K debug Z k xs h HZ Hx Ha. destruct (@loop_run K debug Z k xs (@data_empty K) h HZ Hx Ha) as [rs [h' [E [F _]]]]. exists rs, h'. split; auto.
Qed.
Print Assumptions C74_agglomerates.

(** C74: the restrictor of all ranks: the matrix on the device has one row per eigenvector, rank after rank and agglomerate after agglomerate, its entries
    are the components weighted with local diagonal / global diagonal; rows are distributed in consecutive blocks, columns like the dofs. *)
Theorem C74_restrictor : forall (K : ofield) debug acc (tol : K) Z compress n_eig n owned gds gd D problem,
  eig_library_ok Z -> compress_ok compress -> (0 < tol)%K -> problem_ok Z n_eig n owned gds gd D problem ->
  exists parts outs R,
    setup_restrictor debug acc tol Z compress n_eig owned gds gd D (map (fun r => (map fst (fst r), snd r)) problem) =
      Ok (mkShared parts true true, map snd outs) /\
    Forall2 (rank_result n_eig) problem outs /\
    device_matrix parts (blocks 0 (map (fun r => n_eig * length (fst r)) problem)) owned R /\
    restriction_of n D (concat (map fst outs)) R.
Proof. exact restrictor_run. Qed.
Print Assumptions C74_restrictor.

Lemma setup_loop_app : forall (K : ofield) debug (Z : eig_library K) k xs ys d h,
  setup_loop debug Z k (xs ++ ys) d h = bind (setup_loop debug Z k xs d h) (fun r => setup_loop debug Z k ys (fst r) (snd r)).
Proof.
  intros K debug Z k xs. induction xs as [|[[[g c] w] dofs] xs IH]; intros ys d h; auto. cbn [app setup_loop].
  destruct (agglomerate_step debug Z g k c w dofs d h) as [[d1 h1]| | | |]; cbn [bind]; auto.
Qed.

(** C74: a debug build stops at the first agglomerate for which the library reports a failure. *)
Theorem C74_failure_noticed : forall (K : ofield) (Z : eig_library K) n_eig xs a A rest d h,
  eig_library_ok Z -> (forall a A, In (a, A) xs -> agglomerate_ok n_eig a A /\ eig_succeeds Z A) -> agglomerate_ok n_eig a A -> eig_fails Z A ->
  allocator_ok h ->
  setup_loop true Z n_eig (map fst xs ++ a :: rest) d h = Abort.
Proof.
  intros K Z k xs a A rest d h HZ Hx Ho Hf Ha. rewrite setup_loop_app.
  destruct (@loop_run K true Z k xs d h HZ Hx Ha) as [rs [h' [-> [_ [O _]]]]]. cbn [bind fst snd].
  destruct a as [[[g c] w] dofs]. cbn [setup_loop]. destruct (ao_matrix Ho) as [range [domain HA]]. pose proof (ao_size Ho) as Hs. cbn [fst snd] in *.
  destruct (@local_run K true Z g k c w range domain A h' HZ HA (ao_symmetric Ho) (ao_once Ho) ltac:(lia) ltac:(lia) (ao_env Ho) O) as [_ [_ Q]].
  unfold agglomerate_step. rewrite (Q Hf eq_refl). auto.
Qed.
Print Assumptions C74_failure_noticed.

(** C74 needs an agglomerate of at least as many dofs as eigenvectors are asked for: otherwise the last kernels read beyond the arrays of the library, in
    both builds; no check. *)
Theorem C74_too_many_eigenvectors_refuted : forall (K : ofield) debug (Z : eig_library K) n_eig g c w dofs range domain A rest d h,
  eig_library_ok Z -> device_matrix [c] [range] [domain] A -> symmetric_matrix A -> columns_once c -> eig_succeeds Z A ->
  0 < nr A < n_eig -> agg_env_ok (nr A) n_eig g -> allocator_ok h ->
  setup_loop debug Z n_eig ((g, c, w, dofs) :: rest) d h = UB.
Proof.
  intros K debug Z k g c w dofs range domain A rest d h HZ HA Hsym Ho Hs Hk Hg Ha. cbn [setup_loop].
  destruct (@local_run K debug Z g k c w range domain A h HZ HA Hsym Ho ltac:(lia) ltac:(lia) Hg Ha) as [_ [Q _]].
  unfold agglomerate_step. rewrite (Q Hs ltac:(lia)). auto.
Qed.
Print Assumptions C74_too_many_eigenvectors_refuted.

(** C75: what the loop over the agglomerates leaves in the device memory: everything that was there, a descriptor and the array of the eigenvalues for
    every agglomerate, and nothing else. *)
Theorem C75_memory_left : forall (K : ofield) debug (Z : eig_library K) n_eig xs d h,
  eig_library_ok Z -> (forall a A, In (a, A) xs -> agglomerate_ok n_eig a A /\ eig_succeeds Z A) -> allocator_ok h ->
  exists d' h' values, setup_loop debug Z n_eig (map fst xs) d h = Ok (d', h') /\ length values = length xs /\
    (forall v, In v values -> length v = n_eig) /\ memory_plus h h' (flat_map (fun v => [@CDescr K; CVals v]) values).
Proof.
  intros K debug Z k xs d h HZ Hx Ha. destruct (@loop_run K debug Z k xs d h HZ Hx Ha) as [rs [h' [E [F [_ M]]]]].
  eexists _, h', (map (@ag_evals K) rs). split; [exact E|]. split; [rewrite map_length; symmetry; eapply F2_length; eauto|]. split.
  - intros v Hv. apply in_map_iff in Hv. destruct Hv as [c [<- Hc]]. destruct (@F2_in_r _ _ _ _ _ _ F Hc) as [p [_ [Q1 [Q2 _]]]]. rewrite (se_length Q2). auto.
  - rewrite flat_map_concat_map, map_map, <- flat_map_concat_map. exact M.
Qed.
Print Assumptions C75_memory_left.

(** C75: so the memory is not as before as soon as there is an agglomerate. *)
Theorem C75_leak_refuted : forall (K : ofield) debug (Z : eig_library K) n_eig xs d h,
  eig_library_ok Z -> (forall a A, In (a, A) xs -> agglomerate_ok n_eig a A /\ eig_succeeds Z A) -> allocator_ok h -> xs <> [] ->
  exists d' h', setup_loop debug Z n_eig (map fst xs) d h = Ok (d', h') /\ ~ same_memory h h'.
Proof.
  intros K debug Z k xs d h HZ Hx Ha Hn. destruct (@C75_memory_left K debug Z k xs d h HZ Hx Ha) as [d' [h' [vs [E [L [_ [ids [L2 [_ [Fr [W _]]]]]]]]]]].
  exists d', h'. split; auto. intros S. destruct vs as [|v vs]; [destruct xs; [congruence|discriminate]|]. cbn [flat_map app length] in L2.
  destruct ids as [|id ids]; [discriminate|]. specialize (W 0 ltac:(simpl; lia)). cbn in W. rewrite S, Fr in W by (simpl; auto). discriminate.
Qed.
Print Assumptions C75_leak_refuted.

(** ** Examples *)
(** A library that knows the eigenvectors of a few matrices; for others it reports a failure and leaves A alone. *)
Definition eig_of (K : ofield) (table : list (list K * (list K * list K))) : eig_library K := mkEigLib (fun n _ _ => n)
  (fun n a b => match find (fun t => veqb (fst t) a) table with
    | Some (_, (w, v)) => if check_eigen (columns_matrix n a) w v then (v, b, w, 0) else (a, b, repeat f0 n, 1)
    | None => (a, b, repeat f0 n, 1)
    end).
Lemma eig_of_ok : forall K table, eig_library_ok (@eig_of K table).
Proof.
  intros K table n a b La Lb _ _. cbn [eig_of z_sygvd]. destruct (find _ table) as [[a' [w v]]|].
  - destruct (check_eigen _ w v) eqn:E.
    + apply check_eigen_ok in E. split; auto. split; [apply E|]. split; [apply E|auto].
    + rewrite repeat_length. split; auto. split; auto. split; auto. discriminate.
  - rewrite repeat_length. split; auto. split; auto. split; auto. discriminate.
Qed.
(** Compression through the full matrix. *)
Definition dense_compress (K : ofield) (counts : list nat) (owned : list (list nat)) (parts : list (spm K)) : list (trilinos K) :=
  from_dense (blocks 0 counts) owned (stacked parts (list_sum counts) (length (concat owned))).
Lemma blocks_all : forall counts off, concat (blocks off counts) = seq off (list_sum counts).
Proof. induction counts as [|c t IH]; intros off; auto. cbn [blocks concat]. rewrite IH. change (list_sum (c :: t)) with (c + list_sum t). rewrite seq_app. auto. Qed.
Lemma blocks_distribution : forall counts, distribution (list_sum counts) (blocks 0 counts).
Proof.
  intros counts. split; [split|].
  - rewrite blocks_all. apply seq_NoDup.
  - intros i. rewrite blocks_all, in_seq. lia.
  - assert (Q : forall counts off p, In p (blocks off counts) -> exists a b, p = seq a b).
    { clear. induction counts as [|c t IH]; intros off p Hp; simpl in Hp; [tauto|]. destruct Hp as [<-|Hp]; eauto. }
    intros p Hp. destruct (Q _ _ _ Hp) as [a [b ->]]. apply P_Csr3.seq_sorted.
Qed.
Lemma blocks_length : forall counts off, length (blocks off counts) = length counts.
Proof. induction counts; intros; simpl; auto. Qed.
Lemma dense_compress_ok : forall K, compress_ok (@dense_compress K).
Proof.
  intros K counts owned n parts Lp Np Ho Lo _. assert (E : length (concat owned) = n).
  { destruct Ho as [[N1 N2] _]. rewrite <- (seq_length n 0). apply Permutation_length. apply NoDup_Permutation; auto; [apply seq_NoDup|].
    intros i. rewrite N2, in_seq. lia. }
  unfold dense_compress. rewrite E. apply from_dense_ok; auto.
  - rewrite blocks_length. auto.
  - destruct counts; [destruct parts; [congruence|discriminate]|discriminate].
  - apply blocks_distribution.
Qed.

(** The matrix with eigenvectors (3,4)/5 and (-4,3)/5 for 1 and 26. *)
Definition ad_rows : list (list (nat * QcOF)) := [[(0, dq 17 1); (1, dq (-12) 1)]; [(0, dq (-12) 1); (1, dq 10 1)]].
Definition ad_csr : csr QcOF := mkCsr (map snd (concat ad_rows)) (map fst (concat ad_rows)) [0; 2; 4] 4 2 2 [0; 1] [0; 1].
Definition ad_mat : mat QcOF := of_rows 2 2 [[dq 17 1; dq (-12) 1]; [dq (-12) 1; dq 10 1]].
Lemma ad_holds : csr_holds ad_csr ad_rows.
Proof. split; auto. intros r Hr. cbn [length ad_rows] in Hr. destruct r as [|[|[|r]]]; auto. lia. Qed.
Lemma ad_device : device_matrix [ad_csr] [[0; 1]] [[0; 1]] ad_mat.
Proof.
  split; auto.
  - discriminate.
  - split; auto. split; [simpl; intros i H; lia|]. intros [|[|r]] c Hc; try discriminate. injection Hc as <-. exists ad_rows. split; [apply ad_holds|].
    intros i Hi. cbn [length ad_rows] in Hi. destruct i as [|[|i]]; [| |exfalso; lia]; (split; [intros e He; destruct He as [<-|[<-|[]]]; simpl; lia|]);
      (intros g Hg; cbn [ad_mat of_rows nc] in Hg; destruct g as [|[|g]]; [| |exfalso; lia]; apply Qc_is_canon; vm_compute; reflexivity).
  - intros c [<-|[]]. auto.
  - apply (seq_distribution 2).
  - apply (seq_distribution 2).
Qed.
Lemma ad_once : columns_once ad_csr.
Proof.
  intros rows H row Hr. rewrite (holds_unique H ad_holds) in Hr. destruct Hr as [<-|[<-|[]]]; (constructor; [simpl; lia|constructor; [auto|constructor]]).
Qed.
Lemma ad_symmetric : symmetric_matrix ad_mat.
Proof.
  split; [reflexivity|]. intros i j Hi Hj. cbn [ad_mat of_rows nr] in *. destruct i as [|[|i]]; [| |exfalso; lia];
    (destruct j as [|[|j]]; [| |exfalso; lia]); apply Qc_is_canon; vm_compute; reflexivity.
Qed.
Definition ad_columns : list QcOF := [dq 17 1; dq (-12) 1; dq (-12) 1; dq 10 1].
Definition ad_library : eig_library QcOF := @eig_of QcOF [(ad_columns, ([dq 1 1; dq 26 1], [dq 3 5; dq 4 5; dq (-4) 5; dq 3 5]))].
Lemma ad_stored : forall a, length a = 4 -> meq (columns_matrix 2 a) ad_mat -> a = ad_columns.
Proof.
  intros a La [_ [_ H]]. destruct a as [|a0 [|a1 [|a2 [|a3 [|]]]]]; try discriminate La. cbn [columns_matrix nr nc ent] in H.
  pose proof (H 0 0 ltac:(lia) ltac:(lia)) as H0. pose proof (H 1 0 ltac:(lia) ltac:(lia)) as H1. pose proof (H 0 1 ltac:(lia) ltac:(lia)) as H2.
  pose proof (H 1 1 ltac:(lia) ltac:(lia)) as H3. cbn in H0, H1, H2, H3. subst. reflexivity.
Qed.
Lemma ad_succeeds : eig_succeeds ad_library ad_mat.
Proof. intros a b La Ha _ _. change (nr ad_mat) with 2 in *. rewrite (ad_stored La Ha). vm_compute. reflexivity. Qed.
Lemma ad_fails : eig_fails (@eig_of QcOF []) ad_mat.
Proof. intros a b _ _ _ _. simpl. discriminate. Qed.

(** Reversed thread orders, buffers full of sevens. *)
Definition ad_env (n k : nat) : agg_env QcOF := mkAggEnv (order (n * n)) (order (n * n)) (order k) (order (k * n))
  (repeat (dq 7 1) n) (repeat (dq 7 1) (n * n)) (repeat (dq 7 1) n) (repeat (dq 7 1) k) (repeat (dq 7 1) (k * n)).
Lemma ad_env_ok : forall n k, agg_env_ok n k (ad_env n k).
Proof. intros n k. constructor; cbn [ad_env g_order_diag g_order_mass g_order_values g_order_vectors g_diag g_mass g_values g_smallest g_vectors]; try apply order_ok; apply repeat_length. Qed.
Definition ad_agg (k : nat) (dofs : list nat) : agglomerate QcOF := (ad_env 2 k, ad_csr, true, dofs).
Lemma ad_agg_ok : forall k dofs, length dofs = 2 -> 0 < k <= 2 -> agglomerate_ok k (ad_agg k dofs) ad_mat.
Proof.
  intros k dofs Hd Hk. constructor; cbn [ad_agg fst snd]; auto.
  - exists [0; 1], [0; 1]. apply ad_device.
  - apply ad_once.
  - apply ad_symmetric.
  - apply ad_env_ok.
Qed.
(** Three dofs, two ranks with one agglomerate each, one eigenvector per agglomerate; dof 1 is shared. *)
Definition ad_problem : list (list (agglomerate QcOF * mat QcOF) * heap QcOF) :=
  [([(ad_agg 1 [0; 1], ad_mat)], no_memory); ([(ad_agg 1 [1; 2], ad_mat)], no_memory)].
Definition ad_owned : list (list nat) := [[0; 1]; [2]].
Definition ad_diag (g : nat) : QcOF := match g with 0 => dq 17 1 | 1 => dq 27 1 | _ => dq 10 1 end.
Definition ad_read (g : nat) : option QcOF := Some (ad_diag g).
Lemma ad_problem_ok : problem_ok ad_library 1 3 ad_owned (fun _ => ad_read) ad_read ad_diag ad_problem.
Proof.
  assert (X : forall r a A, In r ad_problem -> In (a, A) (fst r) -> A = ad_mat /\ (a = ad_agg 1 [0; 1] \/ a = ad_agg 1 [1; 2])).
  { intros r a A [<-|[<-|[]]] [E|[]]; injection E as <- <-; auto. }
  constructor.
  - discriminate.
  - split; [split|].
    + repeat constructor; simpl; lia.
    + intros i. simpl. lia.
    + intros p [<-|[<-|[]]]; repeat constructor.
  - reflexivity.
  - intros r [<-|[<-|[]]]; (split; [discriminate|apply no_memory_ok]).
  - intros r a A Hr Ha. destruct (X r a A Hr Ha) as [-> [-> | ->]]; (split; [apply ad_agg_ok; auto|apply ad_succeeds]).
  - intros r a A i Hr Ha Hi. destruct (X r a A Hr Ha) as [-> _]. change (nr ad_mat) with 2 in Hi.
    destruct i as [|[|i]]; [| |exfalso; lia]; intros Q; apply (f_equal (fun x : QcOF => Qc_eq_bool x (dq 0 1))) in Q; vm_compute in Q; discriminate.
  - intros r a A Hr Ha. destruct (X r a A Hr Ha) as [-> [-> | ->]]; (split; [repeat constructor; simpl; lia|]); intros g [<-|[<-|[]]]; lia.
  - intros. split; reflexivity.
  - intros g Hg. split.
    + destruct g as [|[|[|g]]]; [| | |exfalso; lia]; intros Q; apply (f_equal (fun x : QcOF => Qc_eq_bool x (dq 0 1))) in Q; vm_compute in Q; discriminate.
    + destruct g as [|[|[|g]]]; [| | |exfalso; lia]; apply Qc_is_canon; vm_compute; reflexivity.
Qed.
Lemma ad_tol : (0 < dq 1 1000)%K.
Proof. apply fltb_lt. vm_compute. reflexivity. Qed.
(** The hypotheses of C74_restrictor hold, in both builds. *)
Example C74_restrictor_example : forall debug, exists parts outs R,
  setup_restrictor debug true (dq 1 1000) ad_library (@dense_compress QcOF) 1 ad_owned (fun _ => ad_read) ad_read ad_diag
    (map (fun r => (map fst (fst r), snd r)) ad_problem) = Ok (mkShared parts true true, map snd outs) /\
  Forall2 (rank_result 1) ad_problem outs /\ device_matrix parts [[0]; [1]] ad_owned R /\ restriction_of 3 ad_diag (concat (map fst outs)) R.
Proof.
  intros debug.
  exact (@C74_restrictor QcOF debug true (dq 1 1000) ad_library (@dense_compress QcOF) 1 3 ad_owned (fun _ => ad_read) ad_read ad_diag ad_problem
    (eig_of_ok _) (@dense_compress_ok QcOF) ad_tol ad_problem_ok).
Qed.
(** Computed: the stored values and columns of the two ranks; the weights of the eigenvector (3/5, 4/5) are 1 and 10/27, resp. 17/27 and 1. *)
Definition ad_values (r : outcome (shared_matrix QcOF * list (heap QcOF))) : list (list QcOF) :=
  match r with Ok (s, _) => map (@c_val QcOF) (m_parts s) | _ => [] end.
Definition ad_columns_of (r : outcome (shared_matrix QcOF * list (heap QcOF))) : list (list nat) :=
  match r with Ok (s, _) => map (@c_col QcOF) (m_parts s) | _ => [] end.
Definition ad_run (debug : bool) := setup_restrictor debug true (dq 1 1000) ad_library (@dense_compress QcOF) 1 ad_owned (fun _ => ad_read) ad_read ad_diag
  (map (fun r => (map fst (fst r), snd r)) ad_problem).
Example C74_restrictor_computed : ad_columns_of (ad_run true) = [[0; 1; 2]; [0; 1; 2]] /\
  nth 0 (ad_values (ad_run true)) [] = [dq 3 5; dq 8 27; dq 0 1] /\ nth 1 (ad_values (ad_run true)) [] = [dq 0 1; dq 17 45; dq 4 5].
Proof. split; [vm_compute; reflexivity|]. split; apply veqb_eq; vm_compute; reflexivity. Qed.
(** Both eigenvectors of one agglomerate; what is left in the memory. *)
Definition ad_evecs (r : outcome (agg_data QcOF * heap QcOF)) : list (list QcOF) := match r with Ok (d, _) => da_evecs d | _ => [] end.
Definition ad_cells (r : outcome (agg_data QcOF * heap QcOF)) : nat := match r with Ok (_, h) => length (h_cells h) | _ => 0 end.
Example C74_agglomerates_example :
  let r := setup_loop true ad_library 2 [ad_agg 2 [0; 1]; ad_agg 2 [1; 2]] (@data_empty QcOF) no_memory in
  nth 0 (ad_evecs r) [] = [dq 3 5; dq 4 5] /\ nth 3 (ad_evecs r) [] = [dq (-4) 5; dq 3 5].
Proof. split; apply veqb_eq; vm_compute; reflexivity. Qed.
Example C74_agglomerates_hypotheses : forall a A, In (a, A) [(ad_agg 2 [0; 1], ad_mat); (ad_agg 2 [1; 2], ad_mat)] ->
  agglomerate_ok 2 a A /\ eig_succeeds ad_library A.
Proof. intros a A [E|[E|[]]]; injection E as <- <-; (split; [apply ad_agg_ok; auto|apply ad_succeeds]). Qed.
(** A library that fails for the second matrix; three eigenvectors of a matrix with two rows. *)
Example C74_failure_example : agglomerate_ok 1 (ad_agg 1 [0; 1]) ad_mat /\ eig_fails (@eig_of QcOF []) ad_mat /\
  setup_loop true (@eig_of QcOF []) 1 [ad_agg 1 [0; 1]] (@data_empty QcOF) no_memory = Abort.
Proof. split; [apply ad_agg_ok; auto|]. split; [apply ad_fails|]. vm_compute. reflexivity. Qed.
Example C74_too_many_example : agg_env_ok 2 3 (ad_env 2 3) /\
  setup_loop true ad_library 3 [ad_agg 3 [0; 1]] (@data_empty QcOF) no_memory = UB /\
  setup_loop false ad_library 3 [ad_agg 3 [0; 1]] (@data_empty QcOF) no_memory = UB.
Proof. split; [apply ad_env_ok|]. split; vm_compute; reflexivity. Qed.
Section Cross.
  Variable K : ofield.
  Add Field KfAmgeDevC : (f_field K).
  Lemma cross : forall l a b u v : K, u = (l * a)%K -> v = (l * b)%K -> (u * b)%K = (v * a)%K.
  Proof. intros l a b u v -> ->. ring. Qed.
End Cross.
(** A release build does not look at the report: whatever is in the array of the library becomes a row of the restriction, here a vector that is no
    eigenvector. *)
Theorem C74_release_failure_refuted : exists (Z : eig_library QcOF) a A d h', eig_library_ok Z /\ agglomerate_ok 1 a A /\ eig_fails Z A /\
  setup_loop false Z 1 [a] (@data_empty QcOF) no_memory = Ok (d, h') /\ forall lambda, ~ eigenpair A lambda (nth 0 (da_evecs d) []).
Proof.
  exists (@eig_of QcOF []), (ad_agg 1 [0; 1]), ad_mat.
  destruct (setup_loop false (@eig_of QcOF []) 1 [ad_agg 1 [0; 1]] (@data_empty QcOF) no_memory) as [[d h']| | | |] eqn:E.
  2-5: apply (f_equal (fun r => match r with Ok _ => true | _ => false end)) in E; vm_compute in E; discriminate.
  exists d, h'. split; [apply eig_of_ok|]. split; [apply ad_agg_ok; auto|]. split; [apply ad_fails|]. split; auto.
  assert (V : nth 0 (da_evecs d) [] = [dq 17 1; dq (-12) 1]).
  { transitivity (nth 0 (ad_evecs (setup_loop false (@eig_of QcOF []) 1 [ad_agg 1 [0; 1]] (@data_empty QcOF) no_memory)) []); [rewrite E; auto|].
    apply veqb_eq. vm_compute. reflexivity. }
  rewrite V. intros lambda Q. unfold eigenpair in Q.
  assert (Q0 : dq 433 1 = (lambda * dq 17 1)%K).
  { transitivity (nth 0 (mulvec ad_mat [dq 17 1; dq (-12) 1]) f0); [apply Qc_is_canon; vm_compute; reflexivity|]. rewrite Q. reflexivity. }
  assert (Q1 : dq (-324) 1 = (lambda * dq (-12) 1)%K).
  { transitivity (nth 1 (mulvec ad_mat [dq 17 1; dq (-12) 1]) f0); [apply Qc_is_canon; vm_compute; reflexivity|]. rewrite Q. reflexivity. }
  pose proof (@cross QcOF lambda _ _ _ _ Q0 Q1) as C. apply (f_equal (fun x : QcOF => Qc_eq_bool x (dq (-5196) 1))) in C. vm_compute in C. discriminate.
Qed.
Print Assumptions C74_release_failure_refuted.
(** Two cells per agglomerate stay. *)
Example C75_example : ad_cells (setup_loop true ad_library 2 [ad_agg 2 [0; 1]; ad_agg 2 [1; 2]] (@data_empty QcOF) no_memory) = 4.
Proof. vm_compute. reflexivity. Qed.
