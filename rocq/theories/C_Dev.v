(** C42, C43, C44: memory of device matrices over arbitrary programs. *)
From Coq Require Import List Arith Lia Bool QArith Qcanon.
From Verif Require Import Base OField M_Csr S_Csr M_Dev S_Dev P_AmgxLife P_Dev P_Dev2 P_Dev3 P_Dev4 C_Csr.
Import ListNotations.
Set Implicit Arguments.
Open Scope nat_scope.

(** In no program whatsoever, whether it uses the matrices correctly or not, is released device memory read, written or released again. *)
Theorem C42_never_dead : forall (K : ofield) debug gemm (ops : list (op K)), run debug gemm start ops <> dead.
Proof. intros. apply (run_alive debug gemm ops (own_start K)). Qed.
Print Assumptions C42_never_dead.

(** A program that never copies or multiplies matrices without data, and never multiplies into an operand, succeeds. The objects then have exactly the
    values that copying, moving and multiplying values gives (so that copies are independent of their originals), and the live allocations are those
    the existing matrices need and the lost ones. *)
Theorem C42_values : forall (K : ofield) debug gemm (ops : list (op K)) vs n, effects debug gemm [] ops vs n ->
  exists s, run debug gemm start ops = Ok s /\ all_represent s vs /\ outstanding s = all_needs vs + n.
Proof. intros K debug gemm ops vs n E. apply program_ok. auto. Qed.
Print Assumptions C42_values.

(** Once all matrices are destroyed, everything has been released exactly if no operation lost anything. *)
Theorem C42_released : forall (K : ofield) debug gemm (ops : list (op K)) vs n s, effects debug gemm [] ops vs n -> run debug gemm start ops = Ok s ->
  (forall i v, ~ has vs i v) -> outstanding s = n /\ (h_cells (s_heap s) = [] <-> n = 0).
Proof.
  intros K debug gemm ops vs n s E R H. destruct (program_ok E) as [s' [R' [_ O]]]. rewrite R in R'. injection R' as <-.
  rewrite (@all_gone K vs H) in O. simpl in O. split; auto. unfold outstanding in O. rewrite <- O. split; [intros ->; auto|apply length_zero_iff_nil].
Qed.
Print Assumptions C42_released.

(** Move assignment onto a matrix with data loses its buffers: for every such matrix there is a correct program after which they are never released. *)
Theorem C42_move_assign_refuted : forall (K : ofield) debug gemm (c c' : csr K), sound_csr c -> sound_csr c' -> exists s,
  run debug gemm start [ONew c true; ONew c' true; OAssign 0 1; ODelete 0; ODelete 1] = Ok s /\ s_objects s = [None; None] /\
  outstanding s = (if c_nnz c =? 0 then 0 else 2) + 2 /\ h_cells (s_heap s) <> [].
Proof.
  intros K debug gemm c c' H H'.
  assert (E : effects debug gemm [] [ONew c true; ONew c' true; OAssign 0 1; ODelete 0; ODelete 1] [None; None] (needs (VMatrix c true true))).
  { replace (needs (VMatrix c true true)) with (0 + (0 + (needs (VMatrix c true true) + (0 + (0 + 0))))) by lia.
    eapply ECons; [apply ENew; auto|]. eapply ECons; [apply ENew; auto|].
    eapply ECons; [apply EAssign with (v := VMatrix c' true true); [reflexivity|reflexivity|discriminate]|].
    eapply ECons; [apply EDelete with (v := VMatrix c' true true); reflexivity|]. eapply ECons; [apply EDelete with (v := VEmpty); reflexivity|]. apply ENil. }
  destruct (program_ok E) as [s [R [[A1 A2] O]]]. exists s. split; auto.
  assert (Ho : s_objects s = [None; None]).
  { pose proof (A2 0) as B0. pose proof (A2 1) as B1. destruct (s_objects s) as [|x [|y [|z l]]]; try discriminate. simpl in B0, B1. congruence. }
  split; auto. unfold all_needs, needs, buffers in O. cbn [map] in O. change (list_sum [0; 0]) with 0 in O. split; [lia|].
  intros Z. unfold outstanding in O. rewrite Z in O. cbn [length] in O. lia.
Qed.
Print Assumptions C42_move_assign_refuted.

(** Assigning a matrix to itself by a move empties it and loses its memory. *)
Theorem C42_self_move_refuted : forall (K : ofield) debug gemm (c : csr K), sound_csr c -> exists s,
  run debug gemm start [ONew c true; OAssign 0 0] = Ok s /\ s_objects s = [Some moved_from] /\ outstanding s = (if c_nnz c =? 0 then 0 else 2) + 2.
Proof.
  intros K debug gemm c H.
  assert (E : effects debug gemm [] [ONew c true; OAssign 0 0] [Some VEmpty] (needs (VMatrix c true true))).
  { replace (needs (VMatrix c true true)) with (0 + (needs (VMatrix c true true) + 0)) by lia.
    eapply ECons; [apply ENew; auto|]. eapply ECons; [apply EAssign with (v := VMatrix c true true); [reflexivity|reflexivity|discriminate]|]. apply ENil. }
  destruct (program_ok E) as [s [R [[A1 A2] O]]]. exists s. split; auto. split.
  - specialize (A2 0). simpl in A2. destruct A2 as [d [Ed Rd]]. cbn [represents] in Rd. subst d. destruct (s_objects s) as [|x [|y l]]; try discriminate.
    simpl in Ed. congruence.
  - unfold all_needs, needs, buffers in O. cbn [map] in O. change (list_sum [0 + 0]) with 0 in O. lia.
Qed.
Print Assumptions C42_self_move_refuted.

(** A matrix without data cannot be copied: after a move the row pointer is copied from a null pointer, after default construction the count is
    uninitialised. *)
Theorem C42_copy_empty_refuted : forall (K : ofield) debug gemm (c : csr K) w, sound_csr c ->
  run debug gemm start [ONew c w; OMove 0; OCopy 0] = (if debug then Abort else UB) /\ run debug gemm start [ODefault; OCopy 0] = @UB (state K).
Proof.
  intros K debug gemm c w H. split; [|reflexivity]. cbn [run step]. destruct (construct c w (s_heap start)) as [d h] eqn:E.
  assert (Hd : take d = Ok d).
  { unfold construct in E. destruct (new_buffers c (s_heap start)) as [[[p1 p2] p3] h1]. destruct w; [unfold attach in E; destruct (alloc CDescr h1)|];
      injection E as <- _; reflexivity. }
  cbn [bind run step s_objects app]. unfold object at 1. cbn [s_objects nth_error start app bind]. rewrite Hd. cbn [bind]. destruct debug; reflexivity.
Qed.
Print Assumptions C42_copy_empty_refuted.

(** Multiplying into an operand on one process is undefined (debug and release): the row pointer of the operand is released and not yet written when it
    is read. *)
Theorem C42_multiply_in_place_refuted : forall (K : ofield) debug gemm (c : csr K), sound_csr c -> c_m c = c_n c ->
  run debug gemm start [ONew c true; OMult 0 0 0 None] = @UB (state K).
Proof.
  intros K debug gemm c H Hmn. cbn [run step]. destruct (construct c true (s_heap start)) as [d h] eqn:E.
  assert (Hok : heap_ok (s_heap (@start K))) by apply (ow_heap (own_start K)).
  destruct (construct_ok _ _ Hok E) as [C1 [C2 [_ C4]]]. specialize (C4 H).
  cbn [bind s_objects start app]. unfold object at 1 2. cbn [s_objects nth_error bind].
  assert (Hd : d_m d = c_m c /\ d_n d = c_n c /\ d_range d = c_range c /\ d_lnnz d = Some (c_nnz c) /\ d_handle d = true) by (cbn [represents] in C4; tauto).
  destruct Hd as [D1 [D2 [D3 [D4 D5]]]]. rewrite D1, D2, Hmn, Nat.eqb_refl.
  replace (assert_dbg debug true) with (Ok tt) by (destruct debug; reflexivity). cbn [bind].
  unfold mmult_serial. unfold object at 1 2 3. cbn [s_objects nth_error bind s_heap].
  destruct (@cuda_free_ok K h (d_ptr d) C1) as [h1 [E1 S1]]; [intros id; rewrite C2, cnt_dev; lia|]. rewrite E1. cbn [bind].
  destruct (malloc_junk (length (d_range d) + 1) h1) as [ptr h2] eqn:E2. destruct (malloc_junk_ok _ (sh_ok S1) E2) as [G2 J2].
  unfold object. cbn [s_objects upd nth_error bind d_handle negb d_descr]. rewrite D5. cbn [negb].
  (* the descriptor is still there *)
  assert (Hx : exists x, d_descr d = Some x /\ lookup h2 x = Some CDescr).
  { cbn [represents] in C4. destruct C4 as [_ [_ [_ [_ [_ [R _]]]]]]. destruct (d_descr d) as [x|] eqn:Ex; [|discriminate]. destruct R as [_ R]. exists x. split; auto.
    assert (Hi : In x (ids h)) by (apply lookup_in; congruence). assert (Hn : ~ In x (opt (d_ptr d))).
    { pose proof (cnt_le_1 x C1) as Q. rewrite C2, cnt_dev, Ex in Q. cbn [opt] in Q. rewrite cnt_cons in Q. destruct (Nat.eq_dec x x); [|congruence]. rewrite cnt_in. lia. }
    rewrite (gr_lookup G2), (sh_lookup S1); auto. rewrite cnt_in in *. pose proof (sh_cnt S1 x). lia. }
  destruct Hx as [x [Hx Lx]]. rewrite Hx. unfold read_descr. rewrite Lx. cbn [bind]. unfold contents at 1. cbn [d_lnnz d_val d_col d_ptr d_range]. rewrite D4. cbn [known bind].
  (* values and columns are read before the row pointer *)
  cbn [represents] in C4. destruct C4 as [Hs [R1 [R2 [R3 _]]]]. destruct Hs as [Q1 [Q2 Q3]].
  assert (Fr : forall id, In id (opt (d_val d)) \/ In id (opt (d_col d)) -> lookup h2 id = lookup h id).
  { intros id Hid. assert (Z : cnt id (opt (d_val d)) + cnt id (opt (d_col d)) > 0) by (rewrite !cnt_in in Hid; lia).
    pose proof (cnt_le_1 id C1) as Q. rewrite C2, cnt_dev in Q. change (cnt id (ids (s_heap start))) with 0 in Q. pose proof (sh_cnt S1 id) as Y. rewrite C2, cnt_dev in Y.
    rewrite (gr_lookup G2) by (apply cnt_in; lia). rewrite (sh_lookup S1); auto. rewrite cnt_in. lia. }
  rewrite (@read_vals_ok K debug h2 (d_val d) (c_val c)); [|eapply values_frame; eauto|auto]. cbn [bind].
  rewrite (@read_ints_ok K debug h2 (d_col d) (c_col c)); [|eapply indices_frame; eauto|auto]. cbn [bind].
  unfold read_ints. destruct ptr as [p|]; [|lia]. destruct J2 as [_ J2]. rewrite J2. destruct (length (d_range d) + 1) eqn:En; [lia|]. reflexivity.
Qed.
Print Assumptions C42_multiply_in_place_refuted.

(** C43: every product with a matrix that is ready loses exactly two allocations (none for an empty source) and changes no matrix; after k products the
    loss is k times that. *)
Theorem C43_leak_per_product : forall (K : ofield) debug gemm (ops : list (op K)) vs n i c size k,
  effects debug gemm [] ops vs n -> has vs i (VMatrix c true true) ->
  exists s s', run debug gemm start ops = Ok s /\ run debug gemm s (repeat (OVmult i size) k) = Ok s' /\
    all_represent s' vs /\ outstanding s' = outstanding s + k * (if size =? 0 then 0 else 2).
Proof.
  intros K debug gemm ops vs n i c size k E Hi. destruct (run_effects E (own_start K) (start_represent K)) as [s [L [R1 [R2 [R3 R4]]]]].
  assert (Ek : effects debug gemm vs (repeat (OVmult i size) k) vs (k * (if size =? 0 then 0 else 2))).
  { induction k as [|k IH]; [apply ENil|]. simpl. eapply ECons; [eapply EVmult; eauto|exact IH]. }
  destruct (run_effects Ek R3 R2) as [s' [L' [T1 [T2 [T3 T4]]]]]. exists s, s'. split; auto. split; auto. split; auto.
  rewrite (own_outstanding T3 T2), (own_outstanding R3 R2), T4. lia.
Qed.
Print Assumptions C43_leak_per_product.

(** C44: in every program on every rank, the count that a matrix reports is its own local count; it is the global count exactly if the other ranks
    hold no entries. *)
Theorem C44_local_count : forall (K : ofield) debug gemm (opss : list (list (op K))) (ss : list (state K)) i (ds : list device) counts r d n,
  Forall2 (fun ops s => run debug gemm start ops = Ok s) opss ss ->
  Forall2 (fun s d => nth_error (s_objects s) i = Some (Some d)) ss ds ->
  Forall2 (fun d n => d_lnnz d = Some n) ds counts ->
  nth_error ds r = Some d -> nth_error counts r = Some n ->
  d_nnz d = Some n /\ (d_nnz d = Some (list_sum counts) <-> forall q m, q <> r -> nth_error counts q = Some m -> m = 0).
Proof.
  intros K debug gemm opss ss i ds counts r d n H1 H2 H3 Hr Hn.
  assert (Hd : d_lnnz d = Some n /\ d_nnz d = d_lnnz d).
  { split.
    - clear - H3 Hr Hn. revert r Hr Hn. induction H3; intros [|r] Hr Hn; try discriminate; simpl in *; [congruence|eauto].
    - clear - H1 H2 Hr. revert opss H1 r Hr. induction H2 as [|s0 d0 ss ds E0 H2 IH]; intros opss H1 [|r] Hr; try discriminate; simpl in Hr.
      + injection Hr as ->. inversion H1 as [|ops s1 opss' ss' Er H1' E1 E2]; subst.
        assert (S0 : same_counts (@start K)) by (intros [|j] dj Hj; discriminate). apply (run_counts debug gemm ops S0 Er i). exact E0.
      + inversion H1; subst. eauto. }
  destruct Hd as [Hl He]. rewrite He, Hl. split; auto. rewrite <- (sum_others counts r Hn). split; [intros Q; injection Q as Q; auto|intros ->; auto].
Qed.
Print Assumptions C44_local_count.

(** A matrix is copied twice, multiplied, moved, move-assigned to a default constructed one, applied; the original is destroyed in between. The last
    object ends up with the product, and exactly the two buffers of the product with a vector are lost. *)
Definition ex_dev_mat (v : QcOF) : csr QcOF := mkCsr [v] [0] [0; 1] 1 1 1 [0] [0].
Definition ex_dev_gemm (a b : csr QcOF) : csr QcOF := ex_dev_mat (fmul (nth 0 (c_val a) f0) (nth 0 (c_val b) f0)).
Definition ex_dev_program : list (op QcOF) :=
  [ONew (ex_dev_mat (cq 2 1)) true; OCopy 0; OCopy 1; OMult 0 1 2 None; ODelete 0; OMove 2; ODefault; OAssign 4 3; OVmult 4 1; ODelete 1].
Lemma ex_dev_effects : effects true ex_dev_gemm [] ex_dev_program
  [None; None; Some VEmpty; Some VEmpty; Some (VMatrix (ex_dev_gemm (ex_dev_mat (cq 2 1)) (ex_dev_mat (cq 2 1))) true true)] 2.
Proof.
  unfold ex_dev_program. change 2 with (0 + (0 + (0 + (0 + (0 + (0 + (0 + (0 + (2 + (0 + 0)))))))))).
  eapply ECons; [apply ENew; repeat split|]. eapply ECons; [eapply ECopy; reflexivity|]. eapply ECons; [eapply ECopy; reflexivity|].
  eapply ECons; [eapply EMultSerial with (a := 0) (b := 1) (c := 2); try reflexivity; try discriminate; repeat split|].
  eapply ECons; [eapply EDelete; reflexivity|]. eapply ECons; [eapply EMove; [reflexivity|discriminate]|]. eapply ECons; [apply EDefault|].
  eapply ECons; [apply (@EAssign QcOF true ex_dev_gemm _ 4 3 (VMatrix (ex_dev_gemm (ex_dev_mat (cq 2 1)) (ex_dev_mat (cq 2 1))) true true) VDefault);
                 [reflexivity|reflexivity|discriminate]|].
  eapply ECons; [eapply EVmult with (i := 4) (size := 1); reflexivity|]. eapply ECons; [eapply EDelete; reflexivity|]. apply ENil.
Qed.
Example C42_values_example : exists s, run true ex_dev_gemm start ex_dev_program = Ok s /\ outstanding s = 4 + 2.
Proof. destruct (C42_values ex_dev_effects) as [s [E [_ O]]]. exists s. split; auto. Qed.
(** The machine does the same. *)
Example C42_run_example : of_run (@outstanding QcOF) (run true ex_dev_gemm start ex_dev_program) 0 = 6.
Proof. vm_compute. reflexivity. Qed.
(** Everything is released at the end of the same program without the product. *)
Lemma ex_dev_released : effects true ex_dev_gemm [] [ONew (ex_dev_mat (cq 2 1)) true; OCopy 0; ODefault; OAssign 2 0; ODelete 0; ODelete 1; ODelete 2] [None; None; None] 0.
Proof.
  match goal with |- effects ?d ?g ?a ?o ?b _ => change (effects d g a o b (0 + (0 + (0 + (0 + (0 + (0 + (0 + 0)))))))) end.
  eapply ECons; [apply ENew; repeat split|]. eapply ECons; [eapply ECopy; reflexivity|]. eapply ECons; [apply EDefault|].
  eapply ECons; [apply (@EAssign QcOF true ex_dev_gemm _ 2 0 (VMatrix (ex_dev_mat (cq 2 1)) true true) VDefault); [reflexivity|reflexivity|discriminate]|].
  do 3 (eapply ECons; [eapply EDelete; reflexivity|]). apply ENil.
Qed.
Example C42_released_example :
  exists s, run true ex_dev_gemm start [ONew (ex_dev_mat (cq 2 1)) true; OCopy 0; ODefault; OAssign 2 0; ODelete 0; ODelete 1; ODelete 2] = Ok s /\ h_cells (s_heap s) = [].
Proof.
  destruct (C42_values ex_dev_released) as [s [E _]]. exists s. split; [exact E|]. apply (C42_released ex_dev_released E); [|reflexivity].
  intros [|[|[|[|i]]]] v H; discriminate.
Qed.
Example C43_example : exists s s', run true ex_dev_gemm start ex_dev_program = Ok s /\ run true ex_dev_gemm s (repeat (OVmult 4 3) 10) = Ok s' /\
  outstanding s = 6 /\ outstanding s' = 26.
Proof.
  destruct (@C43_leak_per_product QcOF true ex_dev_gemm ex_dev_program _ _ 4 _ 3 10 ex_dev_effects eq_refl) as [s [s' [E1 [E2 [_ E3]]]]].
  exists s, s'. split; auto. split; auto. pose proof C42_run_example as R. rewrite E1 in R. cbn [of_run] in R. rewrite E3, R. auto.
Qed.
(** Two ranks with one and with three entries: both report their own count, neither the four of the whole matrix. *)
Definition ex_dev_mat3 : csr QcOF := mkCsr [cq 1 1; cq 2 1; cq 3 1] [0; 1; 2] [0; 3] 3 4 4 [1] [1].
Definition ex_counts (s : state QcOF) : list (option (option nat * option nat)) := map (option_map (fun d => (d_lnnz d, d_nnz d))) (s_objects s).
Example C44_example : of_run ex_counts (run false ex_dev_gemm start [ONew (ex_dev_mat (cq 2 1)) true]) [] = [Some (Some 1, Some 1)] /\
  of_run ex_counts (run false ex_dev_gemm start [ONew ex_dev_mat3 true]) [] = [Some (Some 3, Some 3)].
Proof. split; vm_compute; reflexivity. Qed.
