(** C39, C40, C45, C46: device matrices (conversion, round trip, Jacobi smoother, distributed product). *)
From Coq Require Import List Arith Lia Bool Permutation Sorted Field QArith Qcanon.
From Verif Require Import Base OField Mat M_SpProd S_SpProd M_Csr S_Csr P_SpProd P_Csr P_Csr2 P_Csr3 P_Csr4 E_Lanczos.
Import ListNotations.
Set Implicit Arguments.
Open Scope nat_scope.

(** C39: whatever lies behind the array (any [mem]), the conversion of a deal.II matrix with at least one stored entry gives CSR arrays whose rows
    have the same entries with increasing columns, on the complete index sets. *)
Theorem C39_sorted_and_complete : forall (K : ofield) debug (mem : nat -> nat) (h : host_mat K),
  dealii_layout h -> concat (h_rows h) <> [] ->
  exists c rows', convert_dealii debug (fun i => Ok (mem i)) h = Ok c /\ csr_holds c rows' /\ Forall2 resorted (h_rows h) rows' /\
    c_m c = h_m h /\ c_n c = h_n h /\ c_range c = seq 0 (h_m h) /\ c_domain c = seq 0 (h_n h).
Proof. intros K debug mem h H Hn. apply convert_dealii_spec; auto. intros _ j _. eauto. Qed.
Print Assumptions C39_sorted_and_complete.

(** For a matrix that is not square no element outside the arrays is read. *)
Theorem C39_rectangular_in_bounds : forall (K : ofield) debug (h : host_mat K),
  dealii_layout h -> concat (h_rows h) <> [] -> h_m h <> h_n h ->
  exists c rows', convert_dealii debug (fun _ => UB) h = Ok c /\ csr_holds c rows' /\ Forall2 resorted (h_rows h) rows'.
Proof.
  intros K debug h H Hn Hne. destruct (@convert_dealii_spec K debug (fun _ => UB) h H Hn) as [c [rows' [E [E1 [E2 _]]]]]; [contradiction|eauto].
Qed.
Print Assumptions C39_rectangular_in_bounds.

(** For every square matrix with at least one row the conversion reads one element past the storage reserved for all the entries, even if every other
    access is harmless. *)
Theorem C39_overrun_refuted : forall (K : ofield) debug (over : nat -> outcome nat) (h : host_mat K),
  dealii_layout h -> h_m h = h_n h -> 0 < h_m h ->
  (forall i, i <> length (concat (h_rows h)) -> exists c, over i = Ok c) -> over (length (concat (h_rows h))) = UB ->
  convert_dealii debug over h = UB.
Proof. intros. apply convert_dealii_overrun; auto. Qed.
Print Assumptions C39_overrun_refuted.

(** C40: Trilinos to device and back. *)
Theorem C40_trilinos_round_trip : forall (K : ofield) debug fill (t : trilinos K), fill_ok fill -> trilinos_layout t -> concat (t_rows t) <> [] ->
  exists c t', convert_trilinos debug t = Ok c /\ convert_to_trilinos fill c = Ok t' /\
    t_m t' = t_m t /\ t_n t' = t_n t /\ t_range t' = t_range t /\ t_domain t' = t_domain t /\ trilinos_layout t' /\
    (forall i g, i < length (t_range t) -> entry (nth i (trilinos_rows t') []) g = entry (nth i (trilinos_rows t) []) g) /\
    ((forall row, In row (trilinos_rows t) -> simple_row row) ->
     forall i, i < length (t_range t) -> Permutation (nth i (trilinos_rows t') []) (nth i (trilinos_rows t) [])).
Proof.
  intros K debug fill t Hfill Hlay Hne. pose proof (proj1 Hlay) as Hl.
  destruct (convert_trilinos_spec debug Hlay Hne) as [c [E [Hc [Em [En [Er Ed]]]]]].
  exists c. eexists. split; auto. rewrite (convert_to_trilinos_spec fill Hc). split; [reflexivity|]. cbn [t_m t_n t_range t_domain t_rows t_colmap].
  do 4 (split; [auto|]).
  destruct (Hfill (c_domain c) (trilinos_rows t)) as [F1 [F2 F3]].
  assert (Hlr : length (trilinos_rows t) = length (t_range t)) by (unfold trilinos_rows; rewrite map_length; auto).
  assert (Hnth : forall i, i < length (t_range t) ->
     nth i (trilinos_rows (mkTri (c_m c) (c_n c) (c_range c) (c_domain c) (fst (fill (c_domain c) (trilinos_rows t))) (snd (fill (c_domain c) (trilinos_rows t))))) []
     = global_row (fst (fill (c_domain c) (trilinos_rows t))) (nth i (snd (fill (c_domain c) (trilinos_rows t))) [])).
  { intros i Hi. unfold trilinos_rows at 1. cbn [t_colmap t_rows]. apply nth_map_lt. lia. }
  split; [|split].
  - split; cbn [t_rows t_range t_colmap]; auto. rewrite F1, Er. auto.
  - intros i g Hi. rewrite Hnth by auto. apply F3. lia.
  - intros Hs i Hi. rewrite Hnth by auto. destruct (F3 i) as [G1 [G2 G3]]; [lia|]. apply simple_same; auto. apply Hs. apply nth_In. lia.
Qed.
Print Assumptions C40_trilinos_round_trip.

(** Device to Trilinos and back. *)
Theorem C40_device_round_trip : forall (K : ofield) debug fill (c : csr K) rows, fill_ok fill -> csr_holds c rows -> concat rows <> [] ->
  exists t c' rows', convert_to_trilinos fill c = Ok t /\ convert_trilinos debug t = Ok c' /\ csr_holds c' rows' /\
    c_m c' = c_m c /\ c_n c' = c_n c /\ c_range c' = c_range c /\ c_domain c' = c_domain c /\ length rows' = length rows /\
    (forall i g, i < length rows -> entry (nth i rows' []) g = entry (nth i rows []) g) /\
    ((forall row, In row rows -> simple_row row) -> forall i, i < length rows -> Permutation (nth i rows' []) (nth i rows [])).
Proof.
  intros K debug fill c rows Hfill Hc Hne.
  destruct (Hfill (c_domain c) rows) as [F1 [F2 F3]].
  set (t := mkTri (c_m c) (c_n c) (c_range c) (c_domain c) (fst (fill (c_domain c) rows)) (snd (fill (c_domain c) rows))).
  assert (Hlay : trilinos_layout t).
  { split; cbn [t t_rows t_range t_colmap]; auto. rewrite F1. apply (cs_rows Hc). }
  assert (Hne' : concat (t_rows t) <> []).
  { cbn [t t_rows]. destruct (concat rows) as [|e0 l0] eqn:E0; [contradiction|].
    assert (He : In e0 (concat rows)) by (rewrite E0; simpl; auto).
    apply in_concat in He. destruct He as [row [H1 H2]]. apply (In_nth _ _ []) in H1. destruct H1 as [i [Hi Ei]].
    destruct (F3 i Hi) as [_ [G2 _]].
    assert (Hg : In (fst e0) (map fst (global_row (fst (fill (c_domain c) rows)) (nth i (snd (fill (c_domain c) rows)) [])))).
    { apply G2. rewrite Ei. apply in_map. auto. }
    intros E. unfold global_row in Hg. rewrite map_map in Hg. apply in_map_iff in Hg. destruct Hg as [e1 [_ He1]].
    assert (In e1 (concat (snd (fill (c_domain c) rows)))); [|rewrite E in *; contradiction].
    apply in_concat. exists (nth i (snd (fill (c_domain c) rows)) []). split; auto. apply nth_In. lia. }
  destruct (convert_trilinos_spec debug Hlay Hne') as [c' [E [Hc' [Em [En [Er Ed]]]]]].
  exists t, c', (trilinos_rows t). split; [apply convert_to_trilinos_spec; auto|]. split; auto. split; auto.
  do 4 (split; [auto|]).
  assert (Hlr : length (trilinos_rows t) = length rows) by (unfold trilinos_rows; rewrite map_length; auto).
  assert (Hnth : forall i, i < length rows -> nth i (trilinos_rows t) []
     = global_row (fst (fill (c_domain c) rows)) (nth i (snd (fill (c_domain c) rows)) [])).
  { intros i Hi. unfold trilinos_rows at 1. cbn [t t_colmap t_rows]. apply nth_map_lt. lia. }
  split; auto. split.
  - intros i g Hi. rewrite Hnth by auto. apply F3. lia.
  - intros Hs i Hi. rewrite Hnth by auto. destruct (F3 i) as [G1 [G2 G3]]; [lia|]. apply simple_same; auto. apply Hs. apply nth_In. lia.
Qed.
Print Assumptions C40_device_round_trip.

(** The conversion from Epetra gives the same device matrix as the one from Trilinos if the maps list increasing indices. *)
Theorem C40_epetra_agrees : forall (K : ofield) debug (t : trilinos K), trilinos_layout t -> concat (t_rows t) <> [] ->
  StronglySorted lt (t_range t) -> (forall i, In i (t_range t) -> i < t_m t) ->
  StronglySorted lt (t_domain t) -> (forall i, In i (t_domain t) -> i < t_n t) ->
  convert_epetra debug t = convert_trilinos debug t.
Proof. intros. apply convert_epetra_spec; auto. Qed.
Print Assumptions C40_epetra_agrees.

(** A rank without stored entries cannot be converted: the assertion in copy_to_gpu fires or, without assertions, the first element of an empty
    vector is taken. *)
Theorem C40_empty_rank_refuted : forall (K : ofield) debug (t : trilinos K), trilinos_layout t -> concat (t_rows t) = [] ->
  convert_trilinos debug t = if debug then Abort else UB.
Proof. intros. apply convert_empty; auto. Qed.
Print Assumptions C40_empty_rank_refuted.

(** C46: the product of all ranks is the scattered global product, for every distribution of the source and of the rows, every order of the
    threads and every initial content of the buffers. *)
Theorem C46_distributed_product : forall (K : ofield) (cs : list (csr K)) range (B : mat K) n owned env (x : vec K) (dst : list (list K)),
  distributed_as cs range B -> nc B = n -> partition n owned -> any_environment n env -> length x = n ->
  map (@length K) dst = map (@length nat) range ->
  vmult_all cs env owned n (scatter owned x) dst = Ok (scatter range (mulvec B x)).
Proof. intros. apply vmult_all_spec; auto. Qed.
Print Assumptions C46_distributed_product.

(** C45: what the constructor extracts on a rank, whatever rows it owns: the reciprocal of the entry of local row r in GLOBAL column r, and where
    none is stored the uninitialised content of the buffer. *)
Theorem C45_extracted_values : forall (K : ofield) debug (c : csr K) rows first s1 s2 s3 garbage gc gp, csr_holds c rows ->
  (forall row, In row rows -> simple_row row) -> c_m c = c_n c -> nth_error (c_range c) 0 = Some first ->
  some_order (c_nnz c) s1 -> some_order (length rows) s2 -> some_order (length rows + 1) s3 ->
  length garbage = length rows -> length gc = length rows -> length gp = length rows + 1 ->
  exists s val, cuda_smoother debug c s1 s2 s3 garbage gc gp = Ok s /\
    csr_holds s (map (fun r => [(first + r, nth r val f0)]) (seq 0 (length rows))) /\
    c_m s = c_m c /\ c_n s = c_m c /\ c_range s = c_range c /\ c_domain s = c_range c /\
    forall r, r < length rows ->
      (forall v, In (r, v) (nth r rows []) -> nth r val f0 = fdiv f1 v) /\
      (~ In r (map fst (nth r rows [])) -> nth r val f0 = nth r garbage f0).
Proof. intros. apply cuda_smoother_spec; auto. Qed.
Print Assumptions C45_extracted_values.

Section C45.
  Variable K : ofield.
  Add Field KfCCsr : (f_field K).
  (** On one rank that stores the diagonal, a smoother step of the device is one Jacobi step. *)
  Theorem C45_serial_jacobi_step : forall debug (c : csr K) rows (B : mat K) n s1 s2 s3 garbage gc gp env1 env2 (b x : vec K),
    csr_holds c rows -> (forall row, In row rows -> simple_row row) -> (0 < n)%nat ->
    c_range c = seq 0 n -> c_m c = n -> c_n c = n -> nr B = n -> nc B = n ->
    (forall i e, (i < n)%nat -> In e (nth i rows []) -> (fst e < n)%nat) ->
    (forall i g, (i < n)%nat -> (g < n)%nat -> entry (nth i rows []) g = ent B i g) ->
    (forall i, (i < n)%nat -> In i (map fst (nth i rows []))) ->
    some_order (c_nnz c) s1 -> some_order n s2 -> some_order (n + 1) s3 -> length garbage = n -> length gc = n -> length gp = (n + 1)%nat ->
    any_environment n env1 -> any_environment n env2 -> length b = n -> length x = n ->
    exists s x', cuda_smoother debug c s1 s2 s3 garbage gc gp = Ok s /\
      device_smoother_apply [c] [s] env1 env2 [seq 0 n] n [b] [x] = Ok [x'] /\ length x' = n /\
      forall i, (i < n)%nat -> nth i x' f0 = (nth i x f0 - (nth i (mulvec B x) f0 - nth i b f0) / ent B i i)%K.
  Proof.
    intros debug c rows B n s1 s2 s3 garbage gc gp env1 env2 b x Hc Hs Hn Hr Hm Hn' Hb1 Hb2 Hcol He Hd O1 O2 O3 G1 G2 G3 E1 E2 Lb Lx.
    assert (Hl : length rows = n) by (rewrite (cs_rows Hc), Hr, seq_length; auto).
    rewrite <- Hl in O2, O3, G1, G2, G3.
    destruct (@cuda_smoother_spec K debug c rows 0 s1 s2 s3 garbage gc gp Hc Hs) as [s [val [E [Hss [Sm [Sn [Sr [Sd V]]]]]]]]; auto.
    { rewrite Hm, Hn'. auto. }
    { rewrite Hr. destruct n; [lia|reflexivity]. }
    set (D := mkMat n n (fun i j => if (i =? j)%nat then (1 / ent B i i)%K else 0%K)).
    assert (Hval : forall r, (r < n)%nat -> nth r val f0 = (1 / ent B r r)%K).
    { intros r Hrn. pose proof (Hd r Hrn) as Hi. apply in_map_iff in Hi. destruct Hi as [[g v] [Eg Hv]]. simpl in Eg. subst g.
      rewrite (proj1 (V r ltac:(lia)) v Hv). f_equal. rewrite <- He by auto. symmetry. apply simple_entry; auto. apply Hs. apply nth_In. lia. }
    assert (Hp : partition n [seq 0 n]).
    { split; simpl; rewrite app_nil_r; [apply seq_NoDup|]. intros i. rewrite in_seq. lia. }
    assert (DB : distributed_as [c] [seq 0 n] B).
    { split; [simpl; rewrite Hr; auto|]. split; [intros i Hi; rewrite Hb1; apply Hp; auto|]. intros r c0 Ec. destruct r as [|[|r]]; try discriminate. injection Ec as <-.
      exists rows. split; auto. intros i Hi. rewrite Hl in Hi. split.
      - intros e Hee. rewrite Hb2. eapply Hcol; eauto.
      - intros g Hg. rewrite Hb2 in Hg. rewrite He by auto. cbn [nth]. rewrite seq_nth by auto. auto. }
    assert (DS : distributed_as [s] [seq 0 n] D).
    { split; [simpl; rewrite Sr, Hr; auto|]. split; [intros i Hi; simpl nr; apply Hp; auto|]. intros r c0 Ec. destruct r as [|[|r]]; try discriminate. injection Ec as <-.
      eexists. split; [exact Hss|]. rewrite map_length, seq_length. intros i Hi. rewrite Hl in *.
      rewrite (nth_map_lt _ (seq 0 n) [] 0%nat) by (rewrite seq_length; auto). rewrite seq_nth by auto. simpl (0 + _)%nat.
      split.
      - intros e [<-|[]]. simpl. auto.
      - intros g Hg. rewrite entry_cons. simpl fst. simpl snd. change (entry [] g) with (@f0 K). cbn [nth]. rewrite seq_nth by auto. simpl (0 + _)%nat.
        unfold D. simpl ent. destruct (i =? g)%nat; [rewrite Hval by auto|]; ring. }
    exists s, (vsub x (mulvec D (vsub (mulvec B x) b))). split; auto. split.
    - pose proof (@device_step_spec K [c] [s] [seq 0 n] n B D env1 env2 b x) as Hstep.
      assert (Hsc : forall v : vec K, length v = n -> scatter [seq 0 n] v = [v]).
      { intros v Lv. unfold scatter. simpl. f_equal. rewrite <- Lv. apply map_nth_all. }
      rewrite !Hsc in Hstep; auto.
      rewrite vsub_length, mulvec_length. unfold D. simpl nr. unfold OField.vec in *. lia.
    - assert (Lr : length (vsub (mulvec B x) b) = n) by (rewrite vsub_length, mulvec_length; unfold OField.vec in *; lia).
      split; [rewrite vsub_length, mulvec_length; unfold D; simpl nr; unfold OField.vec in *; lia|].
      intros i Hi. rewrite nth_vsub by (rewrite mulvec_length; unfold D; simpl nr; unfold OField.vec in *; lia). f_equal.
      rewrite nth_mulvec by auto. unfold D at 1. simpl nc.
      rewrite (@sumn_single K n i); auto.
      + unfold D. simpl ent. rewrite Nat.eqb_refl. rewrite nth_vsub by (rewrite mulvec_length; unfold OField.vec in *; lia).
        rewrite (Fdiv_def (f_field K)), (Fdiv_def (f_field K)). ring.
      + intros j Hj Hne. unfold D. simpl ent. replace (i =? j)%nat with false by (symmetry; apply Nat.eqb_neq; auto). ring.
  Qed.
End C45.
Print Assumptions C45_serial_jacobi_step.

(** * Examples *)
Definition of_run {A B} (f : A -> B) (o : outcome A) (d : B) : B := match o with Ok a => f a | _ => d end.
Definition cq (a : Z) (b : positive) : QcOF := Q2Qc (Qmake a b).

(** A square 3 by 3 matrix as deal.II stores it (diagonal first). *)
Definition ex_dealii : host_mat QcOF :=
  mkHost 3 3 [[(0, cq 2 1); (1, cq (-1) 1)]; [(1, cq 3 1); (0, cq (-1) 1); (2, cq 7 1)]; [(2, cq 4 1); (0, cq 5 1); (1, cq (-2) 1)]].
Lemma ex_dealii_layout : dealii_layout ex_dealii.
Proof.
  split; [reflexivity|]. split; [|split].
  - intros row e Hr He. simpl in Hr. repeat (destruct Hr as [<-|Hr]; [simpl in He; repeat (destruct He as [<-|He]; [simpl; lia|]); contradiction|]). contradiction.
  - intros _ i Hi. change (h_m ex_dealii) with 3 in Hi.
    destruct i as [|[|[|i]]]; [| | |lia]; (eexists; eexists; split; [reflexivity|]); unfold sorted_row; simpl;
      (split; [repeat constructor; lia | intros H; repeat destruct H as [H|H]; try lia; contradiction]).
  - intros H. exfalso. apply H. reflexivity.
Qed.
Example C39_example : exists c, convert_dealii true (fun _ => Ok 0) ex_dealii = Ok c /\
  c_col c = [0; 1; 0; 1; 2; 0; 1; 2] /\ c_ptr c = [0; 2; 5; 8] /\
  c_val c = [cq 2 1; cq (-1) 1; cq (-1) 1; cq 3 1; cq 7 1; cq 5 1; cq (-2) 1; cq 4 1] /\
  exists rows', csr_holds c rows' /\ Forall2 resorted (h_rows ex_dealii) rows'.
Proof.
  destruct (@C39_sorted_and_complete QcOF true (fun _ => 0) ex_dealii ex_dealii_layout) as [c [rows' [E [H1 [H2 _]]]]]; [discriminate|].
  exists c. split; auto. split; [|split; [|split; [|eauto]]].
  - transitivity (of_run (@c_col QcOF) (convert_dealii true (fun _ => Ok 0) ex_dealii) []); [rewrite E|vm_compute]; reflexivity.
  - transitivity (of_run (@c_ptr QcOF) (convert_dealii true (fun _ => Ok 0) ex_dealii) []); [rewrite E|vm_compute]; reflexivity.
  - transitivity (of_run (@c_val QcOF) (convert_dealii true (fun _ => Ok 0) ex_dealii) []); [rewrite E; reflexivity|]. apply veqb_eq. vm_compute. reflexivity.
Qed.
(** The same matrix with a trap behind the array: the last row has all its other columns below the diagonal. *)
Example C39_overrun_example : convert_dealii false (fun i => if i =? 8 then UB else Ok 0) ex_dealii = UB.
Proof.
  apply C39_overrun_refuted; [apply ex_dealii_layout|reflexivity|simpl; lia| |reflexivity].
  intros i Hi. change (length (concat (h_rows ex_dealii))) with 8 in Hi. apply Nat.eqb_neq in Hi. rewrite Hi. eauto.
Qed.
(** Rectangular, with an empty row. *)
Definition ex_rect : host_mat QcOF := mkHost 2 3 [[]; [(0, cq 1 1); (2, cq 1 2)]].
Example C39_rectangular_example : exists c rows', convert_dealii true (fun _ => UB) ex_rect = Ok c /\ csr_holds c rows' /\ Forall2 resorted (h_rows ex_rect) rows'.
Proof.
  apply C39_rectangular_in_bounds; [|discriminate|simpl; lia]. split; [reflexivity|]. split; [|split].
  - intros row e Hr He. simpl in Hr. repeat (destruct Hr as [<-|Hr]; [simpl in He; repeat (destruct He as [<-|He]; [simpl; lia|]); contradiction|]). contradiction.
  - simpl. lia.
  - intros _ row Hr. simpl in Hr. unfold sorted_row. destruct Hr as [<-|[<-|[]]]; simpl; repeat constructor; lia.
Qed.

(** A rank owning rows 4 and 1 of a 6 by 5 matrix, with its own column numbering. *)
Definition ex_tri : trilinos QcOF :=
  mkTri 6 5 [1; 4] [0; 2] [0; 2; 4; 1] [[(1, cq 3 1); (3, cq (-1) 1)]; [(2, cq 7 1); (0, cq 1 2); (1, cq 5 1)]].
Lemma ex_tri_layout : trilinos_layout ex_tri.
Proof.
  split; [reflexivity|]. intros row e Hr He. simpl in Hr.
  repeat (destruct Hr as [<-|Hr]; [simpl in He; repeat (destruct He as [<-|He]; [simpl; lia|]); contradiction|]). contradiction.
Qed.
Example C40_example : exists c t', convert_trilinos true ex_tri = Ok c /\ convert_to_trilinos (@simple_fill QcOF) c = Ok t' /\
  c_col c = [2; 1; 4; 0; 2] /\ t_range t' = [1; 4] /\
  forall i, i < 2 -> Permutation (nth i (trilinos_rows t') []) (nth i (trilinos_rows ex_tri) []).
Proof.
  destruct (@C40_trilinos_round_trip QcOF true (@simple_fill QcOF) ex_tri (@simple_fill_ok QcOF) ex_tri_layout) as
    [c [t' [E1 [E2 [_ [_ [R [_ [_ [_ P]]]]]]]]]]; [discriminate|].
  exists c, t'. split; auto. split; auto. split; [|split].
  - transitivity (of_run (@c_col QcOF) (convert_trilinos true ex_tri) []); [rewrite E1|vm_compute]; reflexivity.
  - exact R.
  - apply P. intros row Hr. cbn [trilinos_rows ex_tri t_rows t_colmap map In] in Hr. unfold simple_row.
    destruct Hr as [<-|[<-|[]]]; simpl; repeat constructor; simpl; intros H; repeat destruct H as [H|H]; try lia; contradiction.
Qed.
Example C40_device_example : exists t c' rows', convert_to_trilinos (@simple_fill QcOF) (mkCsr [cq 1 1; cq 2 1; cq 3 1] [3; 0; 3] [0; 2; 3] 3 4 4 [0; 2] [0; 1; 2; 3]) = Ok t /\
  convert_trilinos true t = Ok c' /\ csr_holds c' rows' /\ entry (nth 1 rows' []) 3 = cq 3 1.
Proof.
  destruct (@C40_device_round_trip QcOF true (@simple_fill QcOF) (mkCsr [cq 1 1; cq 2 1; cq 3 1] [3; 0; 3] [0; 2; 3] 3 4 4 [0; 2] [0; 1; 2; 3])
    [[(3, cq 1 1); (0, cq 2 1)]; [(3, cq 3 1)]] (@simple_fill_ok QcOF)) as [t [c' [rows' [E1 [E2 [H [_ [_ [_ [_ [_ [P _]]]]]]]]]]]].
  - split; try reflexivity. intros r Hr. destruct r as [|[|[|r]]]; try reflexivity. simpl in Hr. lia.
  - discriminate.
  - exists t, c', rows'. repeat (split; [assumption|]). rewrite P by (simpl; lia). apply Qc_is_canon. vm_compute. reflexivity.
Qed.
Example C40_epetra_example : convert_epetra true ex_tri = convert_trilinos true ex_tri.
Proof.
  apply C40_epetra_agrees; [apply ex_tri_layout|discriminate| | | | ]; simpl; try (intros i Hi; lia); repeat constructor; lia.
Qed.
Example C40_empty_rank_example : convert_trilinos true (mkTri (K := QcOF) 3 3 [] [] [] []) = Abort.
Proof. apply (@C40_empty_rank_refuted QcOF true); [|reflexivity]. split; [reflexivity|]. intros row e []. Qed.

(** Three ranks; the rows and the source are distributed differently, one rank owns no source entry. *)
Definition ex_B : mat QcOF := mkMat 3 4 (fun i j => cq (Z.of_nat (i * 4 + j + 1)) 1).
Definition ex_row (i : nat) : list (nat * QcOF) := map (fun j => (j, ent ex_B i j)) [2; 0; 3; 1].
Definition ex_c (rng : list nat) (ptr : list nat) : csr QcOF :=
  mkCsr (map snd (concat (map ex_row rng))) (map fst (concat (map ex_row rng))) ptr (4 * length rng) 3 4 rng [].
Definition ex_cs := [ex_c [2] [0; 4]; ex_c [] [0]; ex_c [0; 1] [0; 4; 8]].
Definition ex_env (n : nat) : nat -> list nat * list QcOF * list QcOF := fun r => (rev (seq 0 (n_threads n)), repeat (cq 99 1) n, repeat (cq 98 1) n).
Lemma ex_env_ok : forall n, any_environment n (ex_env n).
Proof. intros n r. unfold ex_env. cbn [fst snd]. rewrite !repeat_length. split; [apply Permutation_sym, Permutation_rev|auto]. Qed.
Lemma ex_distributed : distributed_as ex_cs [[2]; []; [0; 1]] ex_B.
Proof.
  split; [reflexivity|]. split; [simpl; intros i Hi; lia|]. intros r c Hr.
  assert (Hc : exists rng ptr, c = ex_c rng ptr /\ nth r [[2]; []; [0; 1]] [] = rng /\ length ptr = length rng + 1 /\
            forall k, k <= length rng -> nth k ptr 0 = 4 * k).
  { destruct r as [|[|[|r]]]; [| | |destruct r; discriminate]; injection Hr as <-; (eexists; eexists; split; [reflexivity|]; split; [reflexivity|]; split; [reflexivity|]);
      intros k Hk; simpl in Hk; destruct k as [|[|[|k]]]; try reflexivity; lia. }
  destruct Hc as [rng [ptr [-> [-> [Lp Hp]]]]].
  assert (Lc : forall l : list nat, length (concat (map ex_row l)) = 4 * length l).
  { induction l; [reflexivity|]. cbn [map concat length]. rewrite app_length, IHl. unfold ex_row. rewrite map_length. cbn [length]. lia. }
  exists (map ex_row rng). split.
  - split; unfold ex_c; cbn [c_range c_col c_val c_nnz c_ptr]; rewrite ?map_length; auto.
    intros k Hk. rewrite Hp by auto. rewrite firstn_map, Lc, firstn_length. lia.
  - intros i Hi. rewrite map_length in Hi. rewrite (nth_map_lt _ rng [] 0) by auto. split.
    + intros e He. unfold ex_row in He. apply in_map_iff in He. destruct He as [j [<- Hj]]. simpl in Hj. simpl. lia.
    + intros g Hg. change (nc ex_B) with 4 in Hg. apply simple_entry.
      * unfold simple_row, ex_row. rewrite map_map. cbn [map fst]. repeat constructor; simpl; lia.
      * unfold ex_row. apply in_map_iff. exists g. split; auto. simpl. lia.
Qed.
Definition ex_owned := [[3; 1]; []; [0; 2]].
Lemma ex_owned_ok : partition 4 ex_owned.
Proof. split; simpl; [repeat constructor; simpl; lia|intros i; lia]. Qed.
Example C46_example : let x := [cq 1 1; cq 2 1; cq 0 1; cq (-1) 1] in
  vmult_all ex_cs (ex_env 4) ex_owned 4 [[cq (-1) 1; cq 2 1]; []; [cq 1 1; cq 0 1]] [[cq 55 1]; []; [cq 55 1; cq 55 1]] = Ok [[cq 17 1]; []; [cq 1 1; cq 9 1]].
Proof.
  intros x.
  pose proof (@C46_distributed_product QcOF ex_cs [[2]; []; [0; 1]] ex_B 4 ex_owned (ex_env 4) x [[cq 55 1]; []; [cq 55 1; cq 55 1]]
    ex_distributed eq_refl ex_owned_ok (ex_env_ok 4) eq_refl eq_refl) as E.
  change (scatter ex_owned x) with [[cq (-1) 1; cq 2 1]; []; [cq 1 1; cq 0 1]] in E. rewrite E. vm_compute. reflexivity.
Qed.

(** One rank: the smoother on a 2 by 2 system. *)
Definition ex_one : csr QcOF := mkCsr [cq 2 1; cq (-1) 1; cq 1 1; cq 4 1] [0; 1; 0; 1] [0; 2; 4] 4 2 2 [0; 1] [0; 1].
Definition ex_one_rows : list (list (nat * QcOF)) := [[(0, cq 2 1); (1, cq (-1) 1)]; [(0, cq 1 1); (1, cq 4 1)]].
Lemma ex_one_holds : csr_holds ex_one ex_one_rows.
Proof. split; try reflexivity. intros r Hr. destruct r as [|[|[|r]]]; try reflexivity. simpl in Hr. lia. Qed.
Definition ex_one_mat : mat QcOF := mkMat 2 2 (fun i j => entry (nth i ex_one_rows []) j).
Definition order (n : nat) : list nat := rev (seq 0 (n_threads n)).
Lemma order_ok : forall n, some_order n (order n).
Proof. intros n. apply Permutation_sym, Permutation_rev. Qed.
Example C45_serial_example : exists s x', cuda_smoother true ex_one (order 4) (order 2) (order 3) [cq 77 1; cq 78 1] [5; 6] [7; 8; 9] = Ok s /\
  device_smoother_apply [ex_one] [s] (ex_env 2) (ex_env 2) [seq 0 2] 2 [[cq 1 1; cq 2 1]] [[cq 4 1; cq 8 1]] = Ok [x'] /\
  nth 0 x' f0 = cq 9 2 /\ nth 1 x' f0 = cq (-1) 2.
Proof.
  destruct (@C45_serial_jacobi_step QcOF true ex_one ex_one_rows ex_one_mat 2 (order 4) (order 2) (order 3) [cq 77 1; cq 78 1] [5; 6] [7; 8; 9]
    (ex_env 2) (ex_env 2) [cq 1 1; cq 2 1] [cq 4 1; cq 8 1] ex_one_holds) as [s [x' [E1 [E2 [_ E3]]]]]; try reflexivity; try apply order_ok; try apply ex_env_ok.
  - intros row Hr. unfold simple_row. destruct Hr as [<-|[<-|[]]]; cbn [map fst]; repeat constructor; simpl; lia.
  - lia.
  - intros i e Hi He. destruct i as [|[|i]]; [| |lia]; cbn [nth ex_one_rows In] in He; destruct He as [<-|[<-|[]]]; cbn [fst]; lia.
  - intros i Hi. destruct i as [|[|i]]; [| |lia]; simpl; lia.
  - exists s, x'. split; auto. split; auto. rewrite !E3 by lia. split; apply Qc_is_canon; vm_compute; reflexivity.
Qed.

(** The second of two ranks, owning rows 2 and 3 of a 4 by 4 matrix whose diagonal is stored and positive: for row 2 the constructor takes the
    off-diagonal entry in global column 0, for row 3 it keeps what was in the buffer. *)
Definition ex_second_rows : list (list (nat * QcOF)) := [[(0, cq 5 1); (1, cq (-1) 1); (2, cq 2 1)]; [(2, cq (-1) 1); (3, cq 2 1)]].
Definition ex_second : csr QcOF := mkCsr (map snd (concat ex_second_rows)) (map fst (concat ex_second_rows)) [0; 3; 5] 5 4 4 [2; 3] [2; 3].
Lemma ex_second_holds : csr_holds ex_second ex_second_rows.
Proof. split; try reflexivity. intros r Hr. destruct r as [|[|[|r]]]; try reflexivity. simpl in Hr. lia. Qed.
Lemma ex_second_simple : forall row, In row ex_second_rows -> simple_row row.
Proof. intros row Hr. unfold simple_row. destruct Hr as [<-|[<-|[]]]; cbn [map fst]; repeat constructor; simpl; lia. Qed.

Theorem C45_offset_refuted : exists (c : csr QcOF) rows, csr_holds c rows /\ (forall row, In row rows -> simple_row row) /\ c_m c = c_n c /\
  (forall r, r < length rows -> In (nth r (c_range c) 0) (map fst (nth r rows [])) /\ flt f0 (entry (nth r rows []) (nth r (c_range c) 0))) /\
  forall debug s1 s2 s3 garbage gc gp,
    some_order (c_nnz c) s1 -> some_order (length rows) s2 -> some_order (length rows + 1) s3 ->
    length garbage = length rows -> length gc = length rows -> length gp = length rows + 1 ->
    exists s, cuda_smoother debug c s1 s2 s3 garbage gc gp = Ok s /\
      nth 0 (c_val s) f0 <> fdiv f1 (entry (nth 0 rows []) (nth 0 (c_range c) 0)) /\
      nth 1 (c_val s) f0 = nth 1 garbage f0.
Proof.
  exists ex_second, ex_second_rows. split; [apply ex_second_holds|]. split; [apply ex_second_simple|]. split; [reflexivity|]. split.
  - intros r Hr. destruct r as [|[|r]]; [| |simpl in Hr; lia]; (split; [simpl; lia|apply fltb_lt; vm_compute; reflexivity]).
  - intros debug s1 s2 s3 garbage gc gp O1 O2 O3 G1 G2 G3.
    destruct (@C45_extracted_values QcOF debug ex_second ex_second_rows 2 s1 s2 s3 garbage gc gp ex_second_holds ex_second_simple eq_refl eq_refl O1 O2 O3 G1 G2 G3)
      as [s [val [E [H [_ [_ [_ [_ V]]]]]]]].
    exists s. split; auto. rewrite (cs_val H). cbn [length ex_second_rows seq map concat app snd nth].
    split.
    + rewrite (proj1 (V 0 ltac:(simpl; lia)) (cq 5 1)) by (simpl; auto). intros Heq.
      apply (f_equal (fun z => veqb [z] [fdiv f1 (cq 5 1)])) in Heq. vm_compute in Heq. discriminate.
    + apply (proj2 (V 1 ltac:(simpl; lia))). simpl. lia.
Qed.
Print Assumptions C45_offset_refuted.
Example C45_extracted_example : exists s, cuda_smoother true ex_second (order 5) (order 2) (order 3) [cq 77 1; cq 78 1] [5; 6] [7; 8; 9] = Ok s /\
  c_val s = [cq 1 5; cq 78 1] /\ c_col s = [2; 3] /\ c_ptr s = [0; 1; 2].
Proof.
  destruct (@C45_extracted_values QcOF true ex_second ex_second_rows 2 (order 5) (order 2) (order 3) [cq 77 1; cq 78 1] [5; 6] [7; 8; 9]
    ex_second_holds ex_second_simple eq_refl eq_refl (order_ok 5) (order_ok 2) (order_ok 3) eq_refl eq_refl eq_refl) as [s [val [E _]]].
  exists s. split; auto. split; [|split].
  - transitivity (of_run (@c_val QcOF) (cuda_smoother true ex_second (order 5) (order 2) (order 3) [cq 77 1; cq 78 1] [5; 6] [7; 8; 9]) []); [rewrite E; reflexivity|]. apply veqb_eq. vm_compute. reflexivity.
  - transitivity (of_run (@c_col QcOF) (cuda_smoother true ex_second (order 5) (order 2) (order 3) [cq 77 1; cq 78 1] [5; 6] [7; 8; 9]) []); [rewrite E; reflexivity|]. vm_compute. reflexivity.
  - transitivity (of_run (@c_ptr QcOF) (cuda_smoother true ex_second (order 5) (order 2) (order 3) [cq 77 1; cq 78 1] [5; 6] [7; 8; 9]) []); [rewrite E; reflexivity|]. vm_compute. reflexivity.
Qed.
