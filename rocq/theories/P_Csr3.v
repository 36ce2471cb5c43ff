(** Proofs about the conversions between Trilinos and device matrices, and about the Jacobi smoother on the device. *)
From Coq Require Import List Arith Lia Bool Permutation Sorted Field.
From Verif Require Import Base OField Mat M_SpProd S_SpProd M_Csr S_Csr P_SpProd P_Csr P_Csr2.
Import ListNotations.
Set Implicit Arguments.
Open Scope nat_scope.

Lemma sorted_unique : forall l1 l2, StronglySorted lt l1 -> StronglySorted lt l2 -> (forall x, In x l1 <-> In x l2) -> l1 = l2.
Proof.
  induction l1 as [|a l1 IH]; intros [|b l2] H1 H2 Hi; auto.
  - exfalso. apply (Hi b). simpl; auto.
  - exfalso. apply (Hi a). simpl; auto.
  - inversion H1 as [|? ? S1 A1]; inversion H2 as [|? ? S2 A2]; subst. rewrite Forall_forall in A1, A2.
    assert (a = b).
    { destruct (proj1 (Hi a)) as [E|E]; simpl; auto. destruct (proj2 (Hi b)) as [E'|E']; simpl; auto.
      specialize (A1 b E'). specialize (A2 a E). lia. }
    subst b. f_equal. apply IH; auto. intros x. split; intros Hx.
    + destruct (proj1 (Hi x)) as [E|E]; simpl; auto. subst. specialize (A1 _ Hx). lia.
    + destruct (proj2 (Hi x)) as [E|E]; simpl; auto. subst. specialize (A2 _ Hx). lia.
Qed.
Lemma seq_sorted : forall n a, StronglySorted lt (seq a n).
Proof.
  induction n as [|n IH]; intros a; simpl; constructor; auto. apply Forall_forall. intros x Hx. apply in_seq in Hx. lia.
Qed.
Lemma filter_sorted : forall f l, StronglySorted lt l -> StronglySorted lt (filter f l).
Proof.
  induction 1 as [|a l Hs IH Ha]; simpl; [constructor|]. destruct (f a); auto. constructor; auto.
  rewrite Forall_forall in *. intros x Hx. apply filter_In in Hx. apply Ha. tauto.
Qed.
Lemma index_set_in : forall n l i, In i (index_set n l) <-> i < n /\ In i l.
Proof.
  intros n l i. unfold index_set. rewrite filter_In, in_seq, existsb_exists. split.
  - intros [H [x [Hx E]]]. apply Nat.eqb_eq in E. subst. split; auto. lia.
  - intros [H Hi]. split; [lia|]. exists i. split; auto. apply Nat.eqb_refl.
Qed.
Lemma index_set_sorted : forall n l, StronglySorted lt (index_set n l).
Proof. intros. apply filter_sorted, seq_sorted. Qed.
Lemma index_set_id : forall n l, StronglySorted lt l -> (forall i, In i l -> i < n) -> index_set n l = l.
Proof.
  intros n l Hs Hn. apply sorted_unique; auto; [apply index_set_sorted|]. intros x. rewrite index_set_in. split; [tauto|auto].
Qed.
Lemma displs_length : forall l a, length (displs a l) = length l.
Proof. induction l as [|c l IH]; intros a; simpl; auto. Qed.
Lemma nth_displs : forall A (rows : list (list A)) a r, r <= length rows ->
  nth r (displs a (map (@length A) rows) ++ [a + length (concat rows)]) 0 = a + length (concat (firstn r rows)).
Proof.
  induction rows as [|row rows IH]; intros a r H; simpl in *.
  - replace r with 0 by lia. auto.
  - destruct r as [|r]; [simpl; lia|]. simpl. rewrite app_length, Nat.add_assoc, IH by lia. rewrite app_length. lia.
Qed.

Section P.
  Variable K : ofield.
  Add Field KfCsr3 : (f_field K).
  Implicit Types (row : list (nat * K)).

  Lemma convert_tri_rows : forall (t : trilinos K) k, trilinos_layout t -> k <= length (t_range t) ->
    exists st, loop_state (length (t_range t)) (map (global_row (t_colmap t)) (firstn k (t_rows t))) st /\
      foldM (convert_tri_row (t_colmap t)) ([], [], repeat 0 (length (t_range t) + 1)) (combine (seq 0 k) (firstn k (t_rows t))) = Ok st.
  Proof.
    intros t k [Hl Hc]. induction k as [|k IH]; intros Hk.
    - exists ([], [], repeat 0 (length (t_range t) + 1)). split; [apply loop_state_init|auto].
    - destruct IH as [st [[ptr [-> [Hpl Hp]]] E]]; [lia|].
      rewrite (firstn_S_nth (t_rows t) []) by lia. rewrite seq_S. simpl plus.
      rewrite combine_snoc by (rewrite seq_length, firstn_length; lia). rewrite foldM_app, E. cbn [bind foldM].
      set (pre := map (global_row (t_colmap t)) (firstn k (t_rows t))) in *.
      assert (Hlp : length pre = k) by (unfold pre; rewrite map_length, firstn_length; lia).
      eexists. split.
      + rewrite map_app. fold pre. apply loop_state_step; eauto. lia.
      + unfold convert_tri_row. cbn [fst snd]. unfold rd at 1.
        rewrite <- Hlp. rewrite (@nth_error_ptr K (length (t_range t)) pre ptr Hpl) by (auto; lia). cbn [bind].
        rewrite wr_in by lia. cbn [bind].
        rewrite (@mapM_ok _ _ _ (fun e : nat * K => nth (fst e) (t_colmap t) 0)).
        * cbn [bind]. rewrite Hlp. rewrite !map_app. unfold global_row. rewrite !map_map, map_length. auto.
        * intros e He. unfold rd. rewrite (nth_error_nth_lt _ 0); auto. rewrite Hlp in He. eapply Hc; eauto. apply nth_In. lia.
  Qed.

  Lemma global_length : forall cm (rows : list (list (nat * K))), length (concat (map (global_row cm) rows)) = length (concat rows).
  Proof. induction rows as [|r rows IH]; simpl; auto. rewrite !app_length, IH. unfold global_row. rewrite map_length. auto. Qed.

  Lemma convert_trilinos_spec : forall debug (t : trilinos K), trilinos_layout t -> concat (t_rows t) <> [] ->
    exists c, convert_trilinos debug t = Ok c /\ csr_holds c (trilinos_rows t) /\
      c_m c = t_m t /\ c_n c = t_n t /\ c_range c = t_range t /\ c_domain c = t_domain t.
  Proof.
    intros debug t Hlay Hne. pose proof (proj1 Hlay) as Hl.
    destruct (@convert_tri_rows t (length (t_range t)) Hlay (le_n _)) as [st [[ptr [-> [Hpl Hp]]] E]].
    rewrite firstn_all2 in E, Hp by lia.
    assert (Hne' : concat (trilinos_rows t) <> []).
    { intros E0. apply Hne. apply length_zero_iff_nil. rewrite <- (global_length (t_colmap t)). unfold trilinos_rows in E0. rewrite E0. auto. }
    unfold convert_trilinos. rewrite E. cbn [bind]. fold (trilinos_rows t) in *.
    rewrite copy_to_gpu_ok by (apply map_nonempty; auto). cbn [bind].
    rewrite copy_to_gpu_ok by (apply map_nonempty; auto). cbn [bind].
    rewrite copy_to_gpu_ok by (intros E0; rewrite E0 in Hpl; simpl in Hpl; lia). cbn [bind].
    eexists. split; [reflexivity|]. split; [|repeat split; auto].
    assert (Hlr : length (trilinos_rows t) = length (t_range t)) by (unfold trilinos_rows; rewrite map_length; auto).
    constructor; simpl; auto.
    - symmetry. apply global_length.
    - lia.
  Qed.

  Lemma convert_empty : forall debug (t : trilinos K), trilinos_layout t -> concat (t_rows t) = [] ->
    convert_trilinos debug t = if debug then Abort else UB.
  Proof.
    intros debug t Hlay He. pose proof (proj1 Hlay) as Hl.
    destruct (@convert_tri_rows t (length (t_range t)) Hlay (le_n _)) as [st [[ptr [-> [Hpl Hp]]] E]].
    rewrite firstn_all2 in E, Hp by lia.
    unfold convert_trilinos. rewrite E. cbn [bind].
    assert (E0 : concat (map (global_row (t_colmap t)) (t_rows t)) = []).
    { apply length_zero_iff_nil. rewrite global_length, He. auto. }
    rewrite E0. simpl map. rewrite copy_to_gpu_empty. destruct debug; auto.
  Qed.

  Lemma mapM_nth_seq : forall A B (f : nat -> outcome B) (l : list A) (g : nat -> B),
    (forall i, i < length l -> f i = Ok (g i)) -> mapM f (seq 0 (length l)) = Ok (map g (seq 0 (length l))).
  Proof. intros A B f l g H. apply mapM_ok. intros i Hi. apply in_seq in Hi. apply H. lia. Qed.
  Lemma map_nth_all : forall A (l : list A) d, map (fun i => nth i l d) (seq 0 (length l)) = l.
  Proof.
    intros A l d. apply (@list_ext A _ _ d); rewrite map_length, seq_length; auto.
    intros i Hi. rewrite (nth_indep _ d (nth 0 l d)) by (rewrite map_length, seq_length; auto).
    rewrite (map_nth (fun i => nth i l d)). rewrite seq_nth by auto. auto.
  Qed.

  Lemma convert_to_trilinos_spec : forall fill (c : csr K) rows, csr_holds c rows ->
    convert_to_trilinos fill c = Ok (mkTri (c_m c) (c_n c) (c_range c) (c_domain c) (fst (fill (c_domain c) rows)) (snd (fill (c_domain c) rows))).
  Proof.
    intros fill c rows H. unfold convert_to_trilinos. rewrite <- (cs_rows H).
    rewrite (@mapM_nth_seq _ _ _ rows (fun i => nth i rows [])).
    - rewrite map_nth_all. auto.
    - intros i Hi. apply set_arguments_spec; auto.
  Qed.

  Lemma entry_none : forall row g, ~ In g (map fst row) -> entry row g = f0.
  Proof.
    induction row as [|e row IH]; intros g H; [reflexivity|]. rewrite entry_cons. simpl in H.
    replace (fst e =? g) with false by (symmetry; apply Nat.eqb_neq; tauto). rewrite IH by tauto. ring.
  Qed.
  Lemma simple_entry : forall row g v, simple_row row -> In (g, v) row -> entry row g = v.
  Proof.
    intros row g v. induction row as [|e row IH]; intros Hs Hi; [contradiction|].
    rewrite entry_cons. unfold simple_row in Hs. simpl in Hs. inversion Hs as [|? ? Hn Hs']; subst.
    destruct Hi as [->|Hi].
    - simpl. rewrite Nat.eqb_refl. replace (entry row g) with (@f0 K); [ring|]. symmetry.
      apply entry_none. auto.
    - replace (fst e =? g) with false; [rewrite IH; auto; ring|]. symmetry. apply Nat.eqb_neq. intros Ee. apply Hn. rewrite Ee.
      apply (in_map fst) in Hi. auto.
  Qed.

  Lemma NoDup_of_simple : forall row, simple_row row -> NoDup row.
  Proof. intros row H. apply NoDup_map_inv in H. auto. Qed.
  Lemma simple_same : forall row1 row2, simple_row row1 -> simple_row row2 -> (forall g, In g (map fst row1) <-> In g (map fst row2)) ->
    (forall g, entry row1 g = entry row2 g) -> Permutation row1 row2.
  Proof.
    intros row1 row2 H1 H2 Hc He. apply NoDup_Permutation; try (apply NoDup_of_simple; auto).
    assert (G : forall ra rb : list (nat * K), simple_row ra -> simple_row rb -> (forall g, In g (map fst ra) -> In g (map fst rb)) ->
              (forall g, entry ra g = entry rb g) -> forall e, In e ra -> In e rb).
    { intros ra rb Ha Hb Hi Hq [g v] Hin. assert (Hg : In g (map fst rb)) by (apply Hi; apply (in_map fst) in Hin; auto).
      apply in_map_iff in Hg. destruct Hg as [[g' w] [E Hw]]. simpl in E. subst g'.
      replace v with w; auto. rewrite <- (simple_entry g v Ha Hin), <- (simple_entry g w Hb Hw). auto. }
    intros e. split; apply G; auto; intros g; apply Hc.
  Qed.

  Lemma csr_holds_unique : forall (c c' : csr K) rows, csr_holds c rows -> csr_holds c' rows -> c_m c = c_m c' -> c_n c = c_n c' ->
    c_range c = c_range c' -> c_domain c = c_domain c' -> c = c'.
  Proof.
    intros [v1 l1 p1 z1 m1 n1 r1 d1] [v2 l2 p2 z2 m2 n2 r2 d2] rows [A1 A2 A3 A4 A5 A6] [B1 B2 B3 B4 B5 B6]. simpl in *. intros -> -> -> ->.
    subst. f_equal. apply (@list_ext nat _ _ 0); [lia|]. intros i Hi. rewrite A6, B6; auto; lia.
  Qed.

  Lemma concat_global : forall cm (rows : list (list (nat * K))), concat (map (global_row cm) rows) = global_row cm (concat rows).
  Proof. intros. unfold global_row. rewrite concat_map. auto. Qed.

  Lemma convert_epetra_spec : forall debug (t : trilinos K), trilinos_layout t -> concat (t_rows t) <> [] ->
    StronglySorted lt (t_range t) -> (forall i, In i (t_range t) -> i < t_m t) ->
    StronglySorted lt (t_domain t) -> (forall i, In i (t_domain t) -> i < t_n t) ->
    convert_epetra debug t = convert_trilinos debug t.
  Proof.
    intros debug t Hlay Hne Hr Hrm Hd Hdn.
    destruct (convert_trilinos_spec debug Hlay Hne) as [c [E [Hc [Em [En [Er Ed]]]]]]. rewrite E.
    destruct Hlay as [Hl Hcols].
    unfold convert_epetra. rewrite (@mapM_ok _ _ _ (fun e : nat * K => nth (fst e) (t_colmap t) 0)).
    2:{ intros e He. apply in_concat in He. destruct He as [row [H1 H2]]. unfold rd. rewrite (nth_error_nth_lt _ 0); auto. eapply Hcols; eauto. }
    cbn [bind]. rewrite copy_to_gpu_ok by (apply map_nonempty; auto). cbn [bind]. f_equal.
    apply (@csr_holds_unique _ _ (trilinos_rows t)); simpl; auto.
    - assert (Hlr : length (trilinos_rows t) = length (t_rows t)) by (unfold trilinos_rows; rewrite map_length; auto).
      constructor; simpl.
      + rewrite index_set_id by auto. rewrite Hlr. auto.
      + unfold trilinos_rows. rewrite concat_global. unfold global_row. rewrite map_map. auto.
      + unfold trilinos_rows. rewrite concat_global. unfold global_row. rewrite map_map. auto.
      + symmetry. apply global_length.
      + rewrite app_length, displs_length, map_length. simpl. lia.
      + intros r Hrr. pose proof (@nth_displs _ (t_rows t) 0 r) as Hn. simpl in Hn. rewrite Hn by lia.
        unfold trilinos_rows. rewrite firstn_map. symmetry. apply global_length.
    - rewrite index_set_id by auto. auto.
    - rewrite index_set_id by auto. auto.
  Qed.

  (** ** The Jacobi smoother *)
  Definition tagged (rows : list (list (nat * K))) : list (nat * (nat * K)) :=
    flat_map (fun r => map (pair r) (nth r rows [])) (seq 0 (length rows)).
  Lemma tagged_in : forall rows r e, In (r, e) (tagged rows) <-> r < length rows /\ In e (nth r rows []).
  Proof.
    intros rows r e. unfold tagged. rewrite in_flat_map. split.
    - intros [r' [H1 H2]]. apply in_seq in H1. apply in_map_iff in H2. destruct H2 as [e' [E H2]]. injection E as -> ->. split; auto. lia.
    - intros [H1 H2]. exists r. split; [apply in_seq; lia|]. apply in_map. auto.
  Qed.
  Lemma flat_map_map : forall A B C (f : B -> C) (g : A -> list B) l, map f (flat_map g l) = flat_map (fun a => map f (g a)) l.
  Proof. induction l as [|a l IH]; simpl; auto. rewrite map_app, IH. auto. Qed.
  Lemma flat_map_eq : forall A B (f g : A -> list B) l, (forall a, In a l -> f a = g a) -> flat_map f l = flat_map g l.
  Proof. induction l as [|a l IH]; intros H; simpl; auto. rewrite H, IH; simpl; auto. intros; apply H; simpl; auto. Qed.
  Lemma tagged_snd : forall rows, map snd (tagged rows) = concat rows.
  Proof.
    intros rows. unfold tagged. rewrite flat_map_map. rewrite (flat_map_eq _ (fun r => nth r rows [])).
    - rewrite flat_map_concat_map, map_nth_all. auto.
    - intros r _. rewrite map_map. apply map_id.
  Qed.
  Lemma tagged_fst : forall (c : csr K) rows, csr_holds c rows -> csr2coo (c_ptr c) (length rows) = map fst (tagged rows).
  Proof.
    intros c rows H. unfold csr2coo, tagged. rewrite flat_map_map. apply flat_map_eq. intros r Hr. apply in_seq in Hr.
    rewrite map_map. simpl. rewrite !(cs_ptr H) by lia. rewrite (firstn_S_nth rows []) by lia. rewrite concat_app, app_length. simpl. rewrite app_nil_r.
    replace (length (concat (firstn r rows)) + length (nth r rows []) - length (concat (firstn r rows))) with (length (nth r rows [])) by lia.
    induction (nth r rows []) as [|e l IH]; simpl; auto. rewrite IH. auto.
  Qed.

  Lemma extract_spec : forall (c : csr K) rows sched garbage, csr_holds c rows -> (forall row, In row rows -> simple_row row) ->
    some_order (c_nnz c) sched -> length garbage = length rows ->
    exists val, launch sched (extract_inv_diag (c_val c) (c_col c) (csr2coo (c_ptr c) (length rows)) (c_nnz c)) garbage = Ok val /\
      length val = length rows /\
      forall r, r < length rows ->
        (forall v, In (r, v) (nth r rows []) -> nth r val f0 = fdiv f1 v) /\
        (~ In r (map fst (nth r rows [])) -> nth r val f0 = nth r garbage f0).
  Proof.
    intros c rows sched garbage H Hs Ho Hg. rewrite (tagged_fst H).
    assert (Hlen : length (tagged rows) = c_nnz c) by (rewrite (cs_nnz H), <- tagged_snd, map_length; auto).
    assert (Hcol : c_col c = map (fun t => fst (snd t)) (tagged rows)) by (rewrite (cs_col H), <- tagged_snd, map_map; auto).
    assert (Hval : c_val c = map (fun t => snd (snd t)) (tagged rows)) by (rewrite (cs_val H), <- tagged_snd, map_map; auto).
    destruct (@launch_writes K f0 (extract_inv_diag (c_val c) (c_col c) (map fst (tagged rows)) (c_nnz c))
      (fun idx => match nth_error (tagged rows) idx with
                  | Some (r, e) => if fst e =? r then Some (fst e, fdiv f1 (snd e)) else None
                  | None => None end) sched garbage) as [val [E [L [W O]]]].
    - intros i b Hi Hb. unfold extract_inv_diag. destruct (Nat.ltb_spec i (c_nnz c)) as [Hlt|Hge].
      + rewrite Hcol, Hval. unfold rd. rewrite !nth_error_map.
        destruct (nth_error (tagged rows) i) as [[r e]|] eqn:Et.
        * simpl. destruct (fst e =? r); auto.
        * apply nth_error_None in Et. lia.
      + replace (nth_error (tagged rows) i) with (@None (nat * (nat * K))); auto. symmetry. apply nth_error_None. lia.
    - intros i j v Hi. destruct (nth_error (tagged rows) i) as [[r e]|] eqn:Et; [|discriminate].
      apply nth_error_In in Et. apply tagged_in in Et. destruct (Nat.eqb_spec (fst e) r) as [Er|]; [|discriminate].
      intros E. injection E as <- _. lia.
    - intros i i' j v v' _ _.
      destruct (nth_error (tagged rows) i) as [[r e]|] eqn:Et; [|discriminate].
      destruct (nth_error (tagged rows) i') as [[r' e']|] eqn:Et'; [|discriminate].
      apply nth_error_In in Et. apply tagged_in in Et. apply nth_error_In in Et'. apply tagged_in in Et'.
      destruct (Nat.eqb_spec (fst e) r) as [Er|]; [|discriminate]. destruct (Nat.eqb_spec (fst e') r') as [Er'|]; [|discriminate].
      intros E E'. injection E as <- <-. injection E' as E1 <-. 
      destruct e as [g a], e' as [g' a']. simpl in *. subst r r' g'. do 2 f_equal.
      assert (Hsr : simple_row (nth g rows [])) by (apply Hs; apply nth_In; tauto).
      rewrite <- (simple_entry g a Hsr), <- (simple_entry g a' Hsr); tauto.
    - rewrite E. exists val. split; auto. split; [lia|]. intros r Hr. split.
      + intros v Hv. assert (Ht : In (r, (r, v)) (tagged rows)) by (apply tagged_in; auto).
        apply In_nth_error in Ht. destruct Ht as [idx Et]. apply (W idx).
        * eapply some_order_in; eauto. rewrite <- Hlen. apply nth_error_Some. congruence.
        * rewrite Et. simpl. rewrite Nat.eqb_refl. auto.
      + intros Hn. apply O. intros i v Hi. destruct (nth_error (tagged rows) i) as [[r' e]|] eqn:Et; [|discriminate].
        apply nth_error_In in Et. apply tagged_in in Et.
        destruct (Nat.eqb_spec (fst e) r') as [Er|]; [|discriminate]. intros E'. injection E' as Ee _. apply Hn.
        subst r'. rewrite Ee in Et. rewrite <- Ee at 1. apply in_map. tauto.
  Qed.

  Lemma iota_spec : forall size value sched data, some_order size sched -> length data = size ->
    launch sched (iota size value) data = Ok (map (fun i => i + value) (seq 0 size)).
  Proof.
    intros size value sched data Ho Hd.
    destruct (@launch_writes nat 0 (iota size value) (fun i => if i <? size then Some (i, i + value) else None) sched data) as [d' [E [L [W O]]]].
    - intros i b Hi Hb. unfold iota. destruct (i <? size); auto.
    - intros i j v Hi. destruct (Nat.ltb_spec i size); [|discriminate]. intros E. injection E as <- _. lia.
    - intros i i' j v v' _ _. destruct (i <? size), (i' <? size); try discriminate. intros E1 E2. injection E1 as <- <-. injection E2 as <- <-. auto.
    - rewrite E. f_equal. apply (@list_ext nat _ _ 0); [rewrite map_length, seq_length; lia|]. intros i Hi.
      rewrite (W i i (i + value)).
      + rewrite (nth_indep _ 0 (0 + value)) by (rewrite map_length, seq_length; lia). rewrite (map_nth (fun i => i + value)). rewrite seq_nth by lia. auto.
      + eapply some_order_in; eauto. lia.
      + replace (i <? size) with true; auto. symmetry. apply Nat.ltb_lt. lia.
  Qed.

  Lemma cuda_smoother_spec : forall debug (c : csr K) rows first s1 s2 s3 garbage gc gp, csr_holds c rows -> (forall row, In row rows -> simple_row row) ->
    c_m c = c_n c -> nth_error (c_range c) 0 = Some first ->
    some_order (c_nnz c) s1 -> some_order (length rows) s2 -> some_order (length rows + 1) s3 ->
    length garbage = length rows -> length gc = length rows -> length gp = length rows + 1 ->
    exists s val, cuda_smoother debug c s1 s2 s3 garbage gc gp = Ok s /\
      csr_holds s (map (fun r => [(first + r, nth r val f0)]) (seq 0 (length rows))) /\
      c_m s = c_m c /\ c_n s = c_m c /\ c_range s = c_range c /\ c_domain s = c_range c /\
      forall r, r < length rows ->
        (forall v, In (r, v) (nth r rows []) -> nth r val f0 = fdiv f1 v) /\
        (~ In r (map fst (nth r rows [])) -> nth r val f0 = nth r garbage f0).
  Proof.
    intros debug c rows first s1 s2 s3 garbage gc gp H Hs Hsq Hf H1 H2 H3 G1 G2 G3.
    unfold cuda_smoother, assert_dbg. rewrite Hsq, Nat.eqb_refl, andb_false_r. cbn [bind]. rewrite <- (cs_rows H).
    destruct (@extract_spec c rows s1 garbage H Hs H1 G1) as [val [E [L V]]]. rewrite E. cbn [bind].
    unfold rd. rewrite Hf. cbn [bind]. rewrite iota_spec by auto. cbn [bind]. rewrite iota_spec by auto. cbn [bind].
    eexists. exists val. split; [reflexivity|]. cbn. split; [|repeat split; auto; apply V; auto].
    assert (Hc1 : forall B (f : nat * K -> B), map f (concat (map (fun r => [(first + r, nth r val f0)]) (seq 0 (length rows)))) =
                  map (fun r => f (first + r, nth r val f0)) (seq 0 (length rows))).
    { intros B f. induction (seq 0 (length rows)) as [|a l IH]; simpl; f_equal; auto. }
    assert (Hc2 : forall l, length (concat (map (fun r => [(first + r, nth r val (@f0 K))]) l)) = length l).
    { induction l as [|a l IH]; simpl; auto. }
    constructor; cbn.
    - rewrite map_length, seq_length. apply (cs_rows H).
    - rewrite Hc1. apply map_ext. intros; simpl; lia.
    - rewrite Hc1. simpl. rewrite <- L. symmetry. apply map_nth_all.
    - rewrite Hc2, seq_length. auto.
    - rewrite !map_length, !seq_length. auto.
    - intros r Hr. rewrite map_length, seq_length in Hr. rewrite firstn_map, Hc2, firstn_length, seq_length, Nat.min_l by auto.
      rewrite (nth_indep _ 0 (0 + 0)) by (rewrite map_length, seq_length; lia). rewrite (map_nth (fun i => i + 0)). rewrite seq_nth by lia. lia.
  Qed.
End P.
