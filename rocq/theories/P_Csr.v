(** Proofs about the device matrix conversions, the gathered product and the Jacobi smoother. *)
From Coq Require Import List Arith Lia Bool Permutation Sorted Field.
From Verif Require Import Base OField Mat M_SpProd S_SpProd P_SpProd M_Csr S_Csr.
Import ListNotations.
Set Implicit Arguments.
Open Scope nat_scope.

Lemma foldM_app : forall A B (f : B -> A -> outcome B) l1 l2 b, foldM f b (l1 ++ l2) = let! b1 := foldM f b l1 in foldM f b1 l2.
Proof.
  induction l1 as [|a l1 IH]; intros l2 b; simpl; auto.
  destruct (f b a); simpl; auto.
Qed.
Lemma foldM_inv : forall A B (f : B -> A -> outcome B) (P : nat -> B -> Prop) l b,
  P 0 b -> (forall i a b, nth_error l i = Some a -> P i b -> exists b', f b a = Ok b' /\ P (S i) b') ->
  exists b', foldM f b l = Ok b' /\ P (length l) b'.
Proof.
  intros A B f P l. revert P.
  induction l as [|a l IH]; intros P b H0 Hs; simpl; [eauto|].
  destruct (Hs 0 a b eq_refl H0) as [b1 [E1 P1]]. rewrite E1. simpl.
  apply (IH (fun i => P (S i)) b1); auto.
Qed.

Lemma launch_writes : forall A (d : A) (body : nat -> list A -> outcome (list A)) (f : nat -> option (nat * A)) sched buf,
  (forall i b, In i sched -> length b = length buf -> body i b = match f i with Some (j, v) => wr b j v | None => Ok b end) ->
  (forall i j v, In i sched -> f i = Some (j, v) -> j < length buf) ->
  (forall i i' j v v', In i sched -> In i' sched -> f i = Some (j, v) -> f i' = Some (j, v') -> v = v') ->
  exists buf', launch sched body buf = Ok buf' /\ length buf' = length buf /\
    (forall i j v, In i sched -> f i = Some (j, v) -> nth j buf' d = v) /\
    (forall j, (forall i v, In i sched -> f i <> Some (j, v)) -> nth j buf' d = nth j buf d).
Proof.
  intros A d body f sched. induction sched as [|i sched IH]; intros buf Hb Hr Hu.
  - exists buf. simpl. repeat split; auto; intros; contradiction.
  - unfold launch in *. simpl.
    assert (Ei : exists b1, body i buf = Ok b1 /\ length b1 = length buf /\
              (forall j, (forall v, f i <> Some (j, v)) -> nth j b1 d = nth j buf d) /\
              (forall j v, f i = Some (j, v) -> nth j b1 d = v)).
    { rewrite (Hb i buf) by (simpl; auto). destruct (f i) as [[j v]|] eqn:E.
      - assert (Hj : j < length buf) by (eapply Hr; simpl; eauto). rewrite wr_in by auto.
        exists (upd buf j v). rewrite upd_length. repeat split; auto.
        + intros j' Hne. rewrite nth_upd_neq; auto. intros ->. apply (Hne v). auto.
        + intros j' v' Ee. injection Ee as <- <-. apply nth_upd_eq; auto.
      - exists buf. repeat split; auto. intros; discriminate. }
    destruct Ei as [b1 [E1 [L1 [O1 W1]]]]. rewrite E1. simpl.
    destruct (IH b1) as [b2 [E2 [L2 [W2 O2]]]].
    { intros i' b Hi Hl. apply Hb; [simpl; auto|lia]. }
    { intros i' j v Hi Hf. rewrite L1. eapply Hr; simpl; eauto. }
    { intros i1 i2 j v v' H1 H2. apply Hu; simpl; auto. }
    exists b2. repeat split; auto; try lia.
    + intros i' j v [<-|Hi] Hf; [|eapply W2; eauto].
      destruct (in_dec Nat.eq_dec i sched) as [Hin|Hin]; [eapply W2; eauto|].
      (* either a later thread writes the same value, or nobody does *)
      assert (D : (exists i' v', In i' sched /\ f i' = Some (j, v')) \/ (forall i' v', In i' sched -> f i' <> Some (j, v'))).
      { clear - sched. induction sched as [|a l IHl]; [right; intros; contradiction|].
        destruct IHl as [[i' [v' [H1 H2]]]|Hn]; [left; exists i', v'; simpl; auto|].
        destruct (f a) as [[j' v']|] eqn:Ea.
        - destruct (Nat.eq_dec j' j) as [->|Hne]; [left; exists a, v'; simpl; auto|].
          right. intros i' w [<-|Hi] Hf; [rewrite Ea in Hf; congruence|apply (Hn i' w); auto].
        - right. intros i' w [<-|Hi] Hf; [congruence|apply (Hn i' w); auto]. }
      destruct D as [[i' [v' [H1 H2]]]|Hn].
      * rewrite (W2 i' j v' H1 H2). symmetry. eapply (Hu i i'); simpl; eauto.
      * rewrite O2 by auto. apply W1; auto.
    + intros j Hn. rewrite O2; [|intros; apply Hn; simpl; auto]. apply O1. intros v. apply Hn. simpl; auto.
Qed.

Lemma n_threads_ge : forall size, size <= n_threads size.
Proof.
  intros size. unfold n_threads.
  assert (Hb : block_size <> 0) by (unfold block_size; discriminate).
  generalize dependent block_size. intros b Hb.
  destruct size as [|n]; [lia|]. simpl. rewrite Nat.sub_0_r.
  pose proof (Nat.div_mod n b Hb). pose proof (Nat.mod_upper_bound n b Hb). nia.
Qed.
Lemma some_order_in : forall size sched i, some_order size sched -> i < size -> In i sched.
Proof.
  intros size sched i H Hi. apply (Permutation_in i (Permutation_sym H)). apply in_seq. pose proof (n_threads_ge size). lia.
Qed.

Lemma firstn_S_nth : forall A (l : list A) d n, n < length l -> firstn (S n) l = firstn n l ++ [nth n l d].
Proof.
  induction l as [|a l IH]; intros d n H; simpl in *; [lia|]. destruct n as [|n]; auto.
  simpl. f_equal. apply IH. lia.
Qed.
Lemma slice_ok : forall A (a b c : list A), slice (a ++ b ++ c) (length a) (length b) = Ok b.
Proof.
  intros. unfold slice. rewrite !app_length. replace (length a + length b <=? length a + (length b + length c)) with true
    by (symmetry; apply Nat.leb_le; lia).
  rewrite skipn_app, skipn_all, Nat.sub_diag. simpl. rewrite firstn_app, firstn_all, Nat.sub_diag. simpl. rewrite app_nil_r. auto.
Qed.
Lemma wr_at_ok : forall A (a b l c : list A), length b = length l -> wr_at (a ++ b ++ c) (length a) l = Ok (a ++ l ++ c).
Proof.
  intros A a b l c H. unfold wr_at. rewrite !app_length.
  replace (length a + length l <=? length a + (length b + length c)) with true by (symmetry; apply Nat.leb_le; lia).
  rewrite firstn_app, firstn_all, Nat.sub_diag. simpl. rewrite app_nil_r.
  do 3 f_equal. rewrite <- H. rewrite skipn_app, skipn_all2 by lia. simpl. replace (length a + length b - length a) with (length b) by lia.
  rewrite skipn_app, skipn_all, Nat.sub_diag. auto.
Qed.

Lemma all_gather_from : forall A (parts : list (list A)) pre rest post, length rest = length (concat parts) ->
  foldM (fun b (p : nat * list A) => wr_at b (fst p) (snd p)) (pre ++ rest ++ post) (combine (displs (length pre) (map (@length A) parts)) parts)
  = Ok (pre ++ concat parts ++ post).
Proof.
  intros A parts. induction parts as [|p parts IH]; intros pre rest post H; simpl in *.
  - destruct rest; [auto|discriminate].
  - rewrite app_length in H.
    rewrite <- (firstn_skipn (length p) rest). rewrite <- app_assoc.
    rewrite (wr_at_ok pre (firstn (length p) rest) p) by (rewrite firstn_length; lia).
    simpl. replace (length pre + length p) with (length (pre ++ p)) by (rewrite app_length; auto).
    rewrite (app_assoc pre p). rewrite IH by (rewrite skipn_length; lia).
    rewrite <- !app_assoc. auto.
Qed.
Lemma all_gather_concat : forall A (parts : list (list A)) buf, length buf = length (concat parts) -> all_gather parts buf = Ok (concat parts).
Proof.
  intros A parts buf H. unfold all_gather.
  pose proof (all_gather_from parts [] buf [] H) as E. simpl in E. rewrite !app_nil_r in E. exact E.
Qed.
Lemma all_gather_dev_concat : forall A (parts : list (list A)) buf, length buf = length (concat parts) -> all_gather_dev parts buf = Ok (concat parts).
Proof.
  intros A parts buf H. unfold all_gather_dev. destruct parts as [|p [|p2 parts]]; try (apply all_gather_concat; auto).
  simpl in *. rewrite app_nil_r in *. pose proof (wr_at_ok [] buf p []) as E. simpl in E. rewrite !app_nil_r in E. apply E. auto.
Qed.

Lemma partition_perm : forall n l, partition n l -> Permutation (concat l) (seq 0 n).
Proof.
  intros n l [H1 H2]. apply NoDup_Permutation; auto; [apply seq_NoDup|]. intros x. rewrite H2, in_seq. lia.
Qed.
Lemma partition_length : forall n l, partition n l -> length (concat l) = n.
Proof. intros n l H. rewrite (Permutation_length (partition_perm H)). apply seq_length. Qed.

Section P.
  Variable K : ofield.
  Add Field KfCsr : (f_field K).
  Local Open Scope nat_scope.

  Lemma concat_scatter : forall owned (x : vec K), concat (scatter owned x) = map (fun i => nth i x f0) (concat owned).
  Proof. intros. unfold scatter. rewrite concat_map. auto. Qed.

  Lemma gather_vector_spec : forall n owned sched (garbage dst x : list K), partition n owned -> some_order n sched ->
    length garbage = n -> length dst = n -> length x = n ->
    gather_vector sched (scatter owned x) owned n garbage dst = Ok x.
  Proof.
    intros n owned sched garbage dst x Hp Hs Hg Hd Hx. unfold gather_vector.
    pose proof (partition_length Hp) as Hl.
    rewrite all_gather_dev_concat by (rewrite concat_scatter, map_length; unfold OField.vec in *; lia). simpl.
    rewrite all_gather_concat by (rewrite repeat_length; auto). simpl.
    rewrite concat_scatter.
    destruct (@launch_writes K f0 (reorder_vector n (map (fun i => nth i x f0) (concat owned)) (concat owned))
                (fun i => if i <? n then Some (nth i (concat owned) 0, nth (nth i (concat owned) 0) x f0) else None) sched dst)
      as [d' [E [Ll [W O]]]].
    - intros i b Hi Hb. unfold reorder_vector. destruct (Nat.ltb_spec i n) as [Hin|Hin]; auto.
      unfold rd. rewrite (nth_error_nth_lt (concat owned) 0) by lia. simpl.
      rewrite (nth_error_nth_lt _ f0) by (rewrite map_length; lia). simpl.
      f_equal. rewrite (nth_indep _ f0 (nth 0 x f0)) by (rewrite map_length; lia). rewrite (map_nth (fun i => nth i x f0)). auto.
    - intros i j v Hi. destruct (Nat.ltb_spec i n) as [Hin|Hin]; [|discriminate]. intros E. injection E as <- _.
      rewrite Hd. apply Hp. apply nth_In. lia.
    - intros i i' j v v' _ _. destruct (i <? n), (i' <? n); try discriminate. intros E1 E2. congruence.
    - rewrite E. f_equal. apply (@list_ext K _ _ f0); [lia|]. intros j Hj.
      assert (Hin : In j (concat owned)) by (apply Hp; lia).
      destruct (In_nth _ _ 0 Hin) as [i [Hi Ei]].
      apply (W i). { eapply some_order_in; eauto. lia. }
      replace (i <? n) with true by (symmetry; apply Nat.ltb_lt; lia). rewrite Ei. auto.
  Qed.

  Lemma combine_split : forall (row : list (nat * K)), combine (map fst row) (map snd row) = row.
  Proof. induction row as [|[a b] row IH]; simpl; f_equal; auto. Qed.

  Lemma set_arguments_spec : forall (c : csr K) rows pos, csr_holds c rows -> pos < length rows -> set_arguments c pos = Ok (nth pos rows []).
  Proof.
    intros c rows pos H Hp. unfold set_arguments, rd. pose proof (cs_ptr_length H) as Hl.
    rewrite (nth_error_nth_lt (c_ptr c) 0) by lia. simpl.
    rewrite (nth_error_nth_lt (c_ptr c) 0) by lia. simpl.
    rewrite !(cs_ptr H) by lia.
    assert (Hf : concat (firstn (pos + 1) rows) = concat (firstn pos rows) ++ nth pos rows []).
    { rewrite Nat.add_1_r, (firstn_S_nth rows []) by auto. rewrite concat_app. simpl. rewrite app_nil_r. auto. }
    rewrite Hf, app_length.
    replace (length (concat (firstn pos rows)) + length (nth pos rows []) <? length (concat (firstn pos rows))) with false
      by (symmetry; apply Nat.ltb_ge; lia).
    replace (length (concat (firstn pos rows)) + length (nth pos rows []) - length (concat (firstn pos rows))) with (length (nth pos rows [])) by lia.
    rewrite (cs_col H), (cs_val H).
    assert (Hc : concat rows = concat (firstn pos rows) ++ nth pos rows [] ++ concat (skipn (pos + 1) rows)).
    { rewrite app_assoc, <- Hf, <- concat_app, firstn_skipn. auto. }
    rewrite Hc, !map_app.
    pose proof (slice_ok (map fst (concat (firstn pos rows))) (map fst (nth pos rows [])) (map fst (concat (skipn (pos + 1) rows)))) as S1.
    pose proof (slice_ok (map snd (concat (firstn pos rows))) (map snd (nth pos rows [])) (map snd (concat (skipn (pos + 1) rows)))) as S2.
    rewrite !map_length in S1, S2. rewrite S1. simpl. rewrite S2. simpl. rewrite combine_split. auto.
  Qed.

  Lemma entry_cons : forall e (row : list (nat * K)) g, entry (e :: row) g = ((if (fst e =? g)%nat then snd e else f0) + entry row g)%K.
  Proof. intros e row g. unfold entry. simpl. destruct (fst e =? g); simpl; ring. Qed.

  Lemma row_product : forall (row : list (nat * K)) (x : vec K) n, (forall e, In e row -> fst e < n) ->
    lsum (map (fun e : nat * K => (snd e * nth (fst e) x 0)%K) row) = sumn n (fun g => (entry row g * nth g x 0)%K).
  Proof.
    induction row as [|e row IH]; intros x n H; simpl.
    - symmetry. apply sumn_zero. intros i Hi. unfold entry. simpl. ring.
    - rewrite (IH x n) by (intros; apply H; simpl; auto).
      rewrite (@sumn_ext K n (fun g => (entry (e :: row) g * nth g x 0)%K)
                (fun g => ((if (g =? fst e)%nat then (snd e * nth (fst e) x 0)%K else 0%K) + entry row g * nth g x 0)%K)).
      + rewrite sumn_add. f_equal. rewrite (@sumn_single K n (fst e)).
        * rewrite Nat.eqb_refl. auto.
        * apply H. simpl; auto.
        * intros i Hi Hne. destruct (Nat.eqb_spec i (fst e)); [contradiction|auto].
      + intros g Hg. rewrite entry_cons. rewrite (Nat.eqb_sym g). destruct (Nat.eqb_spec (fst e) g) as [->|Hne]; ring.
  Qed.

  Lemma csrmv_row_spec : forall (c : csr K) rows r (x : vec K) n, csr_holds c rows -> r < length rows -> length x = n ->
    (forall e, In e (nth r rows []) -> fst e < n) ->
    csrmv_row c x r = Ok (sumn n (fun g => (entry (nth r rows []) g * nth g x 0)%K)).
  Proof.
    intros c rows r x n H Hr Hx Hc. unfold csrmv_row. rewrite (set_arguments_spec H Hr). simpl.
    rewrite (@mapM_ok _ _ _ (fun e : nat * K => (snd e * nth (fst e) x 0)%K)).
    - simpl. rewrite row_product with (n := n); auto.
    - intros e He. unfold rd. rewrite (nth_error_nth_lt x 0%K); auto. rewrite Hx. apply Hc. auto.
  Qed.

  Lemma vmult_spec : forall (c : csr K) rows n owned sched (garbage dst x d : list K), csr_holds c rows ->
    (forall r e, r < length rows -> In e (nth r rows []) -> fst e < n) -> partition n owned -> some_order n sched ->
    length garbage = n -> length dst = n -> length x = n -> length d = length rows ->
    vmult c sched (scatter owned x) owned n garbage dst d =
    Ok (map (fun r => sumn n (fun g => (entry (nth r rows []) g * nth g x 0)%K)) (seq 0 (length rows))).
  Proof.
    intros c rows n owned sched garbage dst x d H Hc Hp Hs Hg Hd Hx Hdl. unfold vmult.
    rewrite gather_vector_spec by auto. simpl.
    rewrite (@mapM_ok _ _ _ (fun r => sumn n (fun g => (entry (nth r rows []) g * nth g x 0)%K))).
    - simpl. rewrite <- (cs_rows H). pose proof (wr_at_ok [] d (map (fun r => sumn n (fun g => (entry (nth r rows []) g * nth g x 0)%K)) (seq 0 (length rows))) []) as E.
      simpl in E. rewrite !app_nil_r in E. apply E. rewrite map_length, seq_length. auto.
    - intros r Hr. apply in_seq in Hr. rewrite <- (cs_rows H) in Hr. apply csrmv_row_spec; auto; [lia|].
      intros e He. eapply Hc; eauto. lia.
  Qed.

  Lemma mapM_nth : forall A B (f : A -> outcome B) (g : A -> B) l, (forall a, In a l -> f a = Ok (g a)) -> mapM f l = Ok (map g l).
  Proof. exact mapM_ok. Qed.

  Lemma vmult_all_spec : forall (cs : list (csr K)) range (B : mat K) n owned env (x : vec K) (dst : list (list K)),
    distributed_as cs range B -> nc B = n -> partition n owned -> any_environment n env -> length x = n ->
    map (@length K) dst = map (@length nat) range ->
    vmult_all cs env owned n (scatter owned x) dst = Ok (scatter range (mulvec B x)).
  Proof.
    intros cs range B n owned env x dst [Hr [Hb Hd]] Hn Hp He Hx Hdl. unfold vmult_all.
    assert (Hcl : length cs = length range) by (rewrite <- Hr, map_length; auto).
    assert (Hdl' : length dst = length range) by (rewrite <- (map_length (@length K) dst), Hdl, map_length; auto).
    rewrite (@mapM_ok _ _ _ (fun r => map (fun i => nth i (mulvec B x) f0) (nth r range []))).
    - f_equal. unfold scatter. apply (@list_ext _ _ _ []); rewrite !map_length, seq_length; auto.
      intros i Hi. rewrite (nth_indep _ [] (map (fun i0 => nth i0 (mulvec B x) f0) (nth 0 range []))) by (rewrite map_length, seq_length; lia).
      rewrite (map_nth (fun r => map (fun i0 => nth i0 (mulvec B x) f0) (nth r range []))). rewrite seq_nth by auto. simpl.
      rewrite (nth_indep _ [] (map (fun i0 => nth i0 (mulvec B x) f0) [])) by (rewrite map_length; lia).
      rewrite (map_nth (map (fun i0 => nth i0 (mulvec B x) f0))). auto.
    - intros r Hin. apply in_seq in Hin. destruct (nth_error cs r) as [c|] eqn:Ec.
      2:{ apply nth_error_None in Ec. lia. }
      unfold rd at 1. rewrite Ec. simpl.
      unfold rd at 1. rewrite (nth_error_nth_lt dst []) by lia. simpl.
      destruct (Hd r c Ec) as [rows [Hh Hrow]].
      assert (Hcr : c_range c = nth r range []).
      { rewrite <- Hr. erewrite (nth_indep _ []); [rewrite (map_nth (@c_range K) cs c r)|rewrite map_length; lia].
        f_equal. symmetry. apply nth_error_nth. auto. }
      destruct (He r) as [E1 [E2 E3]].
      rewrite (@vmult_spec c rows n); auto.
      + f_equal. rewrite (cs_rows Hh), Hcr. apply (@list_ext K _ _ f0); rewrite !map_length, seq_length; auto.
        intros i Hi.
        assert (Hil : i < length rows) by (rewrite (cs_rows Hh), Hcr; auto).
        erewrite (nth_indep _ f0); [rewrite (map_nth (fun r0 => sumn n (fun g => (entry (nth r0 rows []) g * nth g x 0)%K)) _ 0)|rewrite map_length, seq_length; auto].
        rewrite seq_nth by auto. rewrite Nat.add_0_l.
        erewrite (nth_indep (map _ (nth r range []))); [rewrite (map_nth (fun i0 => nth i0 (mulvec B x) f0) _ 0)|rewrite map_length; auto].
        assert (Hg : nth i (nth r range []) 0 < nr B).
        { apply Hb. eapply in_nth_concat with (r := r); [lia|]. apply nth_In; auto. }
        rewrite nth_mulvec by auto. rewrite Hn. apply sumn_ext. intros g Hg'.
        rewrite (proj2 (Hrow i Hil)) by (rewrite Hn; auto). auto.
      + intros r0 e Hr0 He0. rewrite <- Hn. apply (proj1 (Hrow r0 Hr0)). auto.
      + rewrite (cs_rows Hh), Hcr. rewrite <- (map_nth (@length K)). rewrite Hdl. change (@length K []) with (@length nat []). apply (map_nth (@length nat) range [] r).
  Qed.
End P.
