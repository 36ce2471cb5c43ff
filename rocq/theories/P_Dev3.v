(** Device matrices behave like values. *)
From Coq Require Import List Arith Lia Bool Permutation.
From Verif Require Import Base OField M_Csr M_Dev S_Dev P_AmgxLife P_Dev P_Dev2.
Import ListNotations.
Set Implicit Arguments.
Open Scope nat_scope.

Section P.
  Variable K : ofield.
  Implicit Types (h : heap K) (s : state K) (v : value K).

  Lemma values_frame : forall h h' p l, values_at h p l -> (forall id, In id (opt p) -> lookup h' id = lookup h id) -> values_at h' p l.
  Proof. intros h h' [id|] l H E; cbn in *; auto. rewrite E; auto. Qed.
  Lemma indices_frame : forall h h' p l, indices_at h p l -> (forall id, In id (opt p) -> lookup h' id = lookup h id) -> indices_at h' p l.
  Proof. intros h h' [id|] l H E; cbn in *; auto. rewrite E; auto. Qed.
  Lemma represents_frame : forall h h' d v, represents h d v -> (forall id, In id (dev_ids d) -> lookup h' id = lookup h id) -> represents h' d v.
  Proof.
    intros h h' d [| |c w e] H E; auto. cbn [represents] in *. destruct H as [H1 [H2 [H3 [H4 [H5 [H6 H7]]]]]].
    unfold dev_ids in E. split; auto. split; [eapply values_frame; eauto; intros; apply E; rewrite !in_app_iff; auto|].
    split; [eapply indices_frame; eauto; intros; apply E; rewrite !in_app_iff; auto|].
    split; [eapply indices_frame; eauto; intros; apply E; rewrite !in_app_iff; auto|]. split; auto. split; auto.
    destruct (d_descr d) as [id|]; auto. rewrite E; auto. rewrite !in_app_iff. simpl. auto.
  Qed.
  Lemma read_vals_ok : forall debug h p l n, values_at h p l -> length l = n -> read_vals debug h p n = Ok l.
  Proof.
    intros debug h p l n H E. unfold read_vals. destruct (n =? 0) eqn:En.
    - apply Nat.eqb_eq in En. destruct l; auto. simpl in E. lia.
    - apply Nat.eqb_neq in En. destruct p as [id|]; cbn in H; [|subst; simpl in En; lia]. destruct H as [H _]. rewrite H.
      rewrite <- E, Nat.leb_refl, firstn_all. auto.
  Qed.
  Lemma read_ints_ok : forall debug h p l n, indices_at h p l -> length l = n -> read_ints debug h p n = Ok l.
  Proof.
    intros debug h p l n H E. unfold read_ints. destruct (n =? 0) eqn:En.
    - apply Nat.eqb_eq in En. destruct l; auto. simpl in E. lia.
    - apply Nat.eqb_neq in En. destruct p as [id|]; cbn in H; [|subst; simpl in En; lia]. destruct H as [H _]. rewrite H.
      rewrite <- E, Nat.leb_refl, firstn_all. auto.
  Qed.
  Lemma represents_contents : forall debug h d c w e, represents h d (VMatrix c w e) -> contents debug h d = Ok c.
  Proof.
    intros debug h d c w e H. cbn [represents] in H. destruct H as [[S1 [S2 S3]] [H2 [H3 [H4 [H5 [H6 [H7 [H8 [H9 [H10 [H11 H12]]]]]]]]]]].
    unfold contents. rewrite H7. cbn [known bind]. rewrite (@read_vals_ok debug _ _ _ _ H2 S1). cbn [bind]. rewrite (@read_ints_ok debug _ _ _ _ H3 S2). cbn [bind].
    rewrite H11, (@read_ints_ok debug _ _ _ _ H4 S3). cbn [bind]. rewrite H9, H10, H12. destruct c. reflexivity.
  Qed.
  Lemma represents_descr : forall debug h d c w, represents h d (VMatrix c w true) -> read_descr debug h (d_descr d) = Ok tt.
  Proof.
    intros debug h d c w H. cbn [represents] in H. destruct H as [_ [_ [_ [_ [_ [H _]]]]]]. unfold read_descr. destruct (d_descr d) as [id|]; [|discriminate].
    destruct H as [_ ->]. auto.
  Qed.
  Lemma opt_vals : forall h p l, values_at h p l -> length (opt p) = if length l =? 0 then 0 else 1.
  Proof. intros h [id|] l H; cbn in *; [destruct H as [_ H]; destruct l; [congruence|auto]|subst; auto]. Qed.
  Lemma opt_ints : forall h p l, indices_at h p l -> length (opt p) = if length l =? 0 then 0 else 1.
  Proof. intros h [id|] l H; cbn in *; [destruct H as [_ H]; destruct l; [congruence|auto]|subst; auto]. Qed.
  Lemma represents_buffers : forall h d v, represents h d v -> length (buf_ids d) = buffers v.
  Proof.
    intros h d [| |c w e] H; cbn [represents] in H; try (subst; reflexivity).
    destruct H as [[S1 [S2 S3]] [H2 [H3 [H4 _]]]]. unfold buf_ids. rewrite !app_length, (@opt_vals _ _ _ H2), (@opt_ints _ _ _ H3), (@opt_ints _ _ _ H4), S1, S2, S3.
    cbn [buffers]. destruct (c_nnz c =? 0); rewrite Nat.add_1_r; reflexivity.
  Qed.
  Lemma represents_needs : forall h d v, represents h d v -> length (dev_ids d) = needs v.
  Proof.
    intros h d v H. pose proof (@represents_buffers _ _ _ H) as B. unfold needs. rewrite <- B. unfold dev_ids, buf_ids. rewrite !app_length.
    destruct v as [| |c w e]; cbn [represents] in H; try (subst; reflexivity). destruct H as [_ [_ [_ [_ [_ [H _]]]]]].
    destruct (d_descr d) as [id|]; [destruct H as [-> _]|subst]; simpl; lia.
  Qed.

  Lemma all_get : forall s vs i v, all_represent s vs -> has vs i v -> exists d, nth_error (s_objects s) i = Some (Some d) /\ object s i = Ok d /\ represents (s_heap s) d v.
  Proof. intros s vs i v [_ H] Hi. specialize (H i). unfold has in Hi. rewrite Hi in H. destruct H as [d [E R]]. exists d. split; auto. split; auto. apply object_ok. auto. Qed.
  Lemma all_frame : forall s vs h', all_represent s vs ->
    (forall i d id, nth_error (s_objects s) i = Some (Some d) -> In id (dev_ids d) -> lookup h' id = lookup (s_heap s) id) ->
    all_represent (mkState h' (s_objects s)) vs.
  Proof.
    intros s vs h' [H1 H2] E. split; auto. intros i. specialize (H2 i). cbn [s_objects s_heap]. destruct (nth_error vs i) as [[v|]|]; auto.
    destruct H2 as [d [Hd R]]. exists d. split; auto. eapply represents_frame; eauto.
  Qed.
  Lemma all_snoc : forall s vs d v, all_represent s vs -> represents (s_heap s) d v ->
    all_represent (mkState (s_heap s) (s_objects s ++ [Some d])) (vs ++ [Some v]).
  Proof.
    intros s vs d v [H1 H2] R. split; cbn [s_objects s_heap]; [rewrite !app_length, H1; auto|]. intros i.
    destruct (Nat.lt_trichotomy i (length vs)) as [Hl|[->|Hg]].
    - rewrite !nth_error_app1 by lia. specialize (H2 i). auto.
    - rewrite nth_error_app2, Nat.sub_diag by lia. simpl. exists d. rewrite <- H1, nth_error_app2, Nat.sub_diag by lia. auto.
    - replace (nth_error (vs ++ [Some v]) i) with (@None (option (value K))); auto. symmetry. apply nth_error_None. rewrite app_length. simpl. lia.
  Qed.
  (** Object c is replaced and the heap keeps what the other objects have. *)
  Lemma all_upd : forall s vs h' c o o', all_represent s vs ->
    (forall i d id, i <> c -> nth_error (s_objects s) i = Some (Some d) -> In id (dev_ids d) -> lookup h' id = lookup (s_heap s) id) ->
    match o, o' with Some d, Some v => represents h' d v | None, None => True | _, _ => False end ->
    all_represent (mkState h' (upd (s_objects s) c o)) (upd vs c o').
  Proof.
    intros s vs h' c o o' [H1 H2] E R. split; cbn [s_objects s_heap]; [rewrite !upd_length; auto|]. intros i.
    destruct (Nat.eq_dec i c) as [->|Hn].
    - destruct (Nat.lt_ge_cases c (length vs)) as [Hl|Hl].
      + rewrite !nth_error_upd_eq by lia. destruct o as [d|], o' as [v|]; try contradiction; auto. exists d. auto.
      + replace (nth_error (upd vs c o') c) with (@None (option (value K))); auto. symmetry. apply nth_error_None. rewrite upd_length. auto.
    - rewrite !nth_error_upd_neq by auto. specialize (H2 i). destruct (nth_error vs i) as [[v|]|]; auto. destruct H2 as [d [Hd Rd]]. exists d. split; auto.
      eapply represents_frame; eauto.
  Qed.
  Lemma own_in : forall s L i d id, own s L -> nth_error (s_objects s) i = Some (Some d) -> In id (dev_ids d) -> In id (ids (s_heap s)).
  Proof. intros s L i d id H Hi Hin. apply cnt_in. apply cnt_in in Hin. pose proof (own_le _ H Hi id). lia. Qed.

  Lemma mmult_serial_effect : forall debug gemm s L vs a b c ca cb cc w w' , own s L -> all_represent s vs ->
    has vs a (VMatrix ca true true) -> has vs b (VMatrix cb w' true) -> has vs c (VMatrix cc w true) -> a <> c -> b <> c ->
    sound_csr (gemm ca cb) -> c_m (gemm ca cb) = c_m ca -> c_n (gemm ca cb) = c_n cb -> c_range (gemm ca cb) = c_range ca -> c_domain (gemm ca cb) = c_domain cb ->
    exists s', mmult_serial debug gemm s a b c = Ok s' /\ all_represent s' (upd vs c (Some (VMatrix (gemm ca cb) w true))).
  Proof.
    intros debug gemm s L vs a b c ca cb cc w w' H HA Ha Hb Hc Nac Nbc Sr Mr Nr Rr Dr.
    destruct (all_get HA Ha) as [da [Ea [Oa Ra]]]. destruct (all_get HA Hb) as [db [Eb [Ob Rb]]]. destruct (all_get HA Hc) as [dc [Ec [Oc Rc]]].
    unfold mmult_serial. rewrite Oa, Ob, Oc. cbn [bind]. pose proof (own_le _ H Ec) as Hle.
    destruct (@cuda_free_ok K (s_heap s) (d_ptr dc) (ow_heap H)) as [h1 [E1 S1]]; [intros id; specialize (Hle id); rewrite cnt_dev in Hle; lia|].
    rewrite E1. cbn [bind]. destruct (malloc_junk (length (d_range da) + 1) h1) as [ptr h2] eqn:E2.
    destruct (malloc_junk_ok _ (sh_ok S1) E2) as [G2 J2].
    set (dc1 := mkDevice (d_val dc) (d_col dc) ptr (d_handle dc) (d_descr dc) (d_lnnz dc) (d_nnz dc) (d_m dc) (d_n dc) (d_range dc) (d_domain dc)).
    set (s2 := mkState h2 (upd (s_objects s) c (Some dc1))).
    assert (Oa2 : object s2 a = Ok da) by (apply object_ok; cbn [s2 s_objects]; rewrite nth_error_upd_neq; auto).
    assert (Ob2 : object s2 b = Ok db) by (apply object_ok; cbn [s2 s_objects]; rewrite nth_error_upd_neq; auto).
    rewrite Oa2, Ob2. cbn [bind].
    assert (L1 : forall id, In id (ids (s_heap s)) -> ~ In id (opt (d_ptr dc)) -> In id (ids h1)).
    { intros id Hi Hn. rewrite cnt_in in *. pose proof (sh_cnt S1 id). lia. }
    assert (L2 : forall id, In id (ids (s_heap s)) -> ~ In id (opt (d_ptr dc)) -> lookup h2 id = lookup (s_heap s) id).
    { intros id Hi Hn. rewrite (gr_lookup G2), (sh_lookup S1); auto. }
    assert (Other : forall i d id, i <> c -> nth_error (s_objects s) i = Some (Some d) -> In id (dev_ids d) -> In id (ids (s_heap s)) /\ ~ In id (dev_ids dc)).
    { intros i d id Hn Hi Hin. split; [eapply own_in; eauto|]. eapply own_disjoint; eauto. }
    assert (Hptr : forall id, In id (opt (d_ptr dc)) -> In id (dev_ids dc)) by (intros; unfold dev_ids; rewrite !in_app_iff; auto).
    assert (Hval : forall id, In id (opt (d_val dc)) -> In id (dev_ids dc)) by (intros; unfold dev_ids; rewrite !in_app_iff; auto).
    assert (Hcol : forall id, In id (opt (d_col dc)) -> In id (dev_ids dc)) by (intros; unfold dev_ids; rewrite !in_app_iff; auto).
    assert (F2 : forall i d id, i <> c -> nth_error (s_objects s) i = Some (Some d) -> In id (dev_ids d) -> lookup h2 id = lookup (s_heap s) id).
    { intros i d id Hn Hi Hin. destruct (Other i d id Hn Hi Hin) as [O1 O2]. apply L2; auto. }
    assert (Ra2 : represents h2 da (VMatrix ca true true)) by (eapply represents_frame; eauto).
    assert (Rb2 : represents h2 db (VMatrix cb w' true)) by (eapply represents_frame; eauto).
    replace (d_handle da) with true by (cbn [represents] in Ra; symmetry; tauto). cbn [negb].
    rewrite (@represents_descr debug _ _ _ _ Ra2), (@represents_descr debug _ _ _ _ Rb2). cbn [bind].
    assert (Hdc : exists x, d_descr dc = Some x /\ lookup (s_heap s) x = Some CDescr).
    { cbn [represents] in Rc. destruct Rc as [_ [_ [_ [_ [_ [Rc _]]]]]]. destruct (d_descr dc) as [x|]; [|discriminate]. exists x. tauto. }
    destruct Hdc as [x [Hx Lx]].
    assert (Cx : cnt x (ids (s_heap s)) <= 1 /\ cnt x (dev_ids dc) <= cnt x (ids (s_heap s))) by (split; [apply cnt_le_1; apply (ow_heap H)|apply Hle]).
    assert (Nx : ~ In x (opt (d_ptr dc)) /\ ~ In x (opt (d_val dc)) /\ ~ In x (opt (d_col dc))).
    { rewrite cnt_dev, Hx in Cx. cbn [opt] in Cx. rewrite cnt_cons in Cx. destruct (Nat.eq_dec x x); [|congruence]. rewrite !cnt_in. lia. }
    assert (Ix : In x (ids (s_heap s))) by (apply lookup_in; congruence).
    cbn [dc1 d_descr d_val d_col d_handle]. rewrite Hx. unfold read_descr. rewrite (L2 x Ix) by tauto. rewrite Lx. cbn [bind].
    rewrite (@represents_contents debug _ _ _ _ _ Ra2), (@represents_contents debug _ _ _ _ _ Rb2). cbn [bind]. set (r := gemm ca cb) in *.
    assert (Hp2 : forall id, cnt id (opt ptr) <= cnt id (ids h2)) by (intros id; rewrite (gr_cnt G2); lia).
    destruct (@store_at_ok K h2 ptr (CInts (c_ptr r)) (gr_ok G2) Hp2) as [h3 [E3 [W3 V3]]]. rewrite E3. cbn [bind].
    assert (Hlc : forall id, cnt id (ids h2) = cnt id (ids (s_heap s)) - cnt id (opt (d_ptr dc)) + cnt id (opt ptr)).
    { intros id. rewrite (gr_cnt G2). pose proof (sh_cnt S1 id). lia. }
    destruct (@cuda_free_ok K h3 (d_val dc) (wt_ok W3)) as [h4 [E4 S4]];
      [intros y; specialize (Hle y); rewrite cnt_dev in Hle; rewrite (wt_cnt W3), Hlc; lia|]. rewrite E4. cbn [bind].
    destruct (@cuda_free_ok K h4 (d_col dc) (sh_ok S4)) as [h5 [E5 S5]];
      [intros y; specialize (Hle y); rewrite cnt_dev in Hle; pose proof (sh_cnt S4 y) as Q; rewrite (wt_cnt W3), Hlc in Q; lia|]. rewrite E5. cbn [bind].
    destruct (malloc_junk (c_nnz r) h5) as [val h6] eqn:E6. destruct (malloc_junk_ok _ (sh_ok S5) E6) as [G6 J6].
    destruct (malloc_junk (c_nnz r) h6) as [col h7] eqn:E7. destruct (malloc_junk_ok _ (gr_ok G6) E7) as [G7 J7].
    cbn [s2 s_objects]. rewrite upd_same_twice.
    set (dc2 := mkDevice val col ptr (d_handle dc) (Some x) (Some (c_nnz r)) (Some (c_nnz r)) (d_m da) (d_n db) (d_range da) (d_domain db)).
    set (s3 := mkState h7 (upd (s_objects s) c (Some dc2))).
    assert (Oa3 : object s3 a = Ok da) by (apply object_ok; cbn [s3 s_objects]; rewrite nth_error_upd_neq; auto).
    assert (Ob3 : object s3 b = Ok db) by (apply object_ok; cbn [s3 s_objects]; rewrite nth_error_upd_neq; auto).
    rewrite Oa3, Ob3. cbn [bind].
    (* an allocation that is neither a buffer of C nor new is untouched up to h7 *)
    assert (In5 : forall id, In id (ids (s_heap s)) -> ~ In id (opt (d_ptr dc)) -> ~ In id (opt (d_val dc)) -> ~ In id (opt (d_col dc)) ->
                    In id (ids h5) /\ lookup h5 id = lookup (s_heap s) id /\ ~ In id (opt ptr)).
    { intros id Hi N1 N2 N3. assert (Np : ~ In id (opt ptr)) by (apply (gr_new G2); auto). split.
      - rewrite cnt_in in *. pose proof (sh_cnt S5 id) as Q5. pose proof (sh_cnt S4 id) as Q4. rewrite (wt_cnt W3), Hlc in Q4. lia.
      - split; auto. rewrite (sh_lookup S5), (sh_lookup S4), (wt_lookup W3), L2; auto. }
    assert (In7 : forall id, In id (ids (s_heap s)) -> ~ In id (opt (d_ptr dc)) -> ~ In id (opt (d_val dc)) -> ~ In id (opt (d_col dc)) ->
                    lookup h7 id = lookup (s_heap s) id /\ ~ In id (opt ptr) /\ ~ In id (opt val) /\ ~ In id (opt col)).
    { intros id Hi N1 N2 N3. destruct (In5 id Hi N1 N2 N3) as [P1 [P2 P3]].
      assert (P4 : In id (ids h6)) by (rewrite cnt_in in *; rewrite (gr_cnt G6); lia).
      split; [rewrite (gr_lookup G7), (gr_lookup G6); auto|]. split; auto. split; [apply (gr_new G6)|apply (gr_new G7)]; auto. }
    assert (F7 : forall i d id, i <> c -> nth_error (s_objects s) i = Some (Some d) -> In id (dev_ids d) ->
                   lookup h7 id = lookup (s_heap s) id /\ ~ In id (opt ptr) /\ ~ In id (opt val) /\ ~ In id (opt col)).
    { intros i d id Hn Hi Hin. destruct (Other i d id Hn Hi Hin) as [O1 O2]. apply In7; auto. }
    rewrite (@represents_contents debug h7 da ca true true) by (eapply represents_frame; [exact Ra|]; intros id0 Hid; apply (F7 a da id0 Nac Ea Hid)).
    rewrite (@represents_contents debug h7 db cb w' true) by (eapply represents_frame; [exact Rb|]; intros id0 Hid; apply (F7 b db id0 Nbc Eb Hid)). cbn [bind].
    assert (Hv7 : forall id, cnt id (opt val) <= cnt id (ids h7)) by (intros id; rewrite (gr_cnt G7), (gr_cnt G6); lia).
    destruct (@store_at_ok K h7 val (CVals (c_val r)) (gr_ok G7) Hv7) as [h8 [E8 [W8 V8]]]. rewrite E8. cbn [bind].
    assert (Hc8 : forall id, cnt id (opt col) <= cnt id (ids h8)) by (intros id; rewrite (wt_cnt W8), (gr_cnt G7); lia).
    destruct (@store_at_ok K h8 col (CInts (c_col r)) (wt_ok W8) Hc8) as [h9 [E9 [W9 V9]]]. rewrite E9. cbn [bind].
    eexists. split; [reflexivity|]. cbn [s3 s_objects].
    assert (Dval : forall id, In id (opt val) -> ~ In id (opt col)).
    { intros id Hi. apply (gr_new G7). rewrite cnt_in in *. rewrite (gr_cnt G6). lia. }
    assert (Iptr : forall id, In id (opt ptr) -> In id (ids h5) /\ lookup h5 id = Some (CInts (c_ptr r))).
    { intros id Hi. destruct ptr as [p|]; [|contradiction]. destruct Hi as [<-|[]].
      assert (Np : ~ In p (opt (d_val dc)) /\ ~ In p (opt (d_col dc))).
      { assert (forall q, In q (opt (d_val dc)) \/ In q (opt (d_col dc)) -> In q (ids h1)) as Hq.
        { intros q Hq. assert (cnt q (opt (d_val dc)) + cnt q (opt (d_col dc)) > 0) by (rewrite !cnt_in in Hq; lia).
          specialize (Hle q). rewrite cnt_dev in Hle. pose proof (sh_cnt S1 q). apply cnt_in. lia. }
        split; intros Hi; apply (gr_new G2) with (id := p); simpl; auto. }
      assert (Ip : In p (ids h5)).
      { apply cnt_in. pose proof (sh_cnt S5 p) as Q5. pose proof (sh_cnt S4 p) as Q4. rewrite (wt_cnt W3), (gr_cnt G2) in Q4. cbn [opt] in Q4.
        rewrite cnt_cons in Q4. destruct (Nat.eq_dec p p); [|congruence]. rewrite !cnt_in in Np. lia. }
      split; auto. rewrite (sh_lookup S5), (sh_lookup S4) by tauto. apply V3. auto. }
    apply all_upd with (s := s); auto.
    - intros i d id Hn Hi Hin. destruct (F7 i d id Hn Hi Hin) as [O1 [O2 [O3 O4]]]. rewrite (wt_lookup W9), (wt_lookup W8); auto.
    - destruct Sr as [Sr1 [Sr2 Sr3]].
      cbn [represents] in Ra, Rb, Rc.
      cbn [represents d_val d_col d_ptr d_handle d_descr d_lnnz d_nnz d_m d_n d_range d_domain].
      split; [split; auto|]. split; [|split; [|split]].
      + destruct val as [p|]; cbn [values_at].
        * destruct J6 as [J6 _]. split; [rewrite (wt_lookup W9) by (apply Dval; simpl; auto); apply V8; auto|]. intros Q. rewrite Q in Sr1. simpl in Sr1. congruence.
        * rewrite J6 in Sr1. apply length_zero_iff_nil; auto.
      + destruct col as [p|]; cbn [indices_at].
        * destruct J7 as [J7 _]. split; [apply V9; auto|]. intros Q. rewrite Q in Sr2. simpl in Sr2. congruence.
        * rewrite J7 in Sr2. apply length_zero_iff_nil; auto.
      + destruct ptr as [p|]; cbn [indices_at].
        * destruct (Iptr p) as [P1 P2]; [simpl; auto|]. split.
          -- assert (P6 : In p (ids h6)) by (rewrite cnt_in in *; rewrite (gr_cnt G6); lia).
             rewrite (wt_lookup W9) by (apply (gr_new G7); auto). rewrite (wt_lookup W8) by (apply (gr_new G6); auto).
             rewrite (gr_lookup G7), (gr_lookup G6) by auto. auto.
          -- intros Q. rewrite Q in Sr3. simpl in Sr3. lia.
        * lia.
      + split; [tauto|]. split.
        * split; auto. destruct (In7 x) as [P1 [P2 [P3 P4]]]; try tauto. rewrite (wt_lookup W9), (wt_lookup W8) by auto. congruence.
        * destruct Ra as [_ [_ [_ [_ [_ [_ [_ [_ [Ra1 [Ra2' [Ra3 Ra4]]]]]]]]]]]. destruct Rb as [_ [_ [_ [_ [_ [_ [_ [_ [Rb1 [Rb2' [Rb3 Rb4]]]]]]]]]]].
          rewrite Mr, Nr, Rr, Dr. repeat (split; auto).
  Qed.

  Lemma represents_counts : forall h d v, represents h d v -> v <> VDefault -> take d = Ok d.
  Proof.
    intros h d [| |c w e] H Hn; [congruence| |]; cbn [represents] in H.
    - subst. reflexivity.
    - unfold take. destruct H as [_ [_ [_ [_ [_ [_ [H7 [H8 _]]]]]]]]. rewrite H7, H8. reflexivity.
  Qed.

  Lemma step_effect : forall debug gemm s L vs o vs' n, own s L -> all_represent s vs -> effect debug gemm vs o vs' n ->
    exists s', step debug gemm s o = Ok s' /\ all_represent s' vs' /\ length (lost s o) = n.
  Proof.
    intros debug gemm s L vs o vs' n H HA E. destruct E.
    - eexists. split; [reflexivity|]. split; auto. apply all_snoc; auto. reflexivity.
    - cbn [step lost]. destruct (construct c w (s_heap s)) as [d h] eqn:E1. destruct (construct_ok _ _ (ow_heap H) E1) as [C1 [C2 [C3 C4]]].
      eexists. split; [reflexivity|]. split; auto. apply (@all_snoc (mkState h (s_objects s)) vs); auto.
      apply all_frame; auto. intros. apply C3. eapply own_in; eauto.
    - cbn [step lost]. destruct (all_get HA H0) as [d [Ed [Od Rd]]]. rewrite Od. cbn [bind].
      pose proof (@represents_contents debug _ _ _ _ _ Rd) as Hcont.
      assert (Hd : d_handle d = w /\ d_lnnz d = Some (c_nnz c) /\ d_nnz d = Some (c_nnz c) /\ sound_csr c) by (cbn [represents] in Rd; tauto).
      destruct Hd as [Hw [Hl [Hz Hs]]].
      destruct (copy_construct debug d (s_heap s)) as [[d' h]| | | |] eqn:E1;
        try (unfold copy_construct in E1; rewrite Hz, Hcont in E1; cbn [known bind] in E1;
             destruct (new_buffers c (s_heap s)) as [[[p1 p2] p3] h1]; destruct (alloc CDescr h1); discriminate).
      destruct (copy_construct_ok _ _ (ow_heap H) E1) as [C1 [C2 [C3 C4]]].
      eexists. split; [reflexivity|]. split; auto. apply (@all_snoc (mkState h (s_objects s)) vs).
      + apply all_frame; auto. intros. apply C3. eapply own_in; eauto.
      + cbn [s_heap]. rewrite <- Hw. apply C4; auto. congruence.
    - cbn [step lost]. destruct (all_get HA H0) as [d [Ed [Od Rd]]]. rewrite Od. cbn [bind]. rewrite (@represents_counts _ _ _ Rd) by auto. cbn [bind].
      eexists. split; [reflexivity|]. split; auto.
      apply (@all_snoc (mkState (s_heap s) (upd (s_objects s) i (Some moved_from))) (upd vs i (Some VEmpty))); auto.
      apply all_upd; auto. reflexivity.
    - cbn [step lost]. destruct (all_get HA H0) as [d0 [E0 [O0 R0]]]. destruct (all_get HA H1) as [d [Ed [Od Rd]]]. rewrite O0, Od. cbn [bind].
      rewrite (@represents_counts _ _ _ Rd) by auto. cbn [bind]. eexists. split; [reflexivity|]. split; [|apply (@represents_needs _ _ _ R0)].
      apply (@all_upd (mkState (s_heap s) (upd (s_objects s) i (Some d))) (upd vs i (Some v))); auto; [|reflexivity].
      apply all_upd; auto.
    - cbn [step lost]. destruct (all_get HA H0) as [d [Ed [Od Rd]]]. rewrite Od. cbn [bind].
      assert (Hnull : assert_dbg debug (match d_val d, d_col d, d_ptr d with None, None, None => true | _, _, _ => false end) = Ok tt).
      { destruct debug; auto. specialize (H2 eq_refl). rewrite <- (@represents_buffers _ _ _ Rd) in H2. unfold buf_ids in H2. rewrite !app_length in H2.
        destruct (d_val d), (d_col d), (d_ptr d); simpl in H2; try lia; reflexivity. }
      rewrite Hnull. cbn [bind]. destruct (construct c true (s_heap s)) as [d' h] eqn:E1. destruct (construct_ok _ _ (ow_heap H) E1) as [C1 [C2 [C3 C4]]].
      eexists. split; [reflexivity|]. split; [|apply (@represents_needs _ _ _ Rd)]. apply all_upd; auto. intros. apply C3. eapply own_in; eauto.
    - cbn [step lost]. destruct (all_get HA H0) as [d [Ed [Od Rd]]]. rewrite Od. cbn [bind]. destruct (attach d (s_heap s)) as [d' h] eqn:E1.
      destruct (attach_ok (ow_heap H) E1) as [A1 [A2 [A3 [x [A4 ->]]]]]. eexists. split; [reflexivity|]. split.
      + apply all_upd; auto; [intros; apply A3; eapply own_in; eauto|].
        assert (Rd' : represents h d (VMatrix c w e)) by (eapply represents_frame; [exact Rd|]; intros; apply A3; eapply own_in; eauto).
        cbn [represents d_val d_col d_ptr d_handle d_descr d_lnnz d_nnz d_m d_n d_range d_domain] in *.
        destruct Rd' as [R1 [R2 [R3 [R4 [R5 [R6 R7]]]]]]. repeat (split; auto); tauto.
      + cbn [represents] in Rd. destruct Rd as [_ [_ [_ [_ [_ [Rd _]]]]]]. destruct (d_descr d); [destruct Rd as [-> _]|rewrite Rd]; auto.
    - cbn [step lost]. destruct (all_get HA H0) as [d [Ed [Od Rd]]]. rewrite Od. cbn [bind].
      destruct (vmult_memory_eq debug d size (ow_heap H)) as [h [V1 [V2 [V3 V4]]]]. rewrite V4.
      assert (Rd' : represents h d (VMatrix c true true)) by (eapply represents_frame; [exact Rd|]; intros; apply V3; eapply own_in; eauto).
      assert (Hdd : d_handle d && match d_descr d with Some _ => true | None => false end = true).
      { cbn [represents] in Rd. destruct Rd as [_ [_ [_ [_ [-> [Rd _]]]]]]. destruct (d_descr d); auto. }
      rewrite Hdd, (@represents_descr debug _ _ _ _ Rd'), (@represents_contents debug _ _ _ _ _ Rd'). cbn [bind].
      eexists. split; [reflexivity|]. split; [apply all_frame; auto; intros; apply V3; eapply own_in; eauto|]. destruct (size =? 0); auto.
    - subst e. cbn [step lost]. destruct (all_get HA H0) as [da [Ea [Oa Ra]]]. destruct (all_get HA H1) as [db [Eb [Ob Rb]]].
      rewrite Oa, Ob. cbn [bind].
      assert (Ha : assert_dbg debug (d_m db =? d_n da) = Ok tt).
      { destruct debug; auto. cbn [represents] in Ra, Rb. destruct Ra as [_ [_ [_ [_ [_ [_ [_ [_ [_ [Ra _]]]]]]]]]]. destruct Rb as [_ [_ [_ [_ [_ [_ [_ [_ [Rb _]]]]]]]]].
        rewrite Ra, Rb, H6 by auto. unfold assert_dbg. rewrite Nat.eqb_refl. auto. }
      rewrite Ha. cbn [bind]. destruct (@mmult_serial_effect debug gemm s L vs a b c ca cb cc w w') as [s' [Es Hs]]; auto. exists s'. auto.
    - cbn [step lost]. destruct (all_get HA H0) as [da [Ea [Oa Ra]]]. destruct (all_get HA H1) as [db [Eb [Ob Rb]]]. destruct (all_get HA H2) as [dc [Ec [Oc Rc]]].
      rewrite Oa, Ob. cbn [bind].
      assert (Ha : assert_dbg debug (d_m db =? d_n da) = Ok tt).
      { destruct debug; auto. cbn [represents] in Ra, Rb. destruct Ra as [_ [_ [_ [_ [_ [_ [_ [_ [_ [Ra _]]]]]]]]]]. destruct Rb as [_ [_ [_ [_ [_ [_ [_ [_ [Rb _]]]]]]]]].
        rewrite Ra, Rb, H3 by auto. unfold assert_dbg. rewrite Nat.eqb_refl. auto. }
      rewrite Ha. cbn [bind]. unfold mmult_parallel. rewrite Oa, Ob, Oc. cbn [bind].
      rewrite (@represents_contents debug _ _ _ _ _ Ra), (@represents_contents debug _ _ _ _ _ Rb). cbn [bind].
      destruct (construct r false (s_heap s)) as [d h] eqn:E1. destruct (construct_ok _ _ (ow_heap H) E1) as [C1 [C2 [C3 C4]]].
      eexists. split; [reflexivity|]. split; [|apply (@represents_buffers _ _ _ Rc)]. apply all_upd; auto; [intros; apply C3; eapply own_in; eauto|].
      specialize (C4 H4). assert (Rc' : represents h dc (VMatrix cc w e)) by (eapply represents_frame; [exact Rc|]; intros; apply C3; eapply own_in; eauto).
      cbn [represents d_val d_col d_ptr d_handle d_descr d_lnnz d_nnz d_m d_n d_range d_domain] in *.
      destruct Rc' as [_ [_ [_ [_ [R5 [R6 _]]]]]]. destruct C4 as [Q1 [Q2 [Q3 [Q4 [Q5 [Q6 Q7]]]]]]. repeat (split; auto); tauto.
    - cbn [step lost]. destruct (all_get HA H0) as [d [Ed [Od Rd]]]. rewrite Od. cbn [bind].
      destruct (destroy_ok d (ow_heap H) (own_le _ H Ed)) as [h [Eh [D1 [D2 D3]]]]. rewrite Eh. cbn [bind]. eexists. split; [reflexivity|]. split; auto.
      apply all_upd; auto. intros j d' id Hn Hj Hin. apply D3. eapply own_disjoint; eauto.
  Qed.
End P.
