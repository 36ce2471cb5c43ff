(** Ownership of the device memory is preserved by every operation of M_Dev. *)
From Coq Require Import List Arith Lia Bool Permutation.
From Verif Require Import Base OField M_Csr M_Dev S_Dev P_AmgxLife P_Dev.
Import ListNotations.
Set Implicit Arguments.
Open Scope nat_scope.

Lemma bind_ok : forall A B (m : outcome A) (f : A -> outcome B) b, bind m f = Ok b -> exists a, m = Ok a /\ f a = Ok b.
Proof. intros A B [] f b H; simpl in H; try discriminate. eauto. Qed.
Lemma object_alive : forall (K : ofield) (s : state K) i, object s i <> Throw.
Proof. intros K s i. unfold object. destruct (nth_error (s_objects s) i) as [[]|]; discriminate. Qed.
Lemma known_alive : forall n, known n <> Throw.
Proof. intros []; discriminate. Qed.
Lemma assert_alive : forall debug c, assert_dbg debug c <> Throw.
Proof. intros [] []; discriminate. Qed.
Lemma failed_alive : forall A debug, @failed_call A debug <> Throw.
Proof. intros A []; discriminate. Qed.
Lemma known_ok : forall n x, known n = Ok x -> n = Some x.
Proof. intros [y|] x H; try discriminate. injection H as ->. auto. Qed.
Lemma take_ok : forall d d', take d = Ok d' -> d' = d /\ d_lnnz d <> None /\ d_nnz d <> None.
Proof.
  intros d d' H. unfold take in H. apply bind_ok in H. destruct H as [x [H1 H]]. apply bind_ok in H. destruct H as [y [H2 H]].
  injection H as <-. apply known_ok in H1, H2. rewrite H1, H2. repeat split; discriminate.
Qed.
Lemma upd_same_twice : forall A (l : list A) i a b, upd (upd l i a) i b = upd l i b.
Proof. intros A l. induction l as [|x l IH]; intros [|i] a b; simpl; auto. f_equal. auto. Qed.

Section P.
  Variable K : ofield.
  Implicit Types (h : heap K) (s : state K).

  (** The state of mmult_serial once C has its new row pointer, with the allocations of the three steps. *)
  Lemma mmult_serial_own : forall debug gemm s L a b c, own s L ->
    mmult_serial debug gemm s a b c <> Throw /\ forall s', mmult_serial debug gemm s a b c = Ok s' -> own s' L.
  Proof.
    intros debug gemm s L a b c H. unfold mmult_serial.
    destruct (object s a) as [da| | | |] eqn:Ea; cbn [bind]; try (split; [|intros]; discriminate); [|exfalso; eapply object_alive; eauto].
    destruct (object s b) as [db| | | |] eqn:Eb; cbn [bind]; try (split; [|intros]; discriminate); [|exfalso; eapply object_alive; eauto].
    destruct (object s c) as [dc| | | |] eqn:Ec; cbn [bind]; try (split; [|intros]; discriminate); [|exfalso; eapply object_alive; eauto].
    apply object_ok in Ea, Eb, Ec. pose proof (own_le _ H Ec) as Hle.
    destruct (@cuda_free_ok K (s_heap s) (d_ptr dc) (ow_heap H)) as [h1 [E1 S1]]; [intros id; specialize (Hle id); rewrite cnt_dev in Hle; lia|].
    rewrite E1. cbn [bind]. destruct (malloc_junk (length (d_range da) + 1) h1) as [ptr h2] eqn:E2.
    destruct (malloc_junk_ok _ (sh_ok S1) E2) as [G2 _].
    set (dc1 := mkDevice (d_val dc) (d_col dc) ptr (d_handle dc) (d_descr dc) (d_lnnz dc) (d_nnz dc) (d_m dc) (d_n dc) (d_range dc) (d_domain dc)).
    set (s2 := mkState h2 (upd (s_objects s) c (Some dc1))).
    assert (H2 : own s2 L).
    { apply (@own_weak K s2 (L ++ [])); [|intros; rewrite app_nil_r; auto].
      apply (@own_upd K s L h2 c dc (Some dc1) []); auto; [apply (gr_ok G2)|].
      intros id. rewrite !cnt_dev. cbn [dc1 d_val d_col d_ptr d_descr]. rewrite (gr_cnt G2). pose proof (sh_cnt S1 id). rewrite cnt_nil. lia. }
    assert (Hc2 : nth_error (s_objects s2) c = Some (Some dc1)).
    { cbn [s2 s_objects]. apply nth_error_upd_eq. eapply nth_error_lt; eauto. }
    destruct (object s2 a) as [da2| | | |] eqn:Ea2; cbn [bind]; try (split; [|intros]; discriminate); [|exfalso; eapply object_alive; eauto].
    destruct (object s2 b) as [db2| | | |] eqn:Eb2; cbn [bind]; try (split; [|intros]; discriminate); [|exfalso; eapply object_alive; eauto].
    apply object_ok in Ea2, Eb2.
    pose proof (own_le _ H2 Ea2) as Hla. pose proof (own_le _ H2 Eb2) as Hlb. pose proof (own_le _ H2 Hc2) as Hlc. cbn [s2 s_heap] in Hla, Hlb, Hlc.
    destruct (negb (d_handle da2)); [split; [apply failed_alive|intros s' E; destruct debug; discriminate]|].
    destruct (read_descr debug h2 (d_descr da2)) eqn:R1; cbn [bind]; try (split; [|intros]; discriminate);
      [|exfalso; revert R1; apply read_descr_alive; intros x; specialize (Hla x); rewrite cnt_dev in Hla; lia].
    destruct (read_descr debug h2 (d_descr db2)) eqn:R2; cbn [bind]; try (split; [|intros]; discriminate);
      [|exfalso; revert R2; apply read_descr_alive; intros x; specialize (Hlb x); rewrite cnt_dev in Hlb; lia].
    destruct (read_descr debug h2 (d_descr dc1)) eqn:R3; cbn [bind]; try (split; [|intros]; discriminate);
      [|exfalso; revert R3; apply read_descr_alive; intros x; specialize (Hlc x); rewrite cnt_dev in Hlc; lia].
    destruct (contents debug h2 da2) as [ca| | | |] eqn:R4; cbn [bind]; try (split; [|intros]; discriminate);
      [|exfalso; revert R4; apply contents_alive; auto].
    destruct (contents debug h2 db2) as [cb| | | |] eqn:R5; cbn [bind]; try (split; [|intros]; discriminate);
      [|exfalso; revert R5; apply contents_alive; auto].
    set (r := gemm ca cb).
    destruct (@store_at_ok K h2 ptr (CInts (c_ptr r)) (gr_ok G2)) as [h3 [E3 [W3 _]]];
      [intros x; specialize (Hlc x); rewrite cnt_dev in Hlc; cbn [dc1 d_ptr] in Hlc; lia|]. rewrite E3. cbn [bind].
    destruct (@cuda_free_ok K h3 (d_val dc1) (wt_ok W3)) as [h4 [E4 S4]];
      [intros x; specialize (Hlc x); rewrite cnt_dev in Hlc; rewrite (wt_cnt W3); lia|]. rewrite E4. cbn [bind].
    destruct (@cuda_free_ok K h4 (d_col dc1) (sh_ok S4)) as [h5 [E5 S5]];
      [intros x; specialize (Hlc x); rewrite cnt_dev in Hlc; pose proof (sh_cnt S4 x); rewrite (wt_cnt W3) in *; lia|]. rewrite E5. cbn [bind].
    destruct (malloc_junk (c_nnz r) h5) as [val h6] eqn:E6. destruct (malloc_junk_ok _ (sh_ok S5) E6) as [G6 _].
    destruct (malloc_junk (c_nnz r) h6) as [col h7] eqn:E7. destruct (malloc_junk_ok _ (gr_ok G6) E7) as [G7 _].
    set (dc2 := mkDevice val col ptr (d_handle dc1) (d_descr dc1) (Some (c_nnz r)) (Some (c_nnz r)) (d_m da2) (d_n db2) (d_range da2) (d_domain db2)).
    set (s3 := mkState h7 (upd (s_objects s2) c (Some dc2))).
    assert (H3 : own s3 L).
    { apply (@own_weak K s3 (L ++ [])); [|intros; rewrite app_nil_r; auto].
      apply (@own_upd K s2 L h7 c dc1 (Some dc2) []); auto; [apply (gr_ok G7)|].
      intros id. rewrite !cnt_dev. cbn [dc2 d_val d_col d_ptr d_descr]. rewrite (gr_cnt G7), (gr_cnt G6). pose proof (sh_cnt S5 id). pose proof (sh_cnt S4 id).
      pose proof (wt_cnt W3 id). rewrite cnt_nil. cbn [s2 s_heap dc1 d_ptr d_val d_col d_descr] in *. lia. }
    assert (Hc3 : nth_error (s_objects s3) c = Some (Some dc2)).
    { cbn [s3 s_objects]. apply nth_error_upd_eq. eapply nth_error_lt; eauto. }
    destruct (object s3 a) as [da3| | | |] eqn:Ea3; cbn [bind]; try (split; [|intros]; discriminate); [|exfalso; eapply object_alive; eauto].
    destruct (object s3 b) as [db3| | | |] eqn:Eb3; cbn [bind]; try (split; [|intros]; discriminate); [|exfalso; eapply object_alive; eauto].
    apply object_ok in Ea3, Eb3.
    pose proof (own_le _ H3 Ea3) as Hla3. pose proof (own_le _ H3 Eb3) as Hlb3. pose proof (own_le _ H3 Hc3) as Hlc3. cbn [s3 s_heap] in Hla3, Hlb3, Hlc3.
    destruct (contents debug h7 da3) eqn:R6; cbn [bind]; try (split; [|intros]; discriminate); [|exfalso; revert R6; apply contents_alive; auto].
    destruct (contents debug h7 db3) eqn:R7; cbn [bind]; try (split; [|intros]; discriminate); [|exfalso; revert R7; apply contents_alive; auto].
    destruct (@store_at_ok K h7 val (CVals (c_val r)) (gr_ok G7)) as [h8 [E8 [W8 _]]];
      [intros x; specialize (Hlc3 x); rewrite cnt_dev in Hlc3; cbn [dc2 d_val] in Hlc3; lia|]. rewrite E8. cbn [bind].
    destruct (@store_at_ok K h8 col (CInts (c_col r)) (wt_ok W8)) as [h9 [E9 [W9 _]]];
      [intros x; specialize (Hlc3 x); rewrite cnt_dev in Hlc3; cbn [dc2 d_col] in Hlc3; rewrite (wt_cnt W8); lia|]. rewrite E9. cbn [bind].
    split; [discriminate|]. intros s' E. injection E as <-. split; cbn [s_heap s_objects]; [apply (wt_ok W9)|].
    intros id. rewrite (wt_cnt W9), (wt_cnt W8). apply (ow_cnt H3).
  Qed.

  Lemma own_move : forall s L i d, own s L -> nth_error (s_objects s) i = Some (Some d) ->
    own (mkState (s_heap s) (upd (s_objects s) i (Some moved_from) ++ [Some d])) L.
  Proof.
    intros s L i d H Hi. split; cbn [s_heap s_objects]; [apply (ow_heap H)|]. intros id. rewrite owned_snoc, (ow_cnt H).
    pose proof (@owned_upd id _ i d (Some moved_from) Hi) as E. cbn iota in E. change (cnt id (dev_ids moved_from)) with 0 in E. lia.
  Qed.
  Lemma own_assign : forall s L i j di dj, own s L -> nth_error (s_objects s) i = Some (Some di) -> nth_error (s_objects s) j = Some (Some dj) ->
    own (mkState (s_heap s) (upd (upd (s_objects s) i (Some dj)) j (Some moved_from))) (L ++ dev_ids di).
  Proof.
    intros s L i j di dj H Hi Hj. split; cbn [s_heap s_objects]; [apply (ow_heap H)|]. intros id. rewrite cnt_app, (ow_cnt H).
    pose proof (@owned_upd id _ i di (Some dj) Hi) as E. cbn iota in E.
    assert (Hj' : nth_error (upd (s_objects s) i (Some dj)) j = Some (Some dj)).
    { destruct (Nat.eq_dec j i) as [->|Hn]; [apply nth_error_upd_eq; eapply nth_error_lt; eauto|rewrite nth_error_upd_neq; auto]. }
    pose proof (@owned_upd id _ j dj (Some moved_from) Hj') as E2. cbn iota in E2. change (cnt id (dev_ids moved_from)) with 0 in E2. lia.
  Qed.
  Lemma copy_construct_ok : forall debug h d d' h', heap_ok h -> copy_construct debug d h = Ok (d', h') ->
    heap_ok h' /\ (forall id, cnt id (ids h') = cnt id (ids h) + cnt id (dev_ids d')) /\ (forall id, In id (ids h) -> lookup h' id = lookup h id) /\
    forall c, contents debug h d = Ok c -> sound_csr c -> d_nnz d = d_lnnz d -> represents h' d' (VMatrix c (d_handle d) true).
  Proof.
    intros debug h d d' h' H E. unfold copy_construct in E. apply bind_ok in E. destruct E as [nnz [E0 E]].
    apply bind_ok in E. destruct E as [c [Ec E]]. destruct (new_buffers c h) as [[[val col] ptr] h1] eqn:E1.
    destruct (new_buffers_ok _ H E1) as [K1 [K2 [K3 [K4 [K5 K6]]]]]. destruct (alloc CDescr h1) as [descr h2] eqn:E2. injection E as <- <-.
    destruct (alloc_ok K1 E2) as [G [x [-> Hx]]].
    assert (M1 : forall id, In id (ids h) -> In id (ids h1)) by (intros id; rewrite !cnt_in, K2; lia).
    split; [apply (gr_ok G)|]. split; [|split].
    - intros id. rewrite cnt_dev. cbn [d_val d_col d_ptr d_descr]. rewrite (gr_cnt G), K2. lia.
    - intros id Hi. rewrite (gr_lookup G), K3; auto.
    - intros c' Ec' Hs Hn. rewrite Ec in Ec'. injection Ec' as <-.
      unfold contents in Ec. apply bind_ok in Ec. destruct Ec as [nz [Ez Ec]]. apply known_ok in Ez.
      apply bind_ok in Ec. destruct Ec as [v [_ Ec]]. apply bind_ok in Ec. destruct Ec as [cl [_ Ec]]. apply bind_ok in Ec. destruct Ec as [pt [_ Ec]].
      injection Ec as <-. cbn [represents d_val d_col d_ptr d_handle d_descr d_lnnz d_nnz d_m d_n d_range d_domain c_nnz c_m c_n c_range c_domain c_val c_col c_ptr] in *.
      rewrite Hn, Ez. repeat (split; auto).
      + destruct val as [p|]; cbn in *; auto. destruct K4 as [K4 K4']. split; auto. rewrite (gr_lookup G); auto. apply lookup_in. congruence.
      + destruct col as [p|]; cbn in *; auto. destruct K5 as [K5 K5']. split; auto. rewrite (gr_lookup G); auto. apply lookup_in. congruence.
      + destruct ptr as [p|]; cbn in *; auto. destruct K6 as [K6 K6']. split; auto. rewrite (gr_lookup G); auto. apply lookup_in. congruence.
  Qed.

  Lemma step_own : forall debug gemm s L o, own s L ->
    step debug gemm s o <> Throw /\ forall s', step debug gemm s o = Ok s' -> own s' (L ++ lost s o).
  Proof.
    intros debug gemm s L o H. destruct o as [|c w|i|i|i j|i c|i|i size|a b c par|i]; cbn [step lost]; rewrite ?app_nil_r.
    - split; [discriminate|]. intros s' E. injection E as <-. apply own_snoc; [exact H|apply (ow_heap H)|]. intros id. change (cnt id (dev_ids default_device)) with 0. lia.
    - destruct (construct c w (s_heap s)) as [d h] eqn:E1. destruct (construct_ok _ _ (ow_heap H) E1) as [C1 [C2 _]].
      split; [discriminate|]. intros s' E. injection E as <-. apply own_snoc; auto.
    - split.
      + apply bind_throw; [apply object_alive|]. intros d Hd. apply object_ok in Hd. apply bind_throw; [|intros [d' h] _; discriminate].
        unfold copy_construct. apply bind_throw; [apply known_alive|]. intros nnz _. apply bind_throw; [apply contents_alive; apply (own_le _ H Hd)|].
        intros c _. destruct (new_buffers c (s_heap s)) as [[[val col] ptr] h1]. destruct (alloc CDescr h1). discriminate.
      + intros s' E. apply bind_ok in E. destruct E as [d [Ed E]]. apply bind_ok in E. destruct E as [[d' h] [Ec E]]. injection E as <-.
        destruct (copy_construct_ok _ _ (ow_heap H) Ec) as [C1 [C2 _]]. apply own_snoc; auto.
    - split.
      + apply bind_throw; [apply object_alive|]. intros d Hd. apply bind_throw; [|discriminate]. unfold take.
        repeat (apply bind_throw; [apply known_alive|intros ? _]). discriminate.
      + intros s' E. apply bind_ok in E. destruct E as [d [Ed E]]. apply bind_ok in E. destruct E as [d' [Et E]]. injection E as <-.
        apply take_ok in Et. destruct Et as [-> _]. apply object_ok in Ed. apply own_move; auto.
    - split.
      + apply bind_throw; [apply object_alive|]. intros d0 _. apply bind_throw; [apply object_alive|]. intros d Hd. apply bind_throw; [|discriminate]. unfold take.
        repeat (apply bind_throw; [apply known_alive|intros ? _]). discriminate.
      + intros s' E. apply bind_ok in E. destruct E as [d0 [E0 E]]. apply bind_ok in E. destruct E as [d [Ed E]]. apply bind_ok in E. destruct E as [d' [Et E]].
        injection E as <-. apply take_ok in Et. destruct Et as [-> _]. rewrite E0. apply object_ok in Ed, E0. apply own_assign; auto.
    - destruct (construct c true (s_heap s)) as [d' h] eqn:E1. destruct (construct_ok _ _ (ow_heap H) E1) as [C1 [C2 _]]. split.
      + apply bind_throw; [apply object_alive|]. intros d Hd. apply bind_throw; [apply assert_alive|]. discriminate.
      + intros s' E. apply bind_ok in E. destruct E as [d [Ed E]]. apply bind_ok in E. destruct E as [u [_ E]]. injection E as <-. rewrite Ed. apply object_ok in Ed.
        apply (@own_upd K s L h i d (Some d') (dev_ids d)); [exact H|exact C1|exact Ed|]. intros id. cbn iota. rewrite C2. lia.
    - split.
      + apply bind_throw; [apply object_alive|]. intros d Hd. destruct (attach d (s_heap s)). discriminate.
      + intros s' E. apply bind_ok in E. destruct E as [d [Ed E]]. destruct (attach d (s_heap s)) as [d' h] eqn:E1. injection E as <-. rewrite Ed.
        destruct (attach_ok (ow_heap H) E1) as [A1 [A2 _]]. apply object_ok in Ed.
        apply (@own_upd K s L h i d (Some d') (opt (d_descr d))); auto.
    - split.
      + apply bind_throw; [apply object_alive|]. intros d Hd. apply object_ok in Hd. apply bind_throw; [|discriminate].
        apply (vmult_memory_ok debug d size (ow_heap H)). apply (own_le _ H Hd).
      + intros s' E. apply bind_ok in E. destruct E as [d [Ed E]]. apply bind_ok in E. destruct E as [h [Eh E]]. injection E as <-.
        apply (vmult_memory_ok debug d size (ow_heap H)) in Eh. destruct Eh as [V1 [V2 V3]]. split; auto. cbn [s_heap s_objects].
        intros id. rewrite V2, cnt_app, (ow_cnt H). lia.
    - split.
      + apply bind_throw; [apply object_alive|]. intros da Ha. apply bind_throw; [apply object_alive|]. intros db Hb. apply bind_throw; [apply assert_alive|].
        intros _ _. destruct par as [r|]; [|apply (mmult_serial_own debug gemm a b c H)].
        unfold mmult_parallel. rewrite Ha, Hb. cbn [bind]. apply object_ok in Ha, Hb. apply bind_throw; [apply object_alive|]. intros dc Hc.
        apply bind_throw; [apply contents_alive; apply (own_le _ H Ha)|]. intros ca _. apply bind_throw; [apply contents_alive; apply (own_le _ H Hb)|]. intros cb _.
        destruct (construct r false (s_heap s)). discriminate.
      + intros s' E. apply bind_ok in E. destruct E as [da [Ha E]]. apply bind_ok in E. destruct E as [db [Hb E]]. apply bind_ok in E. destruct E as [u [_ E]].
        destruct par as [r|]; [|rewrite app_nil_r; revert s' E; apply (mmult_serial_own debug gemm a b c H)].
        unfold mmult_parallel in E. rewrite Ha, Hb in E. cbn [bind] in E. apply bind_ok in E. destruct E as [dc [Hc E]].
        apply bind_ok in E. destruct E as [ca [_ E]]. apply bind_ok in E. destruct E as [cb [_ E]].
        destruct (construct r false (s_heap s)) as [d h1] eqn:E1. injection E as <-. rewrite Hc. apply object_ok in Hc.
        pose proof E1 as E1'. destruct (construct_ok _ _ (ow_heap H) E1) as [C1 [C2 _]].
        eapply (@own_upd K s L h1 c dc (Some _) (buf_ids dc)); eauto.
        intros id. rewrite C2. unfold buf_ids. rewrite !cnt_dev, !cnt_app. cbn [d_val d_col d_ptr d_descr].
        assert (d_descr d = None). { unfold construct in E1'. destruct (new_buffers r (s_heap s)) as [[[v1 v2] v3] v4]. injection E1' as <- _. reflexivity. }
        rewrite H0. cbn [opt]. rewrite cnt_nil. lia.
    - split.
      + apply bind_throw; [apply object_alive|]. intros d Hd. apply object_ok in Hd.
        destruct (destroy_ok d (ow_heap H) (own_le _ H Hd)) as [h [E _]]. rewrite E. discriminate.
      + intros s' E. apply bind_ok in E. destruct E as [d [Hd E]]. apply object_ok in Hd.
        destruct (destroy_ok d (ow_heap H) (own_le _ H Hd)) as [h [Eh [D1 [D2 _]]]]. rewrite Eh in E. injection E as <-.
        apply (@own_weak K _ (L ++ [])); [|intros; rewrite app_nil_r; auto].
        apply (@own_upd K s L h i d None []); [exact H|exact D1|exact Hd|]. intros id. rewrite !cnt_nil, D2. lia.
  Qed.

  (** In every program, whatever it does, released memory is never used or released again. *)
  Lemma run_alive : forall debug gemm ops s L, own s L -> run debug gemm s ops <> Throw.
  Proof.
    intros debug gemm ops. induction ops as [|o ops IH]; intros s L H; cbn [run]; [discriminate|].
    destruct (@step_own debug gemm s L o H) as [A B]. apply bind_throw; auto. intros s' E. eapply IH. apply B. auto.
  Qed.
End P.
