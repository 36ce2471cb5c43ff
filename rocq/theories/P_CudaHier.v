(** Proofs about the hierarchy on the device: the cycle over any levels, on any number of ranks. *)
From Coq Require Import String List Arith Lia ZArith Bool.
From Verif Require Import Base OField Mat M_Ptree M_Hier S_Hier P_Hier P_Hier2 M_SpProd S_SpProd P_SpProd M_Csr S_Csr P_Csr P_Csr4 M_Dev M_CudaOp S_CudaOp P_CudaOp
  M_DevSolve S_DevSolve M_CudaHier S_CudaHier.
Import ListNotations.
Set Implicit Arguments.
Open Scope nat_scope.

Section P.
  Variable K : ofield.
  Add Field KfCudaHier : (f_field K).
  Notation vec := (vec K).

  Lemma keeps_refl : forall s : cuda_state K, keeps s s.
  Proof. intros s. split; [exists []; rewrite app_nil_r; auto|]. intros k o H. exists o. auto. Qed.
  Lemma keeps_trans : forall s1 s2 s3 : cuda_state K, keeps s1 s2 -> keeps s2 s3 -> keeps s1 s3.
  Proof.
    intros s1 s2 s3 [[m1 E1] H1] [[m2 E2] H2]. split.
    - exists (m1 ++ m2)%list. rewrite E2, E1, app_assoc. auto.
    - intros k o H. destruct (H1 k o H) as [o' [Q1 Q2]]. destruct (H2 k o' Q1) as [o2 [Q3 Q4]]. exists o2. split; auto. congruence.
  Qed.
  Lemma kept_refl : forall hs : list (heap K), Forall (@allocator_ok K) hs -> memory_kept hs hs.
  Proof. intros hs H. unfold memory_kept. induction H; constructor; auto. split; auto. intros id. auto. Qed.
  Lemma kept_trans : forall a b c : list (heap K), memory_kept a b -> memory_kept b c -> memory_kept a c.
  Proof.
    intros a b c H. revert c. induction H as [|x y a b [H1 H2] H IH]; intros c Q; inversion Q as [|? z ? c' [Q1 Q2] Q3]; subst; constructor; auto.
    - split; auto. intros id. rewrite Q1. auto.
    - apply IH. auto.
  Qed.
  Lemma kept_ok : forall a b : list (heap K), memory_kept a b -> Forall (@allocator_ok K) b.
  Proof. intros a b H. induction H as [|x y a b [H1 H2] H IH]; constructor; auto. Qed.
  Lemma kept_length : forall a b : list (heap K), memory_kept a b -> length b = length a.
  Proof. intros a b H. induction H; simpl; auto. Qed.

  Lemma nth_error_upd_same : forall A (l : list A) k a b, nth_error l k = Some b -> nth_error (upd l k a) k = Some a.
  Proof. intros A l. induction l as [|c l IH]; intros [|k] a b H; simpl in *; try discriminate; auto. eapply IH; eauto. Qed.
  Lemma nth_error_upd_other : forall A (l : list A) k j a, j <> k -> nth_error (upd l k a) j = nth_error l j.
  Proof. intros A l. induction l as [|c l IH]; intros [|k] [|j] a H; simpl; auto; try lia. Qed.

  Lemma op_apply_keeps : forall debug (L : libraries K) s k trans env owned size x y s' y',
    op_apply debug L s k trans env owned size x y = Ok (s', y') -> keeps s s'.
  Proof.
    intros debug L s k trans env owned size x y s' y' H. unfold op_apply in H.
    destruct (rd (u_ops s) k) as [o| | | |] eqn:Eo; try discriminate. cbn [bind] in H.
    assert (Q : forall s1, match o_trans o with None => if trans then make_transpose debug L s k else Ok s | Some _ => Ok s end = Ok s1 -> keeps s s1).
    { intros s1 E. destruct (o_trans o) as [t|] eqn:Et; [injection E as <-; apply keeps_refl|]. destruct trans; [|injection E as <-; apply keeps_refl].
      unfold make_transpose in E. rewrite Eo in E. cbn [bind] in E. rewrite Et in E.
      destruct (rd (u_mats s) (o_mat o)) as [m| | | |]; try discriminate. cbn [bind] in E.
      destruct (build_transpose debug L (m_parts m)) as [ps| | | |]; try discriminate. cbn [bind] in E. injection E as <-.
      unfold rd in Eo. destruct (nth_error (u_ops s) k) as [o'|] eqn:En; [|discriminate]. injection Eo as ->.
      split; [eexists; reflexivity|]. cbn [u_ops]. intros j oj Hj. destruct (Nat.eq_dec j k) as [->|Hne].
      - rewrite (nth_error_upd_same _ _ _ En). rewrite En in Hj. injection Hj as <-. eexists. split; [reflexivity|reflexivity].
      - rewrite nth_error_upd_other by auto. exists oj. auto. }
    destruct (match o_trans o with None => if trans then make_transpose debug L s k else Ok s | Some _ => Ok s end) as [s1| | | |]; try discriminate.
    cbn [bind] in H. specialize (Q s1 eq_refl). destruct (rd (u_ops s1) k) as [o1| | | |]; try discriminate. cbn [bind] in H.
    destruct (if trans then match o_trans o1 with Some t => rd (u_mats s1) t | None => UB end else rd (u_mats s1) (o_mat o1)) as [m| | | |]; try discriminate.
    cbn [bind] in H. destruct (shared_vmult debug m env owned size x y) as [v| | | |]; try discriminate. cbn [bind] in H. injection H as <- _. auto.
  Qed.

  (** The operators mean the same as at first, up to cached transposes. *)
  Definition same_operators (ms ms' : list (meaning K)) : Prop :=
    forall k B range domain c ready, nth_error ms k = Some (mkMeaning B range domain c ready) -> exists c', nth_error ms' k = Some (mkMeaning B range domain c' ready).
  (** What holds between two statements of the cycle. *)
  Definition steady (s : cuda_state K) (ms : list (meaning K)) (hs : list (heap K)) (d : device K) : Prop :=
    keeps s (d_ops d) /\ (exists ms', state_means (d_ops d) ms' /\ same_operators ms ms') /\ memory_kept hs (d_heaps d).

  Lemma scatter_zero : forall owned n, scatter owned (@vzero K n) = map (fun p => @vzero K (length p)) owned.
  Proof.
    intros owned n. unfold scatter. apply map_ext. intros p. apply (@list_ext K _ _ 0%K); [rewrite map_length, vzero_length; auto|].
    intros i Hi. rewrite map_length in Hi. rewrite nth_vzero. rewrite (nth_map_lt (fun j => nth j (@vzero K n) 0%K) p 0%K 0 Hi). apply nth_vzero.
  Qed.
  Lemma v_zero_spread : forall owned (x : vec) n, length x = n -> v_zero (spread owned x) = spread owned (@vzero K n).
  Proof.
    intros owned x n Hx. unfold v_zero, spread. cbn [v_owned v_vals]. f_equal. rewrite scatter_zero. unfold scatter. rewrite map_map. apply map_ext. intros p.
    rewrite map_map. induction p; simpl; auto. unfold vzero in *. simpl. f_equal. auto.
  Qed.
  Lemma v_add_spread : forall owned (y x : vec) n, partition n owned -> length y = n -> length x = n ->
    v_add (spread owned y) (fopp f1) (spread owned x) = Ok (spread owned (vsub y x)).
  Proof.
    intros owned y x n Hp Hy Hx. unfold v_add, spread. cbn [v_owned v_vals]. rewrite !scatter_lengths.
    destruct (list_eq_dec Nat.eq_dec (map (@length nat) owned) (map (@length nat) owned)) as [_|N]; [|congruence].
    do 2 f_equal. apply scatter_sub; [congruence|]. intros i Hi. unfold OField.vec in *. rewrite Hy. apply (proj2 Hp). auto.
  Qed.
  Lemma v_size_spread : forall owned (x : vec) n, partition n owned -> v_size (spread owned x) = n.
  Proof. intros. unfold v_size, spread. cbn [v_owned]. apply partition_length. auto. Qed.

  Section Steady.
    Variables (debug : bool) (L : libraries K) (cond : conditions K) (s : cuda_state K) (ms : list (meaning K)) (hs : list (heap K)).
    Hypothesis HL : libraries_ok L.
    Hypothesis HC : any_conditions cond.

    Lemma steady_operator : forall d k A range domain c, steady s ms hs d -> nth_error ms k = Some (mkMeaning A range domain c true) ->
      exists o m, nth_error (u_ops (d_ops d)) k = Some o /\ nth_error (u_mats (d_ops d)) (o_mat o) = Some m /\ device_matrix (m_parts m) range domain A /\
        m_handle m = true /\ m_descr m = true.
    Proof.
      intros d k A range domain c [_ [[ms' [M S]] _]] Hk. destruct (S _ _ _ _ _ _ Hk) as [c' Hk'].
      destruct (@Forall2_back _ _ _ _ _ M k _ Hk') as [o [Ho [[m [Hm [Dm [Hh Hd]]]] _]]]. cbn [a_mat a_range a_domain a_ready] in *. exists o, m. auto 6.
    Qed.
    Lemma steady_matrix : forall d k A range domain c, steady s ms hs d -> nth_error ms k = Some (mkMeaning A range domain c true) ->
      exists m, get_matrix (d_ops d) k = Ok m /\ device_matrix (m_parts m) range domain A /\ m_handle m = true /\ m_descr m = true.
    Proof.
      intros d k A range domain c H Hk. destruct (@steady_operator _ _ _ _ _ _ H Hk) as [o [m [Ho [Hm Q]]]]. exists m. split; auto.
      unfold get_matrix. rewrite (rd_ok _ _ Ho). cbn [bind]. apply rd_ok. auto.
    Qed.
    Lemma steady_vector : forall d k A range domain c, steady s ms hs d -> nth_error ms k = Some (mkMeaning A range domain c true) ->
      build_domain_vector (d_ops d) k = Ok (spread domain (vzero (nc A))).
    Proof.
      intros d k A range domain c H Hk. destruct (@steady_matrix _ _ _ _ _ _ H Hk) as [m [E [D _]]]. unfold build_domain_vector. rewrite E. cbn [bind].
      unfold spread. rewrite scatter_zero. rewrite <- (dm_domain D). rewrite map_map. auto.
    Qed.
    Lemma steady_sizes : forall d k A range domain c, steady s ms hs d -> nth_error ms k = Some (mkMeaning A range domain c true) ->
      partition (nr A) range /\ partition (nc A) domain.
    Proof. intros d k A range domain c H Hk. destruct (@steady_matrix _ _ _ _ _ _ H Hk) as [m [_ [D _]]]. split; [apply (dm_rows D)|apply (dm_cols D)]. Qed.

    Lemma same_upd : forall ms' k B range domain c c', same_operators ms ms' -> nth_error ms k = Some (mkMeaning B range domain c true) ->
      nth_error ms' k = Some (mkMeaning B range domain c' true) -> same_operators ms (upd ms' k (mkMeaning B range domain true true)).
    Proof.
      intros ms' k B range domain c c' S Hk Hk' j B2 r2 d2 c2 rd2 Hj. destruct (Nat.eq_dec j k) as [->|Hne].
      - rewrite Hk in Hj. injection Hj as <- <- <- <- <-. rewrite (nth_error_upd_same _ _ _ Hk'). eauto.
      - rewrite nth_error_upd_other by auto. eauto.
    Qed.

    Lemma steady_apply : forall d k A range domain c (x : vec) y, steady s ms hs d -> nth_error ms k = Some (mkMeaning A range domain c true) ->
      length x = nc A -> length y = nr A ->
      exists d', dev_apply debug L cond k false (spread domain x) (spread range y) d = Ok (spread range (mulvec A x), d') /\ steady s ms hs d'.
    Proof.
      intros d k A range domain c x y H Hk Hx Hy. destruct (@steady_sizes _ _ _ _ _ _ H Hk) as [P1 P2]. destruct H as [H1 [[ms' [M S]] H3]]. destruct (S _ _ _ _ _ _ Hk) as [c' Hk'].
      unfold dev_apply. rewrite (v_size_spread x P2). unfold spread at 1 2. cbn [v_owned v_vals].
      destruct (@call_step_ok K debug L (d_ops d) ms' _ _ _ HL M (@MApply K ms' k A range domain c' (cond (d_products d) (nc A)) domain x (scatter range y) Hk' Hx P2 (HC _ _) (scatter_lengths _ _))) as [s' [E M']].
      cbn [call_step] in E. unfold spread. cbn [v_owned v_vals]. rewrite E. cbn [bind]. eexists. split; [reflexivity|].
      split; [|split]; cbn [d_ops d_heaps]; auto; [|exists ms'; auto]. eapply keeps_trans; [exact H1|]. eapply op_apply_keeps; eauto.
    Qed.
    Lemma steady_applyT : forall d k A range domain c (x : vec) y, steady s ms hs d -> nth_error ms k = Some (mkMeaning A range domain c true) ->
      no_zero_rank domain (mtrans A) -> length x = nr A -> length y = nc A ->
      exists d', dev_apply debug L cond k true (spread range x) (spread domain y) d = Ok (spread domain (mulTvec A x), d') /\ steady s ms hs d'.
    Proof.
      intros d k A range domain c x y H Hk Hz Hx Hy. destruct (@steady_sizes _ _ _ _ _ _ H Hk) as [P1 P2]. destruct H as [H1 [[ms' [M S]] H3]]. destruct (S _ _ _ _ _ _ Hk) as [c' Hk'].
      unfold dev_apply. rewrite (v_size_spread x P1).
      destruct (@call_step_ok K debug L (d_ops d) ms' _ _ _ HL M (@MApplyTranspose K ms' k A range domain c' (cond (d_products d) (nr A)) range x (scatter domain y) Hk' (fun _ => Hz) Hx P1 (HC _ _) (scatter_lengths _ _))) as [s' [E M']].
      cbn [call_step] in E. unfold spread. cbn [v_owned v_vals]. rewrite E. cbn [bind]. eexists. split; [reflexivity|].
      split; [|split]; cbn [d_ops d_heaps]; auto.
      - eapply keeps_trans; [exact H1|]. eapply op_apply_keeps; eauto.
      - exists (upd ms' k (mkMeaning A range domain true true)). split; auto. eapply same_upd; eauto.
    Qed.

    Lemma steady_smooth : forall sm k A S owned c, nth_error ms k = Some (mkMeaning A owned owned c true) -> nr A = nc A ->
      sm_op sm = k -> m_handle (sm_matrix sm) = true -> m_descr (sm_matrix sm) = true -> distributed_as (m_parts (sm_matrix sm)) owned S -> nr S = nc A -> nc S = nc A ->
      forall d b x, steady s ms hs d -> length b = nc A -> length x = nc A ->
      exists d', dev_smoother_apply debug cond sm (spread owned b) (spread owned x) d = Ok (spread owned (correction_step (mulvec A) (mulvec S) b x), d') /\
        steady s ms hs d' /\ length (correction_step (mulvec A) (mulvec S) b x) = nc A.
    Proof.
      intros sm k A S owned c Hk Hsq Ho Hh Hd HS HS1 HS2 d b x H Hb Hx. destruct (@steady_sizes _ _ _ _ _ _ H Hk) as [P1 P2]. destruct (@steady_matrix _ _ _ _ _ _ H Hk) as [m [E [D [M1 M2]]]].
      unfold dev_smoother_apply. rewrite Ho, E. cbn [bind]. unfold shared_vmult. rewrite M1, M2, Hh, Hd. cbn [andb]. rewrite (v_size_spread x P2).
      unfold spread at 1 2 3. cbn [v_owned v_vals].
      assert (L1 : length (mulvec A x) = nc A) by (rewrite mulvec_length; auto).
      rewrite (@vmult_all_spec K (m_parts m) owned A (nc A)); auto; [|apply (dm_holds D)|apply scatter_lengths]. cbn [bind].
      fold (spread owned (mulvec A x)). replace (v_owned (spread owned b)) with owned by reflexivity.
      fold (spread owned (mulvec A x)). rewrite (@v_add_spread owned (mulvec A x) b (nc A)) by auto. cbn [bind].
      rewrite (v_size_spread _ P2). cbn [spread v_owned v_vals].
      assert (L2 : length (vsub (mulvec A x) b) = nc A) by (rewrite vsub_length; lia).
      rewrite (@vmult_all_spec K (m_parts (sm_matrix sm)) owned S (nc A)); auto; [|apply scatter_lengths]. cbn [bind].
      assert (L3 : length (mulvec S (vsub (mulvec A x) b)) = nc A) by (rewrite mulvec_length; auto).
      fold (spread owned (mulvec S (vsub (mulvec A x) b))). fold (spread owned x). rewrite (@v_add_spread owned x _ (nc A)) by auto. cbn [bind]. eexists. split; [reflexivity|].
      split; [|unfold correction_step; rewrite vsub_length; lia].
      destruct H as [H1 [H2 H3]]. split; [|split]; auto.
    Qed.
    Lemma steady_loop : forall sm k A S owned c, nth_error ms k = Some (mkMeaning A owned owned c true) -> nr A = nc A ->
      sm_op sm = k -> m_handle (sm_matrix sm) = true -> m_descr (sm_matrix sm) = true -> distributed_as (m_parts (sm_matrix sm)) owned S -> nr S = nc A -> nc S = nc A ->
      forall n d b x, steady s ms hs d -> length b = nc A -> length x = nc A ->
      exists d', dev_smooth_loop debug cond n (Some sm) (spread owned b) (spread owned x) d = Ok (spread owned (iter n (correction_step (mulvec A) (mulvec S) b) x), d') /\
        steady s ms hs d' /\ length (iter n (correction_step (mulvec A) (mulvec S) b) x) = nc A.
    Proof.
      intros sm k A S owned c Hk Hsq Ho Hh Hd HS HS1 HS2. induction n as [|n IH]; intros d b x H Hb Hx; [exists d; auto|].
      cbn [dev_smooth_loop deref bind]. destruct (@steady_smooth sm k A S owned c Hk Hsq Ho Hh Hd HS HS1 HS2 d b x H Hb Hx) as [d1 [E [H1 L1]]]. rewrite E. cbn [bind].
      apply IH; auto.
    Qed.

    (** The cycle. *)
    Lemma describes_top : forall lv rest owned ds n C, dev_describes s ms lv rest owned ds n C -> exists k A c, dl_op lv = Some k /\
      nth_error ms k = Some (mkMeaning A owned owned c true) /\ nr A = nc A /\ nc A = top_size ds n.
    Proof.
      intros lv rest owned ds n C H. destruct H; [|exists k, A, ca; cbn [top_size fn]; auto].
      exists k, A, cached. cbn [top_size]. split; auto. split; auto. split; congruence.
    Qed.
    Lemma cycle_run : forall prec n lv rest owned ds n0 C, dev_describes s ms lv rest owned ds n0 C -> length hs = length owned ->
      forall first b x d, steady s ms hs d -> length b = top_size ds n0 -> length x = top_size ds n0 ->
      exists d', dev_apply_levels debug L cond prec n first lv rest (spread owned b) (spread owned x) d =
        Ok (spread owned (cyc n ds n0 C b (if negb first || prec then vzero (top_size ds n0) else x)), d') /\ steady s ms hs d' /\
        length (cyc n ds n0 C b (if negb first || prec then vzero (top_size ds n0) else x)) = top_size ds n0.
    Proof.
      intros prec n lv rest owned ds n0 C D.
      induction D as [lv k A owned cached f n0 C H1 H2 H3 H4 H5 H6|lv lc rest k r A R S owned owned' ca cr sm ds n0 C H1 H2 H3 H4 H5 H6 H7 H8 H9 H10 H11 H12 H13 H14 H15 H16 IH];
        intros Hh first b x d HS Hb Hx; cbn [top_size fn] in Hb, Hx |- *.
      - cbn [dev_apply_levels]. rewrite H5. cbn [deref bind cyc].
        replace (if negb first || prec then v_zero (spread owned x) else spread owned x) with (spread owned (if negb first || prec then vzero n0 else x)).
        2:{ destruct (negb first || prec); auto. symmetry. apply v_zero_spread. auto. }
        set (x0 := if negb first || prec then vzero n0 else x). assert (Hx0 : length x0 = n0) by (unfold x0; destruct (negb first || prec); auto; apply vzero_length).
        destruct HS as [S1 [S2 S3]]. destruct (H6 d b x0 S1 (kept_ok S3)) as [h' [E [M Q]]]; auto; [rewrite (kept_length S3); auto|].
        rewrite E. eexists. split; [reflexivity|]. split; auto. split; [|split]; cbn [d_ops d_heaps]; auto. eapply kept_trans; eauto.
      - destruct (describes_top H16) as [kc [Ac [cc [T1 [T2 [T3 T4]]]]]].
        assert (Hlen : length hs = length owned').
        { destruct (@steady_matrix _ _ _ _ _ _ HS H12) as [m [_ [Dm _]]]. destruct (device_length Dm) as [Q1 Q2]. congruence. }
        specialize (IH Hlen). cbn [dev_apply_levels].
        replace (if negb first || prec then v_zero (spread owned x) else spread owned x) with (spread owned (if negb first || prec then vzero (nc A) else x)).
        2:{ destruct (negb first || prec); auto. symmetry. apply v_zero_spread. auto. }
        set (x0 := if negb first || prec then vzero (nc A) else x). assert (Hx0 : length x0 = nc A) by (unfold x0; destruct (negb first || prec); auto; apply vzero_length).
        rewrite H4. destruct (@steady_loop sm k A S owned ca H2 H3 H5 H6 H7 H8 H9 H10 n d b x0 HS Hb Hx0) as [d1 [E1 [HS1 L1]]]. rewrite E1. cbn [bind].
        set (x1 := iter n (correction_step (mulvec A) (mulvec S) b) x0) in *.
        unfold dev_build_vector at 1. rewrite H1. cbn [deref bind]. rewrite (@steady_vector _ _ _ _ _ _ HS1 H2). cbn [bind].
        destruct (@steady_apply d1 k A owned owned ca x1 (vzero (nc A)) HS1 H2 L1) as [d2 [E2 HS2]]; [rewrite vzero_length; auto|]. rewrite E2. cbn [bind].
        assert (L2 : length (mulvec A x1) = nc A) by (rewrite mulvec_length; auto). destruct (@steady_sizes _ _ _ _ _ _ HS H2) as [P1 P2].
        rewrite (@v_add_spread owned (mulvec A x1) b (nc A)) by auto. cbn [bind]. set (res := vsub (mulvec A x1) b).
        assert (L3 : length res = nc R) by (unfold res; rewrite vsub_length, L2, Hb, Nat.min_id; auto).
        unfold dev_build_vector at 1. rewrite T1. cbn [deref bind]. rewrite (@steady_vector _ _ _ _ _ _ HS2 T2). cbn [bind]. rewrite H11. cbn [deref bind].
        destruct (@steady_apply d2 r R owned' owned cr res (vzero (nc Ac)) HS2 H12 L3) as [d3 [E3 HS3]]; [rewrite vzero_length, T4; auto|]. rewrite E3. cbn [bind].
        unfold dev_build_vector at 1. rewrite T1. cbn [deref bind]. rewrite (@steady_vector _ _ _ _ _ _ HS3 T2). cbn [bind].
        assert (L4 : length (mulvec R res) = top_size ds n0) by (rewrite mulvec_length; auto).
        destruct (IH false (mulvec R res) (vzero (nc Ac)) d3 HS3 L4) as [d4 [E4 [HS4 L5]]]; [rewrite vzero_length; auto|]. rewrite E4. cbn [bind]. cbn [negb orb] in *.
        set (e := cyc n ds n0 C (mulvec R res) (vzero (top_size ds n0))) in *.
        unfold dev_build_vector. rewrite H1. cbn [deref bind]. rewrite (@steady_vector _ _ _ _ _ _ HS4 H2). cbn [bind].
        destruct (@steady_applyT d4 r R owned' owned cr e (vzero (nc A)) HS4 H12 H15) as [d5 [E5 HS5]]; [congruence|rewrite vzero_length; auto|]. rewrite E5. cbn [bind].
        assert (L6 : length (mulTvec R e) = nc A) by (unfold mulTvec; rewrite mulvec_length; auto).
        rewrite (@v_add_spread owned x1 (mulTvec R e) (nc A)) by auto. cbn [bind].
        destruct (@steady_loop sm k A S owned ca H2 H3 H5 H6 H7 H8 H9 H10 n d5 b (vsub x1 (mulTvec R e)) HS5 Hb) as [d6 [E6 [HS6 L7]]]; [rewrite vsub_length; lia|].
        rewrite E6. exists d6. auto.
    Qed.

    Lemma describes_levels : forall lv rest owned ds n C, dev_describes s ms lv rest owned ds n C -> @sized K ds n /\ linear_levels ds n.
    Proof.
      intros lv rest owned ds n C D.
      induction D as [lv k A owned cached f n0 C H1 H2 H3 H4 H5 H6|lv lc rest k r A R S owned owned' ca cr sm ds n0 C H1 H2 H3 H4 H5 H6 H7 H8 H9 H10 H11 H12 H13 H14 H15 H16 IH].
      - split; exact I.
      - assert (LA : linear (nc A) (nc A) (mulvec A)) by (pose proof (mulvec_linear A) as X; rewrite H3 in X; exact X).
        assert (LS : linear (nc A) (nc A) (mulvec S)) by (pose proof (mulvec_linear S) as X; rewrite H9, H10 in X; exact X).
        assert (LR : linear (nc A) (top_size ds n0) (mulvec R)) by (pose proof (mulvec_linear R) as X; rewrite H13, H14 in X; exact X).
        assert (LT : linear (top_size ds n0) (nc A) (mulTvec R)) by (pose proof (mulTvec_linear R) as X; rewrite H13, H14 in X; exact X).
        destruct IH as [I1 I2]. split; cbn [sized linear_levels fn fA fS fR fP]; split.
        + intros x Hx. rewrite mulvec_length. auto.
        + split; [intros b x Hb Hx; unfold correction_step; rewrite vsub_length, mulvec_length; lia|].
          split; [intros x Hx; rewrite mulvec_length; auto|]. split; [intros x Hx; unfold mulTvec; rewrite mulvec_length; auto|auto].
        + exact LA.
        + split; [|auto]. intros p q b c x y Hb Hc Hx Hy. unfold correction_step. fold (P_Hier2.lc p x q y). fold (P_Hier2.lc p b q c).
          rewrite (lin_lc LA p x q y Hx Hy). assert (Q1 : length (mulvec A x) = nc A) by (rewrite mulvec_length; auto).
          assert (Q2 : length (mulvec A y) = nc A) by (rewrite mulvec_length; auto).
          rewrite (@lc_sub K p (mulvec A x) q (mulvec A y) b c (nc A)) by auto.
          rewrite (lin_lc LS) by (rewrite vsub_length; lia). rewrite (@lc_sub K p x q y _ _ (nc A)) by (auto; rewrite mulvec_length; auto). reflexivity.
    Qed.

    Lemma vmults_run : forall prec n lv rest owned ds n0 C, dev_describes s ms lv rest owned ds n0 C -> jointly_linear n0 C -> length hs = length owned ->
      forall qs d, steady s ms hs d -> (forall x b, In (x, b) qs -> length x = top_size ds n0 /\ length b = top_size ds n0) ->
      exists d', dev_vmults debug L cond (mkDevHierarchy (lv :: rest) prec n) (vmult_requests owned qs) d =
        Ok (map (fun q => spread owned (textbook_vcycle n ds n0 C (snd q) (if prec then vzero (top_size ds n0) else fst q))) qs, d') /\ steady s ms hs d'.
    Proof.
      intros prec n lv rest owned ds n0 C D J Hh. induction qs as [|[x b] qs IH]; intros d HS Hq; [exists d; auto|].
      cbn [vmult_requests map dev_vmults fst snd]. unfold dev_vmult. cbn [dh_levels dh_is_preconditioner dh_n_smoothing_steps].
      destruct (Hq x b ltac:(simpl; auto)) as [Lx Lb]. destruct (@cycle_run prec n lv rest owned ds n0 C D Hh true b x d HS Lb Lx) as [d1 [E [H1 L1]]].
      rewrite E. cbn [bind]. destruct (IH d1 H1) as [d2 [E2 H2]]; [intros; apply Hq; simpl; auto|]. unfold vmult_requests in E2. rewrite E2. cbn [bind].
      exists d2. split; auto. do 4 f_equal. destruct (describes_levels D) as [Q1 Q2]. cbn [negb orb].
      apply cyc_textbook; auto. 2:{ destruct prec; auto. apply vzero_length. }
      clear - D HS Hh. revert Hh. induction D as [lv k A owned cached f n0 C H1 H2 H3 H4 H5 H6|lv lc rest k r A R S owned owned' ca cr sm ds n0 C H1 H2 H3 H4 H5 H6 H7 H8 H9 H10 H11 H12 H13 H14 H15 H16 IH]; intros Hh b x Hb Hx.
      - destruct HS as [S1 [S2 S3]]. destruct (H6 d b x S1 (kept_ok S3)) as [h' [E [M Q]]]; auto. rewrite (kept_length S3); auto.
      - apply IH; auto. destruct (@steady_matrix _ _ _ _ _ _ HS H12) as [m [_ [Dm _]]]. destruct (device_length Dm) as [W1 W2]. congruence.
    Qed.
  End Steady.
End P.
