(** Proofs about the hierarchy on the device: its construction on one rank. *)
From Coq Require Import String List Arith Lia ZArith Bool Field.
From Verif Require Import Base OField Mat LinAlg M_Ptree M_Hier S_Hier P_Hier P_Hier2 M_Host M_SpProd S_SpProd P_SpProd M_Csr S_Csr P_Csr P_Csr3 P_Csr4 M_Dev M_CudaOp
  S_CudaOp P_CudaOp M_DevSolve S_DevSolve P_DevSolve M_CudaHier S_CudaHier P_CudaHier.
Import ListNotations.
Set Implicit Arguments.
Open Scope nat_scope.

Section P.
  Variable K : ofield.
  Add Field KfCudaHier2 : (f_field K).
  Notation vec := (vec K).

  Lemma scatter_one : forall n (v : vec), length v = n -> scatter [seq 0 n] v = [v].
  Proof. intros n v Lv. unfold scatter. simpl. f_equal. rewrite <- Lv. apply map_nth_all. Qed.

  (** The smoother of a matrix on one rank. *)
  Definition inverse_diagonal (n : nat) (A : mat K) : mat K := mkMat n n (fun i j => if i =? j then (1 / ent A i i)%K else 0%K).
  Lemma smoother_built : forall debug (c : csr K) n A z, 0 < n -> device_matrix [c] [seq 0 n] [seq 0 n] A -> nr A = n -> nc A = n ->
    columns_once c -> any_smoother_conditions c z ->
    exists s, cuda_smoother debug c (z_order1 z) (z_order2 z) (z_order3 z) (z_val z) (z_col z) (z_ptr z) = Ok s /\
      (jacobi_ready c -> distributed_as [s] [seq 0 n] (inverse_diagonal n A)).
  Proof.
    intros debug c n A z Hn D Hr Hc Ho (O1 & O2 & O3 & G1 & G2 & G3). destruct (dm_holds D) as [R1 [R2 R3]].
    destruct (R3 0 c eq_refl) as [rows [Hrows He]]. cbn [nth] in He. simpl in R1. injection R1 as Er. destruct (dm_sizes D c) as [M1 M2]; [simpl; auto|].
    assert (Hl : length rows = n) by (rewrite (cs_rows Hrows), Er, seq_length; auto).
    rewrite <- (cs_rows Hrows) in O2, O3, G1, G2, G3. pose proof (Ho rows Hrows) as Hs.
    destruct (@cuda_smoother_spec K debug c rows 0 (z_order1 z) (z_order2 z) (z_order3 z) (z_val z) (z_col z) (z_ptr z) Hrows Hs) as [s [val [E [Hss [Sm [Sn [Sr [Sd V]]]]]]]]; auto.
    { rewrite M1, M2, Hr, Hc. auto. }
    { rewrite Er. destruct n; [lia|reflexivity]. }
    exists s. split; [exact E|]. intros Hj. destruct (Hj rows Hrows) as [_ Hd].
    assert (Hval : forall r, r < n -> nth r val 0%K = (1 / ent A r r)%K).
    { intros r Hrn. pose proof (Hd r ltac:(lia)) as Hi. apply in_map_iff in Hi. destruct Hi as [[g v] [Eg Hv]]. simpl in Eg. subst g.
      rewrite (proj1 (V r ltac:(lia)) v Hv). f_equal. destruct (He r ltac:(lia)) as [_ Q]. rewrite seq_nth in Q by auto. simpl (0 + _) in Q. rewrite <- Q by lia.
      symmetry. apply simple_entry; auto. apply Hs. apply nth_In. lia. }
    split; [simpl; rewrite Sr, Er; auto|]. split.
    { intros i Hi. simpl in Hi. rewrite app_nil_r in Hi. apply in_seq in Hi. simpl. lia. }
    intros r c0 Ec. destruct r as [|[|r]]; try discriminate. injection Ec as <-.
    eexists. split; [exact Hss|]. rewrite map_length, seq_length. intros i Hi. rewrite Hl in *.
    rewrite (nth_map_lt _ (seq 0 n) [] 0) by (rewrite seq_length; auto). rewrite seq_nth by auto. simpl (0 + _). split.
    - intros e [<-|[]]. simpl. auto.
    - intros g Hg. rewrite entry_cons. simpl fst. simpl snd. change (entry [] g) with (@f0 K). cbn [nth]. rewrite seq_nth by auto. simpl (0 + _).
      unfold inverse_diagonal. simpl ent. destruct (i =? g); [rewrite Hval by auto|]; ring.
  Qed.
  Lemma jacobi_correction : forall n (A : mat K) (b x : vec), nr A = n -> nc A = n -> length b = n -> length x = n ->
    correction_step (mulvec A) (mulvec (inverse_diagonal n A)) b x = jacobi_step A b x.
  Proof.
    intros n A b x Hr Hc Hb Hx. assert (Lr : length (vsub (mulvec A x) b) = n) by (rewrite vsub_length, mulvec_length; unfold OField.vec in *; lia).
    unfold correction_step, jacobi_step. rewrite Hc. apply (@list_ext K _ _ 0%K).
    { rewrite vsub_length, mulvec_length, map_length, seq_length. simpl nr. unfold OField.vec in *. lia. }
    intros i Hi. rewrite vsub_length, mulvec_length in Hi. simpl nr in Hi. assert (Hin : i < n) by (unfold OField.vec in *; lia).
    rewrite (nth_map_lt _ (seq 0 n) 0%K 0) by (rewrite seq_length; auto). rewrite seq_nth by auto. simpl (0 + _).
    rewrite nth_vsub by (rewrite mulvec_length; simpl nr; unfold OField.vec in *; lia).
    rewrite nth_mulvec by (simpl; auto). simpl nc. rewrite (@sumn_single K n i); auto.
    - unfold inverse_diagonal. simpl ent. rewrite Nat.eqb_refl. rewrite nth_vsub by (rewrite mulvec_length; unfold OField.vec in *; lia).
      rewrite (Fdiv_def (f_field K)), (Fdiv_def (f_field K)). ring.
    - intros j Hj Hne. unfold inverse_diagonal. simpl ent. replace (i =? j) with false by (symmetry; apply Nat.eqb_neq; auto). ring.
  Qed.

  (** The direct solver on one rank. *)
  Lemma regular_of : forall name A, direct_solvable name A -> @regular K A.
  Proof. intros name A [[_ Q]|[_ Q]]; auto. apply spd_regular. auto. Qed.
  Lemma kept_mats : forall (s s' : cuda_state K) k m, keeps s s' -> nth_error (u_mats s) k = Some m -> nth_error (u_mats s') k = Some m.
  Proof. intros s s' k m [[more E] _] H. rewrite E. rewrite nth_error_app1; auto. apply nth_error_Some. congruence. Qed.
  Lemma kept_matrix : forall (s s' : cuda_state K) k m, keeps s s' -> get_matrix s k = Ok m -> get_matrix s' k = Ok m.
  Proof.
    intros s s' k m H E. unfold get_matrix, rd in *. destruct (nth_error (u_ops s) k) as [o|] eqn:Eo; [|discriminate]. cbn [bind] in E.
    destruct (nth_error (u_mats s) (o_mat o)) as [m'|] eqn:Em; [|discriminate]. injection E as ->. destruct (proj2 H k o Eo) as [o' [-> Q]]. cbn [bind]. rewrite Q.
    rewrite (kept_mats _ H Em). auto.
  Qed.

  Lemma direct_acts : forall debug Y name (s : cuda_state K) k m c A n (h0 : heap K), solver_library_ok Y -> get_matrix s k = Ok m -> m_parts m = [c] ->
    m_handle m = true -> m_descr m = true -> device_matrix [c] [seq 0 n] [seq 0 n] A -> nr A = n -> nc A = n -> 0 < n -> columns_once c ->
    direct_solvable name A -> allocator_ok h0 ->
    exists C, solver_acts s (direct_solver debug Y k name) [seq 0 n] n C /\ jointly_linear n C /\
      forall b x, length b = n -> length x = n -> length (C b x) = n /\ mulvec A (C b x) = b.
  Proof.
    intros debug Y name s k m c A n h0 HY Hk Hp Hh Hd D Hr Hc Hn Ho Hs Ha.
    set (M := mkSolverMatrix c true true).
    set (C := fun b x : vec => match direct_apply debug Y name M b x h0 with Ok (y, _) => y | _ => [] end).
    pose proof (regular_of Hs) as Hreg.
    assert (HC : forall b x, length b = n -> length x = n -> length (C b x) = n /\ mulvec A (C b x) = b).
    { intros b x Hb Hx. destruct (@direct_solved K debug Y name c _ _ A b x h0 HY D) as [y [h' [E [L [S _]]]]]; try congruence; auto; try lia.
      unfold C, M. rewrite E. split; congruence. }
    exists C. split; [|split; auto].
    - intros d b x HK HA Hl Hb Hx. unfold direct_solver. rewrite (kept_matrix k HK Hk). cbn [bind]. rewrite Hp, Hh, Hd. cbn [length seq mapM].
      destruct (d_heaps d) as [|h [|h2 hs]] eqn:Eh; try discriminate. inversion HA as [|? ? Ha' _]; subst.
      unfold spread. cbn [v_vals v_owned]. rewrite !scatter_one by auto. cbn [rd nth_error bind].
      destruct (@direct_solved K debug Y name c _ _ A b x h HY D) as [y [h' [E [L [S [M1 M2]]]]]]; try congruence; auto; try lia. rewrite E. cbn [bind map fst snd].
      destruct (HC b x Hb Hx) as [Q1 Q2]. assert (Ey : y = C b x) by (apply (@regular_unique K A _ _ Hreg); congruence). subst y.
      rewrite scatter_one by auto. eexists. split; [reflexivity|]. split; auto. constructor; auto.
    - intros p q b c0 x y Hb Hc0 Hx Hy. 
      assert (L1 : length (vadd (vscale p b) (vscale q c0)) = n) by (rewrite vadd_length, !vscale_length; unfold OField.vec in *; lia).
      assert (L2 : length (vadd (vscale p x) (vscale q y)) = n) by (rewrite vadd_length, !vscale_length; unfold OField.vec in *; lia).
      destruct (HC _ _ L1 L2) as [Q1 Q2]. destruct (HC b x Hb Hx) as [Q3 Q4]. destruct (HC c0 y Hc0 Hy) as [Q5 Q6].
      apply (@regular_unique K A _ _ Hreg); [congruence| |].
      + rewrite vadd_length, !vscale_length. unfold OField.vec in *. lia.
      + rewrite Q2. fold (P_Hier2.lc p (C b x) q (C c0 y)). rewrite (lin_lc (mulvec_linear A)) by congruence. rewrite Q4, Q6. reflexivity.
  Qed.

  (** New operators. *)
  Lemma new_means : forall (s : cuda_state K) ms m A range domain, state_means s ms -> device_matrix (m_parts m) range domain A -> m_handle m = true -> m_descr m = true ->
    state_means (new_operator s m) (ms ++ [mkMeaning A range domain false true])%list.
  Proof.
    intros s ms m A range domain H D Hh Hd. unfold new_operator, state_means. cbn [u_ops]. apply Forall2_snoc.
    - eapply Forall2_weaken; [|exact H]. intros o a Q. apply means_more. auto.
    - split; cbn [o_mat o_trans a_cached a_mat a_range a_domain a_ready u_mats]; auto. exists m. split; auto. rewrite nth_error_app2, Nat.sub_diag by lia. auto.
  Qed.
  Lemma means_length : forall (s : cuda_state K) ms, state_means s ms -> length ms = length (u_ops s).
  Proof. intros s ms H. induction H; simpl; auto. Qed.
  Lemma nth_snoc : forall A (l : list A) a, nth_error (l ++ [a])%list (length l) = Some a.
  Proof. intros. rewrite nth_error_app2, Nat.sub_diag by lia. auto. Qed.
  Lemma nth_before : forall A (l l' : list A) k a, nth_error l k = Some a -> nth_error (l ++ l')%list k = Some a.
  Proof. intros. rewrite nth_error_app1; auto. apply nth_error_Some. congruence. Qed.

  (** The Galerkin product on one rank, with the csr of the result. *)
  Lemma galerkin_built : forall debug (L : libraries K) s ms k A n rm R nR cr, libraries_ok L -> gemm_once L -> state_means s ms ->
    nth_error ms k = Some (mkMeaning A [seq 0 n] [seq 0 n] false true) -> nr A = n -> nc A = n ->
    m_parts rm = [cr] -> device_matrix [cr] [seq 0 nR] [seq 0 n] R -> m_handle rm = true -> m_descr rm = true -> nr R = nR -> nc R = n -> no_zero_rank [seq 0 n] (mtrans R) ->
    exists s2 s3 m c, op_multiply_transpose debug L (new_operator s rm) k (length (u_ops s)) = Ok s2 /\ length (u_ops s2) = S (S (length (u_ops s))) /\
      op_multiply debug L s2 (length (u_ops s)) (S (length (u_ops s))) = Ok s3 /\
      state_means s3 (ms ++ [mkMeaning R [seq 0 nR] [seq 0 n] false true; mkMeaning (mmul A (mtrans R)) [seq 0 n] [seq 0 nR] false true;
                             mkMeaning (mmul R (mmul A (mtrans R))) [seq 0 nR] [seq 0 nR] false true])%list /\
      get_matrix s3 (S (S (length (u_ops s)))) = Ok m /\ m_parts m = [c] /\ m_handle m = true /\ m_descr m = true /\ columns_once c /\
      device_matrix [c] [seq 0 nR] [seq 0 nR] (mmul R (mmul A (mtrans R))).
  Proof.
    intros debug L s ms k A n rm R nR cr HL HG H Hk Hr Hc Hp D Hh Hd HR1 HR2 Hz.
    pose proof (means_length H) as Hlen.
    assert (H1 : state_means (new_operator s rm) (ms ++ [mkMeaning R [seq 0 nR] [seq 0 n] false true])%list) by (apply new_means; auto; rewrite Hp; auto).
    set (ms1 := (ms ++ [mkMeaning R [seq 0 nR] [seq 0 n] false true])%list) in *.
    assert (Hr1 : nth_error ms1 (length (u_ops s)) = Some (mkMeaning R [seq 0 nR] [seq 0 n] false true)) by (unfold ms1; rewrite <- Hlen; apply nth_snoc).
    assert (Hk1 : nth_error ms1 k = Some (mkMeaning A [seq 0 n] [seq 0 n] false true)) by (apply nth_before; auto).
    destruct (@call_step_ok K debug L (new_operator s rm) ms1 _ _ _ HL H1 (@MMultiplyTranspose K ms1 k (length (u_ops s)) A R [seq 0 n] [seq 0 n] [seq 0 nR] false false true true Hk1 Hr1 ltac:(congruence)
      (fun _ => conj eq_refl Hz) (fun Q => match Q eq_refl with end))) as [s2 [E2 H2]].
    cbn [call_step] in E2. destruct (op_multiply_transpose debug L (new_operator s rm) k (length (u_ops s))) as [s2'| | | |]; try discriminate. cbn [bind] in E2. injection E2 as <-.
    cbn [length Nat.eqb] in H2. set (ms2 := (ms1 ++ [mkMeaning (mmul A (mtrans R)) [seq 0 n] [seq 0 nR] false true])%list) in *.
    pose proof (means_length H2) as Hlen2. assert (Hl2 : length (u_ops s2') = S (S (length (u_ops s)))) by (rewrite <- Hlen2; unfold ms2, ms1; rewrite !app_length; simpl; lia).
    assert (Hr2 : nth_error ms2 (length (u_ops s)) = Some (mkMeaning R [seq 0 nR] [seq 0 n] false true)) by (apply nth_before; auto).
    assert (Hap : nth_error ms2 (S (length (u_ops s))) = Some (mkMeaning (mmul A (mtrans R)) [seq 0 n] [seq 0 nR] false true)).
    { unfold ms2. replace (S (length (u_ops s))) with (length ms1) by (unfold ms1; rewrite app_length; simpl; lia). apply nth_snoc. }
    destruct (@call_step_ok K debug L s2' ms2 _ _ _ HL H2 (@MMultiply K ms2 (length (u_ops s)) (S (length (u_ops s))) R (mmul A (mtrans R)) [seq 0 nR] [seq 0 n] [seq 0 nR] false false true true Hr2 Hap ltac:(simpl; congruence)
      (fun _ => conj eq_refl eq_refl) (fun Q => match Q eq_refl with end))) as [s3 [E3 H3]].
    cbn [call_step] in E3. destruct (op_multiply debug L s2' (length (u_ops s)) (S (length (u_ops s)))) as [s3'| | | |] eqn:Em; try discriminate. cbn [bind] in E3. injection E3 as <-.
    assert (Hac : nth_error (ms2 ++ [mkMeaning (mmul R (mmul A (mtrans R))) [seq 0 nR] [seq 0 nR] false true])%list (S (S (length (u_ops s)))) =
      Some (mkMeaning (mmul R (mmul A (mtrans R))) [seq 0 nR] [seq 0 nR] false true)).
    { replace (S (S (length (u_ops s)))) with (length ms2) by (rewrite Hlen2; auto). apply nth_snoc. }
    destruct (@Forall2_back _ _ _ _ _ H3 _ _ Hac) as [o [Ho [[m [Hm [Dm [Mh Md]]]] _]]]. cbn [a_mat a_range a_domain a_ready] in *.
    exists s2', s3', m. 
    assert (Hg : get_matrix s3' (S (S (length (u_ops s)))) = Ok m) by (unfold get_matrix; rewrite (rd_ok _ _ Ho); cbn [bind]; apply rd_ok; auto).
    assert (Hshape : exists c, m_parts m = [c] /\ columns_once c).
    { unfold op_multiply in Em. destruct (rd (u_ops s2') (length (u_ops s))) as [oa| | | |] eqn:X1; try discriminate. cbn [bind] in Em.
      destruct (rd (u_ops s2') (S (length (u_ops s)))) as [ob| | | |] eqn:X4; try discriminate. cbn [bind] in Em.
      destruct (rd (u_mats s2') (o_mat oa)) as [ma| | | |] eqn:X2; try discriminate. cbn [bind] in Em. destruct (rd (u_mats s2') (o_mat ob)) as [mb| | | |] eqn:X5; try discriminate. cbn [bind] in Em.
      destruct (shared_mmult debug L ma mb) as [mc| | | |] eqn:X3; try discriminate. cbn [bind] in Em. injection Em as <-. cbn [u_ops u_mats] in *.
      rewrite <- Hl2 in Ho. rewrite nth_error_app2, Nat.sub_diag in Ho by lia. injection Ho as <-. cbn [o_mat] in Hm. rewrite nth_snoc in Hm. injection Hm as ->.
      assert (Dma : device_matrix (m_parts ma) [seq 0 nR] [seq 0 n] R).
      { destruct (@Forall2_back _ _ _ _ _ H2 _ _ Hr2) as [o2 [Ho2 [[m2 [Hm2 [Dm2 _]]] _]]]. cbn [a_mat a_range a_domain] in *. rewrite (rd_ok _ _ Ho2) in X1. injection X1 as ->.
        rewrite (rd_ok _ _ Hm2) in X2. injection X2 as ->. exact Dm2. }
      assert (Dmb : device_matrix (m_parts mb) [seq 0 n] [seq 0 nR] (mmul A (mtrans R))).
      { destruct (@Forall2_back _ _ _ _ _ H2 _ _ Hap) as [o2 [Ho2 [[m2 [Hm2 [Dm2 _]]] _]]]. cbn [a_mat a_range a_domain] in *. rewrite (rd_ok _ _ Ho2) in X4. injection X4 as ->.
        rewrite (rd_ok _ _ Hm2) in X5. injection X5 as ->. exact Dm2. }
      pose proof (proj1 (device_length Dma)) as Hma. pose proof (proj1 (device_length Dmb)) as Hmb. cbn [length] in Hma, Hmb.
      unfold shared_mmult in X3. destruct (parts_m (m_parts mb)) as [bm| | | |]; try discriminate. cbn [bind] in X3. destruct (parts_n (m_parts ma)) as [an| | | |]; try discriminate. cbn [bind] in X3.
      destruct (assert_dbg debug (bm =? an)) as [[]| | | |]; try discriminate. cbn [bind] in X3. rewrite Hma in X3. cbn [Nat.eqb] in X3.
      destruct (m_handle ma && m_descr ma && m_descr mb); [|destruct debug; discriminate]. destruct (m_parts ma) as [|ca [|]]; try discriminate. destruct (m_parts mb) as [|cb [|]]; try discriminate.
      cbn [rd nth_error bind] in X3. injection X3 as <-. cbn [m_parts]. exists (x_gemm L ca cb). split; auto. apply (HG ca cb _ _ _ _ _ Dma Dmb). simpl. congruence. }
    destruct Hshape as [c [Ec Hc1]]. exists c. rewrite Ec in Dm.
    split; auto. split; auto. split; auto. split; [|repeat (split; auto)].
    unfold ms2, ms1 in H3. rewrite <- !app_assoc in H3. exact H3.
  Qed.

  Lemma ready_once : forall c : csr K, jacobi_ready c -> columns_once c.
  Proof. intros c H rows Hr row Hi. apply (proj1 (H rows Hr)). auto. Qed.
  (** One level that is not the last. *)
  Lemma setup_step : forall debug L Y z restr global p (d : device K) A R h h' todo, device_input L Y z global p d A h -> restricts restr A R h h' ->
    let k := length (u_ops (d_ops d)) in
    exists sm s3 ms m c, 
      dev_setup debug L Y z restr p (S todo) None k (mkDevice (new_operator (d_ops d) global) (d_heaps d) (d_products d)) =
        bind (dev_setup debug L Y z restr p todo (Some (S k)) (S (S (S k))) (mkDevice s3 [h'] (d_products d)))
          (fun r => Ok (mkDevLevel (Some k) None (Some sm) None :: fst r, snd r)) /\
      sm_op sm = k /\ m_handle (sm_matrix sm) = true /\ m_descr (sm_matrix sm) = true /\
      distributed_as (m_parts (sm_matrix sm)) [seq 0 (nr A)] (inverse_diagonal (nr A) A) /\
      state_means s3 ms /\ length (u_ops s3) = S (S (S (S k))) /\ nth_error ms k = Some (mkMeaning A [seq 0 (nr A)] [seq 0 (nr A)] false true) /\
      nth_error ms (S k) = Some (mkMeaning R [seq 0 (nr R)] [seq 0 (nr A)] false true) /\
      nth_error ms (S (S (S k))) = Some (mkMeaning (mmul R (mmul A (mtrans R))) [seq 0 (nr R)] [seq 0 (nr R)] false true) /\
      get_matrix s3 (S (S (S k))) = Ok m /\ m_parts m = [c] /\ m_handle m = true /\ m_descr m = true /\ columns_once c /\
      device_matrix [c] [seq 0 (nr R)] [seq 0 (nr R)] (mmul R (mmul A (mtrans R))).
  Proof.
    intros debug L Y z restr global p d A R h h' todo [HL HG HY [ms0 HS] [Hm Ha] [c [Ec [D [J Z]]]] [Hh Hd] [Hsq Hn] Hf Hsm] [[rm [cr [Er [Ecr [DR [Rh Rd]]]]]] Ha' [HR1 HR2] Hz] k.
    cbn [dev_setup]. cbn [d_ops d_heaps d_products].
    assert (HS1 : state_means (new_operator (d_ops d) global) (ms0 ++ [mkMeaning A [seq 0 (nr A)] [seq 0 (nr A)] false true])%list) by (apply new_means; auto; rewrite Ec; auto).
    pose proof (means_length HS) as Hlen. fold k in Hlen.
    assert (Hk : nth_error (ms0 ++ [mkMeaning A [seq 0 (nr A)] [seq 0 (nr A)] false true])%list k = Some (mkMeaning A [seq 0 (nr A)] [seq 0 (nr A)] false true)) by (rewrite <- Hlen; apply nth_snoc).
    assert (Hg : get_matrix (new_operator (d_ops d) global) k = Ok global).
    { unfold get_matrix, new_operator. cbn [u_ops u_mats]. rewrite (rd_ok _ _ (nth_snoc (u_ops (d_ops d)) _)). cbn [bind o_mat]. apply rd_ok. apply nth_snoc. }
    destruct (@smoother_built debug c (nr A) A (z k 0 c) Hn D eq_refl (eq_sym Hsq) (ready_once J) Z) as [sc [Esc Dsc]].
    unfold build_smoother. rewrite Hsm. cbn [String.eqb Ascii.eqb Bool.eqb negb]. rewrite Hg. cbn [bind]. rewrite Hh, Ec. cbn [length seq mapM rd nth_error bind]. rewrite Esc. cbn [bind].
    rewrite Hm, Er. cbn [bind]. rewrite Hf.
    assert (Hl1 : length (u_ops (new_operator (d_ops d) global)) = S k) by (unfold new_operator; cbn [u_ops]; rewrite app_length; simpl; unfold k; lia).
    destruct (@galerkin_built debug L (new_operator (d_ops d) global) _ k A (nr A) rm R (nr R) cr HL HG HS1 Hk eq_refl (eq_sym Hsq) Ecr DR Rh Rd eq_refl HR1 Hz)
      as [s2 [s3 [m [c2 [E2 [Hl2 [E3 [HS3 [G1 [G2 [G3 [G4 [G5 G6]]]]]]]]]]]]].
    rewrite E2. cbn [bind]. assert (Hl1' : length (u_ops (new_operator (new_operator (d_ops d) global) rm)) = S (S k)) by (unfold new_operator at 1; cbn [u_ops]; rewrite app_length, Hl1; simpl; lia).
    rewrite Hl1'. rewrite Hl1 in *. rewrite E3. cbn [bind]. rewrite Hl2.
    eexists (mkDevSmoother k (mkShared [sc] true true)), s3, _, m, c2. split.
    { destruct (dev_setup debug L Y z restr p todo (Some (S k)) (S (S (S k))) {| d_ops := s3; d_heaps := [h']; d_products := d_products d |}) as [[ls d']| | | |]; reflexivity. }
    cbn [sm_op sm_matrix m_handle m_descr m_parts]. split; auto. split; auto. split; auto. split; [auto|]. split; [exact HS3|].
    split. { rewrite <- (means_length HS3), !app_length. simpl. lia. }
    assert (Q : forall i a, nth_error [mkMeaning A [seq 0 (nr A)] [seq 0 (nr A)] false true; mkMeaning R [seq 0 (nr R)] [seq 0 (nr A)] false true;
        mkMeaning (mmul A (mtrans R)) [seq 0 (nr A)] [seq 0 (nr R)] false true; mkMeaning (mmul R (mmul A (mtrans R))) [seq 0 (nr R)] [seq 0 (nr R)] false true] i = Some a ->
      nth_error ((ms0 ++ [mkMeaning A [seq 0 (nr A)] [seq 0 (nr A)] false true]) ++ [mkMeaning R [seq 0 (nr R)] [seq 0 (nr A)] false true;
        mkMeaning (mmul A (mtrans R)) [seq 0 (nr A)] [seq 0 (nr R)] false true; mkMeaning (mmul R (mmul A (mtrans R))) [seq 0 (nr R)] [seq 0 (nr R)] false true])%list (i + k) = Some a).
    { intros i a Hi. rewrite <- app_assoc. cbn [app]. rewrite nth_error_app2 by lia. rewrite Hlen. replace (i + k - k) with i by lia. exact Hi. }
    split; [apply (Q 0); reflexivity|]. split; [apply (Q 1); reflexivity|]. split; [apply (Q 3); reflexivity|]. repeat (split; auto).
  Qed.

  (** The hierarchy of two levels. *)
  Lemma construct_described : forall debug L Y z restr global p (d : device K) A R h h', device_input L Y z global p d A h -> restricts restr A R h h' ->
    pt_get parse_int ["max levels"%string] 2%Z p = 2%Z -> direct_solvable (solver_name p) (mmul R (mmul A (mtrans R))) ->
    exists lv rest s3 ms C, dev_construct debug L Y z restr global p d = Ok (mkDevHierarchy (lv :: rest) (c_prec p) (c_steps p), mkDevice s3 [h'] (d_products d)) /\
      steady s3 ms [h'] (mkDevice s3 [h'] (d_products d)) /\
      dev_describes s3 ms lv rest [seq 0 (nr A)]
        [mkFine (nc A) (mulvec A) (correction_step (mulvec A) (mulvec (inverse_diagonal (nr A) A))) (mulvec R) (mulTvec R)] (nr R) C /\
      jointly_linear (nr R) C /\
      (forall b x, length b = nr R -> length x = nr R -> length (C b x) = nr R /\ mulvec (mmul R (mmul A (mtrans R))) (C b x) = b).
  Proof.
    intros debug L Y z restr global p d A R h h' P PR Hlv Hsol.
    destruct (@setup_step debug L Y z restr global p d A R h h' 0 P PR) as [sm [s3 [ms [m [c [E [M1 [M2 [M3 [M4 [HS [Hl [K1 [K2 [K3 [G1 [G2 [G3 [G4 [G5 G6]]]]]]]]]]]]]]]]]]]].
    pose proof (in_libraries P) as HL. pose proof (in_solver P) as HY. destruct (in_memory P) as [Hm Ha]. pose proof (re_memory PR) as Ha'. destruct (in_square P) as [Hsq Hn]. destruct (re_sizes PR) as [HR1 HR2]. pose proof (re_nonzero PR) as Hz.
    set (k := length (u_ops (d_ops d))) in *. set (Ac := mmul R (mmul A (mtrans R))) in *.
    unfold dev_construct. rewrite Hlv. unfold assert_dbg. cbn [Z.ltb Z.compare negb andb]. rewrite andb_false_r. cbn [bind Z.eqb]. change (Z.to_nat 2 - 1) with 1. fold k. rewrite E. cbn [dev_setup bind fst snd].
    destruct (@direct_acts debug Y (solver_name p) s3 (S (S (S k))) m c Ac (nr R) h' HY G1 G2 G3 G4 G6 eq_refl eq_refl HR2 G5 Hsol Ha') as [C [C1 [C2 C3]]].
    set (lc := mkDevLevel (Some (S (S (S k)))) (Some (S k)) None (Some (build_coarse_solver debug Y p (S (S (S k)))))).
    exists (mkDevLevel (Some k) None (Some sm) None), [lc], s3, ms, C. split; [reflexivity|]. split.
    { split; [apply keeps_refl|]. split; [exists ms; split; auto; intros j B r0 dm cc rr Hj; eauto|]. cbn [d_heaps]. apply kept_refl. constructor; auto. }
    split; auto. eapply (@dev_fine K s3 ms) with (k := k) (r := S k) (sm := sm); eauto; try reflexivity; try congruence.
    eapply (@dev_coarsest K s3 ms) with (k := S (S (S k))); eauto; reflexivity.
  Qed.
  (** The two-grid method. *)
  Lemma construct_two : forall debug L Y z restr global p (d : device K) A R h h', device_input L Y z global p d A h -> restricts restr A R h h' ->
    pt_get parse_int ["max levels"%string] 2%Z p = 2%Z -> direct_solvable (solver_name p) (mmul R (mmul A (mtrans R))) ->
    exists H d1, dev_construct debug L Y z restr global p d = Ok (H, d1) /\ d_heaps d1 = [h'] /\
      forall cond qs, any_conditions cond -> (forall x b, In (x, b) qs -> length x = nr A /\ length b = nr A) ->
      exists ys d2, dev_vmults debug L cond H (vmult_requests [seq 0 (nr A)] qs) d1 = Ok (map (spread [seq 0 (nr A)]) ys, d2) /\
        Forall2 (fun q y => two_grid A R (c_steps p) (snd q) (if c_prec p then vzero (nr A) else fst q) y) qs ys /\ memory_kept [h'] (d_heaps d2).
  Proof.
    intros debug L Y z restr global p d A R h h' P PR Hlv Hsol.
    destruct (@construct_described debug L Y z restr global p d A R h h' P PR Hlv Hsol) as [lv [rest [s3 [ms [C [E [St [DD [C2 C3]]]]]]]]].
    pose proof (in_libraries P) as HL. destruct (in_square P) as [Hsq Hn]. destruct (re_sizes PR) as [HR1 HR2]. pose proof (re_nonzero PR) as Hz.
    eexists _, _. split; [exact E|]. cbn [d_heaps]. split; auto. intros cond qs HC Hq.
    destruct (@vmults_run K debug L cond s3 ms [h'] HL HC (c_prec p) (c_steps p) _ _ _ _ _ _ DD C2 eq_refl qs (mkDevice s3 [h'] (d_products d)) St) as [d2 [E2 S2]].
    { cbn [top_size fn]. intros x b Hi. rewrite <- Hsq. auto. }
    cbn [top_size fn] in E2.
    eexists (map _ qs), d2. split; [rewrite map_map; exact E2|]. split; [|apply S2].
    assert (Hj : forall b x, length b = nr A -> length x = nr A -> correction_step (mulvec A) (mulvec (inverse_diagonal (nr A) A)) b x = jacobi_step A b x).
    { intros b x Hb Hx. apply jacobi_correction; auto. }
    assert (Lj : forall b x, length (jacobi_step A b x) = nr A) by (intros; unfold jacobi_step; rewrite map_length, seq_length; auto).
    clear E2 E. induction qs as [|[x b] qs IH]; constructor; [|apply IH; intros; apply Hq; simpl; auto]. cbn [fst snd].
    destruct (Hq x b ltac:(simpl; auto)) as [Lx Lb]. set (x0 := if c_prec p then vzero (nr A) else x). set (n := c_steps p).
    assert (L0 : length x0 = nr A) by (unfold x0; destruct (c_prec p); auto; apply vzero_length).
    replace (if c_prec p then vzero (nc A) else x) with x0 by (unfold x0; rewrite Hsq; auto).
    cbn [textbook_vcycle fA fS fR fP fn top_size].
    assert (It : forall y, length y = nr A -> iter n (correction_step (mulvec A) (mulvec (inverse_diagonal (nr A) A)) b) y = iter n (jacobi_step A b) y).
    { intros y Ly. apply (@iter_ext K n (nr A)); auto. intros w Lw. rewrite Hj; auto. }
    rewrite (It x0 L0). assert (L1 : length (iter n (jacobi_step A b) x0) = nr A) by (apply iter_length; auto; intros w Lw; auto).
    set (x1 := iter n (jacobi_step A b) x0) in *. set (e := C (mulvec R (vsub b (mulvec A x1))) (vzero (nr R))).
    destruct (C3 (mulvec R (vsub b (mulvec A x1))) (vzero (nr R))) as [C4 C5]; [rewrite mulvec_length; auto|apply vzero_length|]. fold e in C4, C5.
    unfold two_grid. fold x1. exists e. split; auto. split; auto. apply It. rewrite vadd_length. unfold mulTvec. rewrite mulvec_length. simpl nr. unfold OField.vec in *. lia.
  Qed.

  (** A hierarchy of one level is the direct solver. *)
  Lemma construct_one : forall debug L Y z restr global p (d : device K) A h, device_input L Y z global p d A h ->
    pt_get parse_int ["max levels"%string] 2%Z p = 1%Z -> direct_solvable (solver_name p) A ->
    exists H d1, dev_construct debug L Y z restr global p d = Ok (H, d1) /\ d_heaps d1 = [h] /\
      forall cond qs, any_conditions cond -> (forall x b, In (x, b) qs -> length x = nr A /\ length b = nr A) ->
      exists ys d2, dev_vmults debug L cond H (vmult_requests [seq 0 (nr A)] qs) d1 = Ok (map (spread [seq 0 (nr A)]) ys, d2) /\
        Forall2 (fun q y => length y = nr A /\ mulvec A y = snd q) qs ys /\ memory_kept [h] (d_heaps d2).
  Proof.
    intros debug L Y z restr global p d A h [HL HG HY [ms0 HS] [Hm Ha] [c [Ec [D [J Z]]]] [Hh Hd] [Hsq Hn] _ _] Hlv Hsol.
    unfold dev_construct. rewrite Hlv. unfold assert_dbg. cbn [Z.ltb Z.compare negb andb]. rewrite andb_false_r. cbn [bind Z.eqb]. change (Z.to_nat 1 - 1) with 0. cbn [dev_setup bind].
    set (k := length (u_ops (d_ops d))). eexists _, _. split; [reflexivity|]. cbn [d_heaps]. split; auto. intros cond qs HC Hq.
    assert (Hg : get_matrix (new_operator (d_ops d) global) k = Ok global).
    { unfold get_matrix, new_operator. cbn [u_ops u_mats]. rewrite (rd_ok _ _ (nth_snoc (u_ops (d_ops d)) _)). cbn [bind o_mat]. apply rd_ok. apply nth_snoc. }
    destruct (@direct_acts debug Y (solver_name p) (new_operator (d_ops d) global) k global c A (nr A) h HY Hg Ec Hh Hd D eq_refl (eq_sym Hsq) Hn (ready_once J) Hsol Ha) as [C [C1 [C2 C3]]].
    assert (HS1 : state_means (new_operator (d_ops d) global) (ms0 ++ [mkMeaning A [seq 0 (nr A)] [seq 0 (nr A)] false true])%list) by (apply new_means; auto; rewrite Ec; auto).
    assert (DD : dev_describes (new_operator (d_ops d) global) (ms0 ++ [mkMeaning A [seq 0 (nr A)] [seq 0 (nr A)] false true])%list
      (mkDevLevel (Some k) None None (Some (build_coarse_solver debug Y p k))) [] [seq 0 (nr A)] [] (nr A) C).
    { eapply (@dev_coarsest K) with (k := k); eauto; try reflexivity. unfold k. rewrite <- (means_length HS). apply nth_snoc. }
    destruct (@vmults_run K debug L cond _ _ [h] HL HC (c_prec p) (c_steps p) _ _ _ _ _ _ DD C2 eq_refl qs (mkDevice (new_operator (d_ops d) global) [h] (d_products d))) as [d2 [E2 S2]].
    { split; [apply keeps_refl|]. split; [eexists; split; [exact HS1|]; intros j B r0 dm cc rr Hj; eauto|]. cbn [d_heaps]. apply kept_refl. constructor; auto. }
    { cbn [top_size]. auto. }
    rewrite Hm. eexists (map _ qs), d2. split; [rewrite map_map; exact E2|]. split; [|apply S2].
    clear E2. induction qs as [|[x b] qs IH]; constructor; [|apply IH; intros; apply Hq; simpl; auto]. cbn [fst snd textbook_vcycle top_size].
    destruct (Hq x b ltac:(simpl; auto)) as [Lx Lb]. apply C3; auto. destruct (c_prec p); auto. apply vzero_length.
  Qed.

  (** Three levels or more: the second restriction does not fit. *)
  Lemma construct_many : forall L Y z restr global p (d : device K) A R h h', device_input L Y z global p d A h -> restricts restr A R h h' ->
    (3 <= pt_get parse_int ["max levels"%string] 2%Z p)%Z -> nr R <> nr A ->
    (forall c, any_smoother_conditions c (z (S (S (S (length (u_ops (d_ops d)))))) 0 c)) ->
    (exists R2 h2, restricts restr A R2 h' h2) ->
    dev_construct true L Y z restr global p d = Abort.
  Proof.
    intros L Y z restr global p d A R h h' P PR Hlv Hne Z [R2 [h2 [[rm [cr [Er [Ecr [DR [Rh Rd]]]]]] _ [HR4 _] Hz2]]].
    assert (Hn0 : exists todo, Z.to_nat (pt_get parse_int ["max levels"%string] 2%Z p) - 1 = S (S todo)).
    { exists (Z.to_nat (pt_get parse_int ["max levels"%string] 2%Z p) - 3). lia. }
    destruct Hn0 as [todo Ht]. unfold dev_construct, assert_dbg.
    replace (0 <? pt_get parse_int ["max levels"%string] 2 p)%Z with true by (symmetry; apply Z.ltb_lt; lia). cbn [negb andb bind].
    replace (pt_get parse_int ["max levels"%string] 2 p <? 0)%Z with false by (symmetry; apply Z.ltb_ge; lia).
    replace (pt_get parse_int ["max levels"%string] 2 p =? 0)%Z with false by (symmetry; apply Z.eqb_neq; lia). rewrite Ht.
    destruct (@setup_step true L Y z restr global p d A R h h' (S todo) P PR) as [sm [s3 [ms [m [c [E [M1 [M2 [M3 [M4 [HS [Hl [K1 [K2 [K3 [G1 [G2 [G3 [G4 [G5 G6]]]]]]]]]]]]]]]]]]]].
    cbn zeta in E. rewrite E. clear E. set (k := length (u_ops (d_ops d))) in *.
    destruct (re_sizes PR) as [HR1 HR2]. pose proof (re_nonzero PR) as Hz. pose proof (in_libraries P) as HL.
    destruct (@smoother_built true c (nr R) (mmul R (mmul A (mtrans R))) (z (S (S (S k))) 0 c) HR2 G6 eq_refl eq_refl G5 (Z c)) as [sc [Esc _]].
    cbn [dev_setup d_ops d_heaps d_products]. unfold build_smoother. rewrite (in_smoother P). cbn [String.eqb Ascii.eqb Bool.eqb negb]. rewrite G1. cbn [bind]. rewrite G3, G2. cbn [length seq mapM rd nth_error bind]. rewrite Esc. cbn [bind].
    rewrite Er. cbn [bind]. rewrite (in_fast_ap P).
    assert (Q : op_multiply_transpose true L (new_operator s3 rm) (S (S (S k))) (length (u_ops s3)) = Abort); [|rewrite Q; reflexivity].
    unfold op_multiply_transpose. unfold get_matrix in G1. destruct (rd (u_ops s3) (S (S (S k)))) as [o| | | |] eqn:Eo; try discriminate. cbn [bind] in G1.
    assert (X : forall A0 (l l' : list A0) j a, rd l j = Ok a -> rd (l ++ l')%list j = Ok a).
    { intros A0 l l' j a Hj. unfold rd in *. destruct (nth_error l j) as [a'|] eqn:Ej; [|discriminate]. rewrite (nth_before _ l' _ Ej). auto. }
    unfold new_operator. cbn [u_ops u_mats]. rewrite (X _ _ _ _ _ Eo). cbn [bind]. rewrite (rd_ok _ _ (nth_snoc (u_ops s3) _)). cbn [bind o_mat].
    rewrite (X _ _ _ _ _ G1). cbn [bind]. rewrite (rd_ok _ _ (nth_snoc (u_mats s3) _)). cbn [bind].
    unfold shared_mmult_transpose. rewrite Ecr. cbn [length Nat.eqb].
    destruct (@build_transpose_ok K true L [cr] _ _ R2 HL DR Hz2) as [bt [Eb Db]]. rewrite Eb. cbn [bind]. unfold shared_mmult. cbn [m_parts].
    destruct (parts_sizes Db) as [Q1 _]. rewrite Q1. cbn [bind]. rewrite G2. destruct (parts_sizes G6) as [_ Q2]. rewrite Q2. cbn [bind]. simpl nr. simpl nc. rewrite HR4.
    unfold assert_dbg. replace (nr A =? nr R) with false by (symmetry; apply Nat.eqb_neq; auto). reflexivity.
  Qed.
End P.
