(** Proofs about the CUDA matrix operators. *)
From Coq Require Import List Arith Lia Bool Sorted Permutation.
From Verif Require Import Base OField Mat M_SpProd S_SpProd P_SpProd M_Csr S_Csr P_Csr P_Csr3 P_Csr4 P_Amgx2 M_CudaOp S_CudaOp P_Dev2.
Import ListNotations.
Set Implicit Arguments.
Open Scope nat_scope.

Lemma Forall2_back : forall A B (P : A -> B -> Prop) l l', Forall2 P l l' -> forall k b, nth_error l' k = Some b -> exists a, nth_error l k = Some a /\ P a b.
Proof. intros A B P l l' H. induction H; intros [|k] b Hb; simpl in *; try discriminate; eauto. injection Hb as <-. eauto. Qed.

Section P.
  Variable K : ofield.
  Implicit Types (B : mat K).

  Lemma mtrans_twice : forall B, mtrans (mtrans B) = B.
  Proof. intros [n m e]. reflexivity. Qed.

  (** Device to Trilinos. *)
  Lemma to_trilinos : forall fill cs range domain B, fill_ok fill -> device_matrix cs range domain B ->
    exists ts, mapM (convert_to_trilinos fill) cs = Ok ts /\ trilinos_matrix ts range domain B.
  Proof.
    intros fill cs range domain B Hf H. destruct (dm_holds H) as [Hr [Hin Hd]].
    assert (Hrow : forall c, In c cs -> exists rows, csr_holds c rows /\ forall i, i < length rows ->
        (forall e, In e (nth i rows []) -> fst e < nc B) /\ forall g, g < nc B -> entry (nth i rows []) g = ent B (nth i (c_range c) 0) g).
    { intros c Hc. apply In_nth_error in Hc. destruct Hc as [r Hc]. destruct (Hd r c Hc) as [rows [R1 R2]]. exists rows. split; auto.
      replace (c_range c) with (nth r range []); auto. rewrite <- Hr. apply nth_error_nth. rewrite nth_error_map, Hc. auto. }
    assert (Hex : exists ts, mapM (convert_to_trilinos fill) cs = Ok ts /\ Forall2 (fun c t => exists rows, csr_holds c rows /\
        (forall i, i < length rows -> (forall e, In e (nth i rows []) -> fst e < nc B) /\ forall g, g < nc B -> entry (nth i rows []) g = ent B (nth i (c_range c) 0) g) /\
        t = mkTri (c_m c) (c_n c) (c_range c) (c_domain c) (fst (fill (c_domain c) rows)) (snd (fill (c_domain c) rows))) cs ts).
    { clear - Hrow. induction cs as [|c cs IH]; simpl; [eexists; split; [reflexivity|constructor]|].
      destruct IH as [ts [E F]]; [intros; apply Hrow; simpl; auto|]. destruct (Hrow c) as [rows [R1 R2]]; [simpl; auto|].
      eexists. rewrite (convert_to_trilinos_spec fill R1). cbn [bind]. rewrite E. cbn [bind]. split; [reflexivity|]. constructor; auto. exists rows. auto. }
    destruct Hex as [ts [E F]]. exists ts. split; auto.
    assert (Hmap : map (@t_range K) ts = map (@c_range K) cs /\ map (@t_domain K) ts = map (@c_domain K) cs).
    { clear - F. induction F as [|c t cs ts [rows [_ [_ ->]]] F [I1 I2]]; simpl; split; auto; f_equal; auto. }
    assert (Hper : forall t, In t ts -> exists c rows, In c cs /\ csr_holds c rows /\
        (forall i, i < length rows -> (forall e, In e (nth i rows []) -> fst e < nc B) /\ forall g, g < nc B -> entry (nth i rows []) g = ent B (nth i (c_range c) 0) g) /\
        t = mkTri (c_m c) (c_n c) (c_range c) (c_domain c) (fst (fill (c_domain c) rows)) (snd (fill (c_domain c) rows))).
    { clear - F. induction F as [|c t cs ts [rows [R1 [R2 R3]]] F IH]; intros t' Ht; [contradiction|]. destruct Ht as [<-|Ht].
      - exists c, rows. simpl. auto.
      - destruct (IH t' Ht) as [c' [rows' [A1 [A2 [A3 A4]]]]]. exists c', rows'. simpl. auto. }
    destruct Hmap as [M1 M2]. split.
    - intros ->. inversion F. subst. apply (dm_some H). auto.
    - congruence.
    - rewrite M2. apply (dm_domain H).
    - intros t Ht. destruct (Hper t Ht) as [c [rows [A1 [A2 [A3 ->]]]]]. cbn. apply (dm_sizes H). auto.
    - intros t Ht. destruct (Hper t Ht) as [c [rows [A1 [A2 [A3 ->]]]]]. destruct (Hf (c_domain c) rows) as [F1 [F2 _]]. split; cbn; auto. rewrite F1. apply (cs_rows A2).
    - intros t i Ht Hi. destruct (Hper t Ht) as [c [rows [A1 [A2 [A3 ->]]]]]. destruct (Hf (c_domain c) rows) as [F1 [F2 F3]]. cbn [t_rows t_range] in *.
      rewrite F1 in Hi. destruct (F3 i Hi) as [G1 [G2 G3]]. destruct (A3 i Hi) as [Q1 Q2].
      assert (En : nth i (trilinos_rows (mkTri (c_m c) (c_n c) (c_range c) (c_domain c) (fst (fill (c_domain c) rows)) (snd (fill (c_domain c) rows)))) []
        = global_row (fst (fill (c_domain c) rows)) (nth i (snd (fill (c_domain c) rows)) [])).
      { unfold trilinos_rows. cbn [t_colmap t_rows]. apply nth_map_lt. lia. }
      rewrite En. split.
      + intros e He. assert (Hg : In (fst e) (map fst (nth i rows []))) by (apply G2; apply in_map; auto). apply in_map_iff in Hg. destruct Hg as [e' [<- He']]. auto.
      + intros g Hg. rewrite G3. auto.
    - apply (dm_rows H).
    - apply (dm_cols H).
  Qed.

  Lemma entry_nil : forall g, entry (@nil (nat * K)) g = f0.
  Proof. reflexivity. Qed.
  (** A rank that owns a nonzero row has stored entries. *)
  Lemma rank_not_empty : forall ts range domain B t, trilinos_matrix ts range domain B -> no_zero_rank range B -> In t ts -> concat (t_rows t) <> [].
  Proof.
    intros ts range domain B t H Hz Ht E. destruct (Hz (t_range t)) as [i [j [Hi [Hj Hn]]]]; [rewrite <- (tm_range H); apply in_map; auto|].
    apply (In_nth _ _ 0) in Hi. destruct Hi as [p [Hp Ep]]. destruct (tm_layout H t Ht) as [L1 L2].
    destruct (@tm_holds _ _ _ _ _ H t p Ht) as [_ Q]; [lia|]. specialize (Q j Hj). rewrite Ep in Q. apply Hn. rewrite <- Q.
    unfold trilinos_rows. rewrite (nth_map_lt (global_row (t_colmap t)) (t_rows t) [] []) by lia.
    replace (nth p (t_rows t) []) with (@nil (nat * K)); [apply entry_nil|].
    destruct (nth p (t_rows t) []) as [|e0 l] eqn:En; auto. exfalso.
    assert (In e0 (concat (t_rows t))) by (apply in_concat; exists (nth p (t_rows t) []); split; [apply nth_In; lia|rewrite En; simpl; auto]). rewrite E in H0. contradiction.
  Qed.
  (** Trilinos to device. *)
  Lemma to_device : forall debug ts range domain B, trilinos_matrix ts range domain B -> no_zero_rank range B ->
    exists cs, mapM (convert_trilinos debug) ts = Ok cs /\ mapM (convert_epetra debug) ts = Ok cs /\ device_matrix cs range domain B.
  Proof.
    intros debug ts range domain B H Hz.
    assert (Hconv : forall t, In t ts -> exists c, convert_trilinos debug t = Ok c /\ convert_epetra debug t = Ok c /\ csr_holds c (trilinos_rows t) /\
      c_m c = t_m t /\ c_n c = t_n t /\ c_range c = t_range t /\ c_domain c = t_domain t).
    { intros t Ht. assert (Hl := tm_layout H t Ht). assert (Hne := @rank_not_empty _ _ _ _ t H Hz Ht). destruct (convert_trilinos_spec debug Hl Hne) as [c [E Q]].
      exists c. split; auto. split; [|exact Q]. rewrite <- E. destruct (tm_sizes H t Ht) as [S1 S2]. apply convert_epetra_spec; auto.
      - apply (proj2 (tm_rows H)). rewrite <- (tm_range H). apply in_map. auto.
      - intros i Hi. rewrite S1. apply (proj2 (proj1 (tm_rows H))). apply in_concat. exists (t_range t). split; auto. rewrite <- (tm_range H). apply in_map. auto.
      - apply (proj2 (tm_cols H)). rewrite <- (tm_domain H). apply in_map. auto.
      - intros i Hi. rewrite S2. apply (proj2 (proj1 (tm_cols H))). apply in_concat. exists (t_domain t). split; auto. rewrite <- (tm_domain H). apply in_map. auto. }
    assert (Hex : exists cs, mapM (convert_trilinos debug) ts = Ok cs /\ mapM (convert_epetra debug) ts = Ok cs /\
      Forall2 (fun t c => csr_holds c (trilinos_rows t) /\ c_m c = t_m t /\ c_n c = t_n t /\ c_range c = t_range t /\ c_domain c = t_domain t) ts cs).
    { clear - Hconv. induction ts as [|t ts IH]; simpl; [exists []; repeat split; constructor|].
      destruct IH as [cs [E1 [E2 F]]]; [intros; apply Hconv; simpl; auto|]. destruct (Hconv t) as [c [C1 [C2 C3]]]; [simpl; auto|].
      exists (c :: cs). rewrite C1, C2. cbn [bind]. rewrite E1, E2. repeat split. constructor; auto. }
    destruct Hex as [cs [E1 [E2 F]]]. exists cs. split; auto. split; auto.
    assert (Hmap : map (@c_range K) cs = map (@t_range K) ts /\ map (@c_domain K) cs = map (@t_domain K) ts).
    { clear - F. induction F as [|t c ts cs [_ [_ [_ [R1 R2]]]] F [I1 I2]]; simpl; split; auto; f_equal; auto. }
    destruct Hmap as [M1 M2]. split.
    - intros ->. inversion F. subst. apply (tm_some H). auto.
    - split; [rewrite M1; apply (tm_range H)|]. split.
      + intros i Hi. apply (proj2 (proj1 (tm_rows H))). auto.
      + intros r c Hc. destruct (@Forall2_back _ _ _ _ _ F r c Hc) as [t [Ht [R1 [R2 [R3 [R4 R5]]]]]]. exists (trilinos_rows t). split; auto. intros i Hi.
        unfold trilinos_rows in Hi. rewrite map_length in Hi. assert (Hin : In t ts) by (eapply nth_error_In; eauto).
        destruct (@tm_holds _ _ _ _ _ H t i Hin Hi) as [Q1 Q2]. split; auto. intros g Hg. rewrite Q2 by auto. f_equal. f_equal. rewrite <- (tm_range H).
        symmetry. apply nth_error_nth. rewrite nth_error_map, Ht. auto.
    - rewrite M2. apply (tm_domain H).
    - intros c Hc. apply In_nth_error in Hc. destruct Hc as [r Hc]. destruct (@Forall2_back _ _ _ _ _ F r c Hc) as [t [Ht [R1 [R2 [R3 _]]]]].
      rewrite R2, R3. apply (tm_sizes H). eapply nth_error_In; eauto.
    - apply (tm_rows H).
    - apply (tm_cols H).
  Qed.
  Lemma build_transpose_ok : forall debug L cs range domain B, libraries_ok L -> device_matrix cs range domain B -> no_zero_rank domain (mtrans B) ->
    exists cs', build_transpose debug L cs = Ok cs' /\ device_matrix cs' domain range (mtrans B).
  Proof.
    intros debug L cs range domain B HL H Hz. destruct (to_trilinos (lo_fill HL) H) as [ts [E T]]. unfold build_transpose. rewrite E. cbn [bind].
    pose proof (lo_transpose HL T) as T'. destruct (to_device debug T' Hz) as [cs' [_ [E2 D]]]. exists cs'. auto.
  Qed.
  Lemma device_length : forall cs range domain B, @device_matrix K cs range domain B -> length cs = length range /\ length cs = length domain.
  Proof. intros cs range domain B H. destruct (dm_holds H) as [Hr _]. split; [rewrite <- Hr|rewrite <- (dm_domain H)]; rewrite map_length; auto. Qed.
  Lemma parts_sizes : forall cs range domain B, @device_matrix K cs range domain B -> parts_m cs = Ok (nr B) /\ parts_n cs = Ok (nc B).
  Proof.
    intros cs range domain B H. destruct cs as [|c cs]; [exfalso; apply (dm_some H); auto|]. destruct (dm_sizes H c) as [S1 S2]; [simpl; auto|].
    unfold parts_m, parts_n. simpl. rewrite S1, S2. auto.
  Qed.
  Lemma shared_mmult_ok : forall debug L a b A B range inner domain, libraries_ok L -> device_matrix (m_parts a) range inner A ->
    device_matrix (m_parts b) inner domain B -> nc A = nr B -> (length range = 1 -> m_handle a && m_descr a && m_descr b = true) ->
    (length range <> 1 -> no_zero_rank range (mmul A B)) ->
    exists cs, shared_mmult debug L a b = Ok (mkShared cs (m_handle a) true) /\ device_matrix cs range domain (mmul A B).
  Proof.
    intros debug L a b A B range inner domain HL Ha Hb Hn H1 H2. unfold shared_mmult.
    destruct (parts_sizes Ha) as [_ Ea]. destruct (parts_sizes Hb) as [Eb _]. rewrite Ea, Eb. cbn [bind]. rewrite Hn, Nat.eqb_refl.
    replace (assert_dbg debug true) with (Ok tt) by (destruct debug; reflexivity). cbn [bind].
    destruct (device_length Ha) as [La La']. destruct (device_length Hb) as [Lb Lb']. destruct (length (m_parts a) =? 1) eqn:E1.
    - apply Nat.eqb_eq in E1. rewrite H1 by lia. destruct (m_parts a) as [|ca [|? ?]] eqn:Ec; try discriminate.
      destruct (m_parts b) as [|cb [|? ?]] eqn:Ecb; simpl in *; try lia. eexists. split; [reflexivity|].
      destruct range as [|r [|? ?]]; simpl in *; try lia. destruct inner as [|i [|? ?]]; simpl in *; try lia. destruct domain as [|d [|? ?]]; simpl in *; try lia.
      eapply (lo_gemm HL); eauto.
    - apply Nat.eqb_neq in E1. destruct (to_trilinos (lo_fill HL) Ha) as [ta [Ta Ta']]. destruct (to_trilinos (lo_fill HL) Hb) as [tb [Tb Tb']].
      rewrite Ta, Tb. cbn [bind]. destruct (to_device debug (lo_mmult HL Ta' Tb' Hn)) as [cs [C1 [_ C2]]]; [apply H2; lia|]. rewrite C1. cbn [bind]. exists cs. auto.
  Qed.
  Lemma shared_mmult_transpose_ok : forall debug L a b A B rows cols rows', libraries_ok L -> device_matrix (m_parts a) rows cols A ->
    device_matrix (m_parts b) rows' cols B -> nc A = nc B ->
    (length rows = 1 -> m_handle a && m_descr a = true /\ no_zero_rank cols (mtrans B)) ->
    (length rows <> 1 -> rows = cols /\ no_zero_rank rows (mmul A (mtrans B))) ->
    exists cs, shared_mmult_transpose debug L a b = Ok (mkShared cs (if length rows =? 1 then m_handle a else false) (length rows =? 1)) /\
      device_matrix cs rows rows' (mmul A (mtrans B)).
  Proof.
    intros debug L a b A B rows cols rows' HL Ha Hb Hn H1 H2. unfold shared_mmult_transpose.
    destruct (device_length Ha) as [La La']. destruct (device_length Hb) as [Lb Lb']. replace (length (m_parts b)) with (length rows) by lia.
    destruct (length rows =? 1) eqn:E1.
    - apply Nat.eqb_eq in E1. destruct (H1 E1) as [Hh Hz]. destruct (build_transpose_ok debug HL Hb Hz) as [bt [Eb Db]]. rewrite Eb. cbn [bind].
      destruct (@shared_mmult_ok debug L a (mkShared bt (m_handle a) true) A (mtrans B) rows cols rows') as [cs [C1 C2]]; auto.
      + intros _. cbn [m_descr]. rewrite Hh. auto.
      + intros Q. lia.
      + exists cs. auto.
    - apply Nat.eqb_neq in E1. destruct (H2 E1) as [<- Hz]. destruct (to_trilinos (lo_fill HL) Ha) as [ta [Ta Ta']]. destruct (to_trilinos (lo_fill HL) Hb) as [tb [Tb Tb']].
      rewrite Ta, Tb. cbn [bind]. destruct (to_device debug (lo_mmult_transpose HL Ta' Tb' Hn) Hz) as [cs [C1 [_ C2]]]. rewrite C1. cbn [bind]. exists cs. auto.
  Qed.

  (** Operators keep their meaning when matrices are added. *)
  Lemma means_more : forall (s : cuda_state K) ops m o a, operator_means s o a -> operator_means (mkCuda (u_mats s ++ [m]) ops) o a.
  Proof.
    intros s ops m o a [[x [X1 X2]] H]. split.
    - exists x. split; auto. cbn [u_mats]. rewrite nth_error_app1; auto. apply nth_error_lt in X1. auto.
    - destruct (o_trans o) as [t|]; auto. destruct H as [H0 [y [Y1 Y2]]]. split; auto. exists y. split; auto. cbn [u_mats]. rewrite nth_error_app1; auto. apply nth_error_lt in Y1. auto.
  Qed.
  Lemma means_ops : forall (s : cuda_state K) ops o a, operator_means s o a -> operator_means (mkCuda (u_mats s) ops) o a.
  Proof. intros s ops o a H. exact H. Qed.
  Lemma Forall2_upd : forall (A B : Type) (R : A -> B -> Prop) l l' k a b, Forall2 R l l' -> R a b -> Forall2 R (upd l k a) (upd l' k b).
  Proof. intros A B R l l' k a b H Hab. revert k. induction H; intros [|k]; simpl; constructor; auto. Qed.
  Lemma Forall2_weaken : forall (A B : Type) (R R' : A -> B -> Prop) l l', (forall a b, R a b -> R' a b) -> Forall2 R l l' -> Forall2 R' l l'.
  Proof. intros A B R R' l l' H F. induction F; constructor; auto. Qed.
  Lemma upd_self : forall A (l : list A) k a, nth_error l k = Some a -> upd l k a = l.
  Proof. intros A l. induction l as [|b l IH]; intros [|k] a H; simpl in *; try discriminate; f_equal; auto. congruence. Qed.
  Lemma rd_ok : forall A (l : list A) k a, nth_error l k = Some a -> rd l k = Ok a.
  Proof. intros A l k a H. unfold rd. rewrite H. auto. Qed.
  Lemma Forall2_snoc : forall (A B : Type) (R : A -> B -> Prop) l l' a b, Forall2 R l l' -> R a b -> Forall2 R (l ++ [a]) (l' ++ [b]).
  Proof. intros. apply Forall2_app; auto. Qed.

  (** The transpose is made and cached. *)
  Lemma make_transpose_first : forall debug (L : libraries K) s ms k B range domain ready, libraries_ok L -> state_means s ms ->
    nth_error ms k = Some (mkMeaning B range domain false ready) -> no_zero_rank domain (mtrans B) ->
    exists s' o t m, make_transpose debug L s k = Ok s' /\ state_means s' (upd ms k (mkMeaning B range domain true ready)) /\
      nth_error (u_ops s') k = Some o /\ o_trans o = Some t /\ nth_error (u_mats s') t = Some m /\ device_matrix (m_parts m) domain range (mtrans B) /\
      m_handle m = ready /\ m_descr m = true.
  Proof.
    intros debug L s ms k B range domain ready HL H Hk Hz. destruct (@Forall2_back _ _ _ _ _ H k _ Hk) as [o [Ho [[m [Hm [Dm [Hh Hd]]]] Hc]]].
    cbn [a_mat a_range a_domain a_cached a_ready] in *. unfold make_transpose. rewrite (rd_ok _ _ Ho). cbn [bind].
    destruct (o_trans o) as [t|] eqn:Et; [destruct Hc; discriminate|]. rewrite (rd_ok _ _ Hm). cbn [bind].
    destruct (build_transpose_ok debug HL Dm Hz) as [cs' [E D]]. rewrite E. cbn [bind].
    eexists. exists (mkOperator (o_mat o) (Some (length (u_mats s)))), (length (u_mats s)), (mkShared cs' (m_handle m) true).
    assert (Hlast : nth_error (u_mats s ++ [mkShared cs' (m_handle m) true]) (length (u_mats s)) = Some (mkShared cs' (m_handle m) true)).
    { rewrite nth_error_app2, Nat.sub_diag; auto. }
    split; [reflexivity|]. split; [|split; [|split; [|split; [|split; [|split]]]]]; cbn [u_ops u_mats o_trans m_parts m_handle m_descr]; auto.
    - unfold state_means. cbn [u_ops]. apply Forall2_upd.
      + eapply Forall2_weaken; [|exact H]. intros o' a' H'. apply means_more. auto.
      + split; cbn [o_mat o_trans u_mats a_mat a_range a_domain a_cached a_ready].
        * exists m. split; auto. rewrite nth_error_app1; auto. apply nth_error_lt in Hm. auto.
        * split; auto. eexists. split; [exact Hlast|]. cbn. auto.
    - apply nth_error_upd_eq. eapply nth_error_lt; eauto.
  Qed.

  Lemma call_step_ok : forall debug (L : libraries K) s ms c ms' y, libraries_ok L -> state_means s ms -> call_effect ms c ms' y ->
    exists s', call_step debug L s c = Ok (s', y) /\ state_means s' ms'.
  Proof.
    intros debug L s ms c ms' y HL H E. destruct E.
    - destruct (@Forall2_back _ _ _ _ _ H k _ H0) as [o [Ho [[m [Hm [Dm [Hh Hd]]]] _]]]. cbn [a_mat a_range a_domain a_cached a_ready] in *.
      cbn [call_step]. unfold op_apply. rewrite (rd_ok _ _ Ho). cbn [bind]. exists s. split; auto.
      replace (match o_trans o with Some _ => Ok s | None => Ok s end) with (Ok s) by (destruct (o_trans o); auto). cbn [bind].
      rewrite (rd_ok _ _ Ho). cbn [bind]. rewrite (rd_ok _ _ Hm). cbn [bind]. unfold shared_vmult. rewrite Hh, Hd by auto. cbn [andb].
      rewrite (@vmult_all_spec K (m_parts m) range B (nc B) owned env x y); auto. apply (dm_holds Dm).
    - destruct (@Forall2_back _ _ _ _ _ H k _ H0) as [o [Ho HM]]. cbn [call_step]. unfold op_apply. rewrite (rd_ok _ _ Ho). cbn [bind]. destruct cached.
      + destruct HM as [HM1 HM2]. cbn [a_mat a_range a_domain a_cached a_ready] in *. destruct (o_trans o) as [t|] eqn:Et; [|discriminate].
        destruct HM2 as [_ [m [Hm [Dm [Hh Hd]]]]]. cbn [bind]. rewrite (rd_ok _ _ Ho). cbn [bind]. rewrite Et, (rd_ok _ _ Hm). cbn [bind].
        unfold shared_vmult. rewrite Hh, Hd by auto. cbn [andb].
        rewrite (@vmult_all_spec K (m_parts m) domain (mtrans B) (nr B) owned env x y); auto; [|apply (dm_holds Dm)]. cbn [bind]. exists s. split; auto.
        rewrite upd_self; auto.
      + destruct (@make_transpose_first debug L s ms k B range domain true) as [s' [o' [t [m [E1 [E2 [E3 [E4 [E5 [E6 [E7 E8]]]]]]]]]]]; auto.
        assert (Et : o_trans o = None). { destruct HM as [_ HM2]. destruct (o_trans o); auto. destruct HM2. discriminate. }
        rewrite Et, E1. cbn [bind]. rewrite (rd_ok _ _ E3). cbn [bind]. rewrite E4, (rd_ok _ _ E5). cbn [bind]. unfold shared_vmult. rewrite E7, E8. cbn [andb].
        rewrite (@vmult_all_spec K (m_parts m) domain (mtrans B) (nr B) owned env x y); auto; [|apply (dm_holds E6)]. cbn [bind]. exists s'. auto.
    - destruct (@make_transpose_first debug L s ms k B range domain ready) as [s' [o' [t [m [E1 [E2 [E3 [E4 [E5 [E6 [E7 E8]]]]]]]]]]]; auto.
      cbn [call_step]. unfold op_transpose. rewrite E1. cbn [bind]. rewrite (rd_ok _ _ E3). cbn [bind]. rewrite E4. cbn [bind]. eexists. split; [reflexivity|].
      apply Forall2_snoc; auto. split; cbn [o_mat o_trans u_mats a_mat a_range a_domain a_cached a_ready]; auto. exists m. auto.
    - destruct (@Forall2_back _ _ _ _ _ H k _ H0) as [o [Ho [[m [Hm [Dm [Hh Hd]]]] HM2]]]. cbn [a_mat a_range a_domain a_cached a_ready] in *.
      destruct (o_trans o) as [t|] eqn:Et; [|discriminate]. destruct HM2 as [_ [m' [Hm' [Dm' [Hh' Hd']]]]].
      cbn [call_step]. unfold op_transpose, make_transpose. rewrite (rd_ok _ _ Ho). cbn [bind]. rewrite Et. cbn [bind].
      assert (Ho' : nth_error (upd (u_ops s) k (mkOperator t (Some (o_mat o)))) k = Some (mkOperator t (Some (o_mat o)))).
      { apply nth_error_upd_eq. eapply nth_error_lt; eauto. }
      cbn [u_ops u_mats]. rewrite (rd_ok _ _ Ho'). cbn [bind o_trans]. eexists. split; [reflexivity|]. apply Forall2_snoc.
      + apply Forall2_upd.
        * eapply Forall2_weaken; [|exact H]. intros o1 a1 H1. apply means_ops. auto.
        * split; cbn [o_mat o_trans u_mats a_mat a_range a_domain a_cached a_ready]; [exists m'; auto|]. split; auto. exists m. rewrite mtrans_twice. auto.
      + split; cbn [o_mat o_trans u_mats a_mat a_range a_domain a_cached a_ready]; auto. exists m. auto.
    - destruct (@Forall2_back _ _ _ _ _ H a _ H0) as [oa [Hoa [[ma [Hma [Dma [Hha Hda]]]] _]]].
      destruct (@Forall2_back _ _ _ _ _ H b _ H1) as [ob [Hob [[mb [Hmb [Dmb [Hhb Hdb]]]] _]]]. cbn [a_mat a_range a_domain a_cached a_ready] in *.
      cbn [call_step]. unfold op_multiply. rewrite (rd_ok _ _ Hoa), (rd_ok _ _ Hob). cbn [bind]. rewrite (rd_ok _ _ Hma), (rd_ok _ _ Hmb). cbn [bind].
      destruct (@shared_mmult_ok debug L ma mb A B range inner domain) as [cs [C1 C2]]; auto.
      { intros Q. destruct (H3 Q) as [-> ->]. rewrite Hha, Hda, Hdb; auto. }
      rewrite C1. cbn [bind]. eexists. split; [reflexivity|]. apply Forall2_snoc.
      + eapply Forall2_weaken; [|exact H]. intros o1 a1 H5. apply means_more. auto.
      + split; cbn [o_mat o_trans u_mats a_mat a_range a_domain a_cached a_ready]; auto. eexists. rewrite nth_error_app2, Nat.sub_diag by lia. split; [reflexivity|]. cbn. auto.
    - destruct (@Forall2_back _ _ _ _ _ H a _ H0) as [oa [Hoa [[ma [Hma [Dma [Hha Hda]]]] _]]].
      destruct (@Forall2_back _ _ _ _ _ H b _ H1) as [ob [Hob [[mb [Hmb [Dmb [Hhb Hdb]]]] _]]]. cbn [a_mat a_range a_domain a_cached a_ready] in *.
      cbn [call_step]. unfold op_multiply_transpose. rewrite (rd_ok _ _ Hoa), (rd_ok _ _ Hob). cbn [bind]. rewrite (rd_ok _ _ Hma), (rd_ok _ _ Hmb). cbn [bind].
      destruct (@shared_mmult_transpose_ok debug L ma mb A B rows cols rows') as [cs [C1 C2]]; auto.
      { intros Q. destruct (H3 Q) as [-> ?]. rewrite Hha, Hda; auto. }
      rewrite C1. cbn [bind]. eexists. split; [reflexivity|]. apply Forall2_snoc.
      + eapply Forall2_weaken; [|exact H]. intros o1 a1 H5. apply means_more. auto.
      + split; cbn [o_mat o_trans u_mats a_mat a_range a_domain a_cached a_ready]; auto. eexists. rewrite nth_error_app2, Nat.sub_diag by lia. split; [reflexivity|]. cbn.
        split; auto. destruct (length rows =? 1) eqn:El; auto. apply Nat.eqb_eq in El. destruct (H3 El) as [-> _]. auto.
  Qed.
  Lemma call_run_ok : forall debug (L : libraries K) ms cs ms' ys, libraries_ok L -> calls_effect ms cs ms' ys -> forall s, state_means s ms ->
    exists s', call_run debug L s cs = Ok (s', ys) /\ state_means s' ms'.
  Proof.
    intros debug L ms cs ms' ys HL E. induction E as [ms|ms c ms1 y cs ms2 ys E1 E2 IH]; intros s H; cbn [call_run]; [exists s; auto|].
    destruct (@call_step_ok debug L s ms c ms1 y HL H E1) as [s1 [S1 H1]]. rewrite S1. cbn [bind]. destruct (IH s1 H1) as [s2 [S2 H2]]. rewrite S2. cbn [bind]. exists s2. auto.
  Qed.
End P.
