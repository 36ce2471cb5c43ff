(** Proofs about the restriction built on the device: the matrix of all ranks. *)
From Coq Require Import List Arith Lia Bool Field Permutation.
From Verif Require Import Base OField Mat LinAlg M_SpProd S_SpProd P_SpProd M_Csr S_Csr P_Csr P_Csr4 M_Dev M_CudaOp S_CudaOp P_CudaOp S_Lanczos S_Eig
  M_DevSolve S_DevSolve P_DevSolve M_Restr S_Restr P_Restr P_Restr2 C_Restr M_AmgeDev S_AmgeDev P_AmgeDev P_AmgeDev2 P_AmgeDev3.
Import ListNotations.
Set Implicit Arguments.
Open Scope nat_scope.

Section Restrictor.
  Variable K : ofield.
  Add Field KfAmgeDev4 : (f_field K).
  Implicit Types (h : heap K) (A : mat K).
  Notation vec := (vec K).

  Lemma F2_in_r : forall (X Y : Type) (P : X -> Y -> Prop) l l' y, Forall2 P l l' -> In y l' -> exists x, In x l /\ P x y.
  Proof. induction 1; intros []; subst; firstorder. Qed.
  Lemma F2_in_l : forall (X Y : Type) (P : X -> Y -> Prop) l l' x, Forall2 P l l' -> In x l -> exists y, In y l' /\ P x y.
  Proof. induction 1; intros []; subst; firstorder. Qed.
  Lemma F2_nth_r : forall (X Y : Type) (P : X -> Y -> Prop) l l' i y, Forall2 P l l' -> nth_error l' i = Some y -> exists x, nth_error l i = Some x /\ P x y.
  Proof.
    intros X Y P l l' i y H. revert i. induction H; intros [|i] E; simpl in *; try discriminate; eauto. inversion E; subst; eauto.
  Qed.

  Lemma F2_length : forall (X Y : Type) (P : X -> Y -> Prop) l l', Forall2 P l l' -> length l = length l'.
  Proof. induction 1; simpl; auto. Qed.

  (** The loops of all ranks. *)
  Lemma ranks_run : forall debug Z k (problem : list (list (agglomerate K * mat K) * heap K)), eig_library_ok Z ->
    (forall r, In r problem -> allocator_ok (snd r)) ->
    (forall r a A, In r problem -> In (a, A) (fst r) -> agglomerate_ok k a A /\ eig_succeeds Z A) ->
    exists outs, mapM (fun r : list (agglomerate K) * heap K => setup_loop debug Z k (fst r) (@data_empty K) (snd r))
        (map (fun r => (map fst (fst r), snd r)) problem) = Ok (map (fun o => (data_without_values (fst o), snd o)) outs) /\
      Forall2 (rank_result k) problem outs.
  Proof.
    intros debug Z k problem HZ. induction problem as [|[xs h] problem IH]; intros Ha Hx.
    - exists []. split; auto.
    - destruct (@loop_run K debug Z k xs (@data_empty K) h HZ) as [rs [h' [E [F [O M]]]]].
      + intros x A Hin. apply (Hx (xs, h)); simpl; auto.
      + apply (Ha (xs, h)). simpl; auto.
      + destruct IH as [outs [E2 F2]].
        * intros r Hr. apply Ha. simpl; auto.
        * intros r a A Hr. apply Hx. simpl; auto.
        * exists ((rs, h') :: outs). split.
          -- cbn [map mapM fst snd]. rewrite E. cbn [bind]. rewrite E2. cbn [bind]. reflexivity.
          -- constructor; auto. split; [|split]; auto.
  Qed.

  (** The eigenvalues do not matter for the matrix. *)
  Definition without_values (c : agg_result K) : agg_result K := mkAgg [] (ag_evecs c) (ag_diag c) (ag_map c).
  Lemma data_without : forall l, data_without_values l = data_of (map without_values l).
  Proof.
    intros l. unfold data_without_values, data_of. rewrite !map_map. cbn [without_values ag_evals ag_evecs ag_diag ag_map].
    assert (X : flat_map (@ag_evals K) (map without_values l) = []) by (induction l; simpl; auto).
    assert (Y : flat_map (@ag_evecs K) (map without_values l) = flat_map (@ag_evecs K) l) by (induction l; simpl; auto; rewrite IHl; auto).
    rewrite X, Y. reflexivity.
  Qed.
  Lemma rows_without : forall l, rows_of (map without_values l) = map (fun ce => (without_values (fst ce), snd ce)) (rows_of l).
  Proof.
    induction l as [|c l IH]; auto. cbn [map]. change (rows_of (without_values c :: map without_values l)) with
      (map (fun e => (without_values c, e)) (ag_evecs c) ++ rows_of (map without_values l)).
    change (rows_of (c :: l)) with (map (fun e => (c, e)) (ag_evecs c) ++ rows_of l). rewrite IH, map_app, map_map. reflexivity.
  Qed.
  Lemma diag_sum_without : forall l g, diag_sum (map without_values l) g = diag_sum l g.
  Proof. intros l g. unfold diag_sum. rewrite map_map. reflexivity. Qed.

  (** Where the entries are that a rank adds. *)
  Lemma rows_step_where : forall acc D l row (s : rmats K) r g v, In (r, g, v) (r_R (rows_step acc D row l s)) ->
    In (r, g, v) (r_R s) \/ (row <= r < row + length l /\ exists c e, In (c, e) l /\ In g (ag_map c)).
  Proof.
    intros acc D l. induction l as [|[c e] l IH]; intros row s r g v H; cbn [rows_step] in H; auto.
    apply IH in H. destruct H as [H|[H1 [c' [e' [H2 H3]]]]].
    - cbn [row_step r_R] in H. apply in_app_iff in H. destruct H as [H|H]; auto. right. unfold trip in H. apply in_map_iff in H.
      destruct H as [j [E Hj]]. inversion E; subst. apply in_seq in Hj. split; [simpl; lia|]. exists c, e. split; [simpl; auto|]. apply nth_In. lia.
    - right. split; [simpl; lia|]. exists c', e'. split; simpl; auto.
  Qed.
  Lemma mats_where : forall acc D ranks (ms : list (rmats K)) off m r g v, mats_at acc D off ranks ms -> In m ms -> In (r, g, v) (r_R m) ->
    r < off + length (rows_of (concat ranks)) /\ exists c, In c (concat ranks) /\ In g (ag_map c).
  Proof.
    intros acc D ranks. induction ranks as [|l ranks IH]; destruct ms as [|m ms]; intros off m' r g v H Hm Hin; simpl in H; try tauto.
    - inversion Hm.
    - destruct H as [H1 H2]. cbn [concat]. rewrite rows_of_app, app_length. destruct Hm as [<-|Hm].
      + rewrite H1 in Hin. apply rows_step_where in Hin. destruct Hin as [[]|[Q [c [e [I1 I2]]]]]. split; [lia|]. exists c. split; auto.
        apply in_app_iff. left. unfold rows_of in I1. apply in_flat_map in I1. destruct I1 as [c' [J1 J2]]. apply in_map_iff in J2.
        destruct J2 as [e' [J2 _]]. inversion J2; subst; auto.
      + destruct (IH ms _ m' r g v H2 Hm Hin) as [Q [c [I1 I2]]]. split; [lia|]. exists c. split; auto. apply in_app_iff; auto.
  Qed.
  (** C11 with this information. *)
  Lemma assembled : forall debug acc gds (D : nat -> K) (ranks : list (list (agg_result K))),
    (forall l c, In l ranks -> In c l -> agg_ok c) -> (forall p l, nth_error ranks p = Some l -> gd_ok D l (gds p)) ->
    exists ms, assemble debug acc gds (map (@data_of K) ranks) = Ok ms /\ length ms = length ranks /\
      (forall r g, lsum (map (fun m => spm_el (r_R m) r g) ms) =
        match nth_error (rows_of (concat ranks)) r with Some ce => r_entry D ce g | None => 0%K end) /\
      (forall m r g v, In m ms -> In (r, g, v) (r_R m) -> r < length (rows_of (concat ranks)) /\ exists c, In c (concat ranks) /\ In g (ag_map c)).
  Proof.
    intros debug acc gds D ranks Hok Hg. unfold assemble.
    destruct (@assemble_from_spec K debug acc gds D _ ranks [] eq_refl Hok Hg) as [ms [H1 H2]]. simpl in H2.
    exists ms. split; [exact H1|]. split; [eapply mats_at_length; eauto|]. split.
    - intros r g. rewrite (@mats_at_R K acc D ranks ms 0 r g H2) by lia. rewrite Nat.sub_0_r. reflexivity.
    - intros m r g v Hm Hin. exact (@mats_where acc D ranks ms 0 m r g v H2 Hm Hin).
  Qed.

  Lemma blocks_below : forall counts off p i, In p (blocks off counts) -> In i p -> i < off + list_sum counts.
  Proof.
    induction counts as [|c t IH]; intros off p i Hp Hi; simpl in *; [tauto|]. destruct Hp as [<-|Hp].
    - apply in_seq in Hi. lia.
    - specialize (IH _ _ _ Hp Hi). lia.
  Qed.
  Lemma blocks_nonempty : forall counts off p, (forall c, In c counts -> 0 < c) -> In p (blocks off counts) -> exists i, In i p.
  Proof.
    induction counts as [|c t IH]; intros off p Hc Hp; simpl in *; [tauto|]. destruct Hp as [<-|Hp].
    - exists off. apply in_seq. specialize (Hc c (or_introl eq_refl)). lia.
    - eapply IH; eauto.
  Qed.
  (** A unit vector has a component that is not zero. *)
  Lemma unit_nonzero : forall (e : vec), dot e e = 1%K -> exists j, j < length e /\ nth j e 0%K <> 0%K.
  Proof.
    intros e He. assert (X : ~ forall j, j < length e -> nth j e 0%K = 0%K).
    { intros Q. assert (E : e = vzero (length e)).
      { apply vec_ext; [rewrite vzero_length; auto|]. intros j Hj. rewrite Q by auto. rewrite nth_vzero. auto. }
      rewrite E, dot_zero_l in He. apply (f1_neq_0 K). auto. }
    clear He. induction e as [|a e IH]; [exfalso; apply X; intros j Hj; simpl in Hj; lia|].
    destruct (@feq_dec K a 0%K) as [->|Q].
    - destruct IH as [j [Hj Hn]].
      + intros Q. apply X. intros [|j] Hj; auto. simpl in *. apply Q. lia.
      + exists (S j). simpl. split; auto. lia.
    - exists 0. simpl. split; auto. lia.
  Qed.

  Lemma results_sum : forall k (xs : list (agglomerate K * mat K)) cs g, Forall2 (fun p c => agglomerate_result k (fst p) (snd p) c) xs cs ->
    (forall a A, In (a, A) xs -> agglomerate_ok k a A) ->
    diag_sum cs g = lsum (map (fun aA => local_diagonal (fst aA) (snd aA) g) xs).
  Proof.
    intros k xs cs g H. unfold diag_sum. induction H as [|[a A] c xs cs [_ [_ [Hd Hm]]] _ IH]; intros Hok; auto. cbn [map lsum]. rewrite IH by (intros; apply Hok; simpl; auto).
    f_equal. unfold at_dof, local_diagonal. cbn [fst snd] in *. rewrite Hm, Hd. rewrite (ao_dofs (Hok a A (or_introl eq_refl))). apply sumn_ext. intros j Hj.
    destruct (_ =? g); auto. rewrite (nth_indep _ _ (ent A 0 0)) by (rewrite map_length, seq_length; auto).
    change (ent A 0 0) with ((fun i => ent A i i) 0). rewrite map_nth, seq_nth by auto. auto.
  Qed.
  Lemma diag_sum_app : forall (a b : list (agg_result K)) g, diag_sum (a ++ b) g = (diag_sum a g + diag_sum b g)%K.
  Proof. intros a b g. unfold diag_sum. rewrite map_app. apply lsum_app. Qed.

  Theorem restrictor_run : forall debug acc (tol : K) Z compress k n owned gds gd D problem,
    eig_library_ok Z -> compress_ok compress -> (0 < tol)%K -> problem_ok Z k n owned gds gd D problem ->
    exists parts outs R,
      setup_restrictor debug acc tol Z compress k owned gds gd D (map (fun r => (map fst (fst r), snd r)) problem) =
        Ok (mkShared parts true true, map snd outs) /\
      Forall2 (rank_result k) problem outs /\
      device_matrix parts (blocks 0 (map (fun r => k * length (fst r)) problem)) owned R /\
      restriction_of n D (concat (map fst outs)) R.
  Proof.
    intros debug acc tol Z compress k n owned gds gd D problem HZ HC Ht HP.
    destruct HP as [Psome Powned Pranks Prank Pagglomerate Pdiagonal Pdofs Pread Psum]. unfold setup_restrictor.
    destruct (@ranks_run debug Z k problem HZ) as [outs [E F]].
    { intros r Hr. apply (Prank r Hr). }
    { apply Pagglomerate. }
    rewrite E. cbn [bind]. rewrite !map_map. cbn [fst snd].
    set (ranks := map (fun o : list (agg_result K) * heap K => map without_values (fst o)) outs).
    assert (ED : map (fun x : list (agg_result K) * heap K => data_without_values (fst x)) outs = map (@data_of K) ranks).
    { unfold ranks. rewrite map_map. apply map_ext. intros o. apply data_without. }
    rewrite ED. assert (CC : concat ranks = map without_values (concat (map fst outs))).
    { unfold ranks. rewrite concat_map, map_map. auto. }
    (* what is known of the results *)
    assert (B1 : forall o c, In o outs -> In c (fst o) -> exists r a A, In r problem /\ In (a, A) (fst r) /\ agglomerate_result k a A c).
    { intros o c Ho Hc. destruct (@F2_in_r _ _ _ _ _ _ F Ho) as [r [Hr [Q _]]]. destruct (@F2_in_r _ _ _ _ _ _ Q Hc) as [[a A] [Ha Q2]]. exists r, a, A. auto. }
    assert (B2 : forall c, In c (concat (map fst outs)) -> exists r a A, In r problem /\ In (a, A) (fst r) /\ agglomerate_result k a A c).
    { intros c Hc. apply in_concat in Hc. destruct Hc as [l [Hl Hc]]. apply in_map_iff in Hl. destruct Hl as [o [<- Ho]]. eapply B1; eauto. }
    assert (B3 : forall l c, In l ranks -> In c l -> exists o c', In o outs /\ In c' (fst o) /\ c = without_values c').
    { intros l c Hl Hc. unfold ranks in Hl. apply in_map_iff in Hl. destruct Hl as [o [<- Ho]]. apply in_map_iff in Hc. destruct Hc as [c' [<- Hc]]. eauto. }
    assert (Hev : forall a A c e, agglomerate_result k a A c -> In e (ag_evecs c) -> length e = nr A /\ dot e e = 1%K).
    { intros a A c e [_ [S _]] He. destruct (se_orthonormal S) as [S1 S2]. split; [eapply Forall_forall in S1; eauto|].
      apply (In_nth _ _ []) in He. destruct He as [i [Hi <-]]. rewrite S2 by auto. rewrite Nat.eqb_refl. auto. }
    assert (Hlen : forall r a A c, In r problem -> In (a, A) (fst r) -> agglomerate_result k a A c -> length (ag_map c) = nr A /\ length (ag_diag c) = nr A).
    { intros r a A c Hr Ha [_ [_ [Q1 Q2]]]. rewrite Q1, Q2, map_length, seq_length. split; auto. apply (ao_dofs (proj1 (Pagglomerate r a A Hr Ha))). }
    assert (Hok : forall l c, In l ranks -> In c l -> agg_ok c).
    { intros l c Hl Hc. destruct (B3 l c Hl Hc) as [o [c' [Ho [Hc' ->]]]]. destruct (B1 o c' Ho Hc') as [r [a [A [Hr [Ha Q]]]]].
      destruct (Hlen r a A c' Hr Ha Q) as [L1 L2]. split; cbn; [congruence|]. intros e He. rewrite L1. apply (Hev a A c' e Q He). }
    assert (Hg : forall p l, nth_error ranks p = Some l -> gd_ok D l (gds p)).
    { intros p l Hp c Hc g Hg. unfold ranks in Hp. rewrite nth_error_map in Hp. destruct (nth_error outs p) as [o|] eqn:Eo; [|discriminate]. inversion Hp; subst l.
      destruct (@F2_nth_r _ _ _ _ _ _ _ F Eo) as [r [Er [Q _]]]. apply in_map_iff in Hc. destruct Hc as [c' [<- Hc]]. destruct (@F2_in_r _ _ _ _ _ _ Q Hc) as [[a A] [Ha [_ [_ [_ Q2]]]]].
      cbn in Hg, Q2. rewrite Q2 in Hg. apply (Pread p r a A g Er Ha Hg). }
    destruct (@assembled debug acc gds D ranks Hok Hg) as [ms [EA [Lms [Hent Hwhere]]]]. rewrite EA. cbn [bind].
    assert (Hn : length (concat owned) = n).
    { destruct (Powned) as [[N1 N2] _]. rewrite <- (seq_length n 0). apply Permutation_length. apply NoDup_Permutation; auto; [apply seq_NoDup|].
      intros i. rewrite N2, in_seq. lia. }
    rewrite Hn.
    assert (Hgd : gd_ok D (concat ranks) gd).
    { intros c Hc g Hg'. rewrite CC in Hc. apply in_map_iff in Hc. destruct Hc as [c' [<- Hc]]. destruct (B2 c' Hc) as [r [a [A [Hr [Ha [_ [_ [_ Q2]]]]]]]].
      cbn in Hg'. rewrite Q2 in Hg'. apply In_nth_error in Hr. destruct Hr as [p Hp]. apply (Pread p r a A g Hp Ha Hg'). }
    assert (Hpos : 0 < n).
    { destruct problem as [|r0 rest]; [exfalso; apply (Psome); auto|]. destruct (Prank r0 (or_introl eq_refl)) as [Q _].
      destruct (fst r0) as [|[a A] t] eqn:Er; [congruence|]. assert (Ha : In (a, A) (fst r0)) by (rewrite Er; simpl; auto).
      destruct (Pagglomerate r0 a A (or_introl eq_refl) Ha) as [O _]. destruct (Pdofs r0 a A (or_introl eq_refl) Ha) as [_ G].
      pose proof (ao_size O) as S1. pose proof (ao_dofs O) as S2. assert (nth 0 (snd a) 0 < n); [|lia]. apply G. apply nth_In. lia. }
    assert (Hsum : forall g, g < n -> D g <> 0%K /\ diag_sum (concat ranks) g = D g).
    { intros g Hgn. destruct (Psum g Hgn) as [Q1 Q2]. split; auto. rewrite CC, diag_sum_without, <- Q2.
      assert (W : forall r a A, In r problem -> In (a, A) (fst r) -> agglomerate_ok k a A) by (intros; eapply Pagglomerate; eauto).
      clear - F W. induction F as [|r o problem outs [Q _] F IH]; auto. cbn [map concat flat_map]. rewrite diag_sum_app, map_app, lsum_app.
      rewrite IH by (intros; eapply W; simpl; eauto). f_equal. eapply results_sum; eauto. intros a A Ha. apply (W r a A); simpl; auto. }
    assert (EC : check_restriction debug tol n D gd (map (@data_of K) ranks) = Ok tt).
    { destruct (@C60_self_check K tol n D gd ranks) as [_ [X1 [X2 _]]]; auto.
      - intros l c Hl Hc. split; [eapply Hok; eauto|]. destruct (B3 l c Hl Hc) as [o [c' [Ho [Hc' ->]]]]. destruct (B1 o c' Ho Hc') as [r [a [A [Hr [Ha Q]]]]].
        cbn. intros Z0. pose proof (proj1 Q) as Q0. rewrite Z0 in Q0. simpl in Q0. pose proof (ao_size (proj1 (Pagglomerate r a A Hr Ha))). lia.
      - exists 0. split; auto. apply Hsum. auto.
      - destruct debug; auto. }
    rewrite EC. cbn [bind].
    set (counts := rows_per_proc (map (@data_of K) ranks)).
    assert (ECt : counts = map (fun r : list (agglomerate K * mat K) * heap K => k * length (fst r)) problem).
    { unfold counts, rows_per_proc, ranks. rewrite !map_map. cbn [data_of da_evecs]. clear - F.
      induction F as [|r o problem outs [Q _] F IH]; auto. cbn [map]. f_equal; auto. clear - Q.
      induction Q as [|p c xs cs [Q1 _] Q IH]; [simpl; lia|]. cbn [map flat_map length]. rewrite app_length, IH. cbn [without_values ag_evecs]. rewrite Q1. simpl. lia. }
    assert (Esum : list_sum counts = length (rows_of (concat ranks))).
    { unfold counts, rows_per_proc. rewrite map_map. cbn [data_of da_evecs]. clear. induction ranks as [|l t IH]; auto. cbn [map concat]. rewrite rows_of_app, app_length, <- IH.
      rewrite <- flat_evecs_length. auto. }
    assert (LO : length owned = length counts).
    { rewrite ECt, map_length. apply (Pranks). }
    assert (LP : length (map (@r_R K) ms) = length counts).
    { unfold counts, rows_per_proc. rewrite !map_length. auto. }
    assert (NE : map (@r_R K) ms <> []).
    { intros Q. rewrite Q in LP. simpl in LP. rewrite ECt, map_length in LP. destruct problem; [apply (Psome); auto|simpl in LP; lia]. }
    pose proof (HC counts owned n (map (@r_R K) ms) LP NE (Powned) LO) as TM. set (R := stacked (map (@r_R K) ms) (list_sum counts) n) in *.
    assert (TM' : trilinos_matrix (compress counts owned (map (@r_R K) ms)) (blocks 0 counts) owned R).
    { apply TM. intros m r g v Hm Hin. apply in_map_iff in Hm. destruct Hm as [m' [<- Hm]]. destruct (Hwhere m' r g v Hm Hin) as [Q1 [c [Q2 Q3]]].
      split; [lia|]. rewrite CC in Q2. apply in_map_iff in Q2. destruct Q2 as [c' [<- Q2]]. destruct (B2 c' Q2) as [r' [a [A [Hr [Ha [_ [_ [_ Q4]]]]]]]].
      cbn in Q3. rewrite Q4 in Q3. apply (Pdofs r' a A Hr Ha). auto. }
    clear TM.
    assert (RE : forall r g, ent R r g = match nth_error (rows_of (concat (map fst outs))) r with Some ce => r_entry D ce g | None => 0%K end).
    { intros r g. unfold R, stacked. cbn [ent]. rewrite map_map, Hent, CC, rows_without, nth_error_map. destruct (nth_error _ r) as [[c e]|]; auto. }
    assert (Lrows : list_sum counts = length (rows_of (concat (map fst outs)))) by (rewrite Esum, CC, rows_without, map_length; auto).
    assert (Hrow : forall r c e, nth_error (rows_of (concat (map fst outs))) r = Some (c, e) ->
      exists rk a A, In rk problem /\ In (a, A) (fst rk) /\ agglomerate_result k a A c /\ In e (ag_evecs c)).
    { intros r c e Hr. apply nth_error_In in Hr. unfold rows_of in Hr. apply in_flat_map in Hr. destruct Hr as [c' [H1 H2]]. apply in_map_iff in H2.
      destruct H2 as [e' [H2 H3]]. inversion H2; subst. destruct (B2 c H1) as [rk [a [A [Q1 [Q2 Q3]]]]]. exists rk, a, A. auto. }
    assert (NZ : no_zero_rank (blocks 0 counts) R).
    { intros p Hp. destruct (@blocks_nonempty counts 0 p) as [i Hi]; auto.
      { intros c Hc. rewrite ECt in Hc. apply in_map_iff in Hc. destruct Hc as [rk [<- Hr]]. destruct (Prank rk Hr) as [Q _].
        destruct (fst rk) as [|[a A] t] eqn:Er; [congruence|]. assert (Ha : In (a, A) (fst rk)) by (rewrite Er; simpl; auto).
        pose proof (ao_size (proj1 (Pagglomerate rk a A Hr Ha))) as Q1. simpl. lia. }
      pose proof (@blocks_below counts 0 p i Hp Hi) as Hb. simpl in Hb. rewrite Lrows in Hb.
      destruct (nth_error (rows_of (concat (map fst outs))) i) as [[c e]|] eqn:Ei; [|apply nth_error_None in Ei; lia].
      destruct (Hrow i c e Ei) as [rk [a [A [Q1 [Q2 [Q3 Q4]]]]]]. destruct (Hev a A c e Q3 Q4) as [Le Ue]. destruct (@unit_nonzero e Ue) as [j [Hj Nj]].
      destruct (Hlen rk a A c Q1 Q2 Q3) as [L1 L2]. destruct (Pdofs rk a A Q1 Q2) as [ND Hb']. destruct Q3 as [P1 [P2 [P3 P4]]].
      assert (HND : NoDup (ag_map c)) by (rewrite P4; auto).
      exists i, (nth j (ag_map c) 0). assert (Hbd : nth j (ag_map c) 0 < n) by (rewrite P4; apply Hb'; rewrite <- P4; apply nth_In; lia).
      split; auto. split; [exact Hbd|]. rewrite RE, Ei. rewrite (proj1 (@C11_entry K D c e HND)) by lia.
      assert (Hd : nth j (ag_diag c) 0%K = ent A j j).
      { rewrite P3. rewrite (nth_indep _ _ (ent A 0 0)) by (rewrite map_length, seq_length; lia).
        change (ent A 0 0) with ((fun i => ent A i i) 0). rewrite map_nth, seq_nth by lia. auto. }
      rewrite Hd. pose proof (Pdiagonal rk a A j Q1 Q2 ltac:(lia)) as Nd. destruct (Hsum _ Hbd) as [ND' _].
      intros Q. apply fmul_eq_0 in Q. destruct Q as [Q|Q]; [|contradiction].
      apply Nd. transitivity (ent A j j / D (nth j (ag_map c) 0%nat) * D (nth j (ag_map c) 0%nat))%K; [field; auto|]. rewrite Q. ring. }
    destruct (@to_device K debug _ _ _ _ TM' NZ) as [cs [E1 [_ E2]]]. rewrite E1. cbn [bind].
    exists cs, outs, R. split; auto. split; auto. split; [rewrite <- ECt; auto|]. split; [exact Lrows|]. split; [reflexivity|].
    intros r c e g Hr Hg'. destruct (Hrow r c e Hr) as [rk [a [A [Q1 [Q2 [Q3 Q4]]]]]]. destruct (Pdofs rk a A Q1 Q2) as [ND _].
    assert (HND : NoDup (ag_map c)) by (destruct Q3 as [_ [_ [_ ->]]]; auto). rewrite RE, Hr. destruct (@C11_entry K D c e HND) as [X1 X2]. split.
    - intros j Hj Ej. specialize (X1 j Hj). rewrite Ej in X1. exact X1.
    - apply X2.
  Qed.
End Restrictor.
