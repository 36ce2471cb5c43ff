(** Whole programs on device matrices: memory balance and the reported count. *)
From Coq Require Import List Arith Lia Bool Permutation.
From Verif Require Import Base OField M_Csr M_Dev S_Dev P_AmgxLife P_Dev P_Dev2 P_Dev3.
Import ListNotations.
Set Implicit Arguments.
Open Scope nat_scope.

Section P.
  Variable K : ofield.
  Implicit Types (h : heap K) (s : state K) (v : value K).

  Lemma run_effects : forall debug gemm vs ops vs' n, effects debug gemm vs ops vs' n -> forall s L, own s L -> all_represent s vs ->
    exists s' L', run debug gemm s ops = Ok s' /\ all_represent s' vs' /\ own s' L' /\ length L' = length L + n.
  Proof.
    intros debug gemm vs ops vs' n E. induction E as [vs|vs o vs1 n1 ops vs2 n2 E1 E2 IH]; intros s L H HA.
    - exists s, L. repeat (split; auto).
    - destruct (step_effect H HA E1) as [s1 [S1 [A1 L1]]]. destruct (@step_own K debug gemm s L o H) as [_ O1]. specialize (O1 _ S1).
      destruct (IH s1 _ O1 A1) as [s' [L' [R1 [R2 [R3 R4]]]]]. exists s', L'. split; [cbn [run]; rewrite S1; auto|]. split; auto. split; auto.
      rewrite R4, app_length, L1. lia.
  Qed.
  Lemma owned_needs : forall h objs vs, length objs = length vs ->
    (forall i, match nth_error vs i with
               | Some (Some v) => exists d, nth_error objs i = Some (Some d) /\ represents h d v
               | Some None => nth_error objs i = Some None
               | None => True
               end) -> length (owned objs) = all_needs vs.
  Proof.
    intros h objs. induction objs as [|o objs IH]; intros [|x vs] Hl H; try discriminate; auto.
    unfold owned, all_needs in *. cbn [flat_map map list_sum fold_right]. rewrite app_length. simpl in Hl. rewrite (IH vs); [|lia|intros i; apply (H (S i))].
    specialize (H 0). simpl in H. change (list_sum (map (fun o => match o with Some v => needs v | None => 0 end) (x :: vs))) with
      (match x with Some v => needs v | None => 0 end + list_sum (map (fun o => match o with Some v => needs v | None => 0 end) vs)).
    f_equal. destruct x as [v|].
    - destruct H as [d [E R]]. injection E as ->. apply (@represents_needs K h d v R).
    - injection H as ->. auto.
  Qed.
  Lemma own_outstanding : forall s L vs, own s L -> all_represent s vs -> outstanding s = all_needs vs + length L.
  Proof.
    intros s L vs H [A1 A2]. rewrite <- (@owned_needs (s_heap s) (s_objects s) vs A1 A2), <- app_length. unfold outstanding.
    rewrite <- (map_length fst). apply Permutation_length. apply (Permutation_count_occ Nat.eq_dec). intros id.
    change (cnt id (ids (s_heap s)) = cnt id (owned (s_objects s) ++ L)). rewrite cnt_app. apply (ow_cnt H).
  Qed.
  Lemma start_represent : all_represent (@start K) [].
  Proof. split; auto. intros [|i]; simpl; auto. Qed.
  Lemma program_ok : forall debug gemm ops vs n, effects debug gemm [] ops vs n ->
    exists s, run debug gemm (@start K) ops = Ok s /\ all_represent s vs /\ outstanding s = all_needs vs + n.
  Proof.
    intros debug gemm ops vs n E. destruct (run_effects E (own_start K) start_represent) as [s [L [R1 [R2 [R3 R4]]]]]. exists s. split; auto. split; auto.
    rewrite (own_outstanding R3 R2), R4. auto.
  Qed.
  Lemma all_gone : forall vs, (forall i v, ~ has vs i v) -> @all_needs K vs = 0.
  Proof.
    intros vs. induction vs as [|[v|] vs IH]; intros H; auto.
    - exfalso. apply (H 0 v). reflexivity.
    - unfold all_needs in *. cbn [map list_sum fold_right]. change (list_sum (0 :: ?l)) with (list_sum l). simpl. apply IH. intros i v Hi. apply (H (S i) v). auto.
  Qed.

  (** The two counts are always the same. *)
  Definition same_counts (s : state K) : Prop := forall i d, nth_error (s_objects s) i = Some (Some d) -> d_nnz d = d_lnnz d.
  Lemma counts_snoc : forall s h d, same_counts s -> d_nnz d = d_lnnz d -> same_counts (mkState h (s_objects s ++ [Some d])).
  Proof.
    intros s h d H Hd i d' Hi. cbn [s_objects] in Hi. apply nth_error_snoc in Hi. destruct Hi as [Hi|[_ Hi]]; [eapply H; eauto|]. injection Hi as ->. auto.
  Qed.
  Lemma counts_upd : forall s h c o, same_counts s -> match o with Some d => d_nnz d = d_lnnz d | None => True end -> same_counts (mkState h (upd (s_objects s) c o)).
  Proof.
    intros s h c o H Ho i d Hi. cbn [s_objects] in Hi. destruct (Nat.eq_dec i c) as [->|Hn].
    - assert (Hl := Hi). apply nth_error_lt in Hl. rewrite upd_length in Hl. rewrite nth_error_upd_eq in Hi by auto. injection Hi as ->. auto.
    - rewrite nth_error_upd_neq in Hi by auto. eapply H; eauto.
  Qed.
  Lemma construct_counts : forall (c : csr K) w h d h', construct c w h = (d, h') -> d_nnz d = d_lnnz d.
  Proof.
    intros c w h d h' E. unfold construct in E. destruct (new_buffers c h) as [[[p1 p2] p3] h1]. destruct w; [unfold attach in E; destruct (alloc CDescr h1)|];
      injection E as <- _; reflexivity.
  Qed.
  Lemma step_counts : forall debug gemm s o s', same_counts s -> step debug gemm s o = Ok s' -> same_counts s'.
  Proof.
    intros debug gemm s o s' H E. destruct o as [|c w|i|i|i j|i c|i|i size|a b c par|i]; cbn [step] in E.
    - injection E as <-. apply counts_snoc; auto.
    - destruct (construct c w (s_heap s)) as [d h] eqn:E1. injection E as <-. apply counts_snoc; auto. eapply construct_counts; eauto.
    - apply bind_ok in E. destruct E as [d [Ed E]]. apply bind_ok in E. destruct E as [[d' h] [Ec E]]. injection E as <-. apply object_ok in Ed.
      apply counts_snoc; auto. unfold copy_construct in Ec. apply bind_ok in Ec. destruct Ec as [n [_ Ec]]. apply bind_ok in Ec. destruct Ec as [c [_ Ec]].
      destruct (new_buffers c (s_heap s)) as [[[p1 p2] p3] h1]. destruct (alloc CDescr h1). injection Ec as <- _. cbn. eapply H; eauto.
    - apply bind_ok in E. destruct E as [d [Ed E]]. apply bind_ok in E. destruct E as [d' [Et E]]. injection E as <-. apply object_ok in Ed.
      apply take_ok in Et. destruct Et as [-> _]. apply (@counts_snoc (mkState (s_heap s) (upd (s_objects s) i (Some moved_from)))); [|eapply H; eauto].
      apply counts_upd; auto.
    - apply bind_ok in E. destruct E as [d0 [E0 E]]. apply bind_ok in E. destruct E as [d [Ed E]]. apply bind_ok in E. destruct E as [d' [Et E]]. injection E as <-.
      apply object_ok in Ed. apply take_ok in Et. destruct Et as [-> _]. apply (@counts_upd (mkState (s_heap s) (upd (s_objects s) i (Some d)))); auto.
      apply counts_upd; auto. eapply H; eauto.
    - apply bind_ok in E. destruct E as [d [Ed E]]. apply bind_ok in E. destruct E as [u [_ E]]. destruct (construct c true (s_heap s)) as [d' h] eqn:E1.
      injection E as <-. apply counts_upd; auto. eapply construct_counts; eauto.
    - apply bind_ok in E. destruct E as [d [Ed E]]. unfold attach in E. destruct (alloc CDescr (s_heap s)) as [p h]. injection E as <-. apply object_ok in Ed.
      apply counts_upd; auto. cbn. eapply H; eauto.
    - apply bind_ok in E. destruct E as [d [Ed E]]. apply bind_ok in E. destruct E as [h [_ E]]. injection E as <-. exact H.
    - apply bind_ok in E. destruct E as [da [Ha E]]. apply bind_ok in E. destruct E as [db [Hb E]]. apply bind_ok in E. destruct E as [u [_ E]]. destruct par as [r|].
      + unfold mmult_parallel in E. rewrite Ha, Hb in E. cbn [bind] in E. apply bind_ok in E. destruct E as [dc [Hc E]].
        apply bind_ok in E. destruct E as [ca [_ E]]. apply bind_ok in E. destruct E as [cb [_ E]].
        destruct (construct r false (s_heap s)) as [d h1] eqn:E1. injection E as <-. apply counts_upd; auto. cbn. eapply construct_counts; eauto.
      + unfold mmult_serial in E. rewrite Ha, Hb in E. cbn [bind] in E. apply bind_ok in E. destruct E as [dc [Hc E]]. apply bind_ok in E. destruct E as [h1 [_ E]].
        destruct (malloc_junk (length (d_range da) + 1) h1) as [ptr h2]. apply bind_ok in E. destruct E as [da2 [_ E]]. apply bind_ok in E. destruct E as [db2 [_ E]].
        destruct (negb (d_handle da2)); [destruct debug; discriminate|]. do 3 (apply bind_ok in E; destruct E as [? [_ E]]).
        apply bind_ok in E. destruct E as [ca [_ E]]. apply bind_ok in E. destruct E as [cb [_ E]]. do 3 (apply bind_ok in E; destruct E as [? [_ E]]).
        destruct (malloc_junk _ _) as [val h6] in E. destruct (malloc_junk _ h6) as [col h7] in E. do 4 (apply bind_ok in E; destruct E as [? [_ E]]).
        apply bind_ok in E. destruct E as [h8 [_ E]]. apply bind_ok in E. destruct E as [h9 [_ E]]. injection E as <-. cbn [s_objects].
        rewrite upd_same_twice. apply counts_upd; auto.
    - apply bind_ok in E. destruct E as [d [Ed E]]. apply bind_ok in E. destruct E as [h [_ E]]. injection E as <-. apply counts_upd; auto.
  Qed.
  Lemma run_counts : forall debug gemm ops s s', same_counts s -> run debug gemm s ops = Ok s' -> same_counts s'.
  Proof.
    intros debug gemm ops. induction ops as [|o ops IH]; intros s s' H E; cbn [run] in E; [injection E as <-; auto|].
    apply bind_ok in E. destruct E as [s1 [E1 E]]. eapply IH; [|exact E]. eapply step_counts; eauto.
  Qed.
  Lemma sum_others : forall l r n, nth_error l r = Some n -> (n = list_sum l <-> forall q m, q <> r -> nth_error l q = Some m -> m = 0).
  Proof.
    intros l. induction l as [|a l IH]; intros [|r] n H; try discriminate; simpl in H.
    - injection H as ->. change (list_sum (n :: l)) with (n + list_sum l). split.
      + intros E [|q] m Hn Hq; [congruence|]. simpl in Hq. apply nth_error_In in Hq. assert (Hz : list_sum l = 0) by lia. clear - Hq Hz.
        induction l as [|b l IH]; [contradiction|]. change (list_sum (b :: l)) with (b + list_sum l) in Hz. destruct Hq as [<-|Hq]; [lia|apply IH; auto; lia].
      + intros E. assert (Hz : list_sum l = 0); [|lia]. assert (Hall : forall m, In m l -> m = 0).
        { intros m Hm. apply In_nth_error in Hm. destruct Hm as [q Hq]. apply (E (S q)); auto. }
        clear - Hall. induction l as [|b l IH]; auto. change (list_sum (b :: l)) with (b + list_sum l). rewrite (Hall b), IH; simpl; auto. intros. apply Hall. simpl. auto.
    - change (list_sum (a :: l)) with (a + list_sum l). specialize (IH r n H).
      assert (Hle : n <= list_sum l). { clear - H. revert r H. induction l as [|b l IH]; intros [|r] H; try discriminate; simpl in H; change (list_sum (b :: l)) with (b + list_sum l).
        - injection H as ->. lia.
        - specialize (IH r H). lia. }
      split.
      + intros E [|q] m Hn Hq; simpl in Hq; [injection Hq as ->; lia|]. apply IH with (q := q); auto. lia.
      + intros E. rewrite (E 0 a) by auto. simpl. apply IH. intros q m Hn Hq. apply (E (S q)); auto.
  Qed.
End P.
