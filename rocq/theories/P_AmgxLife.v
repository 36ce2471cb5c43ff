(** Proofs about the handles of M_AmgxLife. *)
From Coq Require Import List Arith Lia Bool.
From Verif Require Import Base M_AmgxLife S_AmgxLife.
Import ListNotations.
Set Implicit Arguments.
Open Scope nat_scope.

Definition offset (k : handle_kind) : nat := match k with HConfig => 0 | HResources => 1 | HMatrix => 2 | HRhs => 3 | HSolution => 4 | HSolver => 5 end.
Definition full (b : nat) : solver_object := mkSolverObject true (Some b) (Some (b + 1)) (Some (b + 2)) (Some (b + 3)) (Some (b + 4)) (Some (b + 5)).
Definition empty_object : solver_object := mkSolverObject false None None None None None None.

Record linv (s : library) : Prop := {
  li_next : exists m, l_next s = 6 * m;
  li_obj : forall i o, nth_error (l_objects s) i = Some (Some o) -> o = empty_object \/ exists m, 6 * m < l_next s /\ o = full (6 * m);
  li_distinct : forall i j m, nth_error (l_objects s) i = Some (Some (full (6 * m))) -> nth_error (l_objects s) j = Some (Some (full (6 * m))) -> i = j;
  li_create : forall k h, In (CCreate k h) (l_calls s) <-> exists m, 6 * m < l_next s /\ h = 6 * m + offset k;
  li_destroy : forall k h, In (CDestroy k h) (l_calls s) <-> k <> HMatrix /\ exists m, 6 * m < l_next s /\ h = 6 * m + offset k /\
                 forall i, nth_error (l_objects s) i <> Some (Some (full (6 * m)));
  li_nodup : NoDup (destroys (l_calls s));
  li_nodup_c : NoDup (creates (l_calls s));
  li_order : destroyed_after_created (l_calls s)
}.

Lemma offset_inj : forall k k' m m', 6 * m + offset k = 6 * m' + offset k' -> m = m' /\ k = k'.
Proof. intros k k' m m' H. assert (m = m') by (destruct k, k'; simpl in H; lia). subst. destruct k, k'; simpl in H; split; auto; try lia. Qed.
Lemma full_inj : forall m m', full (6 * m) = full (6 * m') -> m = m'.
Proof. intros m m' H. injection H. intros. lia. Qed.

Lemma in_destroys : forall calls h, In h (destroys calls) <-> exists k, In (CDestroy k h) calls.
Proof.
  intros calls h. unfold destroys. rewrite in_flat_map. split.
  - intros [[] [H1 H2]]; simpl in H2; try contradiction. destruct H2 as [->|[]]. eauto.
  - intros [k H]. eexists. split; eauto. simpl. auto.
Qed.
Lemma in_creates : forall calls h, In h (creates calls) <-> exists k, In (CCreate k h) calls.
Proof.
  intros calls h. unfold creates. rewrite in_flat_map. split.
  - intros [[] [H1 H2]]; simpl in H2; try contradiction. destruct H2 as [->|[]]. eauto.
  - intros [k H]. eexists. split; eauto. simpl. auto.
Qed.

Lemma linv_init : linv no_library.
Proof.
  split; simpl.
  - exists 0. auto.
  - intros [|i] o H; discriminate.
  - intros [|i] j m H; discriminate.
  - intros k h. split; [tauto|]. intros [m [H _]]. lia.
  - intros k h. split; [tauto|]. intros [_ [m [H _]]]. lia.
  - constructor.
  - constructor.
  - intros l k h e H. destruct l; discriminate.
Qed.

Lemma nth_error_snoc : forall A (l : list A) a i b, nth_error (l ++ [a]) i = Some b <-> nth_error l i = Some b \/ (i = length l /\ b = a).
Proof.
  intros A l a i b. destruct (Nat.lt_ge_cases i (length l)) as [H|H].
  - rewrite nth_error_app1 by auto. split; auto. intros [H1|[H1 _]]; auto. lia.
  - rewrite nth_error_app2 by auto. split.
    + intros E. right. destruct (i - length l) as [|n] eqn:En; simpl in E; [injection E as <-; split; auto; lia|destruct n; discriminate].
    + intros [E|[-> ->]]; [apply nth_error_lt in E; lia|]. rewrite Nat.sub_diag. auto.
Qed.

Lemma linv_new_plain : forall s, linv s -> linv (mkLibrary (l_calls s) (l_next s) (l_objects s ++ [Some empty_object])).
Proof.
  intros s [H1 H2 H3 H4 H5 H6 H6c H7]. split; cbn [l_calls l_next l_objects]; auto.
  - intros i o H. apply nth_error_snoc in H. destruct H as [H|[-> H]]; eauto. injection H as ->. auto.
  - intros i j m Hi Hj. apply nth_error_snoc in Hi, Hj. destruct Hi as [Hi|[-> Hi]]; [|discriminate]. destruct Hj as [Hj|[-> Hj]]; [|discriminate]. eauto.
  - intros k h. rewrite H5. split; intros [Hk [m [M1 [M2 M3]]]]; (split; [auto|]); exists m; repeat (split; auto); intros i Hi.
    + apply nth_error_snoc in Hi. destruct Hi as [Hi|[_ Hi]]; [|discriminate]. eapply M3; eauto.
    + apply (M3 i). apply nth_error_snoc. auto.
Qed.

Lemma linv_new_amgx : forall s s', linv s -> life_step s (LNew true) = Ok s' -> linv s'.
Proof.
  intros s s' [[m0 H1] H2 H3 H4 H5 H6 H6c H7] E. unfold life_step in E. injection E as <-. cbn [l_next l_calls l_objects]. rewrite H1 in *.
  change (mkSolverObject true _ _ _ _ _ _) with (full (6 * m0)).
  assert (Hold : forall i m, nth_error (l_objects s) i = Some (Some (full (6 * m))) -> m < m0).
  { intros i m Hi. destruct (H2 i _ Hi) as [Hx|[m' [Hm Hx]]]; [discriminate|]. apply full_inj in Hx. subst. lia. }
  split; cbn [l_calls l_next l_objects].
  - exists (S m0). lia.
  - intros i o H. apply nth_error_snoc in H. destruct H as [H|[-> H]].
    + destruct (H2 i o H) as [->|[m [Hm ->]]]; auto. right. exists m. split; auto. lia.
    + injection H as ->. right. exists m0. split; auto. lia.
  - intros i j m Hi Hj. apply nth_error_snoc in Hi, Hj. destruct Hi as [Hi|[-> Hi]]; destruct Hj as [Hj|[-> Hj]]; eauto.
    + apply Hold in Hi. assert (m = m0) by (match goal with H : Some (full _) = Some _ |- _ => injection H; intros; lia end). lia.
    + apply Hold in Hj. assert (m = m0) by (match goal with H : Some (full _) = Some _ |- _ => injection H; intros; lia end). lia.
  - intros k h. simpl. rewrite H4. split.
    + intros H. repeat (destruct H as [H|H]; [try discriminate; injection H as <- <-; exists m0; simpl; split; lia|]).
      destruct H as [m [M1 M2]]. exists m. split; auto. lia.
    + intros [m [M1 ->]]. destruct (Nat.eq_dec m m0) as [->|Hne].
      * destruct k; cbn [offset]; rewrite ?Nat.add_0_r; simpl; tauto.
      * do 7 right. exists m. split; auto. lia.
  - intros k h. simpl. rewrite H5. split.
    + intros H. repeat (destruct H as [H|H]; [discriminate|]). destruct H as [Hk [m [M1 [M2 M3]]]]. split; auto. exists m. split; [lia|]. split; auto.
      intros i Hi. apply nth_error_snoc in Hi. destruct Hi as [Hi|[-> Hi]]; [eapply M3; eauto|]. assert (m = m0) by (match goal with H : Some (full _) = Some _ |- _ => injection H; intros; lia end). lia.
    + intros [Hk [m [M1 [M2 M3]]]]. do 7 right. split; auto. exists m. assert (m <> m0).
      { intros ->. apply (M3 (length (l_objects s))). apply nth_error_snoc. auto. }
      split; [lia|]. split; auto. intros i Hi. apply (M3 i). apply nth_error_snoc. auto.
  - simpl. auto.
  - simpl. assert (Hf : forall h, In h (creates (l_calls s)) -> h < 6 * m0).
    { intros h H. apply in_creates in H. destruct H as [k H]. apply H4 in H. destruct H as [m [M1 ->]]. destruct k; simpl; lia. }
    repeat constructor; simpl; auto; intros H; repeat (destruct H as [H|H]; [lia|]); try contradiction; apply Hf in H; lia.
  - intros l k h e E. assert (Hc : exists l', l = [CCreate HSolver (6 * m0 + 5); CCreate HSolution (6 * m0 + 4); CCreate HRhs (6 * m0 + 3); CCreate HMatrix (6 * m0 + 2); CCreate HResources (6 * m0 + 1);
                      CCreate HConfig (6 * m0); CInitialize] ++ l' /\ l_calls s = l' ++ CDestroy k h :: e).
    { do 7 (destruct l as [|? l]; [discriminate|]; injection E as <- E). exists l. auto. }
    destruct Hc as [l' [_ E']]. eapply H7; eauto.
Qed.

Lemma order_app : forall l2 l1, destroyed_after_created l1 -> (forall k h, In (CDestroy k h) l2 -> In (CCreate k h) l1) ->
  (forall k h, ~ In (CCreate k h) l2) -> destroyed_after_created (l2 ++ l1).
Proof.
  induction l2 as [|c l2 IH]; intros l1 H1 H2 H3; [auto|]. intros l k h e E. destruct l as [|c' l].
  - injection E as -> <-. apply in_or_app. right. apply H2. simpl; auto.
  - injection E as <- E. eapply IH; eauto. intros; apply H2; simpl; auto. intros k' h' Hi. eapply H3. simpl; eauto.
Qed.

Lemma linv_delete : forall s s' i, linv s -> life_step s (LDelete i) = Ok s' -> linv s'.
Proof.
  intros s s' i HI E. pose proof HI as [[m0 H1] H2 H3 H4 H5 H6 H6c H7]. unfold life_step in E.
  destruct (nth_error (l_objects s) i) as [[o|]|] eqn:Ei; try discriminate. injection E as <-.
  assert (Hi : i < length (l_objects s)) by (eapply nth_error_lt; eauto).
  assert (Hup : forall j o', nth_error (upd (l_objects s) i None) j = Some (Some o') <-> i <> j /\ nth_error (l_objects s) j = Some (Some o')).
  { intros j o'. destruct (Nat.eq_dec i j) as [<-|Hne].
    - rewrite nth_error_upd_eq by auto. split; [discriminate|intros [H _]; contradiction].
    - rewrite nth_error_upd_neq by auto. tauto. }
  destruct (H2 i o Ei) as [->|[m [Hm ->]]].
  - change (rev (destructor_calls empty_object)) with (@nil amgx_call). split; cbn [l_calls l_next l_objects app].
    + exists m0. auto.
    + intros j o' Hj. apply Hup in Hj. apply (H2 j). tauto.
    + intros j j' m Hj Hj'. apply Hup in Hj, Hj'. eapply H3; [apply Hj|apply Hj'].
    + auto.
    + intros k h. rewrite H5. split; intros [Hk [m [M1 [M2 M3]]]]; (split; [auto|]); exists m; repeat (split; auto); intros j Hj.
      * apply Hup in Hj. eapply M3. apply Hj.
      * apply (M3 j). apply Hup. split; auto. intros <-. rewrite Ei in Hj; discriminate.
    + auto.
    + auto.
    + auto.
  - change (rev (destructor_calls (full (6 * m)))) with
      [CFinalize; CDestroy HConfig (6 * m); CDestroy HResources (6 * m + 1); CDestroy HRhs (6 * m + 3); CDestroy HSolution (6 * m + 4); CDestroy HSolver (6 * m + 5)].
    assert (Hnew : forall k, ~ In (CDestroy k (6 * m + offset k)) (l_calls s)).
    { intros k H. apply H5 in H. destruct H as [_ [m' [M1 [M2 M3]]]]. apply offset_inj in M2. destruct M2 as [<- _]. eapply M3; eauto. }
    assert (Hnew2 : forall k k', ~ In (CDestroy k (6 * m + offset k')) (l_calls s)).
    { intros k k' H. pose proof H as H'. apply H5 in H'. destruct H' as [_ [m' [M1 [M2 M3]]]]. apply offset_inj in M2. destruct M2 as [_ <-]. eapply Hnew; eauto. }
    split; cbn [l_calls l_next l_objects].
    + exists m0. auto.
    + intros j o' Hj. apply Hup in Hj. apply (H2 j). tauto.
    + intros j j' m' Hj Hj'. apply Hup in Hj, Hj'. eapply H3; [apply Hj|apply Hj'].
    + intros k h. simpl. rewrite <- H4. split; [|tauto]. intros H. repeat (destruct H as [H|H]; [discriminate|]). auto.
    + intros k h. cbn [app In]. split.
      * assert (Hgone : forall j, nth_error (upd (l_objects s) i None) j <> Some (Some (full (6 * m)))).
        { intros j Hj. apply Hup in Hj. destruct Hj as [Hne Hj]. apply Hne. eapply H3; eauto. }
        intros H. destruct H as [H|H]; [discriminate|].
        do 5 (destruct H as [H|H]; [injection H as <- <-; split; [discriminate|]; exists m; apply conj; [auto|apply conj; [cbn [offset]; lia|auto]]|]).
        apply H5 in H. destruct H as [Hk [m' [M1 [M2 M3]]]]. split; auto. exists m'. repeat (split; auto). intros j Hj. apply Hup in Hj. eapply M3. apply Hj.
      * intros [Hk [m' [M1 [-> M3]]]]. destruct (Nat.eq_dec m' m) as [->|Hne].
        -- right. destruct k; try contradiction; cbn [offset]; rewrite ?Nat.add_0_r; simpl; tauto.
        -- do 6 right. apply H5. split; auto. exists m'. repeat (split; auto). intros j Hj. destruct (Nat.eq_dec i j) as [<-|Hij].
           ++ rewrite Ei in Hj. injection Hj. intros. apply Hne. lia.
           ++ apply (M3 j). apply Hup. auto.
    + assert (Hd : forall k', ~ In (6 * m + offset k') (destroys (l_calls s))).
      { intros k' H. apply in_destroys in H. destruct H as [k H]. eapply Hnew2; eauto. }
      pose proof (Hd HConfig) as D0. pose proof (Hd HResources) as D1. pose proof (Hd HRhs) as D3. pose proof (Hd HSolution) as D4. pose proof (Hd HSolver) as D5.
      cbn [offset] in *. rewrite Nat.add_0_r in D0. simpl app. unfold destroys in *. cbn [flat_map app].
      repeat (constructor; [cbn [In]; intros H; repeat (destruct H as [H|H]; [lia|]); tauto|]). auto.
    + auto.
    + apply order_app; auto.
      * intros k h H. apply H4. exists m. split; auto. simpl in H. repeat (destruct H as [H|H]; [try discriminate; injection H as <- <-; cbn [offset]; lia|]). contradiction.
      * intros k h H. simpl in H. repeat (destruct H as [H|H]; [discriminate|]). auto.
Qed.

Lemma linv_life : forall ops s s', no_copies ops -> linv s -> life s ops = Ok s' -> linv s'.
Proof.
  induction ops as [|op ops IH]; intros s s' Hn HI E; simpl in E.
  - injection E as <-. auto.
  - destruct (life_step s op) as [s1| | | |] eqn:E1; try discriminate. cbn [bind] in E. apply (IH s1 s'); auto; [intros i Hi; apply (Hn i); simpl; auto|].
    destruct op as [[|]|i|i].
    + eapply linv_new_amgx; eauto.
    + injection E1 as <-. apply linv_new_plain. auto.
    + exfalso. apply (Hn i). simpl; auto.
    + eapply linv_delete; eauto.
Qed.

Lemma use_iff : forall s k m, linv s -> in_use s (6 * m + offset k) <-> exists i, nth_error (l_objects s) i = Some (Some (full (6 * m))).
Proof.
  intros s k m HI. split.
  - intros [i [o [Hi Ho]]]. destruct (li_obj HI _ Hi) as [->|[m' [Hm ->]]].
    + simpl in Ho. repeat (destruct Ho as [Ho|Ho]; [discriminate|]). contradiction.
    + exists i. assert (m = m').
      { simpl In in Ho. repeat (destruct Ho as [Ho|Ho]; [injection Ho as Ho; destruct k; simpl in Ho; lia|]). contradiction. }
      subst. auto.
  - intros [i Hi]. exists i. eexists. split; eauto. destruct k; cbn [offset]; rewrite ?Nat.add_0_r; simpl; tauto.
Qed.

Lemma life_spec : forall ops s, no_copies ops -> life no_library ops = Ok s ->
  NoDup (creates (l_calls s)) /\ NoDup (destroys (l_calls s)) /\ destroyed_after_created (l_calls s) /\
  (forall k h, In (CCreate k h) (l_calls s) -> (In (CDestroy k h) (l_calls s) <-> k <> HMatrix /\ ~ in_use s h)) /\
  (forall h, in_use s h -> exists k, In (CCreate k h) (l_calls s) /\ ~ In h (destroys (l_calls s))).
Proof.
  intros ops s Hn E. pose proof (linv_life Hn linv_init E) as HI. repeat split; try (apply HI).
  - apply (li_destroy HI) in H0. tauto.
  - apply (li_destroy HI) in H0. destruct H0 as [_ [m [M1 [-> M3]]]]. rewrite use_iff by auto. intros [i Hi]. eapply M3; eauto.
  - intros [Hk Hu]. apply (li_create HI) in H. destruct H as [m [M1 ->]]. apply (li_destroy HI). split; auto. exists m. repeat (split; auto).
    intros i Hi. apply Hu. apply use_iff; auto. eauto.
  - intros h [i [o [Hi Ho]]]. destruct (li_obj HI _ Hi) as [->|[m [Hm ->]]].
    + simpl in Ho. repeat (destruct Ho as [Ho|Ho]; [discriminate|]). contradiction.
    + assert (Hk : exists k, h = 6 * m + offset k).
      { simpl In in Ho. destruct Ho as [Ho|[Ho|[Ho|[Ho|[Ho|[Ho|[]]]]]]]; injection Ho as <-;
          [exists HConfig|exists HResources|exists HMatrix|exists HRhs|exists HSolution|exists HSolver]; simpl; lia. }
      destruct Hk as [k ->]. exists k. split; [apply (li_create HI); eauto|]. intros H. apply in_destroys in H. destruct H as [k' H].
      apply (li_destroy HI) in H. destruct H as [_ [m' [M1 [M2 M3]]]]. apply offset_inj in M2. destruct M2 as [<- <-]. eapply M3; eauto.
Qed.
