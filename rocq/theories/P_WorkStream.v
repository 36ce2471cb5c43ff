(** Proofs about work streams: schedules, sequential runs. *)
From Coq Require Import List Arith Bool Lia.
From Verif Require Import Base M_WorkStream.
Import ListNotations.
Set Implicit Arguments.

Section PWS.
  Variables (I SC C O : Type).
  Variable worker : I -> SC -> C -> outcome (SC * C).
  Variable copier : C -> O -> outcome O.

  (** Copying a list of results in order. *)
  Fixpoint copy_all (cs : list C) (o : O) : outcome O :=
    match cs with [] => Ok o | c :: t => let! o' := copier c o in copy_all t o' end.

  Lemma copy_all_app : forall a b o, copy_all (a ++ b) o = bind (copy_all a o) (copy_all b).
  Proof. induction a; intros; simpl; auto. destruct (copier a o); simpl; auto. Qed.

  Section Inv.
    Variable items : list I.
    Variable res : I -> C.
    Variable P : C -> Prop.
    Hypothesis Hres : forall it sc c sc' c', In it items -> P c -> worker it sc c = Ok (sc', c') -> c' = res it /\ P c'.

    Definition ws_inv (o0 : O) (st : ws SC C O) : Prop :=
      ws_next st <= length items /\
      copy_all (map res (firstn (ws_next st) items)) o0 = Ok (ws_out st) /\
      (forall b c i, nth_error (ws_bufs st) b = Some (c, Some i) -> exists it, nth_error items i = Some it /\ c = res it) /\
      (forall b c i, nth_error (ws_bufs st) b = Some (c, i) -> P c).

    Lemma ws_inv_step : forall o0 a b, ws_inv o0 a -> ws_step worker copier items a b -> ws_inv o0 b.
    Proof.
      intros o0 a b [H1 [H2 [H3 H4]]] Hs. inversion Hs; subst.
      - destruct (Hres (nth_error_In _ _ H) (H4 _ _ _ H6) H7) as [R1 R2].
        split; [|split; [|split]]; cbn [ws_next ws_out ws_bufs]; auto.
        + intros b' c0 i0 Hb. rewrite nth_error_upd in Hb.
          destruct ((b0 =? b') && (b0 <? length (ws_bufs a))) eqn:E.
          * inversion Hb; subst. exists it. split; auto.
          * eapply H3; eauto.
        + intros b' c0 i0 Hb. rewrite nth_error_upd in Hb.
          destruct ((b0 =? b') && (b0 <? length (ws_bufs a))) eqn:E.
          * inversion Hb; subst. auto.
          * eapply H4; eauto.
      - destruct (H3 _ _ _ H) as [it [Hi ->]].
        split; [|split; [|split]]; cbn [ws_next ws_out ws_bufs].
        + apply nth_error_lt in Hi. lia.
        + assert (E : firstn (S (ws_next a)) items = firstn (ws_next a) items ++ [it]).
          { clear - Hi. revert Hi. generalize (ws_next a). induction items as [|x t IH]; intros n Hi; destruct n; simpl in *; try discriminate.
            - congruence.
            - f_equal. apply IH; auto. }
          rewrite E, map_app, copy_all_app, H2. simpl. rewrite H0. reflexivity.
        + intros b' c0 i0 Hb. rewrite nth_error_upd in Hb.
          destruct ((b0 =? b') && (b0 <? length (ws_bufs a))) eqn:E.
          * inversion Hb.
          * eapply H3; eauto.
        + intros b' c0 i0 Hb. rewrite nth_error_upd in Hb.
          destruct ((b0 =? b') && (b0 <? length (ws_bufs a))) eqn:E.
          * inversion Hb; subst. eapply H4; eauto.
          * eapply H4; eauto.
    Qed.

    Lemma ws_inv_steps : forall o0 a b, ws_inv o0 a -> ws_steps worker copier items a b -> ws_inv o0 b.
    Proof. intros o0 a b H Hs. induction Hs; auto. apply IHHs. eapply ws_inv_step; eauto. Qed.

    Theorem ws_run_inv : forall ns nb sc c o o', P c -> ws_run worker copier items ns nb sc c o o' -> copy_all (map res items) o = Ok o'.
    Proof.
      intros ns nb sc c o o' Hc [st [H1 [H2 H3]]].
      assert (Hi : ws_inv o st).
      { eapply ws_inv_steps; eauto. split; [|split; [|split]]; simpl; auto.
        - lia.
        - intros b c0 i Hb. apply nth_error_In in Hb. apply repeat_spec in Hb. inversion Hb.
        - intros b c0 i Hb. apply nth_error_In in Hb. apply repeat_spec in Hb. inversion Hb; subst; auto. }
      destruct Hi as [_ [Hi _]]. rewrite H2, firstn_all in Hi. congruence.
    Qed.
  End Inv.

  (** Results that are only known up to a relation. *)
  Section Rel.
    Variable items : list I.
    Variable R : I -> C -> Prop.
    Variable P : C -> Prop.
    Hypothesis Hres : forall it sc c sc' c', In it items -> P c -> worker it sc c = Ok (sc', c') -> R it c' /\ P c'.

    Definition ws_rel (o0 : O) (st : ws SC C O) : Prop :=
      ws_next st <= length items /\
      (exists cs, Forall2 R (firstn (ws_next st) items) cs /\ copy_all cs o0 = Ok (ws_out st)) /\
      (forall b c i, nth_error (ws_bufs st) b = Some (c, Some i) -> exists it, nth_error items i = Some it /\ R it c) /\
      (forall b c i, nth_error (ws_bufs st) b = Some (c, i) -> P c).

    Lemma ws_rel_step : forall o0 a b, ws_rel o0 a -> ws_step worker copier items a b -> ws_rel o0 b.
    Proof.
      intros o0 a b [H1 [H2 [H3 H4]]] Hs. inversion Hs; subst.
      - destruct (Hres (nth_error_In _ _ H) (H4 _ _ _ H6) H7) as [R1 R2].
        split; [|split; [|split]]; cbn [ws_next ws_out ws_bufs]; auto.
        + intros b' c0 i0 Hb. rewrite nth_error_upd in Hb.
          destruct ((b0 =? b') && (b0 <? length (ws_bufs a))) eqn:E.
          * inversion Hb; subst. exists it. split; auto.
          * eapply H3; eauto.
        + intros b' c0 i0 Hb. rewrite nth_error_upd in Hb.
          destruct ((b0 =? b') && (b0 <? length (ws_bufs a))) eqn:E.
          * inversion Hb; subst. auto.
          * eapply H4; eauto.
      - destruct (H3 _ _ _ H) as [it [Hi Hc]]. destruct H2 as [cs [H2 H2']].
        split; [|split; [|split]]; cbn [ws_next ws_out ws_bufs].
        + apply nth_error_lt in Hi. lia.
        + assert (E : firstn (S (ws_next a)) items = firstn (ws_next a) items ++ [it]).
          { clear - Hi. revert Hi. generalize (ws_next a). induction items as [|x t IH]; intros n Hi; destruct n; simpl in *; try discriminate.
            - congruence.
            - f_equal. apply IH; auto. }
          exists (cs ++ [c]). split.
          * rewrite E. apply Forall2_app; auto.
          * rewrite copy_all_app, H2'. simpl. rewrite H0. reflexivity.
        + intros b' c0 i0 Hb. rewrite nth_error_upd in Hb.
          destruct ((b0 =? b') && (b0 <? length (ws_bufs a))) eqn:E.
          * inversion Hb.
          * eapply H3; eauto.
        + intros b' c0 i0 Hb. rewrite nth_error_upd in Hb.
          destruct ((b0 =? b') && (b0 <? length (ws_bufs a))) eqn:E.
          * inversion Hb; subst. eapply H4; eauto.
          * eapply H4; eauto.
    Qed.

    Theorem ws_run_rel : forall ns nb sc c o o', P c -> ws_run worker copier items ns nb sc c o o' ->
      exists cs, Forall2 R items cs /\ copy_all cs o = Ok o'.
    Proof.
      intros ns nb sc c o o' Hc [st [H1 [H2 H3]]].
      assert (Hi : ws_rel o st).
      { assert (H0 : ws_rel o (ws_init ns nb sc c o)).
        { split; [|split; [|split]]; simpl; auto.
          - lia.
          - exists []. split; auto.
          - intros b c0 i Hb. apply nth_error_In in Hb. apply repeat_spec in Hb. inversion Hb.
          - intros b c0 i Hb. apply nth_error_In in Hb. apply repeat_spec in Hb. inversion Hb; subst; auto. }
        clear H2 H3. induction H1; auto. apply IHws_steps. eapply ws_rel_step; eauto. }
      destruct Hi as [_ [[cs [Hi1 Hi2]] _]]. rewrite H2, firstn_all in Hi1. exists cs. split; auto. congruence.
    Qed.
  End Rel.

  Theorem ws_run_det : forall items res, (forall it sc c sc' c', In it items -> worker it sc c = Ok (sc', c') -> c' = res it) ->
    forall ns nb sc c o o', ws_run worker copier items ns nb sc c o o' -> copy_all (map res items) o = Ok o'.
  Proof.
    intros items res H ns nb sc c o o' Hr. eapply (@ws_run_inv items res (fun _ => True)); [|exact Logic.I|exact Hr].
    intros. split; auto. eapply H; eauto.
  Qed.

  Lemma ws_steps_app : forall items a b c, ws_steps worker copier items a b -> ws_steps worker copier items b c -> ws_steps worker copier items a c.
  Proof. intros items a b c H. induction H; auto. intros. econstructor; eauto. Qed.

  (** The sequential run is one of the runs. *)
  Lemma ws_seq_steps : forall rest pre items sc c o o' scs bufs,
    items = pre ++ rest -> ws_seq worker copier rest sc c o = Ok o' ->
    exists st, ws_steps worker copier items (mkWs (sc :: scs) ((c, None) :: bufs) (rev (seq 0 (length pre))) (length pre) o) st /\
      ws_next st = length items /\ ws_out st = o'.
  Proof.
    induction rest as [|it rest IH]; intros pre items sc c o o' scs bufs Hi Hr; simpl in Hr.
    - inversion Hr; subst. eexists. split; [apply steps_refl|]. rewrite app_nil_r. auto.
    - destruct (worker it sc c) as [[sc' c']| | | |] eqn:Ew; simpl in Hr; try discriminate.
      destruct (copier c' o) as [o1| | | |] eqn:Ec; simpl in Hr; try discriminate.
      assert (Hi' : items = (pre ++ [it]) ++ rest) by (rewrite <- app_assoc; auto).
      destruct (IH (pre ++ [it]) items sc' c' o1 o' scs bufs Hi' Hr) as [st [S1 [S2 S3]]].
      exists st. split; auto.
      eapply steps_trans.
      { apply step_work with (i := length pre) (it := it) (s := 0) (sc := sc) (b := 0) (c := c) (sc' := sc') (c' := c').
        - rewrite Hi. rewrite nth_error_app2, Nat.sub_diag; auto.
        - simpl. rewrite <- in_rev. intros H. apply in_seq in H. lia.
        - reflexivity.
        - reflexivity.
        - auto. }
      eapply steps_trans.
      { apply step_copy with (b := 0) (c := c') (o' := o1); simpl; auto. }
      simpl. rewrite app_length in S1. simpl in S1. rewrite Nat.add_1_r in S1.
      rewrite seq_S, rev_app_distr in S1. simpl in S1. exact S1.
  Qed.

  Theorem ws_seq_run : forall items ns nb sc c o o', ws_seq worker copier items sc c o = Ok o' ->
    ws_run worker copier items (S ns) (S nb) sc c o o'.
  Proof.
    intros. unfold ws_run, ws_init. simpl.
    destruct (@ws_seq_steps items [] items sc c o o' (repeat sc ns) (repeat (c, None) nb) eq_refl H) as [st [H1 H2]].
    exists st. split; auto.
  Qed.
End PWS.
