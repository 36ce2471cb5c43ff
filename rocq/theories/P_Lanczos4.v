(** The eigenpairs of the tridiagonal matrix: filter, purge, normalisation. *)
From Coq Require Import List Arith Lia Bool Field Sorted.
From Verif Require Import Base OField Mat LinAlg M_Perm M_Lanczos S_Lanczos P_Span P_Deflate.
Import ListNotations.
Set Implicit Arguments.
Open Scope nat_scope.

Section P.
  Variable K : ofield.
  Add Field KfLan4 : (f_field K).
  Local Open Scope K_scope.
  Notation vec := (vec K).
  Variable tol2 : K.
  Hypothesis Ht : 0 <= tol2.

  Lemma not_flt : forall a b : K, (a <? b) = false -> b <= a.
  Proof. intros a b H. apply fltb_ge. auto. Qed.

  Section Filter.
    Variables evals evals2 : list K.
    Hypothesis A1 : ascending evals.
    Hypothesis A2 : ascending evals2.
    Notation E i := (nth i evals 0).
    Notation E2 i := (nth i evals2 0).

    Lemma seek_spec : forall k e j js, (j + k = length evals2)%nat -> (js <= j)%nat -> (forall l, (l < j)%nat -> E2 l < e - tol2) ->
      let r := seek_match tol2 k evals2 e j js in
      (fst r = true <-> exists l, (l < length evals2)%nat /\ close tol2 (E2 l) e) /\ (snd r <= length evals2)%nat /\
      (forall l, (l < snd r)%nat -> E2 l < e - tol2).
    Proof.
      induction k as [|k IH]; intros e j js Hk Hj HL; simpl.
      - split; [|split; [lia|intros; apply HL; lia]]. split; [discriminate|]. intros (l & Hl & C1 & C2). exfalso.
        assert (A := HL l ltac:(lia)). apply (@flt_irrefl K (E2 l)). eapply flt_le_trans; eauto.
      - destruct (E2 j <? e - tol2) eqn:C.
        + apply fltb_lt in C. apply IH; try lia. intros l Hl. destruct (Nat.eq_dec l j) as [->|]; auto. apply HL. lia.
        + apply not_flt in C. destruct (e + tol2 <? E2 j) eqn:D; simpl.
          * apply fltb_lt in D. split; [|split; [lia|intros; apply HL; lia]]. split; [discriminate|]. intros (l & Hl & C1 & C2). exfalso.
            destruct (le_lt_dec j l) as [G|G].
            -- assert (B := A2 G Hl). apply (@flt_irrefl K (E2 j)). eapply fle_lt_trans; [exact B|]. eapply fle_lt_trans; [exact C2|]. auto.
            -- assert (B := HL l G). apply (@flt_irrefl K (E2 l)). eapply flt_le_trans; eauto.
          * apply not_flt in D. split; [|split; [lia|intros; apply HL; lia]]. split; auto. intros _. exists j. split; [lia|]. split; auto.
    Qed.

    Lemma spurious_length : forall k i js, length (spurious_from tol2 k evals evals2 i js) = k.
    Proof. induction k; intros i js; simpl; auto. destruct (is_repeated tol2 evals i); simpl; rewrite IHk; auto. Qed.
    Lemma spurious_spec : forall k i js, (i + k = length evals)%nat -> (js <= length evals2)%nat ->
      ((0 < k)%nat -> forall l, (l < js)%nat -> E2 l < E i - tol2) ->
      forall m, (m < k)%nat -> nth m (spurious_from tol2 k evals evals2 i js) false = true <->
        (is_repeated tol2 evals (i + m) = false /\ exists l, (l < length evals2)%nat /\ close tol2 (E2 l) (E (i + m))).
    Proof.
      induction k as [|k IH]; intros i js Hk Hjs HL m Hm; [lia|]. simpl.
      assert (Next : forall js', (forall l, (l < js')%nat -> E2 l < E i - tol2) -> (0 < k)%nat -> forall l, (l < js')%nat -> E2 l < E (Datatypes.S i) - tol2).
      { intros js' H Pk l Hl. eapply flt_le_trans; [apply H; auto|]. assert (B := A1 (Nat.le_succ_diag_r i) ltac:(lia)).
        apply (proj2 (fle_sub_0 _ _ _)). replace (E (Datatypes.S i) - tol2 - (E i - tol2)) with (E (Datatypes.S i) - E i) by ring. apply (proj1 (fle_sub_0 _ _ _)). auto. }
      destruct (is_repeated tol2 evals i) eqn:R.
      - destruct m as [|m].
        + rewrite Nat.add_0_r. simpl. rewrite R. split; [discriminate|intros [? _]; discriminate].
        + simpl. replace (i + Datatypes.S m)%nat with (Datatypes.S i + m)%nat by lia. apply IH; try lia. apply Next. apply HL. lia.
      - destruct (@seek_spec (length evals2 - js) (E i) js js) as (S1 & S2 & S3); try lia; [apply HL; lia|].
        destruct m as [|m].
        + rewrite Nat.add_0_r. simpl. rewrite R. split; [intros H; split; auto; apply S1; auto|intros [_ H]; apply S1; auto].
        + simpl. replace (i + Datatypes.S m)%nat with (Datatypes.S i + m)%nat by lia. apply IH; try lia. apply Next. exact S3.
    Qed.

    Lemma close_lower : forall i i', (i' < i)%nat -> (i < length evals)%nat -> close tol2 (E i') (E i) <-> E i <= E i' + tol2.
    Proof.
      intros i i' H Hi. assert (B := A1 (Nat.lt_le_incl _ _ H) Hi). unfold close. split.
      - intros [C _]. apply (proj2 (fle_sub_0 _ _ _)). apply (proj1 (fle_sub_0 _ _ _)) in C. replace (E i' + tol2 - E i) with (E i' - (E i - tol2)) by ring. auto.
      - intros C. split.
        + apply (proj1 (fle_sub_0 _ _ _)) in C. apply (proj2 (fle_sub_0 _ _ _)). replace (E i' - (E i - tol2)) with (E i' + tol2 - E i) by ring. auto.
        + eapply fle_trans; [exact B|]. apply (proj2 (fle_sub_0 _ _ _)). replace (E i + tol2 - E i) with tol2 by ring. auto.
    Qed.
    Lemma close_upper : forall i i', (i < i')%nat -> (i' < length evals)%nat -> close tol2 (E i') (E i) <-> E i' <= E i + tol2.
    Proof.
      intros i i' H Hi. assert (B := A1 (Nat.lt_le_incl _ _ H) Hi). unfold close. split; [tauto|]. intros C. split; auto.
      eapply fle_trans; [|exact B]. apply (proj2 (fle_sub_0 _ _ _)). replace (E i - (E i - tol2)) with tol2 by ring. auto.
    Qed.

    Lemma repeated_spec : forall i, (i < length evals)%nat ->
      is_repeated tol2 evals i = true <-> exists i', (i' < length evals)%nat /\ i' <> i /\ close tol2 (E i') (E i).
    Proof.
      intros i Hi. unfold is_repeated. rewrite orb_true_iff, !andb_true_iff, !Nat.ltb_lt, !fleb_le. split.
      - intros [[H1 H2]|[H1 H2]].
        + exists (i - 1)%nat. split; [lia|]. split; [lia|]. apply close_lower; auto; lia.
        + exists (i + 1)%nat. split; [lia|]. split; [lia|]. apply close_upper; auto; lia.
      - intros (i' & H1 & H2 & C). destruct (le_lt_dec i' i) as [G|G].
        + left. split; [lia|]. apply close_lower in C; auto; [|lia]. eapply fle_trans; [exact C|].
          assert (B : E i' <= E (i - 1)) by (apply A1; lia). apply fle_add2; [auto|apply fle_refl].
        + right. split; [lia|]. apply close_upper in C; auto. eapply fle_trans; [|exact C]. apply A1; lia.
    Qed.
    Lemma marked_spec : forall i, (i < length evals)%nat -> is_marked tol2 evals i = false <-> exists i', (i' < i)%nat /\ close tol2 (E i') (E i).
    Proof.
      intros i Hi. unfold is_marked. rewrite orb_false_iff, Nat.eqb_neq. split.
      - intros [H1 H2]. exists (i - 1)%nat. split; [lia|]. apply not_flt in H2. apply close_lower; auto; lia.
      - intros (i' & H1 & C). split; [lia|]. apply close_lower in C; auto. destruct (_ <? _) eqn:G; auto. exfalso. apply fltb_lt in G.
        apply (@flt_irrefl K (E i)). eapply fle_lt_trans; [|exact G]. eapply fle_trans; [exact C|]. apply fle_add2; [apply A1; lia|apply fle_refl].
    Qed.

    Lemma bad_spec : forall (compared : bool) i, (i < length evals)%nat ->
      nth i (if compared then spurious_from tol2 (length evals) evals evals2 0 0 else repeat false (length evals)) false || negb (is_marked tol2 evals i) = true <->
      removed tol2 compared evals evals2 i.
    Proof.
      intros compared i Hi. rewrite orb_true_iff, negb_true_iff. unfold removed. rewrite (marked_spec Hi). apply or_iff_compat_r.
      destruct compared.
      - rewrite spurious_spec by (auto; try lia; intros; lia). simpl plus. split.
        + intros [R M]. split; auto. split; auto. intros i' H1 H2 C. assert (is_repeated tol2 evals i = true) by (apply repeated_spec; eauto). congruence.
        + intros (_ & R & M). split; auto. destruct (is_repeated tol2 evals i) eqn:G; auto. exfalso. apply repeated_spec in G; auto. destruct G as (i' & H1 & H2 & C).
          apply (R i'); auto.
      - assert (Z : forall m j, nth j (repeat false m) false = false) by (induction m; intros [|j]; simpl; auto). rewrite Z. split; [discriminate|intros [? _]; discriminate].
    Qed.
  End Filter.
End P.
