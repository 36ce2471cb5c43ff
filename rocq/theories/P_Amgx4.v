(** Consequences of the AMGX setup: the numbering is a bijection, the maps of two ranks line up, the maps of a pattern that is not symmetric, one rank. *)
From Coq Require Import List Arith Lia Bool Permutation Sorted Field.
From Verif Require Import Base OField Mat M_Perm S_Perm P_Perm M_SpProd S_SpProd M_Csr S_Csr P_SpProd P_Csr P_Csr2 P_Csr3 P_Csr4 M_Amgx S_Amgx P_Amgx P_Amgx2 P_Amgx3.
Import ListNotations.
Set Implicit Arguments.
Open Scope nat_scope.

Lemma NoDup_app_intro : forall A (a b : list A), NoDup a -> NoDup b -> (forall x, In x a -> ~ In x b) -> NoDup (a ++ b).
Proof.
  induction a as [|x a IH]; intros b Ha Hb H; simpl; auto. inversion Ha as [|? ? Hx Ha']; subst. constructor.
  - rewrite in_app_iff. intros [H1|H1]; [auto|]. apply (H x); simpl; auto.
  - apply IH; auto. intros y Hy. apply H. simpl; auto.
Qed.
Lemma new_ids_in : forall range n order halo cols, length range = n -> Permutation order (seq 0 n) -> is_halo range cols halo ->
  forall g, In g (new_ids range order halo) <-> In g range \/ In g cols.
Proof.
  intros range n order halo cols Hn HP [_ HH] g. unfold new_ids. rewrite in_app_iff, HH, in_map_iff. split.
  - intros [[r [<- Hr]]|[H _]]; auto. left. apply nth_In. apply (Permutation_in _ HP) in Hr. apply in_seq in Hr. lia.
  - intros H. destruct (in_dec Nat.eq_dec g range) as [Hg|Hg]; [left|right; tauto].
    apply (In_nth _ _ 0) in Hg. destruct Hg as [r [Hr <-]]. exists r. split; auto. apply (Permutation_in _ (Permutation_sym HP)). apply in_seq. lia.
Qed.
Lemma new_ids_NoDup : forall range n order halo cols, length range = n -> NoDup range -> Permutation order (seq 0 n) -> is_halo range cols halo ->
  NoDup (new_ids range order halo).
Proof.
  intros range n order halo cols Hn HD HP [HS HH]. unfold new_ids. apply NoDup_app_intro.
  - assert (Hord : NoDup order) by (eapply Permutation_NoDup; [apply Permutation_sym; eauto|apply seq_NoDup]).
    assert (Hlt : forall r, In r order -> r < length range) by (intros r Hr; apply (Permutation_in _ HP) in Hr; apply in_seq in Hr; lia).
    clear HP. induction order as [|r t IH]; simpl; [constructor|]. inversion Hord as [|? ? Hr Ht]; subst. constructor.
    + intros H. apply in_map_iff in H. destruct H as [r' [E H]]. apply Hr. replace r with r'; auto.
      apply (proj1 (NoDup_nth range 0) HD); auto; apply Hlt; simpl; auto.
    + apply IH; auto. intros; apply Hlt; simpl; auto.
  - apply sorted_NoDup. auto.
  - intros g Hg Hh. apply HH in Hh. destruct Hh as [_ Hn']. apply Hn'. apply in_map_iff in Hg. destruct Hg as [r [<- Hr]]. apply nth_In.
    apply (Permutation_in _ HP) in Hr. apply in_seq in Hr. lia.
Qed.

Section Maps.
  Variable K : ofield.
  Variable cs : list (csr K).

  (** The receive list of p for q and the send list of q for p. *)
  Lemma maps_aligned : forall p q cp cq dp dq op hp oq hq k recv,
    (forall p q, needs cs p q -> needs cs q p) ->
    amgx_ready cs p cp dp op hp -> amgx_ready cs q cq dq oq hq ->
    nth_error (a_neighbors dp) k = Some q -> nth_error (a_recv dp) k = Some recv ->
    exists k' send, nth_error (a_neighbors dq) k' = Some p /\ nth_error (a_send dq) k' = Some send /\ length send = length recv /\
      forall t j l, nth_error recv t = Some j -> nth_error send t = Some l ->
        length (c_range cp) <= j /\ l < length (c_range cq) /\
        exists g, nth_error (new_ids (c_range cp) op hp) j = Some g /\ nth_error (new_ids (c_range cq) oq hq) l = Some g.
  Proof.
    intros p q cp cq dp dq op hp oq hq k recv Hsym Hp Hq Hk Hr.
    assert (Hn : needs cs p q). { apply Hsym. apply (proj2 (ar_neighbors Hp)). eapply nth_error_In; eauto. }
    apply (proj2 (ar_neighbors Hq)) in Hn. apply In_nth_error in Hn. destruct Hn as [k' Hk']. exists k'.
    destruct (nth_error (a_send dq) k') as [send|] eqn:Es; [|apply nth_error_None in Es; rewrite (ar_send_length Hq) in Es; apply nth_error_lt in Hk'; lia].
    exists send. split; auto. split; auto.
    destruct (ar_recv Hp _ Hk Hr) as [g1 [S1 F1]]. destruct (ar_send Hq _ Hk' Es) as [g2 [S2 F2]].
    assert (g1 = g2) as <-. { apply sorted_unique; [apply S1|apply S2|]. intros x. rewrite (proj2 S1), (proj2 S2). tauto. }
    split; [rewrite <- (Forall2_length' F1), <- (Forall2_length' F2); auto|].
    intros t j l Hj Hl.
    assert (Hg : exists g, nth_error g1 t = Some g).
    { destruct (nth_error g1 t) eqn:E; eauto. apply nth_error_None in E. rewrite (Forall2_length' F1) in E. apply nth_error_lt in Hj. lia. }
    destruct Hg as [g Hg]. destruct (Forall2_nth2 _ F1 Hg Hj) as [A1 A2]. destruct (Forall2_nth2 _ F2 Hg Hl) as [B1 B2].
    apply Nat.ltb_ge in A2. apply Nat.ltb_lt in B2. eauto.
  Qed.

  (** A rank with more ranks that need its rows than ranks whose rows it needs. *)
  Lemma overrun : forall n debug std_sort p ss rr, distributed_rows n cs -> p < length cs ->
    NoDup ss -> (forall q, In q ss <-> needs cs p q) -> NoDup rr -> (forall q, In q rr <-> needs cs q p) -> length ss < length rr ->
    (exists c, nth_error cs p = Some c /\ amgx_rank debug std_sort (map pattern_buffer cs) p c = UB) /\
    forall datas, amgx_setup debug std_sort cs <> Ok datas.
  Proof.
    intros n debug std_sort p ss rr Hcs Hp Ns Hs Nr Hr Hlt.
    destruct (nth_error cs p) as [c|] eqn:E; [|apply nth_error_None in E; lia].
    assert (HU : amgx_rank debug std_sort (map pattern_buffer cs) p c = UB).
    { eapply rank_overrun; eauto.
      assert (L1 : length (senders cs p) = length ss).
      { apply Permutation_length, NoDup_Permutation; auto. apply NoDup_filter, sorted_NoDup, others_sorted. intros q. rewrite Hs. apply senders_in. }
      assert (L2 : length (receivers cs p) = length rr).
      { apply Permutation_length, NoDup_Permutation; auto. apply NoDup_filter, sorted_NoDup, others_sorted. intros q. rewrite Hr. apply receivers_in. }
      lia. }
    split; [eauto|]. intros datas Hd. unfold amgx_setup in Hd.
    assert (Hin : In p (seq 0 (length cs))) by (apply in_seq; lia).
    revert datas Hd. induction (seq 0 (length cs)) as [|r l IH]; [contradiction|]. intros datas Hd. simpl in Hd.
    destruct (let! c := rd cs r in amgx_rank debug std_sort (map pattern_buffer cs) r c) as [d| | | |] eqn:Er; try discriminate. cbn [bind] in Hd.
    destruct Hin as [->|Hin].
    - unfold rd in Er. rewrite E in Er. cbn [bind] in Er. congruence.
    - destruct (mapM _ l) as [ds| | | |] eqn:El; try discriminate. eapply IH; eauto.
  Qed.
End Maps.

Lemma filter_none : forall A (f : A -> bool) l, (forall x, In x l -> f x = false) -> filter f l = [].
Proof. induction l as [|x l IH]; intros H; simpl; auto. rewrite (H x) by (simpl; auto). apply IH. intros; apply H; simpl; auto. Qed.

(** One rank. *)
Section One.
  Variable K : ofield.
  Variable c : csr K.
  Variable n : nat.
  Hypothesis Hcs : distributed_rows n [c].

  Lemma one_range : c_range c = seq 0 n.
  Proof.
    destruct Hcs as [[Hd Hp] H]. simpl in Hd, Hp. rewrite app_nil_r in *. destruct (H c (or_introl eq_refl)) as [_ [_ [Hs _]]].
    apply sorted_unique; auto. apply seq_sorted. intros x. rewrite Hp, in_seq. lia.
  Qed.
  Lemma one_needs : forall p q, ~ needs [c] p q.
  Proof. intros p q H. destruct (needs_lt H) as [H1 H2]. simpl in *. destruct H as [H _]. lia. Qed.

  Lemma one_ready : forall d order halo, amgx_ready [c] 0 c d order halo ->
    order = seq 0 n /\ halo = [] /\ new_ids (c_range c) order halo = seq 0 n /\ a_neighbors d = [] /\
    (forall i j, In (i, j) (a_row_map d) <-> i = j /\ i < n) /\
    forall rows rows', csr_holds c rows -> csr_holds (a_matrix d) rows' -> length rows' = length rows /\
      forall i, i < n -> Permutation (nth i rows' []) (nth i rows []) /\ StronglySorted le (map fst (nth i rows' [])).
  Proof.
    intros d order halo HR. pose proof one_range as Hrg.
    assert (Ho : order = seq 0 n).
    { destruct (ar_order HR) as [sent [-> Hs]]. rewrite Hrg, seq_length in *. unfold row_order.
      assert (Hnil : forall i, existsb (Nat.eqb i) sent = false).
      { intros i. destruct (existsb (Nat.eqb i) sent) eqn:E; auto. exfalso. apply existsb_exists in E. destruct E as [x [Hx E]]. apply Nat.eqb_eq in E. subst x.
        apply Hs in Hx. destruct Hx as [_ [q [cq [Hq [H1 _]]]]]. destruct q as [|q]; [auto|]. destruct q; discriminate. }
      rewrite (filter_all _ (seq 0 n)) by (intros; rewrite Hnil; auto). rewrite filter_none by auto. apply app_nil_r. }
    assert (Hh : halo = []).
    { destruct halo as [|g h]; auto. exfalso. destruct (proj1 (proj2 (ar_halo HR) g) (or_introl eq_refl)) as [H1 H2]. apply H2. rewrite Hrg.
      destruct Hcs as [_ H]. destruct (H c (or_introl eq_refl)) as [_ [_ [_ [_ H3]]]]. apply in_seq. specialize (H3 g H1). lia. }
    assert (Hi : new_ids (c_range c) order halo = seq 0 n).
    { subst. unfold new_ids. rewrite app_nil_r, Hrg. apply (@list_ext nat _ _ 0); [rewrite map_length; auto|]. intros i Hi. rewrite map_length in Hi.
      rewrite (nth_map_lt _ (seq 0 n) 0 0) by auto. rewrite seq_length in Hi. rewrite !seq_nth; rewrite ?seq_nth by auto; auto. }
    split; auto. split; auto. split; auto. split; [|split].
    - destruct (a_neighbors d) as [|q l] eqn:E; auto. exfalso. apply (@one_needs q 0). apply (proj2 (ar_neighbors HR)). rewrite E. simpl; auto.
    - intros i j. assert (Hiff : In (i, j) (a_row_map d) <-> In (i, j) (combine order (seq 0 (length (c_range c))))).
      { split; apply Permutation_in; [|apply Permutation_sym]; apply (ar_row_map HR). }
      rewrite Hiff, Ho, Hrg, seq_length. split.
      + intros H. apply In_nth_error in H. destruct H as [k H]. apply nth_error_combine in H. destruct H as [H1 H2]. assert (k < n) by (apply nth_error_lt in H1; rewrite seq_length in H1; auto).
        rewrite nth_error_seq in H1, H2 by auto. injection H1 as <-. injection H2 as <-. auto.
      + intros [<- H]. apply (@nth_error_combine_in _ _ _ _ i); apply (@nth_error_seq n 0 i); auto.
    - intros rows rows' H1 H2. destruct (ar_matrix HR) as [r1 [r2 [G1 [G2 [G3 G4]]]]].
      rewrite (csr_rows_unique H1 G1), (csr_rows_unique H2 G2). split; auto. intros i Hin.
      assert (Hk : nth_error order i = Some i) by (rewrite Ho, nth_error_seq; auto).
      destruct (G4 i i Hk) as [P1 [P2 [P3 _]]]. split; auto. rewrite Hi in *.
      replace (nth i r2 []) with (global_row (seq 0 n) (nth i r2 [])); auto.
      unfold global_row. rewrite <- (map_id (nth i r2 [])) at 2. apply map_ext_in. intros [g v] He. apply P2 in He. rewrite seq_length in He. simpl in *.
      rewrite seq_nth; auto.
  Qed.
End One.
