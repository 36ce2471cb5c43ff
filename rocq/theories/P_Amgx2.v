(** Proofs about the communication maps that the AMGX solver builds. *)
From Coq Require Import List Arith Lia Bool Permutation Sorted Field.
From Verif Require Import Base OField Mat M_Perm S_Perm P_Perm M_SpProd S_SpProd M_Csr S_Csr P_SpProd P_Csr P_Csr2 P_Csr3 P_Csr4 M_Amgx S_Amgx P_Amgx.
Import ListNotations.
Set Implicit Arguments.
Open Scope nat_scope.

Lemma mapM_exists : forall A B (f : A -> outcome B) (P : A -> B -> Prop) l, (forall a, In a l -> exists b, f a = Ok b /\ P a b) ->
  exists bs, mapM f l = Ok bs /\ Forall2 P l bs.
Proof.
  induction l as [|a l IH]; intros H; simpl.
  - exists []. split; auto.
  - destruct (H a) as [b [E Hb]]; [simpl; auto|]. rewrite E. simpl. destruct IH as [bs [E2 F]]; [intros; apply H; simpl; auto|]. rewrite E2. simpl.
    exists (b :: bs). split; auto.
Qed.
Lemma Forall2_nth : forall A B (P : A -> B -> Prop) l l' k a, Forall2 P l l' -> nth_error l k = Some a -> exists b, nth_error l' k = Some b /\ P a b.
Proof.
  intros A B P l l' k a H. revert k. induction H as [|x y l l' Hxy HF IH]; intros [|k] Hk; simpl in *; try discriminate; eauto.
  injection Hk as ->. eauto.
Qed.
Lemma Forall2_nth2 : forall A B (P : A -> B -> Prop) l l' k a b, Forall2 P l l' -> nth_error l k = Some a -> nth_error l' k = Some b -> P a b.
Proof. intros A B P l l' k a b H H1 H2. destruct (Forall2_nth _ H H1) as [b' [E Hb]]. congruence. Qed.
Lemma Forall2_length' : forall A B (P : A -> B -> Prop) l l', Forall2 P l l' -> length l = length l'.
Proof. induction 1; simpl; auto. Qed.

(** ** Sets *)
Lemma set_insert_in : forall x l y, In y (set_insert x l) <-> y = x \/ In y l.
Proof.
  induction l as [|z l IH]; intros y; simpl; [intuition|]. destruct (Nat.ltb_spec x z); [simpl; intuition|].
  destruct (Nat.eqb_spec x z) as [->|Hne]; simpl; [intuition|]. rewrite IH. intuition.
Qed.
Lemma set_insert_sorted : forall x l, StronglySorted lt l -> StronglySorted lt (set_insert x l).
Proof.
  intros x l H. induction H as [|z l Hl IH Hz]; simpl; [repeat constructor|]. destruct (Nat.ltb_spec x z) as [H1|H1].
  - constructor; [constructor; auto|]. constructor; auto. eapply Forall_impl; [|exact Hz]. simpl. intros; lia.
  - destruct (Nat.eqb_spec x z) as [->|Hne]; [constructor; auto|]. constructor; auto. rewrite Forall_forall in *. intros y Hy.
    apply set_insert_in in Hy. destruct Hy as [->|Hy]; [lia|auto].
Qed.
Lemma recv_set_spec : forall m rows cols, (forall g, In g rows -> g < m) ->
  StronglySorted lt (recv_set m rows cols) /\ forall g, In g (recv_set m rows cols) <-> In g cols /\ In g rows.
Proof.
  intros m rows cols Hm. unfold recv_set.
  assert (H : forall l s, StronglySorted lt s -> let s' := fold_left (fun s col => if mem (index_set m rows) col then set_insert col s else s) l s in
    StronglySorted lt s' /\ forall g, In g s' <-> In g s \/ (In g l /\ In g rows)).
  { induction l as [|col l IH]; intros s Hs; simpl.
    - split; auto. intros g. tauto.
    - assert (Hc : mem (index_set m rows) col = true <-> In col rows) by (rewrite mem_In, index_set_in; split; [tauto|auto]).
      destruct (mem (index_set m rows) col) eqn:E.
      + destruct (IH (set_insert col s)) as [H1 H2]; [apply set_insert_sorted; auto|]. split; auto. intros g. rewrite H2, set_insert_in.
        assert (In col rows) by (apply Hc; auto). intuition (subst; auto).
      + destruct (IH s Hs) as [H1 H2]. split; auto. intros g. rewrite H2.
        assert (~ In col rows) by (intros Hi; apply Hc in Hi; congruence). intuition (subst; auto; contradiction). }
  destruct (H cols [] (SSorted_nil lt)) as [H1 H2]. split; auto. intros g. rewrite H2. simpl. tauto.
Qed.

Lemma others_in : forall n p q, In q (others n p) <-> q < n /\ q <> p.
Proof. intros n p q. unfold others. rewrite filter_In, in_seq, negb_true_iff, Nat.eqb_neq. lia. Qed.
Lemma others_sorted : forall n p, StronglySorted lt (others n p).
Proof. intros. apply filter_sorted, seq_sorted. Qed.

Lemma send_halo_ids : forall range cols, map (fun j => nth j range 0) (send_halo range cols) = filter (mem cols) range.
Proof.
  intros range cols. unfold send_halo. transitivity (filter (mem cols) (map (fun j => nth j range 0) (seq 0 (length range)))); [rewrite filter_map_comm|rewrite map_nth_all]; auto.
Qed.

Lemma nonempty_ex : forall A (l : list A), (0 <? length l) = true <-> exists x, In x l.
Proof. intros A [|a l]; simpl; split; intros H; try discriminate; eauto. destruct H as [x []]. Qed.

Section Setup.
  Variable K : ofield.
  Variable cs : list (csr K).
  Variable n : nat.
  Hypothesis Hcs : distributed_rows n cs.

  Lemma cs_facts : forall p c, nth_error cs p = Some c -> c_m c = n /\ c_n c = n /\ StronglySorted lt (c_range c) /\
    (exists rows, csr_holds c rows) /\ (forall g, In g (c_col c) -> g < n) /\ (forall g, In g (c_range c) -> g < n).
  Proof.
    intros p c Hp. pose proof (nth_error_In _ _ Hp) as Hi. destruct Hcs as [[_ HP] H]. destruct (H c Hi) as [H1 [H2 [H3 [H4 H5]]]].
    repeat (split; [assumption|]). intros g Hg. apply HP. apply in_concat. exists (c_range c). split; auto. apply in_map. auto.
  Qed.
  Lemma buffer_columns : forall p c, nth_error cs p = Some c -> columns_of (pattern_buffer c) = c_col c /\ rows_of (pattern_buffer c) = c_range c /\
    firstn (c_nnz c) (c_col c) = c_col c.
  Proof.
    intros p c Hp. destruct (cs_facts _ Hp) as [_ [_ [_ [[rows Hr] _]]]].
    assert (E : firstn (c_nnz c) (c_col c) = c_col c).
    { replace (c_nnz c) with (length (c_col c)); [apply firstn_all|]. rewrite (cs_col Hr), (cs_nnz Hr), map_length. auto. }
    unfold pattern_buffer, columns_of, rows_of. cbn [app nth]. rewrite E. cbn [plus skipn]. split; [|split]; auto.
    - rewrite skipn_app, skipn_all, Nat.sub_diag. auto.
    - rewrite firstn_app, firstn_all, Nat.sub_diag. simpl. apply app_nil_r.
  Qed.
  Lemma nth_patterns : forall p c, nth_error cs p = Some c -> nth p (map pattern_buffer cs) [] = pattern_buffer c.
  Proof. intros p c Hp. apply nth_error_nth. rewrite nth_error_map, Hp. auto. Qed.

  (** The columns of p that q owns. *)
  Definition share (p q : nat) : list nat :=
    match nth_error cs p, nth_error cs q with Some cp, Some cq => filter (mem (c_col cp)) (c_range cq) | _, _ => [] end.
  Lemma share_in : forall p q g, In g (share p q) <-> exists cp cq, nth_error cs p = Some cp /\ nth_error cs q = Some cq /\ In g (c_col cp) /\ In g (c_range cq).
  Proof.
    intros p q g. unfold share. destruct (nth_error cs p) as [cp|]; [|split; [intros []|intros [? [? [H _]]]; discriminate]].
    destruct (nth_error cs q) as [cq|]; [|split; [intros []|intros [? [? [_ [H _]]]]; discriminate]].
    rewrite filter_In, mem_In. split.
    - intros [H1 H2]. exists cp, cq. auto.
    - intros [? [? [E1 [E2 [H1 H2]]]]]. injection E1 as <-. injection E2 as <-. auto.
  Qed.
  Lemma share_ids : forall p q, shared_ids cs p q (share p q).
  Proof.
    intros p q. split; [|apply share_in]. unfold share. destruct (nth_error cs p) as [cp|]; [|constructor].
    destruct (nth_error cs q) as [cq|] eqn:E; [|constructor]. apply filter_sorted. apply (cs_facts _ E).
  Qed.
  Lemma share_needs : forall p q, p <> q -> ((0 <? length (share p q)) = true <-> needs cs p q).
  Proof.
    intros p q Hne. rewrite nonempty_ex. unfold needs. split.
    - intros [g Hg]. apply share_in in Hg. destruct Hg as [cp [cq H]]. split; auto. exists cp, cq, g. auto.
    - intros [_ [cp [cq [g H]]]]. exists g. apply share_in. eauto.
  Qed.

  (** Which rows a rank sends to whom. *)
  Definition send_list (p : nat) (c : csr K) (i : nat) : list nat := send_halo (c_range c) (columns_of (nth i (map pattern_buffer cs) [])).
  Lemma send_list_ids : forall p c i, nth_error cs p = Some c -> i < length cs -> map (fun j => nth j (c_range c) 0) (send_list p c i) = share i p.
  Proof.
    intros p c i Hp Hi. unfold send_list. destruct (nth_error cs i) as [ci|] eqn:E; [|apply nth_error_None in E; lia].
    rewrite (nth_patterns _ E). rewrite (proj1 (buffer_columns _ E)). rewrite send_halo_ids. unfold share. rewrite E, Hp. auto.
  Qed.
  Lemma send_list_lt : forall p c i j, In j (send_list p c i) -> j < length (c_range c).
  Proof. intros p c i j H. unfold send_list, send_halo in H. apply filter_In in H. destruct H as [H _]. apply in_seq in H. lia. Qed.
  Lemma recv_list : forall p c i, nth_error cs p = Some c -> i < length cs ->
    recv_set (c_m c) (rows_of (nth i (map pattern_buffer cs) [])) (firstn (c_nnz c) (c_col c)) = share p i.
  Proof.
    intros p c i Hp Hi. destruct (nth_error cs i) as [ci|] eqn:E; [|apply nth_error_None in E; lia].
    rewrite (nth_patterns _ E). destruct (buffer_columns _ E) as [_ [-> _]]. destruct (buffer_columns _ Hp) as [_ [_ ->]].
    destruct (cs_facts _ Hp) as [Hm _]. destruct (cs_facts _ E) as [_ [_ [Hs [_ [_ Hr]]]]].
    destruct (@recv_set_spec (c_m c) (c_range ci) (c_col c)) as [H1 H2]; [rewrite Hm; auto|].
    apply sorted_unique; auto; [apply share_ids|]. intros g. rewrite H2, share_in. split.
    - intros [G1 G2]. exists c, ci. auto.
    - intros [? [? [E1 [E2 [G1 G2]]]]]. rewrite Hp in E1. injection E1 as <-. rewrite E in E2. injection E2 as <-. auto.
  Qed.

  (** The ranks that need rows of p, and the ranks p needs. *)
  Definition receivers (p : nat) : list nat := filter (fun i => 0 <? length (share i p)) (others (length cs) p).
  Definition senders (p : nat) : list nat := filter (fun i => 0 <? length (share p i)) (others (length cs) p).
  Lemma needs_lt : forall p q, needs cs p q -> p < length cs /\ q < length cs.
  Proof. intros p q [_ [cp [cq [g [H1 [H2 _]]]]]]. split; eapply nth_error_lt; eauto. Qed.
  Lemma receivers_in : forall p q, In q (receivers p) <-> needs cs q p.
  Proof.
    intros p q. unfold receivers. rewrite filter_In, others_in. split.
    - intros [[H1 H2] H3]. apply share_needs in H3; auto.
    - intros H. destruct (needs_lt H). assert (q <> p) by (apply H). split; auto. apply share_needs; auto.
  Qed.
  Lemma senders_in : forall p q, In q (senders p) <-> needs cs p q.
  Proof.
    intros p q. unfold senders. rewrite filter_In, others_in. split.
    - intros [[H1 H2] H3]. apply share_needs in H3; auto.
    - intros H. destruct (needs_lt H). assert (p <> q) by (apply H). split; auto. apply share_needs; auto.
  Qed.

  Lemma sends_eq : forall p c, nth_error cs p = Some c ->
    filter (fun x : nat * list nat => 0 <? length (snd x)) (map (fun i => (i, send_list p c i)) (others (length cs) p)) =
    map (fun i => (i, send_list p c i)) (receivers p).
  Proof.
    intros p c Hp. rewrite filter_map_comm. f_equal. unfold receivers. apply filter_ext_in. intros i Hi. apply others_in in Hi. simpl.
    rewrite <- (send_list_ids _ Hp) by tauto. rewrite map_length. auto.
  Qed.
  Lemma recvs_eq : forall p c, nth_error cs p = Some c ->
    filter (fun l : list nat => 0 <? length l)
      (map (fun i => recv_set (c_m c) (rows_of (nth i (map pattern_buffer cs) [])) (firstn (c_nnz c) (c_col c))) (others (length cs) p)) =
    map (share p) (senders p).
  Proof.
    intros p c Hp. rewrite (map_ext_in _ (share p)); [|intros i Hi; apply others_in in Hi; apply recv_list; tauto]. rewrite filter_map_comm. auto.
  Qed.

  Lemma rank_eq : forall debug std_sort p c, nth_error cs p = Some c ->
    amgx_rank debug std_sort (map pattern_buffer cs) p c =
    (let! recv := mapM (rd (map (share p) (senders p))) (seq 0 (length (receivers p))) in
     let! (halo_map, row_map, matrix) := csr_to_amgx debug std_sort (nodup Nat.eq_dec (concat (map (send_list p c) (receivers p)))) c in
     Ok (mkAmgx (receivers p) (map (map (get row_map)) (map (send_list p c) (receivers p))) (map (map (get halo_map)) recv) row_map matrix)).
  Proof.
    intros debug std_sort p c Hp. unfold amgx_rank. rewrite map_length. fold (send_list p c).
    change (fun i => (i, send_halo (c_range c) (columns_of (nth i (map pattern_buffer cs) [])))) with (fun i => (i, send_list p c i)).
    rewrite (sends_eq _ Hp), (recvs_eq _ Hp). rewrite !map_map. simpl. rewrite map_id. auto.
  Qed.

  (** More ranks need rows of p than p needs others: recv_halo is read past its end. *)
  Lemma rank_overrun : forall debug std_sort p c, nth_error cs p = Some c -> length (senders p) < length (receivers p) ->
    amgx_rank debug std_sort (map pattern_buffer cs) p c = UB.
  Proof.
    intros debug std_sort p c Hp Hl. rewrite (rank_eq _ _ _ Hp).
    assert (H : forall l a m, length l < a + m -> mapM (@rd (list nat) l) (seq a m) = UB \/ m = 0).
    { intros l a m. revert a. induction m as [|m IH]; intros a Ha; [auto|left]. simpl. destruct (Nat.lt_ge_cases a (length l)) as [H|H].
      - destruct (@rd_in _ l a H) as [x [E _]]. rewrite E. simpl. destruct (IH (S a)) as [E2| ->]; [lia|rewrite E2; auto|]. lia.
      - unfold rd. replace (nth_error l a) with (@None (list nat)) by (symmetry; apply nth_error_None; auto). auto. }
    destruct (H (map (share p) (senders p)) 0 (length (receivers p))) as [E|E]; [rewrite map_length; lia|rewrite E; auto|lia].
  Qed.

  Hypothesis Hsym : forall p q, needs cs p q -> needs cs q p.

  Lemma senders_receivers : forall p, senders p = receivers p.
  Proof.
    intros p. apply sorted_unique; try apply filter_sorted, others_sorted. intros q. rewrite senders_in, receivers_in. split; apply Hsym.
  Qed.

  Lemma map_get_stands : forall ids N own m (globals : list nat) (old : list nat) (f : nat -> nat),
    globals = map f old -> (forall j, In j old -> nth_error ids (get m j) = Some (f j) /\ (get m j <? N) = own) ->
    stands_for ids N own globals (map (get m) old).
  Proof.
    intros ids N own m globals old f -> H. unfold stands_for. induction old as [|j old IH]; simpl; constructor; auto.
    - apply H. simpl; auto.
    - apply IH. intros; apply H; simpl; auto.
  Qed.

  Lemma rank_ready : forall debug std_sort p c, std_sort_contract std_sort -> nth_error cs p = Some c ->
    exists d order halo, amgx_rank debug std_sort (map pattern_buffer cs) p c = Ok d /\ amgx_ready cs p c d order halo.
  Proof.
    intros debug std_sort p c Hsort Hp. rewrite (rank_eq _ _ _ Hp). rewrite senders_receivers.
    assert (E : mapM (rd (map (share p) (receivers p))) (seq 0 (length (receivers p))) = Ok (map (share p) (receivers p))).
    { rewrite <- (map_length (share p)). rewrite (@mapM_nth_seq _ _ (rd (map (share p) (receivers p))) (map (share p) (receivers p)) (fun i => nth i (map (share p) (receivers p)) [])).
      - rewrite map_nth_all. auto.
      - intros i Hi. unfold rd. rewrite (nth_error_nth_lt (map (share p) (receivers p)) []) by auto. auto. }
    rewrite E. cbn [bind].
    destruct (cs_facts _ Hp) as [Hm [Hn [Hs [[rows Hr] [Hcol Hrg]]]]].
    set (sent := nodup Nat.eq_dec (concat (map (send_list p c) (receivers p)))).
    assert (Hsent : forall i, In i sent <-> i < length (c_range c) /\ exists q cq, q <> p /\ nth_error cs q = Some cq /\ In (nth i (c_range c) 0) (c_col cq)).
    { intros i. unfold sent. rewrite nodup_In, in_concat. split.
      - intros [l [Hl Hi]]. apply in_map_iff in Hl. destruct Hl as [q [<- Hq]]. split; [eapply send_list_lt; eauto|].
        apply receivers_in in Hq. pose proof (proj1 (needs_lt Hq)) as Hlt. assert (Hne : q <> p) by apply Hq.
        destruct (nth_error cs q) as [cq|] eqn:Eq; [|apply nth_error_None in Eq; lia]. exists q, cq. repeat (split; auto).
        unfold send_list, send_halo in Hi. apply filter_In in Hi. destruct Hi as [_ Hi]. apply mem_In in Hi.
        rewrite (nth_patterns _ Eq), (proj1 (buffer_columns _ Eq)) in Hi. auto.
      - intros [Hi [q [cq [Hne [Eq Hg]]]]]. exists (send_list p c q). split.
        + apply in_map. apply receivers_in. split; auto. exists cq, c, (nth i (c_range c) 0). repeat (split; auto). apply nth_In. auto.
        + unfold send_list, send_halo. apply filter_In. split; [apply in_seq; lia|]. apply mem_In.
          rewrite (nth_patterns _ Eq), (proj1 (buffer_columns _ Eq)). auto. }
    destruct (@csr_to_amgx_spec K debug std_sort sent c rows Hsort Hr Hs) as
      [hm [lm [c' [rows' [halo [E2 [Hc' [Em [En [Er [Ed [Hh [Hre [Hlm [G1 [G2 G3]]]]]]]]]]]]]]]].
    { rewrite Hn. auto. }
    { apply NoDup_nodup. }
    { intros i Hi. apply Hsent in Hi. rewrite (cs_rows Hr). tauto. }
    rewrite E2. cbn [bind]. rewrite (cs_rows Hr) in *.
    exists (mkAmgx (receivers p) (map (map (get lm)) (map (send_list p c) (receivers p))) (map (map (get hm)) (map (share p) (receivers p))) lm c'),
      (row_order (length (c_range c)) sent), halo. split; auto.
    set (ord := row_order (length (c_range c)) sent) in *.
    assert (Lord : length ord = length (c_range c)) by apply row_order_length.
    assert (Pord : Permutation ord (seq 0 (length (c_range c)))) by apply row_order_perm.
    constructor; cbn [a_neighbors a_send a_recv a_row_map a_matrix]; auto.
    - exists sent. auto.
    - exists rows, rows'. auto.
    - split; [apply filter_sorted, others_sorted|apply receivers_in].
    - rewrite !map_length. auto.
    - rewrite !map_length. auto.
    - intros k q new Hk Hnew. rewrite map_map, nth_error_map, Hk in Hnew. simpl in Hnew. injection Hnew as <-.
      apply nth_error_In, receivers_in in Hk. pose proof (proj1 (needs_lt Hk)) as Hlt.
      exists (share q p). split; [apply share_ids|].
      apply map_get_stands with (f := fun j => nth j (c_range c) 0); [rewrite (send_list_ids _ Hp); auto|]. intros j Hj. apply send_list_lt in Hj.
      assert (Hio : In j ord) by (eapply Permutation_in; [apply Permutation_sym; eauto|]; apply in_seq; lia).
      apply In_nth_error in Hio. destruct Hio as [k' Hk']. rewrite (G1 _ _ Hk'). pose proof (nth_error_lt _ _ Hk') as Hk2.
      unfold new_ids. split; [|apply Nat.ltb_lt; lia]. rewrite nth_error_app1 by (rewrite map_length; auto). rewrite nth_error_map, Hk'. auto.
    - intros k q new Hk Hnew. rewrite map_map, nth_error_map, Hk in Hnew. simpl in Hnew. injection Hnew as <-.
      apply nth_error_In, receivers_in, Hsym in Hk.
      exists (share p q). split; [apply share_ids|].
      apply map_get_stands with (f := fun g => g); [rewrite map_id; auto|]. intros g Hg. apply share_in in Hg. destruct Hg as [cp [cq [Ep [Eq [Hg1 Hg2]]]]].
      rewrite Hp in Ep. injection Ep as <-.
      assert (Hnot : ~ In g (c_range c)).
      { intros Hi. destruct Hcs as [[HD _] _]. assert (Hne : p <> q) by apply Hk.
        apply Hne. apply (@NoDup_concat_unique _ (map (@c_range K) cs) p q g HD).
        - rewrite map_length. eapply nth_error_lt; eauto.
        - rewrite map_length. eapply nth_error_lt; eauto.
        - rewrite (nth_error_nth _ _ _ (map_nth_error (@c_range K) p cs Hp)). auto.
        - rewrite (nth_error_nth _ _ _ (map_nth_error (@c_range K) q cs Eq)). auto. }
      assert (Hin : In g halo) by (apply Hh; auto). apply In_nth_error in Hin. destruct Hin as [t Ht]. rewrite (G3 _ _ Ht).
      unfold new_ids. split; [|apply Nat.ltb_ge; lia]. rewrite nth_error_app2 by (rewrite map_length; lia). rewrite map_length.
      replace (length (c_range c) + t - length ord) with t by lia. auto.
  Qed.

  Lemma setup_ready : forall debug std_sort, std_sort_contract std_sort ->
    exists datas, amgx_setup debug std_sort cs = Ok datas /\ length datas = length cs /\
      forall p c d, nth_error cs p = Some c -> nth_error datas p = Some d -> exists order halo, amgx_ready cs p c d order halo.
  Proof.
    intros debug std_sort Hsort. unfold amgx_setup.
    destruct (@mapM_exists nat (amgx_data K) (fun r => let! c := rd cs r in amgx_rank debug std_sort (map pattern_buffer cs) r c)
      (fun r d => exists c order halo, nth_error cs r = Some c /\ amgx_ready cs r c d order halo) (seq 0 (length cs))) as [datas [E F]].
    - intros r Hr. apply in_seq in Hr. destruct (@rd_in _ cs r) as [c [E1 E2]]; [lia|]. rewrite E1. cbn [bind].
      destruct (@rank_ready debug std_sort r c Hsort E2) as [d [order [halo [E3 H]]]]. exists d. split; auto. eauto.
    - exists datas. split; auto. pose proof (Forall2_length' F) as HL. rewrite seq_length in HL. split; auto.
      intros p c d Hp Hd. assert (p < length cs) by (eapply nth_error_lt; eauto).
      assert (Hsq : nth_error (seq 0 (length cs)) p = Some p) by (rewrite nth_error_seq; auto).
      destruct (Forall2_nth2 _ F Hsq Hd) as [c' [order [halo [Hc' H']]]]. rewrite Hp in Hc'. injection Hc' as <-. eauto.
  Qed.
End Setup.
