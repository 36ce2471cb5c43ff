(** Proofs about the device memory of M_Dev. *)
From Coq Require Import List Arith Lia Bool Permutation.
From Verif Require Import Base OField M_Csr M_Dev S_Dev P_AmgxLife.
Import ListNotations.
Set Implicit Arguments.
Open Scope nat_scope.

Definition cnt (id : nat) (l : list nat) : nat := count_occ Nat.eq_dec l id.
Definition opt (p : pointer) : list nat := match p with Some id => [id] | None => [] end.
Definition dev_ids (d : device) : list nat := opt (d_val d) ++ opt (d_col d) ++ opt (d_ptr d) ++ opt (d_descr d).
Definition owned (objs : list (option device)) : list nat := flat_map (fun o => match o with Some d => dev_ids d | None => [] end) objs.

Lemma cnt_app : forall id l l', cnt id (l ++ l') = cnt id l + cnt id l'.
Proof. intros. apply count_occ_app. Qed.
Lemma cnt_in : forall id l, In id l <-> 0 < cnt id l.
Proof. intros. unfold cnt. rewrite (count_occ_In Nat.eq_dec). lia. Qed.
Lemma cnt_nil : forall id, cnt id [] = 0.
Proof. reflexivity. Qed.
Lemma cnt_cons : forall id a l, cnt id (a :: l) = (if Nat.eq_dec a id then 1 else 0) + cnt id l.
Proof. intros. unfold cnt. simpl. destruct (Nat.eq_dec a id); auto. Qed.
Lemma cnt_dev : forall id d, cnt id (dev_ids d) = cnt id (opt (d_val d)) + cnt id (opt (d_col d)) + cnt id (opt (d_ptr d)) + cnt id (opt (d_descr d)).
Proof. intros. unfold dev_ids. rewrite !cnt_app. lia. Qed.
Lemma owned_snoc : forall id objs d, cnt id (owned (objs ++ [Some d])) = cnt id (owned objs) + cnt id (dev_ids d).
Proof. intros. unfold owned. rewrite flat_map_app, cnt_app. simpl. rewrite app_nil_r. auto. Qed.
Lemma owned_upd : forall id objs i d o, nth_error objs i = Some (Some d) ->
  cnt id (owned (upd objs i o)) + cnt id (dev_ids d) = cnt id (owned objs) + cnt id (match o with Some d' => dev_ids d' | None => [] end).
Proof.
  intros id objs. induction objs as [|a objs IH]; intros [|i] d o H; try discriminate; unfold owned in *;
    cbn [flat_map upd nth_error] in *.
  - injection H as ->. rewrite !cnt_app. lia.
  - rewrite !cnt_app. specialize (IH i d o H). lia.
Qed.
Lemma owned_drop : forall id objs i d, nth_error objs i = Some (Some d) -> cnt id (owned (upd objs i None)) + cnt id (dev_ids d) = cnt id (owned objs).
Proof. intros id objs i d H. rewrite (@owned_upd id objs i d None H). rewrite cnt_nil. lia. Qed.
Lemma owned_in : forall id objs i d, nth_error objs i = Some (Some d) -> cnt id (dev_ids d) <= cnt id (owned objs).
Proof. intros id objs i d H. pose proof (@owned_drop id objs i d H). lia. Qed.
Lemma owned_two : forall id objs i j d d', i <> j -> nth_error objs i = Some (Some d) -> nth_error objs j = Some (Some d') ->
  cnt id (dev_ids d) + cnt id (dev_ids d') <= cnt id (owned objs).
Proof.
  intros id objs i j d d' Hn Hi Hj. pose proof (@owned_drop id objs i d Hi) as E.
  assert (Hj' : nth_error (upd objs i None) j = Some (Some d')). { rewrite nth_error_upd_neq; auto. }
  pose proof (@owned_in id _ _ _ Hj'). lia.
Qed.

Section P.
  Variable K : ofield.
  Implicit Types (h : heap K) (s : state K).
  Definition ids h : list nat := map fst (h_cells h).
  Record heap_ok h : Prop := { hk_nodup : NoDup (ids h); hk_next : forall id, In id (ids h) -> id < h_next h }.

  Lemma lookup_in : forall h id, lookup h id <> None <-> In id (ids h).
  Proof.
    intros h id. unfold lookup, ids. induction (h_cells h) as [|[a c] l IH]; simpl.
    - split; [intros H; exfalso; auto|tauto].
    - destruct (a =? id) eqn:E; simpl.
      + apply Nat.eqb_eq in E. subst. split; auto. discriminate.
      + apply Nat.eqb_neq in E. rewrite IH. split; auto. intros [H|H]; auto. congruence.
  Qed.
  Lemma lookup_none : forall h id, lookup h id = None <-> ~ In id (ids h).
  Proof. intros h id. rewrite <- lookup_in. destruct (lookup h id); split; try tauto; intros; try discriminate. exfalso. apply H. discriminate. Qed.
  Lemma cnt_le_1 : forall h id, heap_ok h -> cnt id (ids h) <= 1.
  Proof. intros h id H. destruct H as [H _]. rewrite (NoDup_count_occ Nat.eq_dec) in H. apply H. Qed.
  Lemma cnt_fresh : forall h, heap_ok h -> cnt (h_next h) (ids h) = 0.
  Proof.
    intros h H. destruct (cnt (h_next h) (ids h)) eqn:E; auto. assert (In (h_next h) (ids h)) by (apply cnt_in; lia).
    apply (hk_next H) in H0. lia.
  Qed.

  (** What an allocation changes. *)
  Record grown h h' (p : pointer) : Prop := {
    gr_ok : heap_ok h';
    gr_cnt : forall id, cnt id (ids h') = cnt id (ids h) + cnt id (opt p);
    gr_lookup : forall id, In id (ids h) -> lookup h' id = lookup h id;
    gr_new : forall id, In id (ids h) -> ~ In id (opt p)
  }.
  (** What a release changes. *)
  Record shrunk h h' (p : pointer) : Prop := {
    sh_ok : heap_ok h';
    sh_cnt : forall id, cnt id (ids h') + cnt id (opt p) = cnt id (ids h);
    sh_lookup : forall id, ~ In id (opt p) -> lookup h' id = lookup h id
  }.
  (** What writing a buffer changes. *)
  Record written h h' (p : pointer) : Prop := {
    wt_ok : heap_ok h';
    wt_cnt : forall id, cnt id (ids h') = cnt id (ids h);
    wt_lookup : forall id, ~ In id (opt p) -> lookup h' id = lookup h id
  }.

  Lemma grown_none : forall h, heap_ok h -> grown h h None.
  Proof. intros h H. split; auto; intros; simpl; try rewrite cnt_nil; auto. Qed.
  Lemma alloc_ok : forall h c p h', heap_ok h -> alloc c h = (p, h') -> grown h h' p /\ exists id, p = Some id /\ lookup h' id = Some c.
  Proof.
    intros h c p h' H E. unfold alloc in E. injection E as <- <-. pose proof (cnt_fresh H) as Hf.
    assert (Hn : forall id, In id (ids h) -> id <> h_next h) by (intros id Hi; apply (hk_next H) in Hi; lia).
    split; [split|].
    - split; cbn [ids h_cells h_next map fst].
      + constructor; [|apply (hk_nodup H)]. intros Hi. apply (Hn _ Hi). auto.
      + intros id [<-|Hi]; [lia|]. apply (hk_next H) in Hi. lia.
    - intros id. unfold ids. cbn [h_cells map fst opt]. rewrite !cnt_cons, cnt_nil. lia.
    - intros id Hi. unfold lookup. cbn [h_cells find fst]. destruct (h_next h =? id) eqn:E; auto. apply Nat.eqb_eq in E. apply Hn in Hi. congruence.
    - intros id Hi [Hx|[]]. apply Hn in Hi. congruence.
    - exists (h_next h). split; auto. unfold lookup. cbn [h_cells find fst]. rewrite Nat.eqb_refl. auto.
  Qed.
  Lemma malloc_vals_ok : forall h l p h', heap_ok h -> malloc_vals l h = (p, h') -> grown h h' p /\ values_at h' p l.
  Proof.
    intros h l p h' H E. destruct l as [|a l]; cbn [malloc_vals] in E.
    - injection E as <- <-. split; [apply grown_none|]; auto. reflexivity.
    - destruct (alloc_ok H E) as [G [id [-> L]]]. split; auto. split; auto. discriminate.
  Qed.
  Lemma malloc_ints_ok : forall h l p h', heap_ok h -> malloc_ints l h = (p, h') -> grown h h' p /\ indices_at h' p l.
  Proof.
    intros h l p h' H E. destruct l as [|a l]; cbn [malloc_ints] in E.
    - injection E as <- <-. split; [apply grown_none|]; auto. reflexivity.
    - destruct (alloc_ok H E) as [G [id [-> L]]]. split; auto. split; auto. discriminate.
  Qed.
  Lemma malloc_junk_ok : forall h n p h', heap_ok h -> malloc_junk n h = (p, h') ->
    grown h h' p /\ (match p with Some id => n <> 0 /\ lookup h' id = Some CJunk | None => n = 0 end).
  Proof.
    intros h n p h' H E. destruct n as [|n]; cbn [malloc_junk] in E.
    - injection E as <- <-. split; [apply grown_none|]; auto.
    - destruct (alloc_ok H E) as [G [id [-> L]]]. split; auto.
  Qed.
  Lemma ids_without : forall h id, map fst (without id h) = filter (fun x => negb (x =? id)) (ids h).
  Proof.
    intros h id. unfold without, ids. induction (h_cells h) as [|[a c] l IH]; simpl; auto. destruct (a =? id); simpl; auto. f_equal; auto.
  Qed.
  Lemma cnt_filter : forall id x l, cnt x (filter (fun y => negb (y =? id)) l) = if Nat.eq_dec x id then 0 else cnt x l.
  Proof.
    intros id x l. induction l as [|a l IH]; simpl; [destruct (Nat.eq_dec x id); auto|].
    destruct (a =? id) eqn:E; simpl; rewrite ?cnt_cons, IH.
    - apply Nat.eqb_eq in E. subst. destruct (Nat.eq_dec x id); auto. destruct (Nat.eq_dec id x); auto. congruence.
    - apply Nat.eqb_neq in E. destruct (Nat.eq_dec x id); auto. destruct (Nat.eq_dec a x); auto. congruence.
  Qed.
  Lemma find_filter : forall (l : list (nat * cell K)) x id, x <> id ->
    find (fun p => fst p =? x) (filter (fun p => negb (fst p =? id)) l) = find (fun p => fst p =? x) l.
  Proof.
    intros l x id H. induction l as [|[a c] l IH]; auto. cbn [filter find fst]. destruct (a =? id) eqn:E; cbn [negb].
    - apply Nat.eqb_eq in E. subst. destruct (id =? x) eqn:E2; auto. apply Nat.eqb_eq in E2. congruence.
    - cbn [find fst]. rewrite IH. auto.
  Qed.
  Lemma cuda_free_ok : forall h p, heap_ok h -> (forall id, cnt id (opt p) <= cnt id (ids h)) -> exists h', cuda_free p h = Ok h' /\ shrunk h h' p.
  Proof.
    intros h [id|] H Hc; cbn [cuda_free].
    - assert (Hin : In id (ids h)). { apply cnt_in. specialize (Hc id). cbn [opt] in Hc. rewrite cnt_cons in Hc. destruct (Nat.eq_dec id id); [lia|congruence]. }
      assert (Hl := Hin). apply lookup_in in Hl. unfold release. destruct (lookup h id) eqn:E; [|congruence]. eexists. split; [reflexivity|].
      split.
      + split; unfold ids; cbn [h_cells h_next].
        * rewrite ids_without. apply NoDup_filter. apply (hk_nodup H).
        * intros x Hx. rewrite ids_without in Hx. apply filter_In in Hx. apply (hk_next H). tauto.
      + intros x. unfold ids at 1. cbn [h_cells opt]. rewrite ids_without, cnt_filter, cnt_cons, cnt_nil.
        pose proof (cnt_le_1 x H). apply cnt_in in Hin. destruct (Nat.eq_dec x id), (Nat.eq_dec id x); subst; try congruence; lia.
      + intros x Hx. unfold lookup. cbn [h_cells]. unfold without. rewrite find_filter; auto. intros ->. apply Hx. simpl. auto.
    - exists h. split; [reflexivity|]. split; [assumption|intros; cbn [opt]; rewrite cnt_nil; lia|reflexivity].
  Qed.
  Lemma store_at_ok : forall h p c, heap_ok h -> (forall id, cnt id (opt p) <= cnt id (ids h)) ->
    exists h', store_at p c h = Ok h' /\ written h h' p /\ forall id, p = Some id -> lookup h' id = Some c.
  Proof.
    intros h [id|] c H Hc; cbn [store_at].
    - assert (Hin : In id (ids h)). { apply cnt_in. specialize (Hc id). cbn [opt] in Hc. rewrite cnt_cons in Hc. destruct (Nat.eq_dec id id); [lia|congruence]. }
      assert (Hl := Hin). apply lookup_in in Hl. unfold store. destruct (lookup h id) eqn:E; [|congruence]. eexists. split; [reflexivity|].
      assert (Hids : forall x, cnt x (id :: map fst (without id h)) = cnt x (ids h)).
      { intros x. rewrite cnt_cons, ids_without, cnt_filter. pose proof (cnt_le_1 x H). apply cnt_in in Hin.
        destruct (Nat.eq_dec x id), (Nat.eq_dec id x); subst; try congruence; lia. }
      split.
      + split.
        * split; unfold ids; cbn [h_cells h_next map fst].
          -- rewrite (NoDup_count_occ Nat.eq_dec). intros x. specialize (Hids x). unfold cnt in Hids. rewrite Hids. apply (cnt_le_1 x H).
          -- intros x Hx. apply (hk_next H). apply cnt_in. rewrite <- Hids. apply cnt_in. auto.
        * auto.
        * intros x Hx. unfold lookup. cbn [h_cells find fst]. assert (x <> id) by (intros ->; apply Hx; simpl; auto).
          destruct (id =? x) eqn:E2; [apply Nat.eqb_eq in E2; congruence|]; cbn [find]. unfold without. rewrite find_filter; auto.
      + intros x Hx. injection Hx as <-. unfold lookup. cbn [h_cells find fst]. rewrite Nat.eqb_refl. auto.
    - exists h. split; auto. split; [split; auto|]. intros. discriminate.
  Qed.

  (** Every live allocation is owned by exactly one object or lost. *)
  Record own s (L : list nat) : Prop := {
    ow_heap : heap_ok (s_heap s);
    ow_cnt : forall id, cnt id (ids (s_heap s)) = cnt id (owned (s_objects s)) + cnt id L
  }.
  Lemma own_start : own start [].
  Proof. split; [split|]; simpl; auto; [constructor|contradiction]. Qed.
  Lemma object_ok : forall s i d, object s i = Ok d <-> nth_error (s_objects s) i = Some (Some d).
  Proof. intros s i d. unfold object. destruct (nth_error (s_objects s) i) as [[d0|]|]; split; intros E; try discriminate; congruence. Qed.
  Lemma own_le : forall s L i d, own s L -> nth_error (s_objects s) i = Some (Some d) -> forall id, cnt id (dev_ids d) <= cnt id (ids (s_heap s)).
  Proof. intros s L i d H Hi id. rewrite (ow_cnt H). pose proof (@owned_in id _ _ _ Hi). lia. Qed.
  Lemma own_disjoint : forall s L i j d d' id, own s L -> i <> j -> nth_error (s_objects s) i = Some (Some d) ->
    nth_error (s_objects s) j = Some (Some d') -> In id (dev_ids d) -> ~ In id (dev_ids d').
  Proof.
    intros s L i j d d' id H Hn Hi Hj H1 H2. pose proof (@owned_two id _ i j d d' Hn Hi Hj). apply cnt_in in H1, H2.
    pose proof (cnt_le_1 id (ow_heap H)). rewrite (ow_cnt H) in H3. lia.
  Qed.
  Lemma own_snoc : forall s L h' d, own s L -> heap_ok h' -> (forall id, cnt id (ids h') = cnt id (ids (s_heap s)) + cnt id (dev_ids d)) ->
    own (mkState h' (s_objects s ++ [Some d])) L.
  Proof. intros s L h' d H H1 H2. split; auto. intros id. cbn [s_heap s_objects]. rewrite H2, owned_snoc, (ow_cnt H). lia. Qed.
  Lemma own_upd : forall s L h' i d o L', own s L -> heap_ok h' -> nth_error (s_objects s) i = Some (Some d) ->
    (forall id, cnt id (ids h') + cnt id (dev_ids d) = cnt id (ids (s_heap s)) + cnt id (match o with Some d' => dev_ids d' | None => [] end) + cnt id L') ->
    own (mkState h' (upd (s_objects s) i o)) (L ++ L').
  Proof.
    intros s L h' i d o L' H H1 Hi H2. split; auto. intros id. cbn [s_heap s_objects]. rewrite cnt_app. specialize (H2 id).
    pose proof (@owned_upd id _ i d o Hi). pose proof (ow_cnt H id). lia.
  Qed.
  Lemma own_weak : forall s L L', own s L -> (forall id, cnt id L = cnt id L') -> own s L'.
  Proof. intros s L L' [H1 H2] H. split; auto. intros id. rewrite H2, H. auto. Qed.

  Definition buf_ids (d : device) : list nat := opt (d_val d) ++ opt (d_col d) ++ opt (d_ptr d).
  Lemma new_buffers_ok : forall h (c : csr K) val col ptr h', heap_ok h -> new_buffers c h = (val, col, ptr, h') ->
    heap_ok h' /\ (forall id, cnt id (ids h') = cnt id (ids h) + cnt id (opt val) + cnt id (opt col) + cnt id (opt ptr)) /\
    (forall id, In id (ids h) -> lookup h' id = lookup h id) /\ values_at h' val (c_val c) /\ indices_at h' col (c_col c) /\ indices_at h' ptr (c_ptr c).
  Proof.
    intros h c val col ptr h' H E. unfold new_buffers in E. destruct (malloc_vals (c_val c) h) as [p1 h1] eqn:E1.
    destruct (malloc_ints (c_col c) h1) as [p2 h2] eqn:E2. destruct (malloc_ints (c_ptr c) h2) as [p3 h3] eqn:E3. injection E as <- <- <- <-.
    destruct (malloc_vals_ok _ H E1) as [G1 V1]. destruct (malloc_ints_ok _ (gr_ok G1) E2) as [G2 V2].
    destruct (malloc_ints_ok _ (gr_ok G2) E3) as [G3 V3].
    assert (M1 : forall id, In id (ids h) -> In id (ids h1)) by (intros id; rewrite !cnt_in, (gr_cnt G1); lia).
    assert (M2 : forall id, In id (ids h1) -> In id (ids h2)) by (intros id; rewrite !cnt_in, (gr_cnt G2); lia).
    split; [apply (gr_ok G3)|]. split; [intros id; rewrite (gr_cnt G3), (gr_cnt G2), (gr_cnt G1); lia|].
    split; [intros id Hi; rewrite (gr_lookup G3), (gr_lookup G2), (gr_lookup G1) by auto; auto|]. split; [|split]; auto.
    - destruct p1 as [id|]; cbn [values_at] in *; auto. destruct V1 as [V1 V1']. split; auto.
      assert (Hi : In id (ids h1)) by (apply lookup_in; congruence). rewrite (gr_lookup G3), (gr_lookup G2) by auto. auto.
    - destruct p2 as [id|]; cbn [indices_at] in *; auto. destruct V2 as [V2 V2']. split; auto.
      assert (Hi : In id (ids h2)) by (apply lookup_in; congruence). rewrite (gr_lookup G3) by auto. auto.
  Qed.
  Lemma attach_ok : forall h d d' h', heap_ok h -> attach d h = (d', h') ->
    heap_ok h' /\ (forall id, cnt id (ids h') + cnt id (dev_ids d) = cnt id (ids h) + cnt id (dev_ids d') + cnt id (opt (d_descr d))) /\
    (forall id, In id (ids h) -> lookup h' id = lookup h id) /\
    exists x, lookup h' x = Some CDescr /\
      d' = mkDevice (d_val d) (d_col d) (d_ptr d) true (Some x) (d_lnnz d) (d_nnz d) (d_m d) (d_n d) (d_range d) (d_domain d).
  Proof.
    intros h d d' h' H E. unfold attach in E. destruct (alloc CDescr h) as [p h1] eqn:E1. injection E as <- <-.
    destruct (alloc_ok H E1) as [G [x [-> Hx]]]. split; [apply (gr_ok G)|]. split; [|split].
    - intros id. rewrite (gr_cnt G), !cnt_dev. cbn [d_val d_col d_ptr d_descr]. lia.
    - apply (gr_lookup G).
    - exists x. auto.
  Qed.
  Lemma construct_ok : forall h (c : csr K) w d h', heap_ok h -> construct c w h = (d, h') ->
    heap_ok h' /\ (forall id, cnt id (ids h') = cnt id (ids h) + cnt id (dev_ids d)) /\ (forall id, In id (ids h) -> lookup h' id = lookup h id) /\
    (sound_csr c -> represents h' d (VMatrix c w w)).
  Proof.
    intros h c w d h' H E. unfold construct in E. destruct (new_buffers c h) as [[[val col] ptr] h1] eqn:E1.
    destruct (new_buffers_ok _ H E1) as [K1 [K2 [K3 [K4 [K5 K6]]]]]. destruct w.
    - destruct (attach_ok K1 E) as [A1 [A2 [A3 [x [A4 ->]]]]]. split; auto. split; [|split].
      + intros id. specialize (A2 id). rewrite !cnt_dev in *. cbn [d_val d_col d_ptr d_descr device_of opt] in *. rewrite ?cnt_nil, K2 in *. lia.
      + intros id Hi. rewrite A3; auto. apply cnt_in. apply cnt_in in Hi. rewrite K2. lia.
      + intros Hs. cbn. repeat (split; auto).
        * destruct val as [v|]; cbn in *; auto. destruct K4 as [K4 K4']. split; auto. rewrite A3; auto. apply lookup_in. congruence.
        * destruct col as [v|]; cbn in *; auto. destruct K5 as [K5 K5']. split; auto. rewrite A3; auto. apply lookup_in. congruence.
        * destruct ptr as [v|]; cbn in *; auto. destruct K6 as [K6 K6']. split; auto. rewrite A3; auto. apply lookup_in. congruence.
    - injection E as <- <-. split; auto. split; [|split]; auto.
      + intros id. rewrite cnt_dev. cbn [d_val d_col d_ptr d_descr device_of opt]. rewrite cnt_nil, K2. lia.
      + intros Hs. cbn. repeat (split; auto).
  Qed.

  (** Reading through pointers that are live never meets released memory. *)
  Lemma live_lookup : forall h p id, (forall x, cnt x (opt p) <= cnt x (ids h)) -> p = Some id -> lookup h id <> None.
  Proof. intros h p id H ->. apply lookup_in. apply cnt_in. specialize (H id). cbn [opt] in H. rewrite cnt_cons in H. destruct (Nat.eq_dec id id); [lia|congruence]. Qed.
  Lemma read_vals_alive : forall debug h p n, (forall x, cnt x (opt p) <= cnt x (ids h)) -> read_vals debug h p n <> Throw.
  Proof.
    intros debug h p n H. unfold read_vals. destruct (n =? 0); [discriminate|]. destruct p as [id|]; [|destruct debug; discriminate].
    pose proof (@live_lookup h (Some id) id H eq_refl). destruct (lookup h id) as [[]|]; try discriminate; try congruence. destruct (n <=? length l); discriminate.
  Qed.
  Lemma read_ints_alive : forall debug h p n, (forall x, cnt x (opt p) <= cnt x (ids h)) -> read_ints debug h p n <> Throw.
  Proof.
    intros debug h p n H. unfold read_ints. destruct (n =? 0); [discriminate|]. destruct p as [id|]; [|destruct debug; discriminate].
    pose proof (@live_lookup h (Some id) id H eq_refl). destruct (lookup h id) as [[]|]; try discriminate; try congruence. destruct (n <=? length l); discriminate.
  Qed.
  Lemma read_descr_alive : forall debug h p, (forall x, cnt x (opt p) <= cnt x (ids h)) -> read_descr debug h p <> Throw.
  Proof.
    intros debug h p H. unfold read_descr. destruct p as [id|]; [|destruct debug; discriminate].
    pose proof (@live_lookup h (Some id) id H eq_refl). destruct (lookup h id) as [[]|]; try discriminate; congruence.
  Qed.
  Lemma bind_throw : forall A B (m : outcome A) (f : A -> outcome B), m <> Throw -> (forall a, m = Ok a -> f a <> Throw) -> bind m f <> Throw.
  Proof. intros A B [] f H1 H2; simpl; try discriminate; auto. Qed.
  Lemma contents_alive : forall debug h d, (forall x, cnt x (dev_ids d) <= cnt x (ids h)) -> contents debug h d <> Throw.
  Proof.
    intros debug h d H. unfold contents. apply bind_throw; [unfold known; destruct (d_lnnz d); discriminate|]. intros nnz _.
    apply bind_throw; [apply read_vals_alive; intros x; specialize (H x); rewrite cnt_dev in H; lia|]. intros val _.
    apply bind_throw; [apply read_ints_alive; intros x; specialize (H x); rewrite cnt_dev in H; lia|]. intros col _.
    apply bind_throw; [apply read_ints_alive; intros x; specialize (H x); rewrite cnt_dev in H; lia|]. discriminate.
  Qed.

  (** The allocations an operation loses. *)
  Definition lost s (o : op K) : list nat :=
    match o with
    | OAssign i _ | OReinit i _ => match object s i with Ok d => dev_ids d | _ => [] end
    | OAttach i => match object s i with Ok d => opt (d_descr d) | _ => [] end
    | OVmult _ size => if size =? 0 then [] else [h_next (s_heap s); S (S (h_next (s_heap s)))]
    | OMult _ _ c (Some _) => match object s c with Ok d => buf_ids d | _ => [] end
    | _ => []
    end.

  Lemma destroy_ok : forall h d, heap_ok h -> (forall id, cnt id (dev_ids d) <= cnt id (ids h)) ->
    exists h', destroy d h = Ok h' /\ heap_ok h' /\ (forall id, cnt id (ids h') + cnt id (dev_ids d) = cnt id (ids h)) /\
      forall id, ~ In id (dev_ids d) -> lookup h' id = lookup h id.
  Proof.
    intros h d H Hc.
    assert (Hc' : forall id, cnt id (opt (d_val d)) + cnt id (opt (d_col d)) + cnt id (opt (d_ptr d)) + cnt id (opt (d_descr d)) <= cnt id (ids h))
      by (intros id; rewrite <- cnt_dev; apply Hc).
    unfold destroy.
    destruct (@cuda_free_ok h (d_val d) H) as [h1 [E1 S1]]; [intros id; specialize (Hc' id); lia|]. rewrite E1. cbn [bind].
    destruct (@cuda_free_ok h1 (d_col d) (sh_ok S1)) as [h2 [E2 S2]]; [intros id; specialize (Hc' id); pose proof (sh_cnt S1 id); lia|].
    rewrite E2. cbn [bind].
    destruct (@cuda_free_ok h2 (d_ptr d) (sh_ok S2)) as [h3 [E3 S3]];
      [intros id; specialize (Hc' id); pose proof (sh_cnt S1 id); pose proof (sh_cnt S2 id); lia|]. rewrite E3. cbn [bind].
    destruct (@cuda_free_ok h3 (d_descr d) (sh_ok S3)) as [h4 [E4 S4]];
      [intros id; specialize (Hc' id); pose proof (sh_cnt S1 id); pose proof (sh_cnt S2 id); pose proof (sh_cnt S3 id); lia|].
    exists h4. split; auto. split; [apply (sh_ok S4)|]. split.
    - intros id. rewrite cnt_dev. pose proof (sh_cnt S1 id). pose proof (sh_cnt S2 id). pose proof (sh_cnt S3 id). pose proof (sh_cnt S4 id). lia.
    - intros id Hi. unfold dev_ids in Hi. rewrite !in_app_iff in Hi. rewrite (sh_lookup S4), (sh_lookup S3), (sh_lookup S2), (sh_lookup S1) by tauto. auto.
  Qed.
  Lemma vmult_memory_eq : forall debug h d size, heap_ok h -> exists h', heap_ok h' /\
    (forall id, cnt id (ids h') = cnt id (ids h) + cnt id (if size =? 0 then [] else [h_next h; S (S (h_next h))])) /\
    (forall id, In id (ids h) -> lookup h' id = lookup h id) /\
    vmult_memory debug d size h =
      (if d_handle d && (match d_descr d with Some _ => true | None => false end) then
         let! _ := read_descr debug h' (d_descr d) in let! _ := contents debug h' d in Ok h'
       else if debug then Abort else Ok h').
  Proof.
    intros debug h d size H. unfold vmult_memory.
    destruct (malloc_junk size h) as [p1 h1] eqn:E1. destruct (malloc_junk size h1) as [p2 h2] eqn:E2. destruct (malloc_junk size h2) as [p3 h3] eqn:E3.
    destruct (malloc_junk_ok _ H E1) as [G1 _]. destruct (malloc_junk_ok _ (gr_ok G1) E2) as [G2 _]. destruct (malloc_junk_ok _ (gr_ok G2) E3) as [G3 _].
    destruct (@cuda_free_ok h3 p2 (gr_ok G3)) as [h4 [E4 S4]]; [intros id; rewrite (gr_cnt G3), (gr_cnt G2); lia|]. rewrite E4. cbn [bind].
    assert (Hcnt : forall id, cnt id (ids h4) = cnt id (ids h) + cnt id (opt p1) + cnt id (opt p3)).
    { intros id. pose proof (sh_cnt S4 id). rewrite (gr_cnt G3), (gr_cnt G2), (gr_cnt G1) in H0. lia. }
    assert (Hp : forall id, cnt id (opt p1) + cnt id (opt p3) = cnt id (if size =? 0 then [] else [h_next h; S (S (h_next h))])).
    { intros id. destruct size as [|n]; cbn [malloc_junk] in E1, E2, E3.
      - injection E1 as <- <-. injection E3 as <- <-. reflexivity.
      - unfold alloc in E1, E2, E3. injection E1 as <- <-. injection E2 as <- <-. injection E3 as <- <-. cbn [h_next opt Nat.eqb].
        rewrite !cnt_cons, cnt_nil. lia. }
    exists h4. split; [apply (sh_ok S4)|]. split; [intros id; rewrite Hcnt, <- Hp; lia|]. split; auto.
    intros id Hi. assert (I1 : In id (ids h1)) by (rewrite cnt_in in *; rewrite (gr_cnt G1); lia).
    assert (I2 : In id (ids h2)) by (rewrite cnt_in in *; rewrite (gr_cnt G2); lia).
    rewrite (sh_lookup S4) by (apply (gr_new G2); auto). rewrite (gr_lookup G3), (gr_lookup G2), (gr_lookup G1); auto.
  Qed.
  Lemma vmult_memory_ok : forall debug h d size, heap_ok h ->
    (forall h', vmult_memory debug d size h = Ok h' ->
       heap_ok h' /\ (forall id, cnt id (ids h') = cnt id (ids h) + cnt id (if size =? 0 then [] else [h_next h; S (S (h_next h))])) /\
       (forall id, In id (ids h) -> lookup h' id = lookup h id)) /\
    ((forall id, cnt id (dev_ids d) <= cnt id (ids h)) -> vmult_memory debug d size h <> Throw).
  Proof.
    intros debug h d size H. destruct (vmult_memory_eq debug d size H) as [h4 [H1 [H2 [H3 ->]]]]. split.
    - intros h' E. assert (h4 = h'); [|subst; auto]. destruct (d_handle d && _).
      + destruct (read_descr debug h4 (d_descr d)); try discriminate. cbn [bind] in E. destruct (contents debug h4 d); try discriminate.
        injection E as E. auto.
      + destruct debug; try discriminate. injection E as E. auto.
    - intros Hd. destruct (d_handle d && _); [|destruct debug; discriminate].
      apply bind_throw; [apply read_descr_alive; intros x; rewrite H2; specialize (Hd x); rewrite cnt_dev in Hd; lia|]. intros _ _.
      apply bind_throw; [apply contents_alive; intros x; rewrite H2; specialize (Hd x); lia|]. discriminate.
  Qed.
End P.
