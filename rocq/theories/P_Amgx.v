(** Proofs about the AMGX renumbering (csr_to_amgx). *)
From Coq Require Import List Arith Lia Bool Permutation Sorted Field.
From Verif Require Import Base OField Mat M_Perm S_Perm P_Perm M_SpProd S_SpProd M_Csr S_Csr P_SpProd P_Csr P_Csr2 P_Csr3 P_Csr4 M_Amgx S_Amgx.
Import ListNotations.
Set Implicit Arguments.
Open Scope nat_scope.

(** ** Maps *)
Lemma mem_In : forall l i, mem l i = true <-> In i l.
Proof.
  intros l i. unfold mem. rewrite existsb_exists. split.
  - intros [x [Hx E]]. apply Nat.eqb_eq in E. subst. auto.
  - intros H. exists i. split; auto. apply Nat.eqb_refl.
Qed.
Lemma mem_notIn : forall l i, mem l i = false <-> ~ In i l.
Proof. intros l i. rewrite <- mem_In. destruct (mem l i); split; intros; try congruence; exfalso; auto. Qed.

Lemma put_fresh : forall m k v, ~ In k (map fst m) -> put m k v = (k, v) :: m.
Proof.
  intros m k v H. unfold put. f_equal. induction m as [|[a b] m IH]; simpl in *; auto.
  destruct (Nat.eqb_spec a k) as [->|Hne]; [exfalso; auto|]. simpl. rewrite IH; auto.
Qed.
Lemma get_in : forall m k v, NoDup (map fst m) -> In (k, v) m -> get m k = v.
Proof.
  intros m k v. unfold get. induction m as [|[a b] m IH]; intros Hd Hi; simpl in *; [contradiction|].
  inversion Hd as [|x l Hx Hl]; subst. destruct (Nat.eqb_spec a k) as [->|Hne].
  - destruct Hi as [E|Hi]; [injection E as ->; auto|]. exfalso. apply Hx. apply (in_map fst) in Hi. auto.
  - destruct Hi as [E|Hi]; [injection E as E1 E2; contradiction|]. auto.
Qed.
Lemma map_fst_combine : forall A B (l : list A) (l' : list B), length l = length l' -> map fst (combine l l') = l.
Proof. induction l as [|a l IH]; intros [|b l'] H; simpl in *; try discriminate; auto. f_equal. auto. Qed.

Lemma put_fold : forall (l m : umap), NoDup (map fst l) -> (forall k, In k (map fst l) -> ~ In k (map fst m)) ->
  Permutation (fold_left (fun m (p : nat * nat) => put m (fst p) (snd p)) l m) (l ++ m).
Proof.
  induction l as [|[k v] l IH]; intros m Hd Hm; simpl; auto. simpl in Hd. inversion Hd as [|x l' Hx Hl]; subst.
  rewrite put_fresh by (apply Hm; simpl; auto).
  eapply perm_trans; [apply IH; auto|].
  - intros k' Hk' [E|Hi]; simpl in *; [subst; auto|]. eapply Hm; eauto.
  - apply Permutation_sym, Permutation_middle.
Qed.

Lemma owned_map_spec : forall range, NoDup range -> Permutation (owned_map range) (combine range (seq 0 (length range))).
Proof.
  intros range Hd. unfold owned_map. eapply perm_trans; [apply put_fold|].
  - rewrite map_fst_combine; auto. rewrite seq_length. auto.
  - simpl. auto.
  - rewrite app_nil_r. auto.
Qed.

Lemma halo_loop_spec : forall range cols next m, NoDup cols -> (forall g, In g cols -> ~ In g range -> ~ In g (map fst m)) ->
  Permutation (halo_loop range cols next m)
    (combine (filter (fun g => negb (mem range g)) cols) (seq next (length (filter (fun g => negb (mem range g)) cols))) ++ m).
Proof.
  intros range. induction cols as [|g cols IH]; intros next m Hd Hm; simpl; auto. inversion Hd as [|x l Hx Hl]; subst.
  destruct (mem range g) eqn:E; simpl.
  - apply IH; auto. intros; apply Hm; simpl; auto.
  - apply mem_notIn in E. rewrite put_fresh by (apply Hm; simpl; auto).
    eapply perm_trans; [apply IH; auto|].
    + intros g' Hg' Hn [Ee|Hi]; simpl in *; [subst; auto|]. eapply Hm; eauto.
    + apply Permutation_sym, Permutation_middle.
Qed.

Lemma local_loop_spec : forall sent rows a b m, NoDup rows -> (forall r, In r rows -> ~ In r (map fst m)) ->
  Permutation (local_loop sent rows a b m)
    (combine (filter (fun i => negb (mem sent i)) rows) (seq a (length (filter (fun i => negb (mem sent i)) rows))) ++
     combine (filter (mem sent) rows) (seq b (length (filter (mem sent) rows))) ++ m).
Proof.
  intros sent. induction rows as [|i rows IH]; intros a b m Hd Hm; simpl; auto. inversion Hd as [|x l Hx Hl]; subst.
  destruct (mem sent i) eqn:E; simpl; rewrite put_fresh by (apply Hm; simpl; auto); (eapply perm_trans; [apply IH; auto|]).
  - intros r Hr [Ee|Hi]; simpl in *; [subst; auto|]. eapply Hm; eauto.
  - apply Permutation_app_head. apply Permutation_sym, Permutation_middle.
  - intros r Hr [Ee|Hi]; simpl in *; [subst; auto|]. eapply Hm; eauto.
  - rewrite app_assoc. apply Permutation_sym. rewrite app_assoc. apply Permutation_middle.
Qed.

Lemma combine_app2 : forall A B (l1 l2 : list A) (m1 m2 : list B), length l1 = length m1 -> combine (l1 ++ l2) (m1 ++ m2) = combine l1 m1 ++ combine l2 m2.
Proof. induction l1 as [|a l1 IH]; intros l2 [|b m1] m2 H; simpl in *; try discriminate; auto. f_equal. apply IH. lia. Qed.

Lemma filter_partition : forall A (f : A -> bool) l, Permutation (filter (fun x => negb (f x)) l ++ filter f l) l.
Proof.
  induction l as [|a l IH]; simpl; auto. destruct (f a); simpl; [|constructor; auto].
  eapply perm_trans; [apply Permutation_sym, Permutation_middle|]. constructor. auto.
Qed.
Lemma row_order_perm : forall n sent, Permutation (row_order n sent) (seq 0 n).
Proof. intros. apply filter_partition. Qed.
Lemma row_order_length : forall n sent, length (row_order n sent) = n.
Proof. intros. rewrite (Permutation_length (row_order_perm n sent)). apply seq_length. Qed.
Lemma sent_count : forall n sent, NoDup sent -> (forall i, In i sent -> i < n) -> length (filter (mem sent) (seq 0 n)) = length sent.
Proof.
  intros n sent Hd Hs. apply Permutation_length. apply NoDup_Permutation; auto.
  - apply NoDup_filter, seq_NoDup.
  - intros x. rewrite filter_In, mem_In, in_seq. split; [tauto|]. intros H. split; auto. apply Hs in H. lia.
Qed.

Lemma local_map_spec : forall n sent, NoDup sent -> (forall i, In i sent -> i < n) ->
  Permutation (local_loop sent (seq 0 n) 0 (n - length sent) []) (combine (row_order n sent) (seq 0 n)).
Proof.
  intros n sent Hd Hs. eapply perm_trans; [apply local_loop_spec|].
  - apply seq_NoDup.
  - simpl. auto.
  - rewrite app_nil_r. unfold row_order.
    change (fun i => negb (existsb (Nat.eqb i) sent)) with (fun i => negb (mem sent i)).
    change (fun i => existsb (Nat.eqb i) sent) with (mem sent).
    pose proof (Permutation_length (filter_partition (mem sent) (seq 0 n))) as Hl. rewrite app_length, seq_length in Hl.
    pose proof (sent_count Hd Hs) as Hc.
    set (A := filter (fun i => negb (mem sent i)) (seq 0 n)) in *. set (B := filter (mem sent) (seq 0 n)) in *.
    replace n with (length A + length B) at 2 by lia. rewrite seq_app. rewrite combine_app2 by (rewrite seq_length; auto).
    replace (n - length sent) with (0 + length A) by lia. auto.
Qed.

Lemma perm_map_fst : forall A B (l : list (A * B)) l1 l2, Permutation l (combine l1 l2) -> length l1 = length l2 -> Permutation (map fst l) l1.
Proof. intros A B l l1 l2 H Hl. apply (Permutation_map fst) in H. rewrite map_fst_combine in H; auto. Qed.

Lemma nth_error_combine_in : forall A B (l : list A) (l' : list B) k a b, nth_error l k = Some a -> nth_error l' k = Some b -> In (a, b) (combine l l').
Proof.
  induction l as [|x l IH]; intros [|y l'] [|k] a b H1 H2; simpl in *; try discriminate.
  - injection H1 as ->. injection H2 as ->. auto.
  - right. eapply IH; eauto.
Qed.
Lemma nth_error_seq : forall n a k, k < n -> nth_error (seq a n) k = Some (a + k).
Proof. intros n a k H. rewrite (nth_error_nth_lt (seq a n) 0) by (rewrite seq_length; auto). rewrite seq_nth; auto. Qed.

Lemma get_local : forall n sent k r, NoDup sent -> (forall i, In i sent -> i < n) -> nth_error (row_order n sent) k = Some r ->
  get (local_loop sent (seq 0 n) 0 (n - length sent) []) r = k.
Proof.
  intros n sent k r Hd Hs Hk. pose proof (local_map_spec Hd Hs) as HP. apply get_in.
  - eapply Permutation_NoDup; [apply Permutation_sym; eapply perm_map_fst; [exact HP|]|].
    + rewrite row_order_length, seq_length. auto.
    + eapply Permutation_NoDup; [apply Permutation_sym, row_order_perm|apply seq_NoDup].
  - apply (Permutation_in _ (Permutation_sym HP)). eapply nth_error_combine_in; eauto.
    assert (k < n) by (apply nth_error_lt in Hk; rewrite row_order_length in Hk; auto). rewrite nth_error_seq; auto.
Qed.

(** The halo that the loop finds. *)
Definition halo_of (range : list nat) (n : nat) (cols : list nat) : list nat := filter (fun g => negb (mem range g)) (index_set n cols).
Lemma halo_of_spec : forall range n cols, (forall g, In g cols -> g < n) -> is_halo range cols (halo_of range n cols).
Proof.
  intros range n cols H. split.
  - apply filter_sorted, index_set_sorted.
  - intros g. unfold halo_of. rewrite filter_In, index_set_in, negb_true_iff, mem_notIn. split; [tauto|]. intros [H1 H2]. auto.
Qed.
Lemma sorted_NoDup : forall l, StronglySorted lt l -> NoDup l.
Proof.
  induction 1 as [|a l Hl IH Ha]; constructor; auto. intros Hi. rewrite Forall_forall in Ha. apply Ha in Hi. lia.
Qed.

Lemma halo_map_spec : forall range n cols, NoDup range ->
  let h := halo_of range n cols in
  let m := halo_loop range (index_set n cols) (length range) (owned_map range) in
  (forall i g, nth_error range i = Some g -> get m g = i) /\ (forall t g, nth_error h t = Some g -> get m g = length range + t).
Proof.
  intros range n cols Hd h m.
  assert (HP : Permutation m (combine h (seq (length range) (length h)) ++ combine range (seq 0 (length range)))).
  { unfold m. eapply perm_trans; [apply halo_loop_spec|].
    - apply sorted_NoDup, index_set_sorted.
    - intros g Hg Hn Hi. apply Hn. eapply Permutation_in; [eapply perm_map_fst; [apply owned_map_spec; auto|rewrite seq_length; auto]|auto].
    - apply Permutation_app_head. apply owned_map_spec. auto. }
  assert (HN : NoDup (map fst m)).
  { eapply Permutation_NoDup; [apply Permutation_sym, Permutation_map, HP|]. rewrite map_app, !map_fst_combine by (rewrite seq_length; auto).
    assert (Hh : NoDup h) by (apply sorted_NoDup, filter_sorted, index_set_sorted).
    assert (Hx : forall g, In g h -> ~ In g range) by (intros g Hg; apply filter_In in Hg; destruct Hg as [_ Hg]; apply negb_true_iff, mem_notIn in Hg; auto).
    clearbody h. clear - Hd Hh Hx. induction h as [|g h IH]; simpl; auto. inversion Hh; subst. constructor.
    - rewrite in_app_iff. intros [Hi|Hi]; [auto|]. eapply Hx; simpl; eauto.
    - apply IH; auto. intros; apply Hx; simpl; auto. }
  split.
  - intros i g Hi. apply get_in; auto. apply (Permutation_in _ (Permutation_sym HP)). apply in_or_app. right. eapply nth_error_combine_in; eauto.
    rewrite nth_error_seq; auto. apply nth_error_lt in Hi. auto.
  - intros t g Ht. apply get_in; auto. apply (Permutation_in _ (Permutation_sym HP)). apply in_or_app. left. eapply nth_error_combine_in; eauto.
    rewrite nth_error_seq; auto. apply nth_error_lt in Ht. auto.
Qed.

(** ** Sorted lists and rows *)
Section Key.
  Variable A : Type.
  Variable key : A -> nat.
  Lemma sorted_split_key : forall n l, StronglySorted (fun a b => key a <= key b) l ->
    filter (fun x => key x <? n) l ++ filter (fun x => key x =? n) l = filter (fun x => key x <? S n) l.
  Proof.
    intros n l H. induction H as [|a l Hl IH Ha]; simpl; auto. rewrite Forall_forall in Ha.
    destruct (Nat.ltb_spec (key a) n) as [H1|H1].
    - destruct (Nat.eqb_spec (key a) n); [lia|]. destruct (Nat.ltb_spec (key a) (S n)); [|lia]. simpl. f_equal. auto.
    - assert (E : filter (fun x => key x <? n) l = []).
      { clear - Ha H1. induction l as [|b l IHl]; simpl; auto. destruct (Nat.ltb_spec (key b) n) as [H2|H2].
        - specialize (Ha b (or_introl eq_refl)). lia.
        - apply IHl. intros; apply Ha; simpl; auto. }
      rewrite E in *. simpl in *. destruct (Nat.eqb_spec (key a) n) as [H2|H2].
      + destruct (Nat.ltb_spec (key a) (S n)); [|lia]. f_equal. auto.
      + destruct (Nat.ltb_spec (key a) (S n)); [lia|]. auto.
  Qed.
  Lemma concat_by_key : forall n l, StronglySorted (fun a b => key a <= key b) l ->
    concat (map (fun k => filter (fun x => key x =? k) l) (seq 0 n)) = filter (fun x => key x <? n) l.
  Proof.
    induction n as [|n IH]; intros l H.
    - simpl. induction l as [|a l IHl]; simpl; auto. apply IHl. inversion H; auto.
    - rewrite seq_S, map_app, concat_app, IH by auto. simpl. rewrite app_nil_r. apply sorted_split_key; auto.
  Qed.
End Key.
Lemma filter_all : forall A (f : A -> bool) l, (forall x, In x l -> f x = true) -> filter f l = l.
Proof. induction l as [|a l IH]; intros H; simpl; auto. rewrite H by (simpl; auto). f_equal. apply IH. intros; apply H; simpl; auto. Qed.
Lemma filter_map_comm : forall A B (f : A -> B) (p : B -> bool) l, filter p (map f l) = map f (filter (fun a => p (f a)) l).
Proof. induction l as [|a l IH]; simpl; auto. destruct (p (f a)); simpl; rewrite IH; auto. Qed.
Lemma filter_perm : forall A (f : A -> bool) l l', Permutation l l' -> Permutation (filter f l) (filter f l').
Proof.
  induction 1; simpl; auto.
  - destruct (f x); auto.
  - destruct (f x), (f y); auto. constructor.
  - eapply perm_trans; eauto.
Qed.
Lemma combine_lengths : forall A B (l : list A) (l' : list B), length l = length l' -> map fst (combine l l') = l /\ map snd (combine l l') = l'.
Proof. induction l as [|a l IH]; intros [|b l'] H; simpl in *; try discriminate; auto. destruct (IH l') as [-> ->]; auto. Qed.
Lemma firstn_seq : forall n k a, k <= n -> firstn k (seq a n) = seq a k.
Proof. induction n as [|n IH]; intros [|k] a H; simpl; auto; [lia|]. rewrite IH by lia. auto. Qed.
Lemma combine_maps : forall A B C (f : A -> B) (g : A -> C) l, combine (map f l) (map g l) = map (fun a => (f a, g a)) l.
Proof. induction l as [|a l IH]; simpl; auto. rewrite IH. auto. Qed.

Lemma SS_map : forall A B (f : A -> B) (R : B -> B -> Prop) l, StronglySorted R (map f l) -> StronglySorted (fun a b => R (f a) (f b)) l.
Proof.
  induction l as [|a l IH]; intros H; [constructor|]. inversion H as [|x l' Hl Ha]; subst. constructor; auto.
  rewrite Forall_map in Ha. auto.
Qed.
Lemma SS_impl : forall A (R R' : A -> A -> Prop) l, (forall a b, R a b -> R' a b) -> StronglySorted R l -> StronglySorted R' l.
Proof. intros A R R' l H HS. induction HS; constructor; auto. eapply Forall_impl; [|eauto]. auto. Qed.
Lemma SS_filter : forall A (R : A -> A -> Prop) (f : A -> bool) l, StronglySorted R l -> StronglySorted R (filter f l).
Proof.
  intros A R f l H. induction H as [|a l Hl IH Ha]; simpl; [constructor|]. destruct (f a); auto. constructor; auto.
  rewrite Forall_forall in *. intros x Hx. apply filter_In in Hx. apply Ha. tauto.
Qed.
Lemma SS_map_intro : forall A B (f : A -> B) (R : B -> B -> Prop) l, StronglySorted (fun a b => R (f a) (f b)) l -> StronglySorted R (map f l).
Proof. intros A B f R l H. induction H; simpl; constructor; auto. rewrite Forall_map. auto. Qed.
Lemma SS_in : forall A (R R' : A -> A -> Prop) l, StronglySorted R l -> (forall a b, In a l -> In b l -> R a b -> R' a b) -> StronglySorted R' l.
Proof.
  intros A R R' l H. induction H as [|a l Hl IH Ha]; intros HR; constructor.
  - apply IH. intros; apply HR; simpl; auto.
  - rewrite Forall_forall in *. intros x Hx. apply HR; simpl; auto.
Qed.

Section Renumber.
  Variable K : ofield.
  Notation tagged := (@tagged K).
  Implicit Types c : csr K.

  Lemma tagged_row : forall (rows : list (list (nat * K))) r, r < length rows ->
    filter (fun t : nat * (nat * K) => fst t =? r) (tagged rows) = map (pair r) (nth r rows []).
  Proof.
    intros rows r Hr. unfold tagged.
    assert (H : forall n a, filter (fun t : nat * (nat * K) => fst t =? r) (flat_map (fun r0 => map (pair r0) (nth r0 rows [])) (seq a n)) =
       if (a <=? r) && (r <? a + n) then map (pair r) (nth r rows []) else []).
    { induction n as [|n IH]; intros a; cbn [seq flat_map].
      - destruct (Nat.leb_spec a r); cbn [andb filter]; auto. destruct (Nat.ltb_spec r (a + 0)); auto. lia.
      - rewrite filter_app, IH, filter_map_comm. cbn [fst]. destruct (Nat.eqb_spec a r) as [->|Hne].
        + rewrite filter_all by auto. replace (S r <=? r) with false by (symmetry; apply Nat.leb_gt; lia). cbn [andb]. rewrite app_nil_r.
          rewrite Nat.leb_refl. replace (r <? r + S n) with true by (symmetry; apply Nat.ltb_lt; lia). auto.
        + replace (filter (fun _ : nat * K => false) (nth a rows [])) with (@nil (nat * K)).
          * cbn [map app]. replace (a + S n) with (S a + n) by lia. destruct (Nat.leb_spec (S a) r), (Nat.leb_spec a r); cbn [andb]; try lia; auto.
          * induction (nth a rows []); simpl; auto. }
    rewrite H. simpl. apply Nat.ltb_lt in Hr. rewrite Hr. auto.
  Qed.

  Theorem csr_to_amgx_spec : forall debug std_sort sent c (rows : list (list (nat * K))), std_sort_contract std_sort -> csr_holds c rows ->
    StronglySorted lt (c_range c) -> (forall g, In g (c_col c) -> g < c_n c) -> NoDup sent -> (forall i, In i sent -> i < length rows) ->
    exists halo_map local_map c' rows' halo,
      csr_to_amgx debug std_sort sent c = Ok (halo_map, local_map, c') /\ csr_holds c' rows' /\
      c_m c' = c_m c /\ c_n c' = c_n c /\ c_range c' = c_range c /\ c_domain c' = c_domain c /\
      is_halo (c_range c) (c_col c) halo /\
      renumbered_as (row_order (length rows) sent) (new_ids (c_range c) (row_order (length rows) sent) halo) rows rows' /\
      Permutation local_map (combine (row_order (length rows) sent) (seq 0 (length rows))) /\
      (forall k r, nth_error (row_order (length rows) sent) k = Some r -> get local_map r = k) /\
      (forall i g, nth_error (c_range c) i = Some g -> get halo_map g = i) /\
      (forall t g, nth_error halo t = Some g -> get halo_map g = length rows + t).
  Proof.
    intros debug std_sort sent c rows Hsort Hc Hr Hcol Hd Hs.
    pose proof (cs_rows Hc) as Hn. unfold csr_to_amgx. rewrite <- Hn.
    assert (Hlen : length (tagged rows) = c_nnz c) by (rewrite (cs_nnz Hc), <- tagged_snd, map_length; auto).
    assert (Ecol : c_col c = map (fun t => fst (snd t)) (tagged rows)) by (rewrite (cs_col Hc), <- tagged_snd, map_map; auto).
    assert (Eval : c_val c = map (fun t => snd (snd t)) (tagged rows)) by (rewrite (cs_val Hc), <- tagged_snd, map_map; auto).
    rewrite (tagged_fst Hc).
    assert (Hslice : forall A (l : list A), length l = c_nnz c -> slice l 0 (c_nnz c) = Ok l).
    { intros A l Hl. unfold slice. simpl. rewrite <- Hl, Nat.leb_refl. simpl. rewrite firstn_all. auto. }
    rewrite !Hslice by (rewrite ?Eval, ?Ecol, map_length; auto). cbn [bind].
    set (h := halo_of (c_range c) (c_n c) (c_col c)).
    set (hm := halo_loop (c_range c) (index_set (c_n c) (c_col c)) (length rows) (owned_map (c_range c))).
    set (lm := local_loop sent (seq 0 (length rows)) 0 (length rows - length sent) []).
    pose proof (sorted_NoDup Hr) as HNr.
    destruct (@halo_map_spec (c_range c) (c_n c) (c_col c) HNr) as [HM1 HM2]. rewrite <- Hn in HM2. fold h in HM2.
    rewrite <- Hn in HM1. fold hm in HM1, HM2.
    assert (LM : forall k r, nth_error (row_order (length rows) sent) k = Some r -> get lm r = k) by (intros k r Hk; apply get_local; auto).
    set (ord := row_order (length rows) sent) in *.
    assert (Lord : length ord = length rows) by apply row_order_length.
    assert (Pord : Permutation ord (seq 0 (length rows))) by apply row_order_perm.
    set (gam := fun g => if get hm g <? length rows then get lm (get hm g) else get hm g).
    assert (Hhalo : is_halo (c_range c) (c_col c) h) by (apply halo_of_spec; auto).
    set (ids := new_ids (c_range c) ord h).
    assert (Hord : forall r, r < length rows -> exists k, nth_error ord k = Some r).
    { intros r Hrr. apply In_nth_error. eapply Permutation_in; [apply Permutation_sym; eauto|]. apply in_seq. lia. }
    assert (Hgam : forall g, In g (c_col c) -> nth_error ids (gam g) = Some g).
    { intros g Hg. unfold gam, ids, new_ids. destruct (in_dec Nat.eq_dec g (c_range c)) as [Hi|Hi].
      - apply In_nth_error in Hi. destruct Hi as [i Hi]. rewrite (HM1 _ _ Hi).
        assert (i < length rows) by (apply nth_error_lt in Hi; lia). destruct (Nat.ltb_spec i (length rows)); [|lia].
        destruct (Hord i) as [k Hk]; auto. rewrite (LM _ _ Hk). rewrite nth_error_app1 by (rewrite map_length; apply nth_error_lt in Hk; auto).
        rewrite nth_error_map, Hk. simpl. f_equal. apply nth_error_nth; auto.
      - assert (In g h) as Hg' by (apply Hhalo; auto). apply In_nth_error in Hg'. destruct Hg' as [t Ht]. rewrite (HM2 _ _ Ht).
        destruct (Nat.ltb_spec (length rows + t) (length rows)); [lia|]. rewrite nth_error_app2 by (rewrite map_length; lia).
        rewrite map_length. replace (length rows + t - length ord) with t by lia. auto. }
    assert (E2 : map (fun col => if col <? length rows then get lm col else col) (map (get hm) (c_col c)) = map (fun t => gam (fst (snd t))) (tagged rows)).
    { rewrite map_map, Ecol, map_map. auto. }
    rewrite E2, Eval, map_map.
    destruct (@sort_permutation_correct K debug std_sort (map (fun t => get lm (fst t)) (tagged rows)) (map (fun t => gam (fst (snd t))) (tagged rows))
      (map (fun t => snd (snd t)) (tagged rows)) (c_nnz c) Hsort) as [p [v1 [v2 [w [P1 [P2 [P3 [P4 [P5 [P6 P7]]]]]]]]]];
      try (rewrite !map_length; auto; lia).
    rewrite P1. cbn [bind]. rewrite P5. cbn [bind]. rewrite P4. cbn [bind]. rewrite P3. cbn [bind].
    assert (EP : combine (combine (map (fun t => get lm (fst t)) (tagged rows)) (map (fun t => gam (fst (snd t))) (tagged rows)))
                   (map (fun t => snd (snd t)) (tagged rows)) = map (fun t => (get lm (fst t), gam (fst (snd t)), snd (snd t))) (tagged rows)).
    { rewrite combine_maps, combine_maps. auto. }
    rewrite EP in P7.
    assert (Lp : length (map (fun t : nat * (nat * K) => get lm (fst t)) (tagged rows)) = c_nnz c) by (rewrite map_length; auto).
    assert (L1 : length v1 = c_nnz c).
    { destruct (@apply_perm_correct nat p _ (c_nnz c) P2) as [z [Z1 [_ Z3]]]; [lia|]. rewrite P3 in Z1. injection Z1 as <-. apply Permutation_length in Z3. lia. }
    assert (P2' : is_perm (c_nnz c) p) by (rewrite Lp in P2; auto).
    assert (L2 : length v2 = c_nnz c).
    { destruct (@apply_perm_correct nat p (map (fun t => gam (fst (snd t))) (tagged rows)) (c_nnz c)) as [z [Z1 [_ Z3]]].
      - rewrite map_length, Hlen. auto.
      - rewrite map_length. lia.
      - rewrite P4 in Z1. injection Z1 as <-. apply Permutation_length in Z3. rewrite map_length in Z3. lia. }
    assert (L3 : length w = c_nnz c).
    { destruct (@apply_perm_correct K p (map (fun t => snd (snd t)) (tagged rows)) (c_nnz c)) as [z [Z1 [_ Z3]]].
      - rewrite map_length, Hlen. auto.
      - rewrite map_length. lia.
      - rewrite P5 in Z1. injection Z1 as <-. apply Permutation_length in Z3. rewrite map_length in Z3. lia. }
    set (T := combine (combine v1 v2) w) in *.
    assert (L12 : length (combine v1 v2) = c_nnz c) by (rewrite combine_length; lia).
    destruct (combine_lengths (combine v1 v2) w) as [F1 F2]; [lia|]. destruct (combine_lengths v1 v2) as [F3 F4]; [lia|]. fold T in F1, F2.
    set (key := fun t : nat * nat * K => fst (fst t)).
    assert (Erow : v1 = map key T) by (rewrite <- F3, <- F1, map_map; auto).
    assert (Ec2 : v2 = map (fun t => snd (fst t)) T) by (rewrite <- F4, <- F1, map_map; auto).
    assert (HTs : StronglySorted (fun a b => lex_le (fst a) (fst b)) T) by (apply SS_map; rewrite F1; auto).
    assert (HTk : StronglySorted (fun a b => key a <= key b) T) by (eapply SS_impl; [|exact HTs]; intros a b [H|H]; unfold key; lia).
    assert (Hlm : forall r, r < length rows -> get lm r < length rows).
    { intros r Hrr. destruct (Hord r Hrr) as [k Hk]. rewrite (LM _ _ Hk). apply nth_error_lt in Hk. lia. }
    assert (Hkey : forall t, In t T -> key t < length rows).
    { intros t Ht. apply (Permutation_in _ (Permutation_sym P7)) in Ht. apply in_map_iff in Ht. destruct Ht as [[r e] [<- Ht]].
      apply tagged_in in Ht. unfold key. simpl. apply Hlm. tauto. }
    set (f := fun t : nat * nat * K => (snd (fst t), snd t)).
    set (rows' := map (fun k => map f (filter (fun t => key t =? k) T)) (seq 0 (length rows))).
    assert (Lr' : length rows' = length rows) by (unfold rows'; rewrite map_length, seq_length; auto).
    assert (Hcat : forall k, k <= length rows -> concat (firstn k rows') = map f (filter (fun t => key t <? k) T)).
    { intros k Hk. unfold rows'. rewrite firstn_map, firstn_seq by auto. rewrite <- (@concat_by_key _ key k T HTk). rewrite concat_map, map_map. auto. }
    assert (Hall : concat rows' = map f T).
    { replace rows' with (firstn (length rows) rows') by (rewrite <- Lr', firstn_all; auto). rewrite Hcat by auto. f_equal.
      apply filter_all. intros t Ht. apply Nat.ltb_lt. auto. }
    assert (Hnth : forall k, k < length rows -> nth k rows' [] = map f (filter (fun t => key t =? k) T)).
    { intros k Hk. unfold rows'. rewrite (nth_map_lt _ (seq 0 (length rows)) [] 0) by (rewrite seq_length; auto). rewrite seq_nth by auto. auto. }
    exists hm, lm. eexists. exists rows', h. split; [reflexivity|]. split; [|do 4 (split; [reflexivity|])].
    { constructor; cbn [c_range c_col c_val c_nnz c_ptr].
      - lia.
      - rewrite Hall, map_map. rewrite Ec2. auto.
      - rewrite Hall, map_map. rewrite <- F2. auto.
      - rewrite Hall, map_length. unfold T. rewrite combine_length. lia.
      - unfold coo2csr. rewrite map_length, seq_length. lia.
      - intros r Hrr. unfold coo2csr. rewrite (nth_map_lt _ (seq 0 (length rows + 1)) 0 0) by (rewrite seq_length; lia). rewrite seq_nth by lia.
        simpl (0 + r). rewrite Hcat by lia. rewrite map_length, Erow, filter_map_comm, map_length. auto. }
    split; auto. split; [|split; [|split; [auto|split; auto]]].
    2:{ apply local_map_spec; auto. }
    split; auto. intros k r Hk.
    assert (Hkn : k < length rows) by (apply nth_error_lt in Hk; lia).
    assert (Hrn : r < length rows).
    { apply nth_error_In in Hk. apply (Permutation_in _ Pord) in Hk. apply in_seq in Hk. lia. }
    rewrite Hnth by auto.
    assert (Hrow : Permutation (map f (filter (fun t => key t =? k) T)) (map (fun e : nat * K => (gam (fst e), snd e)) (nth r rows []))).
    { eapply perm_trans; [apply Permutation_map, filter_perm, Permutation_sym, P7|]. rewrite filter_map_comm, map_map.
      replace (filter (fun a => key (get lm (fst a), gam (fst (snd a)), snd (snd a)) =? k) (tagged rows)) with (filter (fun t => fst t =? r) (tagged rows)).
      - rewrite tagged_row by auto. rewrite map_map. auto.
      - apply filter_ext_in. intros [r' e'] Ht. apply tagged_in in Ht. unfold key. simpl.
        destruct (Nat.eqb_spec r' r) as [->|Hne].
        + rewrite (LM _ _ Hk). symmetry. apply Nat.eqb_refl.
        + symmetry. apply Nat.eqb_neq. intros Heq. apply Hne. destruct (Hord r') as [k' Hk']; [tauto|]. rewrite (LM _ _ Hk') in Heq. subst k'. congruence. }
    assert (Hin : forall e, In e (nth r rows []) -> In (fst e) (c_col c)).
    { intros e He. rewrite (cs_col Hc). apply in_map. apply in_concat. exists (nth r rows []). split; auto. apply nth_In. auto. }
    assert (Hg : forall e, In e (map f (filter (fun t => key t =? k) T)) -> exists e0, In e0 (nth r rows []) /\ e = (gam (fst e0), snd e0)).
    { intros e He. apply (Permutation_in _ Hrow) in He. apply in_map_iff in He. destruct He as [e0 [<- He]]. eauto. }
    assert (Hglob : Permutation (global_row ids (map f (filter (fun t => key t =? k) T))) (nth r rows [])).
    { unfold global_row. eapply perm_trans; [apply Permutation_map, Hrow|]. rewrite map_map. simpl.
      rewrite (map_ext_in _ (fun e => e)); [rewrite map_id; auto|]. intros [g v] He. simpl. f_equal. apply nth_error_nth. apply Hgam. apply (Hin _ He). }
    assert (Hsl : StronglySorted le (map fst (map f (filter (fun t => key t =? k) T)))).
    { rewrite map_map. apply SS_map_intro. eapply SS_in; [apply SS_filter; exact HTs|]. intros a b Ha Hb Hab.
      apply filter_In in Ha, Hb. destruct Ha as [_ Ha], Hb as [_ Hb]. apply Nat.eqb_eq in Ha, Hb. unfold key in *. unfold f. simpl. destruct Hab; lia. }
    split; auto. split; [|split]; auto.
    - intros e He. destruct (Hg e He) as [e0 [He0 ->]]. simpl. specialize (Hgam _ (Hin _ He0)). apply nth_error_lt in Hgam. auto.
    - intros Hsim. unfold sorted_row.
      assert (HND : NoDup (map fst (map f (filter (fun t => key t =? k) T)))).
      { apply (Permutation_NoDup (l := map fst (map (fun e : nat * K => (gam (fst e), snd e)) (nth r rows [])))); [apply Permutation_map, Permutation_sym; auto|].
        rewrite map_map. simpl. unfold simple_row in Hsim.
        assert (Hinj : forall e e', In e (nth r rows []) -> In e' (nth r rows []) -> gam (fst e) = gam (fst e') -> fst e = fst e').
        { intros e e' He He' Heq. pose proof (Hgam _ (Hin _ He)) as G1. pose proof (Hgam _ (Hin _ He')) as G2. rewrite Heq in G1. congruence. }
        clear - Hsim Hinj. induction (nth r rows []) as [|e l IH]; simpl in *; constructor.
        - intros Hi. apply in_map_iff in Hi. destruct Hi as [e' [E He']]. apply Hinj in E; auto. inversion Hsim; subst. apply H1. rewrite <- E. apply in_map. auto.
        - inversion Hsim; subst. apply IH; auto. }
      clear - Hsl HND. induction (map fst (map f (filter (fun t => key t =? k) T))) as [|a l IH]; constructor.
      + inversion Hsl; inversion HND; subst. apply IH; auto.
      + inversion Hsl as [|x y H1 H2]; inversion HND as [|x' y' H3 H4]; subst. rewrite Forall_forall in *. intros b Hb. specialize (H2 b Hb).
        assert (a <> b) by (intros ->; auto). lia.
  Qed.
End Renumber.
