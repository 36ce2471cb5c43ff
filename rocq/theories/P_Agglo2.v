(** Proofs about the partitioner path, boundary agglomerates, patches and dof maps of M_Agglo.v. *)
From Coq Require Import List ListDec Arith Lia Bool Permutation Sorted ZArith.
From Verif Require Import Base M_Agglo S_Agglo P_Agglo P_AggloBox.
Import ListNotations.
Set Implicit Arguments.

(** ** Tiling, with the tile corner of the specification *)
Lemma corner_tile_corner : forall X Y Z at_ dim3 bx by_ bz0 c, 1 <= bx -> 1 <= by_ -> 1 <= bz0 ->
  corner dim3 X Y Z at_ bx by_ bz0 c = tile_corner at_ X Y Z bx by_ (if dim3 then bz0 else 1) c.
Proof.
  intros X Y Z at_ dim3 bx by_ bz0 c H1 H2 H3. unfold corner, tile_corner.
  assert (G : forall a b, 1 <= b -> a - a mod b = a / b * b) by (intros a b Hb; pose proof (Nat.div_mod a b ltac:(lia)); lia).
  rewrite !G; auto. destruct dim3; auto.
Qed.

Lemma box_tiles_spec : forall debug dim3 m nx ny nz X Y Z at_ bx by_ bz0,
  box m nx ny nz X Y Z at_ -> 1 <= bx -> 1 <= by_ -> 1 <= bz0 -> (dim3 = false -> nz <= 1) ->
  let bz := if dim3 then bz0 else 1 in
  let N := ceil_div nx bx * ceil_div ny by_ * ceil_div nz bz in
  exists ui',
    build_agglomerates_block debug dim3 m bx by_ bz0 (repeat 0 (n_cells m)) = Ok (ui', N) /\
    length ui' = n_cells m /\
    (forall c, c < n_cells m -> 1 <= nth c ui' 0 <= N) /\
    (forall c d, c < n_cells m -> d < n_cells m -> (nth c ui' 0 = nth d ui' 0 <->
       (X c / bx = X d / bx /\ Y c / by_ = Y d / by_ /\ Z c / bz = Z d / bz))) /\
    (forall c d, c < n_cells m -> d < n_cells m ->
       tile_corner at_ X Y Z bx by_ bz c < tile_corner at_ X Y Z bx by_ bz d -> nth c ui' 0 < nth d ui' 0) /\
    (forall a, 1 <= a <= N -> exists c, c < n_cells m /\ nth c ui' 0 = a).
Proof.
  intros debug dim3 m nx ny nz X Y Z at_ bx by_ bz0 B Hx Hy Hz Hd bz N.
  destruct (@box_tiles debug dim3 m nx ny nz X Y Z at_ B bx by_ bz0 Hx Hy Hz Hd _ eq_refl) as (ui' & E & L & H1 & H2 & H3).
  exists ui'. split; auto. split; auto. split; auto. split; auto. split.
  - intros c d Hc Hd' Hlt. apply H3; auto. rewrite !corner_tile_corner by auto. auto.
  - intros a Ha.
    assert (Hok : mesh_ok debug m).
    { intros c Hc. destruct (box_coord B Hc) as (C1 & C2 & C3 & C4).
      rewrite (box_fx B Hc), (box_fy B Hc), (box_fz B Hc). repeat split.
      - destruct (Nat.ltb_spec (S (X c)) nx); simpl; auto. split; auto. apply (box_at B); auto.
      - destruct (Nat.ltb_spec (S (Y c)) ny); simpl; auto. split; auto. apply (box_at B); auto.
      - destruct (Nat.ltb_spec (S (Z c)) nz); simpl; auto. split; auto. apply (box_at B); auto. }
    assert (Hmono : mesh_monotone m).
    { intros c nb s Hc Hf. destruct (box_coord B Hc) as (C1 & C2 & C3 & C4).
      rewrite (box_fx B Hc), (box_fy B Hc), (box_fz B Hc) in Hf.
      assert (G : forall i j k, i < nx -> j < ny -> k < nz -> X c <= i -> Y c <= j -> Z c <= k -> (X c < i \/ Y c < j \/ Z c < k) ->
        c < at_ i j k).
      { intros i j k Hi Hj Hk G1 G2 G3 G4. destruct (box_at B Hi Hj Hk) as (_ & F1 & F2 & F3).
        assert (c <= at_ i j k). { rewrite <- C4 at 1. apply (box_mono B); auto. }
        assert (c <> at_ i j k); [|lia]. intros E'. rewrite <- E' in *. lia. }
      destruct Hf as [Hf|[Hf|Hf]].
      - destruct (Nat.ltb_spec (S (X c)) nx); inversion Hf; subst. apply G; auto; lia.
      - destruct (Nat.ltb_spec (S (Y c)) ny); inversion Hf; subst. apply G; auto; lia.
      - destruct (Nat.ltb_spec (S (Z c)) nz); inversion Hf; subst. apply G; auto; lia. }
    destruct (@block_nonempty debug dim3 m Hok Hmono bx by_ bz0 (repeat 0 (n_cells m)) ui' N) with (a := a) as (c & ? & ? & ?); auto.
    + apply repeat_length.
    + exists c. auto.
Qed.

(** ** Partitioner path *)
Lemma assoc_In : forall k l b, NoDup (map fst l) -> (assoc k l = Some b <-> In (k, b) l).
Proof.
  induction l as [|[x y] l IH]; simpl; intros b Hnd.
  - split; [discriminate|tauto].
  - inversion Hnd; subst. destruct (Nat.eqb_spec x k) as [->|Hne].
    + split.
      * intros E; inversion E; auto.
      * intros [E|E]; [inversion E; auto|]. exfalso. apply H1. apply in_map_iff. exists (k, b). auto.
    + rewrite IH by auto. split; auto. intros [E|E]; auto. inversion E; congruence.
Qed.

Lemma assoc_None : forall k l, assoc k l = None <-> ~ In k (map fst l).
Proof.
  induction l as [|[x y] l IH]; simpl.
  - tauto.
  - destruct (Nat.eqb_spec x k) as [->|Hne].
    + split; [discriminate|tauto].
    + rewrite IH. tauto.
Qed.

Section Renumber.
  Variable ow : nat -> bool.
  Variable part : list nat.
  Variable n : nat.
  Variable ui0 : list nat.
  Hypothesis Hui0 : length ui0 = n.
  Hypothesis Hpart : length (filter ow (seq 0 n)) <= length part.

  Let po := part_of ow part.

  Record rinv (cell idx N : nat) (ren : list (nat * nat)) (ui : list nat) : Prop := {
    ri_len : length ui = n;
    ri_idx : idx = length (filter ow (seq 0 cell));
    ri_keys : NoDup (map fst ren);
    ri_vals : map snd ren = rev (seq 1 N);
    ri_set : forall p, In p (map fst ren) <-> exists c, c < cell /\ ow c = true /\ po c = p;
    ri_ui : forall c, c < cell -> ow c = true -> assoc (po c) ren = Some (nth c ui 0);
    ri_other : forall c, ow c = false \/ cell <= c -> nth c ui 0 = nth c ui0 0
  }.

  Lemma filter_seq_lt : forall c, c < n -> ow c = true -> length (filter ow (seq 0 c)) < length (filter ow (seq 0 n)).
  Proof.
    intros c Hc Ho. replace n with (c + (1 + (n - c - 1))) by lia.
    rewrite seq_app, filter_app, app_length. simpl. rewrite Ho. simpl. lia.
  Qed.

  Lemma renumber_inv : forall k cell idx N ren ui, cell + k = n -> rinv cell idx N ren ui ->
    exists ui' N' ren' idx', renumber_loop ow part k cell idx N ren ui = Ok (ui', N') /\ rinv n idx' N' ren' ui'.
  Proof.
    induction k; intros cell idx N ren ui Hk I.
    - simpl. exists ui, N, ren, idx. split; auto. replace n with cell by lia. auto.
    - simpl. destruct I as [I1 I2 I3 I4 I5 I6 I7].
      assert (Hf : length (filter ow (seq 0 (S cell))) = length (filter ow (seq 0 cell)) + if ow cell then 1 else 0).
      { rewrite seq_S, filter_app, app_length. simpl. destruct (ow cell); auto. }
      destruct (ow cell) eqn:Eo.
      + assert (Hi : idx < length part). { rewrite I2. pose proof (@filter_seq_lt cell ltac:(lia) Eo). lia. }
        rewrite (rd_nth _ 0 Hi). cbn [bind].
        assert (Ep : nth idx part 0 = po cell) by (unfold po, part_of; congruence). rewrite Ep.
        destruct (assoc (po cell) ren) as [id|] eqn:Ea.
        * rewrite wr_in by lia. cbn [bind]. apply IHk; [lia|]. constructor; auto.
          -- rewrite upd_length; auto.
          -- lia.
          -- intros p. rewrite I5. split.
             ++ intros (c & ? & ? & ?). exists c. repeat split; auto.
             ++ intros (c & Hc & Hoc & Hp). destruct (Nat.eq_dec c cell) as [->|]; [|exists c; repeat split; auto; lia].
                apply I5. rewrite <- Hp. apply (@assoc_In _ _ _ I3) in Ea. apply in_map_iff. eexists; split; [|exact Ea]; auto.
          -- intros c Hc Hoc. rewrite nth_upd by lia. destruct (Nat.eqb_spec c cell) as [->|]; auto.
             apply I6; auto; lia.
          -- intros c Hc. rewrite nth_upd by lia. destruct (Nat.eqb_spec c cell) as [->|]; auto.
             ++ destruct Hc; [congruence|lia].
             ++ apply I7. destruct Hc; auto. right; lia.
        * rewrite wr_in by lia. cbn [bind]. apply IHk; [lia|]. apply assoc_None in Ea as Hn. constructor; auto.
          -- rewrite upd_length; auto.
          -- lia.
          -- simpl. constructor; auto.
          -- simpl map. rewrite I4. rewrite (seq_S N 1), rev_app_distr. simpl. auto.
          -- intros p. simpl. rewrite I5. split.
             ++ intros [<-|(c & ? & ? & ?)].
                ** exists cell. repeat split; auto.
                ** exists c. repeat split; auto.
             ++ intros (c & Hc & Hoc & Hp). destruct (Nat.eq_dec c cell) as [->|]; [auto|right; exists c; repeat split; auto; lia].
          -- intros c Hc Hoc. rewrite nth_upd by lia. simpl. destruct (Nat.eqb_spec c cell) as [->|].
             ++ rewrite Nat.eqb_refl; auto.
             ++ assert (Hc' : c < cell) by lia. destruct (Nat.eqb_spec (po cell) (po c)) as [E|]; [|apply I6; auto].
                exfalso. apply Hn. rewrite E. apply I5. exists c. auto.
          -- intros c Hc. rewrite nth_upd by lia. destruct (Nat.eqb_spec c cell) as [->|]; auto.
             ++ destruct Hc; [congruence|lia].
             ++ apply I7. destruct Hc; auto. right; lia.
      + apply IHk; [lia|]. constructor; auto.
        * lia.
        * intros p. rewrite I5. split.
          -- intros (c & ? & ? & ?). exists c. repeat split; auto.
          -- intros (c & Hc & Hoc & Hp). exists c. repeat split; auto. destruct (Nat.eq_dec c cell) as [->|]; [congruence|lia].
        * intros c Hc Hoc. apply I6; auto. destruct (Nat.eq_dec c cell) as [->|]; [congruence|lia].
        * intros c Hc. apply I7. destruct Hc; auto. right; lia.
  Qed.

  Lemma rinv_final : forall idx N ren ui, rinv n idx N ren ui ->
    (forall c, c < n -> ow c = true -> 1 <= nth c ui 0 <= N) /\
    (forall c d, c < n -> d < n -> ow c = true -> ow d = true -> (nth c ui 0 = nth d ui 0 <-> po c = po d)) /\
    (forall a, 1 <= a <= N -> exists c, c < n /\ ow c = true /\ nth c ui 0 = a) /\
    N = length (nodup Nat.eq_dec (map po (filter ow (seq 0 n)))).
  Proof.
    intros idx N ren ui [I1 I2 I3 I4 I5 I6 I7].
    assert (Hsnd : forall p a, In (p, a) ren -> 1 <= a <= N).
    { intros p a Hi. assert (Ha : In a (map snd ren)) by (apply in_map_iff; exists (p, a); auto).
      rewrite I4 in Ha. apply in_rev in Ha. apply in_seq in Ha. lia. }
    assert (Hinj : forall p q a, In (p, a) ren -> In (q, a) ren -> p = q).
    { assert (Hnd : NoDup (map snd ren)). { rewrite I4. apply NoDup_rev. apply seq_NoDup. }
      clear - Hnd. induction ren as [|[x y] l IH]; simpl in *; [tauto|]. inversion Hnd; subst.
      intros p q a [E1|E1] [E2|E2].
      - congruence.
      - inversion E1; subst. exfalso. apply H1. apply in_map_iff. exists (q, a); auto.
      - inversion E2; subst. exfalso. apply H1. apply in_map_iff. exists (p, a); auto.
      - eapply IH; eauto. }
    split; [|split; [|split]].
    - intros c Hc Ho. apply (Hsnd (po c)). apply (@assoc_In _ _ _ I3). auto.
    - intros c d Hc Hd Hoc Hod. pose proof (I6 c Hc Hoc) as Ec. pose proof (I6 d Hd Hod) as Ed. split.
      + intros E. apply (@assoc_In _ _ _ I3) in Ec, Ed. rewrite E in Ec. eauto.
      + intros E. rewrite E in Ec. congruence.
    - intros a Ha. assert (Hi : In a (map snd ren)). { rewrite I4. apply in_rev. rewrite rev_involutive. apply in_seq. lia. }
      apply in_map_iff in Hi. destruct Hi as ((p & a') & E & Hi). simpl in E. subst a'.
      assert (Hp : In p (map fst ren)) by (apply in_map_iff; exists (p, a); auto).
      apply I5 in Hp. destruct Hp as (c & Hc & Ho & E). exists c. repeat split; auto.
      pose proof (I6 c Hc Ho) as Ec. apply (@assoc_In _ _ _ I3) in Hi. subst p. congruence.
    - assert (EN : length (map fst ren) = N).
      { rewrite map_length, <- (map_length snd), I4, rev_length, seq_length. auto. }
      rewrite <- EN. apply Permutation_length. apply NoDup_Permutation; auto.
      + apply NoDup_nodup.
      + intros p. rewrite I5, nodup_In, in_map_iff. split.
        * intros (c & Hc & Ho & E). exists c. split; auto. apply filter_In. split; auto. apply in_seq. lia.
        * intros (c & E & Hi). apply filter_In in Hi. destruct Hi as (Hi & Ho). apply in_seq in Hi. exists c. repeat split; auto. lia.
  Qed.
End Renumber.

Lemma partitioner_correct : forall m part ui, length ui = n_cells m -> length (owned_cells m) <= length part ->
  let po := part_of (owned m) part in
  exists ui' N, build_agglomerates_partitioner m part ui = Ok (ui', N) /\ length ui' = n_cells m /\
    (forall c, c < n_cells m -> owned m c = true -> 1 <= nth c ui' 0 <= N) /\
    (forall c d, c < n_cells m -> d < n_cells m -> owned m c = true -> owned m d = true ->
       (nth c ui' 0 = nth d ui' 0 <-> po c = po d)) /\
    (forall a, 1 <= a <= N -> exists c, c < n_cells m /\ owned m c = true /\ nth c ui' 0 = a) /\
    N = length (nodup Nat.eq_dec (map po (owned_cells m))) /\
    (forall c, owned m c = false -> nth c ui' 0 = nth c ui 0).
Proof.
  intros m part ui Hl Hp po. unfold build_agglomerates_partitioner.
  destruct (@renumber_inv (owned m) part (n_cells m) ui Hl Hp (n_cells m) 0 0 0 [] ui eq_refl) as (ui' & N & ren & idx & E & I).
  - constructor; simpl; auto; try (constructor; fail); try (intros; lia).
    intros p. split; [tauto|]. intros (c & ? & _). lia.
  - exists ui', N. split; auto. split; [apply (ri_len I)|].
    destruct (rinv_final Hl Hp I) as (H1 & H2 & H3 & H4). repeat (split; [assumption|]).
    intros c Hc. apply (ri_other I). auto.
Qed.

(** ** Boundary agglomerates *)
Lemma set_insert_In : forall x y l, In y (set_insert x l) <-> y = x \/ In y l.
Proof.
  induction l as [|a l IH]; simpl.
  - intuition.
  - destruct (Nat.ltb_spec x a); simpl; [intuition|].
    destruct (Nat.eqb_spec x a); simpl; [subst; intuition|]. rewrite IH. intuition.
Qed.

Lemma set_insert_increasing : forall x l, increasing l -> increasing (set_insert x l).
Proof.
  unfold increasing. induction 1 as [|a l Hl IH Ha]; simpl.
  - repeat constructor.
  - destruct (Nat.ltb_spec x a).
    + constructor; [constructor; auto|]. constructor; auto. eapply Forall_impl; [|exact Ha]. simpl; lia.
    + destruct (Nat.eqb_spec x a).
      * constructor; auto.
      * constructor; auto. apply Forall_forall. intros y Hy. apply set_insert_In in Hy.
        rewrite Forall_forall in Ha. destruct Hy as [->|]; auto. lia.
Qed.

Lemma set_mem_In : forall x l, set_mem x l = true <-> In x l.
Proof.
  intros. unfold set_mem. rewrite existsb_exists. split.
  - intros (y & Hy & E). apply Nat.eqb_eq in E. subst; auto.
  - intros H. exists x. split; auto. apply Nat.eqb_refl.
Qed.

Lemma agg_cells_correct : forall m ui N, length ui = n_cells m ->
  (forall c, c < n_cells m -> owned m c = true -> 1 <= nth c ui 0 <= N) ->
  exists sets, agg_cells_loop (owned m) ui (n_cells m) 0 (repeat [] N) = Ok sets /\ length sets = N /\
    forall a, a < N -> increasing (nth a sets []) /\ forall c, In c (nth a sets []) <-> in_agg m ui (S a) c.
Proof.
  intros m ui N Hl Hid.
  assert (G : forall k cell acc, cell + k = n_cells m -> length acc = N ->
    (forall a, a < N -> increasing (nth a acc []) /\
       forall c, In c (nth a acc []) <-> (c < cell /\ owned m c = true /\ nth c ui 0 = S a)) ->
    exists sets, agg_cells_loop (owned m) ui k cell acc = Ok sets /\ length sets = N /\
    forall a, a < N -> increasing (nth a sets []) /\ forall c, In c (nth a sets []) <-> in_agg m ui (S a) c).
  { induction k; intros cell acc Hk Ha H.
    - simpl. exists acc. split; auto. split; auto. intros a Haa. destruct (H a Haa) as (H1 & H2). split; auto.
      intros c. rewrite H2. unfold in_agg. replace cell with (n_cells m) by lia. tauto.
    - simpl. destruct (owned m cell) eqn:Eo.
      + rewrite (rd_nth _ 0) by lia. cbn [bind]. assert (Hc := Hid cell ltac:(lia) Eo).
        destruct (nth cell ui 0) as [|a] eqn:Eu; [lia|].
        rewrite (rd_nth _ []) by lia. cbn [bind]. rewrite wr_in by lia. cbn [bind].
        apply IHk; [lia|rewrite upd_length; auto|].
        intros a' Ha'. rewrite nth_upd by lia. destruct (Nat.eqb_spec a' a) as [->|Hne].
        * destruct (H a) as (H1 & H2); auto. split; [apply set_insert_increasing; auto|].
          intros c. rewrite set_insert_In, H2. split.
          -- intros [->|(? & ? & ?)]; repeat split; auto; lia.
          -- intros (Hc1 & Hc2 & Hc3). destruct (Nat.eq_dec c cell); auto. right. repeat split; auto; lia.
        * destruct (H a' Ha') as (H1 & H2). split; auto. intros c. rewrite H2. split.
          -- intros (? & ? & ?). repeat split; auto; lia.
          -- intros (Hc1 & Hc2 & Hc3). repeat split; auto. destruct (Nat.eq_dec c cell); [subst; congruence|lia].
      + apply IHk; [lia|auto|]. intros a Haa. destruct (H a Haa) as (H1 & H2). split; auto. intros c. rewrite H2. split.
        * intros (? & ? & ?). repeat split; auto; lia.
        * intros (Hc1 & Hc2 & Hc3). repeat split; auto. destruct (Nat.eq_dec c cell); [subst; congruence|lia]. }
  apply G; auto.
  - apply repeat_length.
  - intros a Ha. rewrite nth_repeat. split; [constructor|]. intros c. simpl. split; [tauto|lia].
Qed.

Lemma conn_loop_spec : forall S_ cell conn b interior halo b' interior' halo',
  conn_loop S_ cell conn (b, interior, halo) = (b', interior', halo') -> increasing halo ->
  increasing halo' /\
  (forall d, In d halo' <-> In d halo \/ (In d conn /\ ~ In d S_)) /\
  interior' = interior ++ (if b then [] else if existsb (fun d => negb (set_mem d S_)) conn then [cell] else []).
Proof.
  induction conn as [|c t IH]; simpl; intros b interior halo b' interior' halo' H Hh.
  - inversion H; subst. repeat split; auto.
    + tauto.
    + destruct b'; rewrite app_nil_r; auto.
  - destruct (set_mem c S_) eqn:Ec; simpl.
    + apply IH in H; auto. destruct H as (H1 & H2 & H3). split; auto. split; auto.
      intros d. rewrite H2. apply set_mem_In in Ec. split; [tauto|]. intros [|([->|] & ?)]; tauto.
    + assert (Hnc : ~ In c S_) by (rewrite <- set_mem_In; congruence).
      assert (Hh' := set_insert_increasing c Hh).
      destruct b; apply IH in H; auto; destruct H as (H1 & H2 & H3); split; auto; split; auto.
      * intros d. rewrite H2, set_insert_In. split; [intuition congruence|]. intuition.
      * intros d. rewrite H2, set_insert_In. split; [intuition congruence|]. intuition.
      * rewrite H3. rewrite <- app_assoc. auto.
Qed.

Lemma agg_loop_spec : forall conn S_ cells interior halo interior' halo',
  agg_loop conn S_ cells interior halo = (interior', halo') -> increasing halo ->
  increasing halo' /\
  (forall d, In d halo' <-> In d halo \/ (exists c, In c cells /\ In d (conn c) /\ ~ In d S_)) /\
  interior' = interior ++ filter (fun c => existsb (fun d => negb (set_mem d S_)) (conn c)) cells.
Proof.
  induction cells as [|c t IH]; simpl; intros interior halo interior' halo' H Hh.
  - inversion H; subst. repeat split; auto.
    + intros [|(? & [] & _)]; auto.
    + rewrite app_nil_r; auto.
  - destruct (conn_loop S_ c (conn c) (false, interior, halo)) as [[b1 i1] h1] eqn:E.
    apply conn_loop_spec in E; auto. destruct E as (E1 & E2 & E3).
    apply IH in H; auto. destruct H as (H1 & H2 & H3). split; auto. split.
    + intros d. rewrite H2, E2. split.
      * intros [[|]|(c' & ? & ? & ?)]; auto.
        -- right. exists c. intuition.
        -- right. exists c'. intuition.
      * intros [|(c' & [<-|] & ? & ?)]; auto. right. exists c'. auto.
    + rewrite H3, E3. rewrite <- app_assoc. destruct (existsb _ (conn c)); auto.
Qed.

Lemma increasing_filter : forall f l, increasing l -> increasing (filter f l).
Proof.
  unfold increasing. induction 1 as [|a l Hl IH Ha]; simpl; [constructor|]. destruct (f a); auto.
  constructor; auto. rewrite Forall_forall in *. intros x Hx. apply filter_In in Hx. apply Ha. tauto.
Qed.

Lemma boundary_correct : forall m ui N conn, length ui = n_cells m ->
  (forall c, c < n_cells m -> owned m c = true -> 1 <= nth c ui 0 <= N) ->
  exists res, build_boundary_agglomerates m ui N conn = Ok res /\ length res = N /\
    forall a, 1 <= a <= N -> let '(interior, halo) := nth (a - 1) res ([], []) in
      increasing interior /\ increasing halo /\
      (forall c, In c interior <-> (in_agg m ui a c /\ exists d, In d (conn c) /\ ~ in_agg m ui a d)) /\
      (forall d, In d halo <-> (~ in_agg m ui a d /\ exists c, in_agg m ui a c /\ In d (conn c))).
Proof.
  intros m ui N conn Hl Hid. unfold build_boundary_agglomerates.
  destruct (agg_cells_correct m ui Hl Hid) as (sets & E & L & H). rewrite E. cbn [bind].
  eexists. split; [reflexivity|]. split; [rewrite map_length; auto|].
  intros a Ha. assert (Ha' : a - 1 < N) by lia. destruct (H _ Ha') as (H1 & H2).
  replace (S (a - 1)) with a in H2 by lia.
  set (f := fun s => agg_loop conn s s [] []).
  rewrite (nth_indep _ ([], []) (f [])) by (rewrite map_length; lia).
  rewrite map_nth. set (S_ := nth (a - 1) sets []) in *. unfold f.
  destruct (agg_loop conn S_ S_ [] []) as (interior & halo) eqn:El.
  apply agg_loop_spec in El; [|constructor]. destruct El as (G1 & G2 & G3). simpl in G3.
  split; [|split; [auto|split]].
  - rewrite G3. apply increasing_filter. auto.
  - intros c. rewrite G3, filter_In, H2, existsb_exists. split.
    + intros (Hc & d & Hd & Hn). split; auto. exists d. split; auto. rewrite <- H2, <- set_mem_In. destruct (set_mem d S_); auto; discriminate.
    + intros (Hc & d & Hd & Hn). split; auto. exists d. split; auto. rewrite <- H2, <- set_mem_In in Hn. destruct (set_mem d S_); auto.
  - intros d. rewrite G2. split.
    + intros [[]|(c & Hc & Hd & Hn)]. rewrite H2 in Hc, Hn. split; auto. exists c. auto.
    + intros (Hn & c & Hc & Hd). right. exists c. rewrite !H2. auto.
Qed.

(** ** Patches *)
Lemma patch_by_id_spec : forall n id ui, length ui = n ->
  increasing (patch_by_id n id ui) /\ forall c, In c (patch_by_id n id ui) <-> nth_error ui c = Some id.
Proof.
  intros n id ui Hl. split.
  - apply increasing_filter. unfold increasing. clear.
    generalize 0. induction n; intros s; simpl; constructor; auto.
    apply Forall_forall. intros x Hx. apply in_seq in Hx. lia.
  - intros c. unfold patch_by_id. rewrite filter_In, in_seq, Nat.eqb_eq. split.
    + intros (Hc & E). rewrite <- E. apply nth_error_nth_lt. lia.
    + intros E. split.
      * apply nth_error_lt in E. lia.
      * apply nth_error_nth. auto.
Qed.

Lemma usub_ge : forall a b, b <= a -> (Z.of_nat a < 2 ^ 32)%Z -> usub a b = (Z.of_nat a - Z.of_nat b)%Z.
Proof. intros a b H1 H2. unfold usub. apply Z.mod_small. lia. Qed.

Lemma usub_lt : forall a b, a < b -> (Z.of_nat b < 2 ^ 32)%Z -> usub a b = (Z.of_nat a - Z.of_nat b + 2 ^ 32)%Z.
Proof.
  intros a b H1 H2. unfold usub. symmetry. apply Z.mod_unique with (-1)%Z; [left|]; lia.
Qed.

Lemma patch_loop_ok : forall n l prev acc, (Z.of_nat n < 2 ^ 32)%Z -> prev < n -> nondecreasing (prev :: l) -> (forall x, In x l -> x < n) ->
  patch_loop n prev prev l acc = Ok (acc ++ l).
Proof.
  induction l as [|x t IH]; intros prev acc Hn Hp Hs Hr.
  - simpl. rewrite app_nil_r; auto.
  - cbn [patch_loop]. inversion Hs as [|? ? Hs1 Hs2]; subst. inversion Hs2; subst.
    assert (Hx : x < n) by (apply Hr; simpl; auto).
    rewrite usub_ge by lia. unfold advance.
    replace (0 <=? Z.of_nat x - Z.of_nat prev)%Z with true by (symmetry; apply Z.leb_le; lia).
    replace (Z.of_nat prev + (Z.of_nat x - Z.of_nat prev) <=? Z.of_nat n)%Z with true by (symmetry; apply Z.leb_le; lia).
    cbn [andb bind]. replace (Z.to_nat (Z.of_nat prev + (Z.of_nat x - Z.of_nat prev))) with x by lia.
    unfold deref. destruct (Nat.ltb_spec x n); [|lia]. cbn [bind].
    rewrite IH; auto.
    + rewrite <- app_assoc. auto.
    + intros y Hy. apply Hr. simpl; auto.
Qed.

Lemma patch_loop_ub : forall n l prev acc, (Z.of_nat n < 2 ^ 32)%Z -> prev < n -> (forall x, In x l -> (Z.of_nat x < 2 ^ 32)%Z) ->
  ~ (nondecreasing (prev :: l) /\ (forall x, In x l -> x < n)) ->
  patch_loop n prev prev l acc = UB.
Proof.
  induction l as [|x t IH]; intros prev acc Hn Hp Hr Hbad.
  - exfalso. apply Hbad. split; [repeat constructor|simpl; tauto].
  - cbn [patch_loop].
    assert (Hx32 : (Z.of_nat x < 2 ^ 32)%Z) by (apply Hr; simpl; auto).
    destruct (le_lt_dec prev x) as [Hle|Hgt].
    + rewrite usub_ge by lia. unfold advance.
      replace (0 <=? Z.of_nat x - Z.of_nat prev)%Z with true by (symmetry; apply Z.leb_le; lia).
      cbn [andb].
      destruct (Z.leb_spec (Z.of_nat prev + (Z.of_nat x - Z.of_nat prev)) (Z.of_nat n)); cbn [bind]; auto.
      replace (Z.to_nat (Z.of_nat prev + (Z.of_nat x - Z.of_nat prev))) with x by lia.
      unfold deref. destruct (Nat.ltb_spec x n); cbn [bind]; auto.
      apply IH; auto.
      * intros y Hy. apply Hr. simpl; auto.
      * intros (G1 & G2). apply Hbad. split.
        -- constructor; auto. inversion G1; subst. constructor; auto. eapply Forall_impl; [|exact H4]. simpl; lia.
        -- intros y [<-|Hy]; auto.
    + rewrite usub_lt by lia. unfold advance.
      replace (Z.of_nat prev + (Z.of_nat x - Z.of_nat prev + 2 ^ 32) <=? Z.of_nat n)%Z with false by (symmetry; apply Z.leb_gt; lia).
      rewrite andb_false_r. auto.
Qed.

Lemma patch_by_index_spec : forall n l, (Z.of_nat n < 2 ^ 32)%Z -> (forall x, In x l -> (Z.of_nat x < 2 ^ 32)%Z) ->
  ((nondecreasing l /\ forall x, In x l -> x < n) -> patch_by_index n l = Ok l) /\
  (~ (nondecreasing l /\ forall x, In x l -> x < n) -> patch_by_index n l = UB).
Proof.
  intros n [|x t] Hn Hr.
  - split; auto. intros H. exfalso. apply H. split; [constructor|simpl; tauto].
  - unfold patch_by_index, advance, deref. split.
    + intros (Hs & Hi). assert (Hx : x < n) by (apply Hi; simpl; auto).
      replace (0 <=? Z.of_nat x)%Z with true by (symmetry; apply Z.leb_le; lia).
      replace (Z.of_nat 0 + Z.of_nat x <=? Z.of_nat n)%Z with true by (symmetry; apply Z.leb_le; lia).
      cbn [andb bind]. replace (Z.to_nat (Z.of_nat 0 + Z.of_nat x)) with x by lia.
      destruct (Nat.ltb_spec x n); [|lia]. cbn [bind].
      rewrite patch_loop_ok; auto. intros y Hy. apply Hi. simpl; auto.
    + intros Hbad. replace (0 <=? Z.of_nat x)%Z with true by (symmetry; apply Z.leb_le; lia). cbn [andb].
      destruct (Z.leb_spec (Z.of_nat 0 + Z.of_nat x) (Z.of_nat n)); cbn [bind]; auto.
      replace (Z.to_nat (Z.of_nat 0 + Z.of_nat x)) with x by lia.
      destruct (Nat.ltb_spec x n); cbn [bind]; auto.
      apply patch_loop_ub; auto.
      * intros y Hy. apply Hr. simpl; auto.
      * intros (G1 & G2). apply Hbad. split; auto. intros y [<-|Hy]; auto.
Qed.

Lemma increasing_nondecreasing : forall l, increasing l -> nondecreasing l.
Proof.
  unfold increasing, nondecreasing. induction 1; constructor; auto. eapply Forall_impl; [|eassumption]. simpl; lia.
Qed.

(** The patches requested from the boundary agglomerates never leave the mesh. *)
Lemma boundary_patches_ok : forall m ui N conn res, (Z.of_nat (n_cells m) < 2 ^ 32)%Z -> length ui = n_cells m ->
  (forall c, c < n_cells m -> owned m c = true -> 1 <= nth c ui 0 <= N) ->
  (forall c d, In d (conn c) -> d < n_cells m) ->
  build_boundary_agglomerates m ui N conn = Ok res ->
  forall interior halo, In (interior, halo) res ->
    patch_by_index (n_cells m) interior = Ok interior /\ patch_by_index (n_cells m) halo = Ok halo.
Proof.
  intros m ui N conn res Hn Hl Hid Hconn Hres interior halo Hin.
  destruct (boundary_correct m ui conn Hl Hid) as (res' & E & L & H). rewrite E in Hres. inversion Hres; subst res'.
  destruct (In_nth _ _ ([], []) Hin) as (a & Ha & En).
  assert (Ha1 : 1 <= S a <= N) by lia.
  specialize (H (S a) Ha1). simpl in H. rewrite Nat.sub_0_r, En in H. destruct H as (H1 & H2 & H3 & H4).
  assert (R1 : forall x, In x interior -> x < n_cells m) by (intros x Hx; apply H3 in Hx; apply Hx).
  assert (R2 : forall x, In x halo -> x < n_cells m) by (intros x Hx; apply H4 in Hx; destruct Hx as (_ & c & _ & Hx); eauto).
  split; apply patch_by_index_spec; auto using increasing_nondecreasing.
  - intros x Hx. apply R1 in Hx. lia.
  - intros x Hx. apply R2 in Hx. lia.
Qed.

(** ** Dof maps *)
Lemma dof_inner_spec : forall g agg_dofs k i map, i + k = length agg_dofs -> (forall a, In a agg_dofs -> a < length map) ->
  exists map', dof_inner agg_dofs (List.map g agg_dofs) k i map = Ok map' /\ length map' = length map /\
    forall d, nth d map' 0 = g d /\ In d (skipn i agg_dofs) \/ nth d map' 0 = nth d map 0 /\ ~ In d (skipn i agg_dofs).
Proof.
  induction k; intros i map Hk Hr.
  - simpl. exists map. split; auto. split; auto. intros d. right. split; auto.
    rewrite skipn_all2 by lia. simpl; tauto.
  - cbn [dof_inner]. assert (Hi : i < length agg_dofs) by lia.
    rewrite (rd_nth _ 0 Hi). cbn [bind]. rewrite (rd_nth _ (g 0)) by (rewrite map_length; auto). cbn [bind].
    rewrite map_nth. set (a := nth i agg_dofs 0). assert (Ha : In a agg_dofs) by (apply nth_In; auto).
    rewrite wr_in by auto. cbn [bind].
    destruct (IHk (S i) (upd map a (g a))) as (map' & E & L & H); [lia|rewrite upd_length; auto|].
    exists map'. split; auto. rewrite upd_length in L. split; auto.
    assert (Es : skipn i agg_dofs = a :: skipn (S i) agg_dofs).
    { unfold a. clear - Hi. revert i Hi. induction agg_dofs; simpl; intros i Hi; [lia|]. destruct i; auto. apply IHagg_dofs. lia. }
    rewrite Es. intros d. destruct (H d) as [(H1 & H2)|(H1 & H2)].
    + left. split; auto. simpl; auto.
    + rewrite nth_upd in H1 by auto. destruct (Nat.eqb_spec d a).
      * subst d. left. split; auto. simpl; auto.
      * right. split; auto. simpl. intros [|]; auto; congruence.
Qed.

Lemma dof_map_correct : forall n_dofs dpc agg_dofs glob_dofs cells (g : nat -> nat),
  (forall c, In c cells -> length (agg_dofs c) = dpc /\ (forall a, In a (agg_dofs c) -> a < n_dofs) /\
     glob_dofs c = Some (map g (agg_dofs c))) ->
  (forall a, a < n_dofs -> exists c, In c cells /\ In a (agg_dofs c)) ->
  compute_dof_index_map n_dofs dpc agg_dofs glob_dofs cells = Ok (map g (seq 0 n_dofs)).
Proof.
  intros n_dofs dpc agg_dofs glob_dofs cells g Hc Hall.
  assert (G : forall cells' mp, incl cells' cells -> length mp = n_dofs ->
    (forall d, d < n_dofs -> nth d mp 0 = g d \/ exists c, In c cells' /\ In d (agg_dofs c)) ->
    dof_cells dpc agg_dofs glob_dofs cells' mp = Ok (map g (seq 0 n_dofs))).
  { induction cells' as [|c t IH]; intros mp Hi Hl H.
    - simpl. f_equal. apply list_ext with (d := 0).
      + rewrite map_length, seq_length; auto.
      + intros d Hd. destruct (H d) as [E|(? & [] & _)]; [lia|].
        rewrite E. rewrite (nth_indep _ 0 (g 0)) by (rewrite map_length, seq_length; lia). rewrite map_nth, seq_nth by lia. auto.
    - cbn [dof_cells]. destruct (Hc c) as (H1 & H2 & H3); [apply Hi; simpl; auto|]. rewrite H3.
      destruct (@dof_inner_spec g (agg_dofs c) dpc 0 mp) as (mp' & E & L & H4); [auto|intros; rewrite Hl; auto|].
      rewrite E. cbn [bind]. apply IH.
      + intros x Hx. apply Hi. simpl; auto.
      + congruence.
      + intros d Hd. destruct (H4 d) as [(H5 & H6)|(H5 & H6)]; auto. simpl in H6.
        rewrite H5. destruct (H d Hd) as [|(c' & [<-|] & Hin)]; auto; [tauto|]. right. exists c'. auto. }
  apply G; auto.
  - apply incl_refl.
  - apply repeat_length.
Qed.

Lemma dof_map_unknown : forall n_dofs dpc agg_dofs glob_dofs c t, glob_dofs c = None ->
  compute_dof_index_map n_dofs dpc agg_dofs glob_dofs (c :: t) = Throw.
Proof. intros. unfold compute_dof_index_map. simpl. rewrite H. auto. Qed.

(** ** pvtu record *)
Lemma pvtu_loop_spec : forall name k i x l, pvtu_loop name k i (x :: l) = Ok (match k with 0 => x | S _ => Some (name (i + k - 1)) end :: l).
Proof.
  induction k; intros i x l; auto. cbn [pvtu_loop]. rewrite wr_in by (simpl; lia). cbn [bind upd].
  rewrite IHk. destruct k.
  - replace (i + 1 - 1) with i by lia. auto.
  - replace (i + S (S k) - 1) with (S i + S k - 1) by lia. auto.
Qed.

Lemma pvtu_list_spec : forall name n, pvtu_list name (S n) = Ok (Some (name n) :: repeat None n).
Proof. intros. unfold pvtu_list. cbn [repeat]. rewrite pvtu_loop_spec. replace (0 + S n - 1) with n by lia. auto. Qed.

Lemma pvtu_correct_iff : forall name n, pvtu_list name n = Ok (map (fun i => Some (name i)) (seq 0 n)) <-> n <= 1.
Proof.
  intros name n. destruct n as [|[|n]].
  - split; auto.
  - split; auto.
  - split; [|lia]. rewrite pvtu_list_spec. simpl. intros H. inversion H.
Qed.

(** ** Witness meshes *)
(** The lexicographically numbered serial grid. *)
Definition grid_mesh (nx ny nz : nat) : mesh := {|
  n_cells := nx * ny * nz;
  owned := fun _ => true;
  fx := fun c => if S (c mod nx) <? nx then FCell (S c) true else FBoundary;
  fy := fun c => if S ((c / nx) mod ny) <? ny then FCell (c + nx) true else FBoundary;
  fz := fun c => if S (c / nx / ny) <? nz then FCell (c + nx * ny) true else FBoundary
|}.

Lemma grid_box : forall nx ny nz, box (grid_mesh nx ny nz) nx ny nz (fun c => c mod nx) (fun c => (c / nx) mod ny)
  (fun c => c / nx / ny) (fun i j k => i + nx * (j + ny * k)).
Proof.
  intros nx ny nz.
  assert (C : forall c, c < nx * ny * nz -> 0 < nx /\ 0 < ny /\ c mod nx < nx /\ (c / nx) mod ny < ny /\ c / nx / ny < nz /\
    c mod nx + nx * ((c / nx) mod ny + ny * (c / nx / ny)) = c).
  { intros c Hc. assert (0 < nx) by nia. assert (0 < ny) by nia.
    pose proof (Nat.div_mod c nx ltac:(lia)) as D1. pose proof (Nat.mod_upper_bound c nx ltac:(lia)).
    pose proof (Nat.div_mod (c / nx) ny ltac:(lia)) as D2. pose proof (Nat.mod_upper_bound (c / nx) ny ltac:(lia)).
    repeat split; auto.
    - assert (c / nx < ny * nz) by (apply Nat.div_lt_upper_bound; lia). apply Nat.div_lt_upper_bound; lia.
    - rewrite <- (Nat.add_comm (ny * (c / nx / ny))), <- D2. lia. }
  assert (A : forall i j k, i < nx -> j < ny -> k < nz ->
    i + nx * (j + ny * k) < nx * ny * nz /\ (i + nx * (j + ny * k)) mod nx = i /\ ((i + nx * (j + ny * k)) / nx) mod ny = j /\
    (i + nx * (j + ny * k)) / nx / ny = k).
  { intros i j k Hi Hj Hk.
    assert (E1 : (i + nx * (j + ny * k)) / nx = j + ny * k).
    { symmetry. apply Nat.div_unique with i; lia. }
    rewrite E1. repeat split.
    - assert (G1 : ny * (k + 1) <= ny * nz) by (apply Nat.mul_le_mono_l; lia).
      assert (G2 : nx * (j + ny * k + 1) <= nx * (ny * nz)) by (apply Nat.mul_le_mono_l; lia).
      lia.
    - symmetry. apply Nat.mod_unique with (j + ny * k); lia.
    - symmetry. apply Nat.mod_unique with k; lia.
    - symmetry. apply Nat.div_unique with j; lia. }
  constructor; simpl.
  - intros c Hc. destruct (C c Hc) as (_ & _ & H1 & H2 & H3 & H4). auto.
  - intros. apply A; auto.
  - intros i j k i' j' k' H1 H2 H3 H4 H5 H6.
    assert (G1 : ny * k <= ny * k') by (apply Nat.mul_le_mono_l; lia).
    assert (G2 : nx * (j + ny * k) <= nx * (j' + ny * k')) by (apply Nat.mul_le_mono_l; lia).
    lia.
  - auto.
  - intros c Hc. destruct (C c Hc) as (_ & _ & H1 & H2 & H3 & H4). destruct (Nat.ltb_spec (S (c mod nx)) nx); auto.
    f_equal. lia.
  - intros c Hc. destruct (C c Hc) as (_ & _ & H1 & H2 & H3 & H4). destruct (Nat.ltb_spec (S ((c / nx) mod ny)) ny); auto.
    f_equal. lia.
  - intros c Hc. destruct (C c Hc) as (_ & _ & H1 & H2 & H3 & H4). destruct (Nat.ltb_spec (S (c / nx / ny)) nz); auto.
    f_equal. nia.
Qed.

(** Two cells in a row, numbered right to left. *)
Definition backward_mesh : mesh := {|
  n_cells := 2;
  owned := fun _ => true;
  fx := fun c => match c with 1 => FCell 0 true | _ => FBoundary end;
  fy := fun _ => FBoundary;
  fz := fun _ => FBoundary
|}.

(** A distributed mesh: a row of four cells of which the second belongs to another process. *)
Definition ghost_mesh : mesh := {|
  n_cells := 4;
  owned := fun c => negb (c =? 1);
  fx := fun c => if c <? 3 then FCell (S c) true else FBoundary;
  fy := fun _ => FBoundary;
  fz := fun _ => FBoundary
|}.

Lemma backward_mesh_empty : mesh_ok true backward_mesh /\
  exists ui' N a, build_agglomerates_block true false backward_mesh 2 1 1 [0; 0] = Ok (ui', N) /\ 1 <= a <= N /\
    forall c, c < n_cells backward_mesh -> nth c ui' 0 <> a.
Proof.
  split.
  - intros c Hc. simpl in *. destruct c as [|[|c]]; simpl; repeat split; auto.
  - exists [2; 2], 2, 1. split; [reflexivity|]. split; [lia|].
    intros c Hc. simpl in Hc. destruct c as [|[|c]]; simpl; lia.
Qed.

Lemma ghost_mesh_ok : mesh_ok true ghost_mesh /\ mesh_monotone ghost_mesh.
Proof.
  split.
  - intros c Hc. simpl in *. destruct (Nat.ltb_spec c 3); simpl; repeat split; auto. lia.
  - intros c nb s Hc H. simpl in *. destruct H as [H|[H|H]]; try discriminate.
    destruct (c <? 3); inversion H. auto.
Qed.
