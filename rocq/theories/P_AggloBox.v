(** Block agglomeration of a structured box (M_Agglo.v) is the tiling. *)
From Coq Require Import List Arith Lia Bool Permutation Sorted.
From Verif Require Import Base M_Agglo S_Agglo P_Agglo.
Import ListNotations.
Set Implicit Arguments.

Section Box.
  Variable debug dim3 : bool.
  Variable m : mesh.
  Variables nx ny nz : nat.
  Variables X Y Z : nat -> nat.
  Variable at_ : nat -> nat -> nat -> nat.
  Hypothesis B : box m nx ny nz X Y Z at_.
  Let n := n_cells m.

  Variables bx by_ bz0 : nat.
  Hypothesis Hbx : 1 <= bx.
  Hypothesis Hby : 1 <= by_.
  Hypothesis Hbz0 : 1 <= bz0.
  (** In two dimensions the mesh is one cell thick and the third block size is not used. *)
  Hypothesis Hdim : dim3 = false -> nz <= 1.
  Let bz := if dim3 then bz0 else 1.

  Lemma bz_pos : 1 <= bz.
  Proof. unfold bz. destruct dim3; auto. Qed.

  Lemma box_step_x : forall c, c < n -> step_x debug m c =
    Ok (if S (X c) <? nx then Some (at_ (S (X c)) (Y c) (Z c)) else None).
  Proof.
    intros c Hc. unfold step_x. rewrite (box_fx B Hc). destruct (Nat.ltb_spec (S (X c)) nx); auto.
    destruct (box_coord B Hc) as (H1 & H2 & H3 & _).
    destruct (box_at B (i:=S (X c)) (j:=Y c) (k:=Z c)) as (H4 & _); auto.
    rewrite andb_false_r. rewrite (box_owned B H4). auto.
  Qed.

  Lemma box_step_y : forall c, c < n -> step_yz debug m (fy m c) c =
    Ok (if S (Y c) <? ny then Some (at_ (X c) (S (Y c)) (Z c)) else None).
  Proof.
    intros c Hc. unfold step_yz. rewrite (box_fy B Hc). destruct (Nat.ltb_spec (S (Y c)) ny); auto.
    destruct (box_coord B Hc) as (H1 & H2 & H3 & _).
    destruct (box_at B (i:=X c) (j:=S (Y c)) (k:=Z c)) as (H4 & _); auto.
    rewrite andb_false_r. rewrite (box_owned B H4). auto.
  Qed.

  Lemma box_step_z : forall c, c < n -> step_yz debug m (fz m c) c =
    Ok (if S (Z c) <? nz then Some (at_ (X c) (Y c) (S (Z c))) else None).
  Proof.
    intros c Hc. unfold step_yz. rewrite (box_fz B Hc). destruct (Nat.ltb_spec (S (Z c)) nz); auto.
    destruct (box_coord B Hc) as (H1 & H2 & H3 & _).
    destruct (box_at B (i:=X c) (j:=Y c) (k:=S (Z c))) as (H4 & _); auto.
    rewrite andb_false_r. rewrite (box_owned B H4). auto.
  Qed.

  (** The loops set exactly the cells of a row, a slab, a block. *)
  Definition sets (agg : nat) (S_ : nat -> Prop) (ui ui' : list nat) : Prop :=
    length ui' = n /\ forall d, d < n -> (S_ d -> nth d ui' 0 = agg) /\ (~ S_ d -> nth d ui' 0 = nth d ui 0).

  Lemma sets_weaken : forall agg (S1 S2 : nat -> Prop) ui ui', sets agg S1 ui ui' ->
    (forall d, d < n -> (S1 d <-> S2 d)) -> sets agg S2 ui ui'.
  Proof. intros agg S1 S2 ui ui' (L & H) E. split; auto. intros d Hd. destruct (H d Hd) as (Ha & Hb). split; intros G; [apply Ha|apply Hb]; apply E in G || (intros G'; apply G; apply E); auto. Qed.

  Lemma sets_comp : forall agg (S1 S2 : nat -> Prop) (dec : forall d, S2 d \/ ~ S2 d) ui ui1 ui2,
    sets agg S1 ui ui1 -> sets agg S2 ui1 ui2 -> sets agg (fun d => S1 d \/ S2 d) ui ui2.
  Proof.
    intros agg S1 S2 dec ui ui1 ui2 (L1 & H1) (L2 & H2). split; auto. intros d Hd.
    destruct (H1 d Hd) as (A1 & B1), (H2 d Hd) as (A2 & B2). split.
    - intros [G|G]; auto. destruct (dec d) as [D|D]; auto. rewrite B2; auto.
    - intros G. rewrite B2, B1; tauto.
  Qed.

  Definition in_row (i j k w : nat) (d : nat) : Prop := i <= X d < i + w /\ Y d = j /\ Z d = k.
  Definition in_slab (i j k w h : nat) (d : nat) : Prop := i <= X d < i + w /\ j <= Y d < j + h /\ Z d = k.
  Definition in_block (i j k w h t : nat) (d : nat) : Prop := i <= X d < i + w /\ j <= Y d < j + h /\ k <= Z d < k + t.

  Lemma in_row_dec : forall i j k w d, in_row i j k w d \/ ~ in_row i j k w d.
  Proof. intros. unfold in_row. lia. Qed.
  Lemma in_slab_dec : forall i j k w h d, in_slab i j k w h d \/ ~ in_slab i j k w h d.
  Proof. intros. unfold in_slab. lia. Qed.
  Lemma in_block_dec : forall i j k w h t d, in_block i j k w h t d \/ ~ in_block i j k w h t d.
  Proof. intros. unfold in_block. lia. Qed.

  Lemma coord_eq : forall c d, c < n -> d < n -> X c = X d -> Y c = Y d -> Z c = Z d -> c = d.
  Proof.
    intros c d Hc Hd E1 E2 E3. destruct (box_coord B Hc) as (_ & _ & _ & Ec). destruct (box_coord B Hd) as (_ & _ & _ & Ed).
    congruence.
  Qed.

  Lemma loop_x_sets : forall agg k cur ui, cur < n -> length ui = n -> exists ui', loop_x debug m agg k cur ui = Ok ui' /\
    sets agg (in_row (X cur) (Y cur) (Z cur) k) ui ui'.
  Proof.
    induction k; intros cur ui Hc Hl.
    - exists ui. split; auto. split; auto. intros d Hd. unfold in_row. split; auto. lia.
    - simpl. rewrite wr_in by lia. cbn [bind]. rewrite box_step_x by auto. cbn [bind].
      assert (Su : sets agg (fun d => d = cur) ui (upd ui cur agg)).
      { split; [rewrite upd_length; auto|]. intros d Hd. rewrite nth_upd by lia.
        destruct (Nat.eqb_spec d cur); split; intros; auto; contradiction. }
      destruct (box_coord B Hc) as (Hx & Hy & Hz & Hat).
      destruct (Nat.ltb_spec (S (X cur)) nx).
      + destruct (box_at B (i:=S (X cur)) (j:=Y cur) (k:=Z cur)) as (H4 & E1 & E2 & E3); auto.
        destruct (IHk (at_ (S (X cur)) (Y cur) (Z cur)) (upd ui cur agg)) as (ui' & E & Hs); auto.
        { rewrite upd_length; auto. }
        exists ui'. split; auto.
        eapply sets_weaken; [eapply sets_comp; [|exact Su|exact Hs]|].
        * apply in_row_dec.
        * simpl. intros d Hd. rewrite E1, E2, E3. unfold in_row. split.
          -- intros [->|]; lia.
          -- intros (G1 & G2 & G3). destruct (Nat.eq_dec (X d) (X cur)); [|right; lia].
             left. apply coord_eq; auto.
      + exists (upd ui cur agg). split; auto. eapply sets_weaken; [exact Su|]. simpl. intros d Hd.
        destruct (box_coord B Hd) as (Hx' & _).
        unfold in_row. split; [intros ->; lia|]. intros (G1 & G2 & G3). apply coord_eq; auto. lia.
  Qed.

  Lemma loop_y_sets : forall agg k cur ui, cur < n -> length ui = n -> exists ui', loop_y debug m agg bx k cur ui = Ok ui' /\
    sets agg (in_slab (X cur) (Y cur) (Z cur) bx k) ui ui'.
  Proof.
    induction k; intros cur ui Hc Hl.
    - exists ui. split; auto. split; auto. intros d Hd. unfold in_slab. split; auto. lia.
    - simpl. destruct (@loop_x_sets agg bx cur ui Hc Hl) as (ui1 & E1 & Su). rewrite E1. cbn [bind].
      rewrite box_step_y by auto. cbn [bind].
      destruct (box_coord B Hc) as (Hx & Hy & Hz & Hat).
      destruct (Nat.ltb_spec (S (Y cur)) ny).
      + destruct (box_at B (i:=X cur) (j:=S (Y cur)) (k:=Z cur)) as (H4 & F1 & F2 & F3); auto.
        destruct (IHk (at_ (X cur) (S (Y cur)) (Z cur)) ui1) as (ui' & E & Hs); auto.
        { apply Su. }
        exists ui'. split; auto.
        eapply sets_weaken; [eapply sets_comp; [|exact Su|exact Hs]|].
        * apply in_slab_dec.
        * simpl. intros d Hd. rewrite F1, F2, F3. unfold in_row, in_slab. lia.
      + exists ui1. split; auto. eapply sets_weaken; [exact Su|]. simpl. intros d Hd.
        destruct (box_coord B Hd) as (_ & Hy' & _). unfold in_row, in_slab. lia.
  Qed.

  Lemma loop_z_sets : forall agg k cur ui, 1 <= k -> (dim3 = false -> k = 1) -> cur < n -> length ui = n ->
    exists ui', loop_z debug dim3 m agg bx by_ k cur ui = Ok ui' /\
    sets agg (in_block (X cur) (Y cur) (Z cur) bx by_ k) ui ui'.
  Proof.
    induction k; intros cur ui Hk Hk1 Hc Hl; [lia|].
    simpl. destruct (@loop_y_sets agg by_ cur ui Hc Hl) as (ui1 & E1 & Su). rewrite E1. cbn [bind].
    destruct (box_coord B Hc) as (Hx & Hy & Hz & Hat).
    destruct (bool_dec dim3 true) as [D3|D3]; [rewrite D3; rewrite D3 in IHk|apply not_true_is_false in D3; rewrite D3].
    - rewrite box_step_z by auto. cbn [bind].
      destruct (Nat.ltb_spec (S (Z cur)) nz).
      + destruct (box_at B (i:=X cur) (j:=Y cur) (k:=S (Z cur))) as (H4 & F1 & F2 & F3); auto.
        destruct (Nat.eq_dec k 0) as [->|].
        * simpl. exists ui1. split; auto. eapply sets_weaken; [exact Su|]. intros d Hd. unfold in_slab, in_block. lia.
        * destruct (IHk (at_ (X cur) (Y cur) (S (Z cur))) ui1) as (ui' & E & Hs); auto; try lia; try (intros; congruence); try apply Su.
          exists ui'. split; auto.
          eapply sets_weaken; [eapply sets_comp; [|exact Su|exact Hs]|].
          -- apply in_block_dec.
          -- simpl. intros d Hd. rewrite F1, F2, F3. unfold in_slab, in_block. lia.
      + exists ui1. split; auto. eapply sets_weaken; [exact Su|]. simpl. intros d Hd.
        destruct (box_coord B Hd) as (_ & _ & Hz' & _). unfold in_slab, in_block. lia.
    - exists ui1. split; auto. eapply sets_weaken; [exact Su|]. simpl. intros d Hd.
      rewrite (Hk1 D3). pose proof (Hdim D3). destruct (box_coord B Hd) as (_ & _ & Hz' & _). unfold in_slab, in_block. lia.
  Qed.

  Lemma mark_block_sets : forall agg cell ui, cell < n -> length ui = n ->
    exists ui', mark_block debug dim3 m bx by_ bz0 agg cell ui = Ok ui' /\
    sets agg (in_block (X cell) (Y cell) (Z cell) bx by_ bz) ui ui'.
  Proof.
    intros agg cell ui Hc Hl. unfold mark_block. rewrite wr_in by lia. cbn [bind].
    destruct (@loop_z_sets agg bz cell (upd ui cell agg)) as (ui' & E & Hs); auto.
    - apply bz_pos.
    - unfold bz. intros ->. auto.
    - rewrite upd_length; auto.
    - exists ui'. split; auto. destruct Hs as (L & H). split; auto. intros d Hd. destruct (H d Hd) as (H1 & H2).
      split; auto. intros G. rewrite H2 by auto. apply nth_upd_neq. intros ->. apply G.
      unfold in_block. pose proof bz_pos. lia.
  Qed.

  (** *** Tiles *)
  Definition corner (d : nat) : nat := at_ (X d - X d mod bx) (Y d - Y d mod by_) (Z d - Z d mod bz).
  Definition is_corner (d : nat) : bool := corner d =? d.

  Lemma corner_facts : forall d, d < n -> corner d < n /\ corner d <= d /\
    X (corner d) = X d - X d mod bx /\ Y (corner d) = Y d - Y d mod by_ /\ Z (corner d) = Z d - Z d mod bz.
  Proof.
    intros d Hd. destruct (box_coord B Hd) as (Hx & Hy & Hz & Hat). unfold corner.
    destruct (box_at B (i:=X d - X d mod bx) (j:=Y d - Y d mod by_) (k:=Z d - Z d mod bz)) as (H1 & H2 & H3 & H4); try lia.
    repeat split; auto.
    eapply Nat.le_trans; [|apply Nat.eq_le_incl; exact Hat]. apply (box_mono B); lia.
  Qed.

  Lemma mod_block : forall a b c, 1 <= c -> a mod c = 0 -> (a <= b < a + c <-> b - b mod c = a).
  Proof.
    intros a b c Hc Ha. pose proof (Nat.div_mod a c ltac:(lia)). pose proof (Nat.div_mod b c ltac:(lia)).
    pose proof (Nat.mod_upper_bound b c ltac:(lia)). split.
    - intros Hb. assert (b / c = a / c) by nia. nia.
    - intros E. lia.
  Qed.

  Lemma sub_mod_mod : forall a c, 1 <= c -> (a - a mod c) mod c = 0.
  Proof.
    intros a c Hc. pose proof (Nat.div_mod a c ltac:(lia)).
    replace (a - a mod c) with ((a / c) * c) by lia. apply Nat.mod_mul. lia.
  Qed.

  Lemma is_corner_mods : forall c, c < n -> corner c = c -> X c mod bx = 0 /\ Y c mod by_ = 0 /\ Z c mod bz = 0.
  Proof.
    intros c Hc E. destruct (corner_facts Hc) as (_ & _ & E1 & E2 & E3). rewrite E in *.
    rewrite E1, E2, E3. repeat split; apply sub_mod_mod; auto using bz_pos.
  Qed.

  Lemma corner_iff : forall c d, c < n -> d < n -> corner c = c ->
    (in_block (X c) (Y c) (Z c) bx by_ bz d <-> corner d = c).
  Proof.
    intros c d Hc Hd Ec. destruct (is_corner_mods Hc Ec) as (M1 & M2 & M3).
    destruct (corner_facts Hd) as (D1 & D2 & D3 & D4 & D5).
    unfold in_block.
    rewrite (@mod_block (X c) (X d) bx), (@mod_block (Y c) (Y d) by_), (@mod_block (Z c) (Z d) bz); auto using bz_pos.
    split.
    - intros (E1 & E2 & E3). apply coord_eq; auto; congruence.
    - intros E. rewrite E in *. auto.
  Qed.

  Lemma corner_idem : forall d, d < n -> corner (corner d) = corner d.
  Proof.
    intros d Hd. destruct (corner_facts Hd) as (D1 & D2 & D3 & D4 & D5). unfold corner at 1.
    rewrite D3, D4, D5. rewrite !sub_mod_mod by auto using bz_pos. rewrite !Nat.sub_0_r. auto.
  Qed.

  (** Number of corners among the first [c] cells. *)
  Definition ncorners (c : nat) : nat := length (filter is_corner (seq 0 c)).

  Lemma ncorners_S : forall c, ncorners (S c) = ncorners c + if is_corner c then 1 else 0.
  Proof.
    intros c. unfold ncorners. rewrite seq_S. rewrite filter_app, app_length. simpl. destruct (is_corner c); auto.
  Qed.

  Lemma ncorners_mono : forall a b, a <= b -> ncorners a <= ncorners b.
  Proof. intros a b H. induction H; auto. rewrite ncorners_S. lia. Qed.

  Lemma ncorners_lt : forall a b, a < b -> corner a = a -> ncorners a < ncorners b.
  Proof.
    intros a b H E. assert (ncorners (S a) <= ncorners b) by (apply ncorners_mono; lia).
    rewrite ncorners_S in H0. unfold is_corner in H0. rewrite E, Nat.eqb_refl in H0. lia.
  Qed.

  Lemma block_loop_tiles : forall k cell ui, cell + k = n -> length ui = n ->
    (forall d, d < n -> nth d ui 0 = if corner d <? cell then S (ncorners (corner d)) else 0) ->
    exists ui', block_loop debug dim3 m bx by_ bz0 k cell (S (ncorners cell)) ui = Ok (ui', S (ncorners n)) /\
      length ui' = n /\ forall d, d < n -> nth d ui' 0 = S (ncorners (corner d)).
  Proof.
    induction k; intros cell ui Hk Hl H.
    - simpl. exists ui. replace cell with n by lia. split; auto. split; auto. intros d Hd. rewrite H by auto.
      destruct (corner_facts Hd) as (D1 & _). destruct (Nat.ltb_spec (corner d) cell); auto. lia.
    - simpl. rewrite (rd_nth _ 0) by lia. cbn [bind]. rewrite (box_owned B) by (fold n; lia). simpl.
      assert (Hc : cell < n) by lia.
      destruct (corner_facts Hc) as (D1 & D2 & D3 & D4 & D5).
      assert (Eu := H cell Hc).
      destruct (Nat.ltb_spec (corner cell) cell) as [Hlt|Hge].
      + rewrite Eu. simpl.
        destruct (IHk (S cell) ui) as (ui' & E & R); auto; try lia.
        * intros d Hd. rewrite H by auto. destruct (Nat.ltb_spec (corner d) cell), (Nat.ltb_spec (corner d) (S cell)); auto; try lia.
          exfalso. assert (Ed : corner d = cell) by lia. pose proof (corner_idem Hd). rewrite Ed in *. lia.
        * exists ui'. split; auto. rewrite ncorners_S in E. unfold is_corner in E.
          destruct (Nat.eqb_spec (corner cell) cell); [lia|]. rewrite Nat.add_0_r in E. auto.
      + assert (Ec : corner cell = cell) by lia. rewrite Eu. simpl.
        destruct (@mark_block_sets (S (ncorners cell)) cell ui) as (ui1 & E1 & L1 & S1); auto.
        rewrite E1. cbn [bind].
        destruct (IHk (S cell) ui1) as (ui' & E & R); auto; try lia.
        * intros d Hd. destruct (S1 d Hd) as (Sa & Sb). pose proof (corner_iff Hc Hd Ec) as Hi.
          destruct (Nat.eq_dec (corner d) cell) as [Ed|Ed].
          -- rewrite Sa by tauto. rewrite Ed. destruct (Nat.ltb_spec cell (S cell)); auto; lia.
          -- rewrite Sb by tauto. rewrite H by auto.
             destruct (Nat.ltb_spec (corner d) cell), (Nat.ltb_spec (corner d) (S cell)); auto; lia.
        * exists ui'. split; auto. rewrite ncorners_S in E. unfold is_corner in E.
          rewrite Ec, Nat.eqb_refl in E. replace (ncorners cell + 1) with (S (ncorners cell)) in E by lia. auto.
  Qed.

  (** *** Counting the tiles *)
  Lemma ceil_div_spec : forall a b i, 1 <= b -> (i < ceil_div a b <-> i * b < a).
  Proof.
    intros a b i Hb. unfold ceil_div.
    pose proof (Nat.div_mod (a + b - 1) b ltac:(lia)). pose proof (Nat.mod_upper_bound (a + b - 1) b ltac:(lia)).
    split; intros G; nia.
  Qed.

  Definition tile_list : list nat :=
    flat_map (fun K => flat_map (fun J => map (fun I => at_ (I * bx) (J * by_) (K * bz)) (seq 0 (ceil_div nx bx)))
      (seq 0 (ceil_div ny by_))) (seq 0 (ceil_div nz bz)).

  Lemma tile_list_length : length tile_list = ceil_div nx bx * ceil_div ny by_ * ceil_div nz bz.
  Proof.
    unfold tile_list.
    assert (G : forall A (f : nat -> list A) w l, (forall x, In x l -> length (f x) = w) -> length (flat_map f l) = length l * w).
    { induction l; simpl; intros Hf; auto. rewrite app_length. rewrite Hf by auto. rewrite IHl; auto. }
    rewrite G with (w := ceil_div nx bx * ceil_div ny by_).
    - rewrite seq_length. lia.
    - intros K _. rewrite G with (w := ceil_div nx bx).
      + rewrite seq_length. lia.
      + intros J _. rewrite map_length, seq_length. auto.
  Qed.

  Lemma tile_list_in : forall c, In c tile_list <-> (c < n /\ corner c = c).
  Proof.
    intros c. unfold tile_list. rewrite in_flat_map. split.
    - intros (K & HK & H). apply in_flat_map in H. destruct H as (J & HJ & H). apply in_map_iff in H.
      destruct H as (I & <- & HI). apply in_seq in HK, HJ, HI.
      assert (HK' : K < ceil_div nz bz) by lia. assert (HJ' : J < ceil_div ny by_) by lia. assert (HI' : I < ceil_div nx bx) by lia.
      apply ceil_div_spec in HK', HJ', HI'; auto using bz_pos.
      destruct (box_at B HI' HJ' HK') as (H1 & H2 & H3 & H4). split; auto.
      unfold corner. rewrite H2, H3, H4. rewrite !Nat.mod_mul by (pose proof bz_pos; lia). rewrite !Nat.sub_0_r. auto.
    - intros (Hc & Ec). destruct (is_corner_mods Hc Ec) as (M1 & M2 & M3).
      destruct (box_coord B Hc) as (Hx & Hy & Hz & Hat).
      pose proof bz_pos.
      assert (E1 : X c / bx * bx = X c) by (pose proof (Nat.div_mod (X c) bx ltac:(lia)); lia).
      assert (E2 : Y c / by_ * by_ = Y c) by (pose proof (Nat.div_mod (Y c) by_ ltac:(lia)); lia).
      assert (E3 : Z c / bz * bz = Z c) by (pose proof (Nat.div_mod (Z c) bz ltac:(lia)); lia).
      exists (Z c / bz). split. { apply in_seq. split; [lia|]. apply ceil_div_spec; lia. }
      apply in_flat_map. exists (Y c / by_). split. { apply in_seq. split; [lia|]. apply ceil_div_spec; lia. }
      apply in_map_iff. exists (X c / bx). split. { rewrite E1, E2, E3. auto. }
      apply in_seq. split; [lia|]. apply ceil_div_spec; lia.
  Qed.

  Lemma NoDup_flat_map : forall A B (f : A -> list B) (key : B -> A) l, NoDup l ->
    (forall x, In x l -> NoDup (f x)) -> (forall x y, In x l -> In y (f x) -> key y = x) -> NoDup (flat_map f l).
  Proof.
    intros A B0 f key l Hl. induction Hl as [|x l Hx Hl IH]; simpl; intros H1 H2; [constructor|].
    assert (Hin : forall y, In y (f x) -> ~ In y (flat_map f l)).
    { intros y Hy Hy'. apply in_flat_map in Hy'. destruct Hy' as (z & Hz & Hyz).
      assert (key y = x) by auto. assert (key y = z) by auto. congruence. }
    assert (Hf : NoDup (flat_map f l)) by (apply IH; auto).
    assert (Hfx : NoDup (f x)) by auto.
    clear - Hin Hf Hfx. induction Hfx; simpl; auto. constructor.
    - intros G. apply in_app_or in G. destruct G as [G|G]; auto. eapply Hin; eauto. left; auto.
    - apply IHHfx. intros y Hy. apply Hin. right; auto.
  Qed.

  Lemma tile_list_NoDup : NoDup tile_list.
  Proof.
    pose proof bz_pos as Hbz. unfold tile_list.
    assert (F : forall I J K, I < ceil_div nx bx -> J < ceil_div ny by_ -> K < ceil_div nz bz ->
      X (at_ (I * bx) (J * by_) (K * bz)) = I * bx /\ Y (at_ (I * bx) (J * by_) (K * bz)) = J * by_ /\
      Z (at_ (I * bx) (J * by_) (K * bz)) = K * bz).
    { intros I J K HI HJ HK. apply ceil_div_spec in HK, HJ, HI; auto.
      destruct (box_at B HI HJ HK) as (H1 & H2 & H3 & H4). auto. }
    apply NoDup_flat_map with (key := fun y => Z y / bz).
    - apply seq_NoDup.
    - intros K HK. apply in_seq in HK. apply NoDup_flat_map with (key := fun y => Y y / by_).
      + apply seq_NoDup.
      + intros J HJ. apply in_seq in HJ.
        assert (G : forall l, NoDup l -> (forall I, In I l -> I < ceil_div nx bx) -> NoDup (map (fun I => at_ (I * bx) (J * by_) (K * bz)) l)).
        { induction 1; simpl; intros Hr; constructor; auto. intros Hi. apply in_map_iff in Hi. destruct Hi as (I' & E & Hi).
          destruct (F x J K) as (F1 & _); try lia. { apply Hr; auto. }
          destruct (F I' J K) as (F2 & _); try lia. { apply Hr; auto. }
          rewrite E in F2. assert (I' = x) by nia. subst. contradiction. }
        apply G. { apply seq_NoDup. } intros I HI. apply in_seq in HI. lia.
      + intros J y HJ Hy. apply in_seq in HJ. apply in_map_iff in Hy. destruct Hy as (I & <- & HI). apply in_seq in HI.
        destruct (F I J K) as (_ & F2 & _); try lia. rewrite F2. apply Nat.div_mul. lia.
    - intros K y HK Hy. apply in_flat_map in Hy. destruct Hy as (J & HJ & Hy).
      apply in_map_iff in Hy. destruct Hy as (I & <- & HI). apply in_seq in HK, HJ, HI.
      destruct (F I J K) as (_ & _ & F3); try lia. rewrite F3. apply Nat.div_mul. lia.
  Qed.

  Lemma ncorners_total : ncorners n = ceil_div nx bx * ceil_div ny by_ * ceil_div nz bz.
  Proof.
    rewrite <- tile_list_length. unfold ncorners. apply Permutation_length. apply NoDup_Permutation.
    - apply NoDup_filter. apply seq_NoDup.
    - apply tile_list_NoDup.
    - intros x. rewrite tile_list_in, filter_In, in_seq. unfold is_corner. rewrite Nat.eqb_eq. lia.
  Qed.

  Lemma same_tile_iff : forall c d, c < n -> d < n ->
    (corner c = corner d <-> (X c / bx = X d / bx /\ Y c / by_ = Y d / by_ /\ Z c / bz = Z d / bz)).
  Proof.
    intros c d Hc Hd. pose proof bz_pos as Hbz.
    destruct (corner_facts Hc) as (C1 & C2 & C3 & C4 & C5). destruct (corner_facts Hd) as (D1 & D2 & D3 & D4 & D5).
    assert (G : forall a b, 1 <= b -> a - a mod b = a / b * b) by (intros a b Hb; pose proof (Nat.div_mod a b ltac:(lia)); lia).
    rewrite G in C3, C4, C5, D3, D4, D5 by auto.
    split.
    - intros E. rewrite E in *. repeat split; nia.
    - intros (E1 & E2 & E3). apply coord_eq; auto; congruence.
  Qed.

  Theorem box_tiles : forall ui, ui = repeat 0 n -> exists ui',
    build_agglomerates_block debug dim3 m bx by_ bz0 ui = Ok (ui', ceil_div nx bx * ceil_div ny by_ * ceil_div nz bz) /\
    length ui' = n /\
    (forall c, c < n -> 1 <= nth c ui' 0 <= ceil_div nx bx * ceil_div ny by_ * ceil_div nz bz) /\
    (forall c d, c < n -> d < n -> (nth c ui' 0 = nth d ui' 0 <->
       (X c / bx = X d / bx /\ Y c / by_ = Y d / by_ /\ Z c / bz = Z d / bz))) /\
    (forall c d, c < n -> d < n -> corner c < corner d -> nth c ui' 0 < nth d ui' 0).
  Proof.
    intros ui ->. unfold build_agglomerates_block. fold n.
    destruct (@block_loop_tiles n 0 (repeat 0 n)) as (ui' & E & L & H); auto.
    - apply repeat_length.
    - intros d Hd. rewrite nth_repeat. auto.
    - unfold ncorners at 1 in E. simpl in E. rewrite E. cbn [bind].
      exists ui'. rewrite <- ncorners_total. split. { f_equal. f_equal. simpl. lia. }
      split; auto.
      assert (Hlt : forall c d, c < n -> d < n -> corner c < corner d -> nth c ui' 0 < nth d ui' 0).
      { intros c d Hc Hd Hlt. rewrite !H by auto. assert (ncorners (corner c) < ncorners (corner d)); [|lia].
        apply ncorners_lt; auto. apply corner_idem; auto. }
      split; [|split; auto].
      + intros c Hc. rewrite H by auto. destruct (corner_facts Hc) as (C1 & C2 & _).
        assert (ncorners (corner c) < ncorners n). { apply ncorners_lt; auto. apply corner_idem; auto. } lia.
      + intros c d Hc Hd. rewrite <- same_tile_iff by auto.
        split.
        * intros Ec. destruct (lt_eq_lt_dec (corner c) (corner d)) as [[Hl|]|Hl]; auto.
          -- apply Hlt in Hl; auto. lia.
          -- apply Hlt in Hl; auto. lia.
        * intros Ec. rewrite !H by auto. congruence.
  Qed.
End Box.
