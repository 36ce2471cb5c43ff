(** Proofs about M_Agglo.v. *)
From Coq Require Import List Arith Lia Bool Permutation Sorted ZArith.
From Verif Require Import Base M_Agglo S_Agglo.
Import ListNotations.
Set Implicit Arguments.

Lemma nth_upd : forall A (l : list A) i j a d, i < length l -> nth j (upd l i a) d = if j =? i then a else nth j l d.
Proof.
  intros. destruct (Nat.eqb_spec j i) as [->|].
  - apply nth_upd_eq; auto.
  - apply nth_upd_neq; auto.
Qed.

Lemma rd_nth : forall A (l : list A) i d, i < length l -> rd l i = Ok (nth i l d).
Proof. intros. apply rd_Ok. apply nth_error_nth_lt; auto. Qed.

(** ** General meshes *)
Section General.
  Variable debug dim3 : bool.
  Variable m : mesh.
  Let n := n_cells m.

  (** [touched agg ui ui']: same length, and every entry is unchanged or (for an owned cell) set to [agg]. *)
  Definition touched (agg : nat) (P : nat -> Prop) (ui ui' : list nat) : Prop :=
    length ui' = length ui /\ forall d, nth d ui' 0 = nth d ui 0 \/ (nth d ui' 0 = agg /\ owned m d = true /\ d < n /\ P d).

  Lemma touched_refl : forall agg P ui, touched agg P ui ui.
  Proof. split; auto. Qed.

  Lemma touched_trans : forall agg P a b c, touched agg P a b -> touched agg P b c -> touched agg P a c.
  Proof.
    intros agg P a b c (L1 & H1) (L2 & H2). split; [congruence|]. intros d.
    destruct (H1 d) as [E1|E1], (H2 d) as [E2|E2]; auto.
    - left; congruence.
    - right. destruct E1 as (? & ? & ? & ?). repeat split; auto. congruence.
  Qed.

  Lemma touched_wr : forall agg (P : nat -> Prop) ui c, c < n -> length ui = n -> owned m c = true -> P c ->
    touched agg P ui (upd ui c agg).
  Proof.
    intros agg P ui c Hc Hl Ho HP. split; [apply upd_length|]. intros d. rewrite nth_upd by lia.
    destruct (Nat.eqb_spec d c); subst; auto.
  Qed.

  (** [up]: upward closed sets of cells (used with "all cells" and with "cells >= c"). *)
  Definition closed (P : nat -> Prop) : Prop :=
    forall c nb s, c < n -> P c -> fx m c = FCell nb s \/ fy m c = FCell nb s \/ fz m c = FCell nb s -> P nb.

  Variable P : nat -> Prop.
  Hypothesis HP : closed P.

  (** *** Partial correctness: whenever the loops return. *)
  Lemma step_x_owned : forall cur c, cur < n -> owned m cur = true -> P cur ->
    (forall c nb s, c < n -> fx m c = FCell nb s -> nb < n) ->
    step_x debug m cur = Ok (Some c) -> owned m c = true /\ c < n /\ P c.
  Proof.
    intros cur c Hc Ho Hp Hr. unfold step_x. destruct (fx m cur) as [|nb same|] eqn:E.
    - discriminate.
    - destruct (debug && negb same); [discriminate|]. destruct (owned m nb) eqn:En; intros H; inversion H; subst; auto.
      repeat split; eauto.
    - destruct debug; discriminate.
  Qed.

  Lemma step_yz_owned : forall f cur c, cur < n -> owned m cur = true -> P cur ->
    (forall nb s, f = FCell nb s -> nb < n /\ P nb) ->
    step_yz debug m f cur = Ok (Some c) -> owned m c = true /\ c < n /\ P c.
  Proof.
    intros f cur c Hc Ho Hp Hr. unfold step_yz. destruct f as [|nb same|] eqn:E.
    - discriminate.
    - destruct (owned m nb) eqn:En.
      + destruct (debug && negb same); [discriminate|]. intros H; inversion H; subst.
        destruct (Hr c same); auto.
      + intros H; inversion H; subst; auto.
    - destruct debug; discriminate.
  Qed.

  Hypothesis Hrx : forall c nb s, c < n -> fx m c = FCell nb s -> nb < n.
  Hypothesis Hry : forall c nb s, c < n -> fy m c = FCell nb s -> nb < n.
  Hypothesis Hrz : forall c nb s, c < n -> fz m c = FCell nb s -> nb < n.

  Lemma loop_x_touched : forall agg k cur ui ui', cur < n -> owned m cur = true -> P cur -> length ui = n ->
    loop_x debug m agg k cur ui = Ok ui' -> touched agg P ui ui'.
  Proof.
    induction k; simpl; intros cur ui ui' Hc Ho Hp Hl H.
    - inversion H; subst. apply touched_refl.
    - rewrite wr_in in H by lia. cbn [bind] in H.
      assert (T := @touched_wr agg P ui cur Hc Hl Ho Hp).
      destruct (step_x debug m cur) as [[c|]| | | |] eqn:E; cbn [bind] in H; try discriminate.
      + apply step_x_owned in E; auto. destruct E as (E1 & E2 & E3).
        eapply touched_trans; [eassumption|]. eapply IHk; eauto. rewrite upd_length; auto.
      + inversion H; subst; auto.
  Qed.

  Lemma loop_y_touched : forall agg bx k cur ui ui', cur < n -> owned m cur = true -> P cur -> length ui = n ->
    loop_y debug m agg bx k cur ui = Ok ui' -> touched agg P ui ui'.
  Proof.
    induction k; simpl; intros cur ui ui' Hc Ho Hp Hl H.
    - inversion H; subst. apply touched_refl.
    - destruct (loop_x debug m agg bx cur ui) as [ui1| | | |] eqn:Ex; cbn [bind] in H; try discriminate.
      apply loop_x_touched in Ex; auto.
      destruct (step_yz debug m (fy m cur) cur) as [[c|]| | | |] eqn:E; cbn [bind] in H; try discriminate.
      + apply step_yz_owned in E; auto.
        * destruct E as (E1 & E2 & E3). eapply touched_trans; [eassumption|]. eapply IHk; eauto.
          destruct Ex; congruence.
        * intros nb s Hnb. split; eauto.
      + inversion H; subst; auto.
  Qed.

  Lemma loop_z_touched : forall agg bx by_ k cur ui ui', cur < n -> owned m cur = true -> P cur -> length ui = n ->
    loop_z debug dim3 m agg bx by_ k cur ui = Ok ui' -> touched agg P ui ui'.
  Proof.
    induction k; simpl; intros cur ui ui' Hc Ho Hp Hl H.
    - inversion H; subst. apply touched_refl.
    - destruct (loop_y debug m agg bx by_ cur ui) as [ui1| | | |] eqn:Ex; cbn [bind] in H; try discriminate.
      apply loop_y_touched in Ex; auto.
      destruct dim3; [|inversion H; subst; auto].
      destruct (step_yz debug m (fz m cur) cur) as [[c|]| | | |] eqn:E; cbn [bind] in H; try discriminate.
      + apply step_yz_owned in E; auto.
        * destruct E as (E1 & E2 & E3). eapply touched_trans; [eassumption|]. eapply IHk; eauto.
          destruct Ex; congruence.
        * intros nb s Hnb. split; eauto.
      + inversion H; subst; auto.
  Qed.

  Lemma loop_x_set : forall agg k cur ui ui' d, cur < n -> owned m cur = true -> P cur -> length ui = n ->
    nth d ui 0 = agg -> loop_x debug m agg k cur ui = Ok ui' -> nth d ui' 0 = agg.
  Proof.
    intros agg k cur ui ui' d Hc Ho Hp Hl Hd H. destruct (loop_x_touched _ _ _ Hc Ho Hp Hl H) as (_ & Ht).
    destruct (Ht d) as [E|(E & _)]; congruence.
  Qed.

  Lemma mark_block_touched : forall bx by_ bz agg cell ui ui', cell < n -> owned m cell = true -> P cell -> length ui = n ->
    mark_block debug dim3 m bx by_ bz agg cell ui = Ok ui' -> touched agg P ui ui' /\ nth cell ui' 0 = agg.
  Proof.
    intros bx by_ bz agg cell ui ui' Hc Ho Hp Hl H. unfold mark_block in H. rewrite wr_in in H by lia. cbn [bind] in H.
    apply loop_z_touched in H; auto; [|rewrite upd_length; auto].
    assert (T := @touched_wr agg P ui cell Hc Hl Ho Hp). split.
    - eapply touched_trans; eassumption.
    - destruct H as (_ & H). destruct (H cell) as [E|(E & _)]; auto. rewrite E. apply nth_upd_eq. lia.
  Qed.
End General.

(** *** Safety: on a mesh without local refinement every loop returns. *)
Section Safety.
  Variable debug dim3 : bool.
  Variable m : mesh.
  Let n := n_cells m.
  Hypothesis Hm : mesh_ok debug m.

  Lemma mesh_ok_x : forall c nb s, c < n -> fx m c = FCell nb s -> nb < n.
  Proof. intros c nb s Hc E. destruct (Hm Hc) as (H & _). rewrite E in H. apply H. Qed.
  Lemma mesh_ok_y : forall c nb s, c < n -> fy m c = FCell nb s -> nb < n.
  Proof. intros c nb s Hc E. destruct (Hm Hc) as (_ & H & _). rewrite E in H. apply H. Qed.
  Lemma mesh_ok_z : forall c nb s, c < n -> fz m c = FCell nb s -> nb < n.
  Proof. intros c nb s Hc E. destruct (Hm Hc) as (_ & _ & H). rewrite E in H. apply H. Qed.

  Lemma step_x_ok : forall cur, cur < n -> exists r, step_x debug m cur = Ok r /\ forall c, r = Some c -> c < n.
  Proof.
    intros cur Hc. destruct (Hm Hc) as (H & _). unfold step_x. destruct (fx m cur) as [|nb s|] eqn:E; simpl in H.
    - eexists; split; eauto. discriminate.
    - destruct H as (H1 & H2). replace (debug && negb s) with false by (destruct debug; auto; rewrite H2; auto).
      destruct (owned m nb); eexists; split; eauto; intros c Hc'; inversion Hc'; subst; auto.
    - contradiction.
  Qed.

  Lemma step_yz_ok : forall f cur, cur < n -> face_ok debug n f -> exists r, step_yz debug m f cur = Ok r /\ forall c, r = Some c -> c < n.
  Proof.
    intros f cur Hc H. unfold step_yz. destruct f as [|nb s|]; simpl in H.
    - eexists; split; eauto. discriminate.
    - destruct H as (H1 & H2). replace (debug && negb s) with false by (destruct debug; auto; rewrite H2; auto).
      destruct (owned m nb); eexists; split; eauto; intros c Hc'; inversion Hc'; subst; auto.
    - contradiction.
  Qed.

  Lemma loop_x_ok : forall agg k cur ui, cur < n -> length ui = n -> exists ui', loop_x debug m agg k cur ui = Ok ui' /\ length ui' = n.
  Proof.
    induction k; simpl; intros cur ui Hc Hl; eauto.
    rewrite wr_in by lia. cbn [bind]. destruct (step_x_ok Hc) as (r & E & Hr). rewrite E. cbn [bind].
    destruct r as [c|].
    - apply IHk; auto. rewrite upd_length; auto.
    - eexists; split; eauto. rewrite upd_length; auto.
  Qed.

  Lemma loop_y_ok : forall agg bx k cur ui, cur < n -> length ui = n -> exists ui', loop_y debug m agg bx k cur ui = Ok ui' /\ length ui' = n.
  Proof.
    induction k; simpl; intros cur ui Hc Hl; eauto.
    destruct (@loop_x_ok agg bx cur ui Hc Hl) as (ui1 & E1 & L1). rewrite E1. cbn [bind].
    destruct (step_yz_ok (fy m cur) Hc (proj1 (proj2 (Hm Hc)))) as (r & E & Hr). rewrite E. cbn [bind].
    destruct r as [c|]; eauto.
  Qed.

  Lemma loop_z_ok : forall agg bx by_ k cur ui, cur < n -> length ui = n -> exists ui', loop_z debug dim3 m agg bx by_ k cur ui = Ok ui' /\ length ui' = n.
  Proof.
    induction k; simpl; intros cur ui Hc Hl; eauto.
    destruct (@loop_y_ok agg bx by_ cur ui Hc Hl) as (ui1 & E1 & L1). rewrite E1. cbn [bind].
    destruct dim3; eauto.
    destruct (step_yz_ok (fz m cur) Hc (proj2 (proj2 (Hm Hc)))) as (r & E & Hr). rewrite E. cbn [bind].
    destruct r as [c|]; eauto.
  Qed.

  Lemma mark_block_ok : forall bx by_ bz agg cell ui, cell < n -> length ui = n ->
    exists ui', mark_block debug dim3 m bx by_ bz agg cell ui = Ok ui' /\ length ui' = n.
  Proof.
    intros. unfold mark_block. rewrite wr_in by lia. cbn [bind]. apply loop_z_ok; auto. rewrite upd_length; auto.
  Qed.

  Lemma block_loop_ok : forall bx by_ bz k cell agg ui, cell + k = n -> length ui = n ->
    exists r, block_loop debug dim3 m bx by_ bz k cell agg ui = Ok r.
  Proof.
    induction k; simpl; intros cell agg ui Hk Hl; eauto.
    rewrite (rd_nth _ 0) by lia. cbn [bind].
    destruct (owned m cell && (nth cell ui 0 =? 0)).
    - destruct (@mark_block_ok bx by_ bz agg cell ui) as (ui' & E & L); auto; try lia. rewrite E. cbn [bind].
      apply IHk; auto; lia.
    - apply IHk; auto; lia.
  Qed.

  (** *** Coverage *)
  Lemma block_loop_covers : forall bx by_ bz k cell agg ui0 ui ui' agg', cell + k = n -> length ui = n -> 1 <= agg ->
    length ui = length ui0 ->
    (forall c, c < cell -> owned m c = true -> nth c ui0 0 = 0 -> 1 <= nth c ui 0 < agg) ->
    (forall c, c < n -> owned m c = true -> nth c ui 0 = nth c ui0 0 \/ 1 <= nth c ui 0 < agg) ->
    (forall c, owned m c = false -> nth c ui 0 = nth c ui0 0) ->
    block_loop debug dim3 m bx by_ bz k cell agg ui = Ok (ui', agg') ->
    1 <= agg' /\ covers m ui0 ui' (agg' - 1).
  Proof.
    induction k; simpl; intros cell agg ui0 ui ui' agg' Hk Hl Ha Hl0 H1 H2 H3 H.
    - inversion H; subst. split; auto. unfold covers. split; [auto|]. split; [|split; auto].
      + intros c Hc Ho Hz. assert (1 <= nth c ui' 0 < agg') by (apply H1; auto; fold n in Hc; lia). lia.
      + intros c Hc Ho Hz. destruct (H2 c Hc Ho); [left; auto|right; lia].
    - rewrite (rd_nth _ 0) in H by lia. cbn [bind] in H.
      destruct (owned m cell && (nth cell ui 0 =? 0)) eqn:Ec.
      + apply andb_prop in Ec. destruct Ec as (Eo & Ez). apply Nat.eqb_eq in Ez.
        destruct (mark_block debug dim3 m bx by_ bz agg cell ui) as [ui1| | | |] eqn:Em; cbn [bind] in H; try discriminate.
        apply (@mark_block_touched debug dim3 m (fun _ => True)) in Em; auto;
          try (unfold closed; auto; fail); try (fold n; lia);
          [|apply mesh_ok_x|apply mesh_ok_y|apply mesh_ok_z].
        destruct Em as ((L & T) & Tc).
        eapply IHk; [ | | | | | | |exact H]; try lia.
        * intros c Hc Ho Hz. destruct (Nat.eq_dec c cell) as [->|]; [lia|].
          destruct (T c) as [E|(E & _)]; rewrite E; [|lia]. assert (G := H1 c ltac:(lia) Ho Hz). lia.
        * intros c Hc Ho. destruct (T c) as [E|(E & _)]; rewrite E; [|lia]. destruct (H2 c Hc Ho); lia.
        * intros c Ho. destruct (T c) as [E|(E & E2 & _)]; [rewrite E; auto|congruence].
      + eapply IHk; [ | | | | | | |exact H]; try lia; auto.
        intros c Hc Ho Hz. destruct (Nat.eq_dec c cell) as [->|]; [|apply H1; auto; lia].
        rewrite Ho in Ec. simpl in Ec. apply Nat.eqb_neq in Ec.
        destruct (H2 cell); auto; try lia.
  Qed.

  Lemma block_covers : forall bx by_ bz ui, length ui = n ->
    exists ui' N, build_agglomerates_block debug dim3 m bx by_ bz ui = Ok (ui', N) /\ covers m ui ui' N.
  Proof.
    intros bx by_ bz ui Hl. unfold build_agglomerates_block. fold n.
    destruct (@block_loop_ok bx by_ bz n 0 1 ui) as ((ui' & agg) & E); auto.
    rewrite E. cbn [bind]. exists ui', (agg - 1). split; auto.
    eapply block_loop_covers in E; eauto; try lia; auto. apply E.
  Qed.

  (** *** Non-emptiness for numberings that grow along the axes *)
  Hypothesis Hmono : mesh_monotone m.

  Lemma block_loop_nonempty : forall bx by_ bz k cell agg ui ui' agg', cell + k = n -> length ui = n -> 1 <= agg ->
    (forall a, 1 <= a < agg -> exists c, c < cell /\ owned m c = true /\ nth c ui 0 = a) ->
    block_loop debug dim3 m bx by_ bz k cell agg ui = Ok (ui', agg') ->
    forall a, 1 <= a < agg' -> exists c, c < n /\ owned m c = true /\ nth c ui' 0 = a.
  Proof.
    induction k; simpl; intros cell agg ui ui' agg' Hk Hl Ha H1 H.
    - inversion H; subst. intros a Haa. destruct (H1 a Haa) as (c & ? & ? & ?). exists c. repeat split; auto. lia.
    - rewrite (rd_nth _ 0) in H by lia. cbn [bind] in H.
      destruct (owned m cell && (nth cell ui 0 =? 0)) eqn:Ec.
      + apply andb_prop in Ec. destruct Ec as (Eo & Ez). apply Nat.eqb_eq in Ez.
        destruct (mark_block debug dim3 m bx by_ bz agg cell ui) as [ui1| | | |] eqn:Em; cbn [bind] in H; try discriminate.
        apply (@mark_block_touched debug dim3 m (fun d => cell <= d)) in Em; auto;
          try (fold n; lia);
          [| |apply mesh_ok_x|apply mesh_ok_y|apply mesh_ok_z].
        * destruct Em as ((L & T) & Tc).
          eapply IHk; [ | | | |exact H]; try lia.
          intros a Haa. destruct (Nat.eq_dec a agg) as [->|].
          -- exists cell. repeat split; auto.
          -- destruct (H1 a) as (c & Hc & Ho & Hn); [lia|]. exists c. repeat split; auto.
             destruct (T c) as [E|(_ & _ & _ & E)]; [congruence|lia].
        * intros c nb s Hc Hp Hf. specialize (Hmono Hc Hf). lia.
      + eapply IHk; [ | | | |exact H]; try lia.
        intros a Haa. destruct (H1 a Haa) as (c & ? & ? & ?). exists c. repeat split; auto.
  Qed.

  Lemma block_nonempty : forall bx by_ bz ui ui' N, length ui = n ->
    build_agglomerates_block debug dim3 m bx by_ bz ui = Ok (ui', N) ->
    forall a, 1 <= a <= N -> exists c, c < n /\ owned m c = true /\ nth c ui' 0 = a.
  Proof.
    intros bx by_ bz ui ui' N Hl H a Ha. unfold build_agglomerates_block in H. fold n in H.
    destruct (block_loop debug dim3 m bx by_ bz n 0 1 ui) as [[u agg]| | | |] eqn:E; cbn [bind] in H; try discriminate.
    inversion H; subst. eapply block_loop_nonempty in E; eauto; try lia.
  Qed.

End Safety.

(** ** A second call *)
Lemma block_loop_done : forall debug dim3 m bx by_ bz k cell agg ui, cell + k = n_cells m -> length ui = n_cells m ->
  (forall c, c < n_cells m -> owned m c = true -> nth c ui 0 <> 0) ->
  block_loop debug dim3 m bx by_ bz k cell agg ui = Ok (ui, agg).
Proof.
  induction k; simpl; intros cell agg ui Hk Hl H; auto.
  rewrite (rd_nth _ 0) by lia. cbn [bind].
  replace (owned m cell && (nth cell ui 0 =? 0)) with false.
  - apply IHk; auto; lia.
  - symmetry. destruct (owned m cell) eqn:E; auto. simpl. apply Nat.eqb_neq. apply H; auto; lia.
Qed.

Lemma block_second_call : forall debug dim3 m bx by_ bz bx' by_' bz' ui ui1 N, mesh_ok debug m -> length ui = n_cells m ->
  (forall c, c < n_cells m -> owned m c = true -> nth c ui 0 = 0) ->
  build_agglomerates_block debug dim3 m bx by_ bz ui = Ok (ui1, N) ->
  build_agglomerates_block debug dim3 m bx' by_' bz' ui1 = Ok (ui1, 0).
Proof.
  intros debug dim3 m bx by_ bz bx' by_' bz' ui ui1 N Hm Hl Hz H.
  destruct (block_covers dim3 Hm bx by_ bz ui Hl) as (ui' & N' & E & (L & C1 & C2 & C3)).
  rewrite E in H. inversion H; subst.
  unfold build_agglomerates_block. rewrite block_loop_done; auto; try lia.
  intros c Hc Ho. specialize (C1 c Hc Ho (Hz c Hc Ho)). lia.
Qed.
