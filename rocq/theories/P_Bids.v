(** Proofs about the boundary ids on the mesh of an agglomerate. *)
From Coq Require Import List Arith Lia Bool.
From Verif Require Import Base M_Agglo M_Bids S_Bids.
Import ListNotations.
Set Implicit Arguments.

(** All (cell, (face, id)) of the std::map. *)
Definition triples (m : list (nat * list (nat * nat))) : list (nat * (nat * nat)) :=
  flat_map (fun e => map (fun x => (fst e, x)) (snd e)) m.

Lemma triples_cons : forall c fs m t, In t (triples ((c, fs) :: m)) <-> (fst t = c /\ In (snd t) fs) \/ In t (triples m).
Proof.
  intros. unfold triples at 1. simpl. rewrite in_app_iff, in_map_iff. fold (triples m). split; intros [H|H]; auto; left.
  - destruct H as (x & <- & Hx). auto.
  - destruct t as [a b], H as [H1 H2]. simpl in *. subst. eauto.
Qed.

Lemma map_push_in : forall k x m t, In t (triples (map_push k x m)) <-> t = (k, x) \/ In t (triples m).
Proof.
  induction m as [|[k' v] m IH]; intros t; cbn [map_push].
  - rewrite triples_cons. destruct t as [a b]; simpl. split; intros H.
    + destruct H as [[-> [->|[]]]|[]]. auto.
    + destruct H as [H|[]]. inversion H; auto.
  - destruct (Nat.eqb_spec k k') as [->|N].
    + rewrite !triples_cons, in_app_iff. destruct t as [a b]; simpl. split.
      * intros [[-> [H|[->|[]]]]|H]; auto.
      * intros [H|[[-> H]|H]]; auto. inversion H; auto.
    + destruct (k <? k').
      * rewrite triples_cons. destruct t as [a b]; simpl snd; simpl fst. split.
        -- intros [[-> [->|[]]]|H]; auto.
        -- intros [H|H]; auto. inversion H; simpl; auto.
      * rewrite !triples_cons, IH. tauto.
Qed.

Lemma collect_faces_in : forall g c k f m t,
  In t (triples (collect_faces g c k f m)) <->
  In t (triples m) \/ exists f' b, t = (c, (f', b)) /\ f <= f' < f + k /\ gface g c f' = Some b.
Proof.
  induction k as [|k IH]; intros f m t; simpl.
  - split; auto. intros [H|(f' & b & _ & H & _)]; auto. lia.
  - rewrite IH. split.
    + intros [H|(f' & b & E1 & E2 & E3)].
      * destruct (gface g c f) as [b|] eqn:E; auto. rewrite map_push_in in H. destruct H as [->|H]; auto.
        right. exists f, b. repeat split; auto; lia.
      * right. exists f', b. repeat split; auto; lia.
    + intros [H|(f' & b & E1 & E2 & E3)].
      * left. destruct (gface g c f); auto. rewrite map_push_in. auto.
      * destruct (Nat.eq_dec f f') as [<-|N].
        -- left. rewrite E3, map_push_in. auto.
        -- right. exists f', b. repeat split; auto; lia.
Qed.

Lemma at_boundary_true : forall g c f b, f < nf g -> gface g c f = Some b -> at_boundary g c = true.
Proof.
  intros. unfold at_boundary. apply existsb_exists. exists f. split.
  - apply in_seq. lia.
  - rewrite H0; auto.
Qed.

Lemma collect_cells_in : forall g agg m t,
  In t (triples (collect_cells g agg m)) <->
  In t (triples m) \/ exists c f b, In c agg /\ f < nf g /\ gface g c f = Some b /\ t = (c, (f, b)).
Proof.
  induction agg as [|c agg IH]; intros m t; simpl.
  - split; auto. intros [H|(c & f & b & [] & _)]; auto.
  - rewrite IH. split.
    + intros [H|(c' & f & b & H1 & H2)].
      * destruct (at_boundary g c); auto. rewrite collect_faces_in in H. destruct H as [H|(f & b & -> & Hf & E)]; auto.
        right. exists c, f, b. simpl in *. repeat split; auto; lia.
      * right. exists c', f, b. tauto.
    + intros [H|(c' & f & b & [<-|H1] & H2 & H3 & ->)].
      * left. destruct (at_boundary g c); auto. rewrite collect_faces_in. auto.
      * left. rewrite (at_boundary_true _ _ H2 H3), collect_faces_in. right. exists f, b. repeat split; auto; lia.
      * right. exists c', f, b. auto.
Qed.

Section Copy.
Variable debug : bool.
Variable g : gmesh.
Variable agg : list nat.
Variable p : patch.
Hypothesis C : patch_contract g agg p.

Lemma cell_unique : forall l l' c, In (l, c) (pmap p) -> In (l', c) (pmap p) -> l = l'.
Proof.
  intros l l' c H H'. pose proof (pc_global C) as ND. clear C.
  induction (pmap p) as [|[a b] t IH]; simpl in *; [contradiction|]. inversion ND; subst.
  destruct H as [H|H], H' as [H'|H'].
  - inversion H; inversion H'; congruence.
  - inversion H; subst. exfalso. apply H2. apply (in_map snd) in H'. auto.
  - inversion H'; subst. exfalso. apply H2. apply (in_map snd) in H. auto.
  - auto.
Qed.

Lemma find_agg_cell_in : forall l c, In (l, c) (pmap p) -> find_agg_cell (pmap p) c = Some (l, c).
Proof.
  intros l c H. unfold find_agg_cell. destruct (find _ (pmap p)) as [[l' c']|] eqn:E.
  - apply find_some in E. destruct E as [E1 E2]. simpl in E2. apply Nat.eqb_eq in E2; subst.
    rewrite (cell_unique _ _ _ H E1). auto.
  - eapply find_none in E; [|exact H]. simpl in E. rewrite Nat.eqb_refl in E. discriminate.
Qed.

(** The triples are faces on the domain boundary. *)
Definition valid (c : nat) (x : nat * nat) : Prop := In c agg /\ fst x < nf g /\ gface g c (fst x) = Some (snd x).

Lemma copy_faces_spec : forall l c, In (l, c) (pmap p) -> forall fs ids,
  (forall x, In x fs -> valid c x) -> length ids = n_faces p ->
  exists ids', copy_faces debug p l fs ids = Ok ids' /\ length ids' = n_faces p /\
    (forall f b, In (f, b) fs -> nth (pface p l f) ids' 0 = b) /\
    (forall l' c' f', In (l', c') (pmap p) -> f' < nf g -> (l' = l -> forall b, ~ In (f', b) fs) ->
       nth (pface p l' f') ids' 0 = nth (pface p l' f') ids 0).
Proof.
  intros l c Hl. induction fs as [|[f b] fs IH]; intros ids V L.
  - exists ids. simpl. repeat split; auto. contradiction.
  - destruct (V (f, b) (or_introl eq_refl)) as (V1 & V2 & V3). simpl in V2, V3.
    pose proof (pc_boundary C l c Hl V2 V3) as B. pose proof (pc_face C l c Hl V2) as F.
    destruct (IH (upd ids (pface p l f) b)) as (ids' & E & L' & R1 & R2).
    + intros x Hx. apply V. right; auto.
    + rewrite upd_length; auto.
    + exists ids'. split; [|split; [auto|split]].
      * simpl. unfold set_boundary_id. rewrite B. unfold assert_dbg. rewrite andb_false_r. simpl.
        rewrite wr_in by lia. exact E.
      * intros f1 b1 [H1|H1]; [|auto]. inversion H1; subst f1 b1.
        destruct (in_dec Nat.eq_dec f (map fst fs)) as [I|I].
        -- apply in_map_iff in I. destruct I as ([f2 b2] & E2 & I). simpl in E2. subst f2.
           destruct (V (f, b2) (or_intror I)) as (_ & _ & V4). simpl in V4. assert (b2 = b) by congruence. subst. auto.
        -- rewrite (R2 l c f Hl V2).
           ++ apply nth_upd_eq. lia.
           ++ intros _ b2 H2. apply I. apply (in_map fst) in H2. auto.
      * intros l' c' f' Hl' Hf' N. rewrite (R2 l' c' f' Hl' Hf').
        -- apply nth_upd_neq. intros Eq. destruct (@pc_single _ _ _ C l c f l' c' f' Hl Hl' V2 Hf' B Eq) as [<- <-].
           apply (N eq_refl b). left; auto.
        -- intros El b2 H2. apply (N El b2). right; auto.
Qed.

Lemma triple_dec : forall (t : nat * nat) m, {In t (map (fun x => (fst x, fst (snd x))) (triples m))} + {~ In t (map (fun x => (fst x, fst (snd x))) (triples m))}.
Proof. intros. apply in_dec. intros [a b] [c d]. destruct (Nat.eq_dec a c), (Nat.eq_dec b d); subst; auto; right; congruence. Qed.

Lemma copy_cells_spec : forall m ids,
  (forall t, In t (triples m) -> valid (fst t) (snd t)) -> (forall e, In e m -> snd e <> []) -> length ids = n_faces p ->
  exists ids', copy_cells debug p m ids = Ok ids' /\ length ids' = n_faces p /\
    (forall l c f b, In (l, c) (pmap p) -> In (c, (f, b)) (triples m) -> nth (pface p l f) ids' 0 = b) /\
    (forall l c f, In (l, c) (pmap p) -> f < nf g -> (forall b, ~ In (c, (f, b)) (triples m)) ->
       nth (pface p l f) ids' 0 = nth (pface p l f) ids 0).
Proof.
  induction m as [|[c fs] m IH]; intros ids V NE L.
  - exists ids. repeat split; auto. contradiction.
  - assert (Vc : forall x, In x fs -> valid c x).
    { intros x Hx. apply (V (c, x)). apply triples_cons. left; auto. }
    assert (In c agg) as Ic.
    { destruct fs as [|x fs]; [exfalso; apply (NE (c, [])); simpl; auto|]. apply (Vc x). left; auto. }
    destruct (pc_all C c Ic) as [l Hl].
    destruct (@copy_faces_spec l c Hl fs ids Vc L) as (ids1 & E1 & L1 & R1 & R2).
    destruct (IH ids1) as (ids' & E & L' & Q1 & Q2); auto.
    { intros t Ht. apply V. apply triples_cons. auto. }
    { intros e He. apply NE. right; auto. }
    exists ids'. split; [|split; [auto|split]].
    + simpl. rewrite (find_agg_cell_in _ _ Hl), E1. simpl. exact E.
    + intros l1 c1 f b Hl1 Ht.
      destruct (triple_dec (c1, f) m) as [I|I].
      * apply in_map_iff in I. destruct I as ([c2 [f2 b2]] & E2 & I). simpl in E2. inversion E2; subst c2 f2.
        assert (b2 = b); [|subst; eauto].
        assert (In (c1, (f, b2)) (triples ((c, fs) :: m))) as I2 by (apply triples_cons; auto).
        destruct (V _ I2) as (_ & _ & W1). destruct (V _ Ht) as (_ & _ & W2). simpl in W1, W2. congruence.
      * destruct (V _ Ht) as (_ & Hf & _). simpl in Hf.
        assert (NI : forall b, ~ In (c1, (f, b)) (triples m)).
        { intros b2 H2. apply I. apply (in_map (fun x => (fst x, fst (snd x)))) in H2. auto. }
        rewrite (Q2 l1 c1 f Hl1 Hf NI). apply triples_cons in Ht. destruct Ht as [[H1 H2]|H1]; [|exfalso; eapply NI; eauto].
        simpl in H1, H2. subst c1. rewrite (cell_unique _ _ _ Hl1 Hl). auto.
    + intros l1 c1 f Hl1 Hf NI. rewrite (Q2 l1 c1 f Hl1 Hf).
      * apply (R2 l1 c1 f Hl1 Hf). intros -> b H2. apply (NI b). apply triples_cons. left. simpl. split; auto.
        pose proof (pc_local C) as ND. clear - ND Hl Hl1.
        induction (pmap p) as [|[u v] t IH]; simpl in *; [contradiction|]. inversion ND; subst.
        destruct Hl as [Hl|Hl], Hl1 as [Hl1|Hl1].
        -- congruence.
        -- inversion Hl; subst. exfalso. apply H1. apply (in_map fst) in Hl1. auto.
        -- inversion Hl1; subst. exfalso. apply H1. apply (in_map fst) in Hl. auto.
        -- auto.
      * intros b H2. apply (NI b). apply triples_cons. auto.
Qed.
End Copy.

Lemma map_push_nonempty : forall k x m, (forall e, In e m -> snd e <> []) -> forall e, In e (map_push k x m) -> snd e <> [].
Proof.
  induction m as [|[k' v] m IH]; simpl; intros N e H.
  - destruct H as [<-|[]]. simpl. discriminate.
  - destruct (k =? k').
    + destruct H as [<-|H]; [|apply N; auto]. simpl. intros Z. apply app_eq_nil in Z. destruct Z. discriminate.
    + destruct (k <? k').
      * destruct H as [<-|H]; [simpl; discriminate|apply N; auto].
      * destruct H as [<-|H]; [apply (N (k', v)); auto|]. apply IH; auto.
Qed.

Lemma collect_faces_nonempty : forall g c k f m, (forall e, In e m -> snd e <> []) ->
  forall e, In e (collect_faces g c k f m) -> snd e <> [].
Proof.
  induction k as [|k IH]; simpl; intros f m N e H; auto.
  eapply IH; [|exact H]. destruct (gface g c f); auto. apply map_push_nonempty; auto.
Qed.

Lemma collect_cells_nonempty : forall g agg m, (forall e, In e m -> snd e <> []) ->
  forall e, In e (collect_cells g agg m) -> snd e <> [].
Proof.
  induction agg as [|c agg IH]; simpl; intros m N e H; auto.
  eapply IH; [|exact H]. destruct (at_boundary g c); auto. apply collect_faces_nonempty; auto.
Qed.

Theorem boundary_ids : forall debug g from_patch empty agg, agg <> [] -> patch_contract g agg (from_patch agg) ->
  exists p, build_agglomerate_triangulation debug g from_patch empty agg = Ok p /\
    pmap p = pmap (from_patch agg) /\ pface p = pface (from_patch agg) /\ pbound p = pbound (from_patch agg) /\
    n_faces p = n_faces (from_patch agg) /\ length (pids p) = n_faces p /\
    (forall l c f b, In (l, c) (pmap p) -> f < nf g -> In c agg -> gface g c f = Some b -> id_of p l f = b) /\
    (forall l c f, In (l, c) (pmap p) -> f < nf g -> (~ In c agg \/ gface g c f = None) -> id_of p l f = 0).
Proof.
  intros debug g fp empty agg NE C.
  destruct (@copy_cells_spec debug g agg (fp agg) C (collect_cells g agg []) (pids (fp agg))) as (ids & E & L & R1 & R2).
  - intros t Ht. apply collect_cells_in in Ht. destruct Ht as [[]|(c & f & b & H1 & H2 & H3 & ->)]. split; auto.
  - apply collect_cells_nonempty. contradiction.
  - rewrite (pc_ids C), repeat_length. auto.
  - exists {| pmap := pmap (fp agg); n_faces := n_faces (fp agg); pface := pface (fp agg); pbound := pbound (fp agg); pids := ids |}.
    split; [|repeat split; auto].
    + unfold build_agglomerate_triangulation. destruct agg; [congruence|]. rewrite E. auto.
    + intros l c f b Hl Hf Hc Hg. unfold id_of. simpl in *. apply (R1 l c f b Hl). apply collect_cells_in. right. exists c, f, b. auto.
    + intros l c f Hl Hf Hc. unfold id_of. simpl in *. rewrite (R2 l c f Hl Hf).
      * rewrite (pc_ids C). apply nth_repeat.
      * intros b Ht. apply collect_cells_in in Ht. destruct Ht as [[]|(c1 & f1 & b1 & H1 & H2 & H3 & H4)]. inversion H4; subst.
        destruct Hc as [Hc|Hc]; congruence.
Qed.

Theorem same_conditions : forall debug g from_patch empty agg, agg <> [] -> patch_contract g agg (from_patch agg) ->
  exact_patch agg (from_patch agg) -> forall D, D 0 = false ->
  exists p, build_agglomerate_triangulation debug g from_patch empty agg = Ok p /\ pmap p = pmap (from_patch agg) /\
    forall l c f, In (l, c) (pmap p) -> f < nf g -> (constrained D p l f <-> constrained_global D g c f).
Proof.
  intros debug g fp empty agg NE C X D D0.
  destruct (@boundary_ids debug g fp empty agg NE C) as (p & E & Em & Ef & Eb & En & EL & I1 & I2).
  exists p. split; [auto|]. split; [auto|]. intros l c f Hl Hf. rewrite Em in Hl. pose proof (X _ _ Hl) as Hc.
  unfold constrained, constrained_global. rewrite Eb, Ef. rewrite <- Em in Hl. split.
  - intros [H1 H2]. destruct (gface g c f) as [b|] eqn:G.
    + exists b. split; auto. rewrite (I1 l c f b) in H2; auto.
    + rewrite (I2 l c f) in H2; auto. congruence.
  - intros (b & H1 & H2). rewrite Em in Hl. split.
    + eapply (pc_boundary C); eauto.
    + rewrite (I1 l c f b); auto. rewrite Em; auto.
Qed.

(** With a condition on id 0, every artificial face of the agglomerate is constrained. *)
Theorem zero_constrains_artificial : forall debug g from_patch empty agg, agg <> [] -> patch_contract g agg (from_patch agg) ->
  forall D, D 0 = true ->
  exists p, build_agglomerate_triangulation debug g from_patch empty agg = Ok p /\
    forall l c f, In (l, c) (pmap p) -> f < nf g -> gface g c f = None -> pbound p (pface p l f) = true -> constrained D p l f.
Proof.
  intros debug g fp empty agg NE C D D0.
  destruct (@boundary_ids debug g fp empty agg NE C) as (p & E & _ & _ & _ & _ & _ & _ & I2).
  exists p. split; auto. intros l c f Hl Hf G B. split; auto. rewrite (I2 l c f); auto.
Qed.

(** A cell of the patch outside the agglomerate loses its conditions. *)
Theorem extra_cells_unconstrained : forall debug g from_patch empty agg, agg <> [] -> patch_contract g agg (from_patch agg) ->
  forall D, D 0 = false ->
  exists p, build_agglomerate_triangulation debug g from_patch empty agg = Ok p /\
    forall l c f, In (l, c) (pmap p) -> f < nf g -> ~ In c agg -> ~ constrained D p l f.
Proof.
  intros debug g fp empty agg NE C D D0.
  destruct (@boundary_ids debug g fp empty agg NE C) as (p & E & _ & _ & _ & _ & _ & _ & I2).
  exists p. split; auto. intros l c f Hl Hf G [_ H]. rewrite (I2 l c f) in H; auto. congruence.
Qed.
