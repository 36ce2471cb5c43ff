(** Proofs about the restriction matrix of all ranks: entries, partition of unity, rank, the debug self-check. *)
From Coq Require Import List Arith Bool Lia Field.
From Verif Require Import Base OField Mat LinAlg M_WorkStream M_Restr S_Restr P_Restr P_WorkStream.
Import ListNotations.
Set Implicit Arguments.

Section PRestr2.
  Variable K : ofield.
  Add Field KFrestr2 : (f_field K).
  Local Notation vec := (vec K).
  Local Notation agg_result := (agg_result K).

  Lemma at_dof_ext : forall (c : agg_result) g f h, (forall j, j < length (ag_map c) -> nth j (ag_map c) 0 = g -> f j = h j) -> at_dof c g f = at_dof c g h.
  Proof.
    intros. unfold at_dof. apply sumn_ext. intros j Hj. destruct (Nat.eqb_spec (nth j (ag_map c) 0) g); auto.
  Qed.

  Lemma at_dof_scale : forall (c : agg_result) g a f, at_dof c g (fun j => (a * f j)%K) = (a * at_dof c g f)%K.
  Proof.
    intros. unfold at_dof. rewrite <- sumn_scale. apply sumn_ext. intros j Hj. destruct (_ =? g); ring.
  Qed.

  Lemma at_dof_none : forall (c : agg_result) g f, ~ In g (ag_map c) -> at_dof c g f = 0%K.
  Proof.
    intros. unfold at_dof. apply sumn_zero. intros j Hj. destruct (Nat.eqb_spec (nth j (ag_map c) 0) g); auto.
    exfalso; apply H. subst. apply nth_In; auto.
  Qed.

  Lemma at_dof_one : forall (c : agg_result) j f, NoDup (ag_map c) -> j < length (ag_map c) -> at_dof c (nth j (ag_map c) 0) f = f j.
  Proof.
    intros. unfold at_dof. rewrite (sumn_single _ j) by (auto; intros i Hi Hn; destruct (Nat.eqb_spec (nth i (ag_map c) 0) (nth j (ag_map c) 0)) as [E|E]; auto;
      exfalso; apply Hn; apply (proj1 (NoDup_nth (ag_map c) 0) H); auto).
    rewrite Nat.eqb_refl. reflexivity.
  Qed.

  (** Entry of R at row (c, e). *)
  Lemma wgt_entry : forall D (c : agg_result) e g, at_dof c g (wgt D c e) = r_entry D (c, e) g.
  Proof. intros. unfold r_entry. apply at_dof_ext. intros j Hj <-. reflexivity. Qed.

  (** * All ranks *)
  Fixpoint mats_at (acc : bool) (D : nat -> K) (off : nat) (ranks : list (list agg_result)) (ms : list (rmats K)) : Prop :=
    match ranks, ms with
    | [], [] => True
    | l :: rt, m :: mt => m = rows_step acc D off (rows_of l) (mkR [] [] []) /\ mats_at acc D (off + length (rows_of l)) rt mt
    | _, _ => False
    end.

  Lemma assemble_from_spec : forall debug acc gds (D : nat -> K) counts post pre,
    counts = rows_per_proc (map (@data_of K) (pre ++ post)) ->
    (forall l c, In l post -> In c l -> agg_ok c) ->
    (forall p l, nth_error post p = Some l -> gd_ok D l (gds (length pre + p))) ->
    exists ms, assemble_from debug acc counts gds (length pre) (map (@data_of K) post) = Ok ms /\
      mats_at acc D (length (rows_of (concat pre))) post ms.
  Proof.
    induction post as [|l post IH]; intros pre Hc Hok Hg.
    - exists []. simpl; auto.
    - cbn [map assemble_from].
      rewrite (@compute_restriction_spec K debug acc counts (length pre) (gds (length pre)) D l).
      + cbn [bind].
        destruct (IH (pre ++ [l])) as [ms [H1 H2]].
        * rewrite <- app_assoc. auto.
        * intros; eapply Hok; eauto. right; auto.
        * intros p l' Hp. rewrite app_length. simpl. specialize (Hg (S p) l' Hp).
          replace (length pre + 1 + p) with (length pre + S p) by lia. auto.
        * rewrite app_length in H1. simpl in H1. rewrite Nat.add_1_r in H1. rewrite H1. cbn [bind].
          eexists; split; [reflexivity|]. split.
          -- f_equal. subst counts. unfold n_rows_before, rows_per_proc.
             rewrite map_map, map_app, firstn_app, map_length, Nat.sub_diag, firstn_O, app_nil_r, firstn_all2 by (rewrite map_length; auto).
             clear. induction pre as [|a pre IH]; auto. cbn [map list_sum fold_right concat] in *. rewrite rows_of_app, app_length.
             unfold list_sum in IH. rewrite IH. f_equal. apply flat_evecs_length.
          -- rewrite concat_app, rows_of_app, app_length in H2. simpl in H2. rewrite app_nil_r in H2. exact H2.
      + intros; eapply Hok; eauto. left; auto.
      + specialize (Hg 0 l eq_refl). rewrite Nat.add_0_r in Hg. auto.
  Qed.

  Lemma mats_at_length : forall acc D ranks ms off, mats_at acc D off ranks ms -> length ms = length ranks.
  Proof. induction ranks; destruct ms; simpl; intros; try tauto. f_equal. eapply IHranks; apply H. Qed.

  Definition entry_at (D : nat -> K) (rows : list (agg_result * vec)) (r g : nat) : K :=
    match nth_error rows r with Some ce => r_entry D ce g | None => 0%K end.

  Lemma mats_at_R : forall acc D ranks ms off r g, mats_at acc D off ranks ms -> off <= r ->
    lsum (map (fun m => spm_el (r_R m) r g) ms) = entry_at D (rows_of (concat ranks)) (r - off) g.
  Proof.
    induction ranks as [|l ranks IH]; destruct ms as [|m ms]; simpl; intros off r g H Hr; try tauto.
    - unfold entry_at. destruct (r - off); reflexivity.
    - destruct H as [-> H]. rewrite rows_step_R. cbn [r_R spm_el].
      rewrite rows_of_app. unfold entry_at.
      assert (E : (off <=? r) = true) by (apply Nat.leb_le; auto). rewrite E. cbn [andb].
      destruct (Nat.ltb_spec r (off + length (rows_of l))).
      + rewrite nth_error_app1 by lia.
        destruct (nth_error (rows_of l) (r - off)) as [[c e]|] eqn:En; [|apply nth_error_None in En; lia].
        rewrite wgt_entry.
        assert (Z : lsum (map (fun m => spm_el (r_R m) r g) ms) = 0%K).
        { clear -H H0. revert H H0. generalize (off + length (rows_of l)). revert ms.
          induction ranks as [|l' ranks IH]; destruct ms as [|m ms]; simpl; intros n H H0; try tauto.
          destruct H as [-> H]. rewrite rows_step_R. cbn [r_R spm_el].
          assert (E : (n <=? r) = false) by (apply Nat.leb_gt; auto). rewrite E. cbn [andb].
          rewrite (IH ms (n + length (rows_of l'))) by (auto; lia). ring. }
        rewrite Z. ring.
      + rewrite nth_error_app2 by lia. rewrite (IH ms (off + length (rows_of l))) by (auto; lia).
        unfold entry_at. replace (r - off - length (rows_of l)) with (r - (off + length (rows_of l))) by lia. ring.
  Qed.

  (** * Partition of unity *)
  Lemma sumn_rows_cons : forall (F : nat -> agg_result * vec -> K) c cs dflt,
    sumn (length (rows_of (c :: cs))) (fun r => F r (nth r (rows_of (c :: cs)) dflt)) =
    (sumn (length (ag_evecs c)) (fun k => F k (c, nth k (ag_evecs c) [])) +
     sumn (length (rows_of cs)) (fun r => F (length (ag_evecs c) + r)%nat (nth r (rows_of cs) dflt)))%K.
  Proof.
    intros. cbn [rows_of flat_map]. rewrite app_length, map_length, sumn_plus. f_equal.
    - apply sumn_ext. intros k Hk. f_equal. rewrite app_nth1 by (rewrite map_length; auto).
      rewrite (nth_indep _ dflt (c, [])) by (rewrite map_length; auto).
      exact (map_nth (fun e => (c, e)) (ag_evecs c) [] k).
    - apply sumn_ext. intros r Hr. f_equal. rewrite app_nth2 by (rewrite map_length; lia). rewrite map_length. f_equal. lia.
  Qed.

  Lemma at_dof_sum : forall (c : agg_result) g n (F : nat -> nat -> K),
    sumn n (fun k => at_dof c g (F k)) = at_dof c g (fun j => sumn n (fun k => F k j)).
  Proof.
    intros. unfold at_dof. rewrite sumn_swap. apply sumn_ext. intros j Hj. destruct (_ =? g); auto.
    rewrite sumn_0. auto.
  Qed.

  (** The combination [y] of the rows, at dof g, agglomerate by agglomerate. *)
  Lemma combine_rows : forall D g cs (Y : nat -> K) dflt,
    sumn (length (rows_of cs)) (fun r => (Y r * r_entry D (nth r (rows_of cs) dflt) g)%K) =
    sumn (length cs) (fun a => let c := nth a cs (mkAgg [] [] [] []) in
      at_dof c g (fun j => (nth j (ag_diag c) 0 / D g * sumn (length (ag_evecs c)) (fun k => (Y (row_start cs a + k)%nat * nth j (nth k (ag_evecs c) []) 0)%K))%K)).
  Proof.
    induction cs as [|c cs IH]; intros Y dflt; [reflexivity|].
    rewrite (sumn_rows_cons (fun r ce => (Y r * r_entry D ce g)%K)).
    cbn [length]. rewrite sumn_shift. f_equal.
    - cbn [nth]. unfold r_entry. cbn [fst snd].
      transitivity (sumn (length (ag_evecs c)) (fun k => at_dof c g (fun j => (Y k * (nth j (ag_diag c) 0 / D g * nth j (nth k (ag_evecs c) []) 0))%K))).
      + apply sumn_ext. intros k Hk. rewrite at_dof_scale. reflexivity.
      + rewrite at_dof_sum. apply at_dof_ext. intros j Hj Hg. rewrite <- sumn_scale.
        apply sumn_ext. intros k Hk. cbn [row_start firstn map list_sum fold_right]. simpl. ring.
    - rewrite (IH (fun r => Y (length (ag_evecs c) + r)%nat)). apply sumn_ext. intros a Ha. cbn [nth].
      apply at_dof_ext. intros j Hj Hg. f_equal. apply sumn_ext. intros k Hk. f_equal. f_equal.
      unfold row_start. cbn [firstn map list_sum fold_right]. unfold list_sum. simpl. lia.
  Qed.

  Lemma lsum_nth : forall A (f : A -> K) l d, lsum (map f l) = sumn (length l) (fun i => f (nth i l d)).
  Proof.
    induction l; intros d; auto. cbn [map lsum length]. rewrite sumn_shift. cbn [nth]. rewrite IHl with d. reflexivity.
  Qed.

  Lemma partition_of_unity : forall D cs (Y v : nat -> K) g dflt,
    (forall a c, nth_error cs a = Some c -> forall j, j < length (ag_map c) ->
       sumn (length (ag_evecs c)) (fun k => (Y (row_start cs a + k)%nat * nth j (nth k (ag_evecs c) []) 0)%K) = v (nth j (ag_map c) 0)) ->
    D g <> 0%K -> diag_sum cs g = D g ->
    sumn (length (rows_of cs)) (fun r => (Y r * r_entry D (nth r (rows_of cs) dflt) g)%K) = v g.
  Proof.
    intros D cs Y v g dflt Hv HD Hs. rewrite combine_rows.
    transitivity (v g / D g * diag_sum cs g)%K; [|rewrite Hs; field; auto].
    unfold diag_sum. rewrite (@lsum_nth _ _ cs (mkAgg [] [] [] [])). rewrite <- sumn_scale. apply sumn_ext. intros a Ha. cbn zeta.
    rewrite <- at_dof_scale. apply at_dof_ext. intros j Hj Hg.
    rewrite (Hv a (nth a cs (mkAgg [] [] [] []))); auto.
    - rewrite Hg. field. auto.
    - apply nth_error_nth_lt; auto.
  Qed.

  (** * Rank *)
  Lemma independent_rows : forall D cs (Y : nat -> K) (private : nat -> nat -> Prop) dflt n,
    (forall a c, nth_error cs a = Some c -> forall j, private a j ->
        j < length (ag_map c) /\ nth j (ag_map c) 0 < n /\ (nth j (ag_diag c) 0 <> 0 /\ D (nth j (ag_map c) 0%nat) <> 0)%K /\
        forall b c' i, nth_error cs b = Some c' -> i < length (ag_map c') -> nth i (ag_map c') 0 = nth j (ag_map c) 0 -> b = a /\ i = j) ->
    (forall a c, nth_error cs a = Some c -> forall z : nat -> K,
        (forall j, private a j -> sumn (length (ag_evecs c)) (fun k => (z k * nth j (nth k (ag_evecs c) []) 0)%K) = 0%K) ->
        forall k, k < length (ag_evecs c) -> z k = 0%K) ->
    (forall g, g < n -> sumn (length (rows_of cs)) (fun r => (Y r * r_entry D (nth r (rows_of cs) dflt) g)%K) = 0%K) ->
    forall a c k, nth_error cs a = Some c -> k < length (ag_evecs c) -> Y (row_start cs a + k) = 0%K.
  Proof.
    intros D cs Y private dflt n Hp Hi H0 a c k Ha Hk.
    apply (Hi a c Ha (fun k => Y (row_start cs a + k))); auto.
    intros j Hj. destruct (Hp a c Ha j Hj) as [J1 [J2 [[J3 J4] J5]]].
    specialize (H0 _ J2). rewrite combine_rows in H0.
    rewrite (sumn_single _ a) in H0.
    - rewrite (nth_error_nth cs a _ Ha) in H0. cbn zeta in H0.
      unfold at_dof in H0. rewrite (sumn_single _ j) in H0; auto.
      + rewrite Nat.eqb_refl in H0.
        set (S := sumn _ _) in H0 |- *.
        assert (E : S = (D (nth j (ag_map c) 0%nat) / nth j (ag_diag c) 0 * (nth j (ag_diag c) 0 / D (nth j (ag_map c) 0%nat) * S))%K) by (field; auto).
        rewrite E, H0. ring.
      + intros i Hi' Hn. destruct (Nat.eqb_spec (nth i (ag_map c) 0) (nth j (ag_map c) 0)); auto.
        destruct (J5 a c i); auto. lia.
    - apply nth_error_lt in Ha; auto.
    - intros b Hb Hn. cbn zeta. unfold at_dof. apply sumn_zero. intros i Hi'.
      destruct (Nat.eqb_spec (nth i (ag_map (nth b cs (mkAgg [] [] [] []))) 0) (nth j (ag_map c) 0)); auto.
      destruct (J5 b (nth b cs (mkAgg [] [] [] [])) i); auto; [|lia].
      apply nth_error_nth_lt; auto.
  Qed.

  Lemma row_locate : forall (cs : list agg_result) r, r < length (rows_of cs) ->
    exists a c k, nth_error cs a = Some c /\ k < length (ag_evecs c) /\ r = row_start cs a + k.
  Proof.
    induction cs as [|c cs IH]; intros r H; simpl in H; [lia|].
    rewrite app_length, map_length in H.
    destruct (lt_dec r (length (ag_evecs c))).
    - exists 0, c, r. simpl. auto.
    - destruct (IH (r - length (ag_evecs c))) as [a [c' [k [H1 [H2 H3]]]]]; [lia|].
      exists (S a), c', k. split; auto. split; auto. unfold row_start in *. cbn [firstn map list_sum fold_right].
      unfold list_sum in *. unfold OField.vec in *. lia.
  Qed.

  (** * Self-check *)
  Lemma check_sum_agg_spec : forall (m : list nat) (dg : list K) k j dv, j + k = length m -> length dg = length m ->
    exists dv', check_sum_agg m dg k j dv = Ok dv' /\
      forall h, dv' h = (dv h + sumn k (fun i => if (nth (j + i) m 0 =? h)%nat then nth (j + i)%nat dg 0 else 0))%K.
  Proof.
    induction k; intros j dv Hj Hl; simpl.
    - exists dv. split; auto. intros; ring.
    - unfold rd. rewrite (nth_error_nth_lt m 0) by lia. cbn [bind]. rewrite (nth_error_nth_lt dg 0%K) by lia. cbn [bind].
      destruct (IHk (S j) (fun h => if h =? nth j m 0%nat then (dv h + nth j dg 0)%K else dv h)) as [dv' [H1 H2]]; [lia|auto|].
      exists dv'. split; auto. intros h. rewrite H2.
      pose proof (sumn_shift k (fun i => if nth (j + i) m 0%nat =? h then nth (j + i) dg 0%K else 0%K)) as Sh. cbn [sumn] in Sh. rewrite Sh.
      rewrite Nat.add_0_r.
      rewrite (@sumn_ext K k (fun i => if nth (S j + i) m 0%nat =? h then nth (S j + i) dg 0%K else 0%K)
        (fun i => if nth (j + S i) m 0%nat =? h then nth (j + S i) dg 0%K else 0%K))
        by (intros i Hi; replace (S j + i) with (j + S i) by lia; auto).
      rewrite (Nat.eqb_sym (nth j m 0%nat) h). destruct (h =? nth j m 0%nat); ring.
  Qed.

  Lemma check_weight_agg_spec : forall (gd : nat -> option K) (D : nat -> K) (m : list nat) (dg : list K) k j dv, j + k = length m -> length dg = length m ->
    (forall g, In g m -> gd g = Some (D g)) ->
    exists dv', check_weight_agg gd m dg k j dv = Ok dv' /\
      forall h, dv' h = (dv h + sumn k (fun i => if (nth (j + i) m 0 =? h)%nat then nth (j + i)%nat dg 0 / D h else 0))%K.
  Proof.
    induction k; intros j dv Hj Hl Hg; simpl.
    - exists dv. split; auto. intros; ring.
    - unfold rd, gd_get. rewrite (nth_error_nth_lt m 0) by lia. cbn [bind]. rewrite (nth_error_nth_lt dg 0%K) by lia. cbn [bind].
      rewrite Hg by (apply nth_In; lia). cbn [bind].
      destruct (IHk (S j) (fun h => if h =? nth j m 0%nat then (dv h + nth j dg 0 / D (nth j m 0%nat))%K else dv h)) as [dv' [H1 H2]]; [lia|auto|auto|].
      exists dv'. split; auto. intros h. rewrite H2.
      pose proof (sumn_shift k (fun i => if nth (j + i) m 0%nat =? h then (nth (j + i)%nat dg 0 / D h)%K else 0%K)) as Sh. cbn [sumn] in Sh. rewrite Sh.
      rewrite Nat.add_0_r.
      rewrite (@sumn_ext K k (fun i => if nth (S j + i) m 0%nat =? h then (nth (S j + i)%nat dg 0 / D h)%K else 0%K)
        (fun i => if nth (j + S i) m 0%nat =? h then (nth (j + S i)%nat dg 0 / D h)%K else 0%K))
        by (intros i Hi; replace (S j + i) with (j + S i) by lia; auto).
      rewrite (Nat.eqb_sym (nth j m 0%nat) h). destruct (Nat.eqb_spec h (nth j m 0%nat)); [subst|]; ring.
  Qed.

  Lemma check_aggs_spec : forall f (W : agg_result -> nat -> K) cs pre v,
    (forall c, In c cs -> agg_ok c /\ ag_evecs c <> []) ->
    (forall c v, In c cs -> exists v', f (ag_map c) (ag_diag c) (length (ag_map c)) 0 v = Ok v' /\ forall h, v' h = (v h + W c h)%K) ->
    (forall v, f [] [] 0 0 v = Ok v) -> (forall c h, In c cs -> ag_map c = [] -> W c h = 0%K) ->
    exists v', check_aggs f (data_of (pre ++ cs)) (map (fun c => length (ag_evecs c)) cs) (length pre) (length (rows_of pre)) v = Ok v' /\
      forall h, v' h = (v h + lsum (map (fun c => W c h) cs))%K.
  Proof.
    intros f W. induction cs as [|c cs IH]; intros pre v Hok Hf Hf0 HW.
    - exists v. split; auto. intros; simpl; ring.
    - destruct (Hok c (or_introl eq_refl)) as [[Hc1 Hc2] Hc3].
      cbn [map check_aggs]. unfold rd. cbn [da_evecs da_maps da_diag data_of].
      assert (Ee : exists e, nth_error (flat_map (@ag_evecs K) (pre ++ c :: cs)) (length (rows_of pre)) = Some e /\ length e = length (ag_map c)).
      { rewrite flat_map_app, nth_error_app2 by (rewrite flat_evecs_length; auto). rewrite flat_evecs_length, Nat.sub_diag. simpl.
        destruct (ag_evecs c) as [|e0 es] eqn:Ee; [congruence|]. exists e0. split; auto. apply Hc2. left; auto. }
      destruct Ee as [e [Ee Le]]. rewrite Ee. cbn [bind].
      assert (Em : nth_error (map (@ag_map K) (pre ++ c :: cs)) (length pre) = Some (ag_map c)).
      { rewrite map_app, nth_error_app2; rewrite map_length; auto. rewrite Nat.sub_diag. reflexivity. }
      assert (Ed : nth_error (map (@ag_diag K) (pre ++ c :: cs)) (length pre) = Some (ag_diag c)).
      { rewrite map_app, nth_error_app2; rewrite map_length; auto. rewrite Nat.sub_diag. reflexivity. }
      rewrite Em, Ed, Le. cbn [bind].
      assert (F : exists v1, (let! m := (if length (ag_map c) =? 0 then Ok [] else Ok (ag_map c)) in
          let! dg := (if length (ag_map c) =? 0 then Ok [] else Ok (ag_diag c)) in f m dg (length (ag_map c)) 0 v) = Ok v1 /\ forall h, v1 h = (v h + W c h)%K).
      { destruct (Nat.eqb_spec (length (ag_map c)) 0).
        - cbn [bind]. rewrite e0, Hf0. exists v. split; auto. intros h. rewrite HW; [ring|left; auto|destruct (ag_map c); auto; discriminate].
        - cbn [bind]. apply Hf. left; auto. }
      destruct F as [v1 [F1 F2]].
      destruct (IH (pre ++ [c]) v1) as [v' [H1 H2]].
      + intros; apply Hok; right; auto.
      + intros; apply Hf; right; auto.
      + auto.
      + intros; apply HW; auto. right; auto.
      + exists v'. split.
        * rewrite <- app_assoc in H1. cbn [app] in H1. rewrite rows_of_app, !app_length in H1. cbn [rows_of flat_map length] in H1.
          rewrite app_nil_r, map_length, Nat.add_1_r in H1.
          destruct (length (ag_map c) =? 0); cbn [bind] in F1 |- *; rewrite F1; cbn [bind]; exact H1.
        * intros h. rewrite H2, F2. cbn [map lsum]. ring.
  Qed.

  Lemma check_ranks_spec : forall f (W : agg_result -> nat -> K) ranks v,
    (forall l c, In l ranks -> In c l -> agg_ok c /\ ag_evecs c <> []) ->
    (forall l c v, In l ranks -> In c l -> exists v', f (ag_map c) (ag_diag c) (length (ag_map c)) 0 v = Ok v' /\ forall h, v' h = (v h + W c h)%K) ->
    (forall v, f [] [] 0 0 v = Ok v) -> (forall l c h, In l ranks -> In c l -> ag_map c = [] -> W c h = 0%K) ->
    exists v', check_ranks f (map (@data_of K) ranks) v = Ok v' /\ forall h, v' h = (v h + lsum (map (fun c => W c h) (concat ranks)))%K.
  Proof.
    intros f W. induction ranks as [|l ranks IH]; intros v Hok Hf Hf0 HW.
    - exists v. split; auto. intros; simpl; ring.
    - cbn [map check_ranks].
      destruct (@check_aggs_spec f W l [] v) as [v1 [F1 F2]].
      + intros; eapply Hok; eauto; left; auto.
      + intros; eapply Hf; eauto; left; auto.
      + auto.
      + intros; eapply HW; eauto; left; auto.
      + cbn [app length rows_of flat_map] in F1. cbn [da_nloc data_of]. cbn [data_of] in F1. unfold OField.vec in *. rewrite F1. cbn [bind].
        destruct (IH v1) as [v' [H1 H2]].
        * intros; eapply Hok; eauto; right; auto.
        * intros; eapply Hf; eauto; right; auto.
        * auto.
        * intros; eapply HW; eauto; right; auto.
        * exists v'. split; auto. intros h. rewrite H2, F2. cbn [concat]. rewrite map_app, lsum_app. ring.
  Qed.

  Lemma linf_ext : forall n (u v : nat -> K), (forall g, g < n -> u g = v g) -> linf n u = linf n v.
  Proof. induction n; intros; simpl; auto. rewrite (IHn u v), H; auto. Qed.

  Lemma fmax_ge_l : forall x y : K, (x <= fmax x y)%K.
  Proof. intros. unfold fmax. destruct (x <=? y)%K eqn:E; [apply fleb_le; auto|apply fle_refl]. Qed.
  Lemma fmax_ge_r : forall x y : K, (y <= fmax x y)%K.
  Proof.
    intros. unfold fmax. destruct (x <=? y)%K eqn:E; [apply fle_refl|].
    destruct (fle_total x y) as [H|H]; auto. apply (@fleb_le K) in H. congruence.
  Qed.

  Lemma flt_mul_r : forall x y c : K, (x < y)%K -> (0 < c)%K -> (x * c < y * c)%K.
  Proof.
    intros x y c H Hc. apply <- flt_sub_0. replace (y * c - x * c)%K with ((y - x) * c)%K by ring.
    apply fmul_pos; auto. apply -> flt_sub_0; auto.
  Qed.

  Lemma linf_0 : forall n (v : nat -> K), (forall g, g < n -> v g = 0%K) -> linf n v = 0%K.
  Proof.
    induction n; intros v H; simpl; auto. rewrite IHn, H, fabs_0 by (intros; auto). unfold fmax. destruct (0 <=? 0)%K; auto.
  Qed.

  Lemma linf_ge : forall n (v : nat -> K) g, g < n -> (fabs (v g) <= linf n v)%K.
  Proof.
    induction n; intros v g H; [lia|]. cbn [linf]. destruct (Nat.eq_dec g n) as [->|Hn].
    - apply fmax_ge_r.
    - eapply fle_trans; [apply IHn; lia|apply fmax_ge_l].
  Qed.

  Lemma linf_lt : forall n (v : nat -> K) g, g < n -> v g <> 0%K -> (0 < linf n v)%K.
  Proof.
    intros n v g H Hv. apply flt_le_trans with (fabs (v g)); [|apply linf_ge; auto].
    apply fle_neq_lt; [apply fabs_nonneg|]. intros E. apply Hv. symmetry in E.
    unfold fabs in E. destruct (0 <=? v g)%K; auto. transitivity (- - v g)%K; [ring|]. rewrite E. ring.
  Qed.

  Lemma linf_pos : forall n (v : nat -> K) g, g < n -> v g <> 0%K -> linf n v <> 0%K.
  Proof. intros n v g H Hv E. apply (@flt_irrefl K 0%K). rewrite <- E at 2. apply linf_lt with g; auto. Qed.

  Lemma check_runs : forall tol n D gd ranks,
    (forall l c, In l ranks -> In c l -> agg_ok c /\ ag_evecs c <> []) -> gd_ok D (concat ranks) gd ->
    check_restriction true tol n D gd (map (@data_of K) ranks) =
    (if fltb (linf n (fun g => (diag_sum (concat ranks) g - D g)%K) / linf n D)%K tol then
       if forallb (fun g => fltb (fabs (lsum (map (fun c => at_dof c g (fun j => (nth j (ag_diag c) 0 / D g)%K)) (concat ranks)) - 1)%K) tol) (seq 0 n)
       then Ok tt else Abort
     else Abort).
  Proof.
    intros tol n D gd ranks Hok Hg. unfold check_restriction.
    destruct (@check_ranks_spec (@check_sum_agg K) (fun c h => at_dof c h (fun j => nth j (ag_diag c) 0%K)) ranks (fun _ => 0%K)) as [s [S1 S2]]; auto.
    - intros l c v Hl Hc. destruct (Hok l c Hl Hc) as [[H1 _] _]. apply (@check_sum_agg_spec (ag_map c) (ag_diag c) (length (ag_map c)) 0 v); auto.
    - intros l c h Hl Hc E. unfold at_dof. rewrite E. reflexivity.
    - rewrite S1. cbn [bind].
      destruct (@check_ranks_spec (check_weight_agg gd) (fun c h => at_dof c h (fun j => nth j (ag_diag c) 0 / D h)%K) ranks (fun _ => 0%K)) as [w [W1 W2]]; auto.
      + intros l c v Hl Hc. destruct (Hok l c Hl Hc) as [[H1 _] _].
        apply (@check_weight_agg_spec gd D (ag_map c) (ag_diag c) (length (ag_map c)) 0 v); auto.
        apply Hg. apply in_concat. eauto.
      + intros l c h Hl Hc E. unfold at_dof. rewrite E. reflexivity.
      + rewrite (@linf_ext n (fun g => s g - D g)%K (fun g => (diag_sum (concat ranks) g - D g)%K))
          by (intros g _; rewrite S2; unfold diag_sum; ring).
        unfold assert_dbg. destruct (fltb _ tol); cbn [andb negb bind]; auto.
        rewrite W1. cbn [bind].
        assert (Ew : forallb (fun g => fltb (fabs (w g - 1)%K) tol) (seq 0 n) =
          forallb (fun g => fltb (fabs (lsum (map (fun c => at_dof c g (fun j => (nth j (ag_diag c) 0 / D g)%K)) (concat ranks)) - 1)%K) tol) (seq 0 n)).
        { induction (seq 0 n) as [|g t IHt]; auto. cbn [forallb]. rewrite IHt. f_equal. f_equal. f_equal. rewrite W2. ring. }
        rewrite <- Ew. match goal with |- context [negb ?b] => destruct b; reflexivity end.
  Qed.

  (** * Schedules *)
  Lemma copy_all_data : forall (cs pre : list agg_result),
    copy_all (fun c o => Ok (copy_local_to_global c o)) cs (data_of pre) = Ok (data_of (pre ++ cs)).
  Proof.
    induction cs as [|c cs IH]; intros pre; cbn [copy_all].
    - rewrite app_nil_r; auto.
    - cbn [bind]. rewrite <- data_of_snoc, IH, <- app_assoc. reflexivity.
  Qed.

  Lemma collect_det : forall solve keep n ns nb (res : nat -> agg_result) d,
    (forall id sc c, 1 <= id <= n -> solve id sc = Ok c -> c = res id) ->
    collect solve keep n ns nb d -> d = data_of (map res (seq 1 n)).
  Proof.
    intros solve keep n ns nb res d Hs Hc. unfold collect in Hc.
    apply ws_run_det with (res := res) in Hc.
    - change (@data_empty K) with (data_of ([] : list agg_result)) in Hc. rewrite copy_all_data in Hc. cbn [app] in Hc. unfold agglomerate_ids in Hc. congruence.
    - intros it sc c sc' c' Hin Hw. unfold local_worker in Hw. destruct (solve it sc) eqn:E; cbn [bind] in Hw; try discriminate.
      inversion Hw; subst. eapply Hs; eauto. unfold agglomerate_ids in Hin. apply in_seq in Hin. lia.
  Qed.

  Lemma collect_exists : forall solve keep n ns nb (res : nat -> agg_result),
    (forall id sc, 1 <= id <= n -> solve id sc = Ok (res id)) ->
    collect solve keep n (S ns) (S nb) (data_of (map res (seq 1 n))).
  Proof.
    intros solve keep n ns nb res Hs. unfold collect. apply ws_seq_run. unfold agglomerate_ids.
    assert (G : forall l pre sc c, (forall id, In id l -> 1 <= id <= n) ->
      ws_seq (local_worker solve keep) (fun c o => Ok (copy_local_to_global c o)) l sc c (data_of pre) = Ok (data_of (pre ++ map res l))).
    { induction l as [|id l IH]; intros pre sc c Hl; cbn [ws_seq map].
      - rewrite app_nil_r; auto.
      - unfold local_worker at 1. rewrite Hs by (apply Hl; left; auto). cbn [bind]. rewrite <- data_of_snoc.
        rewrite IH by (intros; apply Hl; right; auto). rewrite <- app_assoc. reflexivity. }
    apply (G (seq 1 n) []). intros id Hid. apply in_seq in Hid. lia.
  Qed.
End PRestr2.
