(** Proofs about the assembly of the restriction matrix. *)
From Coq Require Import List Arith Bool Lia Field.
From Verif Require Import Base OField Mat M_WorkStream M_Restr S_Restr.
Import ListNotations.
Set Implicit Arguments.

Section PRestr.
  Variable K : ofield.
  Add Field KFrestr : (f_field K).
  Local Notation vec := (vec K).
  Local Notation agg_result := (agg_result K).

  (** * Triples *)
  Lemma spm_el_app : forall (a b : spm K) i j, spm_el (a ++ b) i j = (spm_el a i j + spm_el b i j)%K.
  Proof.
    induction a as [|[[r c] v] a IH]; intros b i j; simpl.
    - ring.
    - destruct ((r =? i) && (c =? j)); rewrite IH; ring.
  Qed.

  (** Triples of one row. *)
  Definition trip (row : nat) (m : list nat) (f : nat -> K) (j k : nat) : spm K :=
    map (fun jj => (row, nth jj m 0, f jj)) (seq j k).

  Lemma spm_el_trip_other : forall row m f k j i g, row <> i -> spm_el (trip row m f j k) i g = 0%K.
  Proof.
    unfold trip. induction k; intros j i g H; simpl; auto.
    destruct (Nat.eqb_spec row i); [contradiction|]. simpl. apply IHk; auto.
  Qed.

  Lemma spm_el_trip : forall row m f k j g,
    spm_el (trip row m f j k) row g = sumn k (fun i => if nth (j + i) m 0 =? g then f (j + i) else 0%K).
  Proof.
    unfold trip. induction k; intros j g; [reflexivity|].
    rewrite sumn_shift. cbn [seq map spm_el]. rewrite Nat.eqb_refl. cbn [andb]. rewrite Nat.add_0_r.
    rewrite IHk. rewrite (@sumn_ext K k _ (fun i => if nth (j + S i) m 0 =? g then f (j + S i) else 0%K)).
    - destruct (nth j m 0 =? g); ring.
    - intros i Hi. replace (S j + i) with (j + S i) by lia. reflexivity.
  Qed.

  Lemma trip_app : forall row m f j a b, trip row m f j (a + b) = trip row m f j a ++ trip row m f (j + a) b.
  Proof. intros. unfold trip. rewrite seq_app, map_app. reflexivity. Qed.

  (** Coordinates present. *)
  Definition has (m : spm K) (i j : nat) : Prop := exists v, In (i, j, v) m.

  Lemma spm_set_fresh : forall (m : spm K) i j v, ~ has m i j -> spm_set false m i j v = spm_set true m i j v.
  Proof.
    intros m i j v H. unfold spm_set. f_equal.
    induction m as [|[[r c] w] m IH]; simpl; auto.
    destruct (Nat.eqb_spec r i) as [->|Hr]; simpl.
    - destruct (Nat.eqb_spec c j) as [->|Hc]; simpl.
      + exfalso. apply H. exists w. left; auto.
      + f_equal. apply IH. intros [w' Hw]. apply H. exists w'. right; auto.
    - f_equal. apply IH. intros [w' Hw]. apply H. exists w'. right; auto.
  Qed.

  Lemma has_app : forall a b i j, has (a ++ b) i j <-> has a i j \/ has b i j.
  Proof.
    intros a b i j. unfold has. split.
    - intros [v H]. apply in_app_or in H. destruct H; eauto.
    - intros [[v H]|[v H]]; exists v; apply in_or_app; auto.
  Qed.

  Lemma has_trip : forall row m f j k i g, has (trip row m f j k) i g <-> i = row /\ exists jj, j <= jj < j + k /\ nth jj m 0 = g.
  Proof.
    intros. unfold has, trip. split.
    - intros [v H]. apply in_map_iff in H. destruct H as [jj [H1 H2]]. apply in_seq in H2. inversion H1; subst. eauto.
    - intros [-> [jj [H1 <-]]]. exists (f jj). apply in_map_iff. exists jj. split; auto. apply in_seq. lia.
  Qed.

  (** * Pattern *)
  Lemma pattern_rows_spec : forall first k row m sp,
    pattern_rows first k row m sp = (sp ++ flat_map (fun r => map (fun g => (first + r, g)) m) (seq row k), row + k).
  Proof.
    induction k; intros row m sp; simpl.
    - rewrite app_nil_r, Nat.add_0_r; auto.
    - rewrite IHk. rewrite <- app_assoc. f_equal. lia.
  Qed.

  Fixpoint pat (first row : nat) (cs : list agg_result) : spat :=
    match cs with
    | [] => []
    | c :: t => flat_map (fun r => map (fun g => (first + r, g)) (ag_map c)) (seq row (length (ag_evecs c)))
                ++ pat first (row + length (ag_evecs c)) t
    end.

  Lemma pattern_aggs_spec : forall first cs pre row sp,
    pattern_aggs first (pre ++ map (@ag_map K) cs) (map (fun c => length (ag_evecs c)) cs) (length pre) row sp = Ok (sp ++ pat first row cs).
  Proof.
    induction cs as [|c cs IH]; intros pre row sp; simpl.
    - rewrite app_nil_r; auto.
    - assert (E : pre ++ ag_map c :: map (@ag_map K) cs = (pre ++ [ag_map c]) ++ map (@ag_map K) cs) by (rewrite <- app_assoc; auto).
      assert (L : S (length pre) = length (pre ++ [ag_map c])) by (rewrite app_length; simpl; lia).
      destruct (length (ag_evecs c)) eqn:En.
      + simpl. rewrite E, L, IH. rewrite Nat.add_0_r. reflexivity.
      + rewrite <- En. unfold rd. rewrite nth_error_app2 by lia. rewrite Nat.sub_diag. cbn [nth_error bind].
        rewrite pattern_rows_spec. rewrite E, L, IH. rewrite <- app_assoc. reflexivity.
  Qed.

  Lemma spat_mem_in : forall sp i j, spat_mem sp i j = true <-> In (i, j) sp.
  Proof.
    intros. unfold spat_mem. rewrite existsb_exists. split.
    - intros [[a b] [H1 H2]]. simpl in H2. apply andb_true_iff in H2. destruct H2 as [H2 H3].
      apply Nat.eqb_eq in H2, H3. subst; auto.
    - intros H. exists (i, j). split; auto. simpl. rewrite !Nat.eqb_refl. reflexivity.
  Qed.

  (** * Rows *)
  Definition wgt (D : nat -> K) (c : agg_result) (e : vec) (j : nat) : K := (nth j (ag_diag c) 0 / D (nth j (ag_map c) 0%nat) * nth j e 0)%K.
  Definition dlt (D : nat -> K) (c : agg_result) (e : vec) (j : nat) : K := ((nth j (ag_diag c) 0 / D (nth j (ag_map c) 0%nat) - 1) * nth j e 0)%K.

  Definition set_all (acc : bool) (row : nat) (m : list nat) (f : nat -> K) (l : list nat) (s : spm K) : spm K :=
    fold_left (fun s j => spm_set acc s row (nth j m 0) (f j)) l s.

  Lemma fill_row_spec : forall acc sp (gd : nat -> option K) (D : nat -> K) c (e : vec) row k j (s : rmats K),
    length (ag_diag c) = length (ag_map c) -> length e = length (ag_map c) -> j + k = length (ag_map c) ->
    (forall g, In g (ag_map c) -> gd g = Some (D g)) ->
    (forall g, In g (ag_map c) -> spat_mem sp row g = true) ->
    fill_row acc sp gd (ag_map c) (ag_diag c) e row k j s =
    Ok (mkR (r_R s ++ trip row (ag_map c) (wgt D c e) j k) (r_E s ++ trip row (ag_map c) (fun j => nth j e 0%K) j k)
            (set_all acc row (ag_map c) (dlt D c e) (seq j k) (r_D s))).
  Proof.
    induction k; intros j s Hd He Hj Hg Hs.
    - simpl. unfold trip; simpl. rewrite !app_nil_r. destruct s; reflexivity.
    - cbn [fill_row]. unfold rd.
      rewrite (nth_error_nth_lt (ag_map c) 0) by lia. cbn [bind].
      rewrite (nth_error_nth_lt (ag_diag c) 0%K) by lia. cbn [bind].
      assert (Hin : In (nth j (ag_map c) 0) (ag_map c)) by (apply nth_In; lia).
      unfold gd_get. rewrite (Hg _ Hin). cbn [bind].
      rewrite (nth_error_nth_lt e 0%K) by lia. cbn [bind].
      unfold spm_add. rewrite (Hs _ Hin). cbn [bind].
      rewrite IHk by (auto; lia). cbn [r_R r_E r_D]. unfold trip. cbn [seq map].
      rewrite <- !app_assoc. reflexivity.
  Qed.

  Lemma fill_row_zero : forall acc sp (gd : nat -> option K) (c : agg_result) (e : vec) row s, length e = length (ag_map c) -> length e = 0 ->
    fill_row acc sp gd (ag_map c) [] e row (length e) 0 s = Ok s.
  Proof. intros. rewrite H0. reflexivity. Qed.

  (** Rows of one agglomerate, as a fold over its eigenvectors. *)
  Definition row_step (acc : bool) (D : nat -> K) (c : agg_result) (row : nat) (e : vec) (s : rmats K) : rmats K :=
    mkR (r_R s ++ trip row (ag_map c) (wgt D c e) 0 (length (ag_map c)))
        (r_E s ++ trip row (ag_map c) (fun j => nth j e 0%K) 0 (length (ag_map c)))
        (set_all acc row (ag_map c) (dlt D c e) (seq 0 (length (ag_map c))) (r_D s)).

  Fixpoint rows_step (acc : bool) (D : nat -> K) (row : nat) (l : list (agg_result * vec)) (s : rmats K) : rmats K :=
    match l with
    | [] => s
    | (c, e) :: t => rows_step acc D (S row) t (row_step acc D c row e s)
    end.

  Lemma rows_step_app : forall acc D a b row s,
    rows_step acc D row (a ++ b) s = rows_step acc D (row + length a) b (rows_step acc D row a s).
  Proof.
    induction a as [|[c e] a IH]; intros b row s; simpl.
    - rewrite Nat.add_0_r; auto.
    - rewrite IH. f_equal. lia.
  Qed.

  Lemma fill_rows_spec : forall debug acc sp (gd : nat -> option K) (D : nat -> K) (d : agg_data K) first (c : agg_result) i es epre epost pos s,
    length (ag_diag c) = length (ag_map c) -> (forall e, In e es -> length e = length (ag_map c)) ->
    (forall g, In g (ag_map c) -> gd g = Some (D g)) ->
    (forall r g, pos <= r < pos + length es -> In g (ag_map c) -> spat_mem sp (first + r) g = true) ->
    da_evecs d = epre ++ es ++ epost -> length epre = pos ->
    nth_error (da_maps d) i = Some (ag_map c) -> nth_error (da_diag d) i = Some (ag_diag c) ->
    fill_rows debug acc sp gd d first i (length es) pos s =
    Ok (rows_step acc D (first + pos) (map (fun e => (c, e)) es) s, pos + length es).
  Proof.
    induction es as [|e es IH]; intros epre epost pos s Hd He Hg Hs Hev Hp Hm Hdg; cbn [length fill_rows map rows_step].
    - rewrite Nat.add_0_r; auto.
    - unfold rd. rewrite Hev. rewrite nth_error_app2 by lia. replace (pos - length epre) with 0 by lia. cbn [app nth_error bind].
      rewrite Hm. cbn [bind].
      assert (Le : length e = length (ag_map c)) by (apply He; left; auto).
      rewrite Le, Nat.eqb_refl. unfold assert_dbg. rewrite andb_false_r. cbn [bind].
      assert (F : (let! dg := if length (ag_map c) =? 0 then Ok [] else match nth_error (da_diag d) i with Some a => Ok a | None => UB end in
         fill_row acc sp gd (ag_map c) dg e (first + pos) (length (ag_map c)) 0 s) = Ok (row_step acc D c (first + pos) e s)).
      { destruct (Nat.eqb_spec (length (ag_map c)) 0) as [Hz|Hz].
        - cbn [bind]. rewrite Hz. cbn [fill_row]. unfold row_step. rewrite Hz. unfold trip. cbn [seq map set_all fold_left].
          rewrite !app_nil_r. destruct s; reflexivity.
        - rewrite Hdg. cbn [bind]. rewrite (@fill_row_spec acc sp gd D c e) by (auto; intros g Hgin; apply Hs; auto; simpl; lia).
          unfold row_step. reflexivity. }
      destruct (length (ag_map c) =? 0) eqn:Ez.
      + cbn [bind] in F |- *. rewrite F. cbn [bind].
        rewrite (IH (epre ++ [e]) epost (S pos)).
        * replace (first + S pos) with (S (first + pos)) by lia. f_equal. f_equal. lia.
        * auto.
        * intros; apply He; right; auto.
        * auto.
        * intros r g Hr; apply Hs; simpl; lia.
        * rewrite Hev, <- !app_assoc. reflexivity.
        * rewrite app_length; simpl; lia.
        * auto.
        * auto.
      + rewrite Hdg in F |- *. cbn [bind] in F |- *. rewrite F. cbn [bind].
        rewrite (IH (epre ++ [e]) epost (S pos)).
        * replace (first + S pos) with (S (first + pos)) by lia. f_equal. f_equal. lia.
        * auto.
        * intros; apply He; right; auto.
        * auto.
        * intros r g Hr; apply Hs; simpl; lia.
        * rewrite Hev, <- !app_assoc. reflexivity.
        * rewrite app_length; simpl; lia.
        * auto.
        * auto.
  Qed.

  Lemma rows_of_app : forall a b : list agg_result, rows_of (a ++ b) = rows_of a ++ rows_of b.
  Proof. intros. unfold rows_of. apply flat_map_app. Qed.

  Lemma rows_of_length : forall l : list agg_result, length (rows_of l) = list_sum (map (fun c => length (ag_evecs c)) l).
  Proof. induction l; simpl; auto. rewrite app_length, map_length, IHl. reflexivity. Qed.

  Lemma flat_evecs_length : forall l : list agg_result, length (flat_map (@ag_evecs K) l) = length (rows_of l).
  Proof. induction l; simpl; auto. rewrite !app_length, map_length, IHl. reflexivity. Qed.

  Lemma fill_aggs_spec : forall debug acc sp (gd : nat -> option K) (D : nat -> K) (d : agg_data K) first (cs pre : list agg_result) s,
    data_of (pre ++ cs) = d -> (forall c, In c cs -> agg_ok c) -> gd_ok D cs gd ->
    (forall x, In x (pat first (length (rows_of pre)) cs) -> In x sp) ->
    fill_aggs debug acc sp gd d first (map (fun c => length (ag_evecs c)) cs) (length pre) (length (rows_of pre)) s =
    Ok (rows_step acc D (first + length (rows_of pre)) (rows_of cs) s).
  Proof.
    induction cs as [|c cs IH]; intros pre s Hd Hok Hg Hs; cbn [map fill_aggs].
    - reflexivity.
    - destruct (Hok c (or_introl eq_refl)) as [Hc1 Hc2].
      rewrite (@fill_rows_spec debug acc sp gd D d first c (length pre) (ag_evecs c) (flat_map (@ag_evecs K) pre) (flat_map (@ag_evecs K) cs)).
      + cbn [bind].
        pose proof (IH (pre ++ [c]) (rows_step acc D (first + length (rows_of pre)) (map (fun e => (c, e)) (ag_evecs c)) s)) as IH'.
        rewrite rows_of_app in IH'. cbn [rows_of flat_map] in IH'. rewrite app_nil_r in IH'.
        rewrite !app_length, map_length in IH'. cbn [length] in IH'.
        replace (length pre + 1) with (S (length pre)) in IH' by lia.
        etransitivity; [eapply IH'|].
        * rewrite <- app_assoc. exact Hd.
        * intros; apply Hok; right; auto.
        * intros x Hx; apply Hg; right; auto.
        * intros x Hx. apply Hs. cbn [pat]. apply in_or_app. right; auto.
        * cbn [rows_of flat_map]. rewrite rows_step_app. rewrite map_length. f_equal. f_equal. apply Nat.add_assoc.
      + auto.
      + auto.
      + intros g Hgin. apply (Hg c); [left|]; auto.
      + intros r g Hr Hgin. apply spat_mem_in. apply Hs. cbn [pat]. apply in_or_app. left.
        apply in_flat_map. exists r. split.
        * apply in_seq. unfold OField.vec in *; lia.
        * apply in_map_iff. eauto.
      + rewrite <- Hd. unfold data_of. cbn [da_evecs]. rewrite flat_map_app. reflexivity.
      + apply flat_evecs_length.
      + rewrite <- Hd. unfold data_of. cbn [da_maps]. rewrite map_app, nth_error_app2; rewrite map_length; auto.
        rewrite Nat.sub_diag. reflexivity.
      + rewrite <- Hd. unfold data_of. cbn [da_diag]. rewrite map_app, nth_error_app2; rewrite map_length; auto.
        rewrite Nat.sub_diag. reflexivity.
  Qed.

  (** The assembly of one rank in closed form. *)
  Lemma compute_restriction_spec : forall debug acc counts rank (gd : nat -> option K) (D : nat -> K) (cs : list agg_result),
    (forall c, In c cs -> agg_ok c) -> gd_ok D cs gd ->
    compute_restriction debug acc counts rank gd (data_of cs) =
    Ok (rows_step acc D (n_rows_before counts rank) (rows_of cs) (mkR [] [] [])).
  Proof.
    intros debug acc counts rank gd D cs Hok Hg. unfold compute_restriction, sparsity_pattern.
    cbn [da_maps da_nloc data_of].
    pose proof (@pattern_aggs_spec (n_rows_before counts rank) cs [] 0 []) as P. cbn [app length] in P.
    unfold OField.vec in *. rewrite P. cbn [bind].
    rewrite !map_length, Nat.eqb_refl. unfold assert_dbg. rewrite andb_false_r. cbn [bind].
    pose proof (@fill_aggs_spec debug acc (pat (n_rows_before counts rank) 0 cs) gd D (data_of cs) (n_rows_before counts rank) cs [] (mkR [] [] [])) as Q.
    cbn [app length rows_of flat_map] in Q. rewrite Nat.add_0_r in Q. apply Q.
    - reflexivity.
    - auto.
    - auto.
    - auto.
  Qed.

  (** * Entries *)
  Lemma rows_step_R : forall acc D l row s i g,
    spm_el (r_R (rows_step acc D row l s)) i g =
    (spm_el (r_R s) i g + (if ((row <=? i) && (i <? row + length l))%nat then
        match nth_error l (i - row)%nat with Some (c, e) => at_dof c g (wgt D c e) | None => 0 end else 0))%K.
  Proof.
    induction l as [|[c e] l IH]; intros row s i g; cbn [rows_step length].
    - destruct (Nat.leb_spec row i); cbn [andb].
      + destruct (Nat.ltb_spec i (row + 0)); [lia|]. ring.
      + ring.
    - rewrite IH. cbn [r_R row_step]. rewrite spm_el_app.
      destruct (Nat.eq_dec row i) as [->|Hn].
      + rewrite spm_el_trip. cbn [Nat.add].
        assert (E1 : (S i <=? i) = false) by (apply Nat.leb_gt; lia). rewrite E1. cbn [andb].
        rewrite Nat.leb_refl. assert (E2 : (i <? i + S (length l)) = true) by (apply Nat.ltb_lt; lia). rewrite E2.
        cbn [andb]. rewrite Nat.sub_diag. cbn [nth_error]. unfold at_dof. ring.
      + rewrite spm_el_trip_other by auto.
        destruct (Nat.leb_spec (S row) i).
        * assert (E1 : (row <=? i) = true) by (apply Nat.leb_le; lia). rewrite E1. cbn [andb].
          replace (i <? S row + length l) with (i <? row + S (length l)) by (f_equal; lia).
          replace (i - row) with (S (i - S row)) by lia. cbn [nth_error].
          destruct (i <? row + S (length l)); ring.
        * assert (E1 : (row <=? i) = false) by (apply Nat.leb_gt; lia). rewrite E1. cbn [andb]. ring.
  Qed.

  Lemma rows_step_E : forall acc D l row s i g,
    spm_el (r_E (rows_step acc D row l s)) i g =
    (spm_el (r_E s) i g + (if ((row <=? i) && (i <? row + length l))%nat then
        match nth_error l (i - row)%nat with Some (c, e) => at_dof c g (fun j => nth j e 0%K) | None => 0 end else 0))%K.
  Proof.
    induction l as [|[c e] l IH]; intros row s i g; cbn [rows_step length].
    - destruct (Nat.leb_spec row i); cbn [andb].
      + destruct (Nat.ltb_spec i (row + 0)); [lia|]. ring.
      + ring.
    - rewrite IH. cbn [r_E row_step]. rewrite spm_el_app.
      destruct (Nat.eq_dec row i) as [->|Hn].
      + rewrite spm_el_trip. cbn [Nat.add].
        assert (E1 : (S i <=? i) = false) by (apply Nat.leb_gt; lia). rewrite E1. cbn [andb].
        rewrite Nat.leb_refl. assert (E2 : (i <? i + S (length l)) = true) by (apply Nat.ltb_lt; lia). rewrite E2.
        cbn [andb]. rewrite Nat.sub_diag. cbn [nth_error]. unfold at_dof. ring.
      + rewrite spm_el_trip_other by auto.
        destruct (Nat.leb_spec (S row) i).
        * assert (E1 : (row <=? i) = true) by (apply Nat.leb_le; lia). rewrite E1. cbn [andb].
          replace (i <? S row + length l) with (i <? row + S (length l)) by (f_equal; lia).
          replace (i - row) with (S (i - S row)) by lia. cbn [nth_error].
          destruct (i <? row + S (length l)); ring.
        * assert (E1 : (row <=? i) = false) by (apply Nat.leb_gt; lia). rewrite E1. cbn [andb]. ring.
  Qed.

  Lemma set_all_acc : forall row m f l s, set_all true row m f l s = s ++ map (fun jj => (row, nth jj m 0, f jj)) l.
  Proof.
    induction l; intros s; simpl.
    - rewrite app_nil_r; auto.
    - unfold set_all in *. simpl. rewrite IHl. rewrite <- app_assoc. reflexivity.
  Qed.

  (** With add semantics: R = E + Delta. *)
  Lemma rows_step_split : forall D l row s i g,
    spm_el (r_R s) i g = (spm_el (r_E s) i g + spm_el (r_D s) i g)%K ->
    spm_el (r_R (rows_step true D row l s)) i g =
    (spm_el (r_E (rows_step true D row l s)) i g + spm_el (r_D (rows_step true D row l s)) i g)%K.
  Proof.
    induction l as [|[c e] l IH]; intros row s i g H; cbn [rows_step]; auto.
    apply IH. cbn [row_step r_R r_E r_D]. rewrite set_all_acc. rewrite !spm_el_app. rewrite H.
    assert (G : spm_el (trip row (ag_map c) (wgt D c e) 0 (length (ag_map c))) i g =
      (spm_el (trip row (ag_map c) (fun j => nth j e 0%K) 0 (length (ag_map c))) i g +
       spm_el (map (fun jj => (row, nth jj (ag_map c) 0%nat, dlt D c e jj)) (seq 0 (length (ag_map c)))) i g)%K).
    { change (map (fun jj => (row, nth jj (ag_map c) 0%nat, dlt D c e jj)) (seq 0 (length (ag_map c))))
        with (trip row (ag_map c) (dlt D c e) 0 (length (ag_map c))).
      destruct (Nat.eq_dec row i) as [->|Hn].
      - rewrite !spm_el_trip. rewrite <- sumn_add. apply sumn_ext. intros j Hj. cbn [Nat.add].
        destruct (nth j (ag_map c) 0 =? g); [|ring]. unfold wgt, dlt. ring.
      - rewrite !spm_el_trip_other by auto. ring. }
    rewrite G. ring.
  Qed.

  (** With injective maps set and add agree. *)
  Lemma set_all_fresh : forall row m f l s, NoDup m -> NoDup l -> (forall j, In j l -> j < length m) ->
    (forall j, In j l -> ~ has s row (nth j m 0)) -> set_all false row m f l s = set_all true row m f l s.
  Proof.
    induction l as [|j l IH]; intros s Hm Hl Hb Hf; auto.
    unfold set_all in *. cbn [fold_left]. rewrite spm_set_fresh by (apply Hf; left; auto).
    inversion Hl; subst. apply IH; auto.
    - intros; apply Hb; right; auto.
    - intros k Hk Hh. unfold spm_set in Hh. apply has_app in Hh. destruct Hh as [Hh|[v [Hv|[]]]].
      + apply (Hf k); [right|]; auto.
      + inversion Hv; subst. apply H1.
        assert (j = k). { apply (proj1 (NoDup_nth m 0) Hm); auto; apply Hb; [left|right]; auto. }
        subst; auto.
  Qed.

  Lemma rows_step_fresh : forall D l row s, (forall (c : agg_result) (e : vec), In (c, e) l -> NoDup (ag_map c)) ->
    (forall i g, has (r_D s) i g -> i < row) ->
    rows_step false D row l s = rows_step true D row l s.
  Proof.
    induction l as [|[c e] l IH]; intros row s Hn Hs; cbn [rows_step]; auto.
    assert (E : row_step false D c row e s = row_step true D c row e s).
    { unfold row_step. f_equal. apply set_all_fresh.
      - apply (Hn c e); left; auto.
      - apply seq_NoDup.
      - intros j Hj. apply in_seq in Hj. lia.
      - intros j _ Hh. apply Hs in Hh. lia. }
    rewrite E. apply IH.
    - intros; eapply Hn; right; eauto.
    - intros i g Hh. cbn [row_step r_D] in Hh. rewrite set_all_acc in Hh. apply has_app in Hh. destruct Hh as [Hh|Hh].
      + apply Hs in Hh. lia.
      + change (has (trip row (ag_map c) (dlt D c e) 0 (length (ag_map c))) i g) in Hh. apply has_trip in Hh. lia.
  Qed.

  (** * Copying *)
  Lemma data_of_snoc : forall l (c : agg_result), data_of (l ++ [c]) = copy_local_to_global c (data_of l).
  Proof.
    intros. unfold data_of, copy_local_to_global. cbn [da_evals da_evecs da_diag da_maps da_nloc].
    rewrite !flat_map_app, !map_app. simpl. rewrite !app_nil_r. reflexivity.
  Qed.

  (** * Row numbers *)
  Lemma n_rows_before_S : forall counts p n, nth_error counts p = Some n -> n_rows_before counts (S p) = n_rows_before counts p + n.
  Proof.
    unfold n_rows_before. induction counts; intros p n H; destruct p; simpl in *; try discriminate.
    - inversion H; subst. lia.
    - rewrite (IHcounts p n H). lia.
  Qed.

  Lemma n_rows_before_mono : forall counts p q, p <= q -> n_rows_before counts p <= n_rows_before counts q.
  Proof.
    unfold n_rows_before. induction counts; intros p q H.
    - rewrite !firstn_nil; auto.
    - destruct p, q; simpl; try lia. specialize (IHcounts p q ltac:(lia)). lia.
  Qed.

  Lemma n_rows_before_all : forall counts p, length counts <= p -> n_rows_before counts p = n_total_rows counts.
  Proof. intros. unfold n_rows_before, n_total_rows. rewrite firstn_all2; auto. Qed.

  Lemma rank_of_row : forall counts r, r < n_total_rows counts ->
    exists p n, nth_error counts p = Some n /\ n_rows_before counts p <= r < n_rows_before counts p + n.
  Proof.
    unfold n_total_rows, n_rows_before. induction counts as [|c t IH]; simpl; intros r H; [lia|].
    destruct (lt_dec r c).
    - exists 0, c. simpl. split; auto; lia.
    - destruct (IH (r - c)) as [p [n0 [H1 H2]]]; [lia|].
      exists (S p), n0. simpl. split; auto. lia.
  Qed.
End PRestr.
