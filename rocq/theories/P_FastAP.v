(** Proofs about fast AP. *)
From Coq Require Import List Arith Bool Lia Field.
From Verif Require Import Base OField Mat M_Agglo S_Agglo P_Agglo M_WorkStream M_Restr S_Restr M_FastAP S_FastAP P_WorkStream P_Restr P_Restr2.
Import ListNotations.
Set Implicit Arguments.

Section PFastAP.
  Variable K : ofield.
  Add Field KFfastap : (f_field K).
  Local Notation vec := (vec K).

  (** * Sums over dof lists *)
  Lemma sum_reindex : forall n (cols : list nat) (f : nat -> K), NoDup cols -> (forall g, In g cols -> g < n) ->
    (forall h, h < n -> ~ In h cols -> f h = 0%K) -> sumn (length cols) (fun l => f (nth l cols 0)) = sumn n f.
  Proof.
    intros n cols f Hn Hb Hz.
    transitivity (sumn (length cols) (fun l => sumn n (fun h => if nth l cols 0 =? h then f h else 0%K))).
    - apply sumn_ext. intros l Hl. rewrite (sumn_single _ (nth l cols 0)).
      + rewrite Nat.eqb_refl. auto.
      + apply Hb. apply nth_In; auto.
      + intros h _ Hne. destruct (Nat.eqb_spec (nth l cols 0) h); congruence.
    - rewrite sumn_swap. apply sumn_ext. intros h Hh.
      destruct (in_dec Nat.eq_dec h cols) as [Hi|Hi].
      + destruct (In_nth _ _ 0 Hi) as [l [Hl E]]. rewrite (sumn_single _ l); auto.
        * rewrite E, Nat.eqb_refl. auto.
        * intros l' Hl' Hne. destruct (Nat.eqb_spec (nth l' cols 0) h) as [E'|E']; auto.
          exfalso. apply Hne. apply (proj1 (NoDup_nth cols 0) Hn); auto. congruence.
      + rewrite Hz by auto. apply sumn_zero. intros l Hl. destruct (_ =? h); auto.
  Qed.

  Lemma lsum_sumn_swap : forall A (l : list A) n (f : A -> nat -> K), lsum (map (fun c => sumn n (f c)) l) = sumn n (fun i => lsum (map (fun c => f c i) l)).
  Proof.
    induction l; intros n f; simpl.
    - rewrite sumn_0. auto.
    - rewrite IHl, <- sumn_add. reflexivity.
  Qed.

  Lemma lsum_scale_r : forall A (l : list A) (f : A -> K) a, (lsum (map f l) * a)%K = lsum (map (fun c => (f c * a)%K) l).
  Proof. induction l; intros; simpl; [ring|]. rewrite <- IHl. ring. Qed.

  Lemma nth_map_K : forall (u : nat -> K) cols l, l < length cols -> nth l (map u cols) 0%K = u (nth l cols 0).
  Proof. intros. rewrite (nth_indep _ 0%K (u 0)) by (rewrite map_length; auto). apply map_nth. Qed.

  (** * One patch *)
  Lemma patch_apply : forall (F : fem K) cells cols M (u : nat -> K) g, fem_ok F -> patch_ok F cells cols M ->
    sumn (length cols) (fun t => if nth t cols 0 =? g then nth t (mulvec M (map u cols)) 0%K else 0%K) = cells_apply F cells u g.
  Proof.
    intros F cells cols M u g HF [Hn [Hr [Hc [Hin HM]]]]. unfold cells_apply.
    destruct (in_dec Nat.eq_dec g cols) as [Hi|Hi].
    - destruct (In_nth _ _ 0 Hi) as [t [Ht E]]. rewrite (sumn_single _ t); auto.
      + rewrite E, Nat.eqb_refl. rewrite nth_mulvec by lia. rewrite Hc.
        transitivity (sumn (length cols) (fun l => lsum (map (fun c => (f_cm F c g (nth l cols 0%nat) * u (nth l cols 0%nat))%K) cells))).
        * apply sumn_ext. intros l Hl. rewrite HM, E, nth_map_K by auto. rewrite lsum_scale_r. reflexivity.
        * rewrite <- lsum_sumn_swap. apply lsum_map_ext. intros c Hcin.
          apply (@sum_reindex (f_ndofs F) cols (fun h => (f_cm F c g h * u h)%K)); auto.
          -- intros h Hh. apply Hin in Hh. destruct Hh as [c' [_ Hh]]. apply (HF c'); auto.
          -- intros h Hh Hnot. destruct (HF c) as [_ HF2]. rewrite HF2; [ring|]. intros [_ Hh']. apply Hnot. apply Hin. eauto.
      + intros l' Hl' Hne. destruct (Nat.eqb_spec (nth l' cols 0) g) as [E'|E']; auto.
        exfalso. apply Hne. apply (proj1 (NoDup_nth cols 0) Hn); auto. congruence.
    - rewrite sumn_zero.
      + symmetry. apply lsum_map_0. intros c Hcin. apply sumn_zero. intros h Hh. destruct (HF c) as [_ HF2]. rewrite HF2; [ring|].
        intros [Hg _]. apply Hi. apply Hin. eauto.
      + intros t Ht. destruct (Nat.eqb_spec (nth t cols 0) g) as [E|E]; auto. exfalso. apply Hi. subst. apply nth_In; auto.
  Qed.

  (** * Worker *)
  Lemma upd_app : forall A (a : list A) x b y j, length a = j -> upd (a ++ x :: b) j y = a ++ y :: b.
  Proof. induction a; intros; subst; simpl; auto. f_equal; auto. Qed.

  Definition row_vals (M : mat K) (E D : spm K) (is_halo : bool) (cols : list nat) (row : nat) : vec := mulvec M (delta_eig E D is_halo row cols).

  Lemma fa_rows_spec : forall (E D : spm K) is_halo first n_owned nev i cols (M : mat K) k j rrest,
    nr M = length cols -> i * nev + nev <= n_owned -> j + k = nev -> length rrest = k ->
    fa_rows E D is_halo first n_owned nev i cols M k j
      (mkFC (map (fun j => first + (i * nev + j)) (seq 0 j) ++ rrest) cols
            (map (fun j => row_vals M E D is_halo cols (first + (i * nev + j))) (seq 0 j) ++ repeat (vzero (length cols)) k)) =
    Ok (mkFC (map (fun j => first + (i * nev + j)) (seq 0 nev)) cols
            (map (fun j => row_vals M E D is_halo cols (first + (i * nev + j))) (seq 0 nev))).
  Proof.
    induction k; intros j rrest Hr Ho Hj Hl.
    - destruct rrest; [|discriminate]. simpl. rewrite !app_nil_r. replace nev with j by lia. reflexivity.
    - destruct rrest as [|r0 rrest]; [discriminate|]. cbn [fa_rows]. unfold nth_owned_row.
      destruct (Nat.ltb_spec (i * nev + j) n_owned); [|lia]. cbn [bind fc_rows fc_cols fc_vals repeat].
      set (rows := map (fun j => first + (i * nev + j)) (seq 0 j)).
      set (vals := map (fun j => row_vals M E D is_halo cols (first + (i * nev + j))) (seq 0 j)).
      assert (L1 : length rows = j) by (unfold rows; rewrite map_length, seq_length; auto).
      assert (L2 : length vals = j) by (unfold vals; rewrite map_length, seq_length; auto).
      rewrite wr_in by (rewrite app_length; simpl; lia). cbn [bind].
      unfold rd. rewrite nth_error_app2 by lia. rewrite L2, Nat.sub_diag. cbn [nth_error bind].
      rewrite wr_in by (rewrite app_length; simpl; lia). cbn [bind].
      rewrite (upd_app rows _ _ _ L1), (upd_app vals _ _ _ L2).
      assert (V : vadd (mulvec M (delta_eig E D is_halo (first + (i * nev + j)) cols)) (vzero (length cols)) = row_vals M E D is_halo cols (first + (i * nev + j))).
      { unfold row_vals. apply (@list_ext K _ _ 0%K).
        - vlen.
        - intros t Ht. rewrite nth_vadd by vlen. unfold vzero. rewrite nth_repeat. ring. }
      rewrite V.
      specialize (IHk (S j) rrest Hr Ho ltac:(lia) ltac:(simpl in Hl; lia)).
      rewrite seq_S, !map_app in IHk. cbn [map] in IHk. rewrite <- !app_assoc in IHk. exact IHk.
  Qed.

  (** What the worker leaves in the copy data for a patch with cells. *)
  Definition item_res (evaluate : list nat -> list nat * mat K) (E D : spm K) (is_halo : bool) (first nev : nat) (it : nat * list nat) : fcopy K :=
    let '(i, cells) := it in
    let '(cols, M) := evaluate cells in
    mkFC (map (fun j => first + (i * nev + j)) (seq 0 nev)) cols
         (map (fun j => row_vals M E D is_halo cols (first + (i * nev + j))) (seq 0 nev)).

  Lemma resize_length : forall A n (d : A) l, length (resize n d l) = n.
  Proof. intros. unfold resize. rewrite app_length, firstn_length, repeat_length. lia. Qed.

  Lemma fa_worker_spec : forall (F : fem K) evaluate (E D : spm K) is_halo first n_owned nev i cells u c,
    evaluate_ok F evaluate -> NoDup cells -> cells <> [] -> i * nev + nev <= n_owned ->
    fa_worker evaluate E D is_halo first n_owned nev (i, cells) u c = Ok (tt, item_res evaluate E D is_halo first nev (i, cells)).
  Proof.
    intros F evaluate E D is_halo first n_owned nev i cells u c He Hn Hne Ho.
    unfold fa_worker. destruct cells as [|c0 cells]; [congruence|].
    specialize (He _ Hn). unfold item_res. destruct (evaluate (c0 :: cells)) as [cols M]. destruct He as [_ [Hr _]].
    cbn [fst snd] in Hr.
    pose proof (@fa_rows_spec E D is_halo first n_owned nev i cols M nev 0 (resize nev 0 (fc_rows c)) Hr Ho (Nat.add_0_l _) (resize_length _ _ _)) as P.
    cbn [seq map app] in P. rewrite P. reflexivity.
  Qed.

  (** * Copier *)
  Lemma fa_set_row_spec : forall row cols (vals : vec) k j m, j + k = length cols -> length vals = length cols ->
    exists m', fa_set_row true row cols vals k j m = Ok m' /\
      forall r g, spm_el m' r g = (spm_el m r g + (if (row =? r)%nat then sumn k (fun t => if (nth (j + t) cols 0 =? g)%nat then nth (j + t)%nat vals 0 else 0) else 0))%K.
  Proof.
    induction k; intros j m Hj Hl; cbn [fa_set_row].
    - exists m. split; auto. intros r g. destruct (row =? r); simpl; ring.
    - unfold rd. rewrite (nth_error_nth_lt cols 0) by lia. cbn [bind]. rewrite (nth_error_nth_lt vals 0%K) by lia. cbn [bind].
      set (m1 := if feqb (nth j vals 0%K) 0%K then m else spm_set true m row (nth j cols 0) (nth j vals 0%K)).
      assert (E1 : forall r g, spm_el m1 r g = (spm_el m r g + (if ((row =? r) && (nth j cols 0 =? g))%nat then nth j vals 0 else 0))%K).
      { intros r g. unfold m1. destruct (feqb (nth j vals 0%K) 0%K) eqn:Ez.
        - apply feqb_eq in Ez. rewrite Ez. destruct (_ && _); ring.
        - unfold spm_set. rewrite spm_el_app. cbn [spm_el]. destruct ((row =? r) && (nth j cols 0 =? g)); ring. }
      destruct (IHk (S j) m1 ltac:(lia) Hl) as [m' [H1 H2]].
      exists m'. split; auto. intros r g. rewrite H2, E1.
      destruct (row =? r); cbn [andb]; [|ring].
      pose proof (sumn_shift k (fun t => if nth (j + t) cols 0 =? g then nth (j + t) vals 0%K else 0%K)) as Sh. rewrite Sh.
      rewrite Nat.add_0_r.
      rewrite (@sumn_ext K k (fun t => if nth (S j + t) cols 0 =? g then nth (S j + t) vals 0%K else 0%K)
        (fun t => if nth (j + S t) cols 0 =? g then nth (j + S t) vals 0%K else 0%K)) by (intros t Ht; replace (S j + t) with (j + S t) by lia; auto).
      ring.
  Qed.

  Lemma fa_copy_rows_spec : forall (c : fcopy K) k i m, i + k = length (fc_rows c) -> length (fc_vals c) = length (fc_rows c) ->
    (forall v, In v (fc_vals c) -> length v = length (fc_cols c)) ->
    exists m', fa_copy_rows true c k i m = Ok m' /\
      forall r g, spm_el m' r g = (spm_el m r g + sumn k (fun s => if (nth (i + s) (fc_rows c) 0 =? r)%nat then
        sumn (length (fc_cols c)) (fun t => if (nth t (fc_cols c) 0 =? g)%nat then nth t (nth (i + s)%nat (fc_vals c) []) 0 else 0) else 0))%K.
  Proof.
    induction k; intros i m Hi Hl Hv; cbn [fa_copy_rows].
    - exists m. split; auto. intros r g. simpl. ring.
    - unfold rd. rewrite (nth_error_nth_lt (fc_rows c) 0) by lia. cbn [bind]. rewrite (nth_error_nth_lt (fc_vals c) []) by lia. cbn [bind].
      destruct (@fa_set_row_spec (nth i (fc_rows c) 0) (fc_cols c) (nth i (fc_vals c) []) (length (fc_cols c)) 0 m) as [m1 [H1 H2]]; auto.
      { apply Hv. apply nth_In. lia. }
      rewrite H1. cbn [bind]. destruct (IHk (S i) m1 ltac:(lia) Hl Hv) as [m' [H3 H4]].
      exists m'. split; auto. intros r g. rewrite H4, H2. rewrite sumn_shift. rewrite Nat.add_0_r. cbn [Nat.add].
      rewrite (@sumn_ext K k (fun s => if nth (S (i + s)) (fc_rows c) 0 =? r then
          sumn (length (fc_cols c)) (fun t => if nth t (fc_cols c) 0 =? g then nth t (nth (S (i + s)) (fc_vals c) []) 0%K else 0%K) else 0%K)
        (fun s => if nth (i + S s) (fc_rows c) 0 =? r then
          sumn (length (fc_cols c)) (fun t => if nth t (fc_cols c) 0 =? g then nth t (nth (i + S s) (fc_vals c) []) 0%K else 0%K) else 0%K))
        by (intros s Hs; replace (S (i + s)) with (i + S s) by lia; auto).
      ring.
  Qed.

  Lemma copy_item : forall (F : fem K) evaluate (E D : spm K) is_halo first nev i cells m, fem_ok F -> evaluate_ok F evaluate -> NoDup cells ->
    exists m', fa_copier true (item_res evaluate E D is_halo first nev (i, cells)) m = Ok m' /\
      forall r g, spm_el m' r g = (spm_el m r g + (if in_item first nev i r then own_contribution F E D is_halo r cells g else 0))%K.
  Proof.
    intros F evaluate E D is_halo first nev i cells m HF He Hn. specialize (He _ Hn). unfold fa_copier, item_res.
    destruct (evaluate cells) as [cols M] eqn:Ev. cbn [fst snd] in He.
    set (c := mkFC _ _ _).
    destruct (@fa_copy_rows_spec c (length (fc_rows c)) 0 m) as [m' [H1 H2]].
    - reflexivity.
    - unfold c. cbn [fc_rows fc_vals]. rewrite !map_length. reflexivity.
    - intros v Hv. unfold c in *. cbn [fc_cols fc_vals] in *. apply in_map_iff in Hv. destruct Hv as [j [<- _]].
      unfold row_vals. rewrite mulvec_length. apply He.
    - exists m'. split; auto. intros r g. rewrite H2. unfold c at 1. cbn [fc_rows]. rewrite map_length, seq_length.
      f_equal. cbn [Nat.add].
      assert (G : forall s, s < nev -> nth s (fc_rows c) 0 = first + (i * nev + s)).
      { intros s Hs. unfold c. cbn [fc_rows]. rewrite (nth_indep _ 0 (first + (i * nev + 0))) by (rewrite map_length, seq_length; auto).
        rewrite (map_nth (fun j => first + (i * nev + j)) (seq 0 nev) 0 s). rewrite seq_nth by auto. reflexivity. }
      assert (GV : forall s, s < nev -> nth s (fc_vals c) [] = row_vals M E D is_halo cols (first + (i * nev + s))).
      { intros s Hs. unfold c. cbn [fc_vals]. etransitivity; [apply (nth_indep _ [] (row_vals M E D is_halo cols (first + (i * nev + 0)))); rewrite map_length, seq_length; auto|].
        etransitivity; [apply (map_nth (fun j => row_vals M E D is_halo cols (first + (i * nev + j))) (seq 0 nev) 0 s)|]. rewrite seq_nth by auto. reflexivity. }
      unfold in_item. destruct (Nat.leb_spec (first + i * nev) r); cbn [andb].
      + destruct (Nat.ltb_spec r (first + i * nev + nev)).
        * rewrite (sumn_single _ (r - first - i * nev)).
          -- rewrite G by lia. replace (first + (i * nev + (r - first - i * nev))) with r by lia. rewrite Nat.eqb_refl.
             rewrite (GV (r - first - i * nev)) by lia. replace (first + (i * nev + (r - first - i * nev))) with r by lia.
             unfold c. cbn [fc_cols].
             unfold row_vals, delta_eig, own_contribution. apply patch_apply; auto.
          -- lia.
          -- intros s Hs Hne. rewrite G by auto. destruct (Nat.eqb_spec (first + (i * nev + s)) r); auto. lia.
        * apply sumn_zero. intros s Hs. rewrite G by auto. destruct (Nat.eqb_spec (first + (i * nev + s)) r); auto. lia.
      + apply sumn_zero. intros s Hs. rewrite G by auto. destruct (Nat.eqb_spec (first + (i * nev + s)) r); auto. lia.
  Qed.

  Lemma copy_items : forall (F : fem K) evaluate (E D : spm K) is_halo first nev items m, fem_ok F -> evaluate_ok F evaluate ->
    (forall i cells, In (i, cells) items -> NoDup cells) ->
    exists m', copy_all (fa_copier true) (map (item_res evaluate E D is_halo first nev) items) m = Ok m' /\
      forall r g, spm_el m' r g = (spm_el m r g + items_sum F E D is_halo first nev items r g)%K.
  Proof.
    intros F evaluate E D is_halo first nev items m HF He. revert m. induction items as [|[i cells] items IH]; intros m Hn.
    - exists m. split; auto. intros. unfold items_sum. simpl. ring.
    - cbn [map copy_all].
      destruct (@copy_item F evaluate E D is_halo first nev i cells m HF He) as [m1 [H1 H2]]; [eapply Hn; left; reflexivity|].
      rewrite H1. cbn [bind]. destruct (IH m1) as [m' [H3 H4]]; [intros; eapply Hn; right; eauto|].
      exists m'. split; auto. intros r g. rewrite H4, H2. unfold items_sum. cbn [map lsum fst snd]. ring.
  Qed.

  Lemma in_items : forall patches i cells, In (i, cells) (fa_items patches) -> i < length patches /\ nth_error patches i = Some cells.
  Proof.
    intros patches i cells H. unfold fa_items in H.
    assert (G : forall l k i (cells : list nat), In (i, cells) (combine (seq k (length l)) l) -> k <= i /\ nth_error l (i - k) = Some cells).
    { clear. induction l as [|x l IH]; intros k i cells H; simpl in H; [tauto|]. destruct H as [H|H].
      - inversion H; subst. rewrite Nat.sub_diag. auto.
      - apply IH in H. destruct H as [H1 H2]. split; [lia|]. replace (i - k) with (S (i - S k)) by lia. auto. }
    apply G in H. rewrite Nat.sub_0_r in H. split; [|tauto]. destruct H as [_ H]. apply nth_error_lt in H; auto.
  Qed.

  Lemma items_sum_at : forall (F : fem K) (E D : spm K) is_halo first nev patches i k g, i < length patches -> k < nev ->
    items_sum F E D is_halo first nev (fa_items patches) (first + (i * nev + k)) g =
    own_contribution F E D is_halo (first + (i * nev + k)) (nth i patches []) g.
  Proof.
    intros F E D is_halo first nev patches i k g Hi Hk. unfold items_sum, fa_items.
    assert (G : forall l b, b <= i < b + length l ->
      lsum (map (fun it => if in_item first nev (fst it) (first + (i * nev + k)) then own_contribution F E D is_halo (first + (i * nev + k)) (snd it) g else 0%K)
         (combine (seq b (length l)) l)) = own_contribution F E D is_halo (first + (i * nev + k)) (nth (i - b) l []) g).
    { assert (Z : forall l b, i < b ->
        lsum (map (fun it => if in_item first nev (fst it) (first + (i * nev + k)) then own_contribution F E D is_halo (first + (i * nev + k)) (snd it) g else 0%K)
         (combine (seq b (length l)) l)) = 0%K).
      { induction l as [|x l IH]; intros b Hb; auto. cbn [length seq combine map lsum fst snd].
        rewrite IH by lia. unfold in_item. destruct (Nat.leb_spec (first + b * nev) (first + (i * nev + k))); cbn [andb]; [|ring].
        exfalso. assert (S i * nev <= b * nev) by (apply Nat.mul_le_mono_r; lia). simpl in H0. lia. }
      induction l as [|x l IH]; intros b Hb; simpl in Hb; [lia|].
      cbn [length seq combine map lsum fst snd].
      destruct (Nat.eq_dec b i) as [->|Hne].
      - rewrite Z by lia. rewrite Nat.sub_diag. cbn [nth]. unfold in_item.
        destruct (Nat.leb_spec (first + i * nev) (first + (i * nev + k))); [|lia]. cbn [andb].
        destruct (Nat.ltb_spec (first + (i * nev + k)) (first + i * nev + nev)); [|lia]. ring.
      - rewrite IH by lia. replace (i - b) with (S (i - S b)) by lia. cbn [nth].
        unfold in_item. destruct (Nat.ltb_spec (first + (i * nev + k)) (first + b * nev + nev)); [|rewrite andb_false_r; ring].
        exfalso. assert (S b * nev <= i * nev) by (apply Nat.mul_le_mono_r; lia). simpl in H0. lia. }
    rewrite (G patches 0) by lia. rewrite Nat.sub_0_r. reflexivity.
  Qed.

  Lemma items_sum_outside : forall (F : fem K) (E D : spm K) is_halo first nev patches r g,
    r < first \/ first + length patches * nev <= r -> items_sum F E D is_halo first nev (fa_items patches) r g = 0%K.
  Proof.
    intros F E D is_halo first nev patches r g Hr. unfold items_sum. apply lsum_map_0. intros [i cells] Hin. apply in_items in Hin.
    cbn [fst snd]. unfold in_item.
    destruct (Nat.leb_spec (first + i * nev) r); cbn [andb]; auto.
    destruct (Nat.ltb_spec r (first + i * nev + nev)); auto. exfalso.
    assert (S i * nev <= length patches * nev) by (apply Nat.mul_le_mono_r; lia). simpl in H1. lia.
  Qed.

  (** * One loop, any schedule, no empty patch next to a nonempty one *)
  Lemma fa_loop_nonempty : forall (F : fem K) evaluate (E D : spm K) is_halo first n_owned nev ns nb patches m m',
    fem_ok F -> evaluate_ok F evaluate -> (forall p, In p patches -> NoDup p /\ p <> []) -> length patches * nev <= n_owned ->
    fa_loop evaluate true E D is_halo first n_owned nev ns nb patches m m' ->
    forall r g, spm_el m' r g = (spm_el m r g + items_sum F E D is_halo first nev (fa_items patches) r g)%K.
  Proof.
    intros F evaluate E D is_halo first n_owned nev ns nb patches m m' HF He Hp Ho Hrun r g.
    unfold fa_loop in Hrun.
    apply ws_run_det with (res := item_res evaluate E D is_halo first nev) in Hrun.
    - destruct (@copy_items F evaluate E D is_halo first nev (fa_items patches) m HF He) as [m1 [H1 H2]].
      + intros i cells Hin. apply in_items in Hin. apply Hp. eapply nth_error_In. apply Hin.
      + rewrite H1 in Hrun. inversion Hrun; subst. auto.
    - intros [i cells] sc c sc' c' Hin Hw. apply in_items in Hin. destruct Hin as [Hi Hc]. apply nth_error_In in Hc. apply Hp in Hc.
      rewrite (@fa_worker_spec F) in Hw; try tauto.
      + inversion Hw; auto.
      + assert (S i * nev <= length patches * nev) by (apply Nat.mul_le_mono_r; lia). simpl in H. lia.
  Qed.

  Lemma fa_loop_empty : forall evaluate (E D : spm K) is_halo first n_owned nev ns nb patches m m',
    (forall p, In p patches -> p = []) ->
    fa_loop evaluate true E D is_halo first n_owned nev ns nb patches m m' -> m' = m.
  Proof.
    intros evaluate E D is_halo first n_owned nev ns nb patches m m' Hp Hrun.
    unfold fa_loop in Hrun.
    apply (@ws_run_inv _ _ _ _ _ _ (fa_items patches) (fun _ => fcopy_empty) (fun c => c = fcopy_empty)) in Hrun; auto.
    - revert Hrun. generalize (fa_items patches). induction l; simpl; intros Hr; [congruence|]. auto.
    - intros [i cells] sc c sc' c' Hin -> Hw. apply in_items in Hin. destruct Hin as [_ Hc]. apply nth_error_In in Hc. apply Hp in Hc. subst cells.
      simpl in Hw. inversion Hw; auto.
  Qed.

  (** * Any schedule, any patches *)
  Lemma copy_empty : forall m : spm K, fa_copier true fcopy_empty m = Ok m.
  Proof. reflexivity. Qed.

  Lemma item_bound : forall (patches : list (list nat)) nev n_owned i, length patches * nev <= n_owned -> i < length patches -> i * nev + nev <= n_owned.
  Proof. intros. assert (S i * nev <= length patches * nev) by (apply Nat.mul_le_mono_r; lia). simpl in H1. lia. Qed.

  Lemma reused_in : forall items used, reused items used -> forall it, In (Some it) used -> In it items.
  Proof.
    intros items used H. unfold reused in H.
    assert (Q : forall l u, Forall2 (fun it u => match snd it with
          | [] => match u with None => True | Some it' => In it' items /\ snd it' <> [] end | _ => u = Some it end) l u -> incl l items ->
          forall it, In (Some it) u -> In it items).
    { clear. intros l u H. induction H as [|[i [|c0 cells]] u its us Hr H IH]; intros Hl it Hin; simpl in Hin; [tauto| |]; cbn [snd] in Hr;
        (destruct Hin as [Hin|Hin]; [|apply IH; auto; intros x Hx; apply Hl; right; auto]).
      - subst u. tauto.
      - subst u. inversion Hin; subst. apply Hl. left; auto. }
    eapply Q; eauto. intros x Hx; auto.
  Qed.

  Lemma fa_loop_any : forall (F : fem K) evaluate (E D : spm K) is_halo first n_owned nev ns nb patches m m',
    fem_ok F -> evaluate_ok F evaluate -> (forall p, In p patches -> NoDup p) -> length patches * nev <= n_owned ->
    fa_loop evaluate true E D is_halo first n_owned nev ns nb patches m m' ->
    exists used, reused (fa_items patches) used /\
      forall r g, spm_el m' r g = (spm_el m r g + items_sum F E D is_halo first nev (somes used) r g)%K.
  Proof.
    intros F evaluate E D is_halo first n_owned nev ns nb patches m m' HF He Hp Ho Hrun.
    unfold fa_loop in Hrun. set (items := fa_items patches) in *.
    set (res := item_res evaluate E D is_halo first nev).
    assert (HN : forall i cells, In (i, cells) items -> NoDup cells /\ i < length patches).
    { intros i cells Hin. apply in_items in Hin. split; [|tauto]. apply Hp. eapply nth_error_In. apply Hin. }
    apply (@ws_run_rel _ _ _ _ _ _ items
      (fun it c => match snd it with [] => c = fcopy_empty \/ exists it', In it' items /\ snd it' <> [] /\ c = res it' | _ => c = res it end)
      (fun c => c = fcopy_empty \/ exists it', In it' items /\ snd it' <> [] /\ c = res it')) in Hrun; auto.
    - destruct Hrun as [cs [H1 H2]].
      assert (U : forall l cs, Forall2 (fun it c => match snd it with
            [] => c = fcopy_empty \/ exists it', In it' items /\ snd it' <> [] /\ c = res it' | _ => c = res it end) l cs ->
          exists used, Forall2 (fun it u => match snd it with
          | [] => match u with None => True | Some it' => In it' items /\ snd it' <> [] end | _ => u = Some it end) l used /\
        cs = map (fun u => match u with Some it => res it | None => fcopy_empty end) used).
      { clear. intros l cs H1. induction H1 as [|it c its cs Hr H1 IH].
        - exists []. split; auto.
        - destruct IH as [used [U1 ->]].
          destruct it as [i [|c0 cells]]; cbn [snd] in Hr.
          + destruct Hr as [->|[it' [Hi [Hne ->]]]].
            * exists (None :: used). split; [constructor; simpl; auto|reflexivity].
            * exists (Some it' :: used). split; [constructor; simpl; auto|reflexivity].
          + exists (Some (i, c0 :: cells) :: used). split; [constructor; simpl; auto|]. rewrite Hr. reflexivity. }
      specialize (U _ _ H1).
      destruct U as [used [U1 U2]]. exists used. split; [exact U1|]. subst cs.
      pose proof (@reused_in items used U1) as G.
      assert (Cp : forall us m m', (forall it, In (Some it) us -> In it items) ->
        copy_all (fa_copier true) (map (fun u => match u with Some it => res it | None => fcopy_empty end) us) m = Ok m' ->
        forall r g, spm_el m' r g = (spm_el m r g + items_sum F E D is_halo first nev (somes us) r g)%K).
      { clear - HF He HN. induction us as [|[[i cells]|] us IH]; intros m m' Hu Hc r g; cbn [map copy_all] in Hc.
        - inversion Hc. unfold items_sum. simpl. ring.
        - destruct (HN i cells) as [Hn _]; [apply Hu; left; auto|].
          destruct (@copy_item F evaluate E D is_halo first nev i cells m HF He Hn) as [m1 [H1 H2]].
          unfold res in Hc at 1. rewrite H1 in Hc. cbn [bind] in Hc.
          rewrite (IH m1 m' (fun it H => Hu it (or_intror H)) Hc), H2. unfold items_sum, somes. cbn [flat_map app map lsum fst snd]. ring.
        - rewrite copy_empty in Hc. cbn [bind] in Hc. apply (IH m m' (fun it H => Hu it (or_intror H)) Hc). }
      apply Cp; auto.
    - intros [i cells] sc c sc' c' Hin HP Hw. destruct cells as [|c0 cells]; cbn [snd].
      + simpl in Hw. inversion Hw; subst. auto.
      + destruct (HN _ _ Hin) as [Hn Hi].
        rewrite (@fa_worker_spec F) in Hw; auto; try discriminate.
        * inversion Hw; subst. split; auto. right. exists (i, c0 :: cells). split; auto. split; auto. discriminate.
        * eapply item_bound; eauto.
  Qed.

  (** One copy-data object. *)
  Lemma fa_seq_effective : forall (F : fem K) evaluate (E D : spm K) is_halo first n_owned nev, fem_ok F -> evaluate_ok F evaluate ->
    forall items last m c, (forall i cells, In (i, cells) items -> NoDup cells /\ i * nev + nev <= n_owned) ->
    match last with Some it => NoDup (snd it) /\ c = item_res evaluate E D is_halo first nev it | None => c = fcopy_empty end ->
    exists m', ws_seq (fa_worker evaluate E D is_halo first n_owned nev) (fa_copier true) items tt c m = Ok m' /\
      forall r g, spm_el m' r g = (spm_el m r g + items_sum F E D is_halo first nev (effective last items) r g)%K.
  Proof.
    intros F evaluate E D is_halo first n_owned nev HF He. induction items as [|[i cells] items IH]; intros last m c Hn Hl.
    - exists m. split; auto. intros. unfold items_sum. simpl. ring.
    - assert (Hn' : forall i cells, In (i, cells) items -> NoDup cells /\ i * nev + nev <= n_owned) by (intros; apply Hn; right; auto).
      assert (Go : forall it, NoDup (snd it) -> exists m', bind (fa_copier true (item_res evaluate E D is_halo first nev it) m)
          (fun o' => ws_seq (fa_worker evaluate E D is_halo first n_owned nev) (fa_copier true) items tt (item_res evaluate E D is_halo first nev it) o') = Ok m' /\
        forall r g, spm_el m' r g = (spm_el m r g + items_sum F E D is_halo first nev (it :: effective (Some it) items) r g)%K).
      { intros [j cj] Hnj. cbn [snd] in Hnj. destruct (@copy_item F evaluate E D is_halo first nev j cj m HF He Hnj) as [m1 [H1 H2]].
        rewrite H1. cbn [bind]. destruct (IH (Some (j, cj)) m1 (item_res evaluate E D is_halo first nev (j, cj)) Hn') as [m' [H3 H4]]; auto.
        exists m'. split; auto. intros r g. rewrite H4, H2. unfold items_sum. cbn [map lsum fst snd]. ring. }
      destruct cells as [|c0 cells].
      + cbn [ws_seq fa_worker bind effective]. destruct last as [it|].
        * destruct Hl as [Hl ->]. apply Go; auto.
        * subst c. rewrite copy_empty. cbn [bind]. apply (IH None); auto.
      + destruct (Hn i (c0 :: cells)) as [N1 N2]; [left; auto|].
        cbn [ws_seq effective]. rewrite (@fa_worker_spec F) by (auto; discriminate). cbn [bind]. apply (Go (i, c0 :: cells)); auto.
  Qed.

  Lemma fa_loop_exists : forall (F : fem K) evaluate (E D : spm K) is_halo first n_owned nev ns nb patches m,
    fem_ok F -> evaluate_ok F evaluate -> (forall p, In p patches -> NoDup p) -> length patches * nev <= n_owned ->
    exists m', fa_loop evaluate true E D is_halo first n_owned nev (S ns) (S nb) patches m m' /\
      forall r g, spm_el m' r g = (spm_el m r g + items_sum F E D is_halo first nev (effective None (fa_items patches)) r g)%K.
  Proof.
    intros F evaluate E D is_halo first n_owned nev ns nb patches m HF He Hp Ho.
    destruct (@fa_seq_effective F evaluate E D is_halo first n_owned nev HF He (fa_items patches) None m fcopy_empty) as [m' [H1 H2]]; auto.
    - intros i cells Hin. apply in_items in Hin. split.
      + apply Hp. eapply nth_error_In. apply Hin.
      + eapply item_bound; eauto. tauto.
    - exists m'. split; auto. apply ws_seq_run. auto.
  Qed.
End PFastAP.
