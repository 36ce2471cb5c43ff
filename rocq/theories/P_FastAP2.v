(** Proof that fast AP computes A * R^T. *)
From Coq Require Import List Arith Bool Lia Field.
From Verif Require Import Base OField Mat M_Agglo S_Agglo P_Agglo P_Agglo2 M_WorkStream M_Restr S_Restr M_FastAP S_FastAP S_Eig P_WorkStream P_Restr P_Restr2 P_FastAP.
Import ListNotations.
Set Implicit Arguments.

Section PFastAP2.
  Variable K : ofield.
  Add Field KFfastap2 : (f_field K).
  Local Notation vec := (vec K).

  Definition memb (l : list nat) (c : nat) : bool := if in_dec Nat.eq_dec c l then true else false.

  Lemma memb_in : forall l c, memb l c = true <-> In c l.
  Proof. intros. unfold memb. destruct (in_dec Nat.eq_dec c l); split; intros; auto; discriminate. Qed.

  Lemma lsum_mask : forall n l (f : nat -> K), NoDup l -> (forall c, In c l -> c < n) ->
    lsum (map f l) = sumn n (fun c => if memb l c then f c else 0%K).
  Proof.
    intros n l f Hn Hb. rewrite (@lsum_nth K nat f l 0).
    rewrite <- (@sum_reindex K n l (fun c => if memb l c then f c else 0%K)); auto.
    - apply sumn_ext. intros i Hi. assert (E : memb l (nth i l 0) = true) by (apply memb_in; apply nth_In; auto). rewrite E. auto.
    - intros h Hh Hnot. destruct (memb l h) eqn:E; auto. apply memb_in in E. tauto.
  Qed.

  Lemma increasing_NoDup : forall l, increasing l -> NoDup l.
  Proof.
    intros l H. induction H; constructor; auto. intros Hin. rewrite Forall_forall in H0. specialize (H0 _ Hin). lia.
  Qed.

  (** * One row *)
  Section Row.
    Variables (F : fem K) (m : mesh) (conn : nat -> list nat) (A : nat -> nat -> K) (S_ I_ H_ : list nat) (e r : nat -> K).
    Hypothesis HF : fem_ok F.
    Hypothesis Hconn : connectivity_ok F m conn.
    Hypothesis HA : global_matrix F m A.
    Hypothesis HSn : NoDup S_.
    Hypothesis HS : forall c, In c S_ -> c < n_cells m /\ owned m c = true.
    Hypothesis HIn : NoDup I_.
    Hypothesis HI : forall c, In c I_ <-> (In c S_ /\ exists d, In d (conn c) /\ ~ In d S_).
    Hypothesis HHn : NoDup H_.
    Hypothesis HH : forall d, In d H_ <-> (~ In d S_ /\ exists c, In c S_ /\ In d (conn c)).
    (** [r] is [e] scaled by local over global diagonal on the dofs of the agglomerate, zero elsewhere. *)
    Hypothesis Hr : forall h, (exists c, In c S_ /\ In h (f_cd F c)) ->
      A h h <> 0%K /\ r h = (lsum (map (fun c => f_cm F c h h) S_) / A h h * e h)%K.
    Hypothesis Hr0 : forall h, ~ (exists c, In c S_ /\ In h (f_cd F c)) -> r h = 0%K.

    Let n := n_cells m.
    Let ap (c : nat) (u : nat -> K) (g : nat) : K := sumn (f_ndofs F) (fun h => (f_cm F c g h * u h)%K).

    Lemma apply_mask : forall l u g, NoDup l -> (forall c, In c l -> c < n) ->
      cells_apply F l u g = sumn n (fun c => if memb l c then ap c u g else 0%K).
    Proof. intros. unfold cells_apply. apply (@lsum_mask n l (fun c => ap c u g)); auto. Qed.

    Lemma ap_add : forall c (u v w : nat -> K) g, (forall h, u h = (v h + w h)%K) -> ap c u g = (ap c v g + ap c w g)%K.
    Proof. intros. unfold ap. rewrite <- sumn_add. apply sumn_ext. intros h Hh. rewrite H. ring. Qed.

    Lemma ap_zero : forall c (u : nat -> K) g, (forall h, In h (f_cd F c) -> u h = 0%K) -> ap c u g = 0%K.
    Proof.
      intros. unfold ap. apply sumn_zero. intros h Hh. destruct (in_dec Nat.eq_dec h (f_cd F c)) as [Hi|Hi].
      - rewrite H by auto. ring.
      - destruct (HF c) as [_ HF2]. rewrite HF2 by tauto. ring.
    Qed.

    Lemma S_bound : forall c, In c S_ -> c < n.
    Proof. intros. apply HS; auto. Qed.
    Lemma I_bound : forall c, In c I_ -> c < n.
    Proof. intros. apply S_bound. apply HI in H. tauto. Qed.
    Lemma H_bound : forall c, In c H_ -> c < n.
    Proof. intros. apply HH in H. destruct H as [_ [c0 [_ H]]]. destruct Hconn as [_ Hc]. eapply Hc; eauto. Qed.

    Lemma row_identity : forall g,
      (cells_apply F S_ e g + (cells_apply F I_ (fun h => r h - e h) g + cells_apply F H_ r g))%K = sumn (f_ndofs F) (fun h => (A g h * r h)%K).
    Proof.
      intros g. destruct HA as [far [HA1 HA2]]. destruct Hconn as [Hc1 Hc2].
      assert (R : sumn (f_ndofs F) (fun h => (A g h * r h)%K) = sumn n (fun c => ap c r g)).
      { unfold ap. rewrite sumn_swap. apply sumn_ext. intros h Hh.
        destruct (existsb (fun c => memb (f_cd F c) h) S_) eqn:Ex.
        - apply existsb_exists in Ex. destruct Ex as [c [Hc Hm]]. apply memb_in in Hm.
          rewrite HA1, (HA2 c g h) by (try (apply HS; auto); auto).
          replace (lsum (map (fun c0 => f_cm F c0 g h) (seq 0 (n_cells m))) + 0)%K with (lsum (map (fun c0 => f_cm F c0 g h) (seq 0 (n_cells m)))) by ring.
          rewrite lsum_seq_sumn. rewrite <- sumn_scale_r. reflexivity.
        - rewrite Hr0.
          + rewrite sumn_zero; [ring|]. intros; ring.
          + intros [c [Hc Hm]]. assert (X : existsb (fun c => memb (f_cd F c) h) S_ = true) by (apply existsb_exists; exists c; split; auto; apply memb_in; auto). congruence. }
      rewrite R.
      rewrite (apply_mask _ g HSn S_bound), (apply_mask _ g HIn I_bound), (apply_mask _ g HHn H_bound).
      rewrite <- !sumn_add. apply sumn_ext. intros c Hcn.
      destruct (memb S_ c) eqn:ES; [apply memb_in in ES|].
      - assert (EH : memb H_ c = false). { destruct (memb H_ c) eqn:X; auto. apply memb_in in X. apply HH in X. tauto. }
        rewrite EH. rewrite (@ap_add c r e (fun h => (r h - e h)%K) g) by (intros; ring).
        destruct (memb I_ c) eqn:EI; [ring|].
        rewrite (@ap_zero c (fun h => (r h - e h)%K) g); [ring|].
        intros h Hh. destruct (Hr h) as [Hne Er]; [eauto|]. rewrite Er.
        assert (Ed : A h h = lsum (map (fun c => f_cm F c h h) S_)).
        { rewrite HA1, (HA2 c h h) by (try (apply HS; auto); auto).
          rewrite lsum_seq_sumn. rewrite (@lsum_mask n S_ (fun c => f_cm F c h h) HSn S_bound).
          transitivity (sumn n (fun c0 => f_cm F c0 h h)); [unfold n; ring|].
          apply sumn_ext. intros d Hd. destruct (memb S_ d) eqn:Em; auto.
          destruct (HF d) as [_ HF2]. rewrite HF2; auto. intros [Hdh _].
          assert (X : memb I_ c = true); [|congruence]. apply memb_in. apply HI. split; auto. exists d. split.
          - apply (Hc1 c d h); auto.
          - intros Y. apply memb_in in Y. congruence. }
        rewrite <- Ed. field; auto.
      - assert (EI : memb I_ c = false). { destruct (memb I_ c) eqn:X; auto. apply memb_in in X. apply HI in X. destruct X as [X _]. apply memb_in in X. congruence. }
        rewrite EI. destruct (memb H_ c) eqn:EH; [ring|].
        rewrite (@ap_zero c r g); [ring|]. intros h Hh.
        apply Hr0. intros [c' [Hc' Hh']].
        assert (X : memb H_ c = true); [|congruence]. apply memb_in. apply HH. split.
        + intros Y. apply memb_in in Y. congruence.
        + exists c'. split; auto. apply (Hc1 c' c h); auto. apply S_bound; auto.
    Qed.
  End Row.

  Lemma cells_apply_ext : forall (F : fem K) cells (u v : nat -> K) g, (forall h, u h = v h) -> cells_apply F cells u g = cells_apply F cells v g.
  Proof. intros. unfold cells_apply. apply lsum_map_ext. intros c _. apply sumn_ext. intros h _. rewrite H. auto. Qed.

  (** * Rows of agglomerates with the same number of eigenvectors *)
  Lemma nth_flat_const : forall A B (f : A -> list B) nev l i k, (forall c, In c l -> length (f c) = nev) -> k < nev -> i < length l ->
    nth_error (flat_map f l) (i * nev + k) = match nth_error l i with Some c => nth_error (f c) k | None => None end.
  Proof.
    intros A B f nev. induction l as [|c l IH]; intros i k Hf Hk Hi; simpl in Hi; [lia|].
    cbn [flat_map]. destruct i as [|i].
    - cbn [Nat.mul Nat.add nth_error]. rewrite nth_error_app1 by (rewrite Hf; [auto|left; auto]). auto.
    - cbn [nth_error]. rewrite nth_error_app2 by (rewrite (Hf c) by (left; auto); simpl; lia).
      rewrite (Hf c) by (left; auto). replace (S i * nev + k - nev) with (i * nev + k) by (simpl; lia). apply IH; auto; [|lia]. intros; apply Hf; right; auto.
  Qed.

  Lemma rows_of_length_const : forall nev (l : list (agg_result K)), (forall c, In c l -> length (ag_evecs c) = nev) -> length (rows_of l) = length l * nev.
  Proof.
    intros nev l H. rewrite rows_of_length. induction l; auto. cbn [map list_sum fold_right length Nat.mul].
    change (fold_right Nat.add 0 (map (fun c => length (ag_evecs c)) l)) with (list_sum (map (fun c : agg_result K => length (ag_evecs c)) l)).
    rewrite IHl by (intros; apply H; right; auto). rewrite H by (left; auto). reflexivity.
  Qed.

  Lemma exact_agg_ok : forall F cells nev (c : agg_result K), exact_agg F cells nev c -> agg_ok c /\ length (ag_evecs c) = nev /\ length (ag_evals c) = nev.
  Proof.
    intros F cells nev c [M [Hp [Hd [H1 [H2 H3]]]]]. split; [|auto]. split.
    - rewrite Hd, map_length, seq_length. auto.
    - intros e Hin. destruct (In_nth _ _ [] Hin) as [k [Hk <-]]. apply H3. rewrite <- H1. auto.
  Qed.

  Lemma agg_cells_spec : forall m ui a c, In c (agg_cells m ui a) <-> in_agg m ui a c.
  Proof.
    intros. unfold agg_cells, in_agg. rewrite filter_In, in_seq, andb_true_iff, Nat.eqb_eq. intuition lia.
  Qed.

  (** * One loop over patches that are all empty or all nonempty *)
  Lemma fa_loop_uniform : forall (F : fem K) evaluate (E D : spm K) is_halo first n_owned nev ns nb patches m m',
    fem_ok F -> evaluate_ok F evaluate -> (forall p, In p patches -> NoDup p) ->
    ((forall p, In p patches -> p <> []) \/ (forall p, In p patches -> p = [])) -> length patches * nev <= n_owned ->
    fa_loop evaluate true E D is_halo first n_owned nev ns nb patches m m' ->
    forall r g, spm_el m' r g = (spm_el m r g + items_sum F E D is_halo first nev (fa_items patches) r g)%K.
  Proof.
    intros F evaluate E D is_halo first n_owned nev ns nb patches m m' HF He Hn [Hp|Hp] Ho Hrun r g.
    - eapply fa_loop_nonempty; eauto.
    - apply fa_loop_empty in Hrun; auto. subst m'. unfold items_sum. rewrite lsum_map_0; [ring|].
      intros [i cells] Hin. apply in_items in Hin. destruct Hin as [_ Hc]. apply nth_error_In in Hc. apply Hp in Hc. subst cells.
      cbn [fst snd]. destruct (in_item first nev i r); auto.
  Qed.

Lemma local_agg_ok : forall F cells nev (c : agg_result K) M, local_agg F cells nev c M -> agg_ok c /\ length (ag_evecs c) = nev /\ length (ag_evals c) = nev.
  Proof.
    intros F cells nev c M [Hp [Hd [H1 [H2 H3]]]]. split; [|auto]. split.
    - rewrite Hd, map_length, seq_length. auto.
    - intros e Hin. destruct (In_nth _ _ [] Hin) as [k [Hk <-]]. apply H3. rewrite <- H1. auto.
  Qed.

  (** Row a * nev + k of the product: A R^T less the residual of pair k of agglomerate a. *)
  Lemma fast_ap_error : forall debug (F : fem K) m conn ui evaluate A gd (D : nat -> K) counts p l nev mm bd ns nb corr,
    fem_ok F -> evaluate_ok F evaluate -> connectivity_ok F m conn -> global_matrix F m A ->
    length ui = n_cells m -> (forall c, c < n_cells m -> owned m c = true -> 1 <= nth c ui 0 <= length l) ->
    (forall a c, nth_error l a = Some c -> exists M, local_agg F (agg_cells m ui (S a)) nev c M) ->
    gd_ok D l gd -> (forall c g, In c l -> In g (ag_map c) -> D g = A g g /\ D g <> 0%K) ->
    compute_restriction debug true counts p gd (data_of l) = Ok mm ->
    build_boundary_agglomerates m ui (length l) conn = Ok bd ->
    ((forall q, In q bd -> fst q <> []) \/ (forall q, In q bd -> fst q = [])) ->
    fa_corrections evaluate true (r_E mm) (r_D mm) (n_rows_before counts p) (length (rows_of l)) ns nb bd corr ->
    forall i k c M g, nth_error l i = Some c -> local_agg F (agg_cells m ui (S i)) nev c M -> k < nev ->
      fa_ap (flat_map (@ag_evals K) l) (r_E mm) corr (n_rows_before counts p) (i * nev + k) g =
      (sumn (f_ndofs F) (fun h => (A g h * spm_el (r_R mm) (n_rows_before counts p + (i * nev + k))%nat h)%K) -
       at_dof c g (fun j => nth j (pair_residual c M k) 0))%K.
  Proof.
    intros debug F m conn ui evaluate A gd D counts p l nev mm bd ns nb corr HF Hev Hconn HA Hui Hid Hex Hgd HD Hmm Hbd Hemp Hcorr i k c M g Hc HM Hk.
    assert (Hin : forall c, In c l -> agg_ok c /\ length (ag_evecs c) = nev /\ length (ag_evals c) = nev).
    { intros c1 H1. apply In_nth_error in H1. destruct H1 as [a Ha]. destruct (Hex a c1 Ha) as [M1 HM1]. eapply local_agg_ok. exact HM1. }
    assert (Hok : forall c, In c l -> agg_ok c) by (intros c1 H1; apply (Hin c1 H1)).
    assert (Hlen : length (rows_of l) = length l * nev) by (apply rows_of_length_const; intros c1 H1; apply (Hin c1 H1)).
    pose proof Hmm as Hspec. rewrite (@compute_restriction_spec K debug true counts p gd D l Hok Hgd) in Hspec. injection Hspec as Emm.
    set (first := n_rows_before counts p) in *.
    (* the row *)
    assert (Hi : i < length l) by (apply nth_error_Some; congruence).
    set (r := i * nev + k). assert (Er : r = i * nev + k) by reflexivity.
    assert (Hr : r < length (rows_of l)) by (rewrite Hlen; unfold r; nia).
    clearbody r.
    assert (Hcl : In c l) by (eapply nth_error_In; eauto).
    pose proof HM as HM0. destruct HM as [HP [Hd [L1 [L2 Heig]]]]. assert (L3 := Heig k Hk).
    set (ev := nth k (ag_evecs c) []) in *. set (lam := nth k (ag_evals c) 0%K) in *.
    assert (Erow : nth_error (rows_of l) r = Some (c, ev)).
    { rewrite Er. unfold rows_of. rewrite (@nth_flat_const _ _ _ nev) by (auto; intros c' Hc'; rewrite map_length; apply (Hin c' Hc')).
      rewrite Hc. unfold ev. rewrite nth_error_map. rewrite (nth_error_nth_lt (ag_evecs c) []) by lia. reflexivity. }
    assert (Elam : nth r (flat_map (@ag_evals K) l) 0%K = lam).
    { apply nth_error_nth. rewrite Er. rewrite (@nth_flat_const _ _ _ nev) by (auto; intros c' Hc'; apply (Hin c' Hc')).
      rewrite Hc. unfold lam. apply nth_error_nth_lt. lia. }
    assert (Hsel : forall i0 : nat, ((first <=? first + r) && (first + r <? first + length (rows_of l)))%nat = true).
    { intros _. apply andb_true_iff. split; [apply Nat.leb_le; lia|apply Nat.ltb_lt; lia]. }
    assert (ER : forall h, spm_el (r_R mm) (first + r) h = r_entry D (c, ev) h).
    { intros h. rewrite <- Emm, rows_step_R. cbn [r_R spm_el]. rewrite (Hsel 0).
      replace (first + r - first) with r by lia. rewrite Erow. rewrite wgt_entry. ring. }
    assert (EE : forall h, spm_el (r_E mm) (first + r) h = e_entry (c, ev) h).
    { intros h. rewrite <- Emm, rows_step_E. cbn [r_E spm_el]. rewrite (Hsel 0).
      replace (first + r - first) with r by lia. rewrite Erow. unfold e_entry. cbn [fst snd]. ring. }
    assert (ED : forall h, spm_el (r_D mm) (first + r) h = (r_entry D (c, ev) h - e_entry (c, ev) h)%K).
    { intros h. pose proof (@rows_step_split K D (rows_of l) first (mkR [] [] []) (first + r) h) as Sp. rewrite Emm in Sp.
      rewrite ER, EE in Sp. rewrite Sp by (cbn [r_R r_E r_D spm_el]; ring). ring. }
    (* the patches *)
    destruct (boundary_correct m ui conn Hui Hid) as [bd' [Eb [Lb Hb]]]. rewrite Eb in Hbd. inversion Hbd; subst bd'. clear Hbd.
    destruct (nth i bd ([], [])) as [I_ H_] eqn:Ebd.
    specialize (Hb (S i) ltac:(lia)). rewrite Nat.sub_succ, Nat.sub_0_r, Ebd in Hb. destruct Hb as [HI1 [HH1 [HI2 HH2]]].
    assert (Enev : fa_nev (length (rows_of l)) (map fst bd) = nev).
    { unfold fa_nev. rewrite Hlen. destruct bd as [|b0 bd]; [simpl in Lb; lia|]. cbn [map length]. rewrite map_length.
      replace (S (length bd)) with (length l) by (simpl in Lb; lia). rewrite Nat.mul_comm. apply Nat.div_mul. lia. }
    assert (Hbn : forall q, In q bd -> NoDup (fst q) /\ NoDup (snd q) /\ (fst q = [] <-> snd q = [])).
    { intros q Hq. destruct (In_nth _ _ ([], []) Hq) as [a [Ha Eq]].
      destruct (boundary_correct m ui conn Hui Hid) as [bd' [Eb' [_ Hb']]]. rewrite Eb' in Eb. inversion Eb; subst bd'.
      specialize (Hb' (S a) ltac:(lia)). rewrite Nat.sub_succ, Nat.sub_0_r, Eq in Hb'. destruct q as [qi qh]. destruct Hb' as [B1 [B2 [B3 B4]]].
      cbn [fst snd]. split; [apply increasing_NoDup; auto|]. split; [apply increasing_NoDup; auto|].
      split; intros ->.
      - destruct qh as [|d qh]; auto. exfalso. destruct (proj1 (B4 d) (or_introl eq_refl)) as [N1 [c1 [N2 N3]]].
        apply (proj2 (B3 c1)). split; auto. exists d. auto.
      - destruct qi as [|d qi]; auto. exfalso. destruct (proj1 (B3 d) (or_introl eq_refl)) as [N1 [c1 [N2 N3]]].
        apply (proj2 (B4 c1)). split; auto. exists d. auto. }
    unfold fa_corrections in Hcorr. rewrite Enev in Hcorr. destruct Hcorr as [m1 [C1 C2]].
    assert (G1 : forall r g, spm_el m1 r g = (spm_el [] r g + items_sum F (r_E mm) (r_D mm) false first nev (fa_items (map fst bd)) r g)%K).
    { refine (@fa_loop_uniform F evaluate _ _ _ _ _ _ _ _ _ _ _ HF Hev _ _ _ C1).
      - intros q Hq. apply in_map_iff in Hq. destruct Hq as [q' [<- Hq]]. apply (Hbn q' Hq).
      - destruct Hemp as [Hemp|Hemp]; [left|right]; intros q Hq; apply in_map_iff in Hq; destruct Hq as [q' [<- Hq]]; auto.
      - rewrite map_length, Lb. lia. }
    assert (G2 : forall r g, spm_el corr r g = (spm_el m1 r g + items_sum F (r_E mm) (r_D mm) true first nev (fa_items (map snd bd)) r g)%K).
    { refine (@fa_loop_uniform F evaluate _ _ _ _ _ _ _ _ _ _ _ HF Hev _ _ _ C2).
      - intros q Hq. apply in_map_iff in Hq. destruct Hq as [q' [<- Hq]]. apply (Hbn q' Hq).
      - destruct Hemp as [Hemp|Hemp]; [left|right]; intros q Hq; apply in_map_iff in Hq; destruct Hq as [q' [<- Hq]];
          destruct (Hbn q' Hq) as [_ [_ B]]; [intros X; apply B in X; apply (Hemp q'); auto|apply B; auto].
      - rewrite map_length, Lb. lia. }
    unfold fa_ap. rewrite Elam, G2, G1. cbn [spm_el]. rewrite Er.
    rewrite !items_sum_at by (auto; rewrite map_length, Lb; auto). rewrite <- !Er.
    assert (N1 : nth i (map fst bd) [] = I_). { change (@nil nat) with (fst (@nil nat, @nil nat)). rewrite map_nth, Ebd. auto. }
    assert (N2 : nth i (map snd bd) [] = H_). { change (@nil nat) with (snd (@nil nat, @nil nat)). rewrite map_nth, Ebd. auto. }
    rewrite N1, N2. unfold own_contribution.
    rewrite (@cells_apply_ext F I_ _ (fun h => (r_entry D (c, ev) h - e_entry (c, ev) h)%K) g) by (intros h; apply ED).
    rewrite (@cells_apply_ext F H_ _ (r_entry D (c, ev)) g) by (intros h; rewrite ED, EE; ring).
    rewrite EE.
    rewrite (@sumn_ext K (f_ndofs F) (fun h => (A g h * spm_el (r_R mm) (first + r)%nat h)%K) (fun h => (A g h * r_entry D (c, ev) h)%K)) by (intros h _; rewrite ER; auto).
    rewrite <- (@row_identity F m conn A (agg_cells m ui (S i)) I_ H_ (e_entry (c, ev)) (r_entry D (c, ev))); auto.
    - destruct HP as [P1 [P2 [P3 [P4 P5]]]].
      assert (Emap : map (e_entry (c, ev)) (ag_map c) = ev).
      { apply (@list_ext K _ _ 0%K); [rewrite map_length; auto|]. intros t Ht. rewrite map_length in Ht. rewrite nth_map_K by auto.
        unfold e_entry. cbn [fst snd]. rewrite at_dof_one; auto. }
      rewrite <- (@patch_apply K F (agg_cells m ui (S i)) (ag_map c) M (e_entry (c, ev)) g); auto; [|split; auto].
      rewrite Emap. unfold e_entry at 1. rewrite <- at_dof_scale. unfold at_dof. cbn [fst snd].
      match goal with |- (?x + ?y)%K = (?z + ?w - ?v)%K => assert (X : z = (x + v)%K); [|rewrite X; ring] end.
      rewrite <- sumn_add. apply sumn_ext. intros t Ht. destruct (nth t (ag_map c) 0 =? g); [|ring].
      unfold pair_residual, residual. fold ev lam. rewrite nth_vsub; [rewrite nth_vscale; ring|].
      rewrite mulvec_length. unfold vscale. rewrite map_length. unfold OField.vec in *. lia.
    - unfold agg_cells. apply NoDup_filter. apply seq_NoDup.
    - intros c' Hc'. apply agg_cells_spec in Hc'. split; apply Hc'.
    - apply increasing_NoDup; auto.
    - intros c'. rewrite HI2, agg_cells_spec. split; intros [X [d [Y Z]]]; (split; [auto|exists d; split; [auto|]]); rewrite agg_cells_spec in *; auto.
    - apply increasing_NoDup; auto.
    - intros d. rewrite HH2, agg_cells_spec. split; intros [X [c' [Y Z]]]; (split; [auto|exists c'; split; [|auto]]); rewrite agg_cells_spec in *; auto.
    - intros h Hh. destruct HP as [P1 [P2 [P3 [P4 P5]]]]. apply P4 in Hh. destruct (HD c h Hcl Hh) as [D1 D2]. split; [rewrite <- D1; auto|].
      destruct (In_nth _ _ 0 Hh) as [j [Hj Ej]]. rewrite <- D1.
      rewrite <- Ej. unfold r_entry, e_entry. cbn [fst snd]. rewrite !at_dof_one by auto. rewrite Ej.
      rewrite Hd. rewrite (@nth_map_K K (fun k => ent M k k)) by (rewrite seq_length; auto). rewrite seq_nth by auto. cbn [Nat.add].
      rewrite P5, Ej by auto. reflexivity.
    - intros h Hh. unfold r_entry. apply at_dof_none. intros X. apply Hh. destruct HP as [P1 [P2 [P3 [P4 P5]]]]. apply P4 in X. auto.
  Qed.

  Lemma fast_ap_correct : forall debug (F : fem K) m conn ui evaluate A gd (D : nat -> K) counts p l nev mm bd ns nb corr,
    fem_ok F -> evaluate_ok F evaluate -> connectivity_ok F m conn -> global_matrix F m A ->
    length ui = n_cells m -> (forall c, c < n_cells m -> owned m c = true -> 1 <= nth c ui 0 <= length l) ->
    (forall a c, nth_error l a = Some c -> exact_agg F (agg_cells m ui (S a)) nev c) ->
    gd_ok D l gd -> (forall c g, In c l -> In g (ag_map c) -> D g = A g g /\ D g <> 0%K) ->
    compute_restriction debug true counts p gd (data_of l) = Ok mm ->
    build_boundary_agglomerates m ui (length l) conn = Ok bd ->
    ((forall q, In q bd -> fst q <> []) \/ (forall q, In q bd -> fst q = [])) ->
    fa_corrections evaluate true (r_E mm) (r_D mm) (n_rows_before counts p) (length (rows_of l)) ns nb bd corr ->
    forall r g, r < length (rows_of l) ->
      fa_ap (flat_map (@ag_evals K) l) (r_E mm) corr (n_rows_before counts p) r g =
      sumn (f_ndofs F) (fun h => (A g h * spm_el (r_R mm) (n_rows_before counts p + r)%nat h)%K).
  Proof.
    intros debug F m conn ui evaluate A gd D counts p l nev mm bd ns nb corr HF Hev Hconn HA Hui Hid Hex Hgd HD Hmm Hbd Hemp Hcorr r g Hr.
    assert (Hlen : length (rows_of l) = length l * nev).
    { apply rows_of_length_const. intros c Hc. apply In_nth_error in Hc. destruct Hc as [a Ha]. apply (exact_agg_ok (Hex a c Ha)). }
    assert (Hnev : 0 < nev) by (destruct nev; lia).
    assert (Er : r = r / nev * nev + r mod nev) by (rewrite (Nat.div_mod r nev) at 1 by lia; lia).
    assert (Hk : r mod nev < nev) by (apply Nat.mod_upper_bound; lia).
    assert (Hi : r / nev < length l). { apply Nat.div_lt_upper_bound; [lia|]. rewrite Nat.mul_comm, <- Hlen. auto. }
    destruct (nth_error l (r / nev)) as [c|] eqn:Hc; [|apply nth_error_None in Hc; lia].
    destruct (Hex _ c Hc) as [M [HP [Hd [L1 [L2 Heig]]]]].
    assert (HM : local_agg F (agg_cells m ui (S (r / nev))) nev c M) by (split; auto; split; auto; split; auto; split; auto; apply Heig).
    rewrite Er at 1. rewrite (@fast_ap_error debug F m conn ui evaluate A gd D counts p l nev mm bd ns nb corr HF Hev Hconn HA Hui Hid) with (c := c) (M := M); auto.
    - rewrite <- Er. assert (Z : at_dof c g (fun j => nth j (pair_residual c M (r mod nev)) 0%K) = 0%K); [|rewrite Z; ring].
      unfold at_dof. apply sumn_zero. intros t Ht. destruct (nth t (ag_map c) 0 =? g); auto.
      destruct (Heig _ Hk) as [L3 E]. unfold pair_residual, residual. rewrite E, vsub_self. unfold vzero. apply nth_repeat.
    - intros a c' Ha. destruct (Hex a c' Ha) as [M' [Q1 [Q2 [Q3 [Q4 Q5]]]]]. exists M'. split; auto. split; auto. split; auto. split; auto. apply Q5.
  Qed.
End PFastAP2.
