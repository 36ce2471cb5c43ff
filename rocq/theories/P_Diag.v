(** The diagonal on several ranks and the check that uses it. *)
From Coq Require Import String List Arith ZArith Bool Lia Field Permutation.
From Verif Require Import Base OField Mat LinAlg M_Ptree S_Ptree P_Ptree M_Agglo S_Agglo P_Agglo P_Agglo2 M_WorkStream P_WorkStream M_Restr S_Restr P_Restr P_Restr2
  M_FastAP S_FastAP P_FastAP P_FastAP2 M_Lanczos S_Lanczos M_Eig S_Eig P_Eig M_Hier S_Hier M_Host M_HostEnd S_HostEnd P_HostEnd C_Eig C_Restr
  P_Amgx3 S_Rate P_Approx C_Rate S_Par S_Host M_ParEnd S_ParEnd P_ParEnd M_Diag S_Diag.
Import ListNotations.
Set Implicit Arguments.
Open Scope list_scope.
Open Scope nat_scope.

Section PDiag.
  Variable K : ofield.
  Add Field KfieldDiag : (f_field K).
  Variables (debug : bool) (A : mat K).

  Lemma idx_mem_spec : forall g s, idx_mem g s = true <-> In g s.
  Proof.
    intros g s. unfold idx_mem. rewrite existsb_exists. split; [intros (x & Ix & E); apply Nat.eqb_eq in E; congruence|intros I; exists g; split; [exact I|apply Nat.eqb_refl]].
  Qed.
  Lemma idx_mem_false : forall g s, idx_mem g s = false <-> ~ In g s.
  Proof. intros g s. rewrite <- idx_mem_spec. destruct (idx_mem g s); split; congruence. Qed.

  Lemma fill_diag_spec : forall rows l v, incl l rows -> exists v', fill_diag debug A rows l v = Ok v' /\
    forall g, (In g l -> v' g = Some (ent A g g)) /\ (~ In g l -> v' g = v g).
  Proof.
    intros rows l. induction l as [|g l IH]; intros v HI; cbn [fill_diag].
    - exists v. split; [reflexivity|]. intros g. split; [intros []|auto].
    - unfold diag_element. rewrite (proj2 (idx_mem_spec g rows)) by (apply HI; left; auto). cbn [bind].
      destruct (IH (fun h => if h =? g then Some (ent A g g) else v h)) as (v' & E & H); [intros h Ih; apply HI; right; auto|].
      exists v'. split; [exact E|]. intros h. destruct (H h) as (H1 & H2). split.
      + intros [<-|I]; [|auto]. destruct (in_dec Nat.eq_dec g l) as [J|J]; [auto|]. rewrite H2, Nat.eqb_refl by auto. reflexivity.
      + intros N. rewrite H2 by (intros J; apply N; right; auto). destruct (Nat.eqb_spec h g) as [->|]; [exfalso; apply N; left; auto|reflexivity].
  Qed.
  Lemma owned_diags_spec : forall owned, exists vs, owned_diags debug A owned owned = Ok vs /\
    Forall2 (fun own v => forall g, In g own -> v g = Some (ent A g g)) owned vs.
  Proof.
    induction owned as [|own os IH]; cbn [owned_diags]; [exists []; auto|]. destruct IH as (vs & E & H).
    destruct (@fill_diag_spec own own (fun g => if idx_mem g own then Some 0%K else None) (incl_refl _)) as (v & Ev & Hv).
    unfold owned_diag at 1. rewrite Ev. cbn [bind]. rewrite E. cbn [bind]. exists (v :: vs). split; [reflexivity|]. constructor; [|exact H]. intros g I. apply Hv. exact I.
  Qed.
  Lemma owner_value_spec : forall owned (vs : dvec K), Forall2 (fun own (v : nat -> option K) => forall g, In g own -> v g = Some (ent A g g)) owned vs ->
    forall g, In g (concat owned) -> owner_value owned vs g = Some (ent A g g).
  Proof.
    intros owned vs H. induction H as [|own v owned vs H1 H2 IH]; intros g I; [destruct I|]. cbn [owner_value]. destruct (idx_mem g own) eqn:E.
    - apply H1. apply idx_mem_spec. exact E.
    - apply IH. cbn [concat] in I. apply in_app_or in I. destruct I as [I|I]; [exfalso; apply (proj1 (idx_mem_false g own) E I)|exact I].
  Qed.
  Lemma import_from_spec : forall all src, (forall g, In g (concat all) -> owner_value all src g = Some (ent A g g)) ->
    forall owned (fs : dvec K) relevant, Forall2 (fun own (v : nat -> option K) => forall g, In g own -> v g = Some (ent A g g)) owned fs -> length relevant = length owned ->
    (forall rel g, In rel relevant -> In g rel -> In g (concat all)) -> reads_diagonal A owned relevant (import_from all src fs owned relevant).
  Proof.
    intros all src HA owned fs relevant H. revert relevant. induction H as [|own v owned fs H1 H2 IH]; intros relevant L HR.
    - destruct relevant; [|discriminate]. split; [reflexivity|]. intros [|r] own rel v E; discriminate.
    - destruct relevant as [|rel relevant]; [discriminate|]. cbn [import_from]. destruct (IH relevant) as (Q1 & Q2); [cbn in L; lia|intros; eapply HR; [right; eassumption|auto]|].
      split; [cbn [length]; f_equal; exact Q1|]. intros [|r] own' rel' v' E1 E2 E3; cbn [nth_error] in *; [|eapply Q2; eauto].
      injection E1 as <-. injection E2 as <-. injection E3 as <-. intros g. unfold import_rank. split.
      + intros I. destruct (idx_mem g own) eqn:E; [apply H1, idx_mem_spec; exact E|]. destruct I as [I|I]; [exfalso; apply (proj1 (idx_mem_false g own) E I)|].
        rewrite (proj2 (idx_mem_spec g rel) I). apply HA. eapply HR; [left; reflexivity|exact I].
      + intros N1 N2. rewrite (proj2 (idx_mem_false g own) N1), (proj2 (idx_mem_false g rel) N2). reflexivity.
  Qed.
  Lemma get_diagonal_spec : forall n owned relevant, distribution n owned -> length relevant = length owned -> (forall rel g, In rel relevant -> In g rel -> g < n) ->
    exists vs, get_diagonal debug A owned owned relevant = Ok vs /\ reads_diagonal A owned relevant vs.
  Proof.
    intros n owned relevant HD HL HR. destruct (owned_diags_spec owned) as (vs & E & H). exists (import_from owned vs vs owned relevant). split.
    - unfold get_diagonal. rewrite E. reflexivity.
    - apply import_from_spec; auto; [apply owner_value_spec; auto|]. intros rel g Ir Ig. eapply Permutation_in; [apply Permutation_sym; exact HD|]. apply in_seq. specialize (HR rel g Ir Ig). lia.
  Qed.

  (** ** The check *)
  Lemma rd_In : forall (T : Type) (l : list T) j x, rd l j = Ok x -> In x l.
  Proof. intros T l j x E. unfold rd in E. destruct (nth_error l j) eqn:N; [|discriminate]. injection E as ->. eapply nth_error_In; eauto. Qed.
  Section Same.
    Variable D : nat -> K.
    Lemma sum_same : forall gd m dg, (forall g, In g m -> gd g = Some (D g)) -> forall k j v, @check_sum_rank K gd m dg k j v = @check_sum_agg K m dg k j v.
    Proof.
      intros gd m dg H. induction k as [|k IH]; intros j v; [reflexivity|]. cbn [check_sum_rank check_sum_agg]. destruct (rd m j) as [g| | | |] eqn:E; cbn [bind]; auto.
      destruct (rd dg j) as [d| | | |]; cbn [bind]; auto. unfold gd_get. rewrite (H g (rd_In _ _ E)). cbn [bind]. apply IH.
    Qed.
    Lemma weight_same : forall gd m dg, (forall g, In g m -> gd g = Some (D g)) -> forall k j v, @check_weight_agg K gd m dg k j v = @check_weight_agg K (fun g => Some (D g)) m dg k j v.
    Proof.
      intros gd m dg H. induction k as [|k IH]; intros j v; [reflexivity|]. cbn [check_weight_agg]. destruct (rd m j) as [g| | | |] eqn:E; cbn [bind]; auto.
      destruct (rd dg j) as [d| | | |]; cbn [bind]; auto. unfold gd_get. rewrite (H g (rd_In _ _ E)). cbn [bind]. apply IH.
    Qed.
    Lemma aggs_same : forall (f f' : list nat -> list K -> nat -> nat -> (nat -> K) -> outcome (nat -> K)) (d : agg_data K),
      (forall m, In m (da_maps d) -> forall dg k j v, f m dg k j v = f' m dg k j v) -> (forall dg v, f [] dg 0 0 v = f' [] dg 0 0 v) ->
      forall nloc i pos v, check_aggs f d nloc i pos v = check_aggs f' d nloc i pos v.
    Proof.
      intros f f' d H H0. induction nloc as [|n nloc IH]; intros i pos v; [reflexivity|]. cbn [check_aggs]. destruct (rd (da_evecs d) pos) as [ev| | | |]; cbn [bind]; auto.
      destruct (length ev =? 0) eqn:EZ.
      - cbn [bind]. apply Nat.eqb_eq in EZ. rewrite EZ, H0. destruct (f' [] [] 0 0 v); cbn [bind]; auto.
      - destruct (rd (da_maps d) i) as [m| | | |] eqn:E; cbn [bind]; auto. destruct (rd (da_diag d) i) as [dg| | | |]; cbn [bind]; auto.
        rewrite (H m (rd_In _ _ E)). destruct (f' m dg (length ev) 0 v); cbn [bind]; auto.
    Qed.
    Lemma all_same : forall (f : (nat -> option K) -> list nat -> list K -> nat -> nat -> (nat -> K) -> outcome (nat -> K)) f',
      (forall gd m, (forall g, In g m -> gd g = Some (D g)) -> forall dg k j v, f gd m dg k j v = f' m dg k j v) ->
      forall gds ls, Forall2 (fun gd (l : list (agg_result K)) => gd_ok D l gd) gds ls ->
      forall v, check_all f gds (map (@data_of K) ls) v = check_ranks f' (map (@data_of K) ls) v.
    Proof.
      intros f f' Hf gds ls H. induction H as [|gd l gds ls H1 H2 IH]; intros v; [reflexivity|]. cbn [map check_all check_ranks].
      rewrite (@aggs_same (f gd) f' (data_of l)).
      - destruct (check_aggs f' _ _ _ _ v); cbn [bind]; auto.
      - intros m Im. apply Hf. cbn [data_of da_maps] in Im. apply in_map_iff in Im. destruct Im as (c & <- & Ic). apply H1. exact Ic.
      - intros dg w. apply Hf. intros g [].
    Qed.
    (** What the ranks find together is what one rank that reads everything would find. *)
    Lemma par_check_same : forall tol n owned gds ls, distribution n owned -> (forall g, g < n -> owner_value owned gds g = Some (D g)) ->
      Forall2 (fun gd (l : list (agg_result K)) => gd_ok D l gd) gds ls ->
      par_check debug tol n owned gds (map (@data_of K) ls) = check_restriction debug tol n D (fun g => Some (D g)) (map (@data_of K) ls).
    Proof.
      intros tol n owned gds ls HD HO H. unfold par_check, check_restriction. destruct debug; [|reflexivity].
      assert (OP : forall g, g < n -> owned_part owned gds g = D g) by (intros g Hg; unfold owned_part; rewrite HO by auto; reflexivity).
      assert (LE : forall n' (f g : nat -> K), (forall i, i < n' -> f i = g i) -> linf n' f = linf n' g).
      { induction n' as [|n' IH]; intros f g E; [reflexivity|]. cbn [linf]. rewrite (E n') by lia. rewrite (IH f g) by (intros; apply E; lia). reflexivity. }
      rewrite (@all_same (@check_sum_rank K) (@check_sum_agg K)) with (ls := ls) by (auto; intros; apply sum_same; auto).
      rewrite (@all_same (@check_weight_agg K) (@check_weight_agg K (fun g => Some (D g)))) with (ls := ls) by (auto; intros; apply weight_same; auto).
      destruct (check_ranks _ _ _) as [s| | | |]; cbn [bind]; auto.
      rewrite (LE n (fun g => s g - owned_part owned gds g)%K (fun g => s g - D g)%K) by (intros i Hi; rewrite OP by auto; reflexivity).
      rewrite (LE n (owned_part owned gds) D) by (intros; apply OP; auto).
      destruct (assert_dbg _ _); cbn [bind]; auto. destruct (check_ranks _ _ _) as [w| | | |]; cbn [bind]; auto. f_equal.
      apply eq_true_iff_eq. rewrite !forallb_forall. split; intros Q g Ig; apply Q; [eapply Permutation_in; [apply Permutation_sym; exact HD|exact Ig]|eapply Permutation_in; [exact HD|exact Ig]].
    Qed.
  End Same.
End PDiag.

Section PDiagRanks.
  Variable K : ofield.
  Add Field KfieldDiagRanks : (f_field K).
  Local Notation vec := (vec K).
  Variable parse_unsigned : string -> option Z.
  Variable parse_double : string -> option K.
  Variable lobpcg : (vec -> vec) -> Z -> K -> list vec -> bool * eigensolution K.
  Variable fsqrt : K -> option K.
  Variable dstev : list K -> list K -> outcome (list K * list K).
  Variable tol2 : K.
  Variable rand : nat -> nat -> K.
  Variable std_sort : (nat -> nat -> bool) -> list nat -> list nat.
  Variable lapack : mat K -> K -> K -> outcome (list K * list vec).
  Variable arpack : mat K -> K -> vec -> nat -> outcome (list K * list vec).
  Variables (debug dim3 : bool).
  Variable F : fem K.
  Local Notation agglomerates := (rank_agglomerates parse_unsigned debug dim3).
  Local Notation problem := (rank_problem parse_double lobpcg fsqrt dstev tol2 rand std_sort lapack arpack debug).
  Local Notation rrun := (rank_run parse_unsigned parse_double lobpcg fsqrt dstev tol2 rand std_sort lapack arpack debug dim3).
  Hypothesis Hfem : fem_ok F.
  Hypothesis Hpsd : forall c u, fle 0%K (cell_energy F c u).
  Variable A : mat K.
  Local Notation D := (fun g => ent A g g).

  (** A rank that has the diagonal is ready. *)
  Lemma prepared_ready : forall n owned relevant vs ranks, reads_diagonal A owned relevant vs -> relevant_ok n F owned relevant ranks -> map (@rk_gd K) ranks = vs ->
    (forall rk, In rk ranks -> rank_prepared debug F rk) -> forall rk, In rk ranks -> rank_ready debug F D rk.
  Proof.
    intros n owned relevant vs ranks (_ & HR) (L1 & L2 & _ & HC) HV HP rk I. destruct (HP rk I) as (P1 & P2 & P3). split; [exact P1|]. split; [exact P2|]. split; [exact P3|].
    intros c g Ic Ig. apply In_nth_error in I. destruct I as (r & E).
    assert (Hr : r < length ranks) by (apply nth_error_Some; congruence).
    destruct (nth_error owned r) as [own|] eqn:E1; [|apply nth_error_None in E1; lia]. destruct (nth_error relevant r) as [rel|] eqn:E2; [|apply nth_error_None in E2; lia].
    apply (HR r own rel (rk_gd rk)); auto; [rewrite <- HV, nth_error_map, E; reflexivity|]. eapply HC; eauto.
  Qed.

  Lemma item_diag : forall (it : agg_result K * (list nat * mat K)) lambda eps g, good_item F lambda eps it ->
    at_dof (fst it) g (fun j => nth j (ag_diag (fst it)) 0%K) = lsum (map (fun k => f_cm F k g g) (fst (snd it))).
  Proof.
    intros [c [cells M]] lambda eps g ((Q1 & Q2 & Q3 & Q4 & Q5) & HD & _). cbn [fst snd].
    destruct (in_dec Nat.eq_dec g (ag_map c)) as [I|I].
    - destruct (In_nth _ _ 0 I) as (j & Hj & <-). rewrite at_dof_one by auto. rewrite HD.
      rewrite (nth_indep _ 0%K (ent M 0 0)) by (rewrite map_length, seq_length; auto). rewrite (map_nth (fun k => ent M k k)), seq_nth by auto. cbn. apply Q5; auto.
    - rewrite at_dof_none by auto. symmetry. apply lsum_map_0. intros k Hk. apply (proj2 (Hfem k)). intros (Z & _). apply I. apply Q4. eauto.
  Qed.

  Lemma nothing_lost : forall rk eig agg p, rank_prepared debug F rk -> pt_find p ["eigensolver"%string] = Some eig -> pt_find p ["agglomeration"%string] = Some agg ->
    keeps_vectors (agglomerates rk) (problem rk) (rk_evaluate rk) (rk_mesh rk) eig agg ->
    kept_represent (agglomerates rk) (problem rk) (rk_evaluate rk) (rk_mesh rk) p 0%K 0%K.
  Proof.
    intros rk eig agg p (P1 & P2 & P3) E1 E2 H eig' agg' ui n a sc c Q1 Q2 BA Ha E. rewrite E1 in Q1. rewrite E2 in Q2. injection Q1 as <-. injection Q2 as <-.
    destruct (H ui n a sc c BA Ha E) as (_ & S). cbv zeta. split; [exact S|]. intros v Hv. exists (repeat 0%K (length (ag_evecs c))). split; [rewrite repeat_length; reflexivity|].
    assert (PS := @patch_psd K F Hfem _ _ _ Hpsd (P3 (agg_cells (rk_mesh rk) ui a) (NoDup_filter _ (seq_NoDup _ _)) ltac:(intros k Hk; apply filter_In in Hk; destruct Hk as (Z1 & Z2); apply andb_prop in Z2; apply filter_In; tauto))).
    specialize (PS v). replace (0 * _)%K with (0%K : K) by ring.
    match goal with |- (_ <= ?e + _)%K => replace (e + 0 * dot v v)%K with e by ring end. apply PS.
    assert (PO := P3 (agg_cells (rk_mesh rk) ui a) (NoDup_filter _ (seq_NoDup _ _)) ltac:(intros k Hk; apply filter_In in Hk; destruct Hk as (Z1 & Z2); apply andb_prop in Z2; apply filter_In; tauto)).
    destruct PO as (_ & Z1 & Z2 & _). congruence.
  Qed.
  Lemma run_vectors : forall eig agg rk d, keeps_vectors (agglomerates rk) (problem rk) (rk_evaluate rk) (rk_mesh rk) eig agg -> rrun eig agg rk d -> forall k, In k (da_nloc d) -> 1 <= k.
  Proof.
    intros eig agg rk d H (ui & n & ns & nb & BA & C) k Ik. destruct (collected_any C) as (acs & A1 & -> & A3). cbn [data_of da_nloc] in Ik. apply in_map_iff in Ik.
    destruct Ik as (c & <- & Ic). apply in_map_iff in Ic. destruct Ic as ([a c'] & <- & Ia). cbn [snd] in *. destruct (A3 a c' Ia) as (Ha & sc & E).
    destruct (H ui n a sc c' BA Ha E) as (N & _). destruct (ag_evecs c'); [congruence|]. cbn. lia.
  Qed.

  Lemma check_accepts : forall m n owned relevant vs ranks eig agg ds, A = assembled F m -> n = f_ndofs F -> distribution n owned -> reads_diagonal A owned relevant vs -> relevant_ok n F owned relevant ranks ->
    map (@rk_gd K) ranks = vs -> (forall rk, In rk ranks -> rank_prepared debug F rk) -> ranks_cover (n_cells m) ranks ->
    (forall rk, In rk ranks -> keeps_vectors (agglomerates rk) (problem rk) (rk_evaluate rk) (rk_mesh rk) eig agg) ->
    0 < n -> (forall g, g < n -> ent A g g <> 0%K) -> Forall2 (rrun eig agg) ranks ds ->
    par_check debug tol_1e14 n owned vs ds = Ok tt.
  Proof.
    intros m n owned relevant vs ranks eig agg ds EA En HD HR HC HV HP Hcover HK Hn HNZ RR.
    set (p := Node "" [("eigensolver"%string, eig); ("agglomeration"%string, agg)]).
    assert (P1 : pt_find p ["eigensolver"%string] = Some eig) by (destruct eig; reflexivity).
    assert (P2 : pt_find p ["agglomeration"%string] = Some agg) by (destruct agg; reflexivity).
    pose proof (prepared_ready HR HC HV HP) as Hready.
    destruct (@all_items K parse_unsigned parse_double lobpcg fsqrt dstev tol2 rand std_sort lapack arpack debug dim3 F A eig agg p 0%K 0%K ranks ds P1 P2 RR) as (itss & Eds & GI & SU & GD).
    { intros rk I. split; [apply Hready; auto|]. eapply nothing_lost; eauto. }
    rewrite Forall_forall in GI. set (ls := map (map fst) itss : list (list (agg_result K))).
    assert (Els : ds = map (@data_of K) ls) by (unfold ls; rewrite map_map; exact Eds).
    assert (NL : forall d k, In d ds -> In k (da_nloc d) -> 1 <= k).
    { clear - RR HK. induction RR as [|rk d ranks ds R1 R2 IH]; intros d' k Id Ik; [destruct Id|]. destruct Id as [<-|Id]; [eapply run_vectors; [apply HK; left; reflexivity|exact R1|exact Ik]|].
      eapply IH; eauto. intros; apply HK; right; auto. }
    assert (Hok : forall l c, In l ls -> In c l -> agg_ok c /\ ag_evecs c <> []).
    { intros l c Il Ic. split.
      - apply in_map_iff in Il. destruct Il as (its & <- & Ii). apply in_map_iff in Ic. destruct Ic as ([c' [cs M]] & <- & It). cbn [fst].
        assert (G := GI _ (proj2 (in_concat _ _) (ex_intro _ its (conj Ii It)))). destruct G as (Q1 & Q2 & Q4 & _).
        split; [rewrite Q2, map_length, seq_length; reflexivity|]. intros e' Ie. unfold sized_all in Q4. rewrite Forall_forall in Q4. rewrite (Q4 e' Ie). apply Q1.
      - intros Z. assert (W := NL (data_of l) 0). rewrite Els in W. assert (1 <= 0); [|lia]. apply W; [apply in_map; exact Il|]. cbn [data_of da_nloc]. apply in_map_iff. exists c. split; [rewrite Z; reflexivity|exact Ic]. }
    assert (G2 : Forall2 (fun gd (l : list (agg_result K)) => gd_ok D l gd) vs ls).
    { rewrite <- HV. unfold ls. clear - GD. induction GD as [|its rk itss ranks G1 G2 IH]; cbn [map]; constructor; auto. }
    assert (HO : forall g, g < n -> owner_value owned vs g = Some (D g)).
    { intros g Hg. apply owner_value_spec.
      - destruct HR as (L & HR). destruct HC as (L1 & L2 & _). rewrite <- L1 in L2. clear - L HR L2. revert vs relevant L HR L2. induction owned as [|own owned IH]; intros [|v vs] relevant L HR L2; try discriminate; constructor.
        + destruct relevant as [|rel relevant]; [discriminate|]. intros g I. apply (HR 0 own rel v eq_refl eq_refl eq_refl g). left. exact I.
        + destruct relevant as [|rel relevant]; [discriminate|]. apply (IH vs relevant); [cbn in L; lia| |cbn in L2; lia]. intros r o' r' v' E1 E2 E3. apply (HR (S r) o' r' v'); auto.
      - eapply Permutation_in; [apply Permutation_sym; exact HD|]. apply in_seq. lia. }
    rewrite Els. rewrite (@par_check_same K debug D tol_1e14 n owned vs ls HD HO G2).
    assert (T : (0 < @tol_1e14 K)%K) by (unfold tol_1e14; assert (X := finv_pos (@fpos_pos K 100000000000000)); replace (1 / fpos 100000000000000)%K with (finv (@fpos K 100000000000000)); [exact X|field; apply not_eq_sym, flt_neq, fpos_pos]).
    destruct (@C60_self_check K tol_1e14 n D (fun g => Some (D g)) ls Hok (fun c _ g _ => eq_refl) T) as (_ & S1 & S2 & _).
    - exists 0. split; auto.
    - destruct debug; [|exact S1]. apply S2. intros g Hg. split; [auto|]. unfold diag_sum. unfold ls. rewrite <- concat_map, map_map.
      transitivity (lsum (map (fun it : agg_result K * (list nat * mat K) => lsum (map (fun k => f_cm F k g g) (fst (snd it)))) (concat itss))).
      + apply lsum_map_ext. intros it I. eapply item_diag. apply GI. exact I.
      + etransitivity; [exact (SU (fun k => f_cm F k g g))|]. rewrite EA. cbn [assembled ent]. apply lsum_perm. apply Permutation_map. exact Hcover.
  Qed.
End PDiagRanks.
