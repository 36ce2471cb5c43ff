(** The fast product of matrix-based preconditioners on several ranks. *)
From Coq Require Import String List Arith ZArith Bool Lia Field Permutation.
From Verif Require Import Base OField Mat LinAlg M_Ptree S_Ptree P_Ptree M_Agglo S_Agglo P_Agglo P_Agglo2 M_WorkStream P_WorkStream M_Restr S_Restr P_Restr P_Restr2
  M_FastAP S_FastAP P_FastAP P_FastAP2 M_Lanczos S_Lanczos M_Eig S_Eig P_Eig M_Hier S_Hier P_Hier P_Hier2 P_HierE P_HierS M_Smoother P_Smoother M_Host P_Host M_HostEnd S_HostEnd P_HostEnd C_Eig C_Restr
  P_Amgx3 S_Rate P_Rate P_Rate2 P_Approx C_Rate M_Par S_Par P_Par P_Par2 P_Par3 P_Par4 C_Host C_Par S_Host P_HostN P_HierC M_ParEnd S_ParEnd P_ParEnd C_FastAP M_ParMfEnd S_ParMfFast P_ParMfFast M_ParFast S_ParFast.
Import ListNotations.
Set Implicit Arguments.
Open Scope list_scope.
Open Scope nat_scope.

Section PParFast.
  Variable K : ofield.
  Add Field KfieldParFast : (f_field K).
  Local Notation vec := (vec K).

  Lemma host_matrix : forall (F : fem K) m rk, fem_ok F -> host_sees_neighbours F (n_cells m) rk -> global_matrix (host_rank_fem F rk) (rk_mesh rk) (ent (assembled F m)).
  Proof.
    intros F m rk HF HS.
    exact (@rank_matrix K F m (mkMfRank (rk_mesh rk) (rk_number rk) (rk_partition rk) (fun _ => []) (fun _ x => x) (fun _ => []) (fun _ => []) (rk_draws rk) (rk_gd rk)) HF HS).
  Qed.
  Lemma host_fem_ok : forall (F : fem K) rk, fem_ok F -> fem_ok (host_rank_fem F rk).
  Proof. intros F rk H c. apply (H (rk_number rk c)). Qed.

  Variable parse_unsigned : string -> option Z.
  Variable parse_double : string -> option K.
  Variable lobpcg : (vec -> vec) -> Z -> K -> list vec -> bool * eigensolution K.
  Variable fsqrt : K -> option K.
  Variable dstev : list K -> list K -> outcome (list K * list K).
  Variable tol2 : K.
  Variable rand : nat -> nat -> K.
  Variable std_sort : (nat -> nat -> bool) -> list nat -> list nat.
  Variable lapack : mat K -> K -> K -> outcome (list K * list vec).
  Variable arpack : mat K -> K -> vec -> nat -> outcome (list K * list vec).
  Variables (debug dim3 : bool).
  Variable F : fem K.
  Variable m : mesh.
  Variable conn : nat -> nat -> list nat.
  Local Notation A := (assembled F m).
  Local Notation D := (fun g => ent A g g).
  Local Notation agglomerates := (rank_agglomerates parse_unsigned debug dim3).
  Local Notation problem := (rank_problem parse_double lobpcg fsqrt dstev tol2 rand std_sort lapack arpack debug).
  Local Notation rrun := (rank_run parse_unsigned parse_double lobpcg fsqrt dstev tol2 rand std_sort lapack arpack debug dim3).
  Local Notation frun := (rank_fast_run parse_unsigned parse_double lobpcg fsqrt dstev tol2 rand std_sort lapack arpack debug dim3 conn).

  Hypothesis Hfem : fem_ok F.
  Hypothesis Hsym : forall c g h, f_cm F c g h = f_cm F c h g.
  Hypothesis Hlapack : lapack_ok lapack.
  Hypothesis Hspd : spd (f_ndofs F) (mulvec A).

  (** * One rank *)
  Lemma rank_fast_exact : forall p eig agg counts q rk d mm corr,
    pt_find p ["agglomeration"%string] = Some agg -> eigensolver_matrix debug eig = Ok ELapack ->
    rank_ok debug F D rk -> ready_for_fast F (n_cells m) (agglomerates rk) rk (conn q) p ->
    compute_restriction debug true counts q (rk_gd rk) d = Ok mm -> frun eig agg counts q rk d mm corr ->
    (forall r g, ((n_rows_before counts q <=? r) && (r <? n_rows_before counts q + length (da_evecs d))) = false -> spm_el (r_R mm) r g = 0%K) /\
    forall r g, r < length (da_evecs d) -> fa_ap (da_evals d) (r_E mm) corr (n_rows_before counts q) r g =
      sumn (f_ndofs F) (fun h => (ent A g h * spm_el (r_R mm) (n_rows_before counts q + r)%nat h)%K).
  Proof.
    intros p eig agg counts q rk d mm corr P2 EL (Hm & Hp & Hev & Hcon & Hgd) (HS & Hev' & Hc & HT) CR (ui & n & ns & nb & bd & ns' & nb' & BA & C & BB & FC).
    pose proof (@ghosts_zero K parse_unsigned debug dim3 rk agg ui n Hm Hp BA) as GZ.
    set (mq := rk_mesh rk) in *. set (Fq := host_rank_fem F rk) in *.
    destruct (@agglomerates_ids parse_unsigned (rk_partition rk) debug dim3 mq Hm Hp agg ui n BA) as (Lu & Hid).
    destruct (collected_any C) as (acs & A1 & -> & A3). set (l := map snd acs) in *.
    assert (La : length acs = n) by (rewrite <- (map_length fst), A1; apply seq_length).
    assert (Ll : length l = n) by (unfold l; rewrite map_length; exact La).
    assert (PX : forall a c, In (a, c) acs -> exact_agg Fq (agg_cells mq ui a) (n_eigenvectors eig) c /\ ag_map c = fst (rk_evaluate rk (agg_cells mq ui a))).
    { intros a c Ia. destruct (A3 a c Ia) as (Ha & sc & P). unfold rank_problem, local_problem in P. fold mq in P. rewrite own_patch, Hcon in P by (auto; lia).
      assert (N : NoDup (agg_cells mq ui a)) by (apply NoDup_filter, seq_NoDup). set (cells := agg_cells mq ui a) in *.
      assert (DC : decoupled (snd (rk_evaluate rk cells)) []) by (intros i j []).
      destruct (Hev' cells N) as (Q1 & Q2 & Q3 & Q4 & Q5).
      assert (SY : symmetric_matrix (snd (rk_evaluate rk cells))).
      { split; [red; congruence|]. intros i j Hi Hj. rewrite !Q5 by lia. apply lsum_map_ext. intros k _. apply Hsym. }
      destruct (@C36_lapack K _ _ _ _ _ _ _ _ _ _ _ _ _ _ _ _ _ _ _ Hlapack SY DC EL P) as (L1 & L2 & (O & _) & _ & HE).
      destruct (@C36_result K _ _ _ _ _ _ _ _ _ _ _ _ _ _ _ _ _ _ _ P) as (_ & _ & _ & _ & _ & _ & _ & HD & HM).
      split; [|exact HM]. exists (snd (rk_evaluate rk cells)). rewrite HM. split; [split; auto|]. split; [rewrite HD, Q2; reflexivity|]. split; [exact L2|]. split; [exact L1|].
      intros k Hk. split; [|exact (proj1 (HE k Hk))].
      unfold sized_all in O. rewrite Forall_forall in O. rewrite O, Q2; auto. apply nth_In. lia. }
    assert (Lin : forall c, In c l -> exists a, In (a, c) acs).
    { intros c Ic. apply in_map_iff in Ic. destruct Ic as ([a c'] & E & I). cbn in E. subst c'. exists a. exact I. }
    assert (Lok : forall c, In c l -> agg_ok c) by (intros c Ic; destruct (Lin c Ic) as (a & I); exact (proj1 (exact_agg_ok (proj1 (PX a c I))))).
    assert (Dof : forall c g, In c l -> In g (ag_map c) -> exists k, In k (owned_cells mq) /\ In g (f_cd F (rk_number rk k))).
    { intros c g Ic Ig. destruct (Lin c Ic) as (a & I). rewrite (proj2 (PX a c I)) in Ig. assert (N : NoDup (agg_cells mq ui a)) by (apply NoDup_filter, seq_NoDup).
      apply (Hev' _ N) in Ig. destruct Ig as (k & Ik & Ig). exists k. split; [|exact Ig]. apply filter_In in Ik. destruct Ik as (I1 & I2). apply andb_prop in I2. apply filter_In. tauto. }
    assert (Gd : gd_ok D l (rk_gd rk)) by (intros c Ic g Ig; destruct (Dof c g Ic Ig) as (k & I1 & I2); exact (Hgd k g I1 I2)).
    assert (Le : length (da_evecs (data_of l)) = length (rows_of l)) by (cbn [data_of da_evecs]; apply flat_evecs_length). rewrite Le in *.
    split.
    { intros r g Hr. rewrite (@compute_restriction_spec K debug true counts q (rk_gd rk) D l Lok Gd) in CR.
      injection CR as <-. rewrite rows_step_R. cbn [r_R spm_el]. rewrite Hr. cbn. ring. }
    assert (Hall : (forall q, In q bd -> fst q <> []) \/ (forall q, In q bd -> fst q = [])).
    { destruct (@boundary_correct mq ui n (conn q) Lu Hid) as (bd' & Eb & Lb & Hb). rewrite BB in Eb. injection Eb as <-.
      assert (V : forall q0, In q0 bd -> exists a, 1 <= a <= n /\ (forall c, In c (fst q0) <-> (in_agg mq ui a c /\ exists d, In d (conn q c) /\ ~ in_agg mq ui a d))).
      { intros q0 Hq. destruct (In_nth _ _ ([], []) Hq) as (a & Ha & Eq). specialize (Hb (S a) ltac:(lia)).
        rewrite Nat.sub_succ, Nat.sub_0_r, Eq in Hb. destruct q0 as (qi & qh). exists (S a). split; [lia|]. apply Hb. }
      destruct (HT agg ui n P2 BA) as [T|T]; [left|right]; intros q0 Hq; destruct (V q0 Hq) as (a & Ha & Hv).
      - intros Z. destruct (T a Ha) as (c & e & I1 & I2 & I3). rewrite Z in Hv. apply (Hv c). split; auto. exists e. auto.
      - destruct (fst q0) as [|c q']; auto. exfalso. apply (T a Ha). destruct (proj1 (Hv c) (or_introl eq_refl)) as (I1 & e & I2 & I3). exists c, e. auto. }
    intros r g Hr. change (da_evals (data_of l)) with (flat_map (@ag_evals K) l).
    apply (@C15_fast_ap K debug Fq mq (conn q) ui (rk_evaluate rk) (ent A) (rk_gd rk) D counts q l (n_eigenvectors eig) mm bd ns' nb' corr); auto.
    - apply host_fem_ok. exact Hfem.
    - apply host_matrix; auto.
    - rewrite Ll. exact Hid.
    - intros a c Ha. unfold l in Ha. rewrite nth_error_map in Ha. destruct (nth_error acs a) as [[a' c']|] eqn:Ea; [|discriminate Ha]. cbn in Ha. injection Ha as <-.
      assert (Hlt : a < n) by (rewrite <- La; apply nth_error_Some; congruence).
      assert (a' = S a). { assert (Ea' := Ea). apply (map_nth_error fst) in Ea'. rewrite A1, (nth_error_nth' (seq 1 n) 0), seq_nth in Ea' by (try rewrite seq_length; exact Hlt). cbn in Ea'. congruence. }
      subst a'. apply PX. exact (nth_error_In _ _ Ea).
    - intros c g' Ic Ig. split; [reflexivity|]. destruct (Dof c g' Ic Ig) as (k & _ & Ig'). apply not_eq_sym, flt_neq. apply (@diag_pos K A eq_refl (proj2 Hspd) g'). apply (Hfem (rk_number rk k)). exact Ig'.
    - rewrite Ll. exact BB.
  Qed.

  (** * All ranks *)
  Local Notation run := (par_restrictor_run parse_unsigned parse_double lobpcg fsqrt dstev tol2 rand std_sort lapack arpack debug dim3 (f_ndofs F)).
  Local Notation fast := (par_fast_run parse_unsigned parse_double lobpcg fsqrt dstev tol2 rand std_sort lapack arpack debug dim3 (f_ndofs F) conn).
  Lemma host_fast_is_run : forall ranks p R AP, fast ranks p R AP -> run ranks p R.
  Proof.
    intros ranks p R AP (eig & agg & ds & ms & corr & P1 & P2 & L & AS & ER & HQ & _). exists eig, agg, ds, ms. split; [exact P1|]. split; [exact P2|]. split; [|split; [exact AS|exact ER]].
    assert (Lm := proj1 (assemble_from_ranks _ _ _ _ _ _ AS)).
    assert (V : forall q rk d, nth_error ranks q = Some rk -> nth_error ds q = Some d -> rrun eig agg rk d).
    { intros q rk d H1 H2. assert (q < length ms) by (rewrite Lm; apply nth_error_Some; congruence). destruct (nth_error ms q) as [mm|] eqn:H3; [|apply nth_error_None in H3; lia].
      destruct (HQ q rk d mm H1 H2 H3) as (ui & n & ns & nb & bd & ns' & nb' & BA & C & _). exists ui, n, ns, nb. auto. }
    clear - V L. revert ds L V. induction ranks as [|rk ranks IH]; intros [|d ds] L V; try discriminate L; constructor.
    - exact (V 0 rk d eq_refl eq_refl).
    - apply IH; [cbn in L; lia|]. intros q. exact (V (S q)).
  Qed.
  Lemma host_fast_exact : forall ranks p R AP, fast ranks p R AP ->
    (forall eig, pt_find p ["eigensolver"%string] = Some eig -> eigensolver_matrix debug eig = Ok ELapack) ->
    (forall q rk, nth_error ranks q = Some rk -> rank_ok debug F D rk /\ ready_for_fast F (n_cells m) (agglomerates rk) rk (conn q) p) ->
    meq AP (mmul A (mtrans R)).
  Proof.
    intros ranks p R AP (eig & agg & ds & ms & corr & P1 & P2 & L & AS & -> & HQ & ->) HE H. specialize (HE eig P1).
    destruct (assemble_from_ranks _ _ _ _ _ _ AS) as (Lm & CRs). cbn [Nat.add] in CRs. set (counts := rows_per_proc ds) in *.
    assert (V : forall q d mm, nth_error ds q = Some d -> nth_error ms q = Some mm ->
      (forall r g, ((n_rows_before counts q <=? r) && (r <? n_rows_before counts q + length (da_evecs d))) = false -> spm_el (r_R mm) r g = 0%K) /\
      forall r g, r < length (da_evecs d) -> fa_ap (da_evals d) (r_E mm) (corr q) (n_rows_before counts q) r g =
        sumn (f_ndofs F) (fun h => (ent A g h * spm_el (r_R mm) (n_rows_before counts q + r)%nat h)%K)).
    { intros q d mm Hd Hm. assert (q < length ranks) by (rewrite <- L; apply nth_error_Some; congruence). destruct (nth_error ranks q) as [rk|] eqn:Hrk; [|apply nth_error_None in Hrk; lia].
      destruct (H q rk Hrk) as (H1 & H2). specialize (CRs q d mm Hd Hm). cbv beta in CRs. rewrite Hrk in CRs.
      exact (@rank_fast_exact p eig agg counts q rk d mm (corr q) P2 HE H1 H2 CRs (HQ q rk d mm Hrk Hd Hm)). }
    split; [reflexivity|]. split; [reflexivity|]. intros g r Hg Hr. cbn [mmul mtrans distributed_matrix nr nc] in Hr, Hg.
    destruct (locate counts Hr) as (q & k & nq & E1 & E2 & E3 & E4).
    assert (CD : forall i n', nth_error counts i = Some n' -> exists d, nth_error ds i = Some d /\ n' = length (da_evecs d)).
    { intros i n' Hi. unfold counts, rows_per_proc in Hi. rewrite nth_error_map in Hi. destruct (nth_error ds i) as [d|]; [|discriminate Hi]. exists d. cbn in Hi. split; congruence. }
    destruct (CD q nq E1) as (d & Hd & ->). assert (Lq : q < length ds) by (apply nth_error_Some; congruence).
    destruct (nth_error ms q) as [mm|] eqn:Hm; [|apply nth_error_None in Hm; lia].
    assert (Z : forall i d' mm', i <> q -> nth_error ds i = Some d' -> nth_error ms i = Some mm' -> ((n_rows_before counts i <=? r) && (r <? n_rows_before counts i + length (da_evecs d'))) = false).
    { intros i d' mm' N Hd' _. apply E4; auto. unfold counts, rows_per_proc. rewrite nth_error_map, Hd'. reflexivity. }
    assert (ER : forall h, lsum (map (fun mm => spm_el (r_R mm) r h) ms) = spm_el (r_R mm) r h).
    { intros h. rewrite (@lsum_nth K _ (fun mm => spm_el (r_R mm) r h) ms (mkR [] [] [])). rewrite Lm. rewrite (@sumn_single K (length ds) q _ Lq).
      2:{ intros i Hi N. destruct (nth_error ds i) as [d'|] eqn:Hd'; [|apply nth_error_None in Hd'; lia]. destruct (nth_error ms i) as [mm'|] eqn:Hm'; [|apply nth_error_None in Hm'; lia].
        rewrite (nth_error_nth _ _ _ Hm'). apply (proj1 (V i d' mm' Hd' Hm')). exact (Z i d' mm' N Hd' Hm'). }
      rewrite (nth_error_nth _ _ _ Hm). reflexivity. }
    cbn [ent mmul mtrans distributed_matrix nc nr assembled].
    rewrite (@sumn_single K (length ds) q _ Lq).
    - rewrite Hd, Hm. unfold rank_column. replace (n_rows_before counts q <=? r) with true by (symmetry; apply Nat.leb_le; lia).
      replace (r <? n_rows_before counts q + length (da_evecs d)) with true by (symmetry; apply Nat.ltb_lt; lia). cbn [andb]. replace (r - n_rows_before counts q) with k by lia.
      rewrite (proj2 (V q d mm Hd Hm) k g E2), <- E3. apply sumn_ext. intros h _. rewrite ER. reflexivity.
    - intros i Hi N. destruct (nth_error ds i) as [d'|] eqn:Hd'; [|reflexivity]. destruct (nth_error ms i) as [mm'|] eqn:Hm'; [|reflexivity]. unfold rank_column. rewrite (Z i d' mm' N Hd' Hm'). reflexivity.
  Qed.

  (** * With LAPACK the schedules do not matter *)
  Lemma rank_run_unique : forall eig agg rk d d', eigensolver_matrix debug eig = Ok ELapack -> rrun eig agg rk d -> rrun eig agg rk d' -> d = d'.
  Proof.
    intros eig agg rk d d' EL (ui & n & ns & nb & BA & C) (ui' & n' & ns' & nb' & BA' & C'). rewrite BA in BA'. injection BA' as <- <-. unfold rank_problem in C, C'.
    eapply (@collected K) in C; [|exact EL]. destruct C as (res & H1 & ->). eapply (@collected K) in C'; [|exact EL]. destruct C' as (res' & H2 & ->).
    f_equal. apply map_ext_in. intros a Ia. apply in_seq in Ia. specialize (H1 a ltac:(lia)). rewrite H2 in H1 by lia. congruence.
  Qed.
  Lemma run_unique : forall ranks p p' R R', run ranks p R -> run ranks p' R' ->
    pt_find p' ["eigensolver"%string] = pt_find p ["eigensolver"%string] -> pt_find p' ["agglomeration"%string] = pt_find p ["agglomeration"%string] ->
    (forall eig, pt_find p ["eigensolver"%string] = Some eig -> eigensolver_matrix debug eig = Ok ELapack) -> R = R'.
  Proof.
    intros ranks p p' R R' (eig & agg & ds & ms & P1 & P2 & RR & AS & ->) (eig' & agg' & ds' & ms' & P1' & P2' & RR' & AS' & ->) E1 E2 HE. specialize (HE eig P1).
    rewrite E1, P1 in P1'. injection P1' as <-. rewrite E2, P2 in P2'. injection P2' as <-.
    assert (ds = ds').
    { clear AS AS'. revert ds' RR'. induction RR as [|rk d rs ds R0 RR IH]; intros ds' RR'; inversion RR' as [|? d' ? ds0 R1 RR1]; subst; [reflexivity|].
      f_equal; [exact (@rank_run_unique eig agg rk d d' HE R0 R1)|exact (IH ds0 RR1)]. }
    subst ds'. rewrite AS in AS'. injection AS' as <-. reflexivity.
  Qed.

  (** * Runs exist *)
  Lemma host_fast_exists : forall ranks p R, run ranks p R ->
    (forall rk, In rk ranks -> rank_ok debug F D rk /\ evaluate_ok (host_rank_fem F rk) (rk_evaluate rk)) -> exists AP, fast ranks p R AP.
  Proof.
    intros ranks p R (eig & agg & ds & ms & P1 & P2 & RR & AS & ER) H.
    destruct (assemble_from_ranks _ _ _ _ _ _ AS) as (Lm & CRs). cbn [Nat.add] in CRs. set (counts := rows_per_proc ds) in *.
    assert (L : length ds = length ranks) by (clear - RR; induction RR; cbn [length]; congruence).
    assert (RQ : forall q rk d, nth_error ranks q = Some rk -> nth_error ds q = Some d -> rrun eig agg rk d).
    { clear - RR. induction RR as [|rk0 d0 ranks ds R0 RR IH]; intros [|q] rk d H1 H2; try discriminate H1; cbn [nth_error] in H1, H2; [congruence|exact (IH q rk d H1 H2)]. }
    destruct (@choose (spm K) (fun q corr => forall rk d mm, nth_error ranks q = Some rk -> nth_error ds q = Some d -> nth_error ms q = Some mm -> frun eig agg counts q rk d mm corr) [] (length ds)) as (corr & HC).
    { intros q Hq. destruct (nth_error ds q) as [d|] eqn:Hd; [|apply nth_error_None in Hd; lia]. destruct (nth_error ms q) as [mm|] eqn:Hm; [|apply nth_error_None in Hm; lia].
      destruct (nth_error ranks q) as [rk|] eqn:Hrk; [|apply nth_error_None in Hrk; lia].
      destruct (RQ q rk d Hrk Hd) as (ui & n & ns & nb & BA & C). destruct (H rk (nth_error_In _ _ Hrk)) as (OK & Hev').
      destruct OK as (Hm0 & Hp0 & _). destruct (@agglomerates_ids parse_unsigned (rk_partition rk) debug dim3 (rk_mesh rk) Hm0 Hp0 agg ui n BA) as (Lu & Hid).
      destruct (@boundary_correct (rk_mesh rk) ui n (conn q) Lu Hid) as (bd & Eb & _ & _).
      destruct (@C_FastAP.C15_run_exists K (host_rank_fem F rk) (rk_mesh rk) (conn q) ui n (rk_evaluate rk) (r_E mm) (r_D mm)
        (n_rows_before counts q) (length (da_evecs d)) 0 0 bd (host_fem_ok rk Hfem) Hev' Lu Hid Eb) as (cr & FC).
      exists cr. intros rk' d' mm' E1 E2 E3. replace rk' with rk by congruence. replace d' with d by congruence. replace mm' with mm by congruence.
      exists ui, n, ns, nb, bd, 1, 1. auto. }
    eexists. exists eig, agg, ds, ms, corr. split; [exact P1|]. split; [exact P2|]. split; [exact L|]. split; [exact AS|]. split; [exact ER|]. split; [|reflexivity].
    intros q rk d mm H1 H2 H3. apply HC; auto. apply nth_error_Some. congruence.
  Qed.
End PParFast.

(** P_ParEnd.par_rate with either product. *)
Section ParRateAP.
  Variable K : ofield.
  Add Field KfieldParRateAP : (f_field K).
  Local Notation vec := (vec K).
  Variables (debug : bool) (A : mat K).
  Hypothesis DA : nr A = nc A.
  Hypothesis Hspd : spd (nc A) (mulvec A).
  Variables (accepts_double : string -> bool) (owned_rows : mat K -> list (list nat)) (mk : ptree -> outcome (mat K * mat K)).
  Variables (ilu : mat K -> vec -> vec) (ml : ml_list -> mat K -> vec -> vec) (eps : K) (te0 : tenv).
  Variables (p : ptree) (R AP : mat K) (theta delta lambda : K).
  Hypothesis Hown : forall M : mat K, nr M = nc M -> distribution (nc M) (owned_rows M).
  Hypothesis Hdef : default_two_level p.
  Hypothesis Hap : pt_get parse_bool ["fast_ap"%string] false p = true -> meq AP (mmul A (mtrans R)).
  Hypothesis Hmk : mk p = Ok (R, AP).
  Hypothesis PE : pt_find p ["eigensolver"%string] <> None.
  Hypothesis PA : pt_find p ["agglomeration"%string] <> None.
  Hypothesis DR : nc R = nc A.
  Hypothesis Hrank : full_row_rank R.
  Hypothesis Hlam : flt 0%K lambda.
  Hypothesis AX : approximates A R lambda.
  Hypothesis Htheta : fle 0%K theta.
  Hypothesis Hdelta : fle 0%K delta.
  Hypothesis Hdelta1 : fle delta 1%K.
  Hypothesis Hbound : forall own, In own (owned_rows A) -> fle (theta * triangle_bound (local_block A own))%K 1%K.
  Hypothesis Hweak : weakly_coupled (owned_rows A) A delta.
  Local Notation rho := (1 - delta * theta * lambda)%K.
  Local Notation built h := (exists s l, construct (par_helpers accepts_double owned_rows A mk ilu ml) eps te0 debug (Ok tt) (Some p) None = (Ok h, s, l)).

  Lemma par_rate_ap : exists h, built h /\
    forall te x xs l, open_sections l = [] -> length x = nc A -> length xs = nc A ->
      exists y l', hierarchy_vmult te h x (mulvec A xs) l = (Ok y, l') /\ open_sections l' = [] /\ length y = nc A /\
        fle (energy (mulvec A) (vsub xs y)) (rho * rho * energy (mulvec A) (vsub xs (if c_prec p then vzero (nc A) else x)))%K.
  Proof.
    destruct Hdef as (D1 & D2 & D3 & D4).
    assert (SK : dealii_smoother_kind p = Ok KSsor).
    { unfold dealii_smoother_kind. rewrite get_string_text. apply lower_ci in D4; [|apply no_upperb_ok; reflexivity]. rewrite D4. reflexivity. }
    assert (CK : dealii_solver_kind accepts_double p = Ok KDirect).
    { destruct (C38_host_solver accepts_double p) as [(_ & E)|[(Q & _)|(Q & _)]]; auto; [|contradiction].
      exfalso. apply lower_ci in Q; [|apply no_upperb_ok; reflexivity]. apply lower_ci in D3; [|apply no_upperb_ok; reflexivity]. congruence. }
    pose proof (Hown A DA) as HO.
    assert (LK : linear (nc A) (nc A) (par_ssor_vmult (owned_rows A) A)) by (apply par_linear; exact HO).
    assert (SM := @par_smooths K A (owned_rows A) DA HO Hspd theta delta Htheta Hdelta Hdelta1 Hbound Hweak).
    destruct (@par_two_level K accepts_double owned_rows A mk ilu ml eps te0 debug p KSsor R AP DA Hspd D2 SK LK CK PE PA Hmk DR Hrank) as (h & s & l & CC & V).
    { exact Hap. }
    exists h. split; [exists s, l; exact CC|]. intros te x xs l0 Hl Lx Lxs.
    assert (Lb : length (mulvec A xs) = nc A) by (rewrite mulvec_length; exact DA).
    destruct (V te x (mulvec A xs) l0 Hl Lx Lb) as (y & l' & E & O & T).
    exists y, l'. split; [exact E|]. split; [exact O|].
    apply (@two_grid_rate K A R (par_ssor_vmult (owned_rows A) A) (delta * theta)%K lambda (c_steps p) (mulvec A xs) (if c_prec p then vzero (nc A) else x) y xs); auto.
    - apply (@par_sym K A (owned_rows A) DA HO Hspd).
    - apply fle_mul; auto.
    - destruct (c_prec p); [apply vzero_length|exact Lx].
  Qed.
End ParRateAP.
