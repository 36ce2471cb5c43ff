(** The coarse space built by several ranks. *)
From Coq Require Import String List Arith ZArith Bool Lia Field Permutation.
From Verif Require Import Base OField Mat LinAlg M_Ptree S_Ptree P_Ptree M_Agglo S_Agglo P_Agglo P_Agglo2 M_WorkStream P_WorkStream M_Restr S_Restr P_Restr P_Restr2
  M_FastAP S_FastAP P_FastAP P_FastAP2 M_Lanczos S_Lanczos M_Eig S_Eig P_Eig M_Hier S_Hier P_Hier P_Hier2 P_HierE P_HierS M_Smoother P_Smoother M_Host P_Host M_HostEnd S_HostEnd P_HostEnd C_Eig C_Restr
  P_Amgx3 S_Rate P_Rate P_Rate2 P_Approx C_Rate M_Par S_Par P_Par P_Par2 P_Par3 P_Par4 C_Host C_Par S_Host P_HostN P_HierC M_ParEnd S_ParEnd.
Import ListNotations.
Set Implicit Arguments.
Open Scope list_scope.
Open Scope nat_scope.

Section PParEnd.
  Variable K : ofield.
  Add Field KfieldParEnd : (f_field K).
  Local Notation vec := (vec K).
  Variable parse_unsigned : string -> option Z.
  Variable parse_double : string -> option K.
  Variable lobpcg : (vec -> vec) -> Z -> K -> list vec -> bool * eigensolution K.
  Variable fsqrt : K -> option K.
  Variable dstev : list K -> list K -> outcome (list K * list K).
  Variable tol2 : K.
  Variable rand : nat -> nat -> K.
  Variable std_sort : (nat -> nat -> bool) -> list nat -> list nat.
  Variable lapack : mat K -> K -> K -> outcome (list K * list vec).
  Variable arpack : mat K -> K -> vec -> nat -> outcome (list K * list vec).
  Variables (debug dim3 : bool).
  Variable F : fem K.
  Local Notation agglomerates := (rank_agglomerates parse_unsigned debug dim3).
  Local Notation problem := (rank_problem parse_double lobpcg fsqrt dstev tol2 rand std_sort lapack arpack debug).
  Local Notation rrun := (rank_run parse_unsigned parse_double lobpcg fsqrt dstev tol2 rand std_sort lapack arpack debug dim3).

  (** Cells of other ranks keep their user index 0: they are in no agglomerate. *)
  Lemma ghosts_zero : forall (rk : rank_env K) agg ui n, mesh_ok debug (rk_mesh rk) -> (forall k, length (owned_cells (rk_mesh rk)) <= length (rk_partition rk k)) ->
    agglomerates rk agg (repeat 0 (n_cells (rk_mesh rk))) = Ok (ui, n) -> forall c, owned (rk_mesh rk) c = false -> nth c ui 0 = 0.
  Proof.
    intros rk agg ui n Hm Hp H c Hc. unfold rank_agglomerates, build_agglomerates in H. set (m := rk_mesh rk) in *.
    assert (Lf : length (repeat 0 (n_cells m)) = n_cells m) by apply repeat_length.
    assert (BC : forall bx by_ bz, build_agglomerates_block debug dim3 m bx by_ bz (repeat 0 (n_cells m)) = Ok (ui, n) -> nth c ui 0 = 0).
    { intros bx by_ bz E. destruct (@block_covers debug dim3 m Hm bx by_ bz _ Lf) as (u & N & E' & C1 & C2 & C3 & C4). rewrite E in E'. injection E' as <- <-.
      rewrite C4 by auto. apply nth_repeat. }
    assert (PC : forall k, build_agglomerates_partitioner m (rk_partition rk k) (repeat 0 (n_cells m)) = Ok (ui, n) -> nth c ui 0 = 0).
    { intros k E. destruct (@partitioner_correct m (rk_partition rk k) _ Lf (Hp k)) as (u & N & E' & C1 & C2 & C3 & C4 & C5 & C6). rewrite E in E'. injection E' as <- <-.
      rewrite C6 by auto. apply nth_repeat. }
    destruct (partitioner_choice parse_unsigned dim3 agg) as [k| | | |]; cbn [bind] in H; try discriminate.
    destruct k as [z|z|l]; try (eapply PC; exact H).
    destruct l as [|x [|y [|z [|w l]]]]; try discriminate; eapply BC; exact H.
  Qed.
  Lemma own_patch : forall (m : mesh) ui a, (forall c, owned m c = false -> nth c ui 0 = 0) -> 1 <= a -> patch_by_id (n_cells m) a ui = agg_cells m ui a.
  Proof.
    intros m ui a H Ha. unfold patch_by_id, agg_cells. apply filter_ext_in. intros c _. destruct (owned m c) eqn:E; auto.
    rewrite H by auto. cbn [andb]. apply Nat.eqb_neq. lia.
  Qed.
  Lemma sum_over_owned : forall (f : nat -> K) m ui n, (forall c, c < n_cells m -> owned m c = true -> 1 <= nth c ui 0 <= n) ->
    lsum (map (fun a => lsum (map f (agg_cells m ui a))) (seq 1 n)) = lsum (map f (owned_cells m)).
  Proof.
    intros f m ui n H.
    transitivity (lsum (map (fun a => lsum (map (fun c => if nth c ui 0 =? a then f c else 0%K) (owned_cells m))) (seq 1 n))).
    { apply lsum_map_ext. intros a _. unfold agg_cells, owned_cells. induction (seq 0 (n_cells m)) as [|c l IH]; cbn [filter map]; auto.
      destruct (owned m c); cbn [andb map lsum filter]; auto. destruct (nth c ui 0 =? a); cbn [map lsum]; rewrite IH; auto. ring. }
    assert (X : forall c, In c (owned_cells m) -> 1 <= nth c ui 0 <= n).
    { intros c Hc. apply filter_In in Hc. destruct Hc as (Hc & Ho). apply in_seq in Hc. apply H; auto. lia. }
    revert X. generalize (owned_cells m) as l. induction l as [|c l IH]; intros X.
    - cbn [map lsum]. apply lsum_map_0. auto.
    - cbn [map lsum]. rewrite lsum_map_add, IH by (intros; apply X; right; auto). f_equal.
      specialize (X c (or_introl eq_refl)). rewrite (@lsum_nth K nat _ (seq 1 n) 0), seq_length.
      rewrite (@sumn_single K n (nth c ui 0 - 1)).
      + rewrite seq_nth by lia. replace (1 + (nth c ui 0 - 1)) with (nth c ui 0) by lia. rewrite Nat.eqb_refl. auto.
      + lia.
      + intros i Hi Hne. rewrite seq_nth by lia. destruct (Nat.eqb_spec (nth c ui 0) (1 + i)); auto. lia.
  Qed.

  Hypothesis Hfem : fem_ok F.
  Hypothesis Hsym : forall c g h, f_cm F c g h = f_cm F c h g.
  Hypothesis Hpsd : forall c u, fle 0%K (cell_energy F c u).
  Variable A : mat K.
  Local Notation D := (fun g => ent A g g).

  (** What is known of one agglomerate: result, cells in the numbering of the whole mesh, matrix. *)
  Local Notation item := (agg_result K * (list nat * mat K))%type.
  Definition good_item (lambda eps : K) (it : item) : Prop :=
    let '(c, (cells, M)) := it in
    patch_ok F cells (ag_map c) M /\ ag_diag c = map (fun k => ent M k k) (seq 0 (length (ag_map c))) /\
    sized_all (nr M) (ag_evecs c) /\ approximates_up_to M (rows_matrix (nr M) (ag_evecs c)) lambda eps.

  (** What the loop of the agglomerates can leave, whatever the eigensolver does with the scratch data. *)
  Lemma collected_any : forall (solve : nat -> scratch K -> outcome (agg_result K)) keep n ns nb d, collect solve keep n ns nb d ->
    exists acs : list (nat * agg_result K), map fst acs = seq 1 n /\ d = data_of (map snd acs) /\
      forall a c, In (a, c) acs -> 1 <= a <= n /\ exists sc, solve a sc = Ok c.
  Proof.
    intros solve keep n ns nb d C. unfold collect in C.
    apply (@ws_run_rel _ _ _ _ _ _ _ (fun a c => 1 <= a <= n /\ exists sc, solve a sc = Ok c) (fun _ => True)) in C; auto.
    - destruct C as (cs & F2 & E). change (@data_empty K) with (data_of ([] : list (agg_result K))) in E. rewrite copy_all_data in E. cbn [app] in E. injection E as <-.
      unfold agglomerate_ids in F2. revert F2. generalize (seq 1 n) as l. intros l F2.
      assert (X : exists acs : list (nat * agg_result K), map fst acs = l /\ map snd acs = cs /\ forall a c, In (a, c) acs -> 1 <= a <= n /\ exists sc, solve a sc = Ok c).
      { induction F2 as [|a c l cs H1 H2 (acs & I1 & I2 & I3)]; [exists []; split; [auto|split; [auto|intros ? ? []]]|].
        exists ((a, c) :: acs). cbn [map fst snd]. split; [congruence|]. split; [congruence|]. intros a' c' [Q|Q]; [injection Q as <- <-; exact H1|apply I3; exact Q]. }
      destruct X as (acs & X1 & X2 & X3). exists acs. rewrite X2. auto.
    - intros it sc c sc' c' Hin _ Hw. unfold local_worker in Hw. destruct (solve it sc) as [r| | | |] eqn:E; cbn [bind] in Hw; try discriminate.
      inversion Hw; subst. unfold agglomerate_ids in Hin. apply in_seq in Hin. split; [|exact I]. split; [lia|]. exists sc. exact E.
  Qed.

  Lemma rank_items : forall eig agg p lambda eps rk d, pt_find p ["eigensolver"%string] = Some eig -> pt_find p ["agglomeration"%string] = Some agg ->
    rank_ready debug F D rk -> rrun eig agg rk d ->
    kept_represent (agglomerates rk) (problem rk) (rk_evaluate rk) (rk_mesh rk) p lambda eps ->
    exists its : list item, d = data_of (map fst its) /\ Forall (good_item lambda eps) its /\
      (forall f : nat -> K, lsum (map (fun it : item => lsum (map f (fst (snd it)))) its) = lsum (map f (map (rk_number rk) (owned_cells (rk_mesh rk))))) /\
      gd_ok D (map fst its) (rk_gd rk).
  Proof.
    intros eig agg p lambda eps rk d P1 P2 (Hm & Hp & Hev & Hgd) (ui & n & ns & nb & BA & C) HD.
    set (m := rk_mesh rk) in *.
    destruct (@agglomerates_ids parse_unsigned (rk_partition rk) debug dim3 m Hm Hp agg ui n BA) as (Lu & Hid).
    pose proof (@ghosts_zero rk agg ui n Hm Hp BA) as GZ. fold m in GZ.
    destruct (collected_any C) as (acs & A1 & -> & A3).
    assert (NA : forall a, NoDup (agg_cells m ui a)) by (intros; apply NoDup_filter, seq_NoDup).
    assert (IA : forall a, incl (agg_cells m ui a) (owned_cells m)).
    { intros a c Hc. apply filter_In in Hc. destruct Hc as (H1 & H2). apply andb_prop in H2. apply filter_In. tauto. }
    set (Mof := fun a => snd (rk_evaluate rk (agg_cells m ui a))).
    set (mkitem := fun ac : nat * agg_result K => (snd ac, (map (rk_number rk) (agg_cells m ui (fst ac)), Mof (fst ac))) : item).
    exists (map mkitem acs). assert (FM : map fst (map mkitem acs) = map snd acs) by (rewrite map_map; reflexivity).
    assert (GI : forall ac, In ac acs -> good_item lambda eps (mkitem ac)).
    { intros [a c] Ia. destruct (A3 a c Ia) as (Ha & sc & E). pose proof (HD eig agg ui n a sc c P1 P2 BA Ha E) as (D1 & D2). fold m in D1, D2. fold (Mof a) in D1, D2.
      unfold rank_problem, local_problem in E. fold m in E. rewrite own_patch in E by (auto; lia). fold (Mof a) in E.
      destruct (@C36_result K _ _ _ _ _ _ _ _ _ _ _ _ _ _ _ _ _ _ _ E) as (_ & _ & _ & _ & _ & _ & _ & HDg & HM).
      assert (PO := Hev _ (NA a) (IA a)). rewrite <- HM in PO. fold (Mof a) in PO. change (good_item lambda eps (c, (map (rk_number rk) (agg_cells m ui a), Mof a))). split; [exact PO|].
      split; [rewrite HDg; destruct PO as (_ & Q2 & _); rewrite Q2; reflexivity|]. split; [exact D1|exact D2]. }
    split; [rewrite FM; reflexivity|]. split; [apply Forall_forall; intros it I; apply in_map_iff in I; destruct I as (a & <- & Ia); auto|]. split.
    - intros f. rewrite !map_map. cbn [mkitem fst snd]. rewrite <- (@sum_over_owned (fun c => f (rk_number rk c)) m ui n Hid). rewrite <- A1, map_map.
      apply lsum_map_ext. intros a _. rewrite map_map. reflexivity.
    - rewrite FM. intros c Ic g Ig. apply in_map_iff in Ic. destruct Ic as (ac & <- & Ia). destruct (GI ac Ia) as ((_ & _ & _ & Q4 & _) & _).
      apply Q4 in Ig. destruct Ig as (k & Ik & Ig). apply in_map_iff in Ik. destruct Ik as (c & <- & Ic). apply (Hgd c); auto. apply (IA (fst ac)). exact Ic.
  Qed.

  Lemma all_items : forall eig agg p lambda eps ranks ds, pt_find p ["eigensolver"%string] = Some eig -> pt_find p ["agglomeration"%string] = Some agg ->
    Forall2 (rrun eig agg) ranks ds ->
    (forall rk, In rk ranks -> rank_ready debug F D rk /\ kept_represent (agglomerates rk) (problem rk) (rk_evaluate rk) (rk_mesh rk) p lambda eps) ->
    exists itss : list (list item), ds = map (fun its => data_of (map fst its)) itss /\ Forall (good_item lambda eps) (concat itss) /\
      (forall f : nat -> K, lsum (map (fun it : item => lsum (map f (fst (snd it)))) (concat itss)) =
        lsum (map f (flat_map (fun rk => map (rk_number rk) (owned_cells (rk_mesh rk))) ranks))) /\
      Forall2 (fun its rk => gd_ok D (map fst its) (rk_gd rk)) itss ranks.
  Proof.
    intros eig agg p lambda eps ranks ds P1 P2 H. induction H as [|rk d ranks ds R1 R2 IH]; intros HR.
    - exists []. cbn. split; [auto|]. split; [constructor|]. split; [auto|constructor].
    - destruct (HR rk (or_introl eq_refl)) as (G1 & G2). destruct (@rank_items eig agg p lambda eps rk d P1 P2 G1 R1 G2) as (its & E1 & E2 & E3 & E4).
      destruct IH as (itss & I1 & I2 & I3 & I4); [intros; apply HR; right; auto|]. exists (its :: itss). cbn [map concat flat_map]. split; [congruence|].
      split; [apply Forall_app; auto|]. split; [|constructor; auto]. intros f. rewrite !map_app, !lsum_app, E3, I3. reflexivity.
  Qed.
  Lemma ready : forall rk, rank_ok debug F D rk -> rank_ready debug F D rk.
  Proof. intros rk (H1 & H2 & H3 & _ & H5). split; [exact H1|]. split; [exact H2|]. split; [exact H3|exact H5]. Qed.

  (** LAPACK: eigenvalues that are all found and the largest of them left out. *)
  Lemma discarded_represents : forall p lambda rk, lapack_ok lapack -> lapack_complete lapack -> rank_ok debug F D rk ->
    (forall eig, pt_find p ["eigensolver"%string] = Some eig -> eigensolver_matrix debug eig = Ok ELapack) ->
    discarded_above (agglomerates rk) (problem rk) (rk_evaluate rk) (rk_mesh rk) p lambda ->
    kept_represent (agglomerates rk) (problem rk) (rk_evaluate rk) (rk_mesh rk) p lambda 0%K.
  Proof.
    intros p lambda rk Hlapack Hcomplete (Hm & Hp & Hev & Hcon & Hgd) EL HD eig agg ui n a sc c P1 P2 BA Ha E.
    specialize (EL eig P1). unfold rank_problem in E. rewrite (@problem_scratch K _ _ _ _ _ _ _ _ _ _ _ _ _ _ _ _ _ _ EL) in E.
    pose proof (HD eig agg ui n a c P1 P2 BA Ha E) as (D1 & D2). cbv zeta. set (m := rk_mesh rk) in *.
    pose proof (@ghosts_zero rk agg ui n Hm Hp BA) as GZ. fold m in GZ.
    assert (NA : NoDup (agg_cells m ui a)) by (intros; apply NoDup_filter, seq_NoDup).
    assert (IA : incl (agg_cells m ui a) (owned_cells m)).
    { intros k Hk. apply filter_In in Hk. destruct Hk as (H1 & H2). apply andb_prop in H2. apply filter_In. tauto. }
    set (M := snd (rk_evaluate rk (agg_cells m ui a))) in *.
    assert (SY : symmetric_matrix M).
    { unfold M. destruct (Hev _ NA IA) as (_ & Q1 & Q2 & _ & Q3). split; [red; congruence|]. intros i j Hi Hj. rewrite !Q3 by lia. apply lsum_map_ext. intros k _. apply Hsym. }
    unfold local_problem in E. rewrite own_patch, Hcon in E by (auto; lia). fold M in E.
    assert (DC : decoupled M []) by (intros i j []).
    destruct (@C36_lapack K _ _ _ _ _ _ _ _ _ _ _ _ _ _ _ _ _ _ _ Hlapack SY DC EL E) as (L1 & L2 & O & _ & HE').
    assert (PO := Hev _ NA IA). assert (PS := @patch_psd K F Hfem _ _ _ Hpsd PO). fold M in PS.
    split; [apply O|]. apply (@up_to_0 K _ _ _ 0%K); auto. apply exact_represents with (mus := ag_evals c); auto.
    - intros i Hi. apply HE'. rewrite L2 in Hi. exact Hi.
    - apply (@C86_gap_of_lapack K _ _ _ _ _ _ _ _ _ _ _ _ _ _ _ _ _ _ lambda Hlapack Hcomplete SY PS EL E); auto.
  Qed.

  Lemma total_rows : forall itss : list (list item),
    n_total_rows (rows_per_proc (map (fun its => data_of (map fst its)) itss)) = length (rows_of (concat (map (map fst) itss))).
  Proof.
    intros itss. unfold n_total_rows, rows_per_proc. rewrite map_map. induction itss as [|its l IH]; [reflexivity|]. cbn [map list_sum concat fold_right] in *.
    unfold rows_of in *. rewrite flat_map_app, app_length. f_equal; [|exact IH]. cbn [data_of da_evecs]. apply (@flat_evecs_length K (map fst its)).
  Qed.

  (** The coarse space of all ranks inherits the quality of the local vectors. *)
  Lemma par_coarse : forall m ranks p R lambda eps kappa, A = assembled F m -> ranks_cover (n_cells m) ranks -> (forall rk, In rk ranks -> rank_ready debug F D rk) ->
    spd (f_ndofs F) (mulvec A) -> par_restrictor_run parse_unsigned parse_double lobpcg fsqrt dstev tol2 rand std_sort lapack arpack debug dim3 (f_ndofs F) ranks p R -> fle 0%K lambda -> fle 0%K eps -> cells_per_dof F (n_cells m) kappa ->
    (forall rk, In rk ranks -> kept_represent (agglomerates rk) (problem rk) (rk_evaluate rk) (rk_mesh rk) p lambda eps) ->
    approximates_up_to A R lambda (eps * fnat kappa)%K.
  Proof.
    intros m ranks p R lambda eps kappa EA Hcover Hranks Hspd (eig & agg & ds & ms & P1 & P2 & RR & AS & ->) H0 H1 HK HD.
    destruct (@all_items eig agg p lambda eps ranks ds P1 P2 RR) as (itss & -> & GI & SU & GD).
    { intros rk I. split; [apply Hranks; auto|apply HD; auto]. }
    rewrite Forall_forall in GI.
    set (res := fun it : agg_result K * (list nat * mat K) => fst it). set (cells := fun it : agg_result K * (list nat * mat K) => fst (snd it)).
    set (Mof := fun it : agg_result K * (list nat * mat K) => snd (snd it)).
    assert (CC : map res (concat itss) = concat (map (map fst) itss)) by (rewrite concat_map; reflexivity).
    assert (Hok : forall l c, In l (map (map fst) itss) -> In c l -> agg_ok c).
    { intros l c Il Ic. apply in_map_iff in Il. destruct Il as (its & <- & Ii). apply in_map_iff in Ic. destruct Ic as ([c' [cs M]] & <- & It). cbn [fst].
      assert (G := GI _ (proj2 (in_concat _ _) (ex_intro _ its (conj Ii It)))). destruct G as (Q1 & Q2 & Q4 & _).
      split; [rewrite Q2, map_length, seq_length; reflexivity|]. intros e' Ie. unfold sized_all in Q4. rewrite Forall_forall in Q4. rewrite (Q4 e' Ie). apply Q1. }
    set (gds := fun q : nat => match nth_error ranks q with Some rk => rk_gd rk | None => fun _ => None end) in *.
    assert (Hg : forall q l, nth_error (map (map fst) itss) q = Some l -> gd_ok D l (gds q)).
    { unfold gds. clear - GD. induction GD as [|its rk itss ranks' G1 G2 IH]; intros q l E; [destruct q; discriminate|].
      destruct q as [|q]; cbn [nth_error map] in *; [injection E as <-; exact G1|apply IH; exact E]. }
    destruct (@C11_restriction_rows K debug true gds D (map (map fst) itss) Hok Hg) as (ms' & E1 & _ & E2).
    rewrite map_map in E1. rewrite AS in E1. injection E1 as <-. subst A.
    apply (@coarse_up_to K F m _ (concat itss) res cells Mof lambda eps kappa Hfem Hpsd).
    - intros it I. specialize (GI it I). destruct it as [c [cs M]]. exact GI.
    - exact H0.
    - exact H1.
    - exact HK.
    - intros f. etransitivity; [exact (SU f)|]. apply lsum_perm. apply Permutation_map. exact Hcover.
    - intros g Hgn. apply (@diag_pos K (assembled F m) eq_refl (proj2 Hspd) g Hgn).
    - rewrite CC. apply total_rows.
    - reflexivity.
    - rewrite CC. intros r g ce Hgn Hr. cbn [distributed_matrix ent]. rewrite E2, Hr. reflexivity.
  Qed.

  (** If all local problems of all ranks can be solved, with any scratch data, there is a run. *)
  Lemma par_exists : forall ranks p eig agg lambda eps, (forall rk, In rk ranks -> rank_ready debug F D rk) ->
    pt_find p ["eigensolver"%string] = Some eig -> pt_find p ["agglomeration"%string] = Some agg ->
    (forall rk, In rk ranks -> kept_represent (agglomerates rk) (problem rk) (rk_evaluate rk) (rk_mesh rk) p lambda eps) ->
    (forall rk, In rk ranks -> exists ui n, agglomerates rk agg (repeat 0 (n_cells (rk_mesh rk))) = Ok (ui, n) /\
       forall a, 1 <= a <= n -> exists c, forall sc, problem rk eig ui a sc = Ok c) ->
    exists R, par_restrictor_run parse_unsigned parse_double lobpcg fsqrt dstev tol2 rand std_sort lapack arpack debug dim3 (f_ndofs F) ranks p R.
  Proof.
    intros ranks p eig agg lambda eps Hranks P1 P2 HD HP.
    assert (X : exists ds, Forall2 (rrun eig agg) ranks ds).
    { clear Hranks HD. induction ranks as [|rk l IH]; [exists []; constructor|]. destruct IH as (ds & F2); [intros; apply HP; right; auto|].
      destruct (HP rk (or_introl eq_refl)) as (ui & n & E1 & E2).
      set (res := fun a => match problem rk eig ui a [] with Ok c => c | _ => mkAgg [] [] [] [] end).
      exists (data_of (map res (seq 1 n)) :: ds). constructor; auto. exists ui, n, 1, 1. split; [exact E1|].
      apply collect_exists. intros id sc Hi. destruct (E2 id Hi) as (c & Ec). unfold res. rewrite !Ec. reflexivity. }
    destruct X as (ds & RR).
    destruct (@all_items eig agg p lambda eps ranks ds P1 P2 RR) as (itss & Eds & GI & SU & GD).
    { intros rk I. split; [apply Hranks; auto|apply HD; auto]. }
    rewrite Forall_forall in GI.
    destruct (@C11_restriction_rows K debug true (fun q => match nth_error ranks q with Some rk => rk_gd rk | None => fun _ => None end) D (map (map fst) itss)) as (ms & E1 & _).
    - intros l c Il Ic. apply in_map_iff in Il. destruct Il as (its & <- & Ii). apply in_map_iff in Ic. destruct Ic as ([c' [cs M]] & <- & It). cbn [fst].
      assert (G := GI _ (proj2 (in_concat _ _) (ex_intro _ its (conj Ii It)))). destruct G as (Q1 & Q2 & Q4 & _).
      split; [rewrite Q2, map_length, seq_length; reflexivity|]. intros e' Ie. unfold sized_all in Q4. rewrite Forall_forall in Q4. rewrite (Q4 e' Ie). apply Q1.
    - clear - GD. induction GD as [|its rk itss ranks' G1 G2 IH]; intros q l E; [destruct q; discriminate|].
      destruct q as [|q]; cbn [nth_error map] in *; [injection E as <-; exact G1|apply IH; exact E].
    - eexists. exists eig, agg, ds, ms. split; [exact P1|]. split; [exact P2|]. split; [exact RR|]. split; [|reflexivity]. rewrite Eds. rewrite map_map in E1. exact E1.
  Qed.
  Lemma run_shape : forall ranks p R, par_restrictor_run parse_unsigned parse_double lobpcg fsqrt dstev tol2 rand std_sort lapack arpack debug dim3 (f_ndofs F) ranks p R ->
    pt_find p ["eigensolver"%string] <> None /\ pt_find p ["agglomeration"%string] <> None /\ nc R = f_ndofs F.
  Proof.
    intros ranks p R (eig & agg & ? & ? & Q1 & Q2 & _ & _ & ->). rewrite Q1, Q2. split; [discriminate|]. split; [discriminate|reflexivity].
  Qed.
End PParEnd.

(** The rate of the two-level hierarchy on several ranks, from the quality of the coarse space. *)
Section ParRate.
  Variable K : ofield.
  Add Field KfieldParRate : (f_field K).
  Local Notation vec := (vec K).
  Variables (debug : bool) (A : mat K).
  Hypothesis DA : nr A = nc A.
  Hypothesis Hspd : spd (nc A) (mulvec A).
  Variables (accepts_double : string -> bool) (owned_rows : mat K -> list (list nat)) (mk : ptree -> outcome (mat K * mat K)).
  Variables (ilu : mat K -> vec -> vec) (ml : ml_list -> mat K -> vec -> vec) (eps : K) (te0 : tenv).
  Variables (p : ptree) (R AP : mat K) (theta delta lambda : K).
  Hypothesis Hown : forall M : mat K, nr M = nc M -> distribution (nc M) (owned_rows M).
  Hypothesis Hdef : default_two_level p.
  Hypothesis Hfast : pt_get parse_bool ["fast_ap"%string] false p = false.
  Hypothesis Hmk : mk p = Ok (R, AP).
  Hypothesis PE : pt_find p ["eigensolver"%string] <> None.
  Hypothesis PA : pt_find p ["agglomeration"%string] <> None.
  Hypothesis DR : nc R = nc A.
  Hypothesis Hrank : full_row_rank R.
  Hypothesis Hlam : flt 0%K lambda.
  Hypothesis AX : approximates A R lambda.
  Hypothesis Htheta : fle 0%K theta.
  Hypothesis Hdelta : fle 0%K delta.
  Hypothesis Hdelta1 : fle delta 1%K.
  Hypothesis Hbound : forall own, In own (owned_rows A) -> fle (theta * triangle_bound (local_block A own))%K 1%K.
  Hypothesis Hweak : weakly_coupled (owned_rows A) A delta.
  Local Notation rho := (1 - delta * theta * lambda)%K.
  Local Notation built h := (exists s l, construct (par_helpers accepts_double owned_rows A mk ilu ml) eps te0 debug (Ok tt) (Some p) None = (Ok h, s, l)).

  Lemma par_rate : exists h, built h /\
    forall te x xs l, open_sections l = [] -> length x = nc A -> length xs = nc A ->
      exists y l', hierarchy_vmult te h x (mulvec A xs) l = (Ok y, l') /\ open_sections l' = [] /\ length y = nc A /\
        fle (energy (mulvec A) (vsub xs y)) (rho * rho * energy (mulvec A) (vsub xs (if c_prec p then vzero (nc A) else x)))%K.
  Proof.
    destruct Hdef as (D1 & D2 & D3 & D4).
    assert (SK : dealii_smoother_kind p = Ok KSsor).
    { unfold dealii_smoother_kind. rewrite get_string_text. apply lower_ci in D4; [|apply no_upperb_ok; reflexivity]. rewrite D4. reflexivity. }
    assert (CK : dealii_solver_kind accepts_double p = Ok KDirect).
    { destruct (C38_host_solver accepts_double p) as [(_ & E)|[(Q & _)|(Q & _)]]; auto; [|contradiction].
      exfalso. apply lower_ci in Q; [|apply no_upperb_ok; reflexivity]. apply lower_ci in D3; [|apply no_upperb_ok; reflexivity]. congruence. }
    pose proof (Hown A DA) as HO.
    assert (LK : linear (nc A) (nc A) (par_ssor_vmult (owned_rows A) A)) by (apply par_linear; exact HO).
    assert (SM := @par_smooths K A (owned_rows A) DA HO Hspd theta delta Htheta Hdelta Hdelta1 Hbound Hweak).
    destruct (@par_two_level K accepts_double owned_rows A mk ilu ml eps te0 debug p KSsor R AP DA Hspd D2 SK LK CK PE PA Hmk DR Hrank) as (h & s & l & CC & V).
    { rewrite Hfast. discriminate. }
    exists h. split; [exists s, l; exact CC|]. intros te x xs l0 Hl Lx Lxs.
    assert (Lb : length (mulvec A xs) = nc A) by (rewrite mulvec_length; exact DA).
    destruct (V te x (mulvec A xs) l0 Hl Lx Lb) as (y & l' & E & O & T).
    exists y, l'. split; [exact E|]. split; [exact O|].
    apply (@two_grid_rate K A R (par_ssor_vmult (owned_rows A) A) (delta * theta)%K lambda (c_steps p) (mulvec A xs) (if c_prec p then vzero (nc A) else x) y xs); auto.
    - apply (@par_sym K A (owned_rows A) DA HO Hspd).
    - apply fle_mul; auto.
    - destruct (c_prec p); [apply vzero_length|exact Lx].
  Qed.
End ParRate.
