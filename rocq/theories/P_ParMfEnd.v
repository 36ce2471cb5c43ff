(** The coarse space built by several ranks with matrix-free evaluators. *)
From Coq Require Import String List Arith ZArith Bool Lia Field Permutation.
From Verif Require Import Base OField Mat LinAlg M_Ptree S_Ptree P_Ptree M_Agglo S_Agglo P_Agglo P_Agglo2 M_WorkStream P_WorkStream M_Restr S_Restr P_Restr P_Restr2
  M_FastAP S_FastAP P_FastAP P_FastAP2 M_Lanczos S_Lanczos P_Lanczos M_Eig S_Eig P_Eig M_Hier S_Hier P_Hier M_HostEnd S_HostEnd P_HostEnd P_Reuse S_Rate P_Rate P_Approx C_Restr P_Amgx3 M_Smoother P_Smoother
  M_ParEnd P_ParEnd M_MfEnd S_MfEnd P_MfEnd M_ParMfEnd S_ParMfEnd.
Import ListNotations.
Set Implicit Arguments.
Open Scope list_scope.
Open Scope nat_scope.

Lemma own_nodup : forall (m : mesh) ui a, NoDup (agg_cells m ui a) /\ incl (agg_cells m ui a) (owned_cells m).
Proof.
  intros m ui a. split; [apply NoDup_filter, seq_NoDup|]. intros c Hc. apply filter_In in Hc. destruct Hc as (H1 & H2). apply andb_prop in H2. apply filter_In. tauto.
Qed.

Section PParMfEnd.
  Variable K : ofield.
  Add Field KfieldParMfEnd : (f_field K).
  Local Notation vec := (vec K).
  Variable parse_unsigned : string -> option Z.
  Variable parse_double : string -> option K.
  Variable lobpcg : (vec -> vec) -> Z -> K -> list vec -> bool * eigensolution K.
  Variable fsqrt : K -> option K.
  Variable dstev : list K -> list K -> outcome (list K * list K).
  Variable tol2 : K.
  Variable rand : nat -> nat -> K.
  Variable std_sort : (nat -> nat -> bool) -> list nat -> list nat.
  Variables (debug dim3 : bool).
  Variable F : fem K.
  Variable fixed : nat -> bool.
  Variable A : mat K.
  Local Notation D := (fun g => ent A g g).
  Local Notation agglomerates := (mf_rank_agglomerates parse_unsigned debug dim3).
  Local Notation problem := (mf_rank_problem parse_double lobpcg fsqrt dstev tol2 rand std_sort debug).
  Local Notation rrun := (mf_rank_run parse_unsigned parse_double lobpcg fsqrt dstev tol2 rand std_sort debug dim3).
  Local Notation run := (par_mf_restrictor_run parse_unsigned parse_double lobpcg fsqrt dstev tol2 rand std_sort debug dim3 (f_ndofs F)).
  Local Notation represent rk := (rank_represent F fixed (agglomerates rk) (problem rk) rk).

  (** The rank as the matrix-based code would see it, for what concerns the agglomerates. *)
  Definition as_rank (rk : mf_rank K) : rank_env K :=
    mkRank (mr_mesh rk) (mr_number rk) (mr_partition rk) (fun cells => (mr_dofs rk cells, rank_patch F rk cells)) (mr_constrained rk) (mr_draws rk) (mr_gd rk).
  Lemma mf_ghosts_zero : forall rk agg ui n, mf_rank_ok F fixed debug A rk -> agglomerates rk agg (repeat 0 (n_cells (mr_mesh rk))) = Ok (ui, n) ->
    forall c, owned (mr_mesh rk) c = false -> nth c ui 0 = 0.
  Proof. intros rk agg ui n (Hm & Hp & _) BA. exact (@ghosts_zero K parse_unsigned debug dim3 (as_rank rk) agg ui n Hm Hp BA). Qed.

  (** What is known of one agglomerate: result, diagonal read by its rank, cells in the numbering of the whole mesh. *)
  Record item := mkItem { it_res : agg_result K; it_cells : list nat }.
  Definition it_patch (it : item) : mat K := patch_matrix F (it_cells it) (ag_map (it_res it)).
  (** The result with the diagonal of the patch matrix. *)
  Definition it_right (it : item) : agg_result K :=
    mkAgg (ag_evals (it_res it)) (ag_evecs (it_res it)) (map (fun k => ent (it_patch it) k k) (seq 0 (length (ag_map (it_res it))))) (ag_map (it_res it)).
  Definition good_item (lambda eps : K) (it : item) : Prop :=
    let c := it_res it in
    patch_ok F (it_cells it) (ag_map c) (it_patch it) /\ length (ag_diag c) = length (ag_map c) /\
    (forall k, k < length (ag_map c) -> fixed (nth k (ag_map c) 0) = false -> nth k (ag_diag c) 0%K = ent (it_patch it) k k) /\
    sized_all (length (ag_map c)) (ag_evecs c) /\ (forall e, In e (ag_evecs c) -> zero_at_fixed fixed (ag_map c) e) /\
    approximates_up_to (it_patch it) (rows_matrix (length (ag_map c)) (ag_evecs c)) lambda eps.
  Definition reads (it : item) (gd : nat -> option K) : Prop :=
    forall g, In g (ag_map (it_res it)) -> exists v, gd g = Some v /\ v <> 0%K /\ (fixed g = false -> v = ent A g g).

  Lemma rank_items : forall eig agg p lambda eps rk d, pt_find p ["eigensolver"%string] = Some eig -> pt_find p ["agglomeration"%string] = Some agg ->
    mf_rank_ok F fixed debug A rk -> rrun eig agg rk d -> represent rk p lambda eps ->
    exists its : list item, d = data_of (map it_res its) /\ Forall (good_item lambda eps) its /\
      (forall f : nat -> K, lsum (map (fun it => lsum (map f (it_cells it))) its) = lsum (map f (map (mr_number rk) (owned_cells (mr_mesh rk))))) /\
      Forall (fun it => reads it (mr_gd rk)) its.
  Proof.
    intros eig agg p lambda eps rk d P1 P2 OK (ui & n & ns & nb & BA & C) HD. pose proof (@mf_ghosts_zero rk agg ui n OK BA) as GZ. destruct OK as (Hm & Hp & Hev & Hgd).
    set (m := mr_mesh rk) in *.
    destruct (@agglomerates_ids parse_unsigned (mr_partition rk) debug dim3 m Hm Hp agg ui n BA) as (Lu & Hid).
    destruct (collected_any C) as (acs & A1 & -> & A3).
    set (mkitem := fun ac : nat * agg_result K => mkItem (snd ac) (map (mr_number rk) (agg_cells m ui (fst ac)))).
    exists (map mkitem acs). assert (FM : map it_res (map mkitem acs) = map snd acs) by (rewrite map_map; reflexivity).
    assert (GI : forall ac, In ac acs -> good_item lambda eps (mkitem ac) /\ reads (mkitem ac) (mr_gd rk)).
    { intros [a c] Ia. destruct (A3 a c Ia) as (Ha & sc & E). pose proof (HD eig agg ui n a sc c P1 P2 BA Ha E) as (D1 & D2 & D3). fold m in D1, D2, D3.
      unfold mf_rank_problem, mf_local_problem, compute_local_eigenvectors_mf in E. fold m in E. rewrite own_patch in E by (auto; lia).
      destruct (own_nodup m ui a) as (NA & IA). destruct (Hev _ NA IA) as (Q1 & Q2 & _ & _ & Q5 & Q6). cbv zeta in *. set (cells := agg_cells m ui a) in *.
      apply bind_inv in E. destruct E as (kind & _ & E). apply bind_inv in E. destruct E as (r & _ & E).
      assert (M1 : ag_map c = mr_dofs rk cells) by (injection E as <-; reflexivity). assert (M2 : ag_diag c = mr_diag rk cells) by (injection E as <-; reflexivity). clear E.
      assert (EM : it_patch (mkitem (a, c)) = rank_patch F rk cells) by (unfold it_patch, mkitem; cbn [it_res it_cells fst snd]; rewrite M1; reflexivity).
      assert (X : forall g, In g (mr_dofs rk cells) <-> exists k, In k (map (mr_number rk) cells) /\ In g (f_cd F k)).
      { intros g. rewrite Q2. split; [intros (k & I1 & I2); exists (mr_number rk k); split; [apply in_map; exact I1|exact I2]|].
        intros (k & I1 & I2). apply in_map_iff in I1. destruct I1 as (k0 & <- & I1). exists k0. auto. }
      split.
      - unfold good_item. rewrite EM. cbn [mkitem it_res it_cells fst snd]. rewrite M1, M2. fold cells.
        split; [|split; [exact Q5|split; [exact Q6|split; [exact D1|split; [exact D2|exact D3]]]]].
        split; [exact Q1|]. split; [reflexivity|]. split; [reflexivity|]. split; [exact X|]. intros k l _ _. reflexivity.
      - intros g. cbn [mkitem it_res snd]. rewrite M1, Q2. intros (k & I1 & I2). apply (Hgd k); auto. }
    split; [rewrite FM; reflexivity|].
    split; [apply Forall_forall; intros it I; apply in_map_iff in I; destruct I as (ac & <- & Ia); apply GI; exact Ia|].
    split; [|apply Forall_forall; intros it I; apply in_map_iff in I; destruct I as (ac & <- & Ia); apply GI; exact Ia].
    intros f. rewrite !map_map. cbn [mkitem it_cells]. rewrite <- (@sum_over_owned K (fun c => f (mr_number rk c)) m ui n Hid). rewrite <- A1, map_map.
    apply lsum_map_ext. intros a _. rewrite map_map. reflexivity.
  Qed.
  Lemma all_items : forall eig agg p lambda eps ranks ds, pt_find p ["eigensolver"%string] = Some eig -> pt_find p ["agglomeration"%string] = Some agg ->
    Forall2 (rrun eig agg) ranks ds -> (forall rk, In rk ranks -> mf_rank_ok F fixed debug A rk /\ represent rk p lambda eps) ->
    exists itss : list (list item), ds = map (fun its => data_of (map it_res its)) itss /\ Forall (good_item lambda eps) (concat itss) /\
      (forall f : nat -> K, lsum (map (fun it => lsum (map f (it_cells it))) (concat itss)) =
        lsum (map f (flat_map (fun rk => map (mr_number rk) (owned_cells (mr_mesh rk))) ranks))) /\
      Forall2 (fun its rk => Forall (fun it => reads it (mr_gd rk)) its) itss ranks.
  Proof.
    intros eig agg p lambda eps ranks ds P1 P2 H. induction H as [|rk d ranks ds R1 R2 IH]; intros HR.
    - exists []. cbn. split; [auto|]. split; [constructor|]. split; [auto|constructor].
    - destruct (HR rk (or_introl eq_refl)) as (G1 & G2). destruct (@rank_items eig agg p lambda eps rk d P1 P2 G1 R1 G2) as (its & E1 & E2 & E3 & E4).
      destruct IH as (itss & I1 & I2 & I3 & I4); [intros; apply HR; right; auto|]. exists (its :: itss). cbn [map concat flat_map]. split; [congruence|].
      split; [apply Forall_app; auto|]. split; [|constructor; auto]. intros f. rewrite !map_app, !lsum_app, E3, I3. reflexivity.
  Qed.

  (** The rows of one rank are those of the right diagonals. *)
  Definition read (gd : nat -> option K) (g : nat) : K := match gd g with Some v => v | None => 0%K end.
  Lemma right_ok : forall lambda eps it, good_item lambda eps it -> agg_ok (it_res it) /\ agg_ok (it_right it).
  Proof.
    intros lambda eps it (_ & Q2 & _ & Q4 & _). unfold sized_all in Q4. rewrite Forall_forall in Q4. split; (split; [|intros e Ie; apply Q4; exact Ie]); [exact Q2|].
    cbn [it_right ag_diag ag_map]. rewrite map_length, seq_length. reflexivity.
  Qed.
  Lemma right_rank : forall lambda eps its gd counts q, Forall (good_item lambda eps) its -> Forall (fun it => reads it gd) its ->
    compute_restriction debug true counts q gd (data_of (map it_res its)) = compute_restriction debug true counts q (fun g => Some (ent A g g)) (data_of (map it_right its)).
  Proof.
    intros lambda eps its gd counts q G Rd. rewrite Forall_forall in G, Rd.
    rewrite (@compute_restriction_spec K debug true counts q gd (read gd) (map it_res its)).
    - rewrite (@compute_restriction_spec K debug true counts q (fun g => Some (ent A g g)) D (map it_right its)).
      + f_equal. pose proof (@rows_step_same K true (read gd) D (map (fun it => (it_res it, it_right it)) its) (n_rows_before counts q) (mkR [] [] [])) as Q.
        rewrite !map_map in Q. cbn [fst snd] in Q. change (fun x => it_right x) with it_right in Q. change (fun x => it_res x) with it_res in Q.
        apply Q. intros c c' I. apply in_map_iff in I. destruct I as (it & E & Ia). injection E as <- <-. split; [reflexivity|]. split; [reflexivity|].
        intros e Ie j Hj. destruct (G it Ia) as (_ & _ & Q3 & _ & Q5 & _). destruct (Rd it Ia _ (nth_In _ 0 Hj)) as (v & Ev & _ & Hv).
        unfold wgt, dlt. cbn [it_right ag_map ag_diag]. destruct (fixed (nth j (ag_map (it_res it)) 0)) eqn:Fx.
        * rewrite (Q5 e Ie j Hj Fx). split; ring.
        * unfold read. rewrite Ev, (Hv eq_refl). rewrite nth_map_K by (rewrite seq_length; exact Hj). rewrite seq_nth by exact Hj. cbn [Nat.add]. rewrite (Q3 j Hj Fx). auto.
      + intros c Ic. apply in_map_iff in Ic. destruct Ic as (it & <- & Ia). apply (right_ok (G it Ia)).
      + intros c Ic g Ig. reflexivity.
    - intros c Ic. apply in_map_iff in Ic. destruct Ic as (it & <- & Ia). apply (right_ok (G it Ia)).
    - intros c Ic g Ig. apply in_map_iff in Ic. destruct Ic as (it & <- & Ia). destruct (Rd it Ia g Ig) as (v & Ev & _). unfold read. rewrite Ev. reflexivity.
  Qed.
  Lemma right_counts : forall itss : list (list item),
    rows_per_proc (map (fun its => data_of (map it_res its)) itss) = rows_per_proc (map (fun its => data_of (map it_right its)) itss).
  Proof.
    intros itss. unfold rows_per_proc. rewrite !map_map. apply map_ext. intros its. cbn [data_of da_evecs]. f_equal. induction its as [|it its IH]; [reflexivity|]. cbn [map flat_map]. rewrite IH. reflexivity.
  Qed.
  (** And so is the whole matrix. *)
  Lemma right_assemble : forall lambda eps (ranks : list (mf_rank K)) itss counts q, Forall (good_item lambda eps) (concat itss) ->
    Forall2 (fun its rk => Forall (fun it => reads it (mr_gd rk)) its) itss ranks ->
    forall gds, (forall i rk, nth_error ranks i = Some rk -> gds (q + i) = mr_gd rk) ->
    assemble_from debug true counts gds q (map (fun its => data_of (map it_res its)) itss) =
    assemble_from debug true counts (fun _ g => Some (ent A g g)) q (map (fun its => data_of (map it_right its)) itss).
  Proof.
    intros lambda eps ranks itss counts q G H. revert q. induction H as [|its rk itss ranks H1 H2 IH]; intros q gds Hg; [reflexivity|]. cbn [map assemble_from concat] in *.
    apply Forall_app in G. destruct G as (G1 & G2). specialize (IH G2). assert (E := Hg 0 rk eq_refl). rewrite Nat.add_0_r in E. rewrite E.
    rewrite (@right_rank lambda eps its (mr_gd rk) counts q G1 H1). rewrite (IH (S q) gds); [reflexivity|]. intros i rk' Hi. rewrite <- (Hg (S i) rk' Hi). f_equal. lia.
  Qed.
  Lemma right_run : forall lambda eps (ranks : list (mf_rank K)) itss, Forall (good_item lambda eps) (concat itss) ->
    Forall2 (fun its rk => Forall (fun it => reads it (mr_gd rk)) its) itss ranks ->
    exists ms, assemble debug true (fun q => match nth_error ranks q with Some rk => mr_gd rk | None => fun _ => None end) (map (fun its => data_of (map it_res its)) itss) = Ok ms /\
      forall r g, lsum (map (fun m => spm_el (r_R m) r g) ms) =
        match nth_error (rows_of (map it_right (concat itss))) r with Some ce => r_entry D ce g | None => 0%K end.
  Proof.
    intros lambda eps ranks itss G H. unfold assemble. rewrite (@right_assemble lambda eps ranks itss _ 0 G H) by (intros i rk Hi; cbn [Nat.add]; rewrite Hi; reflexivity).
    rewrite right_counts. rewrite concat_map.
    destruct (@C11_restriction_rows K debug true (fun _ g => Some (ent A g g)) D (map (map it_right) itss)) as (ms & E1 & _ & E2).
    - intros l c Il Ic. apply in_map_iff in Il. destruct Il as (its & <- & Ii). apply in_map_iff in Ic. destruct Ic as (it & <- & It).
      rewrite Forall_forall in G. apply (right_ok (G it (proj2 (in_concat _ _) (ex_intro _ its (conj Ii It))))).
    - intros q l _ c Ic g Ig. reflexivity.
    - exists ms. split; [|exact E2]. unfold assemble in E1. rewrite map_map in E1. exact E1.
  Qed.
  Lemma right_rows : forall itss : list (list item),
    n_total_rows (rows_per_proc (map (fun its => data_of (map it_res its)) itss)) = length (rows_of (map it_right (concat itss))).
  Proof.
    intros itss. rewrite right_counts. unfold n_total_rows, rows_per_proc. rewrite map_map. induction itss as [|its l IH]; [reflexivity|]. cbn [map list_sum concat fold_right] in *.
    rewrite map_app. unfold rows_of in *. rewrite flat_map_app, app_length. f_equal; [|exact IH]. cbn [data_of da_evecs]. apply (@flat_evecs_length K (map it_right its)).
  Qed.

  Hypothesis Hfem : fem_ok F.
  Hypothesis Hpsd : forall c u, fle 0%K (cell_energy F c u).

  Lemma par_mf_coarse : forall m ranks p R lambda eps kappa, A = assembled F m -> mf_ranks_cover (n_cells m) ranks -> (forall rk, In rk ranks -> mf_rank_ok F fixed debug A rk) ->
    spd (f_ndofs F) (mulvec A) -> run ranks p R -> fle 0%K lambda -> fle 0%K eps -> cells_per_dof F (n_cells m) kappa ->
    (forall rk, In rk ranks -> represent rk p lambda eps) -> approximates_up_to A R lambda (eps * fnat kappa)%K.
  Proof.
    intros m ranks p R lambda eps kappa EA Hcover Hranks Hspd (eig & agg & ds & ms & P1 & P2 & RR & AS & ->) H0 H1 HK HD.
    destruct (@all_items eig agg p lambda eps ranks ds P1 P2 RR) as (itss & -> & GI & SU & GD).
    { intros rk I. split; [apply Hranks; auto|apply HD; auto]. }
    destruct (@right_run lambda eps ranks itss GI GD) as (ms' & E1 & E2). rewrite AS in E1. injection E1 as <-. rewrite Forall_forall in GI. rewrite EA in Hspd |- *.
    apply (@coarse_up_to K F m _ (concat itss) it_right it_cells it_patch lambda eps kappa Hfem Hpsd).
    - intros it I. destruct (GI it I) as (Q1 & Q2 & Q3 & Q4 & Q5 & Q6). split; [exact Q1|]. split; [reflexivity|]. split; [exact Q4|exact Q6].
    - exact H0.
    - exact H1.
    - exact HK.
    - intros f. etransitivity; [exact (SU f)|]. apply lsum_perm. apply Permutation_map. exact Hcover.
    - intros g Hgn. apply (@diag_pos K (assembled F m) eq_refl (proj2 Hspd) g Hgn).
    - apply right_rows.
    - reflexivity.
    - intros r g ce Hgn Hr. cbn [distributed_matrix ent]. rewrite E2, Hr, <- EA. reflexivity.
  Qed.
  (** If all local problems of all ranks can be solved, with any scratch data, there is a run. *)
  Lemma par_mf_exists : forall ranks p eig agg lambda eps, (forall rk, In rk ranks -> mf_rank_ok F fixed debug A rk) ->
    pt_find p ["eigensolver"%string] = Some eig -> pt_find p ["agglomeration"%string] = Some agg ->
    (forall rk, In rk ranks -> represent rk p lambda eps) ->
    (forall rk, In rk ranks -> exists ui n, agglomerates rk agg (repeat 0 (n_cells (mr_mesh rk))) = Ok (ui, n) /\
       forall a, 1 <= a <= n -> exists c, forall sc, problem rk eig ui a sc = Ok c) ->
    exists R, run ranks p R.
  Proof.
    intros ranks p eig agg lambda eps Hranks P1 P2 HD HP.
    assert (X : exists ds, Forall2 (rrun eig agg) ranks ds).
    { clear Hranks HD. induction ranks as [|rk l IH]; [exists []; constructor|]. destruct IH as (ds & F2); [intros; apply HP; right; auto|].
      destruct (HP rk (or_introl eq_refl)) as (ui & n & E1 & E2).
      set (res := fun a => match problem rk eig ui a [] with Ok c => c | _ => mkAgg [] [] [] [] end).
      exists (data_of (map res (seq 1 n)) :: ds). constructor; auto. exists ui, n, 1, 1. split; [exact E1|].
      apply collect_exists. intros id sc Hi. destruct (E2 id Hi) as (c & Ec). unfold res. rewrite !Ec. reflexivity. }
    destruct X as (ds & RR).
    destruct (@all_items eig agg p lambda eps ranks ds P1 P2 RR) as (itss & Eds & GI & SU & GD).
    { intros rk I. split; [apply Hranks; auto|apply HD; auto]. }
    destruct (@right_run lambda eps ranks itss GI GD) as (ms & E1 & _).
    eexists. exists eig, agg, ds, ms. split; [exact P1|]. split; [exact P2|]. split; [exact RR|]. split; [|reflexivity]. rewrite Eds. exact E1.
  Qed.
  Lemma par_mf_shape : forall ranks p R, run ranks p R -> pt_find p ["eigensolver"%string] <> None /\ pt_find p ["agglomeration"%string] <> None /\ nc R = f_ndofs F.
  Proof.
    intros ranks p R (eig & agg & ? & ? & Q1 & Q2 & _ & _ & ->). rewrite Q1, Q2. split; [discriminate|]. split; [discriminate|reflexivity].
  Qed.
End PParMfEnd.
