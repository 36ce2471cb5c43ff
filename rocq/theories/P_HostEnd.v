(** The host preconditioner from the mesh to vmult. *)
From Coq Require Import String List Arith ZArith Bool Lia Field.
From Verif Require Import Base OField Mat LinAlg M_Ptree S_Ptree P_Ptree M_Agglo S_Agglo P_Agglo P_Agglo2 M_WorkStream P_WorkStream M_Restr S_Restr P_Restr P_Restr2
  M_FastAP S_FastAP P_FastAP P_FastAP2 M_Lanczos S_Lanczos M_Eig S_Eig P_Eig M_Hier S_Hier P_Hier P_Hier2 P_HierC P_HierE P_HierS P_HierV M_Smoother P_Smoother M_Host P_Host M_HostEnd S_HostEnd C_Eig C_Restr C_FastAP.
Import ListNotations.
Set Implicit Arguments.
Open Scope list_scope.
Open Scope nat_scope.

Section PHostEnd.
  Variable K : ofield.
  Add Field KfieldHostEnd : (f_field K).
  Local Notation vec := (vec K).

  Lemma step_linear : forall n (fA B : vec -> vec), linear n n fA -> linear n n B -> jointly_linear n (correction_step fA B).
  Proof.
    intros n fA B LA LB s t b c x y Hb Hc Hx Hy. unfold correction_step.
    change (vadd (vscale s x) (vscale t y)) with (lc s x t y). change (vadd (vscale s b) (vscale t c)) with (lc s b t c).
    change (vadd (vscale s (vsub x (B (vsub (fA x) b)))) (vscale t (vsub y (B (vsub (fA y) c))))) with
      (lc s (vsub x (B (vsub (fA x) b))) t (vsub y (B (vsub (fA y) c)))).
    assert (H1 := lin_len LA x Hx). assert (H2 := lin_len LA y Hy).
    rewrite (lin_lc LA) by auto. rewrite (@lc_sub K s _ t _ _ _ n) by auto.
    rewrite (lin_lc LB) by vlen. apply (@lc_sub K s _ t _ _ _ n); auto; apply (lin_len LB); vlen.
  Qed.

  Lemma host_two_level : forall accepts_double (A : mat K) mk ilu ml eps te0 dbg p k R AP,
    nr A = nc A -> spd (nc A) (mulvec A) -> c_levels p = 2%Z ->
    dealii_smoother_kind p = Ok k -> linear (nc A) (nc A) (kind_vmult ilu k A) -> dealii_solver_kind accepts_double p = Ok KDirect ->
    pt_find p ["eigensolver"%string] <> None -> pt_find p ["agglomeration"%string] <> None ->
    mk p = Ok (R, AP) -> nc R = nc A -> full_row_rank R -> (pt_get parse_bool ["fast_ap"%string] false p = true -> meq AP (mmul A (mtrans R))) ->
    exists h s l, construct (host_helpers accepts_double A mk ilu ml) eps te0 dbg (Ok tt) (Some p) None = (Ok h, s, l) /\
      forall te x b l, open_sections l = [] -> length x = nc A -> length b = nc A ->
        exists y l', hierarchy_vmult te h x b l = (Ok y, l') /\ open_sections l' = [] /\
          two_grid A R (kind_vmult ilu k A) (c_steps p) b (if c_prec p then vzero (nc A) else x) y.
  Proof.
    intros ad A mk ilu ml eps te0 dbg p k R AP D S HL SK LB CK PE PA EM DR FR PO.
    set (hh := host_helpers ad A mk ilu ml). set (B := kind_vmult ilu k A) in *.
    set (ap := if pt_get parse_bool ["fast_ap"%string] false p then AP else mmul A (mtrans R)).
    assert (EQ : meq ap (mmul A (mtrans R))).
    { unfold ap. destruct (pt_get parse_bool ["fast_ap"%string] false p); auto. split; [auto|]. split; auto. }
    set (f := correction_step (mulvec A) B).
    set (Ac := mmul R ap).
    pose proof EQ as (M1 & M2 & M3). cbn [nr nc mmul mtrans] in M1, M2.
    assert (E : forall x, mulvec Ac x = mulvec R (mulvec A (mulTvec R x))).
    { intros x. unfold Ac. rewrite mulvec_mmul by congruence. f_equal. unfold mulTvec. rewrite <- mulvec_mmul by (simpl; congruence).
      apply mulvec_meq. exact EQ. }
    assert (D1 : nr Ac = nc Ac) by (unfold Ac; simpl; congruence).
    assert (D2 : nr R = nc Ac) by (unfold Ac; simpl; congruence).
    assert (SC : spd (nc Ac) (mulvec Ac)).
    { split.
      - apply (@galerkin_sym K A R Ac); auto. exact (proj1 S).
      - apply (@galerkin_pd K A R Ac); auto. exact (proj2 S). }
    assert (LA : linear (nc A) (nc A) (mulvec A)) by (pose proof (mulvec_linear A) as X; rewrite D in X; exact X).
    set (C := fun b (_ : vec) => direct_solve Ac b).
    assert (XC : exact_solver Ac C) by (intros b x Hb _; apply direct_exact; auto).
    set (ds := [mkFine (nc A) (mulvec A) f (mulvec R) (mulTvec R)]).
    set (lv := mkLevel (Some (TriOp A)) None (Some (smoother_apply (TriOp A) B)) None).
    eassert (X : exists lc h', built hh eps (c_params p) None (TriOp A) None [lv; lc] h' /\ describes lv [lc] ds (nc Ac) C).
    { unfold c_params. rewrite HL. cbn [Z.eqb Pos.eqb].
      eexists (mkLevel (Some (TriOp Ac)) (Some (TriOp R)) None (Some _)), _. split.
      { unfold lv. eapply built_cons with (h1 := None) (r := TriOp R) (h2 := if pt_get parse_bool ["fast_ap"%string] false p then Some (TriOp AP) else None)
          (ap := TriOp ap) (h3 := if pt_get parse_bool ["fast_ap"%string] false p then Some (TriOp AP) else None).
        - simpl. rewrite SK. simpl. reflexivity.
        - simpl. unfold host_build_restrictor. destruct (pt_find p ["eigensolver"%string]); [|congruence]. destruct (pt_find p ["agglomeration"%string]); [|congruence].
          rewrite EM. destruct (pt_get parse_bool ["fast_ap"%string] false p); reflexivity.
        - unfold product_from, ap. destruct (pt_get parse_bool ["fast_ap"%string] false p); simpl; auto.
          rewrite DR, Nat.eqb_refl. auto.
        - simpl. replace (nc R =? nr ap)%nat with true by (symmetry; apply Nat.eqb_eq; congruence). reflexivity.
        - constructor. simpl. rewrite CK. reflexivity. }
      eapply describes_fine; simpl; [reflexivity| |reflexivity| |reflexivity| | |].
      - pose proof (op_acts_tri A) as X. rewrite D in X. exact X.
      - apply smoother_apply_acts; auto. intros x Hx. exact (lin_len LB x Hx).
      - replace (nc ap) with (nr R) by (symmetry; exact M2). rewrite <- DR. apply op_acts_tri.
      - replace (nc ap) with (nr R) by (symmetry; exact M2). rewrite <- DR. apply opT_acts_tri.
      - eapply describes_coarsest; simpl; [reflexivity|reflexivity|reflexivity|].
        intros b x Hb Hx. cbn [nc mmul] in Hb, Hx. rewrite Hb, Hx. replace (nr R) with (nc ap) by exact M2. rewrite !Nat.eqb_refl. simpl. split; auto.
        exact (proj1 (@direct_exact K Ac D1 SC b Hb)). }
    destruct X as (lc & h' & X4 & X5).
    destruct (@construct_complete K _ hh eps te0 dbg p None (TriOp A) None [lv; lc] h') as (l & EC); [lia|reflexivity|rewrite HL; reflexivity|exact X4|].
    eexists _, _, l. split; [exact EC|].
    intros te x b l0 O Hx Hb.
    destruct (describes_sized X5) as (Sz & LC & _).
    destruct (@vmult_ok K te (mkHierarchy [lv; lc] (c_prec p) (c_steps p)) lv [lc] ds (nc Ac) C eq_refl X5 (or_intror (le_n 2)) x b l0 O Hb Hx) as (t & l' & N & RL & V).
    cbn [h_n_smoothing_steps h_is_preconditioner] in V. change (top_size ds (nc Ac)) with (nc A) in V.
    set (x0 := if c_prec p then vzero (nc A) else x) in *.
    assert (Hx0 : length x0 = nc A) by (unfold x0; destruct (c_prec p); auto; apply vzero_length).
    eexists _, l'. split; [exact V|]. split.
    { rewrite <- (rev_involutive l'), RL. rewrite rev_app_distr, rev_involutive. unfold trace. destruct (t_present te); auto. rewrite open_nested; auto. }
    rewrite cyc_textbook; auto.
    - cbn [textbook_vcycle ds fS fA fR fP top_size]. set (u := iter (c_steps p) (f b) x0).
      assert (Lf : forall w, length w = nc A -> length (f b w) = nc A).
      { intros w Hw. assert (LA' := lin_len LA w Hw). unfold f, correction_step. assert (Lv : length (vsub (mulvec A w) b) = nc A) by vlen. pose proof (lin_len LB _ Lv). vlen. }
      assert (Lu : length u = nc A).
      { unfold u. clear - Lf Hx0. generalize (c_steps p). revert Hx0. generalize x0. intros z Hz n. revert z Hz. induction n as [|n IH]; intros z Hz; simpl; auto. }
      assert (Lr : length (mulvec R (vsub b (mulvec A u))) = nc Ac) by (rewrite mulvec_length; exact D2).
      exists (C (mulvec R (vsub b (mulvec A u))) (vzero (nc Ac))). fold f. fold u.
      destruct (XC _ (vzero (nc Ac)) Lr (vzero_length _ _)) as (Q1 & Q2). split; [congruence|]. split; [rewrite <- E; exact Q2|reflexivity].
    - cbn [linear_levels ds fn fA fS fR fP top_size]. split; [exact LA|]. split; [apply step_linear; auto|]. split; [|split; [|exact I]].
      + rewrite <- DR, <- D2. apply mulvec_linear.
      + rewrite <- DR, <- D2. apply (mulvec_linear (mtrans R)).
    - apply exact_joint; auto.
  Qed.

  (** The coarse correction is determined. *)
  Lemma two_grid_unique : forall (A R : mat K) B k b x0 y y', nr A = nc A -> spd (nc A) (mulvec A) -> nc R = nc A -> full_row_rank R ->
    two_grid A R B k b x0 y -> two_grid A R B k b x0 y' -> y = y'.
  Proof.
    intros A R B k b x0 y y' D S DR FR (c & L & E & ->) (c' & L' & E' & ->). do 2 f_equal.
    set (Ac := mmul R (mmul A (mtrans R))).
    assert (EA : forall x, mulvec Ac x = mulvec R (mulvec A (mulTvec R x))).
    { intros x. unfold Ac. rewrite mulvec_mmul by (simpl; congruence). rewrite mulvec_mmul by (simpl; congruence). reflexivity. }
    assert (SC : spd (nc Ac) (mulvec Ac)).
    { split.
      - apply (@galerkin_sym K A R Ac); auto. exact (proj1 S).
      - apply (@galerkin_pd K A R Ac); auto. exact (proj2 S). }
    assert (X : c = c'); [|rewrite X; reflexivity].
    apply (@spd_inj2 K (nr R) (mulvec Ac)); auto.
    - apply (mulvec_linear Ac).
    - rewrite !EA. congruence.
  Qed.

  (** Parameters other than "fast_ap" are not affected by setting it. *)
  Lemma put_fast_find : forall v p k q, k <> "fast_ap"%string -> pt_find (pt_put ["fast_ap"%string] v p) (k :: q) = pt_find p (k :: q).
  Proof.
    intros v p k q N. apply find_put_other; intros (r & X); simpl in X; congruence.
  Qed.
  Lemma put_fast_get : forall p, pt_get parse_bool ["fast_ap"%string] false (pt_put ["fast_ap"%string] "true" p) = true.
  Proof.
    intros p. unfold pt_get. destruct (find_put_same ["fast_ap"%string] "true" p) as (c & E & Ed & _). rewrite E, Ed. reflexivity.
  Qed.
  Lemma put_fast_solver : forall ad v p, dealii_solver_kind ad (pt_put ["fast_ap"%string] v p) = dealii_solver_kind ad p.
  Proof. intros. unfold dealii_solver_kind, get_string, pt_get. rewrite !put_fast_find by discriminate. reflexivity. Qed.
  Lemma put_fast_smoother : forall v p, dealii_smoother_kind (pt_put ["fast_ap"%string] v p) = dealii_smoother_kind p.
  Proof. intros. unfold dealii_smoother_kind, get_string, pt_get. rewrite !put_fast_find by discriminate. reflexivity. Qed.
  Lemma put_fast_values : forall v p, c_levels (pt_put ["fast_ap"%string] v p) = c_levels p /\ c_steps (pt_put ["fast_ap"%string] v p) = c_steps p /\
    c_prec (pt_put ["fast_ap"%string] v p) = c_prec p.
  Proof. intros. unfold c_levels, c_steps, c_prec, pt_get. rewrite !put_fast_find by discriminate. auto. Qed.
End PHostEnd.

Section PHostRuns.
  Variable K : ofield.
  Add Field KfieldHostRuns : (f_field K).
  Local Notation vec := (vec K).
  Variable parse_unsigned : string -> option Z.
  Variable parse_double : string -> option K.
  Variable lobpcg : (vec -> vec) -> Z -> K -> list vec -> bool * eigensolution K.
  Variable fsqrt : K -> option K.
  Variable dstev : list K -> list K -> outcome (list K * list K).
  Variable tol2 : K.
  Variable rand : nat -> nat -> K.
  Variable std_sort : (nat -> nat -> bool) -> list nat -> list nat.
  Variable lapack : mat K -> K -> K -> outcome (list K * list vec).
  Variable arpack : mat K -> K -> vec -> nat -> outcome (list K * list vec).
  Variable partition : partitioner_kind -> list nat.
  Variable conn : nat -> list nat.
  Variable evaluate : list nat -> list nat * mat K.
  Variable constrained : list nat -> list nat.
  Variable draws : nat -> nat -> K.
  Variables (debug dim3 : bool).
  Variable m : mesh.
  Variable F : fem K.
  Variable gd : nat -> option K.
  Local Notation n_dofs := (f_ndofs F).
  Local Notation A := (assembled F m).
  Local Notation run := (restrictor_run parse_unsigned parse_double lobpcg fsqrt dstev tol2 rand std_sort lapack arpack partition conn evaluate constrained draws
    debug dim3 m n_dofs gd (fun g => ent A g g)).
  Local Notation problem := (local_problem parse_double lobpcg fsqrt dstev tol2 rand std_sort lapack arpack evaluate constrained draws debug m).
  Local Notation agglomerates := (build_agglomerates parse_unsigned partition debug dim3 m).
  Local Notation fresh := (repeat 0 (n_cells m)).

  Hypothesis Hmesh : mesh_ok debug m.
  Hypothesis Hpart : forall k, length (owned_cells m) <= length (partition k).
  Hypothesis Hserial : serial m.

  Lemma agglomerates_ids : forall agg ui' n, agglomerates agg fresh = Ok (ui', n) ->
    length ui' = n_cells m /\ forall c, c < n_cells m -> owned m c = true -> 1 <= nth c ui' 0 <= n.
  Proof.
    intros agg ui' n H. unfold build_agglomerates in H.
    assert (Lf : length fresh = n_cells m) by apply repeat_length.
    assert (BC : forall bx by_ bz, build_agglomerates_block debug dim3 m bx by_ bz fresh = Ok (ui', n) ->
      length ui' = n_cells m /\ forall c, c < n_cells m -> owned m c = true -> 1 <= nth c ui' 0 <= n).
    { intros bx by_ bz E. destruct (@block_covers debug dim3 m Hmesh bx by_ bz fresh Lf) as (u & N & E' & C1 & C2 & _). rewrite E in E'. injection E' as <- <-.
      split; [congruence|]. intros c Hc Ho. apply C2; auto. apply nth_repeat. }
    assert (PC : forall k, build_agglomerates_partitioner m (partition k) fresh = Ok (ui', n) ->
      length ui' = n_cells m /\ forall c, c < n_cells m -> owned m c = true -> 1 <= nth c ui' 0 <= n).
    { intros k E. destruct (@partitioner_correct m (partition k) fresh Lf (Hpart k)) as (u & N & E' & C1 & C2 & _). rewrite E in E'. injection E' as <- <-. auto. }
    destruct (partitioner_choice parse_unsigned dim3 agg) as [k| | | |]; cbn [bind] in H; try discriminate.
    destruct k as [z|z|l]; try (eapply PC; exact H).
    destruct l as [|x [|y [|z [|w l]]]]; try discriminate; eapply BC; exact H.
  Qed.

  Hypothesis Hfem : fem_ok F.
  Hypothesis Heval : evaluate_ok F evaluate.
  Hypothesis Hsym : forall c g h, f_cm F c g h = f_cm F c h g.
  Hypothesis Hconstr : forall cells, constrained cells = [].
  Hypothesis Hlapack : lapack_ok lapack.
  Hypothesis Hspd : spd n_dofs (mulvec A).
  Hypothesis Hgd : forall g, g < n_dofs -> gd g = Some (ent A g g).

  Lemma patch_cells : forall ui a, patch_by_id (n_cells m) a ui = agg_cells m ui a.
  Proof.
    intros ui a. unfold patch_by_id, agg_cells. apply filter_ext_in. intros c Hc. apply in_seq in Hc. rewrite (Hserial) by lia. reflexivity.
  Qed.
  Lemma agg_cells_nodup : forall ui a, NoDup (agg_cells m ui a).
  Proof. intros. apply NoDup_filter, seq_NoDup. Qed.

  (** The agglomerate matrices are symmetric. *)
  Lemma patch_symmetric : forall cells, NoDup cells -> symmetric_matrix (snd (evaluate cells)).
  Proof.
    intros cells H. destruct (Heval H) as (_ & H1 & H2 & _ & H3). split; [congruence|].
    intros i j Hi Hj. rewrite !H3 by lia. apply lsum_map_ext. intros c _. apply Hsym.
  Qed.

  (** With LAPACK the local problems do not read the scratch data and are solved exactly. *)
  Lemma problem_scratch : forall eig ui id sc, eigensolver_matrix debug eig = Ok ELapack -> problem eig ui id sc = problem eig ui id [].
  Proof. intros eig ui id sc E. unfold local_problem, compute_local_eigenvectors. rewrite E. reflexivity. Qed.
  Lemma problem_exact : forall eig ui a sc c, eigensolver_matrix debug eig = Ok ELapack -> problem eig ui a sc = Ok c ->
    exact_agg F (agg_cells m ui a) (n_eigenvectors eig) c /\ ag_map c = fst (evaluate (agg_cells m ui a)).
  Proof.
    intros eig ui a sc c E P. unfold local_problem in P. rewrite patch_cells in P.
    assert (N := agg_cells_nodup ui a). set (cells := agg_cells m ui a) in *. rewrite Hconstr in P.
    assert (D : decoupled (snd (evaluate cells)) []) by (intros i j []).
    destruct (@C36_lapack K _ _ _ _ _ _ _ _ _ _ _ _ _ _ _ _ _ _ _ Hlapack (patch_symmetric N) D E P) as (L1 & L2 & (O & _) & _ & HE).
    destruct (@C36_result K _ _ _ _ _ _ _ _ _ _ _ _ _ _ _ _ _ _ _ P) as (_ & _ & _ & _ & _ & _ & _ & HD & HM).
    destruct (Heval N) as (Q1 & Q2 & Q3 & Q4 & Q5). split; [|exact HM].
    exists (snd (evaluate cells)). rewrite HM. split; [split; auto|]. split; [rewrite HD, Q2; reflexivity|]. split; [exact L2|]. split; [exact L1|].
    intros k Hk. split; [|exact (proj1 (HE k Hk))].
    unfold sized_all in O. rewrite Forall_forall in O. rewrite O, Q2; auto. apply nth_In. lia.
  Qed.

  (** What a run collects. *)
  Lemma collected : forall eig ui n ns nb d, eigensolver_matrix debug eig = Ok ELapack ->
    collect (problem eig ui) (keeps_guess eig) n ns nb d ->
    exists res, (forall a, 1 <= a <= n -> problem eig ui a [] = Ok (res a)) /\ d = data_of (map res (seq 1 n)).
  Proof.
    intros eig ui n ns nb d E C.
    set (dflt := fun x : list K => mkAgg [] [] x [] : agg_result K).
    set (rs := fun x a => match problem eig ui a [] with Ok c => c | _ => dflt x end).
    assert (G : forall x, d = data_of (map (rs x) (seq 1 n))).
    { intros x. eapply collect_det; [|exact C]. intros id sc c _ H. rewrite (problem_scratch _ _ _ _ E) in H. unfold rs. rewrite H. reflexivity. }
    exists (rs []). split; [|apply G]. intros a Ha.
    assert (E2 : nth (a - 1) (da_diag d) [] = ag_diag (rs [] a) /\ nth (a - 1) (da_diag d) [] = ag_diag (rs [0%K] a)).
    { assert (X : forall x, nth (a - 1) (da_diag d) [] = ag_diag (rs x a)).
      { intros x. rewrite (G x). cbn [data_of da_diag]. rewrite map_map.
        transitivity (nth (a - 1) (map (fun i => ag_diag (rs x i)) (seq 1 n)) (ag_diag (rs x 0))).
        - apply nth_indep. rewrite map_length, seq_length. lia.
        - rewrite (map_nth (fun i => ag_diag (rs x i))), seq_nth by lia. f_equal. f_equal. lia. }
      split; apply X. }
    destruct E2 as (E2 & E3). rewrite E2 in E3. unfold rs in *. destruct (problem eig ui a []); try reflexivity; cbn in E3; discriminate E3.
  Qed.

  Lemma diag_nonzero : forall g, g < n_dofs -> ent A g g <> 0%K.
  Proof.
    intros g Hg Z. assert (P := @diag_pos K A eq_refl (proj2 Hspd) g Hg). rewrite Z in P. exact (flt_irrefl P).
  Qed.
  Lemma map_bound : forall cells nev c g, exact_agg F cells nev c -> In g (ag_map c) -> g < n_dofs.
  Proof.
    intros cells nev c g (M & (_ & _ & _ & H & _) & _) I. apply H in I. destruct I as (k & _ & I). exact (proj1 (Hfem k) g I).
  Qed.

  (** The product computed with fast_ap is A R^T. *)
  Lemma fast_product : forall ui p R AP, restrictor_run parse_unsigned parse_double lobpcg fsqrt dstev tol2 rand std_sort lapack arpack partition conn evaluate constrained draws
    debug dim3 m n_dofs gd (fun g => ent A g g) ui p R AP -> ui = fresh ->
    connectivity_ok F m conn -> pt_get parse_bool ["fast_ap"%string] false p = true ->
    (forall eig, pt_find p ["eigensolver"%string] = Some eig -> eigensolver_matrix debug eig = Ok ELapack) ->
    (forall agg ui' n, pt_find p ["agglomeration"%string] = Some agg -> agglomerates agg fresh = Ok (ui', n) ->
      (forall a, 1 <= a <= n -> touches_others m ui' conn a) \/ (forall a, 1 <= a <= n -> ~ touches_others m ui' conn a)) ->
    meq AP (mmul A (mtrans R)).
  Proof.
    intros ui p R AP HR -> Hc HF HE HT.
    destruct HR as (eig & agg & ui' & n & ns & nb & d & mm & P1 & P2 & BA & C & CR & -> & X). rewrite HF in X.
    destruct X as (bd & ns' & nb' & corr & BB & FC & ->).
    destruct (agglomerates_ids _ BA) as (Lu & Hid). pose proof (HE _ P1) as EL.
    destruct (collected EL C) as (res & HP & ->).
    set (l := map res (seq 1 n)) in *.
    assert (Ll : length l = n) by (unfold l; rewrite map_length, seq_length; reflexivity).
    assert (Hex : forall a c, nth_error l a = Some c -> exact_agg F (agg_cells m ui' (S a)) (n_eigenvectors eig) c).
    { intros a c Ha. assert (La : a < n) by (rewrite <- Ll; apply nth_error_Some; congruence).
      unfold l in Ha. rewrite nth_error_map in Ha. rewrite (nth_error_nth' (seq 1 n) 0) in Ha by (rewrite seq_length; exact La). cbn in Ha. rewrite seq_nth in Ha by exact La.
      injection Ha as <-. assert (HPa : 1 <= S a <= n) by lia. exact (proj1 (@problem_exact _ _ _ _ _ EL (HP (S a) HPa))). }
    assert (HIn : forall c, In c l -> exists a, exact_agg F (agg_cells m ui' (S a)) (n_eigenvectors eig) c).
    { intros c Ic. apply In_nth_error in Ic. destruct Ic as (a & Ha). exists a. apply Hex; exact Ha. }
    assert (G : gd_ok (fun g => ent A g g) l gd).
    { intros c Ic g Ig. destruct (HIn c Ic) as (a & Ea). apply Hgd. eapply map_bound; eauto. }
    assert (Hlen : length (da_evecs (data_of l)) = length (rows_of l)) by (cbn [data_of da_evecs]; apply flat_evecs_length).
    assert (Hall : (forall q, In q bd -> fst q <> []) \/ (forall q, In q bd -> fst q = [])).
    { destruct (@boundary_correct m ui' n conn Lu Hid) as (bd' & Eb & Lb & Hb). rewrite BB in Eb. injection Eb as <-.
      assert (V : forall q, In q bd -> exists a, 1 <= a <= n /\ (forall c, In c (fst q) <-> (in_agg m ui' a c /\ exists d, In d (conn c) /\ ~ in_agg m ui' a d))).
      { intros q Hq. destruct (In_nth _ _ ([], []) Hq) as (a & Ha & Eq). specialize (Hb (S a) ltac:(lia)).
        rewrite Nat.sub_succ, Nat.sub_0_r, Eq in Hb. destruct q as (qi & qh). exists (S a). split; [lia|]. apply Hb. }
      destruct (HT agg ui' n P2 BA) as [T|T]; [left|right]; intros q Hq; destruct (V q Hq) as (a & Ha & Hv).
      - intros Z. destruct (T a Ha) as (c & e & I1 & I2 & I3). rewrite Z in Hv. apply (Hv c). split; auto. exists e. auto.
      - destruct (fst q) as [|c q']; auto. exfalso. apply (T a Ha). destruct (proj1 (Hv c) (or_introl eq_refl)) as (I1 & e & I2 & I3). exists c, e. auto. }
    split; [reflexivity|]. split; [reflexivity|]. intros g r Hg Hr. cbn [nr nc ent] in Hg, Hr. cbn [ent mmul mtrans spm_matrix nc].
    pose proof (@fast_ap_correct K debug F m conn ui' evaluate (ent A) gd (fun g => ent A g g) [length (da_evecs (data_of l))] 0 l (n_eigenvectors eig) mm bd ns' nb' corr) as T.
    rewrite Hlen in T, Hr, FC, CR. change (n_rows_before [length (rows_of l)] 0) with 0 in T. etransitivity; [apply T; auto|reflexivity].
    - exists (fun _ _ => 0%K). split; [|auto]. intros. cbn [assembled ent]. ring.
    - rewrite Ll. exact Hid.
    - intros c g' Ic Ig. split; auto. apply diag_nonzero. destruct (HIn c Ic) as (a & Ea). eapply map_bound; eauto.
    - rewrite Ll. exact BB.
  Qed.

  (** The restriction matrix does not depend on fast_ap, nor on the schedules. *)
  Lemma same_restriction : forall p p' R AP R' AP', run fresh p R AP -> run fresh p' R' AP' ->
    pt_find p ["eigensolver"%string] = pt_find p' ["eigensolver"%string] -> pt_find p ["agglomeration"%string] = pt_find p' ["agglomeration"%string] ->
    (forall eig, pt_find p ["eigensolver"%string] = Some eig -> eigensolver_matrix debug eig = Ok ELapack) -> R = R' /\ nc R = n_dofs.
  Proof.
    intros p p' R AP R' AP' (eig & agg & ui1 & n & ns & nb & d & mm & P1 & P2 & BA & C & CR & -> & _)
      (eig' & agg' & ui1' & n' & ns' & nb' & d' & mm' & P1' & P2' & BA' & C' & CR' & -> & _) E1 E2 HE.
    assert (eig' = eig) by congruence. assert (agg' = agg) by congruence. subst eig' agg'.
    rewrite BA in BA'. injection BA' as <- <-. pose proof (HE _ P1) as EL.
    destruct (collected EL C) as (res & HP & Ed). destruct (collected EL C') as (res' & HP' & Ed').
    assert (X : d = d').
    { rewrite Ed, Ed'. f_equal. apply map_ext_in. intros a Ha. apply in_seq in Ha. assert (H1 := HP a ltac:(lia)). rewrite (HP' a ltac:(lia)) in H1. injection H1 as ->. reflexivity. }
    rewrite <- X in CR' |- *. rewrite CR in CR'. injection CR' as <-. auto.
  Qed.

  (** ** Runs exist *)
  Lemma agg_diag_at : forall cells nev c g, exact_agg F cells nev c ->
    at_dof c g (fun j => nth j (ag_diag c) 0%K) = lsum (map (fun k => f_cm F k g g) cells).
  Proof.
    intros cells nev c g (M & (Q1 & Q2 & Q3 & Q4 & Q5) & HD & _).
    destruct (in_dec Nat.eq_dec g (ag_map c)) as [I|I].
    - destruct (In_nth _ _ 0 I) as (j & Hj & <-). rewrite at_dof_one by auto. rewrite HD.
      rewrite (nth_indep _ 0%K (ent M 0 0)) by (rewrite map_length, seq_length; auto). rewrite (map_nth (fun k => ent M k k)), seq_nth by auto. cbn. apply Q5; auto.
    - rewrite at_dof_none by auto. symmetry. apply lsum_map_0. intros k Hk. apply (proj2 (Hfem k)). intros (Z & _). apply I. apply Q4. eauto.
  Qed.
  Lemma sum_over_ids : forall (f : nat -> K) ui n, (forall c, c < n_cells m -> 1 <= nth c ui 0 <= n) ->
    lsum (map (fun a => lsum (map f (agg_cells m ui a))) (seq 1 n)) = lsum (map f (seq 0 (n_cells m))).
  Proof.
    intros f ui n H.
    transitivity (lsum (map (fun a => lsum (map (fun c => if nth c ui 0 =? a then f c else 0%K) (seq 0 (n_cells m)))) (seq 1 n))).
    { apply lsum_map_ext. intros a _. unfold agg_cells. assert (X : forall c, In c (seq 0 (n_cells m)) -> owned m c = true) by (intros c Hc; apply in_seq in Hc; apply Hserial; lia).
      revert X. generalize (seq 0 (n_cells m)) as l. induction l as [|c l IH]; intros X; cbn [filter map]; auto.
      rewrite (X c (or_introl eq_refl)). cbn [andb]. destruct (nth c ui 0 =? a); cbn [map lsum]; rewrite IH by (intros; apply X; right; auto); auto. cbn [lsum]. ring. }
    assert (X : forall c, In c (seq 0 (n_cells m)) -> 1 <= nth c ui 0 <= n) by (intros c Hc; apply in_seq in Hc; apply H; lia).
    revert X. generalize (seq 0 (n_cells m)) as l. induction l as [|c l IH]; intros X.
    - cbn [map lsum]. apply lsum_map_0. auto.
    - cbn [map lsum]. rewrite lsum_map_add, IH by (intros; apply X; right; auto). f_equal.
      specialize (X c (or_introl eq_refl)). rewrite (@lsum_nth K nat _ (seq 1 n) 0), seq_length.
      rewrite (@sumn_single K n (nth c ui 0 - 1)).
      + rewrite seq_nth by lia. replace (1 + (nth c ui 0 - 1)) with (nth c ui 0) by lia. rewrite Nat.eqb_refl. auto.
      + lia.
      + intros i Hi Hne. rewrite seq_nth by lia. destruct (Nat.eqb_spec (nth c ui 0) (1 + i)); auto. lia.
  Qed.

  Lemma run_exists : forall p eig agg ui' n, pt_find p ["eigensolver"%string] = Some eig -> pt_find p ["agglomeration"%string] = Some agg ->
    agglomerates agg fresh = Ok (ui', n) -> eigensolver_matrix debug eig = Ok ELapack -> 1 <= n_eigenvectors eig -> 0 < n_dofs ->
    (forall a, 1 <= a <= n -> exists c, problem eig ui' a [] = Ok c) ->
    (pt_get parse_bool ["fast_ap"%string] false p = true -> connectivity_ok F m conn) ->
    exists R AP, run fresh p R AP.
  Proof.
    intros p eig agg ui' n P1 P2 BA EL Hev Hn HP Hcn.
    destruct (agglomerates_ids _ BA) as (Lu & Hid).
    set (res := fun a => match problem eig ui' a [] with Ok c => c | _ => mkAgg [] [] [] [] end).
    assert (Hres : forall a, 1 <= a <= n -> problem eig ui' a [] = Ok (res a)).
    { intros a Ha. destruct (HP a Ha) as (c & Ec). unfold res. rewrite Ec. reflexivity. }
    set (l := map res (seq 1 n)).
    assert (Ll : length l = n) by (unfold l; rewrite map_length, seq_length; reflexivity).
    assert (Hex : forall a, 1 <= a <= n -> exact_agg F (agg_cells m ui' a) (n_eigenvectors eig) (res a)).
    { intros a Ha. exact (proj1 (@problem_exact _ _ _ _ _ EL (Hres a Ha))). }
    assert (HIn : forall c, In c l -> exists a, 1 <= a <= n /\ c = res a).
    { intros c Ic. unfold l in Ic. apply in_map_iff in Ic. destruct Ic as (a & <- & Ia). apply in_seq in Ia. exists a. split; auto. lia. }
    assert (Hok : forall c, In c l -> agg_ok c /\ ag_evecs c <> []).
    { intros c Ic. destruct (HIn c Ic) as (a & Ha & ->). destruct (exact_agg_ok (Hex a Ha)) as (O1 & O2 & _). split; auto. intros Z. rewrite Z in O2. cbn in O2. lia. }
    assert (G : gd_ok (fun g => ent A g g) l gd).
    { intros c Ic g Ig. destruct (HIn c Ic) as (a & Ha & ->). apply Hgd. eapply map_bound; eauto. }
    assert (CO : collect (problem eig ui') (keeps_guess eig) n 1 1 (data_of l)).
    { apply collect_exists. intros id sc Hi. rewrite (problem_scratch _ _ _ _ EL). apply Hres. exact Hi. }
    assert (CR := @compute_restriction_spec K debug true [length (da_evecs (data_of l))] 0 gd (fun g => ent A g g) l (fun c Ic => proj1 (Hok c Ic)) G).
    set (mm := rows_step true (fun g => ent A g g) _ _ _) in CR.
    destruct (pt_get parse_bool ["fast_ap"%string] false p) eqn:EF.
    - destruct (@boundary_correct m ui' n conn Lu Hid) as (bd & Eb & _ & _).
      destruct (@C_FastAP.C15_run_exists K F m conn ui' n evaluate (r_E mm) (r_D mm) 0 (length (da_evecs (data_of l))) 0 0 bd Hfem Heval Lu Hid Eb) as (corr & FC).
      eexists _, _. exists eig, agg, ui', n, 1, 1, (data_of l), mm. repeat (split; [eassumption || reflexivity|]). rewrite EF.
      exists bd, 1, 1, corr. split; [exact Eb|]. split; [exact FC|]. reflexivity.
    - exists (spm_matrix (length (da_evecs (data_of l))) n_dofs (r_R mm)), (mkMat 0 0 (fun _ _ => 0%K)).
      exists eig, agg, ui', n, 1, 1, (data_of l), mm. repeat (split; [eassumption || reflexivity|]). rewrite EF.
      assert (T : (0 < @tol_1e14 K)%K) by (unfold tol_1e14; assert (X := finv_pos (@fpos_pos K 100000000000000)); replace (1 / fpos 100000000000000)%K with (finv (@fpos K 100000000000000)); [exact X|field; apply not_eq_sym, flt_neq, fpos_pos]).
      assert (Q : forall ll c, In ll [l] -> In c ll -> agg_ok c /\ ag_evecs c <> []) by (intros ll c [<-|[]]; apply Hok).
      assert (G' : gd_ok (fun g => ent A g g) (concat [l]) gd) by (cbn [concat]; rewrite app_nil_r; exact G).
      destruct (@C60_self_check K tol_1e14 n_dofs (fun g => ent A g g) gd [l] Q G' T) as (_ & S1 & S2 & _).
      + exists 0. split; auto. apply diag_nonzero; auto.
      + change [data_of l] with (map (@data_of K) [l]). destruct debug; [|exact S1].
        apply S2. intros g Hg. split; [apply diag_nonzero; auto|]. cbn [concat]. rewrite app_nil_r. unfold diag_sum, l. rewrite map_map.
        cbn [assembled ent]. rewrite <- (@sum_over_ids (fun c => f_cm F c g g) ui' n).
        * apply lsum_map_ext. intros a Ia. apply in_seq in Ia. eapply agg_diag_at. apply Hex. lia.
        * intros c Hc. apply Hid; auto.
  Qed.
End PHostRuns.
