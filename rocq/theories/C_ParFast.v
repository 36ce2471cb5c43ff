(** Property theorems about the fast product of matrix-based preconditioners on several ranks: C109. *)
From Coq Require Import String List Arith ZArith Bool Lia Field Permutation QArith Qcanon.
From Verif Require Import Base OField Mat LinAlg M_Ptree S_Ptree P_Ptree M_Agglo S_Agglo M_WorkStream M_Restr S_Restr P_Restr P_Restr2
  S_FastAP P_FastAP2 M_Lanczos S_Lanczos M_Eig S_Eig M_Hier S_Hier P_Hier P_HierC P_HierE P_HierS M_Smoother P_Smoother M_Host S_Host P_Host P_HostN M_HostEnd S_HostEnd P_HostEnd
  P_Amgx3 S_Rate P_Rate P_Approx M_Par S_Par P_Par P_Par2 P_Par3 P_Par4 M_ParEnd S_ParEnd P_ParEnd C_Host C_Restr C_Rate C_Par M_FastAP C_FastAP C_HostEnd E_Lanczos C_Lanczos C_Eig E_Solve E_CudaHier C_CudaHier P_CudaHier3 P_Rate2 P_Perm P_Lanczos9 P_AmgeDev2 C_ParEnd M_ParFast S_ParFast P_ParFast.
Import ListNotations.
Set Implicit Arguments.
Open Scope list_scope.
Open Scope nat_scope.

Section CParFast.
  Variable K : ofield.
  Add Field KfieldCParFast : (f_field K).
  Local Notation vec := (vec K).
  (** External code, as in M_HostEnd.v. *)
  Variable parse_unsigned : string -> option Z.
  Variable parse_double : string -> option K.
  Variable lobpcg : (vec -> vec) -> Z -> K -> list vec -> bool * eigensolution K.
  Variable fsqrt : K -> option K.
  Variable dstev : list K -> list K -> outcome (list K * list K).
  Variable tol2 : K.
  Variable rand : nat -> nat -> K.
  Variable std_sort : (nat -> nat -> bool) -> list nat -> list nat.
  Variable lapack : mat K -> K -> K -> outcome (list K * list vec).
  Variable arpack : mat K -> K -> vec -> nat -> outcome (list K * list vec).
  Variables (debug dim3 : bool).
  (** The mesh of all ranks; only its number of cells matters. *)
  Variable m : mesh.
  Variable F : fem K.
  Variable ranks : list (rank_env K).
  (** The connectivity of the cells each rank sees. *)
  Variable conn : nat -> nat -> list nat.
  Local Notation A := (assembled F m).
  Local Notation agglomerates := (rank_agglomerates parse_unsigned debug dim3).
  Local Notation problem := (rank_problem parse_double lobpcg fsqrt dstev tol2 rand std_sort lapack arpack debug).
  Local Notation run := (par_restrictor_run parse_unsigned parse_double lobpcg fsqrt dstev tol2 rand std_sort lapack arpack debug dim3 (f_ndofs F) ranks).
  Local Notation fast := (par_fast_run parse_unsigned parse_double lobpcg fsqrt dstev tol2 rand std_sort lapack arpack debug dim3 (f_ndofs F) conn ranks).

  Hypothesis Hcover : ranks_cover (n_cells m) ranks.
  Hypothesis Hranks : forall rk, In rk ranks -> rank_ok debug F (fun g => ent A g g) rk.
  Hypothesis Hfem : fem_ok F.
  Hypothesis Hsym : forall c g h, f_cm F c g h = f_cm F c h g.
  Hypothesis Hpsd : forall c u, fle 0%K (cell_energy F c u).
  Hypothesis Hlapack : lapack_ok lapack.
  Hypothesis Hcomplete : lapack_complete lapack.
  Hypothesis Hspd : spd (f_ndofs F) (mulvec A).

  (** C109: the product that the ranks compute without communicating is A R^T, A assembled over all ranks. *)
  Theorem C109_product : forall p R AP,
    (forall eig, pt_find p ["eigensolver"%string] = Some eig -> eigensolver_matrix debug eig = Ok ELapack) ->
    (forall q rk, nth_error ranks q = Some rk -> ready_for_fast F (n_cells m) (agglomerates rk) rk (conn q) p) ->
    fast p R AP -> meq AP (mmul A (mtrans R)).
  Proof.
    intros p R AP HE HF HR. eapply host_fast_exact; eauto. intros q rk Hq. split; [apply Hranks; eapply nth_error_In; exact Hq|apply HF; exact Hq].
  Qed.
  (** C109: the restriction with fast_ap is one without it, and every restriction without it is one with it. *)
  Theorem C109_restriction : forall p R, (forall rk, In rk ranks -> evaluate_ok (host_rank_fem F rk) (rk_evaluate rk)) -> (run p R <-> exists AP, fast p R AP).
  Proof.
    intros p R HV. split; [intros HR|intros (AP & HR); eapply host_fast_is_run; exact HR].
    eapply host_fast_exists with (m := m); eauto.
  Qed.

  (** C109: with LAPACK neither the schedules of the loops nor fast_ap change the restriction. *)
  Theorem C109_one_restriction : forall p p' R R', run p R -> run p' R' ->
    pt_find p' ["eigensolver"%string] = pt_find p ["eigensolver"%string] -> pt_find p' ["agglomeration"%string] = pt_find p ["agglomeration"%string] ->
    (forall eig, pt_find p ["eigensolver"%string] = Some eig -> eigensolver_matrix debug eig = Ok ELapack) -> R = R'.
  Proof. intros p p' R R' H1 H2. exact (@run_unique K _ _ _ _ _ _ _ _ _ _ _ _ _ ranks p p' R R' H1 H2). Qed.
  (** C109: "fast_ap" changes how A R^T is computed, not the preconditioner: with or without it both hierarchies are constructed and vmult gives the same
      result, that of the two-grid cycle. *)
  Theorem C109_fast_ap_same : forall accepts_double owned_rows mk ilu ml eps te0 p k R AP R' AP',
    let p' := pt_put ["fast_ap"%string] "true" p in
    pt_get parse_bool ["fast_ap"%string] false p = false -> c_levels p = 2%Z ->
    dealii_smoother_kind p = Ok k -> linear (f_ndofs F) (f_ndofs F) (par_kind_vmult owned_rows ilu k A) -> dealii_solver_kind accepts_double p = Ok KDirect ->
    (forall eig, pt_find p ["eigensolver"%string] = Some eig -> eigensolver_matrix debug eig = Ok ELapack) ->
    (forall q rk, nth_error ranks q = Some rk -> ready_for_fast F (n_cells m) (agglomerates rk) rk (conn q) p) ->
    mk p = Ok (R, AP) -> run p R -> mk p' = Ok (R', AP') -> fast p' R' AP' -> full_row_rank R ->
    R' = R /\ exists h s l h' s' l',
      construct (par_helpers accepts_double owned_rows A mk ilu ml) eps te0 debug (Ok tt) (Some p) None = (Ok h, s, l) /\
      construct (par_helpers accepts_double owned_rows A mk ilu ml) eps te0 debug (Ok tt) (Some p') None = (Ok h', s', l') /\
      forall te x b, length x = f_ndofs F -> length b = f_ndofs F ->
        exists y lg lg', hierarchy_vmult te h x b [] = (Ok y, lg) /\ hierarchy_vmult te h' x b [] = (Ok y, lg') /\
          two_grid A R (par_kind_vmult owned_rows ilu k A) (c_steps p) b (if c_prec p then vzero (f_ndofs F) else x) y.
  Proof.
    intros ad owned_rows mk ilu ml eps te0 p k R AP R' AP' p' HF HL SK LK CK HE HT M1 R1 M2 R2 FR.
    assert (N1 : forall q, pt_find p' ("eigensolver"%string :: q) = pt_find p ("eigensolver"%string :: q)) by (intros q; apply put_fast_find; discriminate).
    assert (N2 : forall q, pt_find p' ("agglomeration"%string :: q) = pt_find p ("agglomeration"%string :: q)) by (intros q; apply put_fast_find; discriminate).
    assert (R2' : run p' R') by (eapply host_fast_is_run; exact R2).
    assert (ER : R = R') by exact (@C109_one_restriction p p' R R' R1 R2' (N1 []) (N2 []) HE). subst R'. split; [reflexivity|].
    assert (FP : meq AP' (mmul A (mtrans R))).
    { apply (@C109_product p' R AP'); auto.
      - intros eig E. rewrite N1 in E. apply HE; exact E.
      - intros q rk Hq. destruct (HT q rk Hq) as (T1 & T2 & T3 & T4). split; [exact T1|]. split; [exact T2|]. split; [exact T3|]. intros agg ui n E. rewrite N2 in E. apply T4; exact E. }
    destruct (run_shape _ R1) as (PE & PA & DR). destruct (put_fast_values "true" p) as (V1 & V2 & V3). fold p' in V1, V2, V3.
    destruct (@par_two_level K ad owned_rows A mk ilu ml eps te0 debug p k R AP) as (h & s & l & C1 & W1); auto; [intros Q; congruence|].
    destruct (@par_two_level K ad owned_rows A mk ilu ml eps te0 debug p' k R AP') as (h' & s' & l' & C2 & W2); auto;
      [congruence|unfold p'; rewrite put_fast_smoother; auto|unfold p'; rewrite put_fast_solver; auto|rewrite N1; auto|rewrite N2; auto|].
    exists h, s, l, h', s', l'. split; [exact C1|]. split; [exact C2|]. intros te x b Hx Hb.
    destruct (W1 te x b [] eq_refl Hx Hb) as (y & lg & E1 & _ & T1). destruct (W2 te x b [] eq_refl Hx Hb) as (y' & lg' & E2 & _ & T2).
    rewrite V2, V3 in T2.
    assert (E : y' = y) by (eapply two_grid_unique; [| | | |exact T2|exact T1]; auto).
    exists y, lg, lg'. split; [exact E1|]. split; [rewrite <- E; exact E2|exact T1].
  Qed.

  Section Rate.
    Variables (accepts_double : string -> bool) (owned_rows : mat K -> list (list nat)) (mk : ptree -> outcome (mat K * mat K)).
    Variables (ilu : mat K -> vec -> vec) (ml : ml_list -> mat K -> vec -> vec) (eps : K) (te0 : tenv).
    Variables (p : ptree) (R AP : mat K) (theta delta lambda : K).
    Hypothesis Hown : forall M : mat K, nr M = nc M -> distribution (nc M) (owned_rows M).
    Hypothesis Hdef : default_two_level p.
    Hypothesis Hfast : pt_get parse_bool ["fast_ap"%string] false p = true.
    Hypothesis HE : forall eig, pt_find p ["eigensolver"%string] = Some eig -> eigensolver_matrix debug eig = Ok ELapack.
    Hypothesis Hready : forall q rk, nth_error ranks q = Some rk -> ready_for_fast F (n_cells m) (agglomerates rk) rk (conn q) p.
    Hypothesis Hmk : mk p = Ok (R, AP).
    Hypothesis Hrun : fast p R AP.
    Hypothesis Hrank : full_row_rank R.
    Local Notation built h := (exists s l, construct (par_helpers accepts_double owned_rows A mk ilu ml) eps te0 debug (Ok tt) (Some p) None = (Ok h, s, l)).

    (** C109: with fast_ap the preconditioner is symmetric and positive and reduces every error, under the condition of C89 on the fine matrix. *)
    Theorem C109_preconditioner : c_prec p = true ->
      (length (owned_rows A) <= 2 \/ two_colours (owned_rows A) A \/ anchored_dominant A) ->
      exists h, built h /\
        exists Mv : vec -> vec, linear (f_ndofs F) (f_ndofs F) Mv /\ self_adjoint (f_ndofs F) Mv /\
          (forall b, length b = f_ndofs F -> b <> vzero (f_ndofs F) -> flt 0%K (dot (Mv b) b)) /\
          (forall e, length e = f_ndofs F -> e <> vzero (f_ndofs F) -> flt (energy (mulvec A) (vsub e (Mv (mulvec A e)))) (energy (mulvec A) e)) /\
          forall te x b l, open_sections l = [] -> length x = f_ndofs F -> length b = f_ndofs F ->
            exists l', hierarchy_vmult te h x b l = (Ok (Mv b), l') /\ open_sections l' = [].
    Proof.
      intros HP HC. destruct Hdef as (D1 & D2 & D3 & D4). assert (HR : run p R) by (eapply host_fast_is_run; exact Hrun). destruct (run_shape _ HR) as (PE & PA & DR).
      destruct (@C89_hierarchy K accepts_double owned_rows A mk ilu ml eps te0 debug p Hown eq_refl Hspd HP D1 D3) as (h & s & l & CC & V).
      - right. split; [exact D2|]. split; [exact D4|]. split; [exact HC|]. split; [exact PE|]. split; [exact PA|].
        exists R, AP. split; [exact Hmk|]. split; [exact DR|]. split; [exact Hrank|]. intros _. exact (@C109_product p R AP HE Hready Hrun).
      - exists h. split; [exists s, l; exact CC|exact V].
    Qed.

    Hypothesis Hlam : flt 0%K lambda.
    Hypothesis Hdisc : forall rk, In rk ranks -> discarded_above (agglomerates rk) (problem rk) (rk_evaluate rk) (rk_mesh rk) p lambda.
    Hypothesis Htheta : fle 0%K theta.
    Hypothesis Hdelta : fle 0%K delta.
    Hypothesis Hdelta1 : fle delta 1%K.
    Hypothesis Hbound : forall own, In own (owned_rows A) -> fle (theta * triangle_bound (local_block A own))%K 1%K.
    Hypothesis Hweak : weakly_coupled (owned_rows A) A delta.
    Local Notation rho := (1 - delta * theta * lambda)%K.

    (** C109: the rate, that of C90.  One call of vmult reduces the error, in the energy norm, at least by the factor 1 - delta theta lambda; delta measures how weakly the
        processes are coupled. *)
    Theorem C109_rate : exists h, built h /\
      forall te x xs l, open_sections l = [] -> length x = f_ndofs F -> length xs = f_ndofs F ->
        exists y l', hierarchy_vmult te h x (mulvec A xs) l = (Ok y, l') /\ open_sections l' = [] /\ length y = f_ndofs F /\
          fle (energy (mulvec A) (vsub xs y)) (rho * rho * energy (mulvec A) (vsub xs (if c_prec p then vzero (f_ndofs F) else x)))%K.
    Proof.
      assert (HR : run p R) by (eapply host_fast_is_run; exact Hrun). destruct (run_shape _ HR) as (PE & PA & DR).
      apply (@par_rate_ap K debug A eq_refl Hspd accepts_double owned_rows mk ilu ml eps te0 p R AP theta delta lambda); auto.
      - intros _. exact (@C109_product p R AP HE Hready Hrun).
      - eapply C90_coarse_space_approximates; eauto. apply flt_le. exact Hlam.
    Qed.
  End Rate.
End CParFast.
Print Assumptions C109_product.
Print Assumptions C109_restriction.
Print Assumptions C109_one_restriction.
Print Assumptions C109_fast_ap_same.
Print Assumptions C109_preconditioner.
Print Assumptions C109_rate.

(** * Example: the two processes of C90, which see each other's element. *)
Unset Implicit Arguments.
Definition fparams (prec : string) : ptree := pt_put ["fast_ap"%string] "true" (pparams prec).
Definition fconn (_ c : nat) : list nat := if c <? 2 then [0; 1] else [].
Definition ffast := par_fast_run (fun s => parse_int s) ex_parse_double ex_no_lobpcg qsqrt (fun _ _ => Fuel) (q 0 1) (fun _ _ => q 0 1) (@insertion_sort nat) hlapack ex_no_arpack
  true false 3 fconn pranks.
Lemma feval : forall k, evaluate_ok (host_rank_fem hF (prank k)) (rk_evaluate (prank k)).
Proof.
  intros k cells _. cbn [prank rk_evaluate]. unfold assemble_patch. cbn [fst snd]. split; [apply NoDup_nodup|]. split; [reflexivity|]. split; [reflexivity|]. split.
  - intros g. rewrite nodup_In, in_flat_map. cbn [host_rank_fem f_cd rk_number prank]. split.
    + intros (c & I1 & I2). apply in_map_iff in I1. destruct I1 as (c0 & <- & I1). exists c0. auto.
    + intros (c & I1 & I2). exists (pnumber k c). split; [apply in_map; exact I1|exact I2].
  - intros i j _ _. cbn [ent host_rank_fem f_cm rk_number prank]. rewrite map_map. reflexivity.
Qed.
Lemma fready : forall prec q0 rk, nth_error pranks q0 = Some rk -> ready_for_fast hF (n_cells (lmesh 2)) (pagglomerates rk) rk (fconn q0) (fparams prec).
Proof.
  intros prec q0 rk H. assert (J : exists k, k <= 1 /\ rk = prank k).
  { destruct q0 as [|[|[|q0]]]; cbn in H; try discriminate H; injection H as <-; [exists 0|exists 1]; auto. }
  destruct J as (k & Hk & ->). clear H.
  split; [|split; [apply feval|split]].
  - split; [|split].
    + intros c Hc. cbn in Hc. cbn [prank rk_number lmesh n_cells]. unfold pnumber. destruct (k =? 0); lia.
    + intros c c' Hc Hc' E. cbn in Hc, Hc'. cbn [prank rk_number] in E. unfold pnumber in E. destruct (k =? 0); lia.
    + intros c d g Hc _ Hd _ _. cbn in Hd. exists (pnumber k d). cbn [prank rk_number rk_mesh pmesh n_cells]. unfold pnumber. destruct (k =? 0); split; lia.
  - split.
    + intros c d g Hc Hd _ _. cbn in Hc, Hd. unfold fconn. destruct (Nat.ltb_spec c 2); [|lia]. assert (d = 0 \/ d = 1) by lia. cbn. lia.
    + intros c d I. cbn. unfold fconn in I. destruct (c <? 2); [|destruct I]. destruct I as [<-|[<-|[]]]; lia.
  - intros agg ui n P BA. left. intros a Ha. destruct (pagg prec k agg ui n P BA) as (-> & ->). replace a with 1 by lia.
    exists 0, 1. split; [|split].
    + split; [cbn; lia|]. split; reflexivity.
    + cbn. auto.
    + intros (_ & X & _). discriminate X.
Qed.
Lemma fexists : forall prec, exists R AP, ffast (fparams prec) R AP /\ prun (fparams prec) R.
Proof.
  intros prec. destruct (pexists prec) as (R & HR). assert (HR' : prun (fparams prec) R) by exact HR. exists R.
  destruct (proj1 (@C109_restriction QcOF (fun s => parse_int s) ex_parse_double ex_no_lobpcg qsqrt (fun _ _ => Fuel) (q 0 1) (fun _ _ => q 0 1) (@insertion_sort nat) hlapack ex_no_arpack
    true false (lmesh 2) hF pranks fconn pranks_ok hfem_ok (fparams prec) R (fun rk I => match I with or_introl E => eq_ind _ (fun rk => evaluate_ok (host_rank_fem hF rk) (rk_evaluate rk)) (feval 0) _ E | or_intror (or_introl E) => eq_ind _ (fun rk => evaluate_ok (host_rank_fem hF rk) (rk_evaluate rk)) (feval 1) _ E | or_intror (or_intror X) => match X with end end)) HR') as (AP & HA).
  exists AP. split; [exact HA|exact HR'].
Qed.
Lemma fdefault : forall prec, default_two_level (fparams prec).
Proof.
  intros prec. split; [vm_compute; lia|]. split; [reflexivity|]. split; apply lower_ci; [apply no_upperb_ok; reflexivity|reflexivity|apply no_upperb_ok; reflexivity|reflexivity].
Qed.
Example C109_example : exists R AP, ffast (fparams "true") R AP /\ meq AP (mmul hA2 (mtrans R)).
Proof.
  destruct (fexists "true") as (R & AP & HA & _). exists R, AP. split; [exact HA|].
  eapply (@C109_product QcOF) with (F := hF) (m := lmesh 2) (p := fparams "true").
  - exact pranks_ok.
  - exact hfem_ok.
  - exact hsym.
  - apply lapack_of_ok.
  - exact hA2_spd.
  - intros eig E. injection E as <-. reflexivity.
  - exact (fready "true").
  - exact HA.
Qed.
(** The rate of C90's example, with the product computed rank by rank. *)
Example C109_rate_example : exists R AP h s l, ffast (fparams "false") R AP /\
  construct (par_helpers (fun _ => false) prows hA2 (fun _ => Ok (R, AP)) (fun _ r => r) (fun _ _ r => r)) 0%K (mkTenv true true) true (Ok tt) (Some (fparams "false")) None = (Ok h, s, l) /\
  forall x xs, length x = 3 -> length xs = 3 -> exists y l', hierarchy_vmult (mkTenv true true) h x (mulvec hA2 xs) [] = (Ok y, l') /\
    fle (energy (mulvec hA2) (vsub xs y)) ((1 - pq 1 10 * pq 1 43 * q 26 1) * (1 - pq 1 10 * pq 1 43 * q 26 1) * energy (mulvec hA2) (vsub xs x))%K.
Proof.
  destruct (fexists "false") as (R & AP & HA & HR). assert (FR : full_row_rank R) by (apply (pfull "false"); exact HR).
  destruct (@C109_rate QcOF (fun s => parse_int s) ex_parse_double ex_no_lobpcg qsqrt (fun _ _ => Fuel) (q 0 1) (fun _ _ => q 0 1) (@insertion_sort nat) hlapack ex_no_arpack
    true false (lmesh 2) hF pranks fconn pcover pranks_ok hfem_ok hsym hcells (lapack_of_ok _ _) hlapack_complete hA2_spd (fun _ => false) prows (fun _ => Ok (R, AP)) (fun _ r => r) (fun _ _ r => r) 0%K
    (mkTenv true true) (fparams "false") R AP (pq 1 43) (pq 1 10) (q 26 1) prows_ok (fdefault "false")) as (h & (s & l & C1) & V); try exact HA; try exact FR; try reflexivity.
  - intros eig E. injection E as <-. reflexivity.
  - exact (fready "false").
  - apply fltb_lt. vm_compute. reflexivity.
  - exact (pdisc "false").
  - apply fleb_le. vm_compute. reflexivity.
  - apply fleb_le. vm_compute. reflexivity.
  - apply fleb_le. vm_compute. reflexivity.
  - intros own I. change (prows (assembled hF (lmesh 2))) with [[0]; [1; 2]] in I. destruct I as [<-|[<-|[]]]; apply fleb_le; vm_compute; reflexivity.
  - exact hA2_weak.
  - exists R, AP, h, s, l. split; [exact HA|]. split; [exact C1|]. intros x xs Hx Hxs.
    destruct (V (mkTenv true true) x xs [] eq_refl Hx Hxs) as (y & l' & E & _ & _ & EN). exists y, l'. split; [exact E|exact EN].
Qed.
Example C109_preconditioner_example : exists R AP h s l, ffast (fparams "true") R AP /\
  construct (par_helpers (fun _ => false) prows hA2 (fun _ => Ok (R, AP)) (fun _ r => r) (fun _ _ r => r)) 0%K (mkTenv true true) true (Ok tt) (Some (fparams "true")) None = (Ok h, s, l) /\
  exists Mv, self_adjoint 3 Mv /\
    (forall e, length e = 3 -> e <> vzero 3 -> flt (energy (mulvec hA2) (vsub e (Mv (mulvec hA2 e)))) (energy (mulvec hA2) e)) /\
    forall x b, length x = 3 -> length b = 3 -> exists l', hierarchy_vmult (mkTenv true true) h x b [] = (Ok (Mv b), l').
Proof.
  destruct (fexists "true") as (R & AP & HA & HR). assert (FR : full_row_rank R) by (apply (pfull "true"); exact HR).
  destruct (@C109_preconditioner QcOF (fun s => parse_int s) ex_parse_double ex_no_lobpcg qsqrt (fun _ _ => Fuel) (q 0 1) (fun _ _ => q 0 1) (@insertion_sort nat) hlapack ex_no_arpack
    true false (lmesh 2) hF pranks fconn pranks_ok hfem_ok hsym (lapack_of_ok _ _) hA2_spd (fun _ => false) prows (fun _ => Ok (R, AP)) (fun _ r => r) (fun _ _ r => r) 0%K
    (mkTenv true true) (fparams "true") R AP prows_ok (fdefault "true")) as (h & (s & l & C1) & Mv & M1 & M2 & M3 & M4 & M5); try exact HA; try exact FR; try reflexivity.
  - intros eig E. injection E as <-. reflexivity.
  - exact (fready "true").
  - left. vm_compute. lia.
  - exists R, AP, h, s, l. split; [exact HA|]. split; [exact C1|]. exists Mv. split; [exact M2|]. split; [exact M4|]. intros x b Hx Hb.
    destruct (M5 (mkTenv true true) x b [] eq_refl Hx Hb) as (l' & E & _). exists l'. exact E.
Qed.
Example C109_same_example : exists R AP, let mk := fun _ => Ok (R, AP) in prun (pparams "true") R /\ ffast (fparams "true") R AP /\ exists h s l h' s' l',
    construct (par_helpers (fun _ => false) prows hA2 mk (fun _ r => r) (fun _ _ r => r)) 0%K (mkTenv true true) true (Ok tt) (Some (pparams "true")) None = (Ok h, s, l) /\
    construct (par_helpers (fun _ => false) prows hA2 mk (fun _ r => r) (fun _ _ r => r)) 0%K (mkTenv true true) true (Ok tt) (Some (fparams "true")) None = (Ok h', s', l') /\
    forall x b, length x = 3 -> length b = 3 -> exists y lg lg', hierarchy_vmult (mkTenv true true) h x b [] = (Ok y, lg) /\ hierarchy_vmult (mkTenv true true) h' x b [] = (Ok y, lg').
Proof.
  destruct (fexists "true") as (R & AP & HA & HR). assert (HR' : prun (pparams "true") R) by exact HR. assert (FR : full_row_rank R) by (apply (pfull "true"); exact HR).
  exists R, AP. split; [exact HR'|]. split; [exact HA|].
  destruct (@C109_fast_ap_same QcOF (fun s => parse_int s) ex_parse_double ex_no_lobpcg qsqrt (fun _ _ => Fuel) (q 0 1) (fun _ _ => q 0 1) (@insertion_sort nat) hlapack ex_no_arpack
    true false (lmesh 2) hF pranks fconn pranks_ok hfem_ok hsym (lapack_of_ok _ _) hA2_spd (fun _ => false) prows (fun _ => Ok (R, AP)) (fun _ r => r) (fun _ _ r => r) 0%K
    (mkTenv true true) (pparams "true") KSsor R AP R AP) as (_ & h & s & l & h' & s' & l' & C1 & C2 & V); try exact HR'; try exact HA; try exact FR; try reflexivity.
  - apply (@par_linear QcOF (assembled hF (lmesh 2)) (prows (assembled hF (lmesh 2)))). apply prows_ok. reflexivity.
  - intros eig E. injection E as <-. reflexivity.
  - exact (fready "true").
  - exists h, s, l, h', s', l'. split; [exact C1|]. split; [exact C2|]. intros x b Hx Hb.
    destruct (V (mkTenv true true) x b Hx Hb) as (y & lg & lg' & E1 & E2 & _). exists y, lg, lg'. auto.
Qed.
