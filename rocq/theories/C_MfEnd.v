(** Property theorems about matrix-free preconditioners from the mesh to vmult: C99. *)
From Coq Require Import String List Arith ZArith NArith Bool Lia Field QArith Qcanon.
From Verif Require Import Base OField Mat LinAlg M_Ptree S_Ptree P_Ptree M_Agglo S_Agglo M_WorkStream M_Restr S_Restr P_Restr P_Restr2
  S_FastAP P_FastAP P_FastAP2 M_Perm S_Perm M_Lanczos S_Lanczos M_Eig S_Eig P_Eig M_Hier S_Hier P_Hier P_HierC P_HierE P_HierS M_Smoother P_Smoother M_Host S_Host P_Host P_HostN M_HostEnd S_HostEnd P_HostEnd
  P_Amgx3 S_Rate P_Rate P_Approx P_Local P_Lanczos5 P_Lanczos8 M_MfEnd S_MfEnd P_MfEnd M_Cheby S_Cheby P_Cheby P_Cheby2 P_Cheby3
  C_Host C_Eig M_FastAP C_FastAP C_HostEnd E_Lanczos C_Lanczos C_Cheby C_MfRate C_Rate C_CudaHier E_Solve E_CudaHier P_CudaHier3 P_ParEnd P_Perm C_Local.
Import ListNotations.
Set Implicit Arguments.
Open Scope list_scope.
Open Scope nat_scope.

Section CMfLanczos.
  Variable K : ofield.
  Add Field KfieldC99L : (f_field K).
  Local Open Scope K_scope.
  Local Notation vec := (vec K).

  (** Matrices that agree off the constrained dofs agree on vectors that vanish there. *)
  Lemma same_off_constrained : forall (M B : mat K) C x, nr B = nr M -> nc B = nr M -> nc M = nr M -> decoupled M C -> decoupled B C ->
    (forall i j, (i < nr M)%nat -> (j < nr M)%nat -> ~ In i C -> ~ In j C -> ent B i j = ent M i j) -> length x = nr M -> vanishes C x -> mulvec B x = mulvec M x.
  Proof.
    intros M B C x H1 H2 H3 DM DB HE Lx V. apply vec_ext; [rewrite !mulvec_length; exact H1|]. intros i Hi. rewrite mulvec_length, H1 in Hi. rewrite !nth_mulvec by lia. rewrite H2, H3.
    apply sumn_ext. intros j Hj. destruct (in_dec Nat.eq_dec j C) as [Ij|Nj]; [rewrite (V j Ij); ring|]. destruct (in_dec Nat.eq_dec i C) as [Ii|Ni]; [|rewrite HE by auto; ring].
    assert (j <> i) by (intros ->; contradiction). rewrite (proj1 (DB i j Ii H)), (proj1 (DM i j Ii H)). ring.
  Qed.

  (** C99: Lanczos on a matrix-free agglomerate.  The operator of the agglomerate is a symmetric matrix B that agrees with the agglomerate matrix M off the constrained dofs; at
      the constrained dofs, whose rows and columns are empty but for the diagonal, the values of B and of the diagonal are arbitrary. *)
  Theorem C99_lanczos_pairs : forall parse_double lobpcg fsqrt dstev tol2 rand std_sort debug draw params n_eig tolerance (M B : mat K) op diag C dof_map scratch r (c m : nat),
    sqrt_ok fsqrt -> dstev_ok dstev -> 0 <= tol2 -> std_sort_contract std_sort ->
    symmetric_matrix M -> decoupled M C -> symmetric_matrix B -> decoupled B C -> nr B = nr M ->
    (forall x, length x = nr M -> op x = mulvec B x) ->
    (forall i j, (i < nr M)%nat -> (j < nr M)%nat -> ~ In i C -> ~ In j C -> ent B i j = ent M i j) ->
    eigensolver_matrix_free debug params = Ok ELanczos ->
    (if pt_get parse_bool ["is_deflated"%string] false params
     then pt_require parse_int ["num_cycles"%string] params = Ok (Z.of_nat c) /\ pt_require parse_int ["num_eigenpairs_per_cycle"%string] params = Ok (Z.of_nat m)
     else c = 1%nat /\ m = n_eig) ->
    let maxit := Z.to_nat (pt_get parse_int ["max_iterations"%string] 200%Z params) in
    (1 <= maxit)%nat -> (nr M <= maxit)%nat -> (1 <= m)%nat -> (1 <= n_eig <= c * m)%nat ->
    compute_local_eigenvectors_mf parse_double lobpcg fsqrt dstev tol2 rand std_sort debug draw params n_eig tolerance (nr M) op diag C dof_map scratch = Ok r ->
    length (ag_evals r) = n_eig /\ length (ag_evecs r) = n_eig /\ orthonormal (nr M) (ag_evecs r) /\ ascending (ag_evals r) /\
    let tol := fmax tolerance (1 / fpos 10000) in
    forall i, (i < n_eig)%nat -> vanishes C (nth i (ag_evecs r) []) /\
      let v := residual M (nth i (ag_evals r) 0) (nth i (ag_evecs r) []) in dot v v <= tol * tol * (1 + fnat ((c - 1) * m)).
  Proof.
    intros parse_double lobpcg fsqrt dstev tol2 rand std_sort debug draw params n_eig tolerance M B op diag C dof_map scratch r c m Hsq Hd Ht Hs SM DM SB DB HB Hop HE Ek Hp maxit H1 H2 H3 H4 E.
    unfold compute_local_eigenvectors_mf in E. rewrite Ek in E. cbn [bind] in E. apply bind_inv in E. destruct E as ((evals & evecs) & El & E). cbn [fst snd] in E. injection E as <-.
    destruct (lanczos_wrapper_inv _ _ _ _ Hs _ _ _ _ _ _ (repeat_length (0 : K) n_eig) El) as (c' & m' & q & Hcm & Es & -> & -> & Lq). cbv zeta in *. cbn [ag_evals ag_evecs].
    set (dfl := pt_get parse_bool ["is_deflated"%string] false params) in *.
    assert (Ecm : (if dfl then c' = c /\ m' = m else c = 1%nat /\ m = n_eig)).
    { destruct dfl; auto. destruct Hcm as (cz & mz & A1 & A2 & -> & ->). destruct Hp as [B1 B2]. rewrite A1 in B1. rewrite A2 in B2. injection B1 as ->. injection B2 as ->. rewrite !Nat2Z.id. auto. }
    assert (Em : (if dfl then m' else n_eig) = m) by (destruct dfl; [destruct Ecm as [-> ->]|destruct Ecm as [-> ->]]; auto).
    assert (Ec : (if dfl then c' else 1%nat) = c) by (destruct dfl; [destruct Ecm as [-> ->]|destruct Ecm as [-> ->]]; auto).
    assert (SqM : nc M = nr M) by (symmetry; apply SM). assert (SqB : nc B = nr M) by (rewrite <- HB; symmetry; apply SB).
    destruct SB as [Sqb Sb]. assert (HopB := @symmetric_mat K B Sqb Sb).
    assert (OnAll : symmetric_on (fun x : vec => length x = nr M) op).
    { rewrite <- HB in *. constructor.
      - intros x Lx. rewrite Hop by exact Lx. apply (sy_into HopB). exact Lx.
      - intros x y Lx Ly. rewrite !Hop by assumption. apply (sy_sym HopB); assumption. }
    assert (Mul : forall x, free (nr M) C x -> op x = mulvec M x).
    { intros x (Lx & V). rewrite Hop by exact Lx. apply same_off_constrained with (C := C); auto. }
    assert (OnFree : symmetric_on (free (nr M) C) op).
    { constructor; [|intros x y (Lx & _) (Ly & _); apply (sy_sym OnAll); assumption].
      intros x Fx. rewrite (Mul x Fx). destruct Fx as (Lx & V). split; [apply mulvec_length|]. intros i Hi. destruct (le_lt_dec (nr M) i) as [Ge|Lt]; [apply nth_overflow; rewrite mulvec_length; exact Ge|].
      rewrite nth_mulvec by exact Lt. apply sumn_zero. intros j Hj. destruct (Nat.eq_dec j i) as [->|Ne]; [rewrite (V i Hi)|rewrite (proj1 (DM i j Hi Ne))]; ring. }
    assert (Ig := initial_free draw M C). unfold initial_vector in Ig. destruct Ig as (Lg & Vg). fold maxit in Es.
    destruct (@solve_acc K fsqrt Hsq debug dstev Hd tol2 Ht (nr M) (free (nr M) C) (@free_sub K (nr M) C) op OnFree rand (fun v seed => @free_perturb K (nr M) C rand v seed) std_sort Hs
      dfl n_eig m' c' maxit _ _ _ q H1 H2 (conj Lg Vg) ltac:(rewrite Em; auto) ltac:(rewrite Em, Ec; lia) Es) as (_ & Ac).
    rewrite Em, Ec in Ac.
    destruct (@solve_spec K fsqrt Hsq debug dstev Hd tol2 Ht (nr M) rand std_sort Hs op (sy_into OnAll) (sy_sym OnAll) dfl n_eig m' c' maxit _ _ _ q H1 Lg ltac:(rewrite Em; auto) ltac:(rewrite Ec; nia) Es)
      as (_ & ps & _ & _ & _ & _ & _ & Hout).
    destruct (Hout ltac:(rewrite Em, Ec; lia)) as [As Or].
    split; [rewrite map_length; exact Lq|]. split; [rewrite map_length; exact Lq|]. split; [exact Or|]. split; [exact As|].
    intros i Hi. assert (Hi' : (i < length q)%nat) by lia.
    rewrite (nth_map_in fst q (0, []) 0 Hi'), (nth_map_in snd q (0, []) [] Hi'). destruct (Ac (nth i q (0, [])) (nth_In _ _ Hi')) as [Fr Ra]. split; [apply Fr|].
    unfold residual. rewrite <- (Mul _ Fr). exact Ra.
  Qed.

  (** C99: and the vectors represent every vector on the agglomerate. *)
  Theorem C99_lanczos : forall parse_double lobpcg fsqrt dstev tol2 rand std_sort debug draw params n_eig tolerance (M B : mat K) op diag C dof_map scratch r (c m : nat) lambda lambda' eps,
    sqrt_ok fsqrt -> dstev_ok dstev -> 0 <= tol2 -> std_sort_contract std_sort ->
    symmetric_matrix M -> positive_semidefinite M -> decoupled M C -> symmetric_matrix B -> decoupled B C -> nr B = nr M ->
    (forall x, length x = nr M -> op x = mulvec B x) ->
    (forall i j, (i < nr M)%nat -> (j < nr M)%nat -> ~ In i C -> ~ In j C -> ent B i j = ent M i j) ->
    eigensolver_matrix_free debug params = Ok ELanczos ->
    (if pt_get parse_bool ["is_deflated"%string] false params
     then pt_require parse_int ["num_cycles"%string] params = Ok (Z.of_nat c) /\ pt_require parse_int ["num_eigenpairs_per_cycle"%string] params = Ok (Z.of_nat m)
     else c = 1%nat /\ m = n_eig) ->
    let maxit := Z.to_nat (pt_get parse_int ["max_iterations"%string] 200%Z params) in
    (1 <= maxit)%nat -> (nr M <= maxit)%nat -> (1 <= m)%nat -> (1 <= n_eig <= c * m)%nat ->
    compute_local_eigenvectors_mf parse_double lobpcg fsqrt dstev tol2 rand std_sort debug draw params n_eig tolerance (nr M) op diag C dof_map scratch = Ok r ->
    (forall k, In k C -> (k < nr M)%nat -> lambda <= ent M k k) ->
    (forall x, length x = nr M -> vanishes C x -> (forall e, In e (ag_evecs r) -> dot e x = 0) -> lambda * dot x x <= dot (mulvec M x) x) ->
    lambda' <= lambda -> 0 <= eps ->
    let tol := fmax tolerance (1 / fpos 10000) in
    fnat n_eig * (tol * tol * (1 + fnat ((c - 1) * m))) <= (lambda - lambda') * eps ->
    sized_all (nr M) (ag_evecs r) /\ (forall e, In e (ag_evecs r) -> vanishes C e) /\ approximates_up_to M (rows_matrix (nr M) (ag_evecs r)) lambda' eps.
  Proof.
    intros parse_double lobpcg fsqrt dstev tol2 rand std_sort debug draw params n_eig tolerance M B op diag C dof_map scratch r c m lambda lambda' eps
      Hsq Hd Ht Hs Sy PD D SB DB HB Hop HE Ek Hp maxit H1 H2 H3 H4 E HC HG Hl He tol HT.
    destruct (@C99_lanczos_pairs parse_double lobpcg fsqrt dstev tol2 rand std_sort debug draw params n_eig tolerance M B op diag C dof_map scratch r c m Hsq Hd Ht Hs Sy D SB DB HB Hop HE Ek Hp H1 H2 H3 H4 E) as (L1 & L2 & O & _ & HR).
    assert (HV : forall e, In e (ag_evecs r) -> vanishes C e).
    { intros e Ie. destruct (In_nth _ _ [] Ie) as (i & Hi & <-). apply HR. unfold OField.vec in *. lia. }
    split; [apply O|]. split; [exact HV|]. apply inexact_represents with (mus := ag_evals r) (lambda := lambda); auto.
    - apply gap_constrained with (C := C); auto; [apply Sy| |].
      + intros e Ie. split; [|apply HV; exact Ie]. destruct O as [Sz _]. unfold sized_all in Sz. rewrite Forall_forall in Sz. apply Sz. exact Ie.
      + intros x Lx. apply HG. assert (Sq : nr M = nc M) by apply Sy. congruence.
    - eapply fle_trans; [|exact HT]. replace (length (ag_evecs r)) with n_eig by (unfold OField.vec in *; lia). clear - HR.
      assert (X : forall k, (k <= n_eig)%nat -> sumn k (fun i => dot (residual M (nth i (ag_evals r) 0) (nth i (ag_evecs r) [])) (residual M (nth i (ag_evals r) 0) (nth i (ag_evecs r) []))) <=
        fnat k * (tol * tol * (1 + fnat ((c - 1) * m)))); [|apply X; lia].
      induction k as [|k IH]; intros Hk; cbn [sumn fnat]; [match goal with |- _ <= ?a => replace a with (0 : K) by ring end; apply fle_refl|].
      match goal with |- _ <= ?a => replace a with (fnat k * (tol * tol * (1 + fnat ((c - 1) * m))) + tol * tol * (1 + fnat ((c - 1) * m))) by ring end.
      apply fle_add2; [apply IH; lia|]. apply (HR k). lia.
  Qed.
  (** A matrix without its entries out of range. *)
  Definition trim (M : mat K) : mat K := mkMat (nr M) (nc M) (fun i j => if ((i <? nr M) && (j <? nc M))%bool%nat then ent M i j else 0).
  Lemma trim_mulvec : forall M x, mulvec (trim M) x = mulvec M x.
  Proof.
    intros M x. apply vec_ext; [rewrite !mulvec_length; reflexivity|]. intros i Hi. rewrite mulvec_length in Hi. cbn [trim nr] in Hi. rewrite !nth_mulvec by exact Hi. cbn [trim nc ent].
    apply sumn_ext. intros j Hj. replace (i <? nr M)%nat with true by (symmetry; apply Nat.ltb_lt; exact Hi). replace (j <? nc M)%nat with true by (symmetry; apply Nat.ltb_lt; exact Hj). reflexivity.
  Qed.
  Lemma trim_sym : forall M, symmetric_matrix M -> symmetric_matrix (trim M).
  Proof.
    intros M (Sq & S). split; [exact Sq|]. unfold square in Sq. cbn [trim nr ent]. intros i j Hi Hj. rewrite <- Sq. rewrite (andb_comm (i <? nr M)%nat). destruct (_ && _)%bool; auto.
  Qed.
  Lemma trim_decoupled : forall M C, symmetric_matrix M -> (forall k l, (k < nr M)%nat -> (l < nr M)%nat -> k <> l -> In k C -> ent M k l = 0) -> decoupled (trim M) C.
  Proof.
    intros M C (Sq & S) H k l Ik N. unfold square in Sq. cbn [trim ent]. rewrite <- Sq.
    destruct (Nat.ltb_spec k (nr M)) as [Hk|]; [|cbn [andb]; rewrite andb_false_r; auto]. destruct (Nat.ltb_spec l (nr M)) as [Hl|]; [|auto]. cbn [andb].
    split; [apply H; auto|]. rewrite S by auto. apply H; auto.
  Qed.
End CMfLanczos.

Section CMfEnd.
  Variable K : ofield.
  Add Field KfieldC99 : (f_field K).
  Local Notation vec := (vec K).
  (** External code and user code, as in M_MfEnd.v. *)
  Variable parse_unsigned : string -> option Z.
  Variable parse_double : string -> option K.
  Variable lobpcg : (vec -> vec) -> Z -> K -> list vec -> bool * eigensolution K.
  Variable fsqrt : K -> option K.
  Variable dstev : list K -> list K -> outcome (list K * list K).
  Variable tol2 : K.
  Variable rand : nat -> nat -> K.
  Variable std_sort : (nat -> nat -> bool) -> list nat -> list nat.
  Variable partition : partitioner_kind -> list nat.
  Variable conn : nat -> list nat.
  Variable agg_dofs : list nat -> list nat.
  Variable agg_op : list nat -> vec -> vec.
  Variable agg_diag : list nat -> list K.
  Variable constrained : list nat -> list nat.
  Variable draws : nat -> nat -> K.
  Variables (debug dim3 : bool).
  Variable m : mesh.
  Variable F : fem K.
  Variable fixed : nat -> bool.
  Variable gd : nat -> option K.
  Local Notation A := (assembled F m).
  Local Notation run := (mf_restrictor_run parse_unsigned parse_double lobpcg fsqrt dstev tol2 rand std_sort partition conn agg_dofs agg_op agg_diag constrained draws
    debug dim3 m (f_ndofs F) gd).
  Local Notation problem := (mf_local_problem parse_double lobpcg fsqrt dstev tol2 rand std_sort agg_dofs agg_op agg_diag constrained draws debug m).
  Local Notation agglomerates := (build_agglomerates parse_unsigned partition debug dim3 m).
  Local Notation fresh := (repeat 0 (n_cells m)).

  Hypothesis Hmesh : mesh_ok debug m.
  Hypothesis Hpart : forall k, length (owned_cells m) <= length (partition k).
  Hypothesis Hserial : serial m.
  Hypothesis Hfem : fem_ok F.
  Hypothesis Hpsd : forall c u, fle 0%K (cell_energy F c u).
  Hypothesis Heval : mf_evaluator_ok F fixed agg_dofs agg_op agg_diag constrained.
  Hypothesis Hspd : spd (f_ndofs F) (mulvec A).
  Hypothesis Hgd : mf_diagonal_ok F fixed A gd.

  (** C99: the coarse space inherits the quality of the local vectors, whatever the diagonals are at the constrained dofs. *)
  Theorem C99_coarse_space : forall p R AP lambda eps kappa, run fresh p R AP -> fle 0%K lambda -> fle 0%K eps -> cells_per_dof F (n_cells m) kappa ->
    mf_kept_represent F fixed agglomerates problem agg_dofs m p lambda eps -> approximates_up_to A R lambda (eps * fnat kappa)%K.
  Proof.
    intros p R AP lambda eps kappa HR H0 H1 HK HD. eapply mf_coarse; eauto.
  Qed.
  (** C99: there is such a run as soon as the eigensolver succeeds on every agglomerate; nothing checks the diagonals. *)
  Theorem C99_runs_exist : forall p eig agg ui n lambda eps, pt_find p ["eigensolver"%string] = Some eig -> pt_find p ["agglomeration"%string] = Some agg ->
    agglomerates agg fresh = Ok (ui, n) -> mf_kept_represent F fixed agglomerates problem agg_dofs m p lambda eps ->
    (forall a, 1 <= a <= n -> exists c, forall sc, problem eig ui a sc = Ok c) -> exists R AP, run fresh p R AP.
  Proof. intros p eig agg ui n lambda eps P1 P2 BA HD HP. eapply mf_run_exists; eauto. Qed.
  (** C99: with fast_ap and eigenpairs, the product computed with the operators of the patches is A R^T. *)
  Theorem C99_fast_product : forall p R AP lambda eps, run fresh p R AP -> connectivity_ok F m conn -> pt_get parse_bool ["fast_ap"%string] false p = true ->
    mf_kept_represent F fixed agglomerates problem agg_dofs m p lambda eps -> mf_kept_exact F agglomerates problem agg_dofs m p ->
    (forall agg ui n, pt_find p ["agglomeration"%string] = Some agg -> agglomerates agg fresh = Ok (ui, n) ->
      (forall a, 1 <= a <= n -> touches_others m ui conn a) \/ (forall a, 1 <= a <= n -> ~ touches_others m ui conn a)) ->
    meq AP (mmul A (mtrans R)).
  Proof. intros p R AP lambda eps HR HC HF HD HX HT. eapply mf_fast_product; eauto. Qed.

  (** C99: with Lanczos, a gap in the spectra of the agglomerates is all that the coarse space needs. *)
  Theorem C99_lanczos_represents : forall p eig (nc nk : nat) lambda lambda' eps, sqrt_ok fsqrt -> dstev_ok dstev -> fle 0%K tol2 -> std_sort_contract std_sort ->
    (forall c g h, f_cm F c g h = f_cm F c h g) -> fixed_decoupled F fixed -> mf_operator_ok fixed agg_dofs agg_op ->
    pt_find p ["eigensolver"%string] = Some eig -> eigensolver_matrix_free debug eig = Ok ELanczos ->
    (if pt_get parse_bool ["is_deflated"%string] false eig
     then pt_require parse_int ["num_cycles"%string] eig = Ok (Z.of_nat nc) /\ pt_require parse_int ["num_eigenpairs_per_cycle"%string] eig = Ok (Z.of_nat nk)
     else nc = 1 /\ nk = n_eigenvectors eig) ->
    let maxit := Z.to_nat (pt_get parse_int ["max_iterations"%string] 200%Z eig) in
    1 <= maxit -> f_ndofs F <= maxit -> 1 <= nk -> 1 <= n_eigenvectors eig <= nc * nk ->
    mf_gap F fixed agglomerates problem agg_dofs m p lambda -> fle lambda' lambda -> fle 0%K eps ->
    let tol := fmax (eig_tolerance K parse_double eig) (1 / fpos 10000)%K in
    fle (fnat (n_eigenvectors eig) * (tol * tol * (1 + fnat ((nc - 1) * nk))))%K ((lambda - lambda') * eps)%K ->
    mf_kept_represent F fixed agglomerates problem agg_dofs m p lambda' eps.
  Proof.
    intros p eig ncy nk lambda lambda' eps Hsq Hd Ht Hs Hsym Hfd Hmo Pe Ek Hp maxit H1 H2 H3 H4 HG Hl He tol HT eig' agg ui n a sc c Pe' Pa BA Ha E.
    assert (eig' = eig) by congruence. subst eig'. cbv zeta. destruct (HG eig agg ui n a sc c Pe Pa BA Ha E) as (G1 & G2). cbv zeta in G1, G2. clear HG BA.
    unfold mf_local_problem in E. rewrite (mf_cells Hserial) in E.
    assert (N := mf_nodup m ui a). set (cells := agg_cells m ui a) in *. destruct (Heval N) as (E1 & E2 & E3 & E4 & _). cbv zeta in E1, E2, E3, E4.
    destruct (Hmo cells N) as (B & B1 & B2 & B3 & B4). cbv zeta in B1, B3, B4. set (dofs := agg_dofs cells) in *. set (M := patch_matrix F cells dofs) in *.
    assert (SM : symmetric_matrix M). { split; [reflexivity|]. intros i j _ _. unfold M. cbn [patch_matrix ent]. apply lsum_map_ext. intros k _. apply Hsym. }
    assert (PO : patch_ok F cells dofs M) by (split; [exact E1|]; split; [reflexivity|]; split; [reflexivity|]; split; [exact E2|intros k l _ _; reflexivity]).
    assert (PM := @patch_psd K F Hfem _ _ _ Hpsd PO).
    assert (Sqb : Mat.nc B = length dofs) by (rewrite <- B1; symmetry; apply B2).
    assert (VZ : forall x : vec, vanishes (constrained cells) x -> zero_at_fixed fixed dofs x) by (intros x V k Hk F0; apply V; apply E4; auto).
    destruct (@C99_lanczos K parse_double lobpcg fsqrt dstev tol2 rand std_sort debug (draws a) eig (n_eigenvectors eig) (eig_tolerance K parse_double eig) (trim M) (trim B)
      (agg_op cells) (agg_diag cells) (constrained cells) dofs sc c ncy nk lambda lambda' eps Hsq Hd Ht Hs) as (R1 & R2 & R3); auto.
    - apply trim_sym. exact SM.
    - intros x Lx. rewrite trim_mulvec. apply PM. exact Lx.
    - apply trim_decoupled; auto. intros k l Hk Hl' Nk Ik. apply E4 in Ik; [|exact Hk]. unfold M. cbn [patch_matrix ent]. apply lsum_map_0. intros d _.
      refine (proj1 (Hfd d _ _ Ik _)). intros Q. apply Nk. apply (proj1 (NoDup_nth dofs 0) E1); auto.
    - apply trim_sym. exact B2.
    - apply trim_decoupled; auto. rewrite B1. intros k l Hk Hl' Nk Ik. apply B3; auto. apply E4; auto.
    - intros x Lx. rewrite trim_mulvec. apply B4. exact Lx.
    - cbn [trim nr]. intros i j Hi Hj Ni Nj. cbn [trim ent]. rewrite B1, Sqb. unfold M in Hi, Hj. cbn [patch_matrix nr] in Hi, Hj. unfold M. cbn [patch_matrix nr Mat.nc].
      replace (i <? length dofs) with true by (symmetry; apply Nat.ltb_lt; exact Hi). replace (j <? length dofs) with true by (symmetry; apply Nat.ltb_lt; exact Hj). cbn [andb].
      assert (Lu : length (unit_vec (length dofs) j : vec) = length dofs) by apply unit_vec_length.
      assert (Zu : zero_at_fixed fixed dofs (unit_vec (length dofs) j : vec)).
      { intros k Hk Fk. rewrite nth_unit_vec by exact Hj. destruct (Nat.eqb_spec k j) as [->|]; auto. exfalso. apply Nj. apply E4; auto. }
      assert (Q := E3 _ Lu Zu). rewrite (B4 _ Lu) in Q. apply (f_equal (fun v => nth i v 0%K)) in Q.
      assert (Q1 := @mulvec_unit K B j i ltac:(rewrite Sqb; exact Hj) ltac:(rewrite B1; exact Hi)). assert (Q2 := @mulvec_unit K M j i Hj Hi). rewrite Sqb in Q1. rewrite Q1 in Q. rewrite Q. exact Q2.
    - cbn [trim nr]. eapply Nat.le_trans; [|exact H2]. unfold M. cbn [patch_matrix nr]. rewrite <- (seq_length (f_ndofs F) 0). apply NoDup_incl_length; [exact E1|].
      intros g Ig. apply E2 in Ig. destruct Ig as (d & _ & Ig). apply in_seq. destruct (Hfem d) as (Q & _). specialize (Q g Ig). lia.
    - cbn [trim nr ent]. intros k Ik Hk. assert (Hk' : k < Mat.nc M) by exact Hk. replace (k <? nr M) with true by (symmetry; apply Nat.ltb_lt; exact Hk).
      replace (k <? Mat.nc M) with true by (symmetry; apply Nat.ltb_lt; exact Hk'). cbn [andb]. apply G1; auto. apply E4; auto.
    - intros x Lx Vx Ox. rewrite trim_mulvec. apply G2; auto.
    - split; [exact R1|]. split; [intros e Ie; apply VZ; apply R2; exact Ie|]. intros v Lv. destruct (R3 v Lv) as (w & Lw & Q). exists w. split; [exact Lw|].
      unfold energy in Q |- *. rewrite trim_mulvec in Q. exact Q.
  Qed.

  Section Rate.
    Variable cg : N -> nat -> (vec -> vec) -> vec -> option (K * K).
    Variable auto_degree : K -> K -> K -> N.
    Variable accepts_double : string -> bool.
    Variable mk : ptree -> outcome (mat K * mat K).
    Variable ml_vmult : ml_list -> mat K -> vec -> vec.
    (** The global operator [f], its diagonal [d] as the smoother sees it, the estimates of its eigenvalues, and options that choose the Chebyshev smoother. *)
    Variables (f : vec -> vec) (d dinv : vec) (drop : K) (te0 : tenv) (p : ptree) (R AP : mat K) (lo hi dmax theta lambda eps mu lambda' : K) (kappa : nat).
    Local Notation n := (f_ndofs F).
    Local Notation range := (pt_get parse_double ["smoother"; "smoothing_range"]%string 0%K p).
    Local Notation top := (fpos 12 / fpos 10 * hi)%K.
    Local Notation rho := (1 - theta * lambda')%K.
    Local Notation built h := (exists s l,
      construct (mf_helpers parse_double cg auto_degree n f dinv accepts_double mk ml_vmult) drop te0 debug (Ok tt) (Some p) None = (Ok h, s, l)).
    Hypothesis Hop : forall x, length x = n -> f x = mulvec A x.
    Hypothesis Hdiag : inverse_diagonal n d dinv.
    Hypothesis Hsteps : 0 < c_steps p.
    Hypothesis Hlevels : c_levels p = 2%Z.
    Hypothesis Hcoarse : ci_eq (text_at p ["coarse"; "type"]%string "direct") "direct".
    Hypothesis Hsmoother : ci_eq (text_at p ["smoother"; "type"]%string "Chebyshev") "chebyshev".
    Hypothesis Hcg : cg 8%N n f dinv = Some (lo, hi).
    Hypothesis Hest : usable_estimate n f d range lo hi.
    Hypothesis Hdmax : flt 0%K dmax.
    Hypothesis Hbound : forall i, i < n -> fle (nth i d 0%K) dmax.
    Hypothesis Htheta : fle 0%K theta.
    Hypothesis Hgain : cheb_gain dmax (interval_low range lo top) top theta.
    (** The restriction comes from a run of build_restrictor, its rows are independent. *)
    Hypothesis Hmk : mk p = Ok (R, AP).
    Hypothesis Hrun : run fresh p R AP.
    Hypothesis Hrank : full_row_rank R.
    Hypothesis Hproduct : if pt_get parse_bool ["fast_ap"%string] false p
      then connectivity_ok F m conn /\ mf_kept_exact F agglomerates problem agg_dofs m p /\
        forall agg ui n, pt_find p ["agglomeration"%string] = Some agg -> agglomerates agg fresh = Ok (ui, n) ->
          (forall a, 1 <= a <= n -> touches_others m ui conn a) \/ (forall a, 1 <= a <= n -> ~ touches_others m ui conn a)
      else no_small_entry drop A R.
    (** The local vectors, the smallest eigenvalue [mu] of A, and at most [kappa] cells in a dof. *)
    Hypothesis Hkept : mf_kept_represent F fixed agglomerates problem agg_dofs m p lambda eps.
    Hypothesis Hlam0 : fle 0%K lambda.
    Hypothesis Heps : fle 0%K eps.
    Hypothesis Hcells : cells_per_dof F (n_cells m) kappa.
    Hypothesis Hmu : flt 0%K mu.
    Hypothesis Hlow : forall v, length v = n -> fle (mu * dot v v)%K (energy (mulvec A) v).
    Hypothesis Hlam : flt 0%K lambda'.
    Hypothesis Hloss : fle (lambda' * (mu + eps * fnat kappa))%K (lambda * mu)%K.

    Lemma mf_end_facts : is_matrix n f A /\ pt_find p ["eigensolver"%string] <> None /\ pt_find p ["agglomeration"%string] <> None /\ nc R = n /\
      (if pt_get parse_bool ["fast_ap"%string] false p then meq AP (mmul A (mtrans R)) else no_small_entry drop A R) /\ approximates A R lambda'.
    Proof.
      assert (X := Hrun). destruct X as (eig & agg & ui & na & ns & nb & dd & mm & P1 & P2 & _ & _ & _ & ER & _).
      split; [split; [reflexivity|split; [reflexivity|exact Hop]]|]. split; [congruence|]. split; [congruence|]. split; [rewrite ER; reflexivity|]. split.
      - destruct (pt_get parse_bool ["fast_ap"%string] false p) eqn:EF; [|exact Hproduct]. destruct Hproduct as (Q1 & Q2 & Q3). eapply C99_fast_product; eauto.
      - apply absorb with (lambda := lambda) (eps := (eps * fnat kappa)%K) (mu := mu); auto.
        + apply fle_mul; [exact Heps|apply fnat_nonneg].
        + eapply C99_coarse_space; eauto.
    Qed.
    (** C99: every call of vmult multiplies the energy norm of the error by at most 1 - theta lambda'. *)
    Theorem C99_rate : exists h, built h /\
      forall te x xs l, open_sections l = [] -> length x = n -> length xs = n ->
        exists y l', hierarchy_vmult te h x (f xs) l = (Ok y, l') /\ open_sections l' = [] /\ length y = n /\
          fle (energy f (vsub xs y)) (rho * rho * energy f (vsub xs (if c_prec p then vzero n else x)))%K.
    Proof.
      destruct mf_end_facts as (D1 & D2 & D3 & D4 & D5 & D6). exact (@C98_rate K parse_double cg auto_degree accepts_double mk ml_vmult n f d dinv drop te0 debug p A R AP lo hi dmax theta lambda'
        D1 Hspd Hdiag Hsteps Hlevels Hcoarse Hsmoother Hcg Hest Hdmax Hbound Htheta Hgain D2 D3 Hmk D4 Hrank D5 Hlam D6).
    Qed.
    (** C99: as a preconditioner M, the spectrum of M A lies in [theta lambda', 2 - theta lambda']. *)
    Theorem C99_condition : c_prec p = true -> fle (theta * lambda')%K 1%K -> exists h, built h /\
      forall te x e l, open_sections l = [] -> length x = n -> length e = n ->
        exists y l', hierarchy_vmult te h x (f e) l = (Ok y, l') /\ open_sections l' = [] /\
          fle (theta * lambda' * energy f e)%K (dot y (f e)) /\ fle (dot y (f e)) ((1 + 1 - theta * lambda') * energy f e)%K.
    Proof.
      destruct mf_end_facts as (D1 & D2 & D3 & D4 & D5 & D6). exact (@C98_condition K parse_double cg auto_degree accepts_double mk ml_vmult n f d dinv drop te0 debug p A R AP lo hi dmax theta lambda'
        D1 Hspd Hdiag Hsteps Hlevels Hcoarse Hsmoother Hcg Hest Hdmax Hbound Htheta Hgain D2 D3 Hmk D4 Hrank D5 Hlam D6).
    Qed.
  End Rate.
End CMfEnd.
Print Assumptions C99_lanczos_pairs.
Print Assumptions C99_lanczos.
Print Assumptions C99_lanczos_represents.
Print Assumptions C99_coarse_space.
Print Assumptions C99_runs_exist.
Print Assumptions C99_fast_product.
Print Assumptions C99_rate.
Print Assumptions C99_condition.

(** * Examples: three line elements; the first dof is constrained; the agglomerates are the first two elements and the third; Lanczos; fast_ap. *)
Unset Implicit Arguments.
Definition xcm (c g h : nat) : QcOF :=
  match c, g, h with
  | 0, 0, 0 => lq 30 1 | 0, 1, 1 => lq 1 1
  | 1, 1, 1 => lq 16 1 | 1, 2, 2 => lq 10 1 | 1, 1, 2 => lq (-12) 1 | 1, 2, 1 => lq (-12) 1
  | 2, 2, 2 => lq 17 1 | 2, 3, 3 => lq 10 1 | 2, 2, 3 => lq (-12) 1 | 2, 3, 2 => lq (-12) 1
  | _, _, _ => f0
  end.
Definition xF : fem QcOF := @mkFem QcOF 4 (lcd 3 (fun c => c)) xcm.
Definition xA : mat QcOF := assembled xF (lmesh 3).
Definition xfixed (g : nat) : bool := g =? 0.
Definition xdofs (cells : list nat) : list nat := fst (assemble_patch xF cells).
(** The operator leaves the constrained dofs alone; the diagonals there are 7 and 5. *)
Definition xB (cells : list nat) : mat QcOF := mkMat (length (xdofs cells)) (length (xdofs cells)) (fun k l =>
  if (k =? l) && xfixed (nth k (xdofs cells) 0) then f1 else ent (patch_matrix xF cells (xdofs cells)) k l).
Definition xop (cells : list nat) (x : vec QcOF) : vec QcOF := mulvec (xB cells) x.
Definition xdiag (cells : list nat) : list QcOF :=
  map (fun k => if xfixed (nth k (xdofs cells) 0) then lq 7 1 else ent (patch_matrix xF cells (xdofs cells)) k k) (seq 0 (length (xdofs cells))).
Definition xconstr (cells : list nat) : list nat := filter (fun k => xfixed (nth k (xdofs cells) 0)) (seq 0 (length (xdofs cells))).
Definition xgd (g : nat) : option QcOF := Some (if xfixed g then lq 5 1 else ent xA g g).
Definition xdraws (a c : nat) : QcOF := if c =? 0 then lq 3 5 else lq 4 5.
Definition xtable : list (list QcOF * list QcOF * (list QcOF * list QcOF)) := [([lq 1 1], [], ([lq 1 1], [lq 1 1]))].
Definition xeig : ptree := Node "" [("type"%string, leaf "lanczos")].
Definition xparams (prec fast : string) : ptree := Node "" [("is preconditioner"%string, leaf prec); ("eigensolver"%string, xeig); ("fast_ap"%string, leaf fast);
  ("agglomeration"%string, Node "" [("partitioner"%string, leaf "metis"); ("n_agglomerates"%string, leaf "2")]); ("smoother"%string, Node "" [("type"%string, leaf "Chebyshev"); ("degree"%string, leaf "3")])].
Definition xproblem (diag : list nat -> list QcOF) := mf_local_problem lparse ex_no_lobpcg qsqrt (dstev_of xtable) (lq 1 1000000) (fun _ _ => lq 0 1) (@insertion_sort nat)
  xdofs xop diag xconstr xdraws true (lmesh 3).
Definition xagglomerates := build_agglomerates (fun s => parse_int s) (fun _ => [0; 0; 1]) true false (lmesh 3).
Definition xrun (diag : list nat -> list QcOF) := mf_restrictor_run (fun s => parse_int s) lparse ex_no_lobpcg qsqrt (dstev_of xtable) (lq 1 1000000) (fun _ _ => lq 0 1) (@insertion_sort nat)
  (fun _ => [0; 0; 1]) (lconn 3 (fun c => c)) xdofs xop diag xconstr xdraws true false (lmesh 3) 4 xgd.

Lemma xcm_out : forall c g h, 3 <= c -> xcm c g h = f0.
Proof. intros [|[|[|c]]] g h Hc; [lia|lia|lia|reflexivity]. Qed.
Lemma xfem_ok : fem_ok xF.
Proof.
  intros c. cbn [xF f_cd f_cm f_ndofs]. split.
  - intros g Hg. unfold lcd in Hg. destruct (Nat.ltb_spec c 3) as [Hc|Hc]; [|destruct Hg]. destruct Hg as [<-|[<-|[]]]; lia.
  - intros g h Hn. unfold lcd in Hn. destruct (Nat.ltb_spec c 3) as [Hc|Hc]; [|apply xcm_out; exact Hc].
    destruct c as [|[|[|c]]]; [| | |lia]; destruct g as [|[|[|[|g]]]], h as [|[|[|[|h]]]]; try reflexivity; (exfalso; apply Hn; cbn; auto).
Qed.
Lemma xsym : forall c g h, f_cm xF c g h = f_cm xF c h g.
Proof. intros c g h. cbn [xF f_cm]. destruct c as [|[|[|c]]], g as [|[|[|[|g]]]], h as [|[|[|[|h]]]]; reflexivity. Qed.
Lemma xdecoupled : fixed_decoupled xF xfixed.
Proof.
  intros c g h Hg N. unfold xfixed in Hg. apply Nat.eqb_eq in Hg. subst g. cbn [xF f_cm]. destruct h as [|h]; [destruct (N eq_refl)|].
  destruct c as [|[|[|c]]], h as [|[|[|[|h]]]]; split; reflexivity.
Qed.
Section XCells.
  Add Field QcFieldC99 : (f_field QcOF).
  Local Open Scope K_scope.
  Lemma xcells : forall c u, fle 0%K (cell_energy xF c u).
  Proof.
    intros c u. unfold cell_energy. cbn [xF f_ndofs f_cm sumn]. destruct c as [|[|[|c]]]; cbn [xcm].
    - eapply fle_trans; [apply (@quad2 QcOF (lq 30 1) 0 (lq 1 1) (u 0%nat) (u 1%nat)); [apply fltb_lt; vm_compute; reflexivity|apply fleb_le; vm_compute; reflexivity]|].
      match goal with |- fle ?x ?y => replace y with x by ring; apply fle_refl end.
    - eapply fle_trans; [apply (@quad2 QcOF (lq 16 1) (lq (-12) 1) (lq 10 1) (u 1%nat) (u 2%nat)); [apply fltb_lt; vm_compute; reflexivity|apply fleb_le; vm_compute; reflexivity]|].
      match goal with |- fle ?x ?y => replace y with x by ring; apply fle_refl end.
    - eapply fle_trans; [apply (@quad2 QcOF (lq 17 1) (lq (-12) 1) (lq 10 1) (u 2%nat) (u 3%nat)); [apply fltb_lt; vm_compute; reflexivity|apply fleb_le; vm_compute; reflexivity]|].
      match goal with |- fle ?x ?y => replace y with x by ring; apply fle_refl end.
    - match goal with |- fle ?x ?y => replace y with x by ring; apply fle_refl end.
  Qed.
  (** Two ways to bound an energy of four unknowns by a test of a matrix. *)
  Lemma low_test4 : forall (M : mat QcOF) lambda, nr M = 4%nat -> nc M = 4%nat ->
    spd 4 (mulvec (mkMat 4 4 (fun i j => ent M i j - (if (i =? j)%nat then lambda else 0)))) ->
    forall x, length x = 4%nat -> lambda * dot x x <= energy (mulvec M) x.
  Proof.
    intros M lambda Hr Hc H x Lx. assert (HE := @spd_nonneg QcOF _ _ H x Lx). clear H. destruct x as [|a [|b [|c [|d [|? ?]]]]]; try discriminate Lx.
    apply fle_sub_0. unfold energy. unfold mulvec in *. rewrite Hr, Hc. cbn [seq map dot sumn nth Nat.eqb nr nc ent] in *.
    eapply fle_trans; [exact HE|]. match goal with |- ?u <= ?v => replace u with v by ring end. apply fle_refl.
  Qed.
  Lemma high_test4 : forall (M : mat QcOF) (d : vec QcOF) h, nr M = 4%nat -> nc M = 4%nat ->
    spd 4 (mulvec (mkMat 4 4 (fun i j => (if (i =? j)%nat then h * nth i d 0 else 0) - ent M i j))) -> bounded_by 4 (mulvec M) d h.
  Proof.
    intros M dd h Hr Hc H x Lx. assert (HE := @spd_nonneg QcOF _ _ H x Lx). clear H. destruct x as [|a [|b [|c [|d [|? ?]]]]]; try discriminate Lx.
    apply fle_sub_0. unfold energy. unfold mulvec in *. rewrite Hr, Hc. cbn [seq map dot sumn nth Nat.eqb nr nc ent] in *.
    set (d0 := nth 0 dd 0) in *. set (d1 := nth 1 dd 0) in *. set (d2 := nth 2 dd 0) in *. set (d3 := nth 3 dd 0) in *.
    eapply fle_trans; [exact HE|]. match goal with |- ?u <= ?v => replace u with v by ring end. apply fle_refl.
  Qed.
End XCells.
Ltac qspd := match goal with |- spd _ (mulvec ?M) => apply (@entries_spd QcOF M) end; apply posdef_spd; [apply small_symmetric; [reflexivity|vm_compute; reflexivity]|vm_compute; reflexivity].
Lemma xA_spd : spd 4 (mulvec xA).
Proof. qspd. Qed.
Lemma xA_low : forall v, length v = 4 -> fle (lq 1 1 * dot v v)%K (energy (mulvec xA) v).
Proof. apply low_test4; [reflexivity|reflexivity|]. qspd. Qed.
Lemma xmesh : mesh_ok true (lmesh 3).
Proof. intros c _. repeat split. Qed.
Lemma xserial : serial (lmesh 3).
Proof. intros c _. reflexivity. Qed.
Lemma xpart : forall k : partitioner_kind, length (owned_cells (lmesh 3)) <= length [0; 0; 1].
Proof. intros k. vm_compute. lia. Qed.
Lemma xconn : connectivity_ok xF (lmesh 3) (lconn 3 (fun c => c)).
Proof. exact (@lconn_ok 3 4 (fun c => c)). Qed.
Lemma xper_dof : cells_per_dof xF 3 2.
Proof. intros g Hg. cbn [xF f_ndofs] in Hg. destruct g as [|[|[|[|g]]]]; [| | | |lia]; vm_compute; lia. Qed.
Lemma xevaluator : mf_evaluator_ok xF xfixed xdofs xop xdiag xconstr.
Proof.
  intros cells _. cbv zeta.
  split; [apply NoDup_nodup|]. split; [intros g; unfold xdofs, assemble_patch; cbn [fst]; rewrite nodup_In, in_flat_map; reflexivity|]. split.
  - intros x Lx Zx. unfold xop. apply vec_ext; [rewrite !mulvec_length; reflexivity|]. intros i Hi. rewrite mulvec_length in Hi. cbn [xB nr] in Hi. rewrite !nth_mulvec by exact Hi. cbn [xB nc ent patch_matrix].
    apply sumn_ext. intros j Hj. destruct (Nat.eqb_spec i j) as [->|N]; [|reflexivity]. cbn [andb]. destruct (xfixed (nth j (xdofs cells) 0)) eqn:EF; [|reflexivity].
    rewrite (Zx j Hj EF). exact (eq_trans (Qcmult_0_r _) (eq_sym (Qcmult_0_r _))).
  - split; [intros k Hk; unfold xconstr; rewrite filter_In, in_seq; intuition lia|]. split; [unfold xdiag; rewrite map_length, seq_length; reflexivity|].
    intros k Hk EF. unfold xdiag. rewrite nth_map_in with (da := 0) by (rewrite seq_length; exact Hk). rewrite seq_nth by exact Hk. cbn [Nat.add]. rewrite EF. reflexivity.
Qed.
Lemma xoperator : mf_operator_ok xfixed xdofs xop.
Proof.
  intros cells _. cbv zeta. exists (xB cells). split; [reflexivity|]. split.
  - split; [reflexivity|]. intros i j _ _. cbn [xB ent]. rewrite (Nat.eqb_sym j i). destruct (Nat.eqb_spec i j) as [->|N]; [reflexivity|]. cbn [andb patch_matrix ent]. apply lsum_map_ext. intros c _. apply xsym.
  - split; [|reflexivity]. intros k l Hk Hl N EF. cbn [xB ent]. destruct (Nat.eqb_spec k l) as [|_]; [contradiction|]. cbn [andb patch_matrix ent]. apply lsum_map_0. intros c _.
    refine (proj1 (xdecoupled c _ _ EF _)). intros Q. apply N. apply (proj1 (NoDup_nth (xdofs cells) 0) (NoDup_nodup _ _)); auto.
Qed.
Lemma xgd_ok : mf_diagonal_ok xF xfixed xA xgd.
Proof.
  intros g Hg. cbn [xF f_ndofs] in Hg. unfold xgd. eexists. split; [reflexivity|].
  destruct g as [|[|[|[|g]]]]; [| | | |lia]; cbn [xfixed Nat.eqb]; (split; [apply not_eq_sym, flt_neq, fltb_lt; vm_compute; reflexivity|]); intros Q; try discriminate Q; reflexivity.
Qed.
Lemma xagg : forall prec fast agg ui n, pt_find (xparams prec fast) ["agglomeration"%string] = Some agg -> xagglomerates agg [0; 0; 0] = Ok (ui, n) -> ui = [1; 1; 2] /\ n = 2.
Proof. intros prec fast agg ui n P H. injection P as <-. vm_compute in H. injection H as <- <-. auto. Qed.
Lemma xtouch : forall a, 1 <= a <= 2 -> touches_others (lmesh 3) [1; 1; 2] (lconn 3 (fun c => c)) a.
Proof.
  intros a Ha. assert (E : a = 1 \/ a = 2) by lia. destruct E as [-> | ->]; [exists 1, 2|exists 2, 1]; (split; [split; [cbn; lia|split; reflexivity]|]);
    (split; [vm_compute; auto|]); intros (_ & _ & E); discriminate E.
Qed.
(** What the eigensolver finds, and the restriction. *)
Definition xcheck (diag : list nat -> list QcOF) (test : mat QcOF -> bool) : outcome bool :=
  let! c1 := xproblem diag xeig [1; 1; 2] 1 [] in let! c2 := xproblem diag xeig [1; 1; 2] 2 [] in
  let! mm := compute_restriction true true [length (da_evecs (data_of [c1; c2]))] 0 xgd (data_of [c1; c2]) in
  Ok ((length (da_evecs (data_of [c1; c2])) =? 2) && test (spm_matrix 2 4 (r_R mm)) &&
    match ag_evecs c1, ag_evecs c2 with [e1], [e2] => veqb e1 [lq 0 1; lq 3 5; lq 4 5] && veqb e2 [lq 3 5; lq 4 5] | _, _ => false end &&
    veqb (ag_evals c1) [lq 1 1] && veqb (ag_evals c2) [lq 1 1])%bool.
Lemma xcheck_ok : xcheck xdiag (fun R => posdef 2 (mmul R (mtrans R))) = Ok true.
Proof. vm_compute. reflexivity. Qed.
Lemma xscratch : forall diag a sc, xproblem diag xeig [1; 1; 2] a sc = xproblem diag xeig [1; 1; 2] a [].
Proof. intros diag a sc. reflexivity. Qed.
(** The vectors and values of the two agglomerates. *)
Definition xvec (a : nat) : vec QcOF := if a =? 1 then [lq 0 1; lq 3 5; lq 4 5] else [lq 3 5; lq 4 5].
Section XChecked.
  Variables (diag : list nat -> list QcOF) (test : mat QcOF -> bool).
  Hypothesis H : xcheck diag test = Ok true.
  Lemma xchecked : exists c1 c2 mm, xproblem diag xeig [1; 1; 2] 1 [] = Ok c1 /\ xproblem diag xeig [1; 1; 2] 2 [] = Ok c2 /\
    compute_restriction true true [length (da_evecs (data_of [c1; c2]))] 0 xgd (data_of [c1; c2]) = Ok mm /\ length (da_evecs (data_of [c1; c2])) = 2 /\ test (spm_matrix 2 4 (r_R mm)) = true /\
    ag_evecs c1 = [xvec 1] /\ ag_evecs c2 = [xvec 2] /\ ag_evals c1 = [lq 1 1] /\ ag_evals c2 = [lq 1 1].
  Proof.
    assert (Q := H). unfold xcheck in Q. apply bind_Ok in Q. destruct Q as (c1 & E1 & Q). apply bind_Ok in Q. destruct Q as (c2 & E2 & Q). apply bind_Ok in Q. destruct Q as (mm & E3 & Q).
    apply Ok_inj in Q. do 4 (apply andb_true_iff in Q; destruct Q as (Q & ?Z)). exists c1, c2, mm. split; [exact E1|]. split; [exact E2|]. split; [exact E3|].
    split; [apply Nat.eqb_eq; exact Q|]. split; [exact Z2|]. apply veqb_eq in Z0. apply veqb_eq in Z.
    destruct (ag_evecs c1) as [|e1 [|? ?]]; try discriminate Z1. destruct (ag_evecs c2) as [|e2 [|? ?]]; try discriminate Z1.
    apply andb_true_iff in Z1. destruct Z1 as (Y1 & Y2). apply veqb_eq in Y1. apply veqb_eq in Y2. rewrite Y1, Y2. auto.
  Qed.
  Lemma xkept : forall a c sc, 1 <= a <= 2 -> xproblem diag xeig [1; 1; 2] a sc = Ok c -> ag_evecs c = [xvec a] /\ ag_evals c = [lq 1 1].
  Proof.
    intros a c sc Ha E. rewrite xscratch in E. destruct xchecked as (c1 & c2 & mm & E1 & E2 & _ & _ & _ & V1 & V2 & W1 & W2).
    assert (Q : a = 1 \/ a = 2) by lia. destruct Q as [-> | ->]; [rewrite E in E1; apply Ok_inj in E1; rewrite E1; auto|rewrite E in E2; apply Ok_inj in E2; rewrite E2; auto].
  Qed.
  Lemma xsolves : forall a, 1 <= a <= 2 -> exists c, forall sc, xproblem diag xeig [1; 1; 2] a sc = Ok c.
  Proof.
    intros a Ha. destruct xchecked as (c1 & c2 & mm & E1 & E2 & _). assert (Q : a = 1 \/ a = 2) by lia.
    destruct Q as [-> | ->]; [exists c1; intros sc; refine (eq_trans _ E1); apply xscratch|exists c2; intros sc; refine (eq_trans _ E2); apply xscratch].
  Qed.
  (** Every run ends with the restriction that was tested. *)
  Lemma xtested : forall prec fast R AP, xrun diag [0; 0; 0] (xparams prec fast) R AP -> nr R = 2 /\ nc R = 4 /\ test R = true.
  Proof.
    intros prec fast R AP (eig & agg & ui & n & ns & nb & d & mm & Q1 & Q2 & BA & CO & CR & -> & _). injection Q1 as <-. destruct (xagg prec fast agg ui n Q2 BA) as (-> & ->). clear BA.
    destruct xchecked as (c1 & c2 & mm' & E1 & E2 & CR' & L & T & _). destruct (collected_any CO) as (acs & F1 & F2 & F3).
    destruct acs as [|[a1 z1] [|[a2 z2] [|? ?]]]; try discriminate F1. cbn [map fst seq] in F1. injection F1 as -> ->.
    destruct (F3 1 z1 (or_introl eq_refl)) as (_ & sc1 & G1). destruct (F3 2 z2 (or_intror (or_introl eq_refl))) as (_ & sc2 & G2). clear F3.
    assert (G1' : xproblem diag xeig [1; 1; 2] 1 sc1 = Ok z1) by exact G1. assert (G2' : xproblem diag xeig [1; 1; 2] 2 sc2 = Ok z2) by exact G2. clear G1 G2.
    rewrite xscratch in G1', G2'. rewrite G1' in E1. rewrite G2' in E2. apply Ok_inj in E1. apply Ok_inj in E2. subst z1 z2. cbn [map snd] in F2. subst d.
    rewrite CR' in CR. apply Ok_inj in CR. subst mm'. rewrite L. split; [reflexivity|]. split; [reflexivity|exact T].
  Qed.
End XChecked.
Lemma xgap : forall diag test prec fast, xcheck diag test = Ok true -> mf_gap xF xfixed xagglomerates (xproblem diag) xdofs (lmesh 3) (xparams prec fast) (lq 51 2).
Proof.
  intros diag test prec fast H eig agg ui n a sc c Q1 Q2 BA Ha E. injection Q1 as <-. destruct (xagg prec fast agg ui n Q2 BA) as (-> & ->). clear BA.
  destruct (xkept diag test H a c sc Ha E) as (V & _). rewrite V. clear V E H. assert (Q : a = 1 \/ a = 2) by lia. destruct Q as [-> | ->].
  - change (agg_cells (lmesh 3) [1; 1; 2] 1) with [0; 1]. cbv zeta. change (xdofs [0; 1]) with [0; 1; 2]. split.
    + intros k Hk. cbn [patch_matrix nr length] in Hk. destruct k as [|[|[|k]]]; [| | |lia]; intros Fk; try discriminate Fk. apply fleb_le. vm_compute. reflexivity.
    + intros x Lx _ O. apply (@gap_test3 QcOF) with (e0 := lq 0 1) (e1 := lq 3 5) (e2 := lq 4 5) (s := lq 1000 1); [reflexivity|reflexivity|qspd|exact Lx|]. apply O. left. reflexivity.
  - change (agg_cells (lmesh 3) [1; 1; 2] 2) with [2]. cbv zeta. change (xdofs [2]) with [2; 3]. split.
    + intros k Hk. cbn [patch_matrix nr length] in Hk. destruct k as [|[|k]]; [| |lia]; intros Fk; discriminate Fk.
    + intros x Lx _ O. apply (@gap_test QcOF) with (e0 := lq 3 5) (e1 := lq 4 5) (s := lq 1000 1); [reflexivity|reflexivity|qspd|exact Lx|]. apply O. left. reflexivity.
Qed.
Lemma xrepresent : forall prec fast, mf_kept_represent xF xfixed xagglomerates (xproblem xdiag) xdofs (lmesh 3) (xparams prec fast) (lq 25 1) (lq 1 1000000).
Proof.
  intros prec fast. eapply (@C99_lanczos_represents QcOF) with (nc := 1) (nk := 1) (lambda := lq 51 2) (eig := xeig).
  - exact xserial.
  - exact xfem_ok.
  - exact xcells.
  - exact xevaluator.
  - exact qsqrt_ok.
  - apply dstev_of_ok.
  - apply fleb_le. vm_compute. reflexivity.
  - apply insertion_sort_contract.
  - exact xsym.
  - exact xdecoupled.
  - exact xoperator.
  - reflexivity.
  - reflexivity.
  - split; reflexivity.
  - vm_compute. lia.
  - vm_compute. lia.
  - lia.
  - vm_compute. lia.
  - apply xgap with (test := fun R => posdef 2 (mmul R (mtrans R))). exact xcheck_ok.
  - apply fleb_le. vm_compute. reflexivity.
  - apply fleb_le. vm_compute. reflexivity.
  - apply fleb_le. vm_compute. reflexivity.
Qed.
Lemma xexact : forall prec fast, mf_kept_exact xF xagglomerates (xproblem xdiag) xdofs (lmesh 3) (xparams prec fast).
Proof.
  intros prec fast eig agg ui n a sc c Q1 Q2 BA Ha E. injection Q1 as <-. destruct (xagg prec fast agg ui n Q2 BA) as (-> & ->). clear BA.
  destruct (xkept xdiag _ xcheck_ok a c sc Ha E) as (V & W). rewrite V, W. clear V W E. change (n_eigenvectors xeig) with 1. cbv zeta. split; [reflexivity|]. split; [reflexivity|].
  intros k Hk. replace k with 0 by lia. cbn [nth]. assert (Q : a = 1 \/ a = 2) by lia. destruct Q as [-> | ->]; apply veqb_eq; vm_compute; reflexivity.
Qed.
Lemma xexists : forall prec fast, exists R AP, xrun xdiag [0; 0; 0] (xparams prec fast) R AP.
Proof.
  intros prec fast. unfold xrun. eapply (@C99_runs_exist QcOF) with (F := xF) (fixed := xfixed) (ui := [1; 1; 2]) (n := 2) (lambda := lq 25 1) (eps := lq 1 1000000) (eig := xeig).
  - exact xmesh.
  - exact xpart.
  - exact xserial.
  - exact xfem_ok.
  - exact xevaluator.
  - exact xgd_ok.
  - reflexivity.
  - reflexivity.
  - vm_compute. reflexivity.
  - exact (xrepresent prec fast).
  - exact (xsolves xdiag _ xcheck_ok).
Qed.
Example C99_example : exists R AP, xrun xdiag [0; 0; 0] (xparams "true" "true") R AP /\ approximates_up_to xA R (lq 25 1) (lq 1 1000000 * fnat 2)%K /\ meq AP (mmul xA (mtrans R)).
Proof.
  destruct (xexists "true" "true") as (R & AP & HR). exists R, AP. split; [exact HR|]. split.
  - eapply (@C99_coarse_space QcOF) with (F := xF) (fixed := xfixed) (m := lmesh 3).
    + exact xmesh.
    + exact xpart.
    + exact xserial.
    + exact xfem_ok.
    + exact xcells.
    + exact xevaluator.
    + exact xA_spd.
    + exact xgd_ok.
    + exact HR.
    + apply fleb_le. vm_compute. reflexivity.
    + apply fleb_le. vm_compute. reflexivity.
    + exact xper_dof.
    + exact (xrepresent "true" "true").
  - eapply (@C99_fast_product QcOF) with (F := xF) (fixed := xfixed) (m := lmesh 3).
    + exact xmesh.
    + exact xpart.
    + exact xserial.
    + exact xfem_ok.
    + exact xevaluator.
    + exact xA_spd.
    + exact xgd_ok.
    + exact HR.
    + exact xconn.
    + reflexivity.
    + exact (xrepresent "true" "true").
    + exact (xexact "true" "true").
    + intros agg ui n P B. left. intros a Ha. destruct (xagg "true" "true" agg ui n P B) as (-> & ->). apply xtouch. exact Ha.
Qed.
Definition xd : vec QcOF := [lq 30 1; lq 17 1; lq 27 1; lq 10 1].
Definition xdinv : vec QcOF := [lq 1 30; lq 1 17; lq 1 27; lq 1 10].
Definition xcg : N -> nat -> (vec QcOF -> vec QcOF) -> vec QcOF -> option (QcOF * QcOF) := fun _ _ _ _ => Some (lq 1 2, lq 2 1).
Lemma xinverse : inverse_diagonal 4 xd xdinv.
Proof.
  split; [reflexivity|]. split; [reflexivity|]. intros i Hi. destruct i as [|[|[|[|]]]]; [| | | |lia]; (split; [apply fltb_lt; vm_compute; reflexivity|apply Qc_is_canon; vm_compute; reflexivity]).
Qed.
Lemma xusable : forall r, usable_estimate 4 (mulvec xA) xd r (lq 1 2) (lq 2 1).
Proof.
  intros r. split; [apply fltb_lt; vm_compute; reflexivity|]. split; [right; apply fltb_lt; vm_compute; reflexivity|]. apply high_test4; [reflexivity|reflexivity|]. qspd.
Qed.
Lemma xfull : forall prec fast R AP, xrun xdiag [0; 0; 0] (xparams prec fast) R AP -> full_row_rank R.
Proof.
  intros prec fast R AP HR. destruct (xtested xdiag _ xcheck_ok prec fast R AP HR) as (L & _ & T). apply rank_test. apply posdef_spd; [|cbn [mmul nr]; rewrite L; exact T]. split; [reflexivity|].
  intros i j _ _. cbn [ent mmul mtrans]. apply sumn_ext. intros k _. apply Qcmult_comm.
Qed.
Lemma xbound : forall i, i < 4 -> fle (nth i xd (0 : QcOF)%K) (lq 30 1).
Proof. intros i Hi. destruct i as [|[|[|[|]]]]; [| | | |lia]; apply fleb_le; vm_compute; reflexivity. Qed.
Lemma xproduct : forall prec agg ui n, pt_find (xparams prec "true") ["agglomeration"%string] = Some agg -> xagglomerates agg [0; 0; 0] = Ok (ui, n) ->
  (forall a, 1 <= a <= n -> touches_others (lmesh 3) ui (lconn 3 (fun c => c)) a) \/ (forall a, 1 <= a <= n -> ~ touches_others (lmesh 3) ui (lconn 3 (fun c => c)) a).
Proof. intros prec agg ui n P B. left. intros a Ha. destruct (xagg prec "true" agg ui n P B) as (-> & ->). apply xtouch. exact Ha. Qed.
Ltac c99 prec HR := lazymatch goal with
  | |- inverse_diagonal _ _ _ => exact xinverse | |- usable_estimate _ _ _ _ _ _ => apply xusable | |- cheb_gain _ _ _ _ => unfold cheb_gain; apply fleb_le; vm_compute; reflexivity
  | |- full_row_rank _ => exact (xfull _ _ _ _ HR) | |- mf_restrictor_run _ _ _ _ _ _ _ _ _ _ _ _ _ _ _ _ _ _ _ _ _ _ _ _ => exact HR
  | |- mf_kept_represent _ _ _ _ _ _ _ _ _ => exact (xrepresent prec "true") | |- cells_per_dof _ _ _ => exact xper_dof
  | |- forall i : nat, _ => exact xbound | |- forall v : list _, _ -> fle _ _ => exact xA_low | |- forall v : vec _, _ -> fle _ _ => exact xA_low | |- forall x : list _, _ => reflexivity
  | |- ci_eq _ _ => apply lower_ci; [apply no_upperb_ok; reflexivity|vm_compute; reflexivity] | |- flt _ _ => apply fltb_lt; vm_compute; reflexivity
  | |- fle _ _ => apply fleb_le; vm_compute; reflexivity | |- _ < _ => vm_compute; lia
  | |- (if _ then _ else _) => exact (conj xconn (conj (xexact prec "true") (xproduct prec)))
  | |- xcg _ _ _ _ = _ => reflexivity | |- Ok _ = Ok _ => reflexivity | |- _ = _ => vm_compute; reflexivity end.
(** The smallest eigenvalue of A is at least 1, two cells meet in a dof, and of lambda = 25 there remains 24. *)
Example C99_rate_example : exists R AP h s l, xrun xdiag [0; 0; 0] (xparams "false" "true") R AP /\
  construct (mf_helpers lparse xcg (fun _ _ _ => 1%N) 4 (mulvec xA) xdinv (fun _ => false) (fun _ => Ok (R, AP)) (fun _ _ r => r)) (q 1 (10 ^ 14)) (mkTenv true true) true (Ok tt)
    (Some (xparams "false" "true")) None = (Ok h, s, l) /\
  forall x xs, length x = 4 -> length xs = 4 -> exists y l', hierarchy_vmult (mkTenv true true) h x (mulvec xA xs) [] = (Ok y, l') /\
    fle (energy (mulvec xA) (vsub xs y)) ((1 - lq 1 127 * lq 24 1) * (1 - lq 1 127 * lq 24 1) * energy (mulvec xA) (vsub xs x))%K.
Proof.
  destruct (xexists "false" "true") as (R & AP & HR).
  destruct (@C99_rate QcOF (fun s => parse_int s) lparse ex_no_lobpcg qsqrt (dstev_of xtable) (lq 1 1000000) (fun _ _ => lq 0 1) (@insertion_sort nat) (fun _ => [0; 0; 1]) (lconn 3 (fun c => c))
    xdofs xop xdiag xconstr xdraws true false (lmesh 3) xF xfixed xgd xmesh xpart xserial xfem_ok xcells xevaluator xA_spd xgd_ok xcg (fun _ _ _ => 1%N) (fun _ => false) (fun _ => Ok (R, AP))
    (fun _ _ r => r) (mulvec xA) xd xdinv (q 1 (10 ^ 14)) (mkTenv true true) (xparams "false" "true") R AP (lq 1 2) (lq 2 1) (lq 30 1) (lq 1 127) (lq 25 1) (lq 1 1000000) (lq 1 1) (lq 24 1) 2)
    as (h & (s & l & E) & V); [c99 "false"%string HR ..|].
  exists R, AP, h, s, l. split; [exact HR|]. split; [exact E|]. intros x xs Hx Hs. destruct (V (mkTenv true true) x xs [] eq_refl Hx Hs) as (y & l' & E2 & _ & _ & EN). exists y, l'. split; [exact E2|exact EN].
Qed.
Example C99_condition_example : exists R AP h s l, xrun xdiag [0; 0; 0] (xparams "true" "true") R AP /\
  construct (mf_helpers lparse xcg (fun _ _ _ => 1%N) 4 (mulvec xA) xdinv (fun _ => false) (fun _ => Ok (R, AP)) (fun _ _ r => r)) (q 1 (10 ^ 14)) (mkTenv true true) true (Ok tt)
    (Some (xparams "true" "true")) None = (Ok h, s, l) /\
  forall x e, length x = 4 -> length e = 4 -> exists y l', hierarchy_vmult (mkTenv true true) h x (mulvec xA e) [] = (Ok y, l') /\
    fle (lq 1 127 * lq 24 1 * energy (mulvec xA) e)%K (dot y (mulvec xA e)) /\ fle (dot y (mulvec xA e)) ((1 + 1 - lq 1 127 * lq 24 1) * energy (mulvec xA) e)%K.
Proof.
  destruct (xexists "true" "true") as (R & AP & HR).
  destruct (@C99_condition QcOF (fun s => parse_int s) lparse ex_no_lobpcg qsqrt (dstev_of xtable) (lq 1 1000000) (fun _ _ => lq 0 1) (@insertion_sort nat) (fun _ => [0; 0; 1]) (lconn 3 (fun c => c))
    xdofs xop xdiag xconstr xdraws true false (lmesh 3) xF xfixed xgd xmesh xpart xserial xfem_ok xcells xevaluator xA_spd xgd_ok xcg (fun _ _ _ => 1%N) (fun _ => false) (fun _ => Ok (R, AP))
    (fun _ _ r => r) (mulvec xA) xd xdinv (q 1 (10 ^ 14)) (mkTenv true true) (xparams "true" "true") R AP (lq 1 2) (lq 2 1) (lq 30 1) (lq 1 127) (lq 25 1) (lq 1 1000000) (lq 1 1) (lq 24 1) 2)
    as (h & (s & l & E) & V); [c99 "true"%string HR ..|].
  exists R, AP, h, s, l. split; [exact HR|]. split; [exact E|]. intros x e Hx He. destruct (V (mkTenv true true) x e [] eq_refl Hx He) as (y & l' & E2 & _ & H1 & H2). exists y, l'. split; [exact E2|]. split; assumption.
Qed.

(** Lanczos on the matrix of C91 with a constrained dof, where the operator has 1 and the diagonal 9 instead of 40; it stops after one step. *)
Definition yB : mat QcOF := mkMat 3 3 (fun i j => match i, j with 0, 0 => lq 1 1 | _, _ => ent dM i j end).
Definition ytable : list (list QcOF * list QcOF * (list QcOF * list QcOF)) := [([lq 1130 841], [], ([lq 1130 841], [lq 1 1]))].
Definition ylanczos : outcome (agg_result QcOF) :=
  compute_local_eigenvectors_mf lparse ex_no_lobpcg qsqrt (dstev_of ytable) (lq 1 1000000) (fun _ _ => lq 0 1) (@insertion_sort nat) true
    ldraw leig 1 (lq 3 1) 3 (mulvec yB) [lq 9 1; lq 17 1; lq 10 1] [0] [4; 5; 6] [].
Example C99_lanczos_example : exists r, ylanczos = Ok r /\ approximates_up_to dM (rows_matrix 3 (ag_evecs r)) (lq 15 1) (lq 1 1).
Proof.
  assert (X : exists r, ylanczos = Ok r /\ ag_evecs r = [[lq 0 1; lq 20 29; lq 21 29]]) by (apply single; vm_compute; reflexivity).
  destruct X as (r & E & V). exists r. split; [exact E|].
  eapply (@C99_lanczos QcOF) with (c := 1) (m := 1) (lambda := lq 25 1) (B := yB) (M := dM).
  19: exact E.
  - exact qsqrt_ok.
  - apply dstev_of_ok.
  - apply fleb_le. vm_compute. reflexivity.
  - apply insertion_sort_contract.
  - exact dM_sym.
  - intros v Lv. apply (@spd_nonneg QcOF 3); auto. qspd.
  - intros c j [<-|[]] Hj. destruct j as [|[|[|j]]]; [destruct (Hj eq_refl)| | |]; split; apply Qc_is_canon; vm_compute; reflexivity.
  - apply small_symmetric; [reflexivity|vm_compute; reflexivity].
  - intros c j [<-|[]] Hj. destruct j as [|[|[|j]]]; [destruct (Hj eq_refl)| | |]; split; apply Qc_is_canon; vm_compute; reflexivity.
  - reflexivity.
  - reflexivity.
  - intros [|i] j _ _ Ni _; [destruct (Ni (or_introl eq_refl))|reflexivity].
  - reflexivity.
  - split; reflexivity.
  - vm_compute. lia.
  - vm_compute. lia.
  - lia.
  - vm_compute. lia.
  - intros k [<-|[]] _. apply fleb_le. vm_compute. reflexivity.
  - rewrite V. intros x Lx _ O. apply (@gap_test3 QcOF) with (e0 := lq 0 1) (e1 := lq 20 29) (e2 := lq 21 29) (s := lq 1000 1); [reflexivity|reflexivity|qspd|exact Lx|].
    apply O. left. reflexivity.
  - apply fleb_le. vm_compute. reflexivity.
  - apply fleb_le. vm_compute. reflexivity.
  - apply fleb_le. vm_compute. reflexivity.
Qed.

(** C99 needs the diagonal of the evaluator at the free dofs: if it is wrong at a single dof, the run ends as well, even in debug mode, with the same vectors, but the
    coarse space is no longer what it was. *)
Section Missed.
  Variable K : ofield.
  Add Field KfieldC99Missed : (f_field K).
  Local Open Scope K_scope.
  Lemma direction_missed : forall (A R : mat K) (w v : OField.vec K) lambda eps, length w = nc R -> length v = nc A -> nc A = nc R -> mulvec R w = vzero (nr R) -> 0 <= lambda ->
    (energy (mulvec A) v + eps * dot v v) * dot w w < lambda * (dot w v * dot w v) -> ~ approximates_up_to A R lambda eps.
  Proof.
    intros A R w v lambda eps Lw Lv Hn Z Hl Q H. destruct (H v Lv) as (t & Lt & B). set (z := vsub v (mulTvec R t)) in *.
    assert (Lm : length (mulTvec R t) = nc R) by (unfold mulTvec; rewrite mulvec_length; reflexivity).
    assert (Lz : length w = length z) by (unfold z; rewrite vsub_length; unfold OField.vec in *; lia).
    assert (D : dot w z = dot w v).
    { unfold z. rewrite dot_sub_r by (unfold OField.vec in *; lia). rewrite <- (@mulvec_adjoint K R w t) by auto. rewrite Z, dot_zero_l. ring. }
    apply (@flt_irrefl K (lambda * (dot w v * dot w v))). eapply fle_lt_trans; [|exact Q]. eapply fle_trans; [apply (@fle_mul_l K lambda _ (dot w w * dot z z)); [exact Hl|rewrite <- D; apply dot_cs; exact Lz]|].
    replace (lambda * (dot w w * dot z z)) with (dot w w * (lambda * dot z z)) by ring. replace ((energy (mulvec A) v + eps * dot v v) * dot w w) with (dot w w * (energy (mulvec A) v + eps * dot v v)) by ring.
    apply fle_mul_l; [apply dot_nonneg|exact B].
  Qed.
End Missed.
Definition xbad (cells : list nat) : list QcOF := map (fun k => if nth k (xdofs cells) 0 =? 1 then lq 1 1 else nth k (xdiag cells) 0%K) (seq 0 (length (xdofs cells))).
Definition xw : vec QcOF := [lq 0 1; lq (-680) 81; lq 1 1; lq (-17) 36].
Lemma xbad_ok : xcheck xbad (fun R => veqb (mulvec R xw) (vzero 2)) = Ok true.
Proof. vm_compute. reflexivity. Qed.
Theorem C99_wrong_diagonal_refuted : exists bad R AP,
  mf_evaluator_ok xF xfixed xdofs xop xdiag xconstr /\ mf_diagonal_ok xF xfixed xA xgd /\
  (forall cells, length (bad cells) = length (xdofs cells) /\ forall k, k < length (xdofs cells) -> nth k (xdofs cells) 0 <> 1 -> nth k (bad cells) 0%K = nth k (xdiag cells) 0%K) /\
  xrun bad [0; 0; 0] (xparams "true" "false") R AP /\
  mf_gap xF xfixed xagglomerates (xproblem bad) xdofs (lmesh 3) (xparams "true" "false") (lq 51 2) /\
  ~ approximates_up_to xA R (lq 10 1) (lq 1 1000000 * fnat 2)%K /\
  forall R' AP', xrun xdiag [0; 0; 0] (xparams "true" "false") R' AP' -> approximates_up_to xA R' (lq 25 1) (lq 1 1000000 * fnat 2)%K.
Proof.
  assert (X : exists R AP, xrun xbad [0; 0; 0] (xparams "true" "false") R AP).
  { destruct (xchecked _ _ xbad_ok) as (c1 & c2 & mm & E1 & E2 & CR & _).
    exists (spm_matrix (length (da_evecs (data_of [c1; c2]))) 4 (r_R mm)), xA. exists xeig. eexists. exists [1; 1; 2], 2, 1, 1, (data_of [c1; c2]), mm.
    split; [reflexivity|]. split; [reflexivity|]. split; [vm_compute; reflexivity|]. split; [|split; [exact CR|split; [reflexivity|exact I]]].
    apply (@collect_exists QcOF (xproblem xbad xeig [1; 1; 2]) (keeps_guess xeig) 2 0 0 (fun a => if a =? 1 then c1 else c2)).
    intros a sc Ha. rewrite xscratch. assert (Q : a = 1 \/ a = 2) by lia. destruct Q as [-> | ->]; [exact E1|exact E2]. }
  destruct X as (R & AP & HR). exists xbad, R, AP. split; [exact xevaluator|]. split; [exact xgd_ok|]. split.
  - intros cells. unfold xbad. split; [rewrite map_length, seq_length; reflexivity|]. intros k Hk N. rewrite nth_map_in with (da := 0) by (rewrite seq_length; exact Hk). rewrite seq_nth by exact Hk.
    cbn [Nat.add]. destruct (Nat.eqb_spec (nth k (xdofs cells) 0) 1) as [|_]; [contradiction|reflexivity].
  - split; [exact HR|]. split; [exact (xgap xbad _ "true" "false" xbad_ok)|]. split.
    + destruct (xtested xbad _ xbad_ok _ _ _ _ HR) as (L1 & L2 & T). apply veqb_eq in T.
      apply (@direction_missed QcOF xA R xw [lq 0 1; lq 3 1; lq 4 1; lq 5 1]); [rewrite L2; reflexivity|reflexivity|rewrite L2; reflexivity|rewrite L1; exact T|apply fleb_le; vm_compute; reflexivity|apply fltb_lt; vm_compute; reflexivity].
    + intros R' AP' HR'. eapply (@C99_coarse_space QcOF) with (F := xF) (fixed := xfixed) (m := lmesh 3).
      * exact xmesh.
      * exact xpart.
      * exact xserial.
      * exact xfem_ok.
      * exact xcells.
      * exact xevaluator.
      * exact xA_spd.
      * exact xgd_ok.
      * exact HR'.
      * apply fleb_le. vm_compute. reflexivity.
      * apply fleb_le. vm_compute. reflexivity.
      * exact xper_dof.
      * exact (xrepresent "true" "false").
  Unshelve. all: first [exact xA|exact (lconn 3 (fun c => c))].
Qed.
Print Assumptions C99_wrong_diagonal_refuted.
