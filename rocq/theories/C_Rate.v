(** Property theorems about the coarse space and the rate of convergence: C86, C87. *)
From Coq Require Import String List Arith ZArith Bool Lia Field QArith Qcanon.
From Verif Require Import Base OField Mat LinAlg M_Ptree S_Ptree P_Ptree M_Agglo S_Agglo M_WorkStream M_Restr S_Restr P_Restr P_Restr2 M_FastAP S_FastAP M_Lanczos S_Lanczos E_Lanczos P_Lanczos9
  M_Eig S_Eig P_Eig M_Hier S_Hier P_HierE P_HierS M_Smoother P_Smoother M_Host S_Host P_Host P_HostN M_HostEnd S_HostEnd P_HostEnd E_Solve E_CudaHier P_CudaHier3 C_Host C_Lanczos C_Eig
  C_FastAP C_HostEnd P_AmgeDev2 P_Perm S_Rate P_Rate P_Rate2 P_Approx.
Import ListNotations.
Set Implicit Arguments.
Open Scope list_scope.
Open Scope nat_scope.

Section CGap.
  Variable K : ofield.
  Add Field KfieldCGap : (f_field K).
  Local Open Scope K_scope.
  Local Notation vec := (vec K).

  (** C86: what the local eigenproblem leaves out has large energy.  With LAPACK, a patch matrix that is symmetric positive semidefinite and no constrained
      dofs: vectors orthogonal to the kept eigenvectors have a Rayleigh quotient of at least [lambda], for every [lambda] that is at most each further
      eigenvalue and at most 100 minus the mean of the diagonal (the end of the interval LAPACK searches, moved by the shift). *)
  Theorem C86_gap_of_lapack : forall parse_double lobpcg fsqrt dstev tol2 rand std_sort lapack arpack debug draw params n_eig tolerance (M : mat K) dof_map scratch r lambda,
    lapack_ok lapack -> lapack_complete lapack -> symmetric_matrix M -> positive_semidefinite M -> eigensolver_matrix debug params = Ok ELapack ->
    compute_local_eigenvectors parse_double lobpcg fsqrt dstev tol2 rand std_sort lapack arpack debug draw params n_eig tolerance M [] dof_map scratch = Ok r ->
    lambda + average_diagonal M <= fpos 100 ->
    (forall mu v, length v = nr M -> v <> vzero (nr M) -> eigenpair M mu v -> (forall e, In e (ag_evecs r) -> dot e v = 0) -> lambda <= mu) ->
    gap M (ag_evecs r) lambda.
  Proof.
    intros parse_double lobpcg fsqrt dstev tol2 rand std_sort lapack arpack debug draw params n_eig tolerance M dof_map scratch r lambda Hl Hc Sy PD Ek E H1 H2.
    destruct (C36_result _ _ _ _ _ _ _ _ _ _ _ _ _ _ _ _ _ _ E) as (kind & evals & Ek' & El & Le & Hn & Hv & _). rewrite Ek in Ek'. injection Ek' as <-. cbn [local_solver] in El. unfold lapack_wrapper in El.
    destruct (lapack (shifted M []) _ _) as [[es vs]| | | |] eqn:E1; cbn [bind fst snd] in El; try discriminate.
    assert (Sb := shifted_symmetric [] Sy). assert (P := Hl _ _ _ _ _ Sb E1). destruct P as [P1 P2 P3 P4].
    destruct (le_lt_dec n_eig (length es)) as [Hle|Hgt]; [|rewrite read_first_short in El by (simpl; lia); discriminate].
    rewrite read_first_ok in El by auto. cbn [bind] in El. rewrite read_first_ok in El by (simpl; lia). cbn [bind] in El. simpl skipn in El. injection El as _ Ev. symmetry in Ev.
    assert (Act : forall x, length x = nr M -> mulvec (shifted M []) x = vadd (mulvec M x) (vscale (average_diagonal M) x)).
    { intros x Lx. apply shifted_action; auto; [apply Sy|intros i []]. }
    assert (LMx : forall x, length (mulvec M x) = nr M) by (intros; apply mulvec_length).
    assert (EB : forall x, length x = nr M -> dot (mulvec (shifted M []) x) x = dot (mulvec M x) x + average_diagonal M * dot x x).
    { intros x Lx. rewrite Act by auto. rewrite dot_add_l by (rewrite LMx; vlen). rewrite dot_scale_l. reflexivity. }
    assert (Low : forall x, length x = nr (shifted M []) -> - (1 / (1 + 1)) * dot x x <= dot (mulvec (shifted M []) x) x).
    { intros x Lx. cbn [shifted nr] in Lx. rewrite EB by auto. apply fle_sub_0.
      replace (dot (mulvec M x) x + average_diagonal M * dot x x - - (1 / (1 + 1)) * dot x x) with
        (dot (mulvec M x) x + (average_diagonal M * dot x x + 1 / (1 + 1) * dot x x)) by ring.
      apply fadd_nonneg; [apply PD; auto|]. apply fadd_nonneg.
      - destruct (Nat.eq_dec (nr M) 0) as [Z|NZ].
        + destruct x as [|x0 x]; [|simpl in Lx; rewrite Z in Lx; discriminate]. unfold dot. simpl. replace (average_diagonal M * 0) with (0 : K) by ring. apply fle_refl.
        + apply fle_mul; [|apply dot_nonneg]. unfold average_diagonal. rewrite (Fdiv_def (f_field K)). apply fle_mul.
          * apply sumn_nonneg. intros i Hi. assert (D := PD (unit_vec (nr M) i) (unit_vec_length K (nr M) i)). rewrite dot_comm, dot_unit in D by (auto; apply LMx).
            assert (Sq : nr M = nc M) by apply Sy. rewrite Sq in D. rewrite mulvec_unit in D by lia. auto.
          * destruct (nr M) as [|n0] eqn:EN; [contradiction NZ; reflexivity|]. apply flt_le, finv_pos. apply fnat_pos.
      - apply fle_mul; [|apply dot_nonneg]. rewrite (Fdiv_def (f_field K)). apply fle_mul; [apply f0_le_1|]. apply flt_le, finv_pos. apply fadd_pos; [apply f0_lt_1|apply f0_le_1]. }
    assert (G := Hc _ _ _ _ _ Sb Low E1).
    intros x Lx HX. assert (Sq : nr M = nc M) by apply Sy. rewrite <- Sq in Lx. rewrite Ev in HX.
    assert (Q : (lambda + average_diagonal M) * dot x x <= dot (mulvec (shifted M []) x) x).
    { apply (@quotient_lower K (shifted M []) vs es n_eig (fpos 100) x Sb P2 P1); auto.
      - intros i Hi. apply P3. lia.
      - lia.
      - intros i Hi. assert (Ei := proj1 (P3 i ltac:(lia))).
        assert (Lvi : length (nth i vs []) = nr M). { destruct P2 as [Sz _]. unfold sized_all in Sz. rewrite Forall_forall in Sz. apply Sz. apply nth_In. lia. }
        assert (Ii : eigenpair M (nth i es 0 - average_diagonal M) (nth i vs [])).
        { apply (@C36_residuals K M [] (nth i vs []) (nth i es 0)); auto; try apply Sy; intros j []. }
        assert (B : lambda <= nth i es 0 - average_diagonal M).
        { apply (H2 _ _ Lvi); auto.
          - intros Z. assert (D := proj2 P2 i i ltac:(lia) ltac:(lia)). rewrite Nat.eqb_refl in D. rewrite Z, dot_zero_l in D. symmetry in D. exact (f1_neq_0 K D).
          - intros e Ie. rewrite Ev in Ie. destruct (In_nth _ _ [] Ie) as (j & Hj & <-). rewrite firstn_length_le in Hj by lia.
            assert (Ej : nth j (firstn n_eig vs) [] = nth j vs []). { rewrite <- (firstn_skipn n_eig vs) at 2. rewrite app_nth1; auto. rewrite firstn_length_le by lia. auto. }
            assert (Hj' : (j < length vs)%nat) by lia. assert (Hi' : (i < length vs)%nat) by lia. assert (D := proj2 P2 j i Hj' Hi'). unfold OField.vec in *. rewrite Ej, D. destruct (Nat.eqb_spec j i); [lia|reflexivity]. }
        apply fle_sub_0 in B. apply fle_sub_0. replace (nth i es 0 - (lambda + average_diagonal M)) with (nth i es 0 - average_diagonal M - lambda) by ring. auto. }
    rewrite EB in Q by auto. apply fle_sub_0 in Q. apply fle_sub_0.
    replace (dot (mulvec M x) x - lambda * dot x x) with (dot (mulvec M x) x + average_diagonal M * dot x x - (lambda + average_diagonal M) * dot x x) by ring. auto.
  Qed.
End CGap.

Section CRate.
  Variable K : ofield.
  Add Field KfieldCRate : (f_field K).
  Local Notation vec := (vec K).
  (** External code and user code, as in M_HostEnd.v. *)
  Variable parse_unsigned : string -> option Z.
  Variable parse_double : string -> option K.
  Variable lobpcg : (vec -> vec) -> Z -> K -> list vec -> bool * eigensolution K.
  Variable fsqrt : K -> option K.
  Variable dstev : list K -> list K -> outcome (list K * list K).
  Variable tol2 : K.
  Variable rand : nat -> nat -> K.
  Variable std_sort : (nat -> nat -> bool) -> list nat -> list nat.
  Variable lapack : mat K -> K -> K -> outcome (list K * list vec).
  Variable arpack : mat K -> K -> vec -> nat -> outcome (list K * list vec).
  Variable partition : partitioner_kind -> list nat.
  Variable conn : nat -> list nat.
  Variable evaluate : list nat -> list nat * mat K.
  Variable constrained : list nat -> list nat.
  Variable draws : nat -> nat -> K.
  Variables (debug dim3 : bool).
  Variable m : mesh.
  Variable F : fem K.
  Variable gd : nat -> option K.
  Local Notation A := (assembled F m).
  Local Notation run := (restrictor_run parse_unsigned parse_double lobpcg fsqrt dstev tol2 rand std_sort lapack arpack partition conn evaluate constrained draws
    debug dim3 m (f_ndofs F) gd (fun g => ent A g g)).
  Local Notation problem := (local_problem parse_double lobpcg fsqrt dstev tol2 rand std_sort lapack arpack evaluate constrained draws debug m).
  Local Notation agglomerates := (build_agglomerates parse_unsigned partition debug dim3 m).
  Local Notation fresh := (repeat 0 (n_cells m)).

  (** The hypotheses of C82, cell matrices that are positive semidefinite, and a LAPACK that finds all eigenvalues of the interval. *)
  Hypothesis Hmesh : mesh_ok debug m.
  Hypothesis Hpart : forall k, length (owned_cells m) <= length (partition k).
  Hypothesis Hserial : serial m.
  Hypothesis Hfem : fem_ok F.
  Hypothesis Heval : evaluate_ok F evaluate.
  Hypothesis Hconn : connectivity_ok F m conn.
  Hypothesis Hsym : forall c g h, f_cm F c g h = f_cm F c h g.
  Hypothesis Hpsd : forall c u, fle 0%K (cell_energy F c u).
  Hypothesis Hconstr : forall cells, constrained cells = [].
  Hypothesis Hlapack : lapack_ok lapack.
  Hypothesis Hcomplete : lapack_complete lapack.
  Hypothesis Hspd : spd (f_ndofs F) (mulvec A).
  Hypothesis Hgd : forall g, g < f_ndofs F -> gd g = Some (ent A g g).

  (** C86: the coarse space built from the mesh approximates every vector as well as the discarded eigenvalues promise:
      lambda |v - R^T w|^2 <= v^T A v for a suitable w. *)
  Theorem C86_coarse_space_approximates : forall p R AP lambda,
    (forall eig, pt_find p ["eigensolver"%string] = Some eig -> eigensolver_matrix debug eig = Ok ELapack) ->
    run fresh p R AP -> fle 0%K lambda -> discarded_above agglomerates problem evaluate m p lambda -> approximates A R lambda.
  Proof.
    intros p R AP lambda HE (eig & agg & ui' & n & ns & nb & d & mm & P1 & P2 & BA & C & CR & -> & _) H0 HD.
    destruct (agglomerates_ids parse_unsigned partition dim3 Hmesh Hpart agg BA) as (Lu & Hid).
    pose proof (HE _ P1) as EL. destruct (collected EL C) as (res & HP & ->).
    assert (N : forall a, NoDup (agg_cells m ui' a)) by (intros; apply NoDup_filter, seq_NoDup).
    assert (PC : forall a, patch_by_id (n_cells m) a ui' = agg_cells m ui' a) by (intros; apply patch_cells; auto).
    assert (SY : forall a, symmetric_matrix (snd (evaluate (agg_cells m ui' a)))).
    { intros a. destruct (Heval (N a)) as (_ & Q1 & Q2 & _ & Q3). split; [red; congruence|]. intros i j Hi Hj. rewrite !Q3 by lia. apply lsum_map_ext. intros c _. apply Hsym. }
    assert (Hex : forall a, In a (seq 1 n) -> patch_ok F (agg_cells m ui' a) (ag_map (res a)) (snd (evaluate (agg_cells m ui' a))) /\
      ag_diag (res a) = map (fun k => ent (snd (evaluate (agg_cells m ui' a))) k k) (seq 0 (length (ag_map (res a)))) /\
      symmetric_matrix (snd (evaluate (agg_cells m ui' a))) /\ orthonormal (nr (snd (evaluate (agg_cells m ui' a)))) (ag_evecs (res a)) /\
      (forall i, i < length (ag_evecs (res a)) -> eigenpair (snd (evaluate (agg_cells m ui' a))) (nth i (ag_evals (res a)) 0%K) (nth i (ag_evecs (res a)) [])) /\
      gap (snd (evaluate (agg_cells m ui' a))) (ag_evecs (res a)) lambda).
    { intros a Ia. apply in_seq in Ia. assert (Ha : 1 <= a <= n) by lia. assert (E := HP a Ha). pose proof (HD eig agg ui' n a (res a) P1 P2 BA Ha E) as (D1 & D2).
      unfold local_problem in E. rewrite PC, Hconstr in E. set (M := snd (evaluate (agg_cells m ui' a))) in *.
      assert (DC : decoupled M []) by (intros i j []).
      destruct (@C36_lapack K _ _ _ _ _ _ _ _ _ _ _ _ _ _ _ _ _ _ _ Hlapack (SY a) DC EL E) as (L1 & L2 & O & _ & HE').
      destruct (@C36_result K _ _ _ _ _ _ _ _ _ _ _ _ _ _ _ _ _ _ _ E) as (_ & _ & _ & _ & _ & _ & _ & HDg & HM).
      assert (PO := Heval (N a)). rewrite <- HM in PO. fold M in PO. split; [exact PO|].
      split; [rewrite HDg; destruct PO as (_ & Q2 & _); rewrite Q2; reflexivity|]. split; [apply SY|]. split; [exact O|]. split.
      - intros i Hi. apply HE'. rewrite L2 in Hi. exact Hi.
      - apply (@C86_gap_of_lapack K _ _ _ _ _ _ _ _ _ _ _ _ _ _ _ _ _ _ lambda Hlapack Hcomplete (SY a) (@patch_psd K F Hfem _ _ _ Hpsd PO) EL E); auto. }
    set (l := map res (seq 1 n)) in *.
    assert (Hlen : length (da_evecs (data_of l)) = length (rows_of l)) by (cbn [data_of da_evecs]; apply flat_evecs_length).
    apply (@coarse_approximates K F m nat (seq 1 n) res (agg_cells m ui') (fun a => snd (evaluate (agg_cells m ui' a))) lambda Hfem Hpsd Hex H0).
    - intros f. apply sum_over_ids; auto.
    - intros g Hg. apply (@diag_pos K A eq_refl (proj2 Hspd) g Hg).
    - fold l. exact Hlen.
    - reflexivity.
    - fold l. intros r g [c e] Hg Hr. cbn [spm_matrix ent].
      rewrite (@compute_restriction_spec K debug true [length (da_evecs (data_of l))] 0 gd (fun g => ent A g g) l) in CR.
      + injection CR as <-. rewrite rows_step_R. cbn [r_R data_of da_evecs].
        assert (Lr : r < length (rows_of l)) by (apply nth_error_Some; congruence).
        change (n_rows_before [length (flat_map (ag_evecs (K:=K)) l)] 0) with 0.
        replace ((0 <=? r) && (r <? 0 + length (rows_of l)))%bool with true by (symmetry; apply andb_true_iff; split; [apply Nat.leb_le; lia|apply Nat.ltb_lt; lia]).
        rewrite Nat.sub_0_r, Hr, wgt_entry. change (fun g0 => ent A g0 g0) with (fun g0 => lsum (map (fun c0 => f_cm F c0 g0 g0) (seq 0 (n_cells m)))). cbn. ring.
      + intros c' Ic. unfold l in Ic. apply in_map_iff in Ic. destruct Ic as (a & <- & Ia). destruct (Hex a Ia) as (Q1 & Q2 & _ & (Q4 & _) & _).
        split; [rewrite Q2, map_length, seq_length; reflexivity|]. intros e' Ie. unfold sized_all in Q4. rewrite Forall_forall in Q4. rewrite (Q4 e' Ie). apply Q1.
      + intros c' Ic g' Ig. unfold l in Ic. apply in_map_iff in Ic. destruct Ic as (a & <- & Ia). destruct (Hex a Ia) as ((_ & _ & _ & Q4 & _) & _).
        apply Hgd. apply Q4 in Ig. destruct Ig as (k & _ & Ig). exact (proj1 (Hfem k) _ Ig).
  Qed.

  Section Rate.
    Variables (accepts_double : string -> bool) (mk : ptree -> outcome (mat K * mat K)) (ilu : mat K -> vec -> vec) (ml : ml_list -> mat K -> vec -> vec) (eps : K) (te0 : tenv).
    Variables (p : ptree) (R AP : mat K) (theta lambda : K).
    Hypothesis Hdef : default_two_level p.
    Hypothesis HE : forall eig, pt_find p ["eigensolver"%string] = Some eig -> eigensolver_matrix debug eig = Ok ELapack.
    Hypothesis HT : forall agg ui n, pt_find p ["agglomeration"%string] = Some agg -> agglomerates agg fresh = Ok (ui, n) ->
      (forall a, 1 <= a <= n -> touches_others m ui conn a) \/ (forall a, 1 <= a <= n -> ~ touches_others m ui conn a).
    Hypothesis Hmk : mk p = Ok (R, AP).
    Hypothesis Hrun : run fresh p R AP.
    Hypothesis Hrank : full_row_rank R.
    Hypothesis Hlam : flt 0%K lambda.
    Hypothesis Hdisc : discarded_above agglomerates problem evaluate m p lambda.
    Hypothesis Htheta : fle 0%K theta.
    Hypothesis Hbound : fle (theta * triangle_bound A)%K 1%K.
    Local Notation rho := (1 - theta * lambda)%K.
    Local Notation built h := (exists s l, construct (host_helpers accepts_double A mk ilu ml) eps te0 debug (Ok tt) (Some p) None = (Ok h, s, l)).

    (** C87: one call of vmult reduces the error, in the energy norm, at least by the factor rho = 1 - theta lambda, which depends on the discarded
        eigenvalues and on the size of the entries of A only. *)
    Theorem C87_rate : exists h, built h /\
      forall te x xs l, open_sections l = [] -> length x = f_ndofs F -> length xs = f_ndofs F ->
        exists y l', hierarchy_vmult te h x (mulvec A xs) l = (Ok y, l') /\ open_sections l' = [] /\ length y = f_ndofs F /\
          fle (energy (mulvec A) (vsub xs y)) (rho * rho * energy (mulvec A) (vsub xs (if c_prec p then vzero (f_ndofs F) else x)))%K.
    Proof.
      destruct Hdef as (D1 & D2 & D3 & D4).
      assert (PE : pt_find p ["eigensolver"%string] <> None /\ pt_find p ["agglomeration"%string] <> None /\ nc R = f_ndofs F).
      { destruct Hrun as (eig & agg & ? & ? & ? & ? & ? & ? & Q1 & Q2 & _ & _ & _ & -> & _). rewrite Q1, Q2. split; [discriminate|]. split; [discriminate|reflexivity]. }
      destruct PE as (PE & PA & DR).
      assert (SK : dealii_smoother_kind p = Ok KSsor).
      { unfold dealii_smoother_kind. rewrite get_string_text. apply lower_ci in D4; [|apply no_upperb_ok; reflexivity]. rewrite D4. reflexivity. }
      assert (CK : dealii_solver_kind accepts_double p = Ok KDirect).
      { destruct (C38_host_solver accepts_double p) as [(_ & E)|[(Q & _)|(Q & _)]]; auto; [|contradiction].
        exfalso. apply lower_ci in Q; [|apply no_upperb_ok; reflexivity]. apply lower_ci in D3; [|apply no_upperb_ok; reflexivity]. congruence. }
      assert (LK : linear (nc A) (nc A) (kind_vmult ilu KSsor A)) by (apply (@ssor_linear K A); reflexivity).
      assert (AX := @C86_coarse_space_approximates p R AP lambda HE Hrun (flt_le Hlam) Hdisc).
      assert (SM := @ssor_smooths K A eq_refl Hspd theta Htheta Hbound).
      destruct (@host_two_level K accepts_double A mk ilu ml eps te0 debug p KSsor R AP eq_refl Hspd D2 SK LK CK PE PA Hmk DR Hrank) as (h & s & l & CC & V).
      { intros HF. apply (@fast_product K parse_unsigned parse_double lobpcg fsqrt dstev tol2 rand std_sort lapack arpack partition conn evaluate constrained draws debug dim3 m F gd
          Hmesh Hpart Hserial Hfem Heval Hsym Hconstr Hlapack Hspd Hgd fresh p R AP Hrun eq_refl Hconn); auto. }
      exists h. split; [exists s, l; exact CC|]. intros te x xs l0 Hl Lx Lxs.
      destruct (V te x (mulvec A xs) l0 Hl Lx (mulvec_length A xs)) as (y & l' & E & O & T).
      exists y, l'. split; [exact E|]. split; [exact O|].
      apply (@two_grid_rate K A R (ssor_vmult A) theta lambda (c_steps p) (mulvec A xs) (if c_prec p then vzero (nc A) else x) y xs); auto.
      - apply (@ssor_sym K A eq_refl). exact (proj1 Hspd).
      - destruct (c_prec p); [apply vzero_length|exact Lx].
    Qed.

    (** C87: as a solver ("is preconditioner" false), repeated calls converge: the energy of the error after k calls is at most rho^(2k) times that at the start. *)
    Theorem C87_repeated_calls : c_prec p = false -> exists h, built h /\
      forall te x xs k l, open_sections l = [] -> length x = f_ndofs F -> length xs = f_ndofs F ->
        exists y l', repeated_vmult te h (mulvec A xs) k x l = (Ok y, l') /\ open_sections l' = [] /\
          fle (energy (mulvec A) (vsub xs y)) (fpow (rho * rho)%K k * energy (mulvec A) (vsub xs x))%K.
    Proof.
      intros PF. destruct C87_rate as (h & B & V). exists h. split; [exact B|]. rewrite PF in V.
      intros te x xs k. revert x. induction k as [|k IH]; intros x l Hl Lx Lxs.
      - exists x, l. split; [reflexivity|]. split; [exact Hl|]. cbn [fpow].
        replace (1 * energy (mulvec A) (vsub xs x))%K with (energy (mulvec A) (vsub xs x)) by ring. apply fle_refl.
      - destruct (V te x xs l Hl Lx Lxs) as (y & l1 & E & O & Ly & EN). destruct (IH y l1 O Ly Lxs) as (z & l2 & E2 & O2 & EN2).
        exists z, l2. split; [cbn [repeated_vmult]; rewrite E; exact E2|]. split; [exact O2|]. eapply fle_trans; [exact EN2|]. cbn [fpow].
        replace (rho * rho * fpow (rho * rho) k * energy (mulvec A) (vsub xs x))%K with (fpow (rho * rho) k * (rho * rho * energy (mulvec A) (vsub xs x)))%K by ring.
        apply fle_mul_l; [|exact EN]. clear. induction k; cbn [fpow]; [apply f0_le_1|]. apply fle_mul; [apply fsquare_nonneg|exact IHk].
    Qed.

    (** C87: as a preconditioner, the spectrum of M A lies in [theta lambda, 2 - theta lambda]: the condition number a Krylov method sees is bounded. *)
    Theorem C87_condition : c_prec p = true -> fle (theta * lambda)%K 1%K -> exists h, built h /\
      forall te x e l, open_sections l = [] -> length x = f_ndofs F -> length e = f_ndofs F ->
        exists y l', hierarchy_vmult te h x (mulvec A e) l = (Ok y, l') /\ open_sections l' = [] /\
          fle (theta * lambda * energy (mulvec A) e)%K (dot y (mulvec A e)) /\
          fle (dot y (mulvec A e)) ((1 + 1 - theta * lambda) * energy (mulvec A) e)%K.
    Proof.
      intros PF HL. destruct C87_rate as (h & B & V). exists h. split; [exact B|]. rewrite PF in V.
      intros te x e l Hl Lx Le. destruct (V te x e l Hl Lx Le) as (y & l1 & E & O & Ly & EN). exists y, l1. split; [exact E|]. split; [exact O|].
      assert (Z : vsub e (vzero (f_ndofs F)) = e) by (unfold OField.vec in *; vext; ring). rewrite Z in EN.
      assert (LA : linear (f_ndofs F) (f_ndofs F) (mulvec A)) by (exact (mulvec_linear A)).
      assert (Ld : length (vsub e y) = f_ndofs F) by (unfold OField.vec in *; vlen).
      assert (C := @energy_cs K (f_ndofs F) (mulvec A) LA Hspd (vsub e y) e Ld Le).
      assert (Pe : fle 0%K (energy (mulvec A) e)) by (apply (@energy_nonneg K (f_ndofs F) (mulvec A) LA Hspd); auto).
      assert (I : dot (mulvec A (vsub e y)) e = (energy (mulvec A) e - dot y (mulvec A e))%K).
      { rewrite (lin_sub LA) by auto. rewrite dot_sub_l by (rewrite !mulvec_length; reflexivity). unfold energy. f_equal. apply (proj1 Hspd); auto. }
      rewrite I in C. set (t := dot y (mulvec A e)) in *. set (n0 := energy (mulvec A) e) in *.
      assert (Hr : fle 0%K rho) by (apply fle_sub_0 in HL; exact HL).
      assert (S : fle ((n0 - t) * (n0 - t))%K ((rho * n0) * (rho * n0))%K).
      { eapply fle_trans; [exact C|]. replace (rho * n0 * (rho * n0))%K with (n0 * (rho * rho * n0))%K by ring.
        replace (energy (mulvec A) (vsub e y) * n0)%K with (n0 * energy (mulvec A) (vsub e y))%K by ring. apply fle_mul_l; auto. }
      assert (Pr : fle 0%K (rho * n0)%K) by (apply fle_mul; auto).
      assert (AB : forall a b : K, fle 0%K b -> fle (a * a)%K (b * b)%K -> fle a b).
      { intros a b Hb Hab. destruct (fle_dec K a b) as [Q|Q]; auto. exfalso. assert (Pa : flt 0%K a) by (eapply fle_lt_trans; eauto).
        apply (@flt_irrefl K (a * a)%K). eapply fle_lt_trans; [exact Hab|].
        apply flt_sub_0. replace (a * a - b * b)%K with ((a - b) * (a + b))%K by ring. apply fmul_pos; [apply flt_sub_0 in Q; exact Q|apply fadd_pos; auto]. }
      split.
      - assert (Q := AB _ _ Pr S). apply fle_sub_0 in Q. apply fle_sub_0. replace (t - theta * lambda * n0)%K with (rho * n0 - (n0 - t))%K by ring. exact Q.
      - assert (S2 : fle ((t - n0) * (t - n0))%K ((rho * n0) * (rho * n0))%K) by (replace ((t - n0) * (t - n0))%K with ((n0 - t) * (n0 - t))%K by ring; exact S).
        assert (Q := AB _ _ Pr S2). apply fle_sub_0 in Q. apply fle_sub_0. replace ((1 + 1 - theta * lambda) * n0 - t)%K with (rho * n0 - (t - n0))%K by ring. exact Q.
    Qed.
  End Rate.
End CRate.
Print Assumptions C86_gap_of_lapack.
Print Assumptions C86_coarse_space_approximates.
Print Assumptions C87_rate.
Print Assumptions C87_repeated_calls.
Print Assumptions C87_condition.

(** * Example: the mesh of C82. *)
Section CRateEx.
  Variable K : ofield.
  Add Field KfieldRateEx : (f_field K).
  Lemma quad2 : forall d e f a b : K, flt 0%K d -> fle (e * e)%K (d * f)%K -> fle 0%K (a * d * a + (a * e * b + b * e * a) + b * f * b)%K.
  Proof.
    intros d e f a b Hd H. apply (@fle_mul_cancel K d); auto. replace (d * 0)%K with (0 : K)%K by ring.
    replace (d * (a * d * a + (a * e * b + b * e * a) + b * f * b))%K with ((d * a + e * b) * (d * a + e * b) + (d * f - e * e) * (b * b))%K by ring.
    apply fadd_nonneg; [apply fsquare_nonneg|]. apply fle_mul; [|apply fsquare_nonneg]. apply -> (@fle_sub_0 K). exact H.
  Qed.
  Lemma quad3 : forall (cm : nat -> nat -> K) (u : nat -> K) i d e f, i <= 1 -> flt 0%K d -> fle (e * e)%K (d * f)%K ->
    (forall g h, cm g h = if (g =? i) && (h =? i) then d else if (g =? S i) && (h =? S i) then f else
      if ((g =? i) && (h =? S i)) || ((g =? S i) && (h =? i)) then e else 0%K) ->
    fle 0%K (sumn 3 (fun g => sumn 3 (fun h => cm g h * u h) * u g))%K.
  Proof.
    intros cm u i d e f Hi Hd H C. assert (Q := @quad2 d e f (u i) (u (S i)) Hd H). cbn [sumn]. rewrite !C.
    assert (E : i = 0 \/ i = 1) by lia. destruct E as [-> | ->]; cbn [Nat.eqb andb orb]; (eapply fle_trans; [exact Q|]);
      match goal with |- fle ?x ?y => replace y with x by ring; apply fle_refl end.
  Qed.
  Lemma quad0 : forall (u : nat -> K), fle 0%K (sumn 3 (fun g => sumn 3 (fun h => 0 * u h) * u g))%K.
  Proof. intros u. cbn [sumn]. match goal with |- fle ?x ?y => replace y with x by ring; apply fle_refl end. Qed.
  Lemma cancel_r : forall a b t : K, (a * t = b * t)%K -> t <> 0%K -> a = b.
  Proof. intros a b t H N. replace a with (a * t / t)%K by (field; exact N). rewrite H. field. exact N. Qed.
  Lemma mul0_le : forall a : K, fle (a * 0)%K 0%K.
  Proof. intros a. replace (a * 0)%K with (0 : K)%K by ring. apply fle_refl. Qed.
  Lemma mul_le_r : forall a b t : K, fle 0%K t -> fle a b -> fle (a * t)%K (b * t)%K.
  Proof. intros a b t H1 H2. replace (a * t)%K with (t * a)%K by ring. replace (b * t)%K with (t * b)%K by ring. apply fle_mul_l; auto. Qed.
End CRateEx.
(** Implicit arguments are found by reducing types, which would evaluate the rational numbers. *)
Unset Implicit Arguments.
Lemma q01 : q 0 1 = (f0 : QcOF).
Proof. apply Qc_is_canon. reflexivity. Qed.
Lemma hcm_out : forall c g h, 2 <= c -> hcm c g h = f0.
Proof. intros c g h Hc. unfold hcm, lcd. replace (c <? 2) with false by (symmetry; apply Nat.ltb_ge; exact Hc). exact q01. Qed.
Lemma hcm_in : forall c g h, c <= 1 -> hcm c g h = if (g =? c) && (h =? c) then q 17 1 else if (g =? S c) && (h =? S c) then q 10 1 else
  if ((g =? c) && (h =? S c)) || ((g =? S c) && (h =? c)) then q (-12) 1 else f0.
Proof.
  intros c g h Hc. unfold hcm, lcd. replace (c <? 2) with true by (symmetry; apply Nat.ltb_lt; lia). replace (c + 1) with (S c) by lia. cbn [lmem existsb].
  rewrite !orb_false_r. rewrite (Nat.eqb_sym g h). destruct (Nat.eqb_spec h g) as [->|N].
  - destruct (Nat.eqb_spec g c) as [->|]; [reflexivity|]. destruct (Nat.eqb_spec g (S c)) as [->|]; [reflexivity|exact q01].
  - destruct (Nat.eqb_spec g c), (Nat.eqb_spec h c), (Nat.eqb_spec g (S c)), (Nat.eqb_spec h (S c)); try lia; try reflexivity; exact q01.
Qed.
Lemma hcells : forall c u, fle 0%K (cell_energy hF c u).
Proof.
  intros c u. destruct (le_lt_dec c 1) as [Hc|Hc].
  - apply (@quad3 QcOF (hcm c) u c (q 17 1) (q (-12) 1) (q 10 1) Hc).
    + apply fltb_lt; vm_compute; reflexivity.
    + apply fleb_le; vm_compute; reflexivity.
    + intros g h. apply hcm_in. exact Hc.
  - assert (E : cell_energy hF c u = sumn 3 (fun g => sumn 3 (fun h => f0 * u h) * u g)%K).
    { unfold cell_energy. apply sumn_ext. intros g _. f_equal. apply sumn_ext. intros h _. f_equal. apply hcm_out. lia. }
    rewrite E. apply quad0.
Qed.
(** The LAPACK of the example finds everything: it returns as many vectors as the matrix has rows. *)
Lemma hlapack_complete : lapack_complete hlapack.
Proof.
  intros B lower upper evals evecs Sb _ H. assert (P := @lapack_of_ok _ _ B lower upper evals evecs Sb H). unfold hlapack, lapack_of in H.
  destruct (_ && _)%bool eqn:E in H; [|discriminate H]. assert (Ev := f_equal snd (Ok_inj H)). cbn [snd] in Ev.
  intros x Lx Hx. assert (Z : x = vzero (nr B)).
  { apply (@orthonormal_full QcOF (nr B) evecs); [apply P| |rewrite Lx; symmetry; apply Sb|intros v Iv; rewrite dot_comm; apply Hx; exact Iv].
    rewrite <- Ev. do 4 (apply andb_true_iff in E; destruct E as [E ?E]). cbn [forallb] in E3. apply andb_true_iff in E3. destruct E3 as [E3 _].
    apply Nat.eqb_eq in E3. rewrite <- E3. cbn [length]. lia. }
  rewrite Z. rewrite !dot_zero_r. apply mul0_le.
Qed.
(** Both agglomerates keep (3/5, 4/5). *)
Definition hkeeps (a : nat) : bool :=
  match hproblem heig [1; 2] a [] with Ok c => match ag_evecs c with [e] => veqb e [q 3 5; q 4 5] | _ => false end | _ => false end.
Lemma hkept : forall a c, 1 <= a <= 2 -> hproblem heig [1; 2] a [] = Ok c -> ag_evecs c = [[q 3 5; q 4 5]].
Proof.
  intros a c Ha H. assert (E : hkeeps a = true) by (assert (Q : a = 1 \/ a = 2) by lia; destruct Q as [-> | ->]; vm_compute; reflexivity).
  unfold hkeeps in E. rewrite H in E. destruct (ag_evecs c) as [|e [|? ?]]; try discriminate E. apply veqb_eq in E. rewrite E. reflexivity.
Qed.
Definition hM (a : nat) : mat QcOF := snd (assemble_patch hF (agg_cells (lmesh 2) [1; 2] a)).
Lemma hM_sym : forall a, symmetric_matrix (hM a).
Proof. intros a. split; [reflexivity|]. intros i j _ _. cbn [hM assemble_patch snd ent]. apply lsum_map_ext. intros c _. apply hsym. Qed.
Lemma hM_nr : forall a, 1 <= a <= 2 -> nr (hM a) = 2.
Proof. intros a Ha. assert (Q : a = 1 \/ a = 2) by lia. destruct Q as [-> | ->]; vm_compute; reflexivity. Qed.
Lemma hdisc : forall p, pt_find p ["eigensolver"%string] = pt_find hparams ["eigensolver"%string] ->
  pt_find p ["agglomeration"%string] = pt_find hparams ["agglomeration"%string] ->
  discarded_above (build_agglomerates (fun s => parse_int s) (fun _ => [0; 1]) true false (lmesh 2)) hproblem (assemble_patch hF) (lmesh 2) p (q 26 1).
Proof.
  intros p P1 P2 eig agg ui n a c Q1 Q2 BA Ha E. rewrite P1 in Q1. rewrite P2 in Q2. destruct (@hagg agg ui n Q2 BA) as (-> & ->). injection Q1 as <-.
  assert (Kp := @hkept a c Ha E). cbv zeta. fold (hM a).
  assert (Wm : mulvec (hM a) [q 4 5; q (-3) 5] = vscale (q 26 1) [q 4 5; q (-3) 5]).
  { apply veqb_eq. assert (Q : a = 1 \/ a = 2) by lia. destruct Q as [-> | ->]; vm_compute; reflexivity. }
  split; [apply fleb_le; assert (Q : a = 1 \/ a = 2) by lia; destruct Q as [-> | ->]; vm_compute; reflexivity|].
  intros mu v Lv Nv Ep Ov. rewrite hM_nr in Lv, Nv by auto.
  assert (O1 := Ov [q 3 5; q 4 5]). rewrite Kp in O1. specialize (O1 (or_introl eq_refl)).
  assert (D : dot v [q 4 5; q (-3) 5] <> f0).
  { intros Z. apply Nv. apply (@orthonormal_full QcOF 2 [[q 3 5; q 4 5]; [q 4 5; q (-3) 5]]); auto.
    - split; [repeat constructor|]. intros i j Hi Hj. assert (Qi : i = 0 \/ i = 1) by (cbn in Hi; lia). assert (Qj : j = 0 \/ j = 1) by (cbn in Hj; lia).
      destruct Qi as [-> | ->], Qj as [-> | ->]; apply Qc_is_canon; vm_compute; reflexivity.
    - intros e [<-|[<-|[]]]; [rewrite dot_comm; exact O1|exact Z]. }
  assert (Sm := @sym_dot QcOF (hM a) v [q 4 5; q (-3) 5] (hM_sym a) ltac:(rewrite hM_nr; auto) ltac:(rewrite hM_nr; auto)).
  unfold eigenpair in Ep. rewrite Ep, Wm, dot_scale_l, dot_scale_r in Sm. rewrite (@cancel_r QcOF _ _ _ Sm D). apply fle_refl.
Qed.
(** The coarse space of the example approximates with 26, the second eigenvalue of the elements. *)
Example C86_example : exists R AP, hrun [0; 0] hparams R AP /\ approximates hA2 R (q 26 1).
Proof.
  destruct (@hexists hparams eq_refl eq_refl) as (R & AP & R1). exists R, AP. split; [exact R1|].
  apply (@C86_coarse_space_approximates QcOF (fun s => parse_int s) ex_parse_double ex_no_lobpcg qsqrt (fun _ _ => Fuel) (q 0 1) (fun _ _ => q 0 1) (@insertion_sort nat) hlapack ex_no_arpack (fun _ => [0; 1]) (lconn 2 (fun c => c)) (assemble_patch hF) (fun _ => []) (fun _ => ex_draw)
    true false (lmesh 2) hF hgd hmesh hpart hserial hfem_ok (@evaluate_ok_example QcOF hF)
    hsym hcells (fun _ => eq_refl) (lapack_of_ok _ _) hlapack_complete hA2_spd (fun _ _ => eq_refl) hparams R AP (q 26 1)).
  - intros eig E. injection E as <-. reflexivity.
  - exact R1.
  - apply fleb_le. vm_compute. reflexivity.
  - exact (@hdisc hparams eq_refl eq_refl).
Qed.
Definition hsolver : ptree := pt_put ["is preconditioner"%string] "false" hparams.
Lemma hdefault : forall p, p = hparams \/ p = hsolver -> default_two_level p.
Proof.
  intros p [-> | ->]; (split; [vm_compute; lia|]; split; [reflexivity|]; split; apply lower_ci; [apply no_upperb_ok; reflexivity|reflexivity|apply no_upperb_ok; reflexivity|reflexivity]).
Qed.
(** theta = 1/68, hence the rate 1 - 26/68: forty calls of the solver reduce the energy of the error by more than 10^16. *)
Example C87_example : exists R AP h s l, hrun [0; 0] hsolver R AP /\
  construct (host_helpers (fun _ => false) hA2 (fun _ => Ok (R, AP)) (fun _ r => r) (fun _ _ r => r)) 0%K (mkTenv true true) true (Ok tt) (Some hsolver) None = (Ok h, s, l) /\
  forall x xs, length x = 3 -> length xs = 3 -> exists y l', repeated_vmult (mkTenv true true) h (mulvec hA2 xs) 40 x [] = (Ok y, l') /\
    fle (energy (mulvec hA2) (vsub xs y)) (q 1 10000000000000000 * energy (mulvec hA2) (vsub xs x))%K.
Proof.
  destruct (@hexists hsolver eq_refl eq_refl) as (R & AP & R1). assert (FR := @hfull hsolver R AP eq_refl eq_refl R1).
  destruct (@C87_repeated_calls QcOF (fun s => parse_int s) ex_parse_double ex_no_lobpcg qsqrt (fun _ _ => Fuel) (q 0 1) (fun _ _ => q 0 1) (@insertion_sort nat) hlapack ex_no_arpack (fun _ => [0; 1]) (lconn 2 (fun c => c)) (assemble_patch hF) (fun _ => []) (fun _ => ex_draw)
    true false (lmesh 2) hF hgd hmesh hpart hserial hfem_ok (@evaluate_ok_example QcOF hF)
    hconn hsym hcells (fun _ => eq_refl) (lapack_of_ok _ _) hlapack_complete hA2_spd (fun _ _ => eq_refl) (fun _ => false) (fun _ => Ok (R, AP)) (fun _ r => r) (fun _ _ r => r) 0%K (mkTenv true true)
    hsolver R AP (q 1 68) (q 26 1)) as (h & (s & l & C1) & V); try exact R1; try exact FR; try reflexivity.
  - apply hdefault. auto.
  - intros eig E. injection E as <-. reflexivity.
  - intros agg ui n P B. left. intros a Ha. destruct (@hagg agg ui n P B) as (-> & ->). apply htouch. exact Ha.
  - apply fltb_lt. vm_compute. reflexivity.
  - exact (@hdisc hsolver eq_refl eq_refl).
  - apply fleb_le. vm_compute. reflexivity.
  - apply fleb_le. vm_compute. reflexivity.
  - exists R, AP, h, s, l. split; [exact R1|]. split; [exact C1|]. intros x xs Hx Hxs.
    destruct (V (mkTenv true true) x xs 40 [] eq_refl Hx Hxs) as (y & l' & E & _ & EN). exists y, l'. split; [exact E|]. eapply fle_trans; [exact EN|].
    apply mul_le_r.
    + apply (@energy_nonneg QcOF 3 (mulvec hA2) (mulvec_linear hA2) hA2_spd). unfold OField.vec in *. vlen.
    + apply fleb_le. vm_compute. reflexivity.
Qed.
(** The same mesh as a preconditioner: the spectrum of M A is in [26/68, 2 - 26/68]. *)
Example C87_condition_example : exists R AP h s l, hrun [0; 0] hparams R AP /\
  construct (host_helpers (fun _ => false) hA2 (fun _ => Ok (R, AP)) (fun _ r => r) (fun _ _ r => r)) 0%K (mkTenv true true) true (Ok tt) (Some hparams) None = (Ok h, s, l) /\
  forall x e, length x = 3 -> length e = 3 -> exists y l', hierarchy_vmult (mkTenv true true) h x (mulvec hA2 e) [] = (Ok y, l') /\
    fle (q 1 68 * q 26 1 * energy (mulvec hA2) e)%K (dot y (mulvec hA2 e)) /\ fle (dot y (mulvec hA2 e)) ((1 + 1 - q 1 68 * q 26 1) * energy (mulvec hA2) e)%K.
Proof.
  destruct (@hexists hparams eq_refl eq_refl) as (R & AP & R1). assert (FR := @hfull hparams R AP eq_refl eq_refl R1).
  destruct (@C87_condition QcOF (fun s => parse_int s) ex_parse_double ex_no_lobpcg qsqrt (fun _ _ => Fuel) (q 0 1) (fun _ _ => q 0 1) (@insertion_sort nat) hlapack ex_no_arpack (fun _ => [0; 1]) (lconn 2 (fun c => c)) (assemble_patch hF) (fun _ => []) (fun _ => ex_draw)
    true false (lmesh 2) hF hgd hmesh hpart hserial hfem_ok (@evaluate_ok_example QcOF hF)
    hconn hsym hcells (fun _ => eq_refl) (lapack_of_ok _ _) hlapack_complete hA2_spd (fun _ _ => eq_refl) (fun _ => false) (fun _ => Ok (R, AP)) (fun _ r => r) (fun _ _ r => r) 0%K (mkTenv true true)
    hparams R AP (q 1 68) (q 26 1)) as (h & (s & l & C1) & V); try exact R1; try exact FR; try reflexivity.
  - apply hdefault. auto.
  - intros eig E. injection E as <-. reflexivity.
  - intros agg ui n P B. left. intros a Ha. destruct (@hagg agg ui n P B) as (-> & ->). apply htouch. exact Ha.
  - apply fltb_lt. vm_compute. reflexivity.
  - exact (@hdisc hparams eq_refl eq_refl).
  - apply fleb_le. vm_compute. reflexivity.
  - apply fleb_le. vm_compute. reflexivity.
  - apply fleb_le. vm_compute. reflexivity.
  - exists R, AP, h, s, l. split; [exact R1|]. split; [exact C1|]. intros x e Hx He.
    destruct (V (mkTenv true true) x e [] eq_refl Hx He) as (y & l' & E & _ & E1 & E2). exists y, l'. auto.
Qed.
