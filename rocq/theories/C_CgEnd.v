(** Property theorems about the solve of the driver with matrix-free hierarchies and on several MPI ranks: C102. *)
From Coq Require Import String List Arith ZArith NArith Bool Lia Field Permutation QArith Qcanon.
From Verif Require Import Base OField Mat LinAlg M_Ptree S_Ptree P_Ptree M_Agglo S_Agglo M_WorkStream M_Restr S_Restr P_Restr P_Restr2
  S_FastAP P_FastAP2 M_Lanczos S_Lanczos M_Eig S_Eig M_Hier S_Hier P_Hier P_HierC P_HierE P_HierS M_Smoother P_Smoother M_Host S_Host P_Host P_HostN M_HostEnd S_HostEnd P_HostEnd
  P_Amgx3 S_Rate P_Rate P_Approx P_Local M_Cheby S_Cheby P_Poly P_Cheby P_Cheby2 P_Cheby3 M_Par S_Par P_Par P_Par2 P_Par3 P_Par4 M_ParEnd S_ParEnd P_ParEnd M_Cg S_Cg S_CgEnd
  C_Host C_Cheby C_MfRate C_Restr C_Rate C_Par M_FastAP C_FastAP C_HostEnd E_Lanczos C_Lanczos C_Eig E_Solve E_CudaHier C_CudaHier P_CudaHier3 P_Rate2 P_Perm P_Lanczos9 P_AmgeDev2 C_ParEnd C_Cg.
Import ListNotations.
Set Implicit Arguments.
Open Scope list_scope.
Open Scope nat_scope.

(** C102: every hierarchy whose vmult is a fixed symmetric positive definite operator M with the spectrum of M A in [a, c]. *)
Section CBridge.
  Variable K : ofield.
  Add Field KfieldCgB : (f_field K).
  Local Open Scope K_scope.
  Notation vec := (vec K).
  Theorem C102_any_hierarchy : forall n (f Mv : vec -> vec) (h : hierarchy K) a c,
    linear n n f -> spd n f -> linear n n Mv -> self_adjoint n Mv -> (forall b, length b = n -> b <> vzero n -> 0 < dot (Mv b) b) ->
    (forall te x b l, open_sections l = [] -> length x = n -> length b = n -> exists l', hierarchy_vmult te h x b l = (Ok (Mv b), l') /\ open_sections l' = []) ->
    (forall te x e l, open_sections l = [] -> length x = n -> length e = n -> exists y l', hierarchy_vmult te h x (f e) l = (Ok y, l') /\ open_sections l' = [] /\
      a * energy f e <= dot y (f e) /\ dot y (f e) <= c * energy f e) -> 0 < a -> a <= c ->
    driver_converges n f h a c.
  Proof.
    intros n f Mv h a c LA SA LM SM PM VM V Pa Hac.
    assert (SMv : spd n Mv) by (split; [exact SM|exact PM]).
    assert (HSp : spectrum_in n f Mv a c).
    { intros e Le. destruct (V (mkTenv false false) (vzero n) e [] eq_refl (vzero_length K n) Le) as (y & l' & E & _ & E1 & E2).
      destruct (VM (mkTenv false false) (vzero n) (f e) [] eq_refl (vzero_length K n) (lin_len LA _ Le)) as (l2 & E3 & _).
      rewrite E in E3. injection E3 as E3 _. rewrite <- E3. split; [exact E1|exact E2]. }
    intros te dbg tol h0 x b l Ht Lh Lx Lb Hl.
    assert (HP : applies_operator n (hierarchy_vmult te h) Mv) by (intros x1 b1 l2 H1 H2 H3; apply VM; auto).
    unfold driver_solve. rewrite Lx.
    destruct (@C101_terminates K dbg n f Mv (hierarchy_vmult te h) n tol LA SA LM SMv HP h0 x b l Lh Lx Lb (le_n n) Hl) as (it & y & l' & E & Li & Ly & Hr & Hl').
    exists it, y, l'. split; [exact E|]. split; [exact Li|]. split; [exact Hl'|]. split; [exact Ly|]. split; [exact Hr|].
    intros xs r Lxs -> Hr1 Hr2.
    exact (@C101_rate_root K dbg n f Mv (hierarchy_vmult te h) n tol LA SA LM SMv HP a c r Pa Hac HSp Hr1 Hr2 h0 x xs l it y l' Lh Lx Lxs Hl E).
  Qed.
  Lemma two_minus : forall t : K, t <= 1 -> t <= 1 + 1 - t.
  Proof. intros t H. apply fle_sub_0. replace (1 + 1 - t - t) with ((1 - t) + (1 - t)) by ring. apply fle_sub_0 in H. apply fadd_nonneg; exact H. Qed.
End CBridge.
Print Assumptions C102_any_hierarchy.

Section CMf.
  Variable K : ofield.
  Add Field KfieldCgMf : (f_field K).
  Local Notation vec := (vec K).
  Variable parse_double : string -> option K.
  Variable cg : N -> nat -> (vec -> vec) -> vec -> option (K * K).
  Variable auto_degree : K -> K -> K -> N.

  Variable accepts_double : string -> bool.
  Variable mk : ptree -> outcome (mat K * mat K).
  Variable ml_vmult : ml_list -> mat K -> vec -> vec.
  (** The hypotheses of C84, a bound [dmax] of the diagonal, and a restriction whose range approximates every vector up to its energy over [lambda]. *)
  Variables (n : nat) (f : vec -> vec) (d dinv : vec) (eps : K) (te0 : tenv) (dbg : bool) (p : ptree) (A R AP : mat K) (lo hi dmax theta lambda : K).
  Local Notation range := (pt_get parse_double ["smoother"; "smoothing_range"]%string 0%K p).
  Local Notation top := (fpos 12 / fpos 10 * hi)%K.
  Local Notation rho := (1 - theta * lambda)%K.
  Local Notation built h := (exists s l,
    construct (mf_helpers parse_double cg auto_degree n f dinv accepts_double mk ml_vmult) eps te0 dbg (Ok tt) (Some p) None = (Ok h, s, l)).
  Hypothesis Hop : is_matrix n f A.
  Hypothesis Hspd : spd n (mulvec A).
  Hypothesis Hdiag : inverse_diagonal n d dinv.
  Hypothesis Hsteps : 0 < c_steps p.
  Hypothesis Hlevels : c_levels p = 2%Z.
  Hypothesis Hcoarse : ci_eq (text_at p ["coarse"; "type"]%string "direct") "direct".
  Hypothesis Hsmoother : ci_eq (text_at p ["smoother"; "type"]%string "Chebyshev") "chebyshev".
  Hypothesis Hcg : cg 8%N n f dinv = Some (lo, hi).
  Hypothesis Hest : usable_estimate n f d range lo hi.
  Hypothesis Hdmax : flt 0%K dmax.
  Hypothesis Hbound : forall i, i < n -> fle (nth i d 0%K) dmax.
  Hypothesis Htheta : fle 0%K theta.
  Hypothesis Hgain : cheb_gain dmax (interval_low range lo top) top theta.
  Hypothesis Heig : pt_find p ["eigensolver"%string] <> None.
  Hypothesis Hagg : pt_find p ["agglomeration"%string] <> None.
  Hypothesis Hmk : mk p = Ok (R, AP).
  Hypothesis Hcols : nc R = n.
  Hypothesis Hrank : full_row_rank R.
  Hypothesis Hproduct : if pt_get parse_bool ["fast_ap"%string] false p then meq AP (mmul A (mtrans R)) else no_small_entry eps A R.
  Hypothesis Hlambda : flt 0%K lambda.
  Hypothesis Happrox : approximates A R lambda.

  (** C102: the driver with a matrix-free hierarchy. *)
  Theorem C102_matrix_free : c_prec p = true -> fle (theta * lambda)%K 1%K -> flt 0%K theta -> exists h, built h /\
    driver_converges n f h (theta * lambda)%K (1 + 1 - theta * lambda)%K.
  Proof.
    intros PF HL PT.
    destruct (@C98_condition K parse_double cg auto_degree accepts_double mk ml_vmult n f d dinv eps te0 dbg p A R AP lo hi dmax theta lambda
      Hop Hspd Hdiag Hsteps Hlevels Hcoarse Hsmoother Hcg Hest Hdmax Hbound Htheta Hgain Heig Hagg Hmk Hcols Hrank Hproduct Hlambda Happrox PF HL) as (h & (s & l & B) & V).
    destruct (@C84_matrix_free_preconditioner K parse_double cg auto_degree accepts_double mk ml_vmult n f dinv eps te0 dbg p A d lo hi R AP
      Hop Hspd Hdiag PF Hsteps Hlevels Hcoarse Hsmoother Hcg Hest Heig Hagg Hmk Hcols Hrank Hproduct) as (h' & s' & l1 & B' & Mv & LM & SM & PM & _ & VM).
    rewrite B in B'. assert (Eh : Ok h = Ok h') by (injection B' as E1 E2 E3; rewrite E1; reflexivity). injection Eh as <-. clear B'.
    exists h. split; [exists s, l; exact B|]. pose proof Hop as (D1 & D2 & D3).
    assert (LA : linear n n (mulvec A)) by (pose proof (mulvec_linear A) as X; rewrite D1, D2 in X; exact X).
    apply (@C102_any_hierarchy K n f Mv); auto.
    - constructor.
      + intros x Lx. rewrite D3 by auto. apply (lin_len LA); auto.
      + intros x y Lx Ly. rewrite !D3 by (auto; unfold OField.vec in *; vlen). apply (lin_add LA); auto.
      + intros t x Lx. rewrite !D3 by (auto; unfold OField.vec in *; vlen). apply (lin_scale LA); auto.
    - split.
      + intros x y Lx Ly. rewrite !D3 by auto. apply (proj1 Hspd); auto.
      + intros x Lx Nx. unfold energy. rewrite D3 by auto. apply (proj2 Hspd); auto.
    - apply fmul_pos; [exact PT|exact Hlambda].
    - apply two_minus. exact HL.
  Qed.
End CMf.
Print Assumptions C102_matrix_free.

Section CPar.
  Variable K : ofield.
  Add Field KfieldCgPar : (f_field K).
  Local Notation vec := (vec K).
  (** External code, as in M_HostEnd.v. *)
  Variable parse_unsigned : string -> option Z.
  Variable parse_double : string -> option K.
  Variable lobpcg : (vec -> vec) -> Z -> K -> list vec -> bool * eigensolution K.
  Variable fsqrt : K -> option K.
  Variable dstev : list K -> list K -> outcome (list K * list K).
  Variable tol2 : K.
  Variable rand : nat -> nat -> K.
  Variable std_sort : (nat -> nat -> bool) -> list nat -> list nat.
  Variable lapack : mat K -> K -> K -> outcome (list K * list vec).
  Variable arpack : mat K -> K -> vec -> nat -> outcome (list K * list vec).
  Variables (debug dim3 : bool).
  (** The mesh of all ranks; only its number of cells matters. *)
  Variable m : mesh.
  Variable F : fem K.
  Variable ranks : list (rank_env K).
  Local Notation A := (assembled F m).
  Local Notation agglomerates := (rank_agglomerates parse_unsigned debug dim3).
  Local Notation problem := (rank_problem parse_double lobpcg fsqrt dstev tol2 rand std_sort lapack arpack debug).
  Local Notation run := (par_restrictor_run parse_unsigned parse_double lobpcg fsqrt dstev tol2 rand std_sort lapack arpack debug dim3 (f_ndofs F) ranks).

  Hypothesis Hcover : ranks_cover (n_cells m) ranks.
  Hypothesis Hranks : forall rk, In rk ranks -> rank_ok debug F (fun g => ent A g g) rk.
  Hypothesis Hfem : fem_ok F.
  Hypothesis Hsym : forall c g h, f_cm F c g h = f_cm F c h g.
  Hypothesis Hpsd : forall c u, fle 0%K (cell_energy F c u).
  Hypothesis Hlapack : lapack_ok lapack.
  Hypothesis Hcomplete : lapack_complete lapack.
  Hypothesis Hspd : spd (f_ndofs F) (mulvec A).

  Section Rate.
    Variables (accepts_double : string -> bool) (owned_rows : mat K -> list (list nat)) (mk : ptree -> outcome (mat K * mat K)).
    Variables (ilu : mat K -> vec -> vec) (ml : ml_list -> mat K -> vec -> vec) (eps : K) (te0 : tenv).
    Variables (p : ptree) (R AP : mat K) (theta delta lambda : K).
    Hypothesis Hown : forall M : mat K, nr M = nc M -> distribution (nc M) (owned_rows M).
    Hypothesis Hdef : default_two_level p.
    Hypothesis Hfast : pt_get parse_bool ["fast_ap"%string] false p = false.
    Hypothesis HE : forall eig, pt_find p ["eigensolver"%string] = Some eig -> eigensolver_matrix debug eig = Ok ELapack.
    Hypothesis Hmk : mk p = Ok (R, AP).
    Hypothesis Hrun : run p R.
    Hypothesis Hrank : full_row_rank R.
    Local Notation built h := (exists s l, construct (par_helpers accepts_double owned_rows A mk ilu ml) eps te0 debug (Ok tt) (Some p) None = (Ok h, s, l)).
    Hypothesis Hlam : flt 0%K lambda.
    Hypothesis Hdisc : forall rk, In rk ranks -> discarded_above (agglomerates rk) (problem rk) (rk_evaluate rk) (rk_mesh rk) p lambda.
    Hypothesis Htheta : fle 0%K theta.
    Hypothesis Hdelta : fle 0%K delta.
    Hypothesis Hdelta1 : fle delta 1%K.
    Hypothesis Hbound : forall own, In own (owned_rows A) -> fle (theta * triangle_bound (local_block A own))%K 1%K.
    Hypothesis Hweak : weakly_coupled (owned_rows A) A delta.
    Local Notation rho := (1 - delta * theta * lambda)%K.

    (** C102: the driver on several MPI ranks with the hierarchy built from the distributed mesh. *)
    Theorem C102_ranks : c_prec p = true -> (length (owned_rows A) <= 2 \/ two_colours (owned_rows A) A \/ anchored_dominant A) ->
      fle (delta * theta * lambda)%K 1%K -> flt 0%K theta -> flt 0%K delta -> exists h, built h /\
      driver_converges (f_ndofs F) (mulvec A) h (delta * theta * lambda)%K (1 + 1 - delta * theta * lambda)%K.
    Proof.
      intros PF HC HL PT PD.
      destruct (@C90_rate K parse_unsigned parse_double lobpcg fsqrt dstev tol2 rand std_sort lapack arpack debug dim3 m F ranks Hcover Hranks Hfem Hsym Hpsd Hlapack Hcomplete Hspd
        accepts_double owned_rows mk ilu ml eps te0 p R AP theta delta lambda Hown Hdef Hfast HE Hmk Hrun Hrank Hlam Hdisc Htheta Hdelta Hdelta1 Hbound Hweak) as (h & (s & l & B) & V).
      destruct (@C90_preconditioner K parse_unsigned parse_double lobpcg fsqrt dstev tol2 rand std_sort lapack arpack debug dim3 m F ranks Hspd
        accepts_double owned_rows mk ilu ml eps te0 p R AP Hown Hdef Hfast Hmk Hrun Hrank PF HC) as (h' & (s' & l1 & B') & Mv & LM & SM & PM & _ & VM).
      rewrite B in B'. assert (Eh : Ok h = Ok h') by (injection B' as E1 E2 E3; rewrite E1; reflexivity). injection Eh as <-. clear B'.
      exists h. split; [exists s, l; exact B|].
      assert (Hr : fle 0%K rho) by (apply fle_sub_0 in HL; exact HL).
      apply (@C102_any_hierarchy K (f_ndofs F) (mulvec A) Mv); auto.
      - exact (mulvec_linear A).
      - intros te x e l2 Hl Lx Le.
        destruct (@condition_rate K A h rho (c_prec p) eq_refl Hspd V PF Hr te x e l2 Hl Lx Le) as (y & l' & E & O & L1 & L2). exists y, l'. split; [exact E|]. split; [exact O|].
        replace (1 - rho)%K with (delta * theta * lambda)%K in L1 by ring. replace (1 + rho)%K with (1 + 1 - delta * theta * lambda)%K in L2 by ring. split; assumption.
      - apply fmul_pos; [apply fmul_pos; assumption|exact Hlam].
      - apply two_minus. exact HL.
    Qed.
  End Rate.
End CPar.
Print Assumptions C102_ranks.

Local Notation ex_helpers98 := (mf_helpers ex_parse83 ex_cg83 (fun _ _ _ => 1%N) 2 (mulvec (hA QcOF)) ex_dinv83 (fun _ => false) (fun _ => Ok (hR QcOF, hA QcOF)) (fun _ _ r => r)).
(** The matrix-free hierarchy of C98: the spectrum of M A lies in [300/529, 758/529], and 758/300 <= 1.6^2. *)
Example C102_matrix_free_example : exists h s l, construct ex_helpers98 (q 1 (10 ^ 14)) (mkTenv true true) true (Ok tt) (Some (ex_p98 "true" "3")) None = (Ok h, s, l) /\
  forall h0 x xs, length h0 = 2 -> length x = 2 -> length xs = 2 ->
    exists it y l', driver_solve (mkTenv true true) true (mulvec (hA QcOF)) h (q 1 1000) h0 x (mulvec (hA QcOF) xs) [] = (Ok (it, y), l') /\ it <= 2 /\
      fle (fpow ((q 8 5 + 1) * (q 8 5 + 1))%K it * energy (mulvec (hA QcOF)) (vsub xs y))%K
        ((1 + 1) * (1 + 1) * (fpow ((q 8 5 - 1) * (q 8 5 - 1))%K it * energy (mulvec (hA QcOF)) (vsub xs x)))%K.
Proof.
  destruct (@C102_matrix_free QcOF ex_parse83 ex_cg83 (fun _ _ _ => 1%N) (fun _ => false) (fun _ => Ok (hR QcOF, hA QcOF)) (fun _ _ r => r)
    2 (mulvec (hA QcOF)) ex_d83 ex_dinv83 (q 1 (10 ^ 14)) (mkTenv true true) true (ex_p98 "true" "3") (hA QcOF) (hR QcOF) (hA QcOF) (q 1 2) (q 3 2) (q 2 1) (q 100 529) (q 3 1))
    as (h & (s & l & E) & V); [(rewrite ?ex_range98; c98) ..|].
  exists h, s, l. split; [exact E|]. intros h0 x xs L0 Lx Lxs.
  destruct (V (mkTenv true true) true (q 1 1000) h0 x (mulvec (hA QcOF) xs) []) as (it & y & l' & E2 & Li & _ & _ & _ & RT).
  - apply fleb_le. vm_compute. reflexivity.
  - exact L0.
  - exact Lx.
  - exact (mulvec_length (hA QcOF) xs).
  - reflexivity.
  - exists it, y, l'. split; [exact E2|]. split; [exact Li|]. apply RT.
    + exact Lxs.
    + reflexivity.
    + apply fltb_lt. vm_compute. reflexivity.
    + apply fleb_le. vm_compute. reflexivity.
Qed.
(** The mesh of C90 on two processes. *)
Example C102_ranks_example : exists R h s l, prun (pparams "true") R /\
  construct (par_helpers (fun _ => false) prows hA2 (fun _ => Ok (R, R)) (fun _ r => r) (fun _ _ r => r)) 0%K (mkTenv true true) true (Ok tt) (Some (pparams "true")) None = (Ok h, s, l) /\
  driver_converges 3 (mulvec hA2) h (pq 1 10 * pq 1 43 * q 26 1)%K (1 + 1 - pq 1 10 * pq 1 43 * q 26 1)%K.
Proof.
  destruct (pexists "true") as (R & HR). assert (FR := pfull _ _ HR).
  destruct (@C102_ranks QcOF (fun s => parse_int s) ex_parse_double ex_no_lobpcg qsqrt (fun _ _ => Fuel) (q 0 1) (fun _ _ => q 0 1) (@insertion_sort nat) hlapack ex_no_arpack
    true false (lmesh 2) hF pranks pcover pranks_ok hfem_ok hsym hcells (lapack_of_ok _ _) hlapack_complete hA2_spd (fun _ => false) prows (fun _ => Ok (R, R)) (fun _ r => r) (fun _ _ r => r) 0%K
    (mkTenv true true) (pparams "true") R R (pq 1 43) (pq 1 10) (q 26 1) prows_ok (pdefault "true")) as (h & (s & l & C1) & V); try exact HR; try exact FR; try reflexivity.
  - intros eig E. injection E as <-. reflexivity.
  - apply fltb_lt. vm_compute. reflexivity.
  - exact (pdisc "true").
  - apply fleb_le. vm_compute. reflexivity.
  - apply fleb_le. vm_compute. reflexivity.
  - apply fleb_le. vm_compute. reflexivity.
  - intros own I. change (prows (assembled hF (lmesh 2))) with [[0]; [1; 2]] in I. destruct I as [<-|[<-|[]]]; apply fleb_le; vm_compute; reflexivity.
  - exact hA2_weak.
  - left. vm_compute. lia.
  - apply fleb_le. vm_compute. reflexivity.
  - apply fltb_lt. vm_compute. reflexivity.
  - apply fltb_lt. vm_compute. reflexivity.
  - exists R, h, s, l. split; [exact HR|]. split; [exact C1|]. exact V.
Qed.
