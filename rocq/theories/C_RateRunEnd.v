(** Property theorems about the measured convergence rate of matrix-free hierarchies and on several MPI ranks: C103. *)
From Coq Require Import String List Arith ZArith NArith Bool Lia Field Permutation QArith Qcanon.
From Verif Require Import Base OField Mat LinAlg M_Ptree S_Ptree P_Ptree M_Agglo S_Agglo M_WorkStream M_Restr S_Restr P_Restr P_Restr2
  S_FastAP P_FastAP2 M_Lanczos S_Lanczos M_Eig S_Eig M_Hier S_Hier P_Hier P_HierC P_HierE P_HierS M_Smoother P_Smoother M_Host S_Host P_Host P_HostN M_HostEnd S_HostEnd P_HostEnd
  P_Amgx3 S_Rate P_Rate P_Approx P_Local M_Cheby S_Cheby P_Poly P_Cheby P_Cheby2 P_Cheby3 M_Par S_Par P_Par P_Par2 P_Par3 P_Par4 M_ParEnd S_ParEnd P_ParEnd
  M_RateRun S_RateRun P_RateRun P_RateRun2
  C_Host C_Cheby C_MfRate C_Restr C_Rate C_Par M_FastAP C_FastAP C_HostEnd E_Lanczos C_Lanczos C_Eig E_Solve E_CudaHier C_CudaHier P_CudaHier3 P_Rate2 P_Perm P_Lanczos9 P_AmgeDev2 C_ParEnd C_RateRun.
Import ListNotations.
Set Implicit Arguments.
Open Scope list_scope.
Open Scope nat_scope.

Section CMf.
  Variable K : ofield.
  Add Field KfieldRRMf : (f_field K).
  Local Notation vec := (vec K).
  Variable parse_double : string -> option K.
  Variable cg : N -> nat -> (vec -> vec) -> vec -> option (K * K).
  Variable auto_degree : K -> K -> K -> N.
  Variable accepts_double : string -> bool.
  Variable mk : ptree -> outcome (mat K * mat K).
  Variable ml_vmult : ml_list -> mat K -> vec -> vec.
  (** The hypotheses of C98. *)
  Variables (n : nat) (f : vec -> vec) (d dinv : vec) (eps : K) (te0 : tenv) (dbg : bool) (p : ptree) (A R AP : mat K) (lo hi dmax theta lambda : K).
  Local Notation range := (pt_get parse_double ["smoother"; "smoothing_range"]%string 0%K p).
  Local Notation top := (fpos 12 / fpos 10 * hi)%K.
  Local Notation rho := (1 - theta * lambda)%K.
  Local Notation built h := (exists s l,
    construct (mf_helpers parse_double cg auto_degree n f dinv accepts_double mk ml_vmult) eps te0 dbg (Ok tt) (Some p) None = (Ok h, s, l)).
  Hypothesis Hop : is_matrix n f A.
  Hypothesis Hspd : spd n (mulvec A).
  Hypothesis Hdiag : inverse_diagonal n d dinv.
  Hypothesis Hsteps : 0 < c_steps p.
  Hypothesis Hlevels : c_levels p = 2%Z.
  Hypothesis Hcoarse : ci_eq (text_at p ["coarse"; "type"]%string "direct") "direct".
  Hypothesis Hsmoother : ci_eq (text_at p ["smoother"; "type"]%string "Chebyshev") "chebyshev".
  Hypothesis Hcg : cg 8%N n f dinv = Some (lo, hi).
  Hypothesis Hest : usable_estimate n f d range lo hi.
  Hypothesis Hdmax : flt 0%K dmax.
  Hypothesis Hbound : forall i, i < n -> fle (nth i d 0%K) dmax.
  Hypothesis Htheta : fle 0%K theta.
  Hypothesis Hgain : cheb_gain dmax (interval_low range lo top) top theta.
  Hypothesis Heig : pt_find p ["eigensolver"%string] <> None.
  Hypothesis Hagg : pt_find p ["agglomeration"%string] <> None.
  Hypothesis Hmk : mk p = Ok (R, AP).
  Hypothesis Hcols : nc R = n.
  Hypothesis Hrank : full_row_rank R.
  Hypothesis Hproduct : if pt_get parse_bool ["fast_ap"%string] false p then meq AP (mmul A (mtrans R)) else no_small_entry eps A R.
  Hypothesis Hlambda : flt 0%K lambda.
  Hypothesis Happrox : approximates A R lambda.

  (** C103: matrix-free hierarchies with the Chebyshev smoother. *)
  Theorem C103_matrix_free : forall mu Lam, c_prec p = false -> (forall v, length v = n -> fle (mu * dot v v)%K (energy f v)) ->
    (forall v, length v = n -> fle (energy f v) (Lam * dot v v)%K) -> flt 0%K mu -> fle 0%K Lam ->
    exists h, built h /\ measures_rate n f h rho mu Lam /\ growing_factors n f h.
  Proof.
    intros mu Lam PF Hm HL Pm PL. pose proof Hop as (D1 & D2 & D3).
    assert (SK : matrix_free_smoother_kind p = Ok KChebyshev).
    { unfold matrix_free_smoother_kind. rewrite get_string_text. assert (KT := Hsmoother). apply lower_ci in KT; [|apply no_upperb_ok; reflexivity]. rewrite KT. reflexivity. }
    assert (CK : dealii_solver_kind accepts_double p = Ok KDirect).
    { destruct (C38_host_solver accepts_double p) as [(_ & E)|[(Q & _)|(Q & _)]]; auto; [|contradiction].
      exfalso. assert (CD := Hcoarse). apply lower_ci in Q; [|apply no_upperb_ok; reflexivity]. apply lower_ci in CD; [|apply no_upperb_ok; reflexivity]. congruence. }
    destruct (@mf_two_level K parse_double cg auto_degree accepts_double mk ml_vmult eps n f dinv te0 dbg p A d lo hi dmax theta Hop Hspd Hdiag Hlevels CK SK Hcg Hest
      Hdmax Hbound Hgain Heig Hagg R AP Hmk Hcols Hrank Hproduct) as (B & LB & SB & SM & h & s & l & E & V).
    rewrite PF in V. exists h. split; [exists s, l; exact E|].
    assert (LA : linear n n (mulvec A)) by (pose proof (mulvec_linear A) as X; rewrite D1, D2 in X; exact X).
    assert (RC : reducing_cycle n (mulvec A) h rho /\ symmetric_cycle n (mulvec A) h).
    { clear Hm HL. rewrite <- D2 in LB, SB, SM, V, Hspd, Hcols |- *. assert (DA : nr A = nc A) by congruence.
      split; [apply (@grid_reducing K A R B (c_steps p) h theta lambda); auto|apply (@grid_symmetric K A R B (c_steps p)); auto]. }
    destruct RC as (RC & SC). assert (RF := @same_reducing K n f (mulvec A) h rho D3 RC). assert (SF := @same_symmetric K n f (mulvec A) h rho D3 RC SC).
    assert (LF : linear n n f).
    { constructor.
      - intros x Lx. rewrite D3 by auto. apply (lin_len LA); auto.
      - intros x y Lx Ly. rewrite !D3 by (auto; unfold OField.vec in *; vlen). apply (lin_add LA); auto.
      - intros t x Lx. rewrite !D3 by (auto; unfold OField.vec in *; vlen). apply (lin_scale LA); auto. }
    assert (SPF : spd n f).
    { split.
      - intros x y Lx Ly. rewrite !D3 by auto. apply (proj1 Hspd); auto.
      - intros x Lx Nx. unfold energy. rewrite D3 by auto. apply (proj2 Hspd); auto. }
    split; [exact (@C103_measures K n f h rho LF SPF RF mu Lam SF Hm HL Pm PL)|exact (@C103_factors K n f h rho LF SPF RF SF)].
  Qed.
End CMf.
Print Assumptions C103_matrix_free.

Section CPar.
  Variable K : ofield.
  Add Field KfieldRRPar : (f_field K).
  Local Notation vec := (vec K).
  (** External code, as in M_HostEnd.v. *)
  Variable parse_unsigned : string -> option Z.
  Variable parse_double : string -> option K.
  Variable lobpcg : (vec -> vec) -> Z -> K -> list vec -> bool * eigensolution K.
  Variable fsqrt : K -> option K.
  Variable dstev : list K -> list K -> outcome (list K * list K).
  Variable tol2 : K.
  Variable rand : nat -> nat -> K.
  Variable std_sort : (nat -> nat -> bool) -> list nat -> list nat.
  Variable lapack : mat K -> K -> K -> outcome (list K * list vec).
  Variable arpack : mat K -> K -> vec -> nat -> outcome (list K * list vec).
  Variables (debug dim3 : bool).
  (** The mesh of all ranks; only its number of cells matters. *)
  Variable m : mesh.
  Variable F : fem K.
  Variable ranks : list (rank_env K).
  Local Notation A := (assembled F m).
  Local Notation agglomerates := (rank_agglomerates parse_unsigned debug dim3).
  Local Notation problem := (rank_problem parse_double lobpcg fsqrt dstev tol2 rand std_sort lapack arpack debug).
  Local Notation run := (par_restrictor_run parse_unsigned parse_double lobpcg fsqrt dstev tol2 rand std_sort lapack arpack debug dim3 (f_ndofs F) ranks).

  Hypothesis Hcover : ranks_cover (n_cells m) ranks.
  Hypothesis Hranks : forall rk, In rk ranks -> rank_ok debug F (fun g => ent A g g) rk.
  Hypothesis Hfem : fem_ok F.
  Hypothesis Hsym : forall c g h, f_cm F c g h = f_cm F c h g.
  Hypothesis Hpsd : forall c u, fle 0%K (cell_energy F c u).
  Hypothesis Hlapack : lapack_ok lapack.
  Hypothesis Hcomplete : lapack_complete lapack.
  Hypothesis Hspd : spd (f_ndofs F) (mulvec A).

  Section Rate.
    Variables (accepts_double : string -> bool) (owned_rows : mat K -> list (list nat)) (mk : ptree -> outcome (mat K * mat K)).
    Variables (ilu : mat K -> vec -> vec) (ml : ml_list -> mat K -> vec -> vec) (eps : K) (te0 : tenv).
    Variables (p : ptree) (R AP : mat K) (theta delta lambda : K).
    Hypothesis Hown : forall M : mat K, nr M = nc M -> distribution (nc M) (owned_rows M).
    Hypothesis Hdef : default_two_level p.
    Hypothesis Hfast : pt_get parse_bool ["fast_ap"%string] false p = false.
    Hypothesis HE : forall eig, pt_find p ["eigensolver"%string] = Some eig -> eigensolver_matrix debug eig = Ok ELapack.
    Hypothesis Hmk : mk p = Ok (R, AP).
    Hypothesis Hrun : run p R.
    Hypothesis Hrank : full_row_rank R.
    Local Notation built h := (exists s l, construct (par_helpers accepts_double owned_rows A mk ilu ml) eps te0 debug (Ok tt) (Some p) None = (Ok h, s, l)).
    Hypothesis Hlam : flt 0%K lambda.
    Hypothesis Hdisc : forall rk, In rk ranks -> discarded_above (agglomerates rk) (problem rk) (rk_evaluate rk) (rk_mesh rk) p lambda.
    Hypothesis Htheta : fle 0%K theta.
    Hypothesis Hdelta : fle 0%K delta.
    Hypothesis Hdelta1 : fle delta 1%K.
    Hypothesis Hbound : forall own, In own (owned_rows A) -> fle (theta * triangle_bound (local_block A own))%K 1%K.
    Hypothesis Hweak : weakly_coupled (owned_rows A) A delta.
    Local Notation rho := (1 - delta * theta * lambda)%K.

    (** C103: the hierarchy built from the distributed mesh on several MPI ranks. *)
    Theorem C103_ranks : forall mu Lam, c_prec p = false -> (forall v, length v = f_ndofs F -> fle (mu * dot v v)%K (energy (mulvec A) v)) ->
      (forall v, length v = f_ndofs F -> fle (energy (mulvec A) v) (Lam * dot v v)%K) -> flt 0%K mu -> fle 0%K Lam ->
      exists h, built h /\ measures_rate (f_ndofs F) (mulvec A) h rho mu Lam /\ growing_factors (f_ndofs F) (mulvec A) h.
    Proof.
      intros mu Lam PF Hm HL Pm PL. destruct (run_shape _ Hrun) as (PE & PA & DR). destruct Hdef as (D1 & D2 & D3 & D4).
      assert (SK : dealii_smoother_kind p = Ok KSsor).
      { unfold dealii_smoother_kind. rewrite get_string_text. apply lower_ci in D4; [|apply no_upperb_ok; reflexivity]. rewrite D4. reflexivity. }
      assert (CK : dealii_solver_kind accepts_double p = Ok KDirect).
      { destruct (C38_host_solver accepts_double p) as [(_ & E)|[(Q & _)|(Q & _)]]; auto; [|contradiction].
        exfalso. apply lower_ci in Q; [|apply no_upperb_ok; reflexivity]. apply lower_ci in D3; [|apply no_upperb_ok; reflexivity]. congruence. }
      assert (DA : nr A = nc A) by reflexivity. pose proof (Hown A DA) as HO.
      assert (LK : linear (nc A) (nc A) (par_ssor_vmult (owned_rows A) A)) by (apply par_linear; exact HO).
      assert (SM := @par_smooths K A (owned_rows A) DA HO Hspd theta delta Htheta Hdelta Hdelta1 Hbound Hweak).
      assert (SY := @par_sym K A (owned_rows A) DA HO Hspd).
      assert (AX := @C90_coarse_space_approximates K parse_unsigned parse_double lobpcg fsqrt dstev tol2 rand std_sort lapack arpack debug dim3 m F ranks
        Hcover Hranks Hfem Hsym Hpsd Hlapack Hcomplete Hspd p R lambda HE Hrun (flt_le Hlam) Hdisc).
      destruct (@par_two_level K accepts_double owned_rows A mk ilu ml eps te0 debug p KSsor R AP DA Hspd D2 SK LK CK PE PA Hmk DR Hrank) as (h & s & l & CC & V).
      { rewrite Hfast. discriminate. }
      rewrite PF in V. exists h. split; [exists s, l; exact CC|].
      assert (RC : reducing_cycle (nc A) (mulvec A) h rho).
      { apply (@grid_reducing K A R (par_ssor_vmult (owned_rows A) A) (c_steps p) h (delta * theta)%K lambda); auto. apply fle_mul; auto. }
      assert (SC : symmetric_cycle (nc A) (mulvec A) h) by (apply (@grid_symmetric K A R (par_ssor_vmult (owned_rows A) A) (c_steps p)); auto).
      split; [exact (@C103_measures K (f_ndofs F) (mulvec A) h rho (mulvec_linear A) Hspd RC mu Lam SC Hm HL Pm PL)|
        exact (@C103_factors K (f_ndofs F) (mulvec A) h rho (mulvec_linear A) Hspd RC SC)].
    Qed.
  End Rate.
End CPar.
Print Assumptions C103_ranks.

(** Example: the matrix-free hierarchy of C98; the eigenvalues of the operator are 1 and 3. *)
Local Notation ex_helpers98 := (mf_helpers ex_parse83 ex_cg83 (fun _ _ _ => 1%N) 2 (mulvec (hA QcOF)) ex_dinv83 (fun _ => false) (fun _ => Ok (hR QcOF, hA QcOF)) (fun _ _ r => r)).
Lemma hA_symmetric103 : symmetric_matrix (hA QcOF).
Proof. split; [reflexivity|]. intros i j Hi Hj. cbn in Hi, Hj. destruct i as [|[|i]], j as [|[|j]]; try lia; reflexivity. Qed.
Lemma hA_bounds103 : forall v, length v = 2 -> fle (q 9 10 * dot v v)%K (energy (mulvec (hA QcOF)) v) /\ fle (energy (mulvec (hA QcOF)) v) (q 31 10 * dot v v)%K.
Proof. apply (@bounds_ok (hA QcOF) (q 9 10) (q 31 10) hA_symmetric103); vm_compute; reflexivity. Qed.
Example C103_matrix_free_example : exists h s l, construct ex_helpers98 (q 1 (10 ^ 14)) (mkTenv true true) true (Ok tt) (Some (ex_p98 "false" "3")) None = (Ok h, s, l) /\
  measures_rate 2 (mulvec (hA QcOF)) h (1 - q 100 529 * q 3 1)%K (q 9 10) (q 31 10) /\ growing_factors 2 (mulvec (hA QcOF)) h.
Proof.
  destruct (@C103_matrix_free QcOF ex_parse83 ex_cg83 (fun _ _ _ => 1%N) (fun _ => false) (fun _ => Ok (hR QcOF, hA QcOF)) (fun _ _ r => r)
    2 (mulvec (hA QcOF)) ex_d83 ex_dinv83 (q 1 (10 ^ 14)) (mkTenv true true) true (ex_p98 "false" "3") (hA QcOF) (hR QcOF) (hA QcOF) (q 1 2) (q 3 2) (q 2 1) (q 100 529) (q 3 1))
    with (mu := q 9 10) (Lam := q 31 10) as (h & (s & l & E) & V); try (intros v Lv; apply (hA_bounds103 v Lv)); [(rewrite ?ex_range98; c98) ..|].
  exists h, s, l. split; [exact E|exact V].
Qed.
(** Example: two processes, one element on each. *)
Lemma hA2_symmetric103 : symmetric_matrix hA2.
Proof. split; [reflexivity|]. intros i j Hi Hj. change (nr hA2) with 3 in Hi, Hj. destruct i as [|[|[|i]]], j as [|[|[|j]]]; try lia; vm_compute; reflexivity. Qed.
Example C103_ranks_example : exists R h s l, prun (pparams "false") R /\
  construct (par_helpers (fun _ => false) prows hA2 (fun _ => Ok (R, R)) (fun _ r => r) (fun _ _ r => r)) 0%K (mkTenv true true) true (Ok tt) (Some (pparams "false")) None = (Ok h, s, l) /\
  measures_rate 3 (mulvec hA2) h (1 - pq 1 10 * pq 1 43 * q 26 1)%K (q 1 1) (q 60 1) /\ growing_factors 3 (mulvec hA2) h.
Proof.
  destruct (pexists "false") as (R & HR). assert (FR := pfull _ _ HR).
  destruct (@C103_ranks QcOF (fun s => parse_int s) ex_parse_double ex_no_lobpcg qsqrt (fun _ _ => Fuel) (q 0 1) (fun _ _ => q 0 1) (@insertion_sort nat) hlapack ex_no_arpack
    true false (lmesh 2) hF pranks pcover pranks_ok hfem_ok hsym hcells (lapack_of_ok _ _) hlapack_complete hA2_spd (fun _ => false) prows (fun _ => Ok (R, R)) (fun _ r => r) (fun _ _ r => r) 0%K
    (mkTenv true true) (pparams "false") R R (pq 1 43) (pq 1 10) (q 26 1) prows_ok (pdefault "false")) with (mu := q 1 1) (Lam := q 60 1) as (h & (s & l & C1) & V); try exact HR; try exact FR; try reflexivity.
  - intros eig E. injection E as <-. reflexivity.
  - apply fltb_lt. vm_compute. reflexivity.
  - exact (pdisc "false").
  - apply fleb_le. vm_compute. reflexivity.
  - apply fleb_le. vm_compute. reflexivity.
  - apply fleb_le. vm_compute. reflexivity.
  - intros own I. change (prows (assembled hF (lmesh 2))) with [[0]; [1; 2]] in I. destruct I as [<-|[<-|[]]]; apply fleb_le; vm_compute; reflexivity.
  - exact hA2_weak.
  - intros v Lv. apply (@bounds_ok hA2 (q 1 1) (q 60 1) hA2_symmetric103); [vm_compute; reflexivity|vm_compute; reflexivity|exact Lv].
  - intros v Lv. apply (@bounds_ok hA2 (q 1 1) (q 60 1) hA2_symmetric103); [vm_compute; reflexivity|vm_compute; reflexivity|exact Lv].
  - apply fltb_lt. vm_compute. reflexivity.
  - apply fleb_le. vm_compute. reflexivity.
  - exists R, h, s, l. split; [exact HR|]. split; [exact C1|exact V].
Qed.
