(** Property theorems about the fast product of matrix-free preconditioners on several ranks: C108. *)
From Coq Require Import String List Arith ZArith NArith Bool Lia Field Permutation QArith Qcanon.
From Verif Require Import Base OField Mat LinAlg M_Ptree S_Ptree P_Ptree M_Agglo S_Agglo M_WorkStream M_Restr S_Restr P_Restr P_Restr2
  S_FastAP P_FastAP P_FastAP2 M_Perm S_Perm M_Lanczos S_Lanczos M_Eig S_Eig P_Eig M_Hier S_Hier P_Hier P_HierC P_HierE P_HierS M_Smoother P_Smoother M_Host S_Host P_Host P_HostN M_HostEnd S_HostEnd P_HostEnd
  P_Amgx3 S_Rate P_Rate P_Approx P_Local P_Lanczos5 P_Lanczos8 M_MfEnd S_MfEnd P_MfEnd M_Cheby S_Cheby P_Cheby P_Cheby2 P_Cheby3
  C_Host C_Eig M_FastAP C_FastAP C_HostEnd E_Lanczos C_Lanczos C_Cheby C_MfRate C_Rate C_CudaHier E_Solve E_CudaHier P_CudaHier3 M_ParEnd P_ParEnd P_Perm C_Local C_RateRun
  S_Trunc P_Trunc S_MfFast P_MfFast C_MfEnd C_MfFast M_ParMfEnd S_ParMfEnd P_ParMfEnd C_ParMfEnd M_ParMfFast S_ParMfFast P_ParMfFast P_WorkStream.
Import ListNotations.
Set Implicit Arguments.
Open Scope list_scope.
Open Scope nat_scope.

Section CParMfFast.
  Variable K : ofield.
  Add Field KfieldC108 : (f_field K).
  Local Notation vec := (vec K).
  (** External code, as in M_ParMfFast.v. *)
  Variable parse_unsigned : string -> option Z.
  Variable parse_double : string -> option K.
  Variable lobpcg : (vec -> vec) -> Z -> K -> list vec -> bool * eigensolution K.
  Variable fsqrt : K -> option K.
  Variable dstev : list K -> list K -> outcome (list K * list K).
  Variable tol2 : K.
  Variable rand : nat -> nat -> K.
  Variable std_sort : (nat -> nat -> bool) -> list nat -> list nat.
  Variables (debug dim3 : bool).
  (** The mesh of all ranks, its elements and constrained dofs, the ranks, and the connectivity of the cells each of them sees. *)
  Variable m : mesh.
  Variable F : fem K.
  Variable fixed : nat -> bool.
  Variable ranks : list (mf_rank K).
  Variable conn : nat -> nat -> list nat.
  Local Notation A := (assembled F m).
  Local Notation agglomerates := (mf_rank_agglomerates parse_unsigned debug dim3).
  Local Notation problem := (mf_rank_problem parse_double lobpcg fsqrt dstev tol2 rand std_sort debug).
  Local Notation run := (par_mf_restrictor_run parse_unsigned parse_double lobpcg fsqrt dstev tol2 rand std_sort debug dim3 (f_ndofs F) ranks).
  Local Notation fast := (par_mf_fast_run parse_unsigned parse_double lobpcg fsqrt dstev tol2 rand std_sort debug dim3 (f_ndofs F) conn ranks).
  Local Notation represent rk := (rank_represent F fixed (agglomerates rk) (problem rk) rk).
  Local Notation pairs rk := (mf_kept_pairs (rank_fem F rk) (agglomerates rk) (problem rk) (mr_dofs rk) (mr_mesh rk)).

  Hypothesis Hcover : mf_ranks_cover (n_cells m) ranks.
  Hypothesis Hranks : forall rk, In rk ranks -> mf_rank_ok F fixed debug A rk.
  Hypothesis Hfem : fem_ok F.
  Hypothesis Hpsd : forall c u, fle 0%K (cell_energy F c u).
  Hypothesis Hspd : spd (f_ndofs F) (mulvec A).
  (** The ranks see the neighbours of their cells; the evaluators keep their contract on these ghost cells, too. *)
  Hypothesis Hghosts : forall rk, In rk ranks -> sees_neighbours F (n_cells m) rk.
  Hypothesis Heval : forall rk, In rk ranks -> mf_evaluator_ok (rank_fem F rk) fixed (mr_dofs rk) (mr_op rk) (mr_diag rk) (mr_constrained rk).

  (** C108: on any number of ranks, every column of the fast product is off by the residual of its pair. *)
  Theorem C108_product : forall p R AP lambda eps tau, fast p R AP ->
    (forall q rk, nth_error ranks q = Some rk -> connectivity_ok (rank_fem F rk) (mr_mesh rk) (conn q) /\ rank_touches (agglomerates rk) rk (conn q) p) ->
    (forall rk, In rk ranks -> represent rk p lambda eps /\ pairs rk p tau) ->
    columns_within tau AP (mmul A (mtrans R)).
  Proof.
    intros p R AP lambda eps tau HR HC HP. eapply par_fast_error; eauto. intros q rk Hq. assert (I := nth_error_In _ _ Hq). destruct (HC q rk Hq). destruct (HP rk I).
    split; [auto|]. split; [eauto|]. split; [auto|]. split; [auto|]. auto.
  Qed.
  (** C108: if there is a run without the fast product, there is one with it, and the restriction is the same; and conversely. *)
  Theorem C108_restriction : forall p R lambda eps, (forall rk, In rk ranks -> represent rk p lambda eps) -> (run p R <-> exists AP, fast p R AP).
  Proof.
    intros p R lambda eps HD. split.
    - intros HR. refine (par_fast_exists conn Hfem HR (fun rk I => conj (Hranks rk I) (conj (HD rk I) (Heval rk I)))).
    - intros (AP & HR). eapply fast_is_run; eauto.
  Qed.

  (** C108: on every rank Lanczos returns as many pairs as asked for, with residuals below its tolerance (not below 1e-4). *)
  Theorem C108_lanczos : forall rk p eig (nc nk : nat), In rk ranks -> sqrt_ok fsqrt -> dstev_ok dstev -> fle 0%K tol2 -> std_sort_contract std_sort ->
    (forall c g h, f_cm F c g h = f_cm F c h g) -> fixed_decoupled F fixed -> mf_operator_ok fixed (mr_dofs rk) (mr_op rk) ->
    pt_find p ["eigensolver"%string] = Some eig -> eigensolver_matrix_free debug eig = Ok ELanczos ->
    (if pt_get parse_bool ["is_deflated"%string] false eig
     then pt_require parse_int ["num_cycles"%string] eig = Ok (Z.of_nat nc) /\ pt_require parse_int ["num_eigenpairs_per_cycle"%string] eig = Ok (Z.of_nat nk)
     else nc = 1 /\ nk = n_eigenvectors eig) ->
    let maxit := Z.to_nat (pt_get parse_int ["max_iterations"%string] 200%Z eig) in
    1 <= maxit -> f_ndofs F <= maxit -> 1 <= nk -> 1 <= n_eigenvectors eig <= nc * nk ->
    let tol := fmax (eig_tolerance K parse_double eig) (1 / fpos 10000)%K in
    pairs rk p (tol * tol * (1 + fnat ((nc - 1) * nk)))%K.
  Proof.
    intros rk p eig ncy nk Irk Hsq Hd Ht Hs Hsym Hfd Hmo Pe Ek Hp maxit H1 H2 H3 H4 tol eig' agg ui n a sc c Pe' Pa BA Ha E.
    assert (eig' = eig) by congruence. subst eig'. cbv zeta. assert (GZ := @mf_ghosts_zero K parse_unsigned debug dim3 F fixed A rk agg ui n (Hranks rk Irk) BA). clear BA.
    unfold mf_rank_problem, mf_local_problem in E. rewrite own_patch in E by (auto; lia).
    assert (N := mf_nodup (mr_mesh rk) ui a). set (cells := agg_cells (mr_mesh rk) ui a) in *. destruct (Heval rk Irk N) as (E1 & E2 & E3 & E4 & _). cbv zeta in E1, E2, E3, E4.
    destruct (Hmo cells N) as (B & B1 & B2 & B3 & B4). cbv zeta in B1, B3, B4. set (dofs := mr_dofs rk cells) in *. set (M := patch_matrix (rank_fem F rk) cells dofs) in *.
    assert (SM : symmetric_matrix M). { split; [reflexivity|]. intros i j _ _. unfold M. cbn [patch_matrix ent]. apply lsum_map_ext. intros k _. apply Hsym. }
    assert (Sqb : Mat.nc B = length dofs) by (rewrite <- B1; symmetry; apply B2).
    destruct (@C99_lanczos_pairs K parse_double lobpcg fsqrt dstev tol2 rand std_sort debug (mr_draws rk a) eig (n_eigenvectors eig) (eig_tolerance K parse_double eig) (trim M) (trim B)
      (mr_op rk cells) (mr_diag rk cells) (mr_constrained rk cells) dofs sc c ncy nk Hsq Hd Ht Hs) as (R1 & R2 & _ & _ & R3); auto.
    - apply trim_sym. exact SM.
    - apply trim_decoupled; auto. intros k l Hk Hl' Nk Ik. apply E4 in Ik; [|exact Hk]. unfold M. cbn [patch_matrix ent]. apply lsum_map_0. intros d _.
      refine (proj1 (Hfd (mr_number rk d) _ _ Ik _)). intros Q. apply Nk. apply (proj1 (NoDup_nth dofs 0) E1); auto.
    - apply trim_sym. exact B2.
    - apply trim_decoupled; auto. rewrite B1. intros k l Hk Hl' Nk Ik. apply B3; auto. apply E4; auto.
    - intros x Lx. rewrite trim_mulvec. apply B4. exact Lx.
    - cbn [trim nr]. intros i j Hi Hj Ni Nj. cbn [trim ent]. rewrite B1, Sqb. unfold M in Hi, Hj. cbn [patch_matrix nr] in Hi, Hj. unfold M. cbn [patch_matrix nr Mat.nc].
      replace (i <? length dofs) with true by (symmetry; apply Nat.ltb_lt; exact Hi). replace (j <? length dofs) with true by (symmetry; apply Nat.ltb_lt; exact Hj). cbn [andb].
      assert (Lu : length (unit_vec (length dofs) j : vec) = length dofs) by apply unit_vec_length.
      assert (Zu : zero_at_fixed fixed dofs (unit_vec (length dofs) j : vec)).
      { intros k Hk Fk. rewrite nth_unit_vec by exact Hj. destruct (Nat.eqb_spec k j) as [->|]; auto. exfalso. apply Nj. apply E4; auto. }
      assert (Q := E3 _ Lu Zu). rewrite (B4 _ Lu) in Q. apply (f_equal (fun v => nth i v 0%K)) in Q.
      assert (Q1 := @mulvec_unit K B j i ltac:(rewrite Sqb; exact Hj) ltac:(rewrite B1; exact Hi)). assert (Q2 := @mulvec_unit K M j i Hj Hi). rewrite Sqb in Q1. rewrite Q1 in Q. rewrite Q. exact Q2.
    - cbn [trim nr]. eapply Nat.le_trans; [|exact H2]. unfold M. cbn [patch_matrix nr]. rewrite <- (seq_length (f_ndofs F) 0). apply NoDup_incl_length; [exact E1|].
      intros g Ig. apply E2 in Ig. destruct Ig as (d & _ & Ig). apply in_seq. destruct (Hfem (mr_number rk d)) as (Q & _). specialize (Q g Ig). lia.
    - split; [exact R2|]. split; [exact R1|]. intros k Hk. destruct (R3 k Hk) as (_ & Q). cbv zeta in Q |- *. unfold residual in Q |- *. rewrite trim_mulvec in Q. exact Q.
  Qed.

  Section Rate.
    Variable cg : N -> nat -> (vec -> vec) -> vec -> option (K * K).
    Variable auto_degree : K -> K -> K -> N.
    Variable accepts_double : string -> bool.
    Variable mk : ptree -> outcome (mat K * mat K).
    Variable ml_vmult : ml_list -> mat K -> vec -> vec.
    (** The global operator [f], its diagonal [d] as the smoother sees it, the estimates of its eigenvalues, and options that choose the Chebyshev smoother. *)
    Variables (f : vec -> vec) (d dinv : vec) (drop : K) (te0 : tenv) (p : ptree) (R AP : mat K) (lo hi dmax theta lambda eps mu lambda' tau nu delta : K) (kappa : nat).
    Local Notation n := (f_ndofs F).
    Local Notation range := (pt_get parse_double ["smoother"; "smoothing_range"]%string 0%K p).
    Local Notation top := (fpos 12 / fpos 10 * hi)%K.
    Local Notation rho := (1 - theta * lambda' + delta / (1 - delta))%K.
    Local Notation built h := (exists s l,
      construct (mf_helpers parse_double cg auto_degree n f dinv accepts_double mk ml_vmult) drop te0 debug (Ok tt) (Some p) None = (Ok h, s, l)).
    Hypothesis Hop : forall x, length x = n -> f x = mulvec A x.
    Hypothesis Hdiag : inverse_diagonal n d dinv.
    Hypothesis Hsteps : 0 < c_steps p.
    Hypothesis Hlevels : c_levels p = 2%Z.
    Hypothesis Hcoarse : ci_eq (text_at p ["coarse"; "type"]%string "direct") "direct".
    Hypothesis Hsmoother : ci_eq (text_at p ["smoother"; "type"]%string "Chebyshev") "chebyshev".
    Hypothesis Hcg : cg 8%N n f dinv = Some (lo, hi).
    Hypothesis Hest : usable_estimate n f d range lo hi.
    Hypothesis Hdmax : flt 0%K dmax.
    Hypothesis Hbound : forall i, i < n -> fle (nth i d 0%K) dmax.
    Hypothesis Htheta : fle 0%K theta.
    Hypothesis Hgain : cheb_gain dmax (interval_low range lo top) top theta.
    (** The restriction and the fast product come from a run of build_restrictor on the ranks. *)
    Hypothesis Hmk : mk p = Ok (R, AP).
    Hypothesis Hrun : fast p R AP.
    Hypothesis Hfast : pt_get parse_bool ["fast_ap"%string] false p = true.
    Hypothesis Hconn : forall q rk, nth_error ranks q = Some rk -> connectivity_ok (rank_fem F rk) (mr_mesh rk) (conn q) /\ rank_touches (agglomerates rk) rk (conn q) p.
    (** The local pairs; the smallest eigenvalues [mu] of A and [nu] of R A R^T, relative to which the residuals are small; at most [kappa] cells in a dof. *)
    Hypothesis Hkept : forall rk, In rk ranks -> represent rk p lambda eps /\ pairs rk p tau.
    Hypothesis Htau : fle 0%K tau.
    Hypothesis Hlam0 : fle 0%K lambda.
    Hypothesis Heps : fle 0%K eps.
    Hypothesis Hcells : cells_per_dof F (n_cells m) kappa.
    Hypothesis Hmu : above n (mulvec A) mu.
    Hypothesis Hnu : above (nr R) (fun z => mulvec R (mulvec A (mulTvec R z))) nu.
    Hypothesis Hminor : minor (fnat (nr R) * tau)%K mu nu delta.
    Hypothesis Hlam : flt 0%K lambda'.
    Hypothesis Hle : fle (theta * lambda')%K 1%K.
    Hypothesis Hloss : fle (lambda' * (mu + eps * fnat kappa))%K (lambda * mu)%K.

    Lemma par_fast_matrix : exists h, built h /\
      forall te x xs l, open_sections l = [] -> length x = nc A -> length xs = nc A ->
        exists y l', hierarchy_vmult te h x (mulvec A xs) l = (Ok y, l') /\ open_sections l' = [] /\ length y = nc A /\
          fle (energy (mulvec A) (vsub xs y)) (rho * rho * energy (mulvec A) (vsub xs (if c_prec p then vzero (nc A) else x)))%K.
    Proof.
      assert (SK : matrix_free_smoother_kind p = Ok KChebyshev).
      { unfold matrix_free_smoother_kind. rewrite get_string_text. assert (KT := Hsmoother). apply lower_ci in KT; [|apply no_upperb_ok; reflexivity]. rewrite KT. reflexivity. }
      assert (CK : dealii_solver_kind accepts_double p = Ok KDirect).
      { destruct (C38_host_solver accepts_double p) as [(_ & E)|[(Q & _)|(Q & _)]]; auto; [|contradiction].
        exfalso. assert (CD := Hcoarse). apply lower_ci in Q; [|apply no_upperb_ok; reflexivity]. apply lower_ci in CD; [|apply no_upperb_ok; reflexivity]. congruence. }
      assert (HR0 : run p R) by (eapply C108_restriction; [intros rk I; apply (Hkept rk I)|exists AP; exact Hrun]).
      destruct (@par_mf_shape K _ _ _ _ _ _ _ _ _ _ _ _ _ _ HR0) as (P1 & P2 & DR).
      assert (IM : is_matrix n f A) by (split; [reflexivity|split; [reflexivity|exact Hop]]).
      assert (W : columns_within tau AP (mmul A (mtrans R))) by (exact (C108_product Hrun Hconn Hkept)).
      assert (O : off_by (fnat (nr R) * tau)%K (if pt_get parse_bool ["fast_ap"%string] false p then AP else matrix_transpose_matrix_multiply drop n f R) (mmul A (mtrans R))).
      { rewrite Hfast. exact (columns_within_off W). }
      assert (AX : approximates A R lambda').
      { refine (@absorb K A R lambda (eps * fnat kappa)%K mu lambda' (proj2 Hmu) (proj1 Hmu) _ Hloss _).
        - apply fle_mul; [exact Heps|apply fnat_nonneg].
        - eapply C105_coarse_space; eauto. intros rk I. apply (Hkept rk I). }
      destruct (@mf_rate_off K parse_double cg auto_degree accepts_double mk ml_vmult drop n f dinv te0 debug p A d lo hi dmax theta mu nu delta lambda' IM Hspd Hdiag Hsteps Hlevels CK SK Hcg Hest
        Hdmax Hbound Htheta Hgain P1 P2 R AP (fnat (nr R) * tau)%K Hmk DR ltac:(apply fle_mul; [apply fnat_nonneg|exact Htau]) O Hmu Hnu Hminor Hlam Hle AX) as (h & s & l & E & V).
      exists h. split; [exists s, l; exact E|exact V].
    Qed.
    (** C108: construction succeeds on the ranks, and every call of vmult multiplies the energy norm of the error by at most 1 - theta lambda' + delta/(1 - delta). *)
    Theorem C108_rate : exists h, built h /\
      forall te x xs l, open_sections l = [] -> length x = n -> length xs = n ->
        exists y l', hierarchy_vmult te h x (f xs) l = (Ok y, l') /\ open_sections l' = [] /\ length y = n /\
          fle (energy f (vsub xs y)) (rho * rho * energy f (vsub xs (if c_prec p then vzero n else x)))%K.
    Proof.
      destruct par_fast_matrix as (h & B & V). exists h. split; [exact B|]. change (nc A) with n in V. intros te x xs l Ho Hx Hs.
      destruct (V te x xs l Ho Hx Hs) as (y & l' & E & O & Ly & EN). exists y, l'. rewrite Hop by auto. split; [exact E|]. split; [exact O|]. split; [exact Ly|].
      unfold energy in *. rewrite !Hop; [exact EN| |]; unfold OField.vec in *; destruct (c_prec p); vlen.
    Qed.
    (** C108: as a preconditioner M, <M b, b> is between 1 - rho and 1 + rho times <A^-1 b, b>. *)
    Theorem C108_condition : c_prec p = true -> exists h, built h /\
      forall te x e l, open_sections l = [] -> length x = n -> length e = n ->
        exists y l', hierarchy_vmult te h x (f e) l = (Ok y, l') /\ open_sections l' = [] /\
          fle ((1 - rho) * energy f e)%K (dot y (f e)) /\ fle (dot y (f e)) ((1 + rho) * energy f e)%K.
    Proof.
      intros PF. destruct par_fast_matrix as (h & B & V). exists h. split; [exact B|]. intros te x e l Ho Hx He.
      assert (Hr : fle 0%K rho).
      { apply fadd_nonneg; [apply fle_sub_0 in Hle; exact Hle|]. destruct Hminor as (N0 & N1 & _). rewrite (Fdiv_def (f_field K)). apply fle_mul; auto. apply flt_le, finv_pos. apply flt_sub_0 in N1. exact N1. }
      destruct (@condition_rate K A h rho (c_prec p) eq_refl Hspd V PF Hr te x e l Ho Hx He) as (y & l' & E & O & L1 & L2).
      exists y, l'. unfold energy in *. rewrite Hop by auto. split; [exact E|]. split; [exact O|]. split; assumption.
    Qed.
  End Rate.
End CParMfFast.

Print Assumptions C108_product.
Print Assumptions C108_restriction.
Print Assumptions C108_lanczos.
Print Assumptions C108_rate.
Print Assumptions C108_condition.

(** * Examples: the two ranks of C105. *)
Unset Implicit Arguments.
Definition vparams (prec : string) : ptree := Node "" [("is preconditioner"%string, leaf prec); ("fast_ap"%string, leaf "true"); ("eigensolver"%string, xeig);
  ("agglomeration"%string, Node "" [("partitioner"%string, leaf "metis"); ("n_agglomerates"%string, leaf "1")]); ("smoother"%string, Node "" [("type"%string, leaf "Chebyshev"); ("degree"%string, leaf "3")])].
Definition vconn (k c : nat) : list nat := if k =? 0 then match c with 0 => [0; 1] | 1 => [0; 1; 2] | _ => [1; 2] end else [0; 1].
Definition vrun := par_mf_fast_run (fun s => parse_int s) lparse ex_no_lobpcg qsqrt (dstev_of xtable) (lq 1 1000000) (fun _ _ => lq 0 1) (@insertion_sort nat) true false 4 vconn (yranks yread).
Lemma vrepresent : forall prec rk, In rk (yranks yread) -> rank_represent xF xfixed (yagglomerates rk) (yproblem rk) rk (vparams prec) (lq 25 1) (lq 1 1000000).
Proof. intros prec rk I eig agg ui n a sc c P1 P2. exact (yrepresent prec rk I eig agg ui n a sc c P1 P2). Qed.
Lemma vsees : forall rk, In rk (yranks yread) -> sees_neighbours xF 3 rk.
Proof.
  intros rk I. assert (J : exists k, k <= 1 /\ rk = yrank yread k) by (destruct I as [<-|[<-|[]]]; [exists 0|exists 1]; auto). destruct J as (k & Hk & ->). clear I.
  cbn [yrank mr_mesh mr_number ymesh n_cells owned]. assert (Q : k = 0 \/ k = 1) by lia. destruct Q as [-> | ->]; cbn [Nat.sub]; (split; [|split]).
  - intros c Hc. cbn. exact Hc.
  - intros c c' _ _ E. exact E.
  - intros c d g _ _ Hd _ _. exists d. split; [exact Hd|reflexivity].
  - intros c Hc. cbn in Hc. destruct c as [|[|c]]; [cbn; lia|cbn; lia|lia].
  - intros c c' Hc Hc' E. cbn in Hc, Hc'. destruct c as [|[|c]], c' as [|[|c']]; try lia; discriminate E.
  - intros c d g Hc Ho Hd Hg Hd'. cbn in Hc. destruct c as [|[|c]]; [|discriminate Ho|lia]. destruct d as [|[|[|d]]]; [|exists 1; split; [cbn; lia|reflexivity]|exists 0; split; [cbn; lia|reflexivity]|lia].
    exfalso. cbn in Hg, Hd'. lia.
Qed.
Lemma vevaluator : forall rk, In rk (yranks yread) -> mf_evaluator_ok (rank_fem xF rk) xfixed (mr_dofs rk) (mr_op rk) (mr_diag rk) (mr_constrained rk).
Proof.
  intros rk I. assert (J : exists k, rk = yrank yread k) by (destruct I as [<-|[<-|[]]]; [exists 0|exists 1]; auto). destruct J as (k & ->). clear I.
  intros cells N. cbv zeta. destruct (xevaluator _ (ynumber_nodup k cells N)) as (Q1 & Q2 & Q3 & Q4 & Q5 & Q6). cbn [yrank mr_dofs mr_op mr_diag mr_constrained]. cbv zeta in *.
  assert (PE : forall i j, ent (patch_matrix (rank_fem xF (yrank yread k)) cells (xdofs (map (ynumber k) cells))) i j = ent (patch_matrix xF (map (ynumber k) cells) (xdofs (map (ynumber k) cells))) i j).
  { intros i j. cbn [patch_matrix ent rank_fem f_cm yrank mr_number]. rewrite map_map. reflexivity. }
  split; [exact Q1|]. split; [|split; [|split; [exact Q4|split; [exact Q5|]]]].
  - intros g. rewrite Q2. cbn [rank_fem f_cd yrank mr_number]. split; [intros (c & I1 & I2); apply in_map_iff in I1; destruct I1 as (c0 & <- & I1); exists c0; auto|].
    intros (c & I1 & I2). exists (ynumber k c). split; [apply in_map; exact I1|exact I2].
  - intros x Lx Zx. rewrite (Q3 x Lx Zx). apply mulvec_meq. split; [reflexivity|]. split; [reflexivity|]. intros i j _ _. symmetry. apply PE.
  - intros i Hi Fx. rewrite (Q6 i Hi Fx). symmetry. apply PE.
Qed.
Lemma vconn_ok : forall prec q rk, nth_error (yranks yread) q = Some rk -> connectivity_ok (rank_fem xF rk) (mr_mesh rk) (vconn q) /\ rank_touches (yagglomerates rk) rk (vconn q) (vparams prec).
Proof.
  intros prec q rk Hq. destruct q as [|[|q]]; [| |destruct q; discriminate Hq]; injection Hq as <-.
  - split; [split|].
    + intros c d g Hc Hd H1 H2. cbn in Hc, Hd. destruct c as [|[|[|c]]]; [| | |lia]; (destruct d as [|[|[|d]]]; [| | |lia]); cbn in H1, H2 |- *; lia.
    + intros c d H. cbn. destruct c as [|[|c]]; cbn in H; lia.
    + intros agg ui n P BA. destruct (yagg yread prec 0 agg ui n ltac:(lia) P BA) as (-> & ->). left. intros a Ha. replace a with 1 by lia. exists 1, 2.
      split; [repeat split; cbn; lia|]. split; [cbn; auto|]. intros (_ & H & _). discriminate H.
  - split; [split|].
    + intros c d g Hc Hd H1 H2. cbn in Hc, Hd. destruct d as [|[|d]]; [| |lia]; cbn; auto.
    + intros c d H. cbn in H |- *. lia.
    + intros agg ui n P BA. destruct (yagg yread prec 1 agg ui n ltac:(lia) P BA) as (-> & ->). left. intros a Ha. replace a with 1 by lia. exists 0, 1.
      split; [repeat split; cbn; lia|]. split; [cbn; auto|]. intros (_ & H & _). discriminate H.
Qed.
Lemma vpairs : forall prec rk, In rk (yranks yread) -> mf_kept_pairs (rank_fem xF rk) (yagglomerates rk) (yproblem rk) (mr_dofs rk) (mr_mesh rk) (vparams prec) (lq 1 100000000).
Proof.
  intros prec rk I. replace (lq 1 100000000) with (let tol := fmax (eig_tolerance QcOF lparse xeig) (1 / fpos 10000)%K in (tol * tol * (1 + fnat ((1 - 1) * 1)))%K) by (apply feqb_eq; vm_compute; reflexivity).
  eapply (@C108_lanczos QcOF) with (eig := xeig) (nc := 1) (nk := 1) (ranks := yranks yread) (m := lmesh 3).
  - exact yranks_ok.
  - exact xfem_ok.
  - exact vevaluator.
  - exact I.
  - exact qsqrt_ok.
  - apply dstev_of_ok.
  - apply fleb_le. vm_compute. reflexivity.
  - apply insertion_sort_contract.
  - exact xsym.
  - exact xdecoupled.
  - destruct I as [<-|[<-|[]]]; intros cells N; [exact (xoperator _ (ynumber_nodup 0 cells N))|exact (xoperator _ (ynumber_nodup 1 cells N))].
  - reflexivity.
  - reflexivity.
  - split; reflexivity.
  - vm_compute. lia.
  - vm_compute. lia.
  - lia.
  - vm_compute. lia.
Qed.
Lemma vkept : forall prec rk, In rk (yranks yread) -> rank_represent xF xfixed (yagglomerates rk) (yproblem rk) rk (vparams prec) (lq 25 1) (lq 1 1000000) /\
  mf_kept_pairs (rank_fem xF rk) (yagglomerates rk) (yproblem rk) (mr_dofs rk) (mr_mesh rk) (vparams prec) (lq 1 100000000).
Proof. intros prec rk I. split; [apply vrepresent|apply vpairs]; exact I. Qed.
Lemma vplain : forall prec R, yrun yread (vparams prec) R <-> yrun yread (yparams prec) R.
Proof. intros prec R. split; intros (eig & agg & ds & ms & P1 & P2 & Q); exists eig, agg, ds, ms; (split; [exact P1|]; split; [exact P2|exact Q]). Qed.
Lemma vrestriction : forall prec R, yrun yread (vparams prec) R <-> exists AP, vrun (vparams prec) R AP.
Proof.
  intros prec R. eapply (@C108_restriction QcOF) with (F := xF) (fixed := xfixed) (m := lmesh 3).
  - exact yranks_ok.
  - exact xfem_ok.
  - exact vevaluator.
  - exact (vrepresent prec).
Qed.
Lemma vexists : forall prec, exists R AP, vrun (vparams prec) R AP.
Proof. intros prec. destruct (yexists prec) as (R & HR). exists R. apply vrestriction. apply vplain. exact HR. Qed.
Lemma vabove : forall prec R AP, vrun (vparams prec) R AP -> nr R = 2 /\ above (nr R) (fun z => mulvec R (mulvec xA (mulTvec R z))) (lq 3 10).
Proof.
  intros prec R AP HR. assert (H : yrun yread (yparams prec) R) by (apply vplain, vrestriction; exists AP; exact HR). split; [apply (ytested yread ytest ycheck_ok _ _ H)|exact (yabove _ _ H)].
Qed.
Ltac c108 prec HR := lazymatch goal with
  | |- inverse_diagonal _ _ _ => exact xinverse | |- usable_estimate _ _ _ _ _ _ => apply xusable | |- cheb_gain _ _ _ _ => unfold cheb_gain; apply fleb_le; vm_compute; reflexivity
  | |- par_mf_fast_run _ _ _ _ _ _ _ _ _ _ _ _ _ _ _ _ => exact HR
  | |- forall rk : mf_rank _, _ => exact (vkept prec) | |- forall (q : nat) (rk : mf_rank _), _ => exact (vconn_ok prec) | |- cells_per_dof _ _ _ => exact xper_dof
  | |- above _ (mulvec _) _ => split; [apply fltb_lt; vm_compute; reflexivity|exact xA_low]
  | |- above _ _ _ => exact (proj2 (vabove _ _ _ HR))
  | |- minor _ _ _ _ => rewrite (proj1 (vabove _ _ _ HR)); repeat split; first [apply fltb_lt; vm_compute; reflexivity|apply fleb_le; vm_compute; reflexivity]
  | |- forall i : nat, _ => exact xbound | |- forall x : list _, _ => reflexivity
  | |- ci_eq _ _ => apply lower_ci; [apply no_upperb_ok; reflexivity|vm_compute; reflexivity] | |- flt _ _ => apply fltb_lt; vm_compute; reflexivity
  | |- fle _ _ => apply fleb_le; vm_compute; reflexivity | |- _ < _ => vm_compute; lia
  | |- xcg _ _ _ _ = _ => reflexivity | |- Ok _ = Ok _ => reflexivity | |- _ = _ => vm_compute; reflexivity end.
Local Notation vhelpers R AP := (mf_helpers lparse xcg (fun _ _ _ => 1%N) 4 (mulvec xA) xdinv (fun _ => false) (fun _ => Ok (R, AP)) (fun _ _ r => r)).
Example C108_rate_example : exists R AP h s l, vrun (vparams "false") R AP /\ columns_within (lq 1 100000000) AP (mmul xA (mtrans R)) /\
  construct (vhelpers R AP) (q 1 (10 ^ 14)) (mkTenv true true) true (Ok tt) (Some (vparams "false")) None = (Ok h, s, l) /\
  forall x xs, length x = 4 -> length xs = 4 -> exists y l', hierarchy_vmult (mkTenv true true) h x (mulvec xA xs) [] = (Ok y, l') /\
    let rho := (1 - lq 1 127 * lq 24 1 + lq 1 1000 / (1 - lq 1 1000))%K in
    fle (energy (mulvec xA) (vsub xs y)) (rho * rho * energy (mulvec xA) (vsub xs x))%K.
Proof.
  destruct (vexists "false") as (R & AP & HR).
  destruct (@C108_rate QcOF (fun s => parse_int s) lparse ex_no_lobpcg qsqrt (dstev_of xtable) (lq 1 1000000) (fun _ _ => lq 0 1) (@insertion_sort nat) true false (lmesh 3) xF xfixed (yranks yread) vconn
    (ycover yread) yranks_ok xfem_ok xcells xA_spd vsees vevaluator xcg (fun _ _ _ => 1%N) (fun _ => false) (fun _ => Ok (R, AP)) (fun _ _ r => r) (mulvec xA) xd xdinv (q 1 (10 ^ 14)) (mkTenv true true) (vparams "false") R AP
    (lq 1 2) (lq 2 1) (lq 30 1) (lq 1 127) (lq 25 1) (lq 1 1000000) (lq 1 1) (lq 24 1) (lq 1 100000000) (lq 3 10) (lq 1 1000) 2) as (h & (s & l & E) & V); [c108 "false"%string HR ..|].
  exists R, AP, h, s, l. split; [exact HR|]. split.
  { eapply (@C108_product QcOF) with (F := xF) (fixed := xfixed) (m := lmesh 3); [exact yranks_ok|exact xfem_ok|exact xA_spd|exact vsees|exact vevaluator|exact HR|exact (vconn_ok "false")|exact (vkept "false")]. }
  split; [exact E|]. intros x xs Hx Hs. destruct (V (mkTenv true true) x xs [] eq_refl Hx Hs) as (y & l' & E2 & _ & _ & EN). exists y, l'. split; [exact E2|exact EN].
Qed.
Example C108_condition_example : exists R AP h s l, vrun (vparams "true") R AP /\
  construct (vhelpers R AP) (q 1 (10 ^ 14)) (mkTenv true true) true (Ok tt) (Some (vparams "true")) None = (Ok h, s, l) /\
  forall x e, length x = 4 -> length e = 4 -> exists y l', hierarchy_vmult (mkTenv true true) h x (mulvec xA e) [] = (Ok y, l') /\
    let rho := (1 - lq 1 127 * lq 24 1 + lq 1 1000 / (1 - lq 1 1000))%K in
    fle ((1 - rho) * energy (mulvec xA) e)%K (dot y (mulvec xA e)) /\ fle (dot y (mulvec xA e)) ((1 + rho) * energy (mulvec xA) e)%K.
Proof.
  destruct (vexists "true") as (R & AP & HR).
  destruct (@C108_condition QcOF (fun s => parse_int s) lparse ex_no_lobpcg qsqrt (dstev_of xtable) (lq 1 1000000) (fun _ _ => lq 0 1) (@insertion_sort nat) true false (lmesh 3) xF xfixed (yranks yread) vconn
    (ycover yread) yranks_ok xfem_ok xcells xA_spd vsees vevaluator xcg (fun _ _ _ => 1%N) (fun _ => false) (fun _ => Ok (R, AP)) (fun _ _ r => r) (mulvec xA) xd xdinv (q 1 (10 ^ 14)) (mkTenv true true) (vparams "true") R AP
    (lq 1 2) (lq 2 1) (lq 30 1) (lq 1 127) (lq 25 1) (lq 1 1000000) (lq 1 1) (lq 24 1) (lq 1 100000000) (lq 3 10) (lq 1 1000) 2) as (h & (s & l & E) & V); [c108 "true"%string HR ..|].
  exists R, AP, h, s, l. split; [exact HR|]. split; [exact E|]. intros x e Hx He. destruct (V (mkTenv true true) x e [] eq_refl Hx He) as (y & l' & E2 & _ & H1 & H2). exists y, l'. split; [exact E2|]. split; assumption.
Qed.

(** C108 needs the ghost cells: on ranks that see only the cells they own everything else holds, but the fast product misses what the vectors do to the dofs of other ranks. *)
Definition wmesh (k : nat) : mesh := Build_mesh (2 - k) (fun c => c <? 2 - k) (fun _ => FBoundary) (fun _ => FBoundary) (fun _ => FBoundary).
Definition wrank (k : nat) : mf_rank QcOF :=
  mkMfRank (wmesh k) (ynumber k) (fun _ => [0; 0]) (fun cells => xdofs (map (ynumber k) cells)) (fun cells => xop (map (ynumber k) cells)) (fun cells => xdiag (map (ynumber k) cells))
    (fun cells => xconstr (map (ynumber k) cells)) xdraws (yread k).
Definition wranks : list (mf_rank QcOF) := [wrank 0; wrank 1].
Definition wconn (k c : nat) : list nat := if k =? 0 then [0; 1] else [0].
Definition wids (k : nat) : list nat := if k =? 0 then [1; 1] else [1].
Definition wrun := par_mf_fast_run (fun s => parse_int s) lparse ex_no_lobpcg qsqrt (dstev_of xtable) (lq 1 1000000) (fun _ _ => lq 0 1) (@insertion_sort nat) true false 4 wconn wranks.
Lemma wagg : forall prec k agg ui n, k <= 1 -> pt_find (vparams prec) ["agglomeration"%string] = Some agg -> yagglomerates (wrank k) agg (repeat 0 (n_cells (wmesh k))) = Ok (ui, n) -> ui = wids k /\ n = 1.
Proof. intros prec k agg ui n Hk P H. injection P as <-. assert (E : k = 0 \/ k = 1) by lia. destruct E as [-> | ->]; vm_compute in H; injection H as <- <-; auto. Qed.
Lemma wyagg : forall prec k agg, k <= 1 -> pt_find (vparams prec) ["agglomeration"%string] = Some agg -> yagglomerates (yrank yread k) agg (repeat 0 (n_cells (ymesh k))) = Ok (yids k, 1).
Proof. intros prec k agg Hk P. injection P as <-. assert (E : k = 0 \/ k = 1) by lia. destruct E as [-> | ->]; vm_compute; reflexivity. Qed.
Lemma wproblem : forall k sc, k <= 1 -> yproblem (wrank k) xeig (wids k) 1 sc = yproblem (yrank yread k) xeig (yids k) 1 sc.
Proof.
  intros k sc Hk. unfold yproblem, mf_rank_problem, mf_local_problem. assert (E : k = 0 \/ k = 1) by lia.
  destruct E as [-> | ->]; [change (patch_by_id (n_cells (mr_mesh (wrank 0))) 1 (wids 0)) with [0; 1]; change (patch_by_id (n_cells (mr_mesh (yrank yread 0))) 1 (yids 0)) with [0; 1]
    |change (patch_by_id (n_cells (mr_mesh (wrank 1))) 1 (wids 1)) with [0]; change (patch_by_id (n_cells (mr_mesh (yrank yread 1))) 1 (yids 1)) with [0]]; reflexivity.
Qed.
Lemma wkept : forall prec rk, In rk wranks -> rank_represent xF xfixed (yagglomerates rk) (yproblem rk) rk (vparams prec) (lq 25 1) (lq 1 1000000) /\
  mf_kept_pairs (rank_fem xF rk) (yagglomerates rk) (yproblem rk) (mr_dofs rk) (mr_mesh rk) (vparams prec) (lq 1 100000000).
Proof.
  intros prec rk I. assert (J : exists k, k <= 1 /\ rk = wrank k) by (destruct I as [<-|[<-|[]]]; [exists 0|exists 1]; auto). destruct J as (k & Hk & ->). clear I.
  assert (In (yrank yread k) (yranks yread)) as I by (destruct k as [|[|k]]; [left; reflexivity|right; left; reflexivity|lia]).
  assert (C : agg_cells (mr_mesh (wrank k)) (wids k) 1 = agg_cells (mr_mesh (yrank yread k)) (yids k) 1) by (destruct k as [|[|k]]; [reflexivity|reflexivity|lia]).
  split; intros eig agg ui n a sc c Q1 Q2 BA Ha E; injection Q1 as <-; destruct (wagg prec k agg ui n Hk Q2 BA) as (-> & ->); replace a with 1 in * by lia; rewrite wproblem in E by exact Hk; rewrite C.
  - exact (vrepresent prec _ I xeig agg (yids k) 1 1 sc c eq_refl Q2 (wyagg prec k agg Hk Q2) ltac:(lia) E).
  - exact (vpairs prec _ I xeig agg (yids k) 1 1 sc c eq_refl Q2 (wyagg prec k agg Hk Q2) ltac:(lia) E).
Qed.
Lemma wranks_ok : forall rk, In rk wranks -> mf_rank_ok xF xfixed true xA rk /\ mf_evaluator_ok (rank_fem xF rk) xfixed (mr_dofs rk) (mr_op rk) (mr_diag rk) (mr_constrained rk).
Proof.
  intros rk I. assert (J : exists k, (k = 0 \/ k = 1) /\ rk = wrank k) by (destruct I as [<-|[<-|[]]]; [exists 0|exists 1]; auto). destruct J as (k & Hk & ->). clear I.
  assert (In (yrank yread k) (yranks yread)) as I by (destruct Hk as [-> | ->]; cbn; auto).
  split; [|exact (vevaluator _ I)]. split; [intros c _; repeat split|]. split; [intros kk; destruct Hk as [-> | ->]; vm_compute; lia|].
  assert (OC : owned_cells (mr_mesh (wrank k)) = owned_cells (mr_mesh (yrank yread k))) by (destruct Hk as [-> | ->]; reflexivity).
  destruct (yranks_ok _ I) as (_ & _ & Q1 & Q2). split; [intros cells N IN; rewrite OC in IN; exact (Q1 cells N IN)|]. intros c g Ic Ig. rewrite OC in Ic. exact (Q2 c g Ic Ig).
Qed.
Lemma wconn_ok : forall prec q rk, nth_error wranks q = Some rk -> connectivity_ok (rank_fem xF rk) (mr_mesh rk) (wconn q) /\ rank_touches (yagglomerates rk) rk (wconn q) (vparams prec).
Proof.
  intros prec q rk Hq. destruct q as [|[|q]]; [| |destruct q; discriminate Hq]; injection Hq as <-.
  - split; [split|].
    + intros c d g Hc Hd H1 H2. cbn in Hc, Hd |- *. lia.
    + intros c d H. cbn in H |- *. lia.
    + intros agg ui n P BA. destruct (wagg prec 0 agg ui n ltac:(lia) P BA) as (-> & ->). right. intros a Ha (c & d & _ & I2 & I3). apply I3. replace a with 1 by lia.
      destruct I2 as [<-|[<-|[]]]; repeat split; cbn; lia.
  - split; [split|].
    + intros c d g Hc Hd H1 H2. cbn in Hc, Hd |- *. lia.
    + intros c d H. cbn in H |- *. lia.
    + intros agg ui n P BA. destruct (wagg prec 1 agg ui n ltac:(lia) P BA) as (-> & ->). right. intros a Ha (c & d & _ & I2 & I3). apply I3. replace a with 1 by lia.
      destruct I2 as [<-|[]]; repeat split; cbn; lia.
Qed.
(** What such a run computes, and how far the first column is off. *)
Definition wproduct (ds : list (agg_data QcOF)) (ms : list (rmats QcOF)) : mat QcOF := mkMat 4 (n_total_rows (rows_per_proc ds)) (fun g r =>
  sumn (length ds) (fun q => match nth_error ds q, nth_error ms q with Some d, Some mm => owned_column (rows_per_proc ds) q d mm [] r g | _, _ => 0%K end)).
Definition woff (AP R : mat QcOF) : QcOF := sumn 4 (fun g => ((ent (mmul xA (mtrans R)) g 0 - ent AP g 0) * (ent (mmul xA (mtrans R)) g 0 - ent AP g 0))%K).
Definition wcheck : outcome bool :=
  let! c1 := yproblem (wrank 0) xeig (wids 0) 1 [] in let! c2 := yproblem (wrank 1) xeig (wids 1) 1 [] in
  let! ms := assemble true true (ygds yread) [data_of [c1]; data_of [c2]] in
  Ok ((n_total_rows (rows_per_proc [data_of [c1]; data_of [c2]]) =? 2) && fltb (lq 1 1) (woff (wproduct [data_of [c1]; data_of [c2]] ms) (distributed_matrix 2 4 ms)))%bool.
Lemma wcheck_ok : wcheck = Ok true.
Proof. vm_compute. reflexivity. Qed.
Theorem C108_ghosts_refuted : exists R AP, mf_ranks_cover 3 wranks /\
  (forall rk, In rk wranks -> mf_rank_ok xF xfixed true xA rk /\ mf_evaluator_ok (rank_fem xF rk) xfixed (mr_dofs rk) (mr_op rk) (mr_diag rk) (mr_constrained rk)) /\
  (forall q rk, nth_error wranks q = Some rk -> connectivity_ok (rank_fem xF rk) (mr_mesh rk) (wconn q) /\ rank_touches (yagglomerates rk) rk (wconn q) (vparams "true")) /\
  (forall rk, In rk wranks -> rank_represent xF xfixed (yagglomerates rk) (yproblem rk) rk (vparams "true") (lq 25 1) (lq 1 1000000) /\
    mf_kept_pairs (rank_fem xF rk) (yagglomerates rk) (yproblem rk) (mr_dofs rk) (mr_mesh rk) (vparams "true") (lq 1 100000000)) /\
  wrun (vparams "true") R AP /\ ~ columns_within (lq 1 1) AP (mmul xA (mtrans R)).
Proof.
  assert (Q := wcheck_ok). unfold wcheck in Q. apply bind_Ok in Q. destruct Q as (c1 & E1 & Q). apply bind_Ok in Q. destruct Q as (c2 & E2 & Q). apply bind_Ok in Q. destruct Q as (ms & E3 & Q).
  apply Ok_inj in Q. apply andb_true_iff in Q. destruct Q as (L & T). apply Nat.eqb_eq in L. apply fltb_lt in T.
  exists (distributed_matrix 2 4 ms), (wproduct [data_of [c1]; data_of [c2]] ms). split; [apply Permutation_refl|]. split; [exact wranks_ok|]. split; [exact (wconn_ok "true")|]. split; [exact (wkept "true")|]. split.
  - exists xeig. eexists. exists [data_of [c1]; data_of [c2]], ms, (fun _ => []). split; [reflexivity|]. split; [reflexivity|]. split; [reflexivity|]. split; [exact E3|].
    split; [rewrite L; reflexivity|]. split; [|reflexivity]. intros k rk d mm H1 H2 _. assert (Hn : k = 0 \/ k = 1) by (destruct k as [|[|k]]; auto; destruct k; discriminate H1).
    assert (X : forall j sc, j <= 1 -> yproblem (wrank j) xeig (wids j) 1 sc = yproblem (wrank j) xeig (wids j) 1 []) by (intros j sc Hj; rewrite !wproblem by exact Hj; apply yscratch; exact Hj).
    destruct Hn as [-> | ->]; injection H1 as <-; injection H2 as <-; [exists (wids 0), 1, 1, 1|exists (wids 1), 1, 1, 1]; exists [([], [])], 1, 1; (split; [vm_compute; reflexivity|]; split; [|split; [reflexivity|]]).
    + apply (@collect_exists QcOF (yproblem (wrank 0) xeig (wids 0)) (keeps_guess xeig) 1 0 0 (fun _ => c1)). intros a sc Ha. replace a with 1 by lia. rewrite X by lia. exact E1.
    + exists []. split; apply ws_seq_run; reflexivity.
    + apply (@collect_exists QcOF (yproblem (wrank 1) xeig (wids 1)) (keeps_guess xeig) 1 0 0 (fun _ => c2)). intros a sc Ha. replace a with 1 by lia. rewrite X by lia. exact E2.
    + exists []. split; apply ws_seq_run; reflexivity.
  - intros (_ & _ & W). specialize (W 0 ltac:(cbn; lia)). exact (T W).
Qed.
Print Assumptions C108_ghosts_refuted.
