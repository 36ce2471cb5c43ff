(** Property theorems about matrix-free preconditioners with the fast product and pairs that are not exact: C107. *)
From Coq Require Import String List Arith ZArith NArith Bool Lia Field QArith Qcanon.
From Verif Require Import Base OField Mat LinAlg M_Ptree S_Ptree P_Ptree M_Agglo S_Agglo M_WorkStream M_Restr S_Restr P_Restr P_Restr2
  S_FastAP P_FastAP P_FastAP2 M_Perm S_Perm M_Lanczos S_Lanczos M_Eig S_Eig P_Eig M_Hier S_Hier P_Hier P_HierC P_HierE P_HierS M_Smoother P_Smoother M_Host S_Host P_Host P_HostN M_HostEnd S_HostEnd P_HostEnd
  P_Amgx3 S_Rate P_Rate P_Approx P_Local P_Lanczos5 P_Lanczos8 M_MfEnd S_MfEnd P_MfEnd M_Cheby S_Cheby P_Cheby P_Cheby2 P_Cheby3
  C_Host C_Eig M_FastAP C_FastAP C_HostEnd E_Lanczos C_Lanczos C_Cheby C_MfRate C_Rate C_CudaHier E_Solve E_CudaHier P_CudaHier3 P_ParEnd P_Perm C_Local C_RateRun
  S_Trunc P_Trunc S_MfFast P_MfFast C_MfEnd.
Import ListNotations.
Set Implicit Arguments.
Open Scope list_scope.
Open Scope nat_scope.

Section CMfFast.
  Variable K : ofield.
  Add Field KfieldC107 : (f_field K).
  Local Notation vec := (vec K).
  (** External code and user code, as in M_MfEnd.v. *)
  Variable parse_unsigned : string -> option Z.
  Variable parse_double : string -> option K.
  Variable lobpcg : (vec -> vec) -> Z -> K -> list vec -> bool * eigensolution K.
  Variable fsqrt : K -> option K.
  Variable dstev : list K -> list K -> outcome (list K * list K).
  Variable tol2 : K.
  Variable rand : nat -> nat -> K.
  Variable std_sort : (nat -> nat -> bool) -> list nat -> list nat.
  Variable partition : partitioner_kind -> list nat.
  Variable conn : nat -> list nat.
  Variable agg_dofs : list nat -> list nat.
  Variable agg_op : list nat -> vec -> vec.
  Variable agg_diag : list nat -> list K.
  Variable constrained : list nat -> list nat.
  Variable draws : nat -> nat -> K.
  Variables (debug dim3 : bool).
  Variable m : mesh.
  Variable F : fem K.
  Variable fixed : nat -> bool.
  Variable gd : nat -> option K.
  Local Notation A := (assembled F m).
  Local Notation run := (mf_restrictor_run parse_unsigned parse_double lobpcg fsqrt dstev tol2 rand std_sort partition conn agg_dofs agg_op agg_diag constrained draws
    debug dim3 m (f_ndofs F) gd).
  Local Notation problem := (mf_local_problem parse_double lobpcg fsqrt dstev tol2 rand std_sort agg_dofs agg_op agg_diag constrained draws debug m).
  Local Notation agglomerates := (build_agglomerates parse_unsigned partition debug dim3 m).
  Local Notation fresh := (repeat 0 (n_cells m)).

  Hypothesis Hmesh : mesh_ok debug m.
  Hypothesis Hpart : forall k, length (owned_cells m) <= length (partition k).
  Hypothesis Hserial : serial m.
  Hypothesis Hfem : fem_ok F.
  Hypothesis Hpsd : forall c u, fle 0%K (cell_energy F c u).
  Hypothesis Heval : mf_evaluator_ok F fixed agg_dofs agg_op agg_diag constrained.
  Hypothesis Hspd : spd (f_ndofs F) (mulvec A).
  Hypothesis Hgd : mf_diagonal_ok F fixed A gd.

  (** C107: with fast_ap, every column of the product is off by the residual of its pair. *)
  Theorem C107_product : forall p R AP lambda eps tau, run fresh p R AP -> connectivity_ok F m conn -> pt_get parse_bool ["fast_ap"%string] false p = true ->
    mf_kept_represent F fixed agglomerates problem agg_dofs m p lambda eps -> mf_kept_pairs F agglomerates problem agg_dofs m p tau ->
    (forall agg ui n, pt_find p ["agglomeration"%string] = Some agg -> agglomerates agg fresh = Ok (ui, n) ->
      (forall a, 1 <= a <= n -> touches_others m ui conn a) \/ (forall a, 1 <= a <= n -> ~ touches_others m ui conn a)) ->
    columns_within tau AP (mmul A (mtrans R)).
  Proof. intros p R AP lambda eps tau HR HC HF HD HX HT. eapply mf_fast_error; eauto. Qed.

  (** C107: Lanczos returns as many pairs as asked for, with residuals below its tolerance (not below 1e-4). *)
  Theorem C107_lanczos : forall p eig (nc nk : nat), sqrt_ok fsqrt -> dstev_ok dstev -> fle 0%K tol2 -> std_sort_contract std_sort ->
    (forall c g h, f_cm F c g h = f_cm F c h g) -> fixed_decoupled F fixed -> mf_operator_ok fixed agg_dofs agg_op ->
    pt_find p ["eigensolver"%string] = Some eig -> eigensolver_matrix_free debug eig = Ok ELanczos ->
    (if pt_get parse_bool ["is_deflated"%string] false eig
     then pt_require parse_int ["num_cycles"%string] eig = Ok (Z.of_nat nc) /\ pt_require parse_int ["num_eigenpairs_per_cycle"%string] eig = Ok (Z.of_nat nk)
     else nc = 1 /\ nk = n_eigenvectors eig) ->
    let maxit := Z.to_nat (pt_get parse_int ["max_iterations"%string] 200%Z eig) in
    1 <= maxit -> f_ndofs F <= maxit -> 1 <= nk -> 1 <= n_eigenvectors eig <= nc * nk ->
    let tol := fmax (eig_tolerance K parse_double eig) (1 / fpos 10000)%K in
    mf_kept_pairs F agglomerates problem agg_dofs m p (tol * tol * (1 + fnat ((nc - 1) * nk)))%K.
  Proof.
    intros p eig ncy nk Hsq Hd Ht Hs Hsym Hfd Hmo Pe Ek Hp maxit H1 H2 H3 H4 tol eig' agg ui n a sc c Pe' Pa BA Ha E.
    assert (eig' = eig) by congruence. subst eig'. cbv zeta. clear BA.
    unfold mf_local_problem in E. rewrite (mf_cells Hserial) in E.
    assert (N := mf_nodup m ui a). set (cells := agg_cells m ui a) in *. destruct (Heval N) as (E1 & E2 & E3 & E4 & _). cbv zeta in E1, E2, E3, E4.
    destruct (Hmo cells N) as (B & B1 & B2 & B3 & B4). cbv zeta in B1, B3, B4. set (dofs := agg_dofs cells) in *. set (M := patch_matrix F cells dofs) in *.
    assert (SM : symmetric_matrix M). { split; [reflexivity|]. intros i j _ _. unfold M. cbn [patch_matrix ent]. apply lsum_map_ext. intros k _. apply Hsym. }
    assert (Sqb : Mat.nc B = length dofs) by (rewrite <- B1; symmetry; apply B2).
    destruct (@C99_lanczos_pairs K parse_double lobpcg fsqrt dstev tol2 rand std_sort debug (draws a) eig (n_eigenvectors eig) (eig_tolerance K parse_double eig) (trim M) (trim B)
      (agg_op cells) (agg_diag cells) (constrained cells) dofs sc c ncy nk Hsq Hd Ht Hs) as (R1 & R2 & _ & _ & R3); auto.
    - apply trim_sym. exact SM.
    - apply trim_decoupled; auto. intros k l Hk Hl' Nk Ik. apply E4 in Ik; [|exact Hk]. unfold M. cbn [patch_matrix ent]. apply lsum_map_0. intros d _.
      refine (proj1 (Hfd d _ _ Ik _)). intros Q. apply Nk. apply (proj1 (NoDup_nth dofs 0) E1); auto.
    - apply trim_sym. exact B2.
    - apply trim_decoupled; auto. rewrite B1. intros k l Hk Hl' Nk Ik. apply B3; auto. apply E4; auto.
    - intros x Lx. rewrite trim_mulvec. apply B4. exact Lx.
    - cbn [trim nr]. intros i j Hi Hj Ni Nj. cbn [trim ent]. rewrite B1, Sqb. unfold M in Hi, Hj. cbn [patch_matrix nr] in Hi, Hj. unfold M. cbn [patch_matrix nr Mat.nc].
      replace (i <? length dofs) with true by (symmetry; apply Nat.ltb_lt; exact Hi). replace (j <? length dofs) with true by (symmetry; apply Nat.ltb_lt; exact Hj). cbn [andb].
      assert (Lu : length (unit_vec (length dofs) j : vec) = length dofs) by apply unit_vec_length.
      assert (Zu : zero_at_fixed fixed dofs (unit_vec (length dofs) j : vec)).
      { intros k Hk Fk. rewrite nth_unit_vec by exact Hj. destruct (Nat.eqb_spec k j) as [->|]; auto. exfalso. apply Nj. apply E4; auto. }
      assert (Q := E3 _ Lu Zu). rewrite (B4 _ Lu) in Q. apply (f_equal (fun v => nth i v 0%K)) in Q.
      assert (Q1 := @mulvec_unit K B j i ltac:(rewrite Sqb; exact Hj) ltac:(rewrite B1; exact Hi)). assert (Q2 := @mulvec_unit K M j i Hj Hi). rewrite Sqb in Q1. rewrite Q1 in Q. rewrite Q. exact Q2.
    - cbn [trim nr]. eapply Nat.le_trans; [|exact H2]. unfold M. cbn [patch_matrix nr]. rewrite <- (seq_length (f_ndofs F) 0). apply NoDup_incl_length; [exact E1|].
      intros g Ig. apply E2 in Ig. destruct Ig as (d & _ & Ig). apply in_seq. destruct (Hfem d) as (Q & _). specialize (Q g Ig). lia.
    - split; [exact R2|]. split; [exact R1|]. intros k Hk. destruct (R3 k Hk) as (_ & Q). cbv zeta in Q |- *. unfold residual in Q |- *. rewrite trim_mulvec in Q. exact Q.
  Qed.

  Section Rate.
    Variable cg : N -> nat -> (vec -> vec) -> vec -> option (K * K).
    Variable auto_degree : K -> K -> K -> N.
    Variable accepts_double : string -> bool.
    Variable mk : ptree -> outcome (mat K * mat K).
    Variable ml_vmult : ml_list -> mat K -> vec -> vec.
    (** The global operator [f], its diagonal [d] as the smoother sees it, the estimates of its eigenvalues, and options that choose the Chebyshev smoother. *)
    Variables (f : vec -> vec) (d dinv : vec) (drop : K) (te0 : tenv) (p : ptree) (R AP : mat K) (lo hi dmax theta lambda eps mu lambda' tau nu delta : K) (kappa : nat).
    Local Notation n := (f_ndofs F).
    Local Notation range := (pt_get parse_double ["smoother"; "smoothing_range"]%string 0%K p).
    Local Notation top := (fpos 12 / fpos 10 * hi)%K.
    Local Notation rho := (1 - theta * lambda' + delta / (1 - delta))%K.
    Local Notation built h := (exists s l,
      construct (mf_helpers parse_double cg auto_degree n f dinv accepts_double mk ml_vmult) drop te0 debug (Ok tt) (Some p) None = (Ok h, s, l)).
    Hypothesis Hop : forall x, length x = n -> f x = mulvec A x.
    Hypothesis Hdiag : inverse_diagonal n d dinv.
    Hypothesis Hsteps : 0 < c_steps p.
    Hypothesis Hlevels : c_levels p = 2%Z.
    Hypothesis Hcoarse : ci_eq (text_at p ["coarse"; "type"]%string "direct") "direct".
    Hypothesis Hsmoother : ci_eq (text_at p ["smoother"; "type"]%string "Chebyshev") "chebyshev".
    Hypothesis Hcg : cg 8%N n f dinv = Some (lo, hi).
    Hypothesis Hest : usable_estimate n f d range lo hi.
    Hypothesis Hdmax : flt 0%K dmax.
    Hypothesis Hbound : forall i, i < n -> fle (nth i d 0%K) dmax.
    Hypothesis Htheta : fle 0%K theta.
    Hypothesis Hgain : cheb_gain dmax (interval_low range lo top) top theta.
    (** The restriction and the fast product come from a run of build_restrictor. *)
    Hypothesis Hmk : mk p = Ok (R, AP).
    Hypothesis Hrun : run fresh p R AP.
    Hypothesis Hfast : pt_get parse_bool ["fast_ap"%string] false p = true.
    Hypothesis Hconn : connectivity_ok F m conn.
    Hypothesis Htouch : forall agg ui n, pt_find p ["agglomeration"%string] = Some agg -> agglomerates agg fresh = Ok (ui, n) ->
      (forall a, 1 <= a <= n -> touches_others m ui conn a) \/ (forall a, 1 <= a <= n -> ~ touches_others m ui conn a).
    (** The local pairs; the smallest eigenvalues [mu] of A and [nu] of R A R^T, relative to which the residuals are small; at most [kappa] cells in a dof. *)
    Hypothesis Hkept : mf_kept_represent F fixed agglomerates problem agg_dofs m p lambda eps.
    Hypothesis Hpairs : mf_kept_pairs F agglomerates problem agg_dofs m p tau.
    Hypothesis Htau : fle 0%K tau.
    Hypothesis Hlam0 : fle 0%K lambda.
    Hypothesis Heps : fle 0%K eps.
    Hypothesis Hcells : cells_per_dof F (n_cells m) kappa.
    Hypothesis Hmu : above n (mulvec A) mu.
    Hypothesis Hnu : above (nr R) (fun z => mulvec R (mulvec A (mulTvec R z))) nu.
    Hypothesis Hminor : minor (fnat (nr R) * tau)%K mu nu delta.
    Hypothesis Hlam : flt 0%K lambda'.
    Hypothesis Hle : fle (theta * lambda')%K 1%K.
    Hypothesis Hloss : fle (lambda' * (mu + eps * fnat kappa))%K (lambda * mu)%K.

    Lemma fast_rate_matrix : exists h, built h /\
      forall te x xs l, open_sections l = [] -> length x = nc A -> length xs = nc A ->
        exists y l', hierarchy_vmult te h x (mulvec A xs) l = (Ok y, l') /\ open_sections l' = [] /\ length y = nc A /\
          fle (energy (mulvec A) (vsub xs y)) (rho * rho * energy (mulvec A) (vsub xs (if c_prec p then vzero (nc A) else x)))%K.
    Proof.
      assert (SK : matrix_free_smoother_kind p = Ok KChebyshev).
      { unfold matrix_free_smoother_kind. rewrite get_string_text. assert (KT := Hsmoother). apply lower_ci in KT; [|apply no_upperb_ok; reflexivity]. rewrite KT. reflexivity. }
      assert (CK : dealii_solver_kind accepts_double p = Ok KDirect).
      { destruct (C38_host_solver accepts_double p) as [(_ & E)|[(Q & _)|(Q & _)]]; auto; [|contradiction].
        exfalso. assert (CD := Hcoarse). apply lower_ci in Q; [|apply no_upperb_ok; reflexivity]. apply lower_ci in CD; [|apply no_upperb_ok; reflexivity]. congruence. }
      assert (X := Hrun). destruct X as (eig & agg & ui & na & ns & nb & dd & mm & P1 & P2 & _ & _ & _ & ER & _).
      assert (IM : is_matrix n f A) by (split; [reflexivity|split; [reflexivity|exact Hop]]).
      assert (DR : nc R = n) by (rewrite ER; reflexivity).
      assert (W : columns_within tau AP (mmul A (mtrans R))) by (eapply C107_product; eauto).
      assert (O : off_by (fnat (nr R) * tau)%K (if pt_get parse_bool ["fast_ap"%string] false p then AP else matrix_transpose_matrix_multiply drop n f R) (mmul A (mtrans R))).
      { rewrite Hfast. exact (columns_within_off W). }
      assert (AX : approximates A R lambda').
      { refine (@absorb K A R lambda (eps * fnat kappa)%K mu lambda' (proj2 Hmu) (proj1 Hmu) _ Hloss _).
        - apply fle_mul; [exact Heps|apply fnat_nonneg].
        - eapply C99_coarse_space; eauto. }
      destruct (@mf_rate_off K parse_double cg auto_degree accepts_double mk ml_vmult drop n f dinv te0 debug p A d lo hi dmax theta mu nu delta lambda' IM Hspd Hdiag Hsteps Hlevels CK SK Hcg Hest
        Hdmax Hbound Htheta Hgain ltac:(congruence) ltac:(congruence) R AP (fnat (nr R) * tau)%K Hmk DR ltac:(apply fle_mul; [apply fnat_nonneg|exact Htau]) O Hmu Hnu Hminor Hlam Hle AX) as (h & s & l & E & V).
      exists h. split; [exists s, l; exact E|exact V].
    Qed.
    (** C107: construction succeeds, and every call of vmult multiplies the energy norm of the error by at most 1 - theta lambda' + delta/(1 - delta). *)
    Theorem C107_rate : exists h, built h /\
      forall te x xs l, open_sections l = [] -> length x = n -> length xs = n ->
        exists y l', hierarchy_vmult te h x (f xs) l = (Ok y, l') /\ open_sections l' = [] /\ length y = n /\
          fle (energy f (vsub xs y)) (rho * rho * energy f (vsub xs (if c_prec p then vzero n else x)))%K.
    Proof.
      destruct fast_rate_matrix as (h & B & V). exists h. split; [exact B|]. change (nc A) with n in V. intros te x xs l Ho Hx Hs.
      destruct (V te x xs l Ho Hx Hs) as (y & l' & E & O & Ly & EN). exists y, l'. rewrite Hop by auto. split; [exact E|]. split; [exact O|]. split; [exact Ly|].
      unfold energy in *. rewrite !Hop; [exact EN| |]; unfold OField.vec in *; destruct (c_prec p); vlen.
    Qed.
    (** C107: as a preconditioner M, <M b, b> is between 1 - rho and 1 + rho times <A^-1 b, b>. *)
    Theorem C107_condition : c_prec p = true -> exists h, built h /\
      forall te x e l, open_sections l = [] -> length x = n -> length e = n ->
        exists y l', hierarchy_vmult te h x (f e) l = (Ok y, l') /\ open_sections l' = [] /\
          fle ((1 - rho) * energy f e)%K (dot y (f e)) /\ fle (dot y (f e)) ((1 + rho) * energy f e)%K.
    Proof.
      intros PF. destruct fast_rate_matrix as (h & B & V). exists h. split; [exact B|]. intros te x e l Ho Hx He.
      assert (Hr : fle 0%K rho).
      { apply fadd_nonneg; [apply fle_sub_0 in Hle; exact Hle|]. destruct Hminor as (N0 & N1 & _). rewrite (Fdiv_def (f_field K)). apply fle_mul; auto. apply flt_le, finv_pos. apply flt_sub_0 in N1. exact N1. }
      destruct (@condition_rate K A h rho (c_prec p) eq_refl Hspd V PF Hr te x e l Ho Hx He) as (y & l' & E & O & L1 & L2).
      exists y, l'. unfold energy in *. rewrite Hop by auto. split; [exact E|]. split; [exact O|]. split; assumption.
    Qed.
  End Rate.
End CMfFast.

Print Assumptions C107_product.
Print Assumptions C107_lanczos.
Print Assumptions C107_rate.
Print Assumptions C107_condition.

(** * Examples: as in C_MfEnd.v, but the start vectors of Lanczos are turned by about 2e-6 from the eigenvectors.  Lanczos is content with them: the residuals are about 5e-5. *)
Unset Implicit Arguments.
Definition zC : QcOF := lq 999999999999 1000000000001.
Definition zS : QcOF := lq 2000000 1000000000001.
Definition ze0 : QcOF := (lq 3 5 * zC - lq 4 5 * zS)%K.
Definition ze1 : QcOF := (lq 4 5 * zC + lq 3 5 * zS)%K.
Definition zval : QcOF := (zC * zC + lq 26 1 * (zS * zS))%K.
Definition zdraws (a c : nat) : QcOF := if c =? 0 then ze0 else ze1.
Definition ztable : list (list QcOF * list QcOF * (list QcOF * list QcOF)) := [([zval], [], ([zval], [lq 1 1]))].
Definition zproblem := mf_local_problem lparse ex_no_lobpcg qsqrt (dstev_of ztable) (lq 1 1000000) (fun _ _ => lq 0 1) (@insertion_sort nat)
  xdofs xop xdiag xconstr zdraws true (lmesh 3).
Definition zrun := mf_restrictor_run (fun s => parse_int s) lparse ex_no_lobpcg qsqrt (dstev_of ztable) (lq 1 1000000) (fun _ _ => lq 0 1) (@insertion_sort nat)
  (fun _ => [0; 0; 1]) (lconn 3 (fun c => c)) xdofs xop xdiag xconstr zdraws true false (lmesh 3) 4 xgd.
(** What is computed and tested: the two vectors, not eigenvectors, and a restriction whose Galerkin product has no eigenvalue below 1/4. *)
Definition zgal (R : mat QcOF) : mat QcOF := mkMat 2 2 (fun i j => (ent (mmul R (mmul xA (mtrans R))) i j - (if (i =? j)%nat then lq 1 4 else 0))%K).
Definition zlow (R : mat QcOF) : bool := (forallb (fun i => forallb (fun j => Qc_eq_bool (ent (zgal R) i j) (ent (zgal R) j i)) (seq 0 2)) (seq 0 2) && posdef 2 (zgal R))%bool.
Definition zcheck : outcome bool :=
  let! c1 := zproblem xeig [1; 1; 2] 1 [] in let! c2 := zproblem xeig [1; 1; 2] 2 [] in
  let! mm := compute_restriction true true [length (da_evecs (data_of [c1; c2]))] 0 xgd (data_of [c1; c2]) in
  Ok ((length (da_evecs (data_of [c1; c2])) =? 2) && zlow (spm_matrix 2 4 (r_R mm)) &&
    match ag_evecs c1, ag_evecs c2 with [e1], [e2] => veqb e1 [lq 0 1; ze0; ze1] && veqb e2 [ze0; ze1] | _, _ => false end &&
    veqb (ag_evals c1) [zval] && veqb (ag_evals c2) [zval])%bool.
Lemma zcheck_ok : zcheck = Ok true.
Proof. vm_compute. reflexivity. Qed.
Definition zvec (a : nat) : vec QcOF := if a =? 1 then [lq 0 1; ze0; ze1] else [ze0; ze1].
Lemma zscratch : forall a sc, zproblem xeig [1; 1; 2] a sc = zproblem xeig [1; 1; 2] a [].
Proof. intros a sc. reflexivity. Qed.
Lemma zchecked : exists c1 c2 mm, zproblem xeig [1; 1; 2] 1 [] = Ok c1 /\ zproblem xeig [1; 1; 2] 2 [] = Ok c2 /\
  compute_restriction true true [length (da_evecs (data_of [c1; c2]))] 0 xgd (data_of [c1; c2]) = Ok mm /\ length (da_evecs (data_of [c1; c2])) = 2 /\ zlow (spm_matrix 2 4 (r_R mm)) = true /\
  ag_evecs c1 = [zvec 1] /\ ag_evecs c2 = [zvec 2] /\ ag_evals c1 = [zval] /\ ag_evals c2 = [zval].
Proof.
  assert (Q := zcheck_ok). unfold zcheck in Q. apply bind_Ok in Q. destruct Q as (c1 & E1 & Q). apply bind_Ok in Q. destruct Q as (c2 & E2 & Q). apply bind_Ok in Q. destruct Q as (mm & E3 & Q).
  apply Ok_inj in Q. do 4 (apply andb_true_iff in Q; destruct Q as (Q & ?Z)). exists c1, c2, mm. split; [exact E1|]. split; [exact E2|]. split; [exact E3|].
  split; [apply Nat.eqb_eq; exact Q|]. split; [exact Z2|]. apply veqb_eq in Z0. apply veqb_eq in Z.
  destruct (ag_evecs c1) as [|e1 [|? ?]]; try discriminate Z1. destruct (ag_evecs c2) as [|e2 [|? ?]]; try discriminate Z1.
  apply andb_true_iff in Z1. destruct Z1 as (Y1 & Y2). apply veqb_eq in Y1. apply veqb_eq in Y2. rewrite Y1, Y2. auto.
Qed.
Lemma zkept : forall a c sc, 1 <= a <= 2 -> zproblem xeig [1; 1; 2] a sc = Ok c -> ag_evecs c = [zvec a] /\ ag_evals c = [zval].
Proof.
  intros a c sc Ha E. rewrite zscratch in E. destruct zchecked as (c1 & c2 & mm & E1 & E2 & _ & _ & _ & V1 & V2 & W1 & W2).
  assert (Q : a = 1 \/ a = 2) by lia. destruct Q as [-> | ->]; [rewrite E in E1; apply Ok_inj in E1; rewrite E1; auto|rewrite E in E2; apply Ok_inj in E2; rewrite E2; auto].
Qed.
Lemma zsolves : forall a, 1 <= a <= 2 -> exists c, forall sc, zproblem xeig [1; 1; 2] a sc = Ok c.
Proof.
  intros a Ha. destruct zchecked as (c1 & c2 & mm & E1 & E2 & _). assert (Q : a = 1 \/ a = 2) by lia.
  destruct Q as [-> | ->]; [exists c1; intros sc; refine (eq_trans _ E1); apply zscratch|exists c2; intros sc; refine (eq_trans _ E2); apply zscratch].
Qed.
(** Every run ends with the restriction that was tested. *)
Lemma ztested : forall prec fast R AP, zrun [0; 0; 0] (xparams prec fast) R AP -> nr R = 2 /\ nc R = 4 /\ zlow R = true.
Proof.
  intros prec fast R AP (eig & agg & ui & n & ns & nb & d & mm & Q1 & Q2 & BA & CO & CR & -> & _). injection Q1 as <-. destruct (xagg prec fast agg ui n Q2 BA) as (-> & ->). clear BA.
  destruct zchecked as (c1 & c2 & mm' & E1 & E2 & CR' & L & T & _). destruct (collected_any CO) as (acs & F1 & F2 & F3).
  destruct acs as [|[a1 z1] [|[a2 z2] [|? ?]]]; try discriminate F1. cbn [map fst seq] in F1. injection F1 as -> ->.
  destruct (F3 1 z1 (or_introl eq_refl)) as (_ & sc1 & G1). destruct (F3 2 z2 (or_intror (or_introl eq_refl))) as (_ & sc2 & G2). clear F3.
  assert (G1' : zproblem xeig [1; 1; 2] 1 sc1 = Ok z1) by exact G1. assert (G2' : zproblem xeig [1; 1; 2] 2 sc2 = Ok z2) by exact G2. clear G1 G2.
  rewrite zscratch in G1', G2'. rewrite G1' in E1. rewrite G2' in E2. apply Ok_inj in E1. apply Ok_inj in E2. subst z1 z2. cbn [map snd] in F2. subst d.
  rewrite CR' in CR. apply Ok_inj in CR. subst mm'. rewrite L. split; [reflexivity|]. split; [reflexivity|exact T].
Qed.
Lemma zgap : forall prec fast, mf_gap xF xfixed xagglomerates zproblem xdofs (lmesh 3) (xparams prec fast) (lq 51 2).
Proof.
  intros prec fast eig agg ui n a sc c Q1 Q2 BA Ha E. injection Q1 as <-. destruct (xagg prec fast agg ui n Q2 BA) as (-> & ->). clear BA.
  destruct (zkept a c sc Ha E) as (V & _). rewrite V. clear V E. assert (Q : a = 1 \/ a = 2) by lia. destruct Q as [-> | ->].
  - change (agg_cells (lmesh 3) [1; 1; 2] 1) with [0; 1]. cbv zeta. change (xdofs [0; 1]) with [0; 1; 2]. split.
    + intros k Hk. cbn [patch_matrix nr length] in Hk. destruct k as [|[|[|k]]]; [| | |lia]; intros Fk; try discriminate Fk. apply fleb_le. vm_compute. reflexivity.
    + intros x Lx _ O. apply (@gap_test3 QcOF) with (e0 := lq 0 1) (e1 := ze0) (e2 := ze1) (s := lq 1000 1); [reflexivity|reflexivity|qspd|exact Lx|]. apply O. left. reflexivity.
  - change (agg_cells (lmesh 3) [1; 1; 2] 2) with [2]. cbv zeta. change (xdofs [2]) with [2; 3]. split.
    + intros k Hk. cbn [patch_matrix nr length] in Hk. destruct k as [|[|k]]; [| |lia]; intros Fk; discriminate Fk.
    + intros x Lx _ O. apply (@gap_test QcOF) with (e0 := ze0) (e1 := ze1) (s := lq 1000 1); [reflexivity|reflexivity|qspd|exact Lx|]. apply O. left. reflexivity.
Qed.
Lemma zrepresent : forall prec fast, mf_kept_represent xF xfixed xagglomerates zproblem xdofs (lmesh 3) (xparams prec fast) (lq 25 1) (lq 1 1000000).
Proof.
  intros prec fast. eapply (@C99_lanczos_represents QcOF) with (nc := 1) (nk := 1) (lambda := lq 51 2) (eig := xeig).
  - exact xserial.
  - exact xfem_ok.
  - exact xcells.
  - exact xevaluator.
  - exact qsqrt_ok.
  - apply dstev_of_ok.
  - apply fleb_le. vm_compute. reflexivity.
  - apply insertion_sort_contract.
  - exact xsym.
  - exact xdecoupled.
  - exact xoperator.
  - reflexivity.
  - reflexivity.
  - split; reflexivity.
  - vm_compute. lia.
  - vm_compute. lia.
  - lia.
  - vm_compute. lia.
  - exact (zgap prec fast).
  - apply fleb_le. vm_compute. reflexivity.
  - apply fleb_le. vm_compute. reflexivity.
  - apply fleb_le. vm_compute. reflexivity.
Qed.
Lemma zpairs : forall prec fast, mf_kept_pairs xF xagglomerates zproblem xdofs (lmesh 3) (xparams prec fast) (lq 1 100000000).
Proof.
  intros prec fast. replace (lq 1 100000000) with (let tol := fmax (eig_tolerance QcOF lparse xeig) (1 / fpos 10000)%K in (tol * tol * (1 + fnat ((1 - 1) * 1)))%K) by (apply feqb_eq; vm_compute; reflexivity).
  eapply (@C107_lanczos QcOF) with (eig := xeig) (nc := 1) (nk := 1).
  - exact xserial.
  - exact xfem_ok.
  - exact xevaluator.
  - exact qsqrt_ok.
  - apply dstev_of_ok.
  - apply fleb_le. vm_compute. reflexivity.
  - apply insertion_sort_contract.
  - exact xsym.
  - exact xdecoupled.
  - exact xoperator.
  - reflexivity.
  - reflexivity.
  - split; reflexivity.
  - vm_compute. lia.
  - vm_compute. lia.
  - lia.
  - vm_compute. lia.
Qed.
Lemma zexists : forall prec fast, exists R AP, zrun [0; 0; 0] (xparams prec fast) R AP.
Proof.
  intros prec fast. unfold zrun. eapply (@C99_runs_exist QcOF) with (F := xF) (fixed := xfixed) (ui := [1; 1; 2]) (n := 2) (lambda := lq 25 1) (eps := lq 1 1000000) (eig := xeig).
  - exact xmesh.
  - exact xpart.
  - exact xserial.
  - exact xfem_ok.
  - exact xevaluator.
  - exact xgd_ok.
  - reflexivity.
  - reflexivity.
  - vm_compute. reflexivity.
  - exact (zrepresent prec fast).
  - exact zsolves.
Qed.
Lemma zinexact : forall prec fast, ~ mf_kept_exact xF xagglomerates zproblem xdofs (lmesh 3) (xparams prec fast).
Proof.
  intros prec fast H. destruct (zsolves 2 ltac:(lia)) as (c & Ec).
  assert (BA : exists agg, pt_find (xparams prec fast) ["agglomeration"%string] = Some agg /\ xagglomerates agg [0; 0; 0] = Ok ([1; 1; 2], 2)) by (eexists; split; [reflexivity|vm_compute; reflexivity]).
  destruct BA as (agg & Pa & BA). destruct (H xeig agg [1; 1; 2] 2 2 [] c eq_refl Pa BA ltac:(lia) (Ec [])) as (_ & _ & X). change (n_eigenvectors xeig) with 1 in X. specialize (X 0 ltac:(lia)).
  destruct (zkept 2 c [] ltac:(lia) (Ec [])) as (V & W). rewrite V, W in X. clear - X. cbn [nth] in X. unfold eigenpair in X.
  apply (f_equal (fun v => veqb v (vscale zval (zvec 2)))) in X. vm_compute in X. discriminate X.
Qed.
Section Low2.
  Add Field KfieldC107x : (f_field QcOF).
  Local Open Scope K_scope.
  Lemma low_test2 : forall (M : mat QcOF) lambda, nr M = 2%nat -> nc M = 2%nat ->
    spd 2 (mulvec (mkMat 2 2 (fun i j => ent M i j - (if (i =? j)%nat then lambda else 0)))) ->
    forall x, length x = 2%nat -> lambda * dot x x <= energy (mulvec M) x.
  Proof.
    intros M lambda Hr Hc H x Lx. assert (HE := @spd_nonneg QcOF _ _ H x Lx). clear H. destruct x as [|a [|b [|? ?]]]; try discriminate Lx.
    apply fle_sub_0. unfold energy. unfold mulvec in *. rewrite Hr, Hc. cbn [seq map dot sumn nth Nat.eqb nr nc ent] in *.
    eapply fle_trans; [exact HE|]. match goal with |- ?u <= ?v => replace u with v by ring end. apply fle_refl.
  Qed.
  Lemma scaled_le : forall a b v : QcOF, a <= b -> 0 <= v -> a * v <= b * v.
  Proof. intros a b v H Hv. replace (a * v) with (v * a) by ring. replace (b * v) with (v * b) by ring. apply fle_mul_l; assumption. Qed.
End Low2.
Lemma zabove : forall prec fast R AP, zrun [0; 0; 0] (xparams prec fast) R AP -> nr R = 2 /\ above (nr R) (fun z => mulvec R (mulvec xA (mulTvec R z))) (lq 1 4).
Proof.
  intros prec fast R AP HR. destruct (ztested prec fast R AP HR) as (L1 & L2 & T). split; [exact L1|]. rewrite L1. split; [apply fltb_lt; vm_compute; reflexivity|]. intros v Lv.
  unfold zlow in T. apply andb_true_iff in T. destruct T as (T1 & T2).
  assert (E : energy (fun z => mulvec R (mulvec xA (mulTvec R z))) v = energy (mulvec (mmul R (mmul xA (mtrans R)))) v).
  { unfold energy, mulTvec. rewrite !mulvec_mmul; [reflexivity|symmetry; exact L2|cbn [nr mmul]; exact L2]. }
  rewrite E. apply low_test2; [cbn [nr mmul]; exact L1|cbn [nc mmul mtrans]; exact L1| |exact Lv].
  match goal with |- spd _ (mulvec ?M) => apply (@entries_spd QcOF M) end. apply posdef_spd; [|exact T2]. apply small_symmetric; [reflexivity|exact T1].
Qed.
Ltac c107 prec HR := lazymatch goal with
  | |- inverse_diagonal _ _ _ => exact xinverse | |- usable_estimate _ _ _ _ _ _ => apply xusable | |- cheb_gain _ _ _ _ => unfold cheb_gain; apply fleb_le; vm_compute; reflexivity
  | |- mf_restrictor_run _ _ _ _ _ _ _ _ _ _ _ _ _ _ _ _ _ _ _ _ _ _ _ _ => exact HR
  | |- mf_kept_represent _ _ _ _ _ _ _ _ _ => exact (zrepresent prec "true") | |- mf_kept_pairs _ _ _ _ _ _ _ => exact (zpairs prec "true") | |- cells_per_dof _ _ _ => exact xper_dof
  | |- connectivity_ok _ _ _ => exact xconn | |- forall agg : ptree, _ => exact (xproduct prec)
  | |- above _ (mulvec _) _ => split; [apply fltb_lt; vm_compute; reflexivity|exact xA_low]
  | |- above _ _ _ => exact (proj2 (zabove _ _ _ _ HR))
  | |- minor _ _ _ _ => rewrite (proj1 (zabove _ _ _ _ HR)); repeat split; first [apply fltb_lt; vm_compute; reflexivity|apply fleb_le; vm_compute; reflexivity]
  | |- forall i : nat, _ => exact xbound | |- forall x : list _, _ => reflexivity
  | |- ci_eq _ _ => apply lower_ci; [apply no_upperb_ok; reflexivity|vm_compute; reflexivity] | |- flt _ _ => apply fltb_lt; vm_compute; reflexivity
  | |- fle _ _ => apply fleb_le; vm_compute; reflexivity | |- _ < _ => vm_compute; lia
  | |- xcg _ _ _ _ = _ => reflexivity | |- Ok _ = Ok _ => reflexivity | |- _ = _ => vm_compute; reflexivity end.
(** The residuals, with squares up to 1e-8 by the tolerance, cost 1/999 of the rate (delta = 1/1000). *)
Example C107_rate_example : exists R AP h s l, zrun [0; 0; 0] (xparams "false" "true") R AP /\
  construct (mf_helpers lparse xcg (fun _ _ _ => 1%N) 4 (mulvec xA) xdinv (fun _ => false) (fun _ => Ok (R, AP)) (fun _ _ r => r)) (q 1 (10 ^ 14)) (mkTenv true true) true (Ok tt)
    (Some (xparams "false" "true")) None = (Ok h, s, l) /\ columns_within (lq 1 100000000) AP (mmul xA (mtrans R)) /\
  ~ mf_kept_exact xF xagglomerates zproblem xdofs (lmesh 3) (xparams "false" "true") /\
  forall x xs, length x = 4 -> length xs = 4 -> exists y l', hierarchy_vmult (mkTenv true true) h x (mulvec xA xs) [] = (Ok y, l') /\
    fle (energy (mulvec xA) (vsub xs y)) (lq 5 6 * lq 5 6 * energy (mulvec xA) (vsub xs x))%K.
Proof.
  destruct (zexists "false" "true") as (R & AP & HR).
  destruct (@C107_rate QcOF (fun s => parse_int s) lparse ex_no_lobpcg qsqrt (dstev_of ztable) (lq 1 1000000) (fun _ _ => lq 0 1) (@insertion_sort nat) (fun _ => [0; 0; 1]) (lconn 3 (fun c => c))
    xdofs xop xdiag xconstr zdraws true false (lmesh 3) xF xfixed xgd xmesh xpart xserial xfem_ok xcells xevaluator xA_spd xgd_ok xcg (fun _ _ _ => 1%N) (fun _ => false) (fun _ => Ok (R, AP))
    (fun _ _ r => r) (mulvec xA) xd xdinv (q 1 (10 ^ 14)) (mkTenv true true) (xparams "false" "true") R AP (lq 1 2) (lq 2 1) (lq 30 1) (lq 1 127) (lq 25 1) (lq 1 1000000) (lq 1 1) (lq 24 1)
    (lq 1 100000000) (lq 1 4) (lq 1 1000) 2)
    as (h & (s & l & E) & V); [c107 "false"%string HR ..|].
  exists R, AP, h, s, l. split; [exact HR|]. split; [exact E|]. split.
  { eapply (@C107_product QcOF) with (F := xF) (fixed := xfixed) (m := lmesh 3); [exact xmesh|exact xpart|exact xserial|exact xfem_ok|exact xevaluator|exact xA_spd|exact xgd_ok|exact HR|exact xconn|reflexivity
      |exact (zrepresent "false" "true")|exact (zpairs "false" "true")|exact (xproduct "false")]. }
  split; [apply zinexact|]. intros x xs Hx Hs. destruct (V (mkTenv true true) x xs [] eq_refl Hx Hs) as (y & l' & E2 & _ & _ & EN). exists y, l'. split; [exact E2|].
  eapply fle_trans; [exact EN|]. change (c_prec (xparams "false" "true")) with false. cbv iota.
  assert (Px : fle 0%K (energy (mulvec xA) (vsub xs x))).
  { assert (Lv : length (vsub xs x) = 4) by (rewrite vsub_length; unfold OField.vec in *; lia). eapply fle_trans; [|apply xA_low; exact Lv]. apply fle_mul; [apply fleb_le; vm_compute; reflexivity|apply dot_nonneg]. }
  apply scaled_le; [apply fleb_le; vm_compute; reflexivity|exact Px].
Qed.
Example C107_condition_example : exists R AP h s l, zrun [0; 0; 0] (xparams "true" "true") R AP /\
  construct (mf_helpers lparse xcg (fun _ _ _ => 1%N) 4 (mulvec xA) xdinv (fun _ => false) (fun _ => Ok (R, AP)) (fun _ _ r => r)) (q 1 (10 ^ 14)) (mkTenv true true) true (Ok tt)
    (Some (xparams "true" "true")) None = (Ok h, s, l) /\
  forall x e, length x = 4 -> length e = 4 -> exists y l', hierarchy_vmult (mkTenv true true) h x (mulvec xA e) [] = (Ok y, l') /\
    let rho := (1 - lq 1 127 * lq 24 1 + lq 1 1000 / (1 - lq 1 1000))%K in
    fle ((1 - rho) * energy (mulvec xA) e)%K (dot y (mulvec xA e)) /\ fle (dot y (mulvec xA e)) ((1 + rho) * energy (mulvec xA) e)%K.
Proof.
  destruct (zexists "true" "true") as (R & AP & HR).
  destruct (@C107_condition QcOF (fun s => parse_int s) lparse ex_no_lobpcg qsqrt (dstev_of ztable) (lq 1 1000000) (fun _ _ => lq 0 1) (@insertion_sort nat) (fun _ => [0; 0; 1]) (lconn 3 (fun c => c))
    xdofs xop xdiag xconstr zdraws true false (lmesh 3) xF xfixed xgd xmesh xpart xserial xfem_ok xcells xevaluator xA_spd xgd_ok xcg (fun _ _ _ => 1%N) (fun _ => false) (fun _ => Ok (R, AP))
    (fun _ _ r => r) (mulvec xA) xd xdinv (q 1 (10 ^ 14)) (mkTenv true true) (xparams "true" "true") R AP (lq 1 2) (lq 2 1) (lq 30 1) (lq 1 127) (lq 25 1) (lq 1 1000000) (lq 1 1) (lq 24 1)
    (lq 1 100000000) (lq 1 4) (lq 1 1000) 2)
    as (h & (s & l & E) & V); [c107 "true"%string HR ..|].
  exists R, AP, h, s, l. split; [exact HR|]. split; [exact E|]. intros x e Hx He. destruct (V (mkTenv true true) x e [] eq_refl Hx He) as (y & l' & E2 & _ & H1 & H2). exists y, l'. split; [exact E2|]. split; assumption.
Qed.
