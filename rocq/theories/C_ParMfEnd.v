(** Property theorems about matrix-free preconditioners on several ranks, from the meshes to vmult: C105. *)
From Coq Require Import String List Arith ZArith NArith Bool Lia Field Permutation QArith Qcanon.
From Verif Require Import Base OField Mat LinAlg M_Ptree S_Ptree P_Ptree M_Agglo S_Agglo M_WorkStream M_Restr S_Restr P_Restr P_Restr2
  S_FastAP P_FastAP P_FastAP2 M_Perm S_Perm M_Lanczos S_Lanczos M_Eig S_Eig P_Eig M_Hier S_Hier P_Hier P_HierC P_HierE P_HierS M_Smoother P_Smoother M_Host S_Host P_Host P_HostN M_HostEnd S_HostEnd P_HostEnd
  P_Amgx3 S_Rate P_Rate P_Approx P_Local P_Lanczos5 P_Lanczos8 M_MfEnd S_MfEnd P_MfEnd M_Cheby S_Cheby P_Cheby P_Cheby2 P_Cheby3
  C_Host C_Eig M_FastAP C_FastAP C_HostEnd E_Lanczos C_Lanczos C_Cheby C_MfRate C_Rate C_CudaHier E_Solve E_CudaHier P_CudaHier3 M_ParEnd P_ParEnd P_Perm C_Local C_MfEnd
  S_Trunc P_Trunc C_Trunc M_ParMfEnd S_ParMfEnd P_ParMfEnd.
Import ListNotations.
Set Implicit Arguments.
Open Scope list_scope.
Open Scope nat_scope.

Section CParMfEnd.
  Variable K : ofield.
  Add Field KfieldC105 : (f_field K).
  Local Notation vec := (vec K).
  (** External code, as in M_ParMfEnd.v. *)
  Variable parse_unsigned : string -> option Z.
  Variable parse_double : string -> option K.
  Variable lobpcg : (vec -> vec) -> Z -> K -> list vec -> bool * eigensolution K.
  Variable fsqrt : K -> option K.
  Variable dstev : list K -> list K -> outcome (list K * list K).
  Variable tol2 : K.
  Variable rand : nat -> nat -> K.
  Variable std_sort : (nat -> nat -> bool) -> list nat -> list nat.
  Variables (debug dim3 : bool).
  (** The mesh of all ranks, its elements and constrained dofs, and the ranks. *)
  Variable m : mesh.
  Variable F : fem K.
  Variable fixed : nat -> bool.
  Variable ranks : list (mf_rank K).
  Local Notation A := (assembled F m).
  Local Notation agglomerates := (mf_rank_agglomerates parse_unsigned debug dim3).
  Local Notation problem := (mf_rank_problem parse_double lobpcg fsqrt dstev tol2 rand std_sort debug).
  Local Notation run := (par_mf_restrictor_run parse_unsigned parse_double lobpcg fsqrt dstev tol2 rand std_sort debug dim3 (f_ndofs F) ranks).
  Local Notation represent rk := (rank_represent F fixed (agglomerates rk) (problem rk) rk).

  Hypothesis Hcover : mf_ranks_cover (n_cells m) ranks.
  Hypothesis Hranks : forall rk, In rk ranks -> mf_rank_ok F fixed debug A rk.
  Hypothesis Hfem : fem_ok F.
  Hypothesis Hpsd : forall c u, fle 0%K (cell_energy F c u).
  Hypothesis Hspd : spd (f_ndofs F) (mulvec A).

  (** C105: the coarse space of all ranks inherits the quality of the local vectors, whatever the diagonals are at the constrained dofs, also when the ranks read
      different values there. *)
  Theorem C105_coarse_space : forall p R lambda eps kappa, run p R -> fle 0%K lambda -> fle 0%K eps -> cells_per_dof F (n_cells m) kappa ->
    (forall rk, In rk ranks -> represent rk p lambda eps) -> approximates_up_to A R lambda (eps * fnat kappa)%K.
  Proof. intros p R lambda eps kappa HR H0 H1 HK HD. eapply par_mf_coarse; eauto. Qed.
  (** C105: there is such a run as soon as the eigensolver succeeds on every agglomerate of every rank. *)
  Theorem C105_runs_exist : forall p eig agg lambda eps, pt_find p ["eigensolver"%string] = Some eig -> pt_find p ["agglomeration"%string] = Some agg ->
    (forall rk, In rk ranks -> represent rk p lambda eps) ->
    (forall rk, In rk ranks -> exists ui n, agglomerates rk agg (repeat 0 (n_cells (mr_mesh rk))) = Ok (ui, n) /\
       forall a, 1 <= a <= n -> exists c, forall sc, problem rk eig ui a sc = Ok c) ->
    exists R, run p R.
  Proof. intros p eig agg lambda eps P1 P2 HD HP. eapply par_mf_exists; eauto. Qed.

  (** C105: with Lanczos, a gap in the spectra of the agglomerates of a rank is all that its part of the coarse space needs. *)
  Theorem C105_lanczos_represents : forall rk p eig (nc nk : nat) lambda lambda' eps, In rk ranks -> sqrt_ok fsqrt -> dstev_ok dstev -> fle 0%K tol2 -> std_sort_contract std_sort ->
    (forall c g h, f_cm F c g h = f_cm F c h g) -> fixed_decoupled F fixed -> rank_operator_ok fixed rk ->
    pt_find p ["eigensolver"%string] = Some eig -> eigensolver_matrix_free debug eig = Ok ELanczos ->
    (if pt_get parse_bool ["is_deflated"%string] false eig
     then pt_require parse_int ["num_cycles"%string] eig = Ok (Z.of_nat nc) /\ pt_require parse_int ["num_eigenpairs_per_cycle"%string] eig = Ok (Z.of_nat nk)
     else nc = 1 /\ nk = n_eigenvectors eig) ->
    let maxit := Z.to_nat (pt_get parse_int ["max_iterations"%string] 200%Z eig) in
    1 <= maxit -> f_ndofs F <= maxit -> 1 <= nk -> 1 <= n_eigenvectors eig <= nc * nk ->
    rank_gap F fixed (agglomerates rk) (problem rk) rk p lambda -> fle lambda' lambda -> fle 0%K eps ->
    let tol := fmax (eig_tolerance K parse_double eig) (1 / fpos 10000)%K in
    fle (fnat (n_eigenvectors eig) * (tol * tol * (1 + fnat ((nc - 1) * nk))))%K ((lambda - lambda') * eps)%K ->
    represent rk p lambda' eps.
  Proof.
    intros rk p eig ncy nk lambda lambda' eps Irk Hsq Hd Ht Hs Hsym Hfd Hmo Pe Ek Hp maxit H1 H2 H3 H4 HG Hl He tol HT eig' agg ui n a sc c Pe' Pa BA Ha E.
    assert (eig' = eig) by congruence. subst eig'. cbv zeta. destruct (HG eig agg ui n a sc c Pe Pa BA Ha E) as (G1 & G2). cbv zeta in G1, G2. clear HG.
    assert (GZ := @mf_ghosts_zero K parse_unsigned debug dim3 F fixed A rk agg ui n (Hranks rk Irk) BA). clear BA.
    unfold mf_rank_problem, mf_local_problem in E. rewrite own_patch in E by (auto; lia).
    destruct (own_nodup (mr_mesh rk) ui a) as (N & I). set (cells := agg_cells (mr_mesh rk) ui a) in *. destruct (Hranks rk Irk) as (_ & _ & Hev & _).
    destruct (Hev cells N I) as (E1 & E2 & E3 & E4 & _). cbv zeta in E1, E2, E3, E4.
    destruct (Hmo cells N I) as (B & B1 & B2 & B3 & B4). cbv zeta in B1, B3, B4. set (dofs := mr_dofs rk cells) in *.
    assert (EM : rank_patch F rk cells = patch_matrix F (map (mr_number rk) cells) dofs) by reflexivity. set (M := rank_patch F rk cells) in *.
    assert (SM : symmetric_matrix M). { rewrite EM. split; [reflexivity|]. intros i j _ _. cbn [patch_matrix ent]. apply lsum_map_ext. intros k _. apply Hsym. }
    assert (X : forall g, In g dofs <-> exists k, In k (map (mr_number rk) cells) /\ In g (f_cd F k)).
    { intros g. rewrite E2. split; [intros (k & I1 & I2); exists (mr_number rk k); split; [apply in_map; exact I1|exact I2]|].
      intros (k & I1 & I2). apply in_map_iff in I1. destruct I1 as (k0 & <- & I1). exists k0. auto. }
    assert (PO : patch_ok F (map (mr_number rk) cells) dofs M) by (split; [exact E1|]; split; [reflexivity|]; split; [reflexivity|]; split; [exact X|intros k l _ _; reflexivity]).
    assert (PM := @patch_psd K F Hfem _ _ _ Hpsd PO).
    assert (Sqb : Mat.nc B = length dofs) by (rewrite <- B1; symmetry; apply B2).
    assert (VZ : forall x : vec, vanishes (mr_constrained rk cells) x -> zero_at_fixed fixed dofs x) by (intros x V k Hk F0; apply V; apply E4; auto).
    destruct (@C99_lanczos K parse_double lobpcg fsqrt dstev tol2 rand std_sort debug (mr_draws rk a) eig (n_eigenvectors eig) (eig_tolerance K parse_double eig) (trim M) (trim B)
      (mr_op rk cells) (mr_diag rk cells) (mr_constrained rk cells) dofs sc c ncy nk lambda lambda' eps Hsq Hd Ht Hs) as (R1 & R2 & R3); auto.
    - apply trim_sym. exact SM.
    - intros x Lx. rewrite trim_mulvec. apply PM. exact Lx.
    - apply trim_decoupled; auto. intros k l Hk Hl' Nk Ik. apply E4 in Ik; [|exact Hk]. rewrite EM. cbn [patch_matrix ent]. apply lsum_map_0. intros d _.
      refine (proj1 (Hfd d _ _ Ik _)). intros Q. apply Nk. apply (proj1 (NoDup_nth dofs 0) E1); auto.
    - apply trim_sym. exact B2.
    - apply trim_decoupled; auto. rewrite B1. intros k l Hk Hl' Nk Ik. apply B3; auto. apply E4; auto.
    - intros x Lx. rewrite trim_mulvec. apply B4. exact Lx.
    - cbn [trim nr]. intros i j Hi Hj Ni Nj. cbn [trim ent]. rewrite B1, Sqb. rewrite EM in Hi, Hj. cbn [patch_matrix nr] in Hi, Hj.
      change (nr M) with (length dofs). change (Mat.nc M) with (length dofs).
      replace (i <? length dofs) with true by (symmetry; apply Nat.ltb_lt; exact Hi). replace (j <? length dofs) with true by (symmetry; apply Nat.ltb_lt; exact Hj). cbn [andb].
      assert (Lu : length (unit_vec (length dofs) j : vec) = length dofs) by apply unit_vec_length.
      assert (Zu : zero_at_fixed fixed dofs (unit_vec (length dofs) j : vec)).
      { intros k Hk Fk. rewrite nth_unit_vec by exact Hj. destruct (Nat.eqb_spec k j) as [->|]; auto. exfalso. apply Nj. apply E4; auto. }
      assert (Q := E3 _ Lu Zu). rewrite (B4 _ Lu) in Q. apply (f_equal (fun v => nth i v 0%K)) in Q.
      assert (Q1 := @mulvec_unit K B j i ltac:(rewrite Sqb; exact Hj) ltac:(rewrite B1; exact Hi)). assert (Q2 := @mulvec_unit K M j i Hj Hi). rewrite Sqb in Q1. rewrite Q1 in Q. rewrite Q. exact Q2.
    - cbn [trim nr]. eapply Nat.le_trans; [|exact H2]. change (nr M) with (length dofs). rewrite <- (seq_length (f_ndofs F) 0). apply NoDup_incl_length; [exact E1|].
      intros g Ig. apply X in Ig. destruct Ig as (d & _ & Ig). apply in_seq. destruct (Hfem d) as (Q & _). specialize (Q g Ig). lia.
    - cbn [trim nr ent]. intros k Ik Hk. assert (Hk' : k < Mat.nc M) by exact Hk. replace (k <? nr M) with true by (symmetry; apply Nat.ltb_lt; exact Hk).
      replace (k <? Mat.nc M) with true by (symmetry; apply Nat.ltb_lt; exact Hk'). cbn [andb]. apply G1; auto. apply E4; auto.
    - intros x Lx Vx Ox. rewrite trim_mulvec. apply G2; auto.
    - split; [exact R1|]. split; [intros e Ie; apply VZ; apply R2; exact Ie|]. intros v Lv. destruct (R3 v Lv) as (w & Lw & Q). exists w. split; [exact Lw|].
      unfold energy in Q |- *. rewrite trim_mulvec in Q. exact Q.
  Qed.

  Section Rate.
    Variable cg : N -> nat -> (vec -> vec) -> vec -> option (K * K).
    Variable auto_degree : K -> K -> K -> N.
    Variable accepts_double : string -> bool.
    Variable mk : ptree -> outcome (mat K * mat K).
    Variable ml_vmult : ml_list -> mat K -> vec -> vec.
    (** The global operator [f], its diagonal [d] as the smoother sees it, the estimates of its eigenvalues, and options that choose the Chebyshev smoother. *)
    Variables (f : vec -> vec) (d dinv : vec) (drop : K) (te0 : tenv) (p : ptree) (R AP : mat K) (lo hi dmax theta lambda eps mu lambda' : K) (kappa : nat).
    Local Notation n := (f_ndofs F).
    Local Notation range := (pt_get parse_double ["smoother"; "smoothing_range"]%string 0%K p).
    Local Notation top := (fpos 12 / fpos 10 * hi)%K.
    Local Notation built h := (exists s l,
      construct (mf_helpers parse_double cg auto_degree n f dinv accepts_double mk ml_vmult) drop te0 debug (Ok tt) (Some p) None = (Ok h, s, l)).
    Hypothesis Hop : forall x, length x = n -> f x = mulvec A x.
    Hypothesis Hdiag : inverse_diagonal n d dinv.
    Hypothesis Hsteps : 0 < c_steps p.
    Hypothesis Hlevels : c_levels p = 2%Z.
    Hypothesis Hcoarse : ci_eq (text_at p ["coarse"; "type"]%string "direct") "direct".
    Hypothesis Hsmoother : ci_eq (text_at p ["smoother"; "type"]%string "Chebyshev") "chebyshev".
    Hypothesis Hfast : pt_get parse_bool ["fast_ap"%string] false p = false.
    Hypothesis Hcg : cg 8%N n f dinv = Some (lo, hi).
    Hypothesis Hest : usable_estimate n f d range lo hi.
    Hypothesis Hdmax : flt 0%K dmax.
    Hypothesis Hbound : forall i, i < n -> fle (nth i d 0%K) dmax.
    Hypothesis Htheta : fle 0%K theta.
    Hypothesis Hgain : cheb_gain dmax (interval_low range lo top) top theta.
    (** The restriction comes from a run of build_restrictor on the ranks. *)
    Hypothesis Hmk : mk p = Ok (R, AP).
    Hypothesis Hrun : run p R.
    (** The local vectors, the smallest eigenvalue [mu] of A, and at most [kappa] cells in a dof. *)
    Hypothesis Hkept : forall rk, In rk ranks -> represent rk p lambda eps.
    Hypothesis Hlam0 : fle 0%K lambda.
    Hypothesis Heps : fle 0%K eps.
    Hypothesis Hcells : cells_per_dof F (n_cells m) kappa.
    Hypothesis Hmu : flt 0%K mu.
    Hypothesis Hlow : forall v, length v = n -> fle (mu * dot v v)%K (energy (mulvec A) v).
    Hypothesis Hlam : flt 0%K lambda'.
    Hypothesis Hloss : fle (lambda' * (mu + eps * fnat kappa))%K (lambda * mu)%K.

    Lemma par_mf_facts : is_matrix n f A /\ pt_find p ["eigensolver"%string] <> None /\ pt_find p ["agglomeration"%string] <> None /\ nc R = n /\ approximates A R lambda'.
    Proof.
      destruct (@par_mf_shape K _ _ _ _ _ _ _ _ _ _ _ _ _ _ Hrun) as (P1 & P2 & P3). split; [split; [reflexivity|split; [reflexivity|exact Hop]]|]. split; [exact P1|]. split; [exact P2|]. split; [exact P3|].
      apply absorb with (lambda := lambda) (eps := (eps * fnat kappa)%K) (mu := mu); auto.
      - apply fle_mul; [exact Heps|apply fnat_nonneg].
      - eapply C105_coarse_space; eauto.
    Qed.

    (** The rows are independent and no entry of A R^T is dropped. *)
    Section Kept.
      Local Notation rho := (1 - theta * lambda')%K.
      Hypothesis Hrank : full_row_rank R.
      Hypothesis Hproduct : no_small_entry drop A R.
      (** C105: every call of vmult multiplies the energy norm of the error by at most 1 - theta lambda', a bound in which the number of ranks does not occur. *)
      Theorem C105_rate : exists h, built h /\
        forall te x xs l, open_sections l = [] -> length x = n -> length xs = n ->
          exists y l', hierarchy_vmult te h x (f xs) l = (Ok y, l') /\ open_sections l' = [] /\ length y = n /\
            fle (energy f (vsub xs y)) (rho * rho * energy f (vsub xs (if c_prec p then vzero n else x)))%K.
      Proof.
        destruct par_mf_facts as (D1 & D2 & D3 & D4 & D6). assert (D5 : if pt_get parse_bool ["fast_ap"%string] false p then meq AP (mmul A (mtrans R)) else no_small_entry drop A R) by (rewrite Hfast; exact Hproduct).
        exact (@C98_rate K parse_double cg auto_degree accepts_double mk ml_vmult n f d dinv drop te0 debug p A R AP lo hi dmax theta lambda'
          D1 Hspd Hdiag Hsteps Hlevels Hcoarse Hsmoother Hcg Hest Hdmax Hbound Htheta Hgain D2 D3 Hmk D4 Hrank D5 Hlam D6).
      Qed.
      (** C105: as a preconditioner M, the spectrum of M A lies in [theta lambda', 2 - theta lambda']. *)
      Theorem C105_condition : c_prec p = true -> fle (theta * lambda')%K 1%K -> exists h, built h /\
        forall te x e l, open_sections l = [] -> length x = n -> length e = n ->
          exists y l', hierarchy_vmult te h x (f e) l = (Ok y, l') /\ open_sections l' = [] /\
            fle (theta * lambda' * energy f e)%K (dot y (f e)) /\ fle (dot y (f e)) ((1 + 1 - theta * lambda') * energy f e)%K.
      Proof.
        destruct par_mf_facts as (D1 & D2 & D3 & D4 & D6). assert (D5 : if pt_get parse_bool ["fast_ap"%string] false p then meq AP (mmul A (mtrans R)) else no_small_entry drop A R) by (rewrite Hfast; exact Hproduct).
        exact (@C98_condition K parse_double cg auto_degree accepts_double mk ml_vmult n f d dinv drop te0 debug p A R AP lo hi dmax theta lambda'
          D1 Hspd Hdiag Hsteps Hlevels Hcoarse Hsmoother Hcg Hest Hdmax Hbound Htheta Hgain D2 D3 Hmk D4 Hrank D5 Hlam D6).
      Qed.
    End Kept.

    (** Entries of A R^T may be dropped if the threshold is small relative to the spectra. *)
    Section Dropped.
      Variables (nu delta : K).
      Local Notation rho := (1 - theta * lambda' + delta / (1 - delta))%K.
      Hypothesis Hdrop : fle 0%K drop.
      Hypothesis Hnu : above (nr R) (fun z => mulvec R (f (mulTvec R z))) nu.
      Hypothesis Hneg : negligible n (nr R) drop mu nu delta.
      Hypothesis Hle : fle (theta * lambda')%K 1%K.
      (** C105: every call of vmult multiplies the energy norm of the error by at most 1 - theta lambda' + delta/(1 - delta). *)
      Theorem C105_rate_dropped : exists h, built h /\
        forall te x xs l, open_sections l = [] -> length x = n -> length xs = n ->
          exists y l', hierarchy_vmult te h x (f xs) l = (Ok y, l') /\ open_sections l' = [] /\ length y = n /\
            fle (energy f (vsub xs y)) (rho * rho * energy f (vsub xs (if c_prec p then vzero n else x)))%K.
      Proof.
        destruct par_mf_facts as (D1 & D2 & D3 & D4 & D6).
        assert (W : pt_get parse_bool ["fast_ap"%string] false p = true -> within drop AP (mmul A (mtrans R))) by (rewrite Hfast; discriminate).
        assert (M : above n f mu) by (split; [exact Hmu|]; intros v Lv; unfold energy; rewrite Hop by exact Lv; exact (Hlow v Lv)).
        exact (@C104_rate K parse_double cg auto_degree accepts_double mk ml_vmult n f d dinv drop te0 debug p A R AP lo hi dmax theta lambda' mu nu delta
          D1 Hspd Hdiag Hsteps Hlevels Hcoarse Hsmoother Hcg Hest Hdmax Hbound Htheta Hgain D2 D3 Hmk D4 Hdrop W M Hnu Hneg Hlam Hle D6).
      Qed.
    End Dropped.
  End Rate.
End CParMfEnd.
Print Assumptions C105_coarse_space.
Print Assumptions C105_runs_exist.
Print Assumptions C105_lanczos_represents.
Print Assumptions C105_rate.
Print Assumptions C105_condition.
Print Assumptions C105_rate_dropped.

(** * Examples: the three line elements of C99 on two ranks.  The first rank owns two of them and sees the third, the second owns the third, which it calls 0, and sees its neighbour. *)
Unset Implicit Arguments.
Definition ynumber (k c : nat) : nat := if k =? 0 then c else match c with 0 => 2 | 2 => 0 | _ => c end.
Definition ymesh (k : nat) : mesh := Build_mesh (3 - k) (fun c => c <? 2 - k) (fun _ => FBoundary) (fun _ => FBoundary) (fun _ => FBoundary).
(** What a rank reads of the diagonal at the dofs of its cells; and the part of it that comes from its own cells. *)
Definition yread (k g : nat) : option QcOF := if (2 * k <=? g) && (g <=? k + 2) then xgd g else None.
Definition yshare (k g : nat) : option QcOF :=
  if (2 * k <=? g) && (g <=? k + 2) then Some (if xfixed g then lq 5 1 else lsum (map (fun c => f_cm xF (ynumber k c) g g) (owned_cells (ymesh k)))) else None.
Definition yrank (gd : nat -> nat -> option QcOF) (k : nat) : mf_rank QcOF :=
  mkMfRank (ymesh k) (ynumber k) (fun _ => [0; 0]) (fun cells => xdofs (map (ynumber k) cells)) (fun cells => xop (map (ynumber k) cells)) (fun cells => xdiag (map (ynumber k) cells))
    (fun cells => xconstr (map (ynumber k) cells)) xdraws (gd k).
Definition yranks gd : list (mf_rank QcOF) := [yrank gd 0; yrank gd 1].
Definition yparams (prec : string) : ptree := Node "" [("is preconditioner"%string, leaf prec); ("eigensolver"%string, xeig);
  ("agglomeration"%string, Node "" [("partitioner"%string, leaf "metis"); ("n_agglomerates"%string, leaf "1")]); ("smoother"%string, Node "" [("type"%string, leaf "Chebyshev"); ("degree"%string, leaf "3")])].
Definition yproblem := mf_rank_problem lparse ex_no_lobpcg qsqrt (dstev_of xtable) (lq 1 1000000) (fun _ _ => lq 0 1) (@insertion_sort nat) true.
Definition yagglomerates := mf_rank_agglomerates (K := QcOF) (fun s => parse_int s) true false.
Definition yrun gd := par_mf_restrictor_run (fun s => parse_int s) lparse ex_no_lobpcg qsqrt (dstev_of xtable) (lq 1 1000000) (fun _ _ => lq 0 1) (@insertion_sort nat) true false 4 (yranks gd).

Lemma ycover : forall gd, mf_ranks_cover 3 (yranks gd).
Proof. intros gd. apply Permutation_refl. Qed.
Lemma ynumber_nodup : forall k cells, NoDup cells -> NoDup (map (ynumber k) cells).
Proof.
  intros k cells. apply FinFun.Injective_map_NoDup. intros a b. unfold ynumber. destruct (k =? 0); [auto|]. destruct a as [|[|[|a]]], b as [|[|[|b]]]; intros H; try lia; discriminate H.
Qed.
Lemma yevaluator : forall gd k, rank_evaluator_ok xF xfixed (yrank gd k).
Proof.
  intros gd k cells N _. cbv zeta. destruct (xevaluator _ (ynumber_nodup k cells N)) as (Q1 & Q2 & Q3). split; [exact Q1|]. split; [|exact Q3].
  intros g. cbn [yrank mr_dofs mr_number]. rewrite Q2. split; [intros (c & I1 & I2); apply in_map_iff in I1; destruct I1 as (c0 & <- & I1); exists c0; auto|].
  intros (c & I1 & I2). exists (ynumber k c). split; [apply in_map; exact I1|exact I2].
Qed.
Lemma yoperator : forall gd k, rank_operator_ok xfixed (yrank gd k).
Proof. intros gd k cells N _. exact (xoperator _ (ynumber_nodup k cells N)). Qed.
Lemma yrank_ok : forall k, k <= 1 -> mf_rank_ok xF xfixed true xA (yrank yread k).
Proof.
  intros k Hk. assert (E : k = 0 \/ k = 1) by lia. split; [intros c _; repeat split|]. split; [intros kk; destruct E as [-> | ->]; vm_compute; lia|]. split; [apply yevaluator|].
  intros c g Ic Ig. assert (B : ((2 * k <=? g) && (g <=? k + 2))%bool = true /\ g < 4).
  { destruct E as [-> | ->]; cbn in Ic; [destruct Ic as [<-|[<-|[]]]|destruct Ic as [<-|[]]]; cbn in Ig; destruct Ig as [<-|[<-|[]]]; split; try reflexivity; lia. }
  destruct B as (B & Hg). cbn [yrank mr_gd]. unfold yread. rewrite B. apply xgd_ok. exact Hg.
Qed.
Lemma yranks_ok : forall rk, In rk (yranks yread) -> mf_rank_ok xF xfixed true xA rk.
Proof. intros rk [<-|[<-|[]]]; apply yrank_ok; lia. Qed.
Definition yids (k : nat) : list nat := if k =? 0 then [1; 1; 0] else [1; 0].
Lemma yagg : forall gd prec k agg ui n, k <= 1 -> pt_find (yparams prec) ["agglomeration"%string] = Some agg -> yagglomerates (yrank gd k) agg (repeat 0 (n_cells (ymesh k))) = Ok (ui, n) -> ui = yids k /\ n = 1.
Proof. intros gd prec k agg ui n Hk P H. injection P as <-. assert (E : k = 0 \/ k = 1) by lia. destruct E as [-> | ->]; vm_compute in H; injection H as <- <-; auto. Qed.
Lemma yscratch : forall gd k sc, k <= 1 -> yproblem (yrank gd k) xeig (yids k) 1 sc = yproblem (yrank gd k) xeig (yids k) 1 [].
Proof. intros gd k sc Hk. reflexivity. Qed.
(** What the ranks find, and the restriction. *)
Definition ygds gd (k : nat) : nat -> option QcOF := match nth_error (yranks gd) k with Some rk => mr_gd rk | None => fun _ => None end.
Definition ycheck gd (test : mat QcOF -> bool) : outcome bool :=
  let! c1 := yproblem (yrank gd 0) xeig (yids 0) 1 [] in let! c2 := yproblem (yrank gd 1) xeig (yids 1) 1 [] in
  let! ms := assemble true true (ygds gd) [data_of [c1]; data_of [c2]] in
  Ok ((n_total_rows (rows_per_proc [data_of [c1]; data_of [c2]]) =? 2) && test (distributed_matrix 2 4 ms) &&
    match ag_evecs c1, ag_evecs c2 with [e1], [e2] => veqb e1 [lq 0 1; lq 3 5; lq 4 5] && veqb e2 [lq 3 5; lq 4 5] | _, _ => false end)%bool.
Section YChecked.
  Variables (gd : nat -> nat -> option QcOF) (test : mat QcOF -> bool).
  Hypothesis H : ycheck gd test = Ok true.
  Lemma ychecked : exists c1 c2 ms, yproblem (yrank gd 0) xeig (yids 0) 1 [] = Ok c1 /\ yproblem (yrank gd 1) xeig (yids 1) 1 [] = Ok c2 /\
    assemble true true (ygds gd) [data_of [c1]; data_of [c2]] = Ok ms /\ n_total_rows (rows_per_proc [data_of [c1]; data_of [c2]]) = 2 /\ test (distributed_matrix 2 4 ms) = true /\
    ag_evecs c1 = [xvec 1] /\ ag_evecs c2 = [xvec 2].
  Proof.
    assert (Q := H). unfold ycheck in Q. apply bind_Ok in Q. destruct Q as (c1 & E1 & Q). apply bind_Ok in Q. destruct Q as (c2 & E2 & Q). apply bind_Ok in Q. destruct Q as (ms & E3 & Q).
    apply Ok_inj in Q. do 2 (apply andb_true_iff in Q; destruct Q as (Q & ?Z)). exists c1, c2, ms. split; [exact E1|]. split; [exact E2|]. split; [exact E3|].
    split; [apply Nat.eqb_eq; exact Q|]. split; [exact Z0|].
    destruct (ag_evecs c1) as [|e1 [|? ?]]; try discriminate Z. destruct (ag_evecs c2) as [|e2 [|? ?]]; try discriminate Z.
    apply andb_true_iff in Z. destruct Z as (Y1 & Y2). apply veqb_eq in Y1. apply veqb_eq in Y2. rewrite Y1, Y2. auto.
  Qed.
  Lemma ykept : forall k c sc, k <= 1 -> yproblem (yrank gd k) xeig (yids k) 1 sc = Ok c -> ag_evecs c = [xvec (k + 1)].
  Proof.
    intros k c sc Hk E. rewrite yscratch in E by exact Hk. destruct ychecked as (c1 & c2 & ms & E1 & E2 & _ & _ & _ & V1 & V2).
    assert (Q : k = 0 \/ k = 1) by lia. destruct Q as [-> | ->]; [rewrite E in E1; apply Ok_inj in E1; rewrite E1; auto|rewrite E in E2; apply Ok_inj in E2; rewrite E2; auto].
  Qed.
  (** Every run ends with the restriction that was tested. *)
  Lemma ytested : forall prec R, yrun gd (yparams prec) R -> nr R = 2 /\ nc R = 4 /\ test R = true.
  Proof.
    intros prec R (eig & agg & ds & ms & Q1 & Q2 & RR & AS & ->). injection Q1 as <-.
    inversion RR as [|r0 d0 rs0 ds0 R0 R0' X0 Y0]. subst. inversion R0' as [|r1 d1 rs1 ds1 R1 R1' X1 Y1]. subst. inversion R1'. subst. clear R0' R1' RR.
    destruct R0 as (ui0 & n0 & ns0 & nb0 & BA0 & C0). destruct R1 as (ui1 & n1 & ns1 & nb1 & BA1 & C1).
    destruct (yagg gd prec 0 agg ui0 n0 ltac:(lia) Q2 BA0) as (-> & ->). destruct (yagg gd prec 1 agg ui1 n1 ltac:(lia) Q2 BA1) as (-> & ->). clear BA0 BA1.
    destruct (collected_any C0) as (a0 & F1 & F2 & F3). destruct (collected_any C1) as (a1 & G1 & G2 & G3).
    destruct a0 as [|[i0 z0] [|? ?]]; try discriminate F1. destruct a1 as [|[i1 z1] [|? ?]]; try discriminate G1. cbn [map fst seq] in F1, G1. injection F1 as ->. injection G1 as ->.
    destruct (F3 1 z0 (or_introl eq_refl)) as (_ & s0 & K0). destruct (G3 1 z1 (or_introl eq_refl)) as (_ & s1 & K1). clear F3 G3 C0 C1.
    assert (K0' : yproblem (yrank gd 0) xeig (yids 0) 1 s0 = Ok z0) by exact K0. assert (K1' : yproblem (yrank gd 1) xeig (yids 1) 1 s1 = Ok z1) by exact K1. clear K0 K1.
    rewrite yscratch in K0', K1' by lia. destruct ychecked as (c1 & c2 & ms' & E1 & E2 & E3 & L & T & _). rewrite K0' in E1. rewrite K1' in E2. apply Ok_inj in E1. apply Ok_inj in E2. subst z0 z1.
    cbn [map snd] in F2, G2. subst d0 d1. unfold ygds in E3. rewrite E3 in AS. apply Ok_inj in AS. subst ms'. rewrite L. split; [reflexivity|]. split; [reflexivity|exact T].
  Qed.
End YChecked.
Lemma ygap : forall gd test prec rk, ycheck gd test = Ok true -> In rk (yranks gd) -> rank_gap xF xfixed (yagglomerates rk) (yproblem rk) rk (yparams prec) (lq 51 2).
Proof.
  intros gd test prec rk H I. assert (J : exists k, k <= 1 /\ rk = yrank gd k) by (destruct I as [<-|[<-|[]]]; [exists 0|exists 1]; auto). destruct J as (k & Hk & ->).
  intros eig agg ui n a sc c Q1 Q2 BA Ha E. injection Q1 as <-. destruct (yagg gd prec k agg ui n Hk Q2 BA) as (-> & ->). clear BA. replace a with 1 in * by lia.
  assert (V := ykept gd test H k c sc Hk E). rewrite V. clear V E H. assert (Q : k = 0 \/ k = 1) by lia. destruct Q as [-> | ->].
  - change (agg_cells (mr_mesh (yrank gd 0)) (yids 0) 1) with [0; 1]. cbv zeta. change (mr_dofs (yrank gd 0) [0; 1]) with [0; 1; 2]. split.
    + intros k Hk'. cbn in Hk'. destruct k as [|[|[|k]]]; [| | |lia]; intros Fk; try discriminate Fk. apply fleb_le. vm_compute. reflexivity.
    + intros x Lx _ O. apply (@gap_test3 QcOF) with (e0 := lq 0 1) (e1 := lq 3 5) (e2 := lq 4 5) (s := lq 1000 1); [reflexivity|reflexivity|qspd|exact Lx|]. apply O. left. reflexivity.
  - change (agg_cells (mr_mesh (yrank gd 1)) (yids 1) 1) with [0]. cbv zeta. change (mr_dofs (yrank gd 1) [0]) with [2; 3]. split.
    + intros k Hk'. cbn in Hk'. destruct k as [|[|k]]; [| |lia]; intros Fk; discriminate Fk.
    + intros x Lx _ O. apply (@gap_test QcOF) with (e0 := lq 3 5) (e1 := lq 4 5) (s := lq 1000 1); [reflexivity|reflexivity|qspd|exact Lx|]. apply O. left. reflexivity.
Qed.
(** Rows that are independent, a Galerkin product above 3/10, no small entry in A R^T. *)
Definition ygalerkin (R : mat QcOF) : mat QcOF := mkMat 2 2 (fun i j => ent (mmul R (mmul xA (mtrans R))) i j - (if (i =? j)%nat then lq 3 10 else 0))%K.
Definition ytest (R : mat QcOF) : bool :=
  (posdef 2 (mmul R (mtrans R)) && (posdef 2 (ygalerkin R) && forallb (fun i => forallb (fun j => Qc_eq_bool (ent (ygalerkin R) i j) (ent (ygalerkin R) j i)) (seq 0 2)) (seq 0 2)) &&
   forallb (fun i => forallb (fun j => feqb (ent (mmul xA (mtrans R)) i j) 0%K || fltb (q 1 (10 ^ 14)) (fabs (ent (mmul xA (mtrans R)) i j))) (seq 0 2)) (seq 0 4))%bool.
Lemma ycheck_ok : ycheck yread ytest = Ok true.
Proof. vm_compute. reflexivity. Qed.
Section YLow.
  Add Field QcFieldC105 : (f_field QcOF).
  Local Open Scope K_scope.
  Lemma low_test2 : forall (M : mat QcOF) lambda, nr M = 2%nat -> nc M = 2%nat ->
    spd 2 (mulvec (mkMat 2 2 (fun i j => ent M i j - (if (i =? j)%nat then lambda else 0)))) ->
    forall x, length x = 2%nat -> lambda * dot x x <= energy (mulvec M) x.
  Proof.
    intros M lambda Hr Hc H x Lx. assert (HE := @spd_nonneg QcOF _ _ H x Lx). clear H. destruct x as [|a [|b [|? ?]]]; try discriminate Lx.
    apply fle_sub_0. unfold energy. unfold mulvec in *. rewrite Hr, Hc. cbn [seq map dot sumn nth Nat.eqb nr nc ent] in *.
    eapply fle_trans; [exact HE|]. match goal with |- ?u <= ?v => replace u with v by ring end. apply fle_refl.
  Qed.
End YLow.
Lemma yfull : forall prec R, yrun yread (yparams prec) R -> full_row_rank R.
Proof.
  intros prec R HR. destruct (ytested yread ytest ycheck_ok prec R HR) as (L & _ & T). apply andb_true_iff in T. destruct T as (T & _). apply andb_true_iff in T. destruct T as (T & _).
  apply rank_test. apply posdef_spd; [|cbn [mmul nr]; rewrite L; exact T]. split; [reflexivity|]. intros i j _ _. cbn [ent mmul mtrans]. apply sumn_ext. intros k _. apply Qcmult_comm.
Qed.
Lemma yentries : forall prec R, yrun yread (yparams prec) R -> no_small_entry (q 1 (10 ^ 14)) xA R.
Proof.
  intros prec R HR i j Hi Hj. destruct (ytested yread ytest ycheck_ok prec R HR) as (L & _ & T). rewrite L in Hj. apply andb_true_iff in T. destruct T as (_ & T).
  rewrite forallb_forall in T. specialize (T i ltac:(apply in_seq; cbn in Hi; lia)). rewrite forallb_forall in T. specialize (T j ltac:(apply in_seq; lia)).
  apply orb_true_iff in T. destruct T as [T|T]; [left; apply feqb_eq; exact T|right; apply fltb_lt; exact T].
Qed.
Lemma yabove : forall prec R, yrun yread (yparams prec) R -> above (nr R) (fun z => mulvec R (mulvec xA (mulTvec R z))) (lq 3 10).
Proof.
  intros prec R HR. destruct (ytested yread ytest ycheck_ok prec R HR) as (L & L' & T). apply andb_true_iff in T. destruct T as (T & _). apply andb_true_iff in T. destruct T as (_ & T).
  apply andb_true_iff in T. destruct T as (T1 & T2). rewrite L. split; [apply fltb_lt; vm_compute; reflexivity|]. intros v Lv.
  eapply fle_trans; [apply (low_test2 (mmul R (mmul xA (mtrans R))) (lq 3 10)); [exact L|exact L| |exact Lv]|].
  - apply (@entries_spd QcOF (ygalerkin R)). apply posdef_spd; [apply small_symmetric; [reflexivity|exact T2]|exact T1].
  - unfold energy. rewrite !mulvec_mmul; [apply fle_refl|symmetry; exact L'|exact L'].
Qed.
Lemma yrepresent : forall prec rk, In rk (yranks yread) -> rank_represent xF xfixed (yagglomerates rk) (yproblem rk) rk (yparams prec) (lq 25 1) (lq 1 1000000).
Proof.
  intros prec rk I. eapply (@C105_lanczos_represents QcOF) with (nc := 1) (nk := 1) (lambda := lq 51 2) (eig := xeig) (ranks := yranks yread) (m := lmesh 3).
  - exact yranks_ok.
  - exact xfem_ok.
  - exact xcells.
  - exact I.
  - exact qsqrt_ok.
  - apply dstev_of_ok.
  - apply fleb_le. vm_compute. reflexivity.
  - apply insertion_sort_contract.
  - exact xsym.
  - exact xdecoupled.
  - destruct I as [<-|[<-|[]]]; apply yoperator.
  - reflexivity.
  - reflexivity.
  - split; reflexivity.
  - vm_compute. lia.
  - vm_compute. lia.
  - lia.
  - vm_compute. lia.
  - exact (ygap yread ytest prec rk ycheck_ok I).
  - apply fleb_le. vm_compute. reflexivity.
  - apply fleb_le. vm_compute. reflexivity.
  - apply fleb_le. vm_compute. reflexivity.
Qed.
Lemma yexists : forall prec, exists R, yrun yread (yparams prec) R.
Proof.
  intros prec. eapply (@C105_runs_exist QcOF) with (F := xF) (fixed := xfixed) (m := lmesh 3) (lambda := lq 25 1) (eps := lq 1 1000000) (eig := xeig).
  - exact yranks_ok.
  - reflexivity.
  - reflexivity.
  - exact (yrepresent prec).
  - destruct (ychecked yread ytest ycheck_ok) as (c1 & c2 & ms & E1 & E2 & _).
    intros rk [<-|[<-|[]]]; [exists (yids 0), 1|exists (yids 1), 1]; (split; [vm_compute; reflexivity|]); intros a Ha; replace a with 1 by lia;
      [exists c1; intros sc; refine (eq_trans _ E1)|exists c2; intros sc; refine (eq_trans _ E2)]; apply yscratch; lia.
Qed.
(** Lanczos keeps one vector on each rank. *)
Example C105_example : exists R, yrun yread (yparams "true") R /\ nr R = 2 /\ approximates_up_to xA R (lq 25 1) (lq 1 1000000 * fnat 2)%K.
Proof.
  destruct (yexists "true") as (R & HR). exists R. split; [exact HR|]. split; [apply (ytested yread ytest ycheck_ok _ _ HR)|].
  eapply (@C105_coarse_space QcOF) with (F := xF) (fixed := xfixed) (m := lmesh 3) (ranks := yranks yread).
  - exact (ycover yread).
  - exact yranks_ok.
  - exact xfem_ok.
  - exact xcells.
  - exact xA_spd.
  - exact HR.
  - apply fleb_le. vm_compute. reflexivity.
  - apply fleb_le. vm_compute. reflexivity.
  - exact xper_dof.
  - exact (yrepresent "true").
Qed.
Ltac c105 prec HR := lazymatch goal with
  | |- inverse_diagonal _ _ _ => exact xinverse | |- usable_estimate _ _ _ _ _ _ => apply xusable | |- cheb_gain _ _ _ _ => unfold cheb_gain; apply fleb_le; vm_compute; reflexivity
  | |- full_row_rank _ => exact (yfull _ _ HR) | |- no_small_entry _ _ _ => exact (yentries _ _ HR) | |- above _ _ _ => exact (yabove _ _ HR)
  | |- negligible _ _ _ _ _ _ => rewrite (proj1 (ytested yread ytest ycheck_ok _ _ HR)); split; [|split]; [apply fleb_le; vm_compute; reflexivity|apply fltb_lt; vm_compute; reflexivity|apply fleb_le; vm_compute; reflexivity]
  | |- par_mf_restrictor_run _ _ _ _ _ _ _ _ _ _ _ _ _ _ => exact HR
  | |- forall rk : mf_rank _, _ => exact (yrepresent prec) | |- cells_per_dof _ _ _ => exact xper_dof
  | |- forall i : nat, _ => exact xbound | |- forall v : list _, _ -> fle _ _ => exact xA_low | |- forall v : vec _, _ -> fle _ _ => exact xA_low | |- forall x : list _, _ => reflexivity
  | |- ci_eq _ _ => apply lower_ci; [apply no_upperb_ok; reflexivity|vm_compute; reflexivity] | |- flt _ _ => apply fltb_lt; vm_compute; reflexivity
  | |- fle _ _ => apply fleb_le; vm_compute; reflexivity | |- _ < _ => vm_compute; lia
  | |- xcg _ _ _ _ = _ => reflexivity | |- Ok _ = Ok _ => reflexivity | |- _ = _ => vm_compute; reflexivity end.
Local Notation yhelpers R := (mf_helpers lparse xcg (fun _ _ _ => 1%N) 4 (mulvec xA) xdinv (fun _ => false) (fun _ => Ok (R, R)) (fun _ _ r => r)).
Example C105_rate_example : exists R h s l, yrun yread (yparams "false") R /\
  construct (yhelpers R) (q 1 (10 ^ 14)) (mkTenv true true) true (Ok tt) (Some (yparams "false")) None = (Ok h, s, l) /\
  forall x xs, length x = 4 -> length xs = 4 -> exists y l', hierarchy_vmult (mkTenv true true) h x (mulvec xA xs) [] = (Ok y, l') /\
    fle (energy (mulvec xA) (vsub xs y)) ((1 - lq 1 127 * lq 24 1) * (1 - lq 1 127 * lq 24 1) * energy (mulvec xA) (vsub xs x))%K.
Proof.
  destruct (yexists "false") as (R & HR).
  destruct (@C105_rate QcOF (fun s => parse_int s) lparse ex_no_lobpcg qsqrt (dstev_of xtable) (lq 1 1000000) (fun _ _ => lq 0 1) (@insertion_sort nat) true false (lmesh 3) xF xfixed (yranks yread)
    (ycover yread) yranks_ok xfem_ok xcells xA_spd xcg (fun _ _ _ => 1%N) (fun _ => false) (fun _ => Ok (R, R)) (fun _ _ r => r) (mulvec xA) xd xdinv (q 1 (10 ^ 14)) (mkTenv true true) (yparams "false") R R
    (lq 1 2) (lq 2 1) (lq 30 1) (lq 1 127) (lq 25 1) (lq 1 1000000) (lq 1 1) (lq 24 1) 2) as (h & (s & l & E) & V); [c105 "false"%string HR ..|].
  exists R, h, s, l. split; [exact HR|]. split; [exact E|]. intros x xs Hx Hs. destruct (V (mkTenv true true) x xs [] eq_refl Hx Hs) as (y & l' & E2 & _ & _ & EN). exists y, l'. split; [exact E2|exact EN].
Qed.
Example C105_condition_example : exists R h s l, yrun yread (yparams "true") R /\
  construct (yhelpers R) (q 1 (10 ^ 14)) (mkTenv true true) true (Ok tt) (Some (yparams "true")) None = (Ok h, s, l) /\
  forall x e, length x = 4 -> length e = 4 -> exists y l', hierarchy_vmult (mkTenv true true) h x (mulvec xA e) [] = (Ok y, l') /\
    fle (lq 1 127 * lq 24 1 * energy (mulvec xA) e)%K (dot y (mulvec xA e)) /\ fle (dot y (mulvec xA e)) ((1 + 1 - lq 1 127 * lq 24 1) * energy (mulvec xA) e)%K.
Proof.
  destruct (yexists "true") as (R & HR).
  destruct (@C105_condition QcOF (fun s => parse_int s) lparse ex_no_lobpcg qsqrt (dstev_of xtable) (lq 1 1000000) (fun _ _ => lq 0 1) (@insertion_sort nat) true false (lmesh 3) xF xfixed (yranks yread)
    (ycover yread) yranks_ok xfem_ok xcells xA_spd xcg (fun _ _ _ => 1%N) (fun _ => false) (fun _ => Ok (R, R)) (fun _ _ r => r) (mulvec xA) xd xdinv (q 1 (10 ^ 14)) (mkTenv true true) (yparams "true") R R
    (lq 1 2) (lq 2 1) (lq 30 1) (lq 1 127) (lq 25 1) (lq 1 1000000) (lq 1 1) (lq 24 1) 2) as (h & (s & l & E) & V); [c105 "true"%string HR ..|].
  exists R, h, s, l. split; [exact HR|]. split; [exact E|]. intros x e Hx He. destruct (V (mkTenv true true) x e [] eq_refl Hx He) as (y & l' & E2 & _ & H1 & H2). exists y, l'. split; [exact E2|]. split; assumption.
Qed.
(** With a threshold of 1/1000 the bound is a little larger. *)
Example C105_dropped_example : exists R h s l, yrun yread (yparams "false") R /\
  construct (yhelpers R) (lq 1 1000) (mkTenv true true) true (Ok tt) (Some (yparams "false")) None = (Ok h, s, l) /\
  forall x xs, length x = 4 -> length xs = 4 -> exists y l', hierarchy_vmult (mkTenv true true) h x (mulvec xA xs) [] = (Ok y, l') /\
    fle (energy (mulvec xA) (vsub xs y)) ((1 - lq 1 127 * lq 24 1 + lq 1 100 / (1 - lq 1 100)) * (1 - lq 1 127 * lq 24 1 + lq 1 100 / (1 - lq 1 100)) * energy (mulvec xA) (vsub xs x))%K.
Proof.
  destruct (yexists "false") as (R & HR).
  destruct (@C105_rate_dropped QcOF (fun s => parse_int s) lparse ex_no_lobpcg qsqrt (dstev_of xtable) (lq 1 1000000) (fun _ _ => lq 0 1) (@insertion_sort nat) true false (lmesh 3) xF xfixed (yranks yread)
    (ycover yread) yranks_ok xfem_ok xcells xA_spd xcg (fun _ _ _ => 1%N) (fun _ => false) (fun _ => Ok (R, R)) (fun _ _ r => r) (mulvec xA) xd xdinv (lq 1 1000) (mkTenv true true) (yparams "false") R R
    (lq 1 2) (lq 2 1) (lq 30 1) (lq 1 127) (lq 25 1) (lq 1 1000000) (lq 1 1) (lq 24 1) 2) with (nu := lq 3 10) (delta := lq 1 100) as (h & (s & l & E) & V); [c105 "false"%string HR ..|].
  exists R, h, s, l. split; [exact HR|]. split; [exact E|]. intros x xs Hx Hs. destruct (V (mkTenv true true) x xs [] eq_refl Hx Hs) as (y & l' & E2 & _ & _ & EN). exists y, l'. split; [exact E2|exact EN].
Qed.

(** C105 needs the diagonal of the operator at the dofs the ranks share: if every rank reads what its own cells contribute, the run ends as well, even in debug mode, with the
    same vectors on all agglomerates, but the coarse space is no longer what it was. *)
Definition yw : vec QcOF := [lq 0 1; lq (-4) 3; lq 1 1; lq (-3) 4].
Lemma yshare_ok : ycheck yshare (fun R => veqb (mulvec R yw) (vzero 2)) = Ok true.
Proof. vm_compute. reflexivity. Qed.
Theorem C105_own_share_refuted : exists R,
  (forall rk, In rk (yranks yshare) -> rank_evaluator_ok xF xfixed rk /\ rank_gap xF xfixed (yagglomerates rk) (yproblem rk) rk (yparams "true") (lq 51 2) /\
    forall g v, mr_gd rk g = Some v -> xfixed g = false -> v = lsum (map (fun c => f_cm xF (mr_number rk c) g g) (owned_cells (mr_mesh rk)))) /\
  yrun yshare (yparams "true") R /\ ~ approximates_up_to xA R (lq 25 1) (lq 1 1000000 * fnat 2)%K /\
  forall R', yrun yread (yparams "true") R' -> approximates_up_to xA R' (lq 25 1) (lq 1 1000000 * fnat 2)%K.
Proof.
  assert (X : exists R, yrun yshare (yparams "true") R).
  { destruct (ychecked _ _ yshare_ok) as (c1 & c2 & ms & E1 & E2 & AS & _). eexists. exists xeig. eexists. exists [data_of [c1]; data_of [c2]], ms.
    split; [reflexivity|]. split; [reflexivity|]. split; [|split; [exact AS|reflexivity]].
    constructor; [exists (yids 0), 1, 1, 1|constructor; [exists (yids 1), 1, 1, 1|constructor]]; (split; [vm_compute; reflexivity|]).
    - apply (@collect_exists QcOF (yproblem (yrank yshare 0) xeig (yids 0)) (keeps_guess xeig) 1 0 0 (fun _ => c1)). intros a sc Ha. replace a with 1 by lia. rewrite yscratch by lia. exact E1.
    - apply (@collect_exists QcOF (yproblem (yrank yshare 1) xeig (yids 1)) (keeps_guess xeig) 1 0 0 (fun _ => c2)). intros a sc Ha. replace a with 1 by lia. rewrite yscratch by lia. exact E2. }
  destruct X as (R & HR). exists R. split; [|split; [exact HR|split]].
  - intros rk I. split; [destruct I as [<-|[<-|[]]]; apply yevaluator|]. split; [exact (ygap yshare _ "true" rk yshare_ok I)|].
    destruct I as [<-|[<-|[]]]; cbn [yrank mr_gd mr_number mr_mesh]; intros g v E Fx; unfold yshare in E; destruct (_ && _)%bool; try discriminate E; rewrite Fx in E; injection E as <-; reflexivity.
  - destruct (ytested yshare _ yshare_ok _ _ HR) as (L1 & L2 & T). apply veqb_eq in T.
    apply (@direction_missed QcOF xA R yw [lq 0 1; lq 9 1; lq 12 1; lq 16 1]); [rewrite L2; reflexivity|reflexivity|rewrite L2; reflexivity|rewrite L1; exact T|apply fleb_le; vm_compute; reflexivity|apply fltb_lt; vm_compute; reflexivity].
  - intros R' HR'. eapply (@C105_coarse_space QcOF) with (F := xF) (fixed := xfixed) (m := lmesh 3) (ranks := yranks yread).
    + exact (ycover yread).
    + exact yranks_ok.
    + exact xfem_ok.
    + exact xcells.
    + exact xA_spd.
    + exact HR'.
    + apply fleb_le. vm_compute. reflexivity.
    + apply fleb_le. vm_compute. reflexivity.
    + exact xper_dof.
    + exact (yrepresent "true").
Qed.
Print Assumptions C105_own_share_refuted.
