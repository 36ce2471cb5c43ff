(** Property theorems about the host preconditioner on several MPI ranks, from the mesh to vmult: C90. *)
From Coq Require Import String List Arith ZArith Bool Lia Field Permutation QArith Qcanon.
From Verif Require Import Base OField Mat LinAlg M_Ptree S_Ptree P_Ptree M_Agglo S_Agglo M_WorkStream M_Restr S_Restr P_Restr P_Restr2
  S_FastAP P_FastAP2 M_Lanczos S_Lanczos M_Eig S_Eig M_Hier S_Hier P_Hier P_HierC P_HierE P_HierS M_Smoother P_Smoother M_Host S_Host P_Host P_HostN M_HostEnd S_HostEnd P_HostEnd
  P_Amgx3 S_Rate P_Rate P_Approx M_Par S_Par P_Par P_Par2 P_Par3 P_Par4 M_ParEnd S_ParEnd P_ParEnd C_Host C_Restr C_Rate C_Par M_FastAP C_FastAP C_HostEnd E_Lanczos C_Lanczos C_Eig E_Solve E_CudaHier C_CudaHier P_CudaHier3 P_Rate2 P_Perm P_Lanczos9 P_AmgeDev2 C_Host C_HostEnd.
Import ListNotations.
Set Implicit Arguments.
Open Scope list_scope.
Open Scope nat_scope.

Section CParEnd.
  Variable K : ofield.
  Add Field KfieldCParEnd : (f_field K).
  Local Notation vec := (vec K).
  (** External code, as in M_HostEnd.v. *)
  Variable parse_unsigned : string -> option Z.
  Variable parse_double : string -> option K.
  Variable lobpcg : (vec -> vec) -> Z -> K -> list vec -> bool * eigensolution K.
  Variable fsqrt : K -> option K.
  Variable dstev : list K -> list K -> outcome (list K * list K).
  Variable tol2 : K.
  Variable rand : nat -> nat -> K.
  Variable std_sort : (nat -> nat -> bool) -> list nat -> list nat.
  Variable lapack : mat K -> K -> K -> outcome (list K * list vec).
  Variable arpack : mat K -> K -> vec -> nat -> outcome (list K * list vec).
  Variables (debug dim3 : bool).
  (** The mesh of all ranks; only its number of cells matters. *)
  Variable m : mesh.
  Variable F : fem K.
  Variable ranks : list (rank_env K).
  Local Notation A := (assembled F m).
  Local Notation agglomerates := (rank_agglomerates parse_unsigned debug dim3).
  Local Notation problem := (rank_problem parse_double lobpcg fsqrt dstev tol2 rand std_sort lapack arpack debug).
  Local Notation run := (par_restrictor_run parse_unsigned parse_double lobpcg fsqrt dstev tol2 rand std_sort lapack arpack debug dim3 (f_ndofs F) ranks).

  Hypothesis Hcover : ranks_cover (n_cells m) ranks.
  Hypothesis Hranks : forall rk, In rk ranks -> rank_ok debug F (fun g => ent A g g) rk.
  Hypothesis Hfem : fem_ok F.
  Hypothesis Hsym : forall c g h, f_cm F c g h = f_cm F c h g.
  Hypothesis Hpsd : forall c u, fle 0%K (cell_energy F c u).
  Hypothesis Hlapack : lapack_ok lapack.
  Hypothesis Hcomplete : lapack_complete lapack.
  Hypothesis Hspd : spd (f_ndofs F) (mulvec A).

  (** C90: however the mesh is distributed, the coarse space that the ranks build together approximates every vector as well as the discarded eigenvalues
      promise: lambda |v - R^T w|^2 <= v^T A v for a suitable w. *)
  Theorem C90_coarse_space_approximates : forall p R lambda,
    (forall eig, pt_find p ["eigensolver"%string] = Some eig -> eigensolver_matrix debug eig = Ok ELapack) ->
    run p R -> fle 0%K lambda ->
    (forall rk, In rk ranks -> discarded_above (agglomerates rk) (problem rk) (rk_evaluate rk) (rk_mesh rk) p lambda) -> approximates A R lambda.
  Proof.
    intros p R lambda HE HR H0 HD.
    apply (@up_to_0 K _ _ _ (0 * fnat (n_cells m))%K); [ring|].
    apply (@par_coarse K parse_unsigned parse_double lobpcg fsqrt dstev tol2 rand std_sort lapack arpack debug dim3 F Hfem Hpsd A m ranks p R lambda 0%K (n_cells m) eq_refl Hcover); auto;
      [|apply fle_refl|apply some_per_dof|].
    - intros rk I. apply ready. apply Hranks; auto.
    - intros rk I. eapply discarded_represents; eauto.
  Qed.

  (** C90: if all local problems of all ranks can be solved there is such a run. *)
  Theorem C90_runs_exist : forall p eig agg lambda, pt_find p ["eigensolver"%string] = Some eig -> pt_find p ["agglomeration"%string] = Some agg ->
    eigensolver_matrix debug eig = Ok ELapack -> fle 0%K lambda ->
    (forall rk, In rk ranks -> discarded_above (agglomerates rk) (problem rk) (rk_evaluate rk) (rk_mesh rk) p lambda) ->
    (forall rk, In rk ranks -> exists ui n, agglomerates rk agg (repeat 0 (n_cells (rk_mesh rk))) = Ok (ui, n) /\
       forall a, 1 <= a <= n -> exists c, problem rk eig ui a [] = Ok c) ->
    exists R, run p R.
  Proof.
    intros p eig agg lambda P1 P2 EL H0 HD HP.
    assert (HE : forall eig', pt_find p ["eigensolver"%string] = Some eig' -> eigensolver_matrix debug eig' = Ok ELapack) by (intros eig' E; rewrite E in P1; injection P1 as ->; exact EL).
    apply (@par_exists K parse_unsigned parse_double lobpcg fsqrt dstev tol2 rand std_sort lapack arpack debug dim3 F A ranks p eig agg lambda 0%K); auto.
    - intros rk I. apply ready. apply Hranks; auto.
    - intros rk I. eapply discarded_represents; eauto.
    - intros rk I. destruct (HP rk I) as (ui & n & E1 & E2). exists ui, n. split; [exact E1|]. intros a Ha. destruct (E2 a Ha) as (c & Ec). exists c. intros sc.
      unfold rank_problem in *. rewrite (@problem_scratch K _ _ _ _ _ _ _ _ _ _ _ _ _ _ _ _ _ _ EL). exact Ec.
  Qed.

  Section Rate.
    Variables (accepts_double : string -> bool) (owned_rows : mat K -> list (list nat)) (mk : ptree -> outcome (mat K * mat K)).
    Variables (ilu : mat K -> vec -> vec) (ml : ml_list -> mat K -> vec -> vec) (eps : K) (te0 : tenv).
    Variables (p : ptree) (R AP : mat K) (theta delta lambda : K).
    Hypothesis Hown : forall M : mat K, nr M = nc M -> distribution (nc M) (owned_rows M).
    Hypothesis Hdef : default_two_level p.
    Hypothesis Hfast : pt_get parse_bool ["fast_ap"%string] false p = false.
    Hypothesis HE : forall eig, pt_find p ["eigensolver"%string] = Some eig -> eigensolver_matrix debug eig = Ok ELapack.
    Hypothesis Hmk : mk p = Ok (R, AP).
    Hypothesis Hrun : run p R.
    Hypothesis Hrank : full_row_rank R.
    Local Notation built h := (exists s l, construct (par_helpers accepts_double owned_rows A mk ilu ml) eps te0 debug (Ok tt) (Some p) None = (Ok h, s, l)).

    (** C90: the preconditioner is symmetric and positive and reduces every error, under the condition of C89 on the fine matrix. *)
    Theorem C90_preconditioner : c_prec p = true ->
      (length (owned_rows A) <= 2 \/ two_colours (owned_rows A) A \/ anchored_dominant A) ->
      exists h, built h /\
        exists Mv : vec -> vec, linear (f_ndofs F) (f_ndofs F) Mv /\ self_adjoint (f_ndofs F) Mv /\
          (forall b, length b = f_ndofs F -> b <> vzero (f_ndofs F) -> flt 0%K (dot (Mv b) b)) /\
          (forall e, length e = f_ndofs F -> e <> vzero (f_ndofs F) -> flt (energy (mulvec A) (vsub e (Mv (mulvec A e)))) (energy (mulvec A) e)) /\
          forall te x b l, open_sections l = [] -> length x = f_ndofs F -> length b = f_ndofs F ->
            exists l', hierarchy_vmult te h x b l = (Ok (Mv b), l') /\ open_sections l' = [].
    Proof.
      intros HP HC. destruct Hdef as (D1 & D2 & D3 & D4). destruct (run_shape _ Hrun) as (PE & PA & DR).
      destruct (@C89_hierarchy K accepts_double owned_rows A mk ilu ml eps te0 debug p Hown eq_refl Hspd HP D1 D3) as (h & s & l & CC & V).
      - right. split; [exact D2|]. split; [exact D4|]. split; [exact HC|]. split; [exact PE|]. split; [exact PA|].
        exists R, AP. split; [exact Hmk|]. split; [exact DR|]. split; [exact Hrank|]. rewrite Hfast. discriminate.
      - exists h. split; [exists s, l; exact CC|exact V].
    Qed.

    Hypothesis Hlam : flt 0%K lambda.
    Hypothesis Hdisc : forall rk, In rk ranks -> discarded_above (agglomerates rk) (problem rk) (rk_evaluate rk) (rk_mesh rk) p lambda.
    Hypothesis Htheta : fle 0%K theta.
    Hypothesis Hdelta : fle 0%K delta.
    Hypothesis Hdelta1 : fle delta 1%K.
    Hypothesis Hbound : forall own, In own (owned_rows A) -> fle (theta * triangle_bound (local_block A own))%K 1%K.
    Hypothesis Hweak : weakly_coupled (owned_rows A) A delta.
    Local Notation rho := (1 - delta * theta * lambda)%K.

    (** C90: the rate.  One call of vmult reduces the error, in the energy norm, at least by the factor 1 - delta theta lambda; delta measures how weakly the
        processes are coupled. *)
    Theorem C90_rate : exists h, built h /\
      forall te x xs l, open_sections l = [] -> length x = f_ndofs F -> length xs = f_ndofs F ->
        exists y l', hierarchy_vmult te h x (mulvec A xs) l = (Ok y, l') /\ open_sections l' = [] /\ length y = f_ndofs F /\
          fle (energy (mulvec A) (vsub xs y)) (rho * rho * energy (mulvec A) (vsub xs (if c_prec p then vzero (f_ndofs F) else x)))%K.
    Proof.
      destruct (run_shape _ Hrun) as (PE & PA & DR).
      apply (@par_rate K debug A eq_refl Hspd accepts_double owned_rows mk ilu ml eps te0 p R AP theta delta lambda); auto.
      apply (@C90_coarse_space_approximates p R lambda); auto. apply flt_le. exact Hlam.
    Qed.
  End Rate.
End CParEnd.
Print Assumptions C90_coarse_space_approximates.
Print Assumptions C90_runs_exist.
Print Assumptions C90_preconditioner.
Print Assumptions C90_rate.

(** * Example: the mesh of C82, two elements in a row, one on each of two processes. *)
Unset Implicit Arguments.
Definition pq (a : Z) (b : positive) : QcOF := Q2Qc (Qmake a b).
(** Each process sees both elements, calls its own 0 and the other one 1. *)
Definition pnumber (k c : nat) : nat := if k =? 0 then c else 1 - c.
Definition pmesh : mesh := Build_mesh 2 (fun c => c =? 0) (fun _ => FBoundary) (fun _ => FBoundary) (fun _ => FBoundary).
Definition prank (k : nat) : rank_env QcOF :=
  mkRank pmesh (pnumber k) (fun _ => [0]) (fun cells => assemble_patch hF (map (pnumber k) cells)) (fun _ => []) (fun _ => ex_draw)
    (fun g => if (k <=? g) && (g <=? k + 1) then Some (ent hA2 g g) else None).
Definition pranks : list (rank_env QcOF) := [prank 0; prank 1].
Definition pparams (prec : string) : ptree := Node "" [("is preconditioner"%string, leaf prec); ("eigensolver"%string, heig);
  ("agglomeration"%string, Node "" [("partitioner"%string, leaf "metis"); ("n_agglomerates"%string, leaf "1")])].
Definition pproblem := rank_problem ex_parse_double ex_no_lobpcg qsqrt (fun _ _ => Fuel) (q 0 1) (fun _ _ => q 0 1) (@insertion_sort nat) hlapack ex_no_arpack true.
Definition pagglomerates := rank_agglomerates (K := QcOF) (fun s => parse_int s) true false.
Definition prun := par_restrictor_run (fun s => parse_int s) ex_parse_double ex_no_lobpcg qsqrt (fun _ _ => Fuel) (q 0 1) (fun _ _ => q 0 1) (@insertion_sort nat) hlapack ex_no_arpack
  true false 3 pranks.
Lemma pcover : ranks_cover 2 pranks.
Proof. apply Permutation_refl. Qed.
Lemma powned : forall k, owned_cells (rk_mesh (prank k)) = [0].
Proof. reflexivity. Qed.
Lemma pcells : forall cells, NoDup cells -> incl cells [0] -> cells = [] \/ cells = [0].
Proof.
  intros cells N I. destruct cells as [|c [|d l]]; [auto| |].
  - right. destruct (I c (or_introl eq_refl)) as [<-|[]]. reflexivity.
  - exfalso. inversion N as [|x y N1 N2]. destruct (I c (or_introl eq_refl)) as [<-|[]]. destruct (I d (or_intror (or_introl eq_refl))) as [<-|[]]. apply N1. left. reflexivity.
Qed.
Lemma prank_ok : forall k, k <= 1 -> rank_ok true hF (fun g => ent hA2 g g) (prank k).
Proof.
  intros k Hk. split; [intros c _; repeat split|]. split; [intros kk; rewrite powned; cbn; lia|]. split.
  - intros cells N I. rewrite powned in I. apply (@evaluate_ok_example QcOF hF). destruct (pcells cells N I) as [-> | ->]; cbn [map]; repeat constructor; intros [].
  - split; [reflexivity|]. intros c g Ic Ig. rewrite powned in Ic. destruct Ic as [<-|[]]. cbn [prank rk_number rk_gd] in *.
    assert (E : k = 0 \/ k = 1) by lia. assert (B : ((k <=? g) && (g <=? k + 1))%bool = true); [|rewrite B; reflexivity].
    destruct E as [-> | ->]; cbn in Ig; destruct Ig as [<-|[<-|[]]]; reflexivity.
Qed.
Lemma pranks_ok : forall rk, In rk pranks -> rank_ok true hF (fun g => ent hA2 g g) rk.
Proof. intros rk [<-|[<-|[]]]; apply prank_ok; lia. Qed.
Lemma pagg : forall prec k agg ui n, pt_find (pparams prec) ["agglomeration"%string] = Some agg -> pagglomerates (prank k) agg [0; 0] = Ok (ui, n) -> ui = [1; 0] /\ n = 1.
Proof. intros prec k agg ui n P H. injection P as <-. vm_compute in H. injection H as <- <-. auto. Qed.
(** Both processes keep (3/5, 4/5); the rows of R are independent. *)
Definition pcheck : outcome bool :=
  let! c1 := pproblem (prank 0) heig [1; 0] 1 [] in let! c2 := pproblem (prank 1) heig [1; 0] 1 [] in
  let! ms := assemble true true (fun k => match nth_error pranks k with Some rk => rk_gd rk | None => fun _ => None end) [data_of [c1]; data_of [c2]] in
  let R := distributed_matrix (n_total_rows (rows_per_proc [data_of [c1]; data_of [c2]])) 3 ms in
  Ok ((n_total_rows (rows_per_proc [data_of [c1]; data_of [c2]]) =? 2) && posdef 2 (mmul R (mtrans R)) &&
    match ag_evecs c1, ag_evecs c2 with [e1], [e2] => veqb e1 [q 3 5; q 4 5] && veqb e2 [q 3 5; q 4 5] | _, _ => false end)%bool.
Lemma pcheck_ok : pcheck = Ok true.
Proof. vm_compute. reflexivity. Qed.
Lemma pkept : forall k c, k <= 1 -> pproblem (prank k) heig [1; 0] 1 [] = Ok c -> ag_evecs c = [[q 3 5; q 4 5]].
Proof.
  intros k c Hk E. assert (H := pcheck_ok). unfold pcheck in H. apply bind_Ok in H. destruct H as (c1 & E1 & H). apply bind_Ok in H. destruct H as (c2 & E2 & H).
  apply bind_Ok in H. destruct H as (ms & _ & H). cbv zeta in H. apply Ok_inj in H. apply andb_true_iff in H. destruct H as (_ & H).
  destruct (ag_evecs c1) as [|e1 [|? ?]] eqn:V1; try discriminate H. destruct (ag_evecs c2) as [|e2 [|? ?]] eqn:V2; try discriminate H.
  apply andb_true_iff in H. destruct H as (H1 & H2). apply veqb_eq in H1. apply veqb_eq in H2.
  assert (Q : k = 0 \/ k = 1) by lia. destruct Q as [-> | ->].
  - rewrite E in E1. apply Ok_inj in E1. rewrite E1, V1, H1. reflexivity.
  - rewrite E in E2. apply Ok_inj in E2. rewrite E2, V2, H2. reflexivity.
Qed.
Definition pM (k : nat) : mat QcOF := snd (rk_evaluate (prank k) (agg_cells pmesh [1; 0] 1)).
Lemma pM_sym : forall k, symmetric_matrix (pM k).
Proof. intros k. split; [reflexivity|]. intros i j _ _. cbn [pM prank rk_evaluate assemble_patch snd ent]. apply lsum_map_ext. intros c _. apply hsym. Qed.
Lemma pM_nr : forall k, k <= 1 -> nr (pM k) = 2.
Proof. intros k Hk. assert (Q : k = 0 \/ k = 1) by lia. destruct Q as [-> | ->]; vm_compute; reflexivity. Qed.
Lemma pdisc : forall prec rk, In rk pranks -> discarded_above (pagglomerates rk) (pproblem rk) (rk_evaluate rk) (rk_mesh rk) (pparams prec) (q 26 1).
Proof.
  intros prec rk I. assert (J : exists k, k <= 1 /\ rk = prank k) by (destruct I as [<-|[<-|[]]]; [exists 0|exists 1]; auto). destruct J as (k & Hk & ->).
  intros eig agg ui n a c Q1 Q2 BA Ha E. destruct (@pagg prec k agg ui n Q2 BA) as (-> & ->). injection Q1 as <-.
  assert (a = 1) by lia. subst a. assert (Kp := pkept k c Hk E). cbv zeta. change (snd (rk_evaluate (prank k) (agg_cells (rk_mesh (prank k)) [1; 0] 1))) with (pM k).
  assert (Wm : mulvec (pM k) [q 4 5; q (-3) 5] = vscale (q 26 1) [q 4 5; q (-3) 5]).
  { apply veqb_eq. assert (Q : k = 0 \/ k = 1) by lia. destruct Q as [-> | ->]; vm_compute; reflexivity. }
  split; [apply fleb_le; assert (Q : k = 0 \/ k = 1) by lia; destruct Q as [-> | ->]; vm_compute; reflexivity|].
  intros mu v Lv Nv Ep Ov. rewrite pM_nr in Lv, Nv by auto.
  assert (O1 := Ov [q 3 5; q 4 5]). rewrite Kp in O1. specialize (O1 (or_introl eq_refl)).
  assert (D : dot v [q 4 5; q (-3) 5] <> f0).
  { intros Z. apply Nv. apply (@orthonormal_full QcOF 2 [[q 3 5; q 4 5]; [q 4 5; q (-3) 5]]); auto.
    - split; [repeat constructor|]. intros i j Hi Hj. assert (Qi : i = 0 \/ i = 1) by (cbn in Hi; lia). assert (Qj : j = 0 \/ j = 1) by (cbn in Hj; lia).
      destruct Qi as [-> | ->], Qj as [-> | ->]; apply Qc_is_canon; vm_compute; reflexivity.
    - intros e [<-|[<-|[]]]; [rewrite dot_comm; exact O1|exact Z]. }
  assert (Sm := @sym_dot QcOF (pM k) v [q 4 5; q (-3) 5] (pM_sym k) ltac:(rewrite pM_nr; auto) ltac:(rewrite pM_nr; auto)).
  unfold eigenpair in Ep. rewrite Ep, Wm, dot_scale_l, dot_scale_r in Sm. rewrite (@cancel_r QcOF _ _ _ Sm D). apply fle_refl.
Qed.
Lemma pexists : forall prec, exists R, prun (pparams prec) R.
Proof.
  intros prec. unfold prun.
  eapply (@C90_runs_exist QcOF) with (F := hF) (m := lmesh 2) (lambda := q 26 1).
  - exact pranks_ok.
  - exact hfem_ok.
  - exact hsym.
  - exact hcells.
  - apply lapack_of_ok.
  - exact hlapack_complete.
  - reflexivity.
  - reflexivity.
  - reflexivity.
  - apply fleb_le. vm_compute. reflexivity.
  - exact (pdisc prec).
  - intros rk I. exists [1; 0], 1. assert (H := pcheck_ok). unfold pcheck in H. apply bind_Ok in H. destruct H as (c1 & E1 & H). apply bind_Ok in H. destruct H as (c2 & E2 & _).
    destruct I as [<-|[<-|[]]]; (split; [vm_compute; reflexivity|]); intros a Ha; replace a with 1 by lia; [exists c1; exact E1|exists c2; exact E2].
Qed.
Lemma pfull : forall prec R, prun (pparams prec) R -> full_row_rank R.
Proof.
  intros prec R (eig & agg & ds & ms & Q1 & Q2 & RR & AS & ->). injection Q1 as <-.
  inversion RR as [|r0 d0 rs0 ds0 R0 R0' X0 Y0]. subst. inversion R0' as [|r1 d1 rs1 ds1 R1 R1' X1 Y1]. subst. inversion R1'. subst. clear R0' R1' RR.
  destruct R0 as (ui0 & n0 & ns0 & nb0 & BA0 & C0). destruct R1 as (ui1 & n1 & ns1 & nb1 & BA1 & C1).
  destruct (@pagg prec 0 agg ui0 n0 Q2 BA0) as (-> & ->). destruct (@pagg prec 1 agg ui1 n1 Q2 BA1) as (-> & ->).
  unfold rank_problem in C0, C1.
  eapply (@collected QcOF) in C0; [|reflexivity]. destruct C0 as (res0 & HP0 & ->). eapply (@collected QcOF) in C1; [|reflexivity]. destruct C1 as (res1 & HP1 & ->).
  assert (H := pcheck_ok). unfold pcheck in H. cbn [seq map] in *.
  assert (G0 : pproblem (prank 0) heig [1; 0] 1 [] = Ok (res0 1)) by (apply HP0; lia).
  assert (G1 : pproblem (prank 1) heig [1; 0] 1 [] = Ok (res1 1)) by (apply HP1; lia).
  rewrite G0, G1 in H. cbn [bind] in H. unfold pranks in AS, H. rewrite AS in H. cbn [bind] in H. cbv zeta in H. apply Ok_inj in H.
  apply andb_true_iff in H. destruct H as (H & _). apply andb_true_iff in H. destruct H as (H1 & H2). apply Nat.eqb_eq in H1. rewrite H1 in *.
  apply rank_test. apply posdef_spd; [|exact H2]. split; [reflexivity|].
  intros i j _ _. cbn [ent mmul mtrans]. apply sumn_ext. intros k _. apply Qcmult_comm.
Qed.
Example C90_example : exists R, prun (pparams "true") R /\ approximates hA2 R (q 26 1).
Proof.
  destruct (pexists "true") as (R & HR). exists R. split; [exact HR|].
  eapply (@C90_coarse_space_approximates QcOF) with (F := hF) (m := lmesh 2) (p := pparams "true").
  - exact pcover.
  - exact pranks_ok.
  - exact hfem_ok.
  - exact hsym.
  - exact hcells.
  - apply lapack_of_ok.
  - exact hlapack_complete.
  - exact hA2_spd.
  - intros eig E. injection E as <-. reflexivity.
  - exact HR.
  - apply fleb_le. vm_compute. reflexivity.
  - exact (pdisc "true").
Qed.
(** The first unknown on the first process, two on the second. *)
Definition prows (M : mat QcOF) : list (list nat) := if nc M =? 3 then [[0]; [1; 2]] else [seq 0 (nc M)].
Lemma prows_ok : forall M : mat QcOF, nr M = nc M -> distribution (nc M) (prows M).
Proof.
  intros M D. unfold prows. destruct (nc M =? 3) eqn:E; [apply Nat.eqb_eq in E; rewrite E; apply Permutation_refl|].
  unfold distribution. cbn [concat]. rewrite app_nil_r. apply Permutation_refl.
Qed.
Lemma pdefault : forall prec, default_two_level (pparams prec).
Proof.
  intros prec. split; [vm_compute; lia|]. split; [reflexivity|]. split; apply lower_ci; [apply no_upperb_ok; reflexivity|reflexivity|apply no_upperb_ok; reflexivity|reflexivity].
Qed.
Lemma hA2_weak : weakly_coupled (prows hA2) hA2 (pq 1 10).
Proof.
  apply weak_test; [reflexivity|]. match goal with |- spd _ (mulvec ?M) => apply (@entries_spd QcOF M) end.
  apply posdef_spd; [apply small_symmetric; [reflexivity|vm_compute; reflexivity]|vm_compute; reflexivity].
Qed.
(** delta = 1/10 and theta = 1/43: a solver with the rate 1 - 26/430. *)
Example C90_rate_example : exists R h s l, prun (pparams "false") R /\
  construct (par_helpers (fun _ => false) prows hA2 (fun _ => Ok (R, R)) (fun _ r => r) (fun _ _ r => r)) 0%K (mkTenv true true) true (Ok tt) (Some (pparams "false")) None = (Ok h, s, l) /\
  forall x xs, length x = 3 -> length xs = 3 -> exists y l', hierarchy_vmult (mkTenv true true) h x (mulvec hA2 xs) [] = (Ok y, l') /\
    fle (energy (mulvec hA2) (vsub xs y)) ((1 - pq 1 10 * pq 1 43 * q 26 1) * (1 - pq 1 10 * pq 1 43 * q 26 1) * energy (mulvec hA2) (vsub xs x))%K.
Proof.
  destruct (pexists "false") as (R & HR). assert (FR := pfull _ _ HR).
  destruct (@C90_rate QcOF (fun s => parse_int s) ex_parse_double ex_no_lobpcg qsqrt (fun _ _ => Fuel) (q 0 1) (fun _ _ => q 0 1) (@insertion_sort nat) hlapack ex_no_arpack
    true false (lmesh 2) hF pranks pcover pranks_ok hfem_ok hsym hcells (lapack_of_ok _ _) hlapack_complete hA2_spd (fun _ => false) prows (fun _ => Ok (R, R)) (fun _ r => r) (fun _ _ r => r) 0%K
    (mkTenv true true) (pparams "false") R R (pq 1 43) (pq 1 10) (q 26 1) prows_ok (pdefault "false")) as (h & (s & l & C1) & V); try exact HR; try exact FR; try reflexivity.
  - intros eig E. injection E as <-. reflexivity.
  - apply fltb_lt. vm_compute. reflexivity.
  - exact (pdisc "false").
  - apply fleb_le. vm_compute. reflexivity.
  - apply fleb_le. vm_compute. reflexivity.
  - apply fleb_le. vm_compute. reflexivity.
  - intros own I. change (prows (assembled hF (lmesh 2))) with [[0]; [1; 2]] in I. destruct I as [<-|[<-|[]]]; apply fleb_le; vm_compute; reflexivity.
  - exact hA2_weak.
  - exists R, h, s, l. split; [exact HR|]. split; [exact C1|]. intros x xs Hx Hxs.
    destruct (V (mkTenv true true) x xs [] eq_refl Hx Hxs) as (y & l' & E & _ & _ & EN). exists y, l'. split; [exact E|exact EN].
Qed.
Example C90_preconditioner_example : exists R h s l, prun (pparams "true") R /\
  construct (par_helpers (fun _ => false) prows hA2 (fun _ => Ok (R, R)) (fun _ r => r) (fun _ _ r => r)) 0%K (mkTenv true true) true (Ok tt) (Some (pparams "true")) None = (Ok h, s, l) /\
  exists Mv, self_adjoint 3 Mv /\
    (forall e, length e = 3 -> e <> vzero 3 -> flt (energy (mulvec hA2) (vsub e (Mv (mulvec hA2 e)))) (energy (mulvec hA2) e)) /\
    forall x b, length x = 3 -> length b = 3 -> exists l', hierarchy_vmult (mkTenv true true) h x b [] = (Ok (Mv b), l').
Proof.
  destruct (pexists "true") as (R & HR). assert (FR := pfull _ _ HR).
  destruct (@C90_preconditioner QcOF (fun s => parse_int s) ex_parse_double ex_no_lobpcg qsqrt (fun _ _ => Fuel) (q 0 1) (fun _ _ => q 0 1) (@insertion_sort nat) hlapack ex_no_arpack
    true false (lmesh 2) hF pranks hA2_spd (fun _ => false) prows (fun _ => Ok (R, R)) (fun _ r => r) (fun _ _ r => r) 0%K
    (mkTenv true true) (pparams "true") R R prows_ok (pdefault "true")) as (h & (s & l & C1) & Mv & M1 & M2 & M3 & M4 & M5); try exact HR; try exact FR; try reflexivity.
  - left. vm_compute. lia.
  - exists R, h, s, l. split; [exact HR|]. split; [exact C1|]. exists Mv. split; [exact M2|]. split; [exact M4|]. intros x b Hx Hb.
    destruct (M5 (mkTenv true true) x b [] eq_refl Hx Hb) as (l' & E & _). exists l'. exact E.
Qed.
