(** Property theorems about local eigenproblems that are not solved exactly: C91. *)
From Coq Require Import String List Arith ZArith Bool Lia Field Permutation QArith Qcanon.
From Verif Require Import Base OField Mat LinAlg M_Ptree S_Ptree P_Ptree M_Agglo S_Agglo M_WorkStream M_Restr S_Restr P_Restr P_Restr2
  S_FastAP P_FastAP P_FastAP2 M_Perm S_Perm M_Lanczos S_Lanczos M_Eig S_Eig P_Eig M_Hier S_Hier P_Hier P_HierC P_HierE P_HierS M_Smoother P_Smoother M_Host S_Host P_Host P_HostN M_HostEnd S_HostEnd P_HostEnd
  P_Amgx3 S_Rate P_Rate P_Approx M_Par S_Par P_Par P_Par2 P_Par3 P_Par4 M_ParEnd S_ParEnd P_ParEnd P_Local C_Host C_Restr C_Rate C_Par M_FastAP C_FastAP C_HostEnd E_Lanczos C_Lanczos C_Eig E_Solve E_CudaHier C_CudaHier P_CudaHier3 P_Rate2 P_Perm P_Lanczos9 P_AmgeDev2 C_ParEnd.
Import ListNotations.
Set Implicit Arguments.
Open Scope list_scope.
Open Scope nat_scope.

Section CLocal.
  Variable K : ofield.
  Add Field KfieldCLocal : (f_field K).
  Local Open Scope K_scope.
  Local Notation vec := (vec K).

  (** C91: orthonormal vectors that are eigenvectors only up to their residuals represent every vector on the agglomerate almost as well as exact ones: part
      of the gap pays for the residuals, and a multiple of the square of the vector has to be admitted. *)
  Theorem C91_inexact : forall (M : mat K) es mus lambda lambda' eps, symmetric_matrix M -> positive_semidefinite M -> orthonormal (nr M) es ->
    gap M es lambda -> lambda' <= lambda -> 0 <= eps ->
    sumn (length es) (fun i => dot (residual M (nth i mus 0) (nth i es [])) (residual M (nth i mus 0) (nth i es []))) <= (lambda - lambda') * eps ->
    approximates_up_to M (rows_matrix (nr M) es) lambda' eps.
  Proof. exact (@inexact_represents K). Qed.

  (** C91: Lanczos, with or without deflation, constrained dofs included.  [lambda] is at most the Rayleigh quotient of what is orthogonal to the vectors
      returned and at most the diagonal at the constrained dofs; the tolerance used bounds the loss. *)
  Theorem C91_lanczos : forall parse_double lobpcg fsqrt dstev tol2 rand std_sort lapack arpack debug draw params n_eig tolerance (M : mat K) C dof_map scratch r (c m : nat) lambda lambda' eps,
    sqrt_ok fsqrt -> dstev_ok dstev -> 0 <= tol2 -> std_sort_contract std_sort -> symmetric_matrix M -> positive_semidefinite M -> decoupled M C ->
    eigensolver_matrix debug params = Ok ELanczos ->
    (if pt_get parse_bool ["is_deflated"%string] false params
     then pt_require parse_int ["num_cycles"%string] params = Ok (Z.of_nat c) /\ pt_require parse_int ["num_eigenpairs_per_cycle"%string] params = Ok (Z.of_nat m)
     else c = 1%nat /\ m = n_eig) ->
    let maxit := Z.to_nat (pt_get parse_int ["max_iterations"%string] 200%Z params) in
    (1 <= maxit)%nat -> (nr M <= maxit)%nat -> (1 <= m)%nat -> (1 <= n_eig <= c * m)%nat ->
    compute_local_eigenvectors parse_double lobpcg fsqrt dstev tol2 rand std_sort lapack arpack debug draw params n_eig tolerance M C dof_map scratch = Ok r ->
    (forall k, In k C -> (k < nr M)%nat -> lambda <= ent M k k) ->
    (forall x, length x = nr M -> vanishes C x -> (forall e, In e (ag_evecs r) -> dot e x = 0) -> lambda * dot x x <= dot (mulvec M x) x) ->
    lambda' <= lambda -> 0 <= eps ->
    let tol := fmax tolerance (1 / fpos 10000) in
    fnat n_eig * (tol * tol * (1 + fnat ((c - 1) * m))) <= (lambda - lambda') * eps ->
    sized_all (nr M) (ag_evecs r) /\ approximates_up_to M (rows_matrix (nr M) (ag_evecs r)) lambda' eps.
  Proof.
    intros parse_double lobpcg fsqrt dstev tol2 rand std_sort lapack arpack debug draw params n_eig tolerance M C dof_map scratch r c m lambda lambda' eps
      Hsq Hd Ht Hs Sy PD D Ek Hp maxit H1 H2 H3 H4 E HC HG Hl He tol HT.
    destruct (@C67_lanczos K _ _ _ _ _ _ _ _ _ _ _ _ _ _ _ _ _ _ _ c m Hsq Hd Ht Hs Sy D Ek Hp H1 H2 H3 H4 E) as (L1 & L2 & O & _ & HR).
    split; [apply O|]. apply inexact_represents with (mus := ag_evals r) (lambda := lambda); auto.
    - apply gap_constrained with (C := C); auto; [apply Sy| |].
      + intros e Ie. destruct (In_nth _ _ [] Ie) as (i & Hi & <-). assert (Hi' : (i < n_eig)%nat) by (unfold OField.vec in *; lia). split; [|apply (HR i Hi')].
        destruct O as [Sz _]. unfold sized_all in Sz. rewrite Forall_forall in Sz. apply Sz. apply nth_In. lia.
      + intros x Lx. apply HG. assert (Sq : nr M = nc M) by apply Sy. congruence.
    - eapply fle_trans; [|exact HT]. replace (length (ag_evecs r)) with n_eig by (unfold OField.vec in *; lia). clear - HR.
      assert (X : forall k, (k <= n_eig)%nat -> sumn k (fun i => dot (residual M (nth i (ag_evals r) 0) (nth i (ag_evecs r) [])) (residual M (nth i (ag_evals r) 0) (nth i (ag_evecs r) []))) <=
        fnat k * (tol * tol * (1 + fnat ((c - 1) * m)))); [|apply X; lia].
      induction k as [|k IH]; intros Hk; cbn [sumn fnat]; [match goal with |- _ <= ?a => replace a with (0 : K) by ring end; apply fle_refl|].
      match goal with |- _ <= ?a => replace a with (fnat k * (tol * tol * (1 + fnat ((c - 1) * m))) + tol * tol * (1 + fnat ((c - 1) * m))) by ring end.
      apply fle_add2; [apply IH; lia|]. apply (HR k). lia.
  Qed.

  (** C91: with LAPACK, asking for more eigenvectors never spoils the local representation. *)
  Theorem C91_more_vectors : forall parse_double lobpcg fsqrt dstev tol2 rand std_sort lapack arpack debug draw params n1 n2 tolerance (M : mat K) C dof_map scratch r1 r2 lambda eps,
    lapack_ok lapack -> symmetric_matrix M -> eigensolver_matrix debug params = Ok ELapack -> (n1 <= n2)%nat ->
    compute_local_eigenvectors parse_double lobpcg fsqrt dstev tol2 rand std_sort lapack arpack debug draw params n1 tolerance M C dof_map scratch = Ok r1 ->
    compute_local_eigenvectors parse_double lobpcg fsqrt dstev tol2 rand std_sort lapack arpack debug draw params n2 tolerance M C dof_map scratch = Ok r2 ->
    approximates_up_to M (rows_matrix (nr M) (ag_evecs r1)) lambda eps -> approximates_up_to M (rows_matrix (nr M) (ag_evecs r2)) lambda eps.
  Proof.
    intros parse_double lobpcg fsqrt dstev tol2 rand std_sort lapack arpack debug draw params n1 n2 tolerance M C dof_map scratch r1 r2 lambda eps Hl Sy Ek Hn E1 E2 H.
    assert (X : forall n r, compute_local_eigenvectors parse_double lobpcg fsqrt dstev tol2 rand std_sort lapack arpack debug draw params n tolerance M C dof_map scratch = Ok r ->
      exists es vs, lapack (shifted M C) (- (1 / (1 + 1))) (fpos 100) = Ok (es, vs) /\ ag_evecs r = firstn n vs).
    { clear - Hl Sy Ek. intros n r E. destruct (C36_result _ _ _ _ _ _ _ _ _ _ _ _ _ _ _ _ _ _ E) as (kind & evals & Ek' & El & Le & Hn & Hv & _). rewrite Ek in Ek'. injection Ek' as <-. cbn [local_solver] in El. unfold lapack_wrapper in El.
      destruct (lapack (shifted M C) _ _) as [[es vs]| | | |] eqn:E1 in El; cbn [bind fst snd] in El; try discriminate. exists es, vs. split; [exact E1|].
      destruct (Hl _ _ _ _ _ (shifted_symmetric C Sy) E1) as [P1 P2 P3 P4].
      destruct (le_lt_dec n (length es)) as [Hle|Hgt]; [|rewrite read_first_short in El by (simpl; lia); discriminate].
      rewrite read_first_ok in El by auto. cbn [bind] in El. rewrite read_first_ok in El by (simpl; lia). cbn [bind] in El. simpl skipn in El. injection El as _ Ev. symmetry. exact Ev. }
    destruct (X _ _ E1) as (es & vs & L1 & V1). destruct (X _ _ E2) as (es' & vs' & L2 & V2). rewrite L1 in L2. injection L2 as <- <-.
    assert (Q : ag_evecs r2 = ag_evecs r1 ++ skipn n1 (ag_evecs r2)).
    { rewrite V1, V2. rewrite <- (firstn_skipn n1 (firstn n2 vs)) at 1. f_equal. rewrite firstn_firstn. f_equal. lia. }
    rewrite Q. apply more_rows; auto. assert (Sq : nr M = nc M) by apply Sy. congruence.
  Qed.
End CLocal.

Section CLocalRanks.
  Variable K : ofield.
  Add Field KfieldCLocalRanks : (f_field K).
  Local Notation vec := (vec K).
  (** External code, as in M_HostEnd.v. *)
  Variable parse_unsigned : string -> option Z.
  Variable parse_double : string -> option K.
  Variable lobpcg : (vec -> vec) -> Z -> K -> list vec -> bool * eigensolution K.
  Variable fsqrt : K -> option K.
  Variable dstev : list K -> list K -> outcome (list K * list K).
  Variable tol2 : K.
  Variable rand : nat -> nat -> K.
  Variable std_sort : (nat -> nat -> bool) -> list nat -> list nat.
  Variable lapack : mat K -> K -> K -> outcome (list K * list vec).
  Variable arpack : mat K -> K -> vec -> nat -> outcome (list K * list vec).
  Variables (debug dim3 : bool).
  (** The mesh of all ranks; only its number of cells matters. *)
  Variable m : mesh.
  Variable F : fem K.
  Variable ranks : list (rank_env K).
  Local Notation A := (assembled F m).
  Local Notation agglomerates := (rank_agglomerates parse_unsigned debug dim3).
  Local Notation problem := (rank_problem parse_double lobpcg fsqrt dstev tol2 rand std_sort lapack arpack debug).
  Local Notation run := (par_restrictor_run parse_unsigned parse_double lobpcg fsqrt dstev tol2 rand std_sort lapack arpack debug dim3 (f_ndofs F) ranks).

  Hypothesis Hcover : ranks_cover (n_cells m) ranks.
  Hypothesis Hranks : forall rk, In rk ranks -> rank_ready debug F (fun g => ent A g g) rk.
  Hypothesis Hfem : fem_ok F.
  Hypothesis Hpsd : forall c u, fle 0%K (cell_energy F c u).
  Hypothesis Hspd : spd (f_ndofs F) (mulvec A).

  (** C91: any eigensolver, any number of ranks, constrained dofs included: the coarse space inherits the quality of the local vectors.  At most [kappa] cells
      meet in a dof. *)
  Theorem C91_coarse_space : forall p R lambda eps kappa, run p R -> fle 0%K lambda -> fle 0%K eps -> cells_per_dof F (n_cells m) kappa ->
    (forall rk, In rk ranks -> kept_represent (agglomerates rk) (problem rk) (rk_evaluate rk) (rk_mesh rk) p lambda eps) ->
    approximates_up_to A R lambda (eps * fnat kappa)%K.
  Proof.
    intros p R lambda eps kappa HR H0 H1 HK HD.
    apply (@par_coarse K parse_unsigned parse_double lobpcg fsqrt dstev tol2 rand std_sort lapack arpack debug dim3 F Hfem Hpsd A m ranks p R lambda eps kappa eq_refl Hcover); auto.
  Qed.

  (** C91: and there is such a run as soon as the eigensolver succeeds on every agglomerate. *)
  Theorem C91_runs_exist : forall p eig agg lambda eps, pt_find p ["eigensolver"%string] = Some eig -> pt_find p ["agglomeration"%string] = Some agg ->
    (forall rk, In rk ranks -> kept_represent (agglomerates rk) (problem rk) (rk_evaluate rk) (rk_mesh rk) p lambda eps) ->
    (forall rk, In rk ranks -> exists ui n, agglomerates rk agg (repeat 0 (n_cells (rk_mesh rk))) = Ok (ui, n) /\
       forall a, 1 <= a <= n -> exists c, forall sc, problem rk eig ui a sc = Ok c) ->
    exists R, run p R.
  Proof.
    intros p eig agg lambda eps P1 P2 HD HP. eapply par_exists; eauto.
  Qed.

  Section Rate.
    Variables (accepts_double : string -> bool) (owned_rows : mat K -> list (list nat)) (mk : ptree -> outcome (mat K * mat K)).
    Variables (ilu : mat K -> vec -> vec) (ml : ml_list -> mat K -> vec -> vec) (eps0 : K) (te0 : tenv).
    Variables (p : ptree) (R AP : mat K) (theta delta lambda eps mu lambda' : K) (kappa : nat).
    Hypothesis Hown : forall M : mat K, nr M = nc M -> distribution (nc M) (owned_rows M).
    Hypothesis Hdef : default_two_level p.
    Hypothesis Hfast : pt_get parse_bool ["fast_ap"%string] false p = false.
    Hypothesis Hmk : mk p = Ok (R, AP).
    Hypothesis Hrun : run p R.
    Hypothesis Hrank : full_row_rank R.
    Hypothesis Hlam : fle 0%K lambda.
    Hypothesis Heps : fle 0%K eps.
    Hypothesis Hkappa : cells_per_dof F (n_cells m) kappa.
    Hypothesis Hkept : forall rk, In rk ranks -> kept_represent (agglomerates rk) (problem rk) (rk_evaluate rk) (rk_mesh rk) p lambda eps.
    (** The smallest eigenvalue of A is at least [mu]; [lambda'] is what remains of [lambda]. *)
    Hypothesis Hmu : flt 0%K mu.
    Hypothesis Hlow : forall v, length v = f_ndofs F -> fle (mu * dot v v)%K (energy (mulvec A) v).
    Hypothesis Hlam' : flt 0%K lambda'.
    Hypothesis Hrest : fle (lambda' * (mu + eps * fnat kappa))%K (lambda * mu)%K.
    Hypothesis Htheta : fle 0%K theta.
    Hypothesis Hdelta : fle 0%K delta.
    Hypothesis Hdelta1 : fle delta 1%K.
    Hypothesis Hbound : forall own, In own (owned_rows A) -> fle (theta * triangle_bound (local_block A own))%K 1%K.
    Hypothesis Hweak : weakly_coupled (owned_rows A) A delta.
    Local Notation rho := (1 - delta * theta * lambda')%K.
    Local Notation built h := (exists s l, construct (par_helpers accepts_double owned_rows A mk ilu ml) eps0 te0 debug (Ok tt) (Some p) None = (Ok h, s, l)).

    (** C91: one call of vmult reduces the error, in the energy norm, at least by the factor 1 - delta theta lambda'. *)
    Theorem C91_rate : exists h, built h /\
      forall te x xs l, open_sections l = [] -> length x = f_ndofs F -> length xs = f_ndofs F ->
        exists y l', hierarchy_vmult te h x (mulvec A xs) l = (Ok y, l') /\ open_sections l' = [] /\ length y = f_ndofs F /\
          fle (energy (mulvec A) (vsub xs y)) (rho * rho * energy (mulvec A) (vsub xs (if c_prec p then vzero (f_ndofs F) else x)))%K.
    Proof.
      destruct (run_shape _ Hrun) as (PE & PA & DR).
      apply (@par_rate K debug A eq_refl Hspd accepts_double owned_rows mk ilu ml eps0 te0 p R AP theta delta lambda'); auto.
      apply (@absorb K A R lambda (eps * fnat kappa)%K mu lambda'); auto; [apply fle_mul; [exact Heps|apply fnat_nonneg]|]. apply C91_coarse_space with (p := p); auto.
    Qed.
    (** C91: as a solver, repeated calls converge. *)
    Theorem C91_repeated_calls : c_prec p = false -> exists h, built h /\
      forall te x xs k l, open_sections l = [] -> length x = f_ndofs F -> length xs = f_ndofs F ->
        exists y l', repeated_vmult te h (mulvec A xs) k x l = (Ok y, l') /\ open_sections l' = [] /\
          fle (energy (mulvec A) (vsub xs y)) (fpow (rho * rho)%K k * energy (mulvec A) (vsub xs x))%K.
    Proof.
      intros PF. destruct C91_rate as (h & B & V). exists h. split; [exact B|]. exact (@repeated_rate K A h rho (c_prec p) V PF).
    Qed.
    (** C91: as a preconditioner, the spectrum of M A lies in [delta theta lambda', 2 - delta theta lambda']. *)
    Theorem C91_condition : c_prec p = true -> fle (delta * theta * lambda')%K 1%K -> exists h, built h /\
      forall te x e l, open_sections l = [] -> length x = f_ndofs F -> length e = f_ndofs F ->
        exists y l', hierarchy_vmult te h x (mulvec A e) l = (Ok y, l') /\ open_sections l' = [] /\
          fle (delta * theta * lambda' * energy (mulvec A) e)%K (dot y (mulvec A e)) /\
          fle (dot y (mulvec A e)) ((1 + 1 - delta * theta * lambda') * energy (mulvec A) e)%K.
    Proof.
      intros PF HL. destruct C91_rate as (h & B & V). exists h. split; [exact B|]. intros te x e l Hl Lx Le.
      apply fle_sub_0 in HL. destruct (@condition_rate K A h rho (c_prec p) eq_refl Hspd V PF HL te x e l Hl Lx Le) as (y & l' & E & O & C1 & C2).
      exists y, l'. split; [exact E|]. split; [exact O|]. split.
      - replace (delta * theta * lambda')%K with (1 - rho)%K by ring. exact C1.
      - replace (1 + 1 - delta * theta * lambda')%K with (1 + rho)%K by ring. exact C2.
    Qed.
  End Rate.
End CLocalRanks.
Print Assumptions C91_inexact.
Print Assumptions C91_lanczos.
Print Assumptions C91_more_vectors.
Print Assumptions C91_coarse_space.
Print Assumptions C91_runs_exist.
Print Assumptions C91_rate.
Print Assumptions C91_repeated_calls.
Print Assumptions C91_condition.

(** * Examples: the mesh of C90, two elements in a row, one on each of two processes, with Lanczos. *)
Unset Implicit Arguments.
Definition lq (a : Z) (b : positive) : QcOF := Q2Qc (Qmake a b).
(** The only text read as a number here is the tolerance. *)
Definition lparse (s : string) : option QcOF := if String.eqb s "3.0" then Some (lq 3 1) else None.
(** The guess is (20, 21)/29; the eigenvectors are (3, 4)/5 and (4, -3)/5. *)
Definition ldraw (c : nat) : QcOF := if c =? 0 then lq 20 29 else lq 21 29.
Definition lrank (k : nat) : rank_env QcOF :=
  mkRank pmesh (pnumber k) (fun _ => [0]) (fun cells => assemble_patch hF (map (pnumber k) cells)) (fun _ => []) (fun _ => ldraw)
    (fun g => if (k <=? g) && (g <=? k + 1) then Some (ent hA2 g g) else None).
Definition lranks : list (rank_env QcOF) := [lrank 0; lrank 1].
Definition leig : ptree := Node "" [("type"%string, leaf "lanczos"); ("tolerance"%string, leaf "3.0")].
Definition lparams (prec : string) : ptree := Node "" [("is preconditioner"%string, leaf prec); ("eigensolver"%string, leig);
  ("agglomeration"%string, Node "" [("partitioner"%string, leaf "metis"); ("n_agglomerates"%string, leaf "1")])].
Definition ltable : list (list QcOF * list QcOF * (list QcOF * list QcOF)) := [([lq 24967 1682], [], ([lq 24967 1682], [lq 1 1]))].
Definition lproblem := rank_problem lparse ex_no_lobpcg qsqrt (dstev_of ltable) (lq 1 1000000) (fun _ _ => lq 0 1) (@insertion_sort nat) (fun _ _ _ => Fuel) ex_no_arpack true.
Definition lagglomerates := rank_agglomerates (K := QcOF) (fun s => parse_int s) true false.
Definition lrun := par_restrictor_run (fun s => parse_int s) lparse ex_no_lobpcg qsqrt (dstev_of ltable) (lq 1 1000000) (fun _ _ => lq 0 1) (@insertion_sort nat) (fun _ _ _ => Fuel) ex_no_arpack
  true false 3 lranks.

Lemma lcover : ranks_cover 2 lranks.
Proof. apply Permutation_refl. Qed.
Lemma lrank_ready : forall rk, In rk lranks -> rank_ready true hF (fun g => ent hA2 g g) rk.
Proof.
  intros rk I. assert (J : exists k, k <= 1 /\ rk = lrank k) by (destruct I as [<-|[<-|[]]]; [exists 0|exists 1]; auto). destruct J as (k & Hk & ->).
  destruct (prank_ok k Hk) as (J1 & J2 & J3 & _ & J4). split; [exact J1|]. split; [exact J2|]. split; [exact J3|exact J4].
Qed.
Lemma lagg : forall prec k agg ui n, pt_find (lparams prec) ["agglomeration"%string] = Some agg -> lagglomerates (lrank k) agg [0; 0] = Ok (ui, n) -> ui = [1; 0] /\ n = 1.
Proof. intros prec k agg ui n P H. injection P as <-. vm_compute in H. injection H as <- <-. auto. Qed.
(** Both processes stop after one step with the guess; the rows of R are independent. *)
Definition lcheck : outcome bool :=
  let! c1 := lproblem (lrank 0) leig [1; 0] 1 [] in let! c2 := lproblem (lrank 1) leig [1; 0] 1 [] in
  let! ms := assemble true true (fun k => match nth_error lranks k with Some rk => rk_gd rk | None => fun _ => None end) [data_of [c1]; data_of [c2]] in
  let R := distributed_matrix (n_total_rows (rows_per_proc [data_of [c1]; data_of [c2]])) 3 ms in
  Ok ((n_total_rows (rows_per_proc [data_of [c1]; data_of [c2]]) =? 2) && posdef 2 (mmul R (mtrans R)) &&
    match ag_evecs c1, ag_evecs c2 with [e1], [e2] => veqb e1 [lq 20 29; lq 21 29] && veqb e2 [lq 20 29; lq 21 29] | _, _ => false end)%bool.
Lemma lcheck_ok : lcheck = Ok true.
Proof. vm_compute. reflexivity. Qed.
Lemma lscratch : forall k sc, lproblem (lrank k) leig [1; 0] 1 sc = lproblem (lrank k) leig [1; 0] 1 [].
Proof. intros k sc. reflexivity. Qed.
Lemma lkept : forall k c sc, k <= 1 -> lproblem (lrank k) leig [1; 0] 1 sc = Ok c -> ag_evecs c = [[lq 20 29; lq 21 29]].
Proof.
  intros k c sc Hk E. rewrite lscratch in E. assert (H := lcheck_ok). unfold lcheck in H. apply bind_Ok in H. destruct H as (c1 & E1 & H). apply bind_Ok in H. destruct H as (c2 & E2 & H).
  apply bind_Ok in H. destruct H as (ms & _ & H). cbv zeta in H. apply Ok_inj in H. apply andb_true_iff in H. destruct H as (_ & H).
  destruct (ag_evecs c1) as [|e1 [|? ?]] eqn:V1; try discriminate H. destruct (ag_evecs c2) as [|e2 [|? ?]] eqn:V2; try discriminate H.
  apply andb_true_iff in H. destruct H as (H1 & H2). apply veqb_eq in H1. apply veqb_eq in H2.
  assert (Q : k = 0 \/ k = 1) by lia. destruct Q as [-> | ->].
  - rewrite E in E1. apply Ok_inj in E1. rewrite E1, V1, H1. reflexivity.
  - rewrite E in E2. apply Ok_inj in E2. rewrite E2, V2, H2. reflexivity.
Qed.
(** Two ways to bound an energy from below by a test of a matrix. *)
Section Tests.
  Variable K : ofield.
  Add Field KfieldCLocalTests : (f_field K).
  Local Open Scope K_scope.
  Lemma spd_nonneg : forall n (A : OField.vec K -> OField.vec K), spd n A -> forall e, length e = n -> 0 <= dot (A e) e.
  Proof.
    intros n A (_ & H) e He. change (0 <= energy A e). destruct (list_eq_dec (feq_dec K) e (vzero n)) as [->|N].
    - unfold energy. rewrite dot_zero_r. apply fle_refl.
    - apply flt_le. auto.
  Qed.
  Lemma gap_test : forall (M : mat K) e0 e1 lambda s, nr M = 2%nat -> nc M = 2%nat ->
    spd 2 (mulvec (mkMat 2 2 (fun i j => ent M i j - (if (i =? j)%nat then lambda else 0) + s * nth i [e0; e1] 0 * nth j [e0; e1] 0))) ->
    forall x, length x = 2%nat -> dot [e0; e1] x = 0 -> lambda * dot x x <= dot (mulvec M x) x.
  Proof.
    intros M e0 e1 lambda s Hr Hc H x Lx D. assert (HE := spd_nonneg _ _ H x Lx). clear H. rename HE into H. destruct x as [|a [|b [|? ?]]]; try discriminate Lx.
    apply fle_sub_0. unfold energy in H. unfold mulvec in *. rewrite Hr, Hc. cbn in *.
    assert (Q : e0 * a + e1 * b = 0) by (rewrite <- D; ring).
    eapply fle_trans; [exact H|]. match goal with |- ?u <= ?v => replace u with (v + s * ((e0 * a + e1 * b) * (e0 * a + e1 * b))) by ring; rewrite Q; replace (v + s * (0 * 0)) with v by ring end. apply fle_refl.
  Qed.
  Lemma low_test : forall (M : mat K) lambda, nr M = 3%nat -> nc M = 3%nat ->
    spd 3 (mulvec (mkMat 3 3 (fun i j => ent M i j - (if (i =? j)%nat then lambda else 0)))) ->
    forall x, length x = 3%nat -> lambda * dot x x <= energy (mulvec M) x.
  Proof.
    intros M lambda Hr Hc H x Lx. assert (HE := spd_nonneg _ _ H x Lx). clear H. rename HE into H. destruct x as [|a [|b [|c [|? ?]]]]; try discriminate Lx.
    apply fle_sub_0. unfold energy in *. unfold mulvec in *. rewrite Hr, Hc. cbn in *.
    eapply fle_trans; [exact H|]. match goal with |- ?u <= ?v => replace u with v by ring end. apply fle_refl.
  Qed.
End Tests.
Definition lM (k : nat) : mat QcOF := snd (rk_evaluate (lrank k) (agg_cells pmesh [1; 0] 1)).
Lemma lgap : forall k, k <= 1 -> spd 2 (mulvec (mkMat 2 2 (fun i j => ent (lM k) i j - (if (i =? j)%nat then lq 25 1 else 0) + lq 1000 1 * nth i [lq 20 29; lq 21 29] 0 * nth j [lq 20 29; lq 21 29] 0)))%K.
Proof.
  intros k Hk. match goal with |- spd _ (mulvec ?M) => apply (@entries_spd QcOF M) end.
  assert (Q : k = 0 \/ k = 1) by lia. destruct Q as [-> | ->]; (apply posdef_spd; [apply small_symmetric; [reflexivity|vm_compute; reflexivity]|vm_compute; reflexivity]).
Qed.
Lemma lpsd : forall k, k <= 1 -> positive_semidefinite (lM k).
Proof.
  intros k Hk v Lv. rewrite (pM_nr k Hk : nr (lM k) = 2) in Lv. assert (S : spd 2 (mulvec (lM k))).
  { assert (Q : k = 0 \/ k = 1) by lia. destruct Q as [-> | ->]; match goal with |- spd _ (mulvec ?M) => apply (@entries_spd QcOF M) end;
      (apply posdef_spd; [apply small_symmetric; [reflexivity|vm_compute; reflexivity]|vm_compute; reflexivity]). }
  exact (@spd_nonneg QcOF 2 _ S v Lv).
Qed.
Lemma lrepresent : forall prec rk, In rk lranks -> kept_represent (lagglomerates rk) (lproblem rk) (rk_evaluate rk) (rk_mesh rk) (lparams prec) (lq 15 1) (lq 1 1).
Proof.
  intros prec rk I. assert (J : exists k, k <= 1 /\ rk = lrank k) by (destruct I as [<-|[<-|[]]]; [exists 0|exists 1]; auto). destruct J as (k & Hk & ->).
  intros eig agg ui n a sc c Q1 Q2 BA Ha E. destruct (@lagg prec k agg ui n Q2 BA) as (-> & ->). injection Q1 as <-.
  assert (a = 1) by lia. subst a. assert (Kp := lkept k c sc Hk E). cbv zeta. change (snd (rk_evaluate (lrank k) (agg_cells (rk_mesh (lrank k)) [1; 0] 1))) with (lM k).
  eapply (@C91_lanczos QcOF) with (c := 1) (m := 1) (C := []) (lambda := lq 25 1).
  14: exact E.
  - exact qsqrt_ok.
  - apply dstev_of_ok.
  - apply fleb_le. vm_compute. reflexivity.
  - apply insertion_sort_contract.
  - exact (pM_sym k).
  - exact (lpsd k Hk).
  - intros ? ? [].
  - reflexivity.
  - split; reflexivity.
  - vm_compute. lia.
  - rewrite (pM_nr k Hk : nr (lM k) = 2). vm_compute. lia.
  - lia.
  - vm_compute. lia.
  - intros ? [].
  - rewrite Kp. intros x Lx _ O. rewrite (pM_nr k Hk : nr (lM k) = 2) in Lx. apply gap_test with (e0 := lq 20 29) (e1 := lq 21 29) (s := lq 1000 1); auto.
    + exact (pM_nr k Hk).
    + exact (pM_nr k Hk).
    + exact (lgap k Hk).
    + apply O. left. reflexivity.
  - apply fleb_le. vm_compute. reflexivity.
  - apply fleb_le. vm_compute. reflexivity.
  - apply fleb_le. vm_compute. reflexivity.
Qed.
Lemma lper_dof : cells_per_dof hF 2 2.
Proof. intros g _. cbn [seq filter]. destruct (existsb _ _), (existsb _ _); simpl; lia. Qed.
Lemma lexists : forall prec, exists R, lrun (lparams prec) R.
Proof.
  intros prec. unfold lrun.
  eapply (@C91_runs_exist QcOF) with (F := hF) (m := lmesh 2) (lambda := lq 15 1) (eps := lq 1 1).
  - exact lrank_ready.
  - reflexivity.
  - reflexivity.
  - exact (lrepresent prec).
  - intros rk I. exists [1; 0], 1. assert (H := lcheck_ok). unfold lcheck in H. apply bind_Ok in H. destruct H as (c1 & E1 & H). apply bind_Ok in H. destruct H as (c2 & E2 & _).
    destruct I as [<-|[<-|[]]]; (split; [vm_compute; reflexivity|]); intros a Ha; replace a with 1 by lia;
      [exists c1; intros sc; refine (eq_trans _ E1); apply lscratch|exists c2; intros sc; refine (eq_trans _ E2); apply lscratch].
Qed.
Lemma lcollected : forall k keep ns nb d, collect (lproblem (lrank k) leig [1; 0]) keep 1 ns nb d -> exists c, lproblem (lrank k) leig [1; 0] 1 [] = Ok c /\ d = data_of [c].
Proof.
  intros k keep ns nb d H. destruct (collected_any H) as (acs & E1 & E2 & E3). destruct acs as [|[a c] [|? ?]]; try discriminate E1. cbn in E1, E2. injection E1 as ->.
  exists c. split; [|exact E2]. destruct (E3 1 c (or_introl eq_refl)) as (_ & sc & E). rewrite lscratch in E. exact E.
Qed.
Lemma lfull : forall prec R, lrun (lparams prec) R -> full_row_rank R.
Proof.
  intros prec R (eig & agg & ds & ms & Q1 & Q2 & RR & AS & ->). injection Q1 as <-.
  inversion RR as [|r0 d0 rs0 ds0 R0 R0' X0 Y0]. subst. inversion R0' as [|r1 d1 rs1 ds1 R1 R1' X1 Y1]. subst. inversion R1'. subst. clear R0' R1' RR.
  destruct R0 as (ui0 & n0 & ns0 & nb0 & BA0 & C0). destruct R1 as (ui1 & n1 & ns1 & nb1 & BA1 & C1).
  destruct (@lagg prec 0 agg ui0 n0 Q2 BA0) as (-> & ->). destruct (@lagg prec 1 agg ui1 n1 Q2 BA1) as (-> & ->).
  destruct (lcollected 0 _ _ _ _ C0) as (c0 & G0 & ->). destruct (lcollected 1 _ _ _ _ C1) as (c1 & G1 & ->).
  assert (H := lcheck_ok). unfold lcheck in H.
  rewrite G0, G1 in H. cbn [bind] in H. unfold lranks in AS, H. rewrite AS in H. cbn [bind] in H. cbv zeta in H. apply Ok_inj in H.
  apply andb_true_iff in H. destruct H as (H & _). apply andb_true_iff in H. destruct H as (H1 & H2). apply Nat.eqb_eq in H1. rewrite H1 in *.
  apply rank_test. apply posdef_spd; [|exact H2]. split; [reflexivity|].
  intros i j _ _. cbn [ent mmul mtrans]. apply sumn_ext. intros k _. apply Qcmult_comm.
Qed.
Example C91_example : exists R, lrun (lparams "true") R /\ approximates_up_to hA2 R (lq 15 1) (lq 1 1 * fnat 2)%K.
Proof.
  destruct (lexists "true") as (R & HR). exists R. split; [exact HR|].
  eapply (@C91_coarse_space QcOF) with (F := hF) (m := lmesh 2) (p := lparams "true") (ranks := lranks).
  - exact lcover.
  - exact lrank_ready.
  - exact hfem_ok.
  - exact hcells.
  - exact hA2_spd.
  - exact HR.
  - apply fleb_le. vm_compute. reflexivity.
  - apply fleb_le. vm_compute. reflexivity.
  - exact lper_dof.
  - exact (lrepresent "true").
Qed.
Lemma lA_low : forall v, length v = 3 -> fle (lq 1 1 * dot v v)%K (energy (mulvec hA2) v).
Proof.
  apply low_test; [reflexivity|reflexivity|]. match goal with |- spd _ (mulvec ?M) => apply (@entries_spd QcOF M) end.
  apply posdef_spd; [apply small_symmetric; [reflexivity|vm_compute; reflexivity]|vm_compute; reflexivity].
Qed.
(** The smallest eigenvalue of A is at least 1, two cells meet in a dof: of lambda = 15 there remains 5. *)
Lemma lrate : forall prec, exists R h s l, lrun (lparams prec) R /\
  construct (par_helpers (fun _ => false) prows hA2 (fun _ => Ok (R, R)) (fun _ r => r) (fun _ _ r => r)) 0%K (mkTenv true true) true (Ok tt) (Some (lparams prec)) None = (Ok h, s, l) /\
  forall x xs, length x = 3 -> length xs = 3 -> exists y l', hierarchy_vmult (mkTenv true true) h x (mulvec hA2 xs) [] = (Ok y, l') /\
    fle (energy (mulvec hA2) (vsub xs y)) ((1 - lq 1 10 * lq 1 43 * lq 5 1) * (1 - lq 1 10 * lq 1 43 * lq 5 1) * energy (mulvec hA2) (vsub xs (if c_prec (lparams prec) then vzero 3 else x)))%K.
Proof.
  intros prec. destruct (lexists prec) as (R & HR). assert (FR := lfull _ _ HR).
  destruct (@C91_rate QcOF (fun s => parse_int s) lparse ex_no_lobpcg qsqrt (dstev_of ltable) (lq 1 1000000) (fun _ _ => lq 0 1) (@insertion_sort nat) (fun _ _ _ => Fuel) ex_no_arpack
    true false (lmesh 2) hF lranks lcover lrank_ready hfem_ok hcells hA2_spd (fun _ => false) prows (fun _ => Ok (R, R)) (fun _ r => r) (fun _ _ r => r) 0%K
    (mkTenv true true) (lparams prec) R R (lq 1 43) (lq 1 10) (lq 15 1) (lq 1 1) (lq 1 1) (lq 5 1) 2 prows_ok) as (h & (s & l & C1) & V); try exact HR; try exact FR; try reflexivity.
  - split; [vm_compute; lia|]. split; [reflexivity|]. split; apply lower_ci; [apply no_upperb_ok; reflexivity|reflexivity|apply no_upperb_ok; reflexivity|reflexivity].
  - apply fleb_le. vm_compute. reflexivity.
  - apply fleb_le. vm_compute. reflexivity.
  - exact lper_dof.
  - exact (lrepresent prec).
  - apply fltb_lt. vm_compute. reflexivity.
  - exact lA_low.
  - apply fltb_lt. vm_compute. reflexivity.
  - apply fleb_le. vm_compute. reflexivity.
  - apply fleb_le. vm_compute. reflexivity.
  - apply fleb_le. vm_compute. reflexivity.
  - apply fleb_le. vm_compute. reflexivity.
  - intros own I. change (prows (assembled hF (lmesh 2))) with [[0]; [1; 2]] in I. destruct I as [<-|[<-|[]]]; apply fleb_le; vm_compute; reflexivity.
  - exact hA2_weak.
  - exists R, h, s, l. split; [exact HR|]. split; [exact C1|]. intros x xs Hx Hxs.
    destruct (V (mkTenv true true) x xs [] eq_refl Hx Hxs) as (y & l' & E & _ & _ & EN). exists y, l'. split; [exact E|exact EN].
Qed.
Example C91_rate_example : exists R h s l, lrun (lparams "false") R /\
  construct (par_helpers (fun _ => false) prows hA2 (fun _ => Ok (R, R)) (fun _ r => r) (fun _ _ r => r)) 0%K (mkTenv true true) true (Ok tt) (Some (lparams "false")) None = (Ok h, s, l) /\
  forall x xs, length x = 3 -> length xs = 3 -> exists y l', hierarchy_vmult (mkTenv true true) h x (mulvec hA2 xs) [] = (Ok y, l') /\
    fle (energy (mulvec hA2) (vsub xs y)) ((1 - lq 1 10 * lq 1 43 * lq 5 1) * (1 - lq 1 10 * lq 1 43 * lq 5 1) * energy (mulvec hA2) (vsub xs x))%K.
Proof. exact (lrate "false"). Qed.

(** Lanczos beside a Dirichlet boundary: the first dof is constrained, with 40 on the diagonal. *)
Section Test3.
  Variable K : ofield.
  Add Field KfieldCLocalTest3 : (f_field K).
  Local Open Scope K_scope.
  Lemma gap_test3 : forall (M : mat K) e0 e1 e2 lambda s, nr M = 3%nat -> nc M = 3%nat ->
    spd 3 (mulvec (mkMat 3 3 (fun i j => ent M i j - (if (i =? j)%nat then lambda else 0) + s * nth i [e0; e1; e2] 0 * nth j [e0; e1; e2] 0))) ->
    forall x, length x = 3%nat -> dot [e0; e1; e2] x = 0 -> lambda * dot x x <= dot (mulvec M x) x.
  Proof.
    intros M e0 e1 e2 lambda s Hr Hc H x Lx D. assert (HE := spd_nonneg _ _ _ H x Lx). clear H. rename HE into H. destruct x as [|a [|b [|c [|? ?]]]]; try discriminate Lx.
    apply fle_sub_0. unfold mulvec in *. rewrite Hr, Hc. cbn in *.
    assert (Q : e0 * a + e1 * b + e2 * c = 0) by (rewrite <- D; ring).
    eapply fle_trans; [exact H|]. match goal with |- ?u <= ?v => replace u with (v + s * ((e0 * a + e1 * b + e2 * c) * (e0 * a + e1 * b + e2 * c))) by ring; rewrite Q; replace (v + s * (0 * 0)) with v by ring end. apply fle_refl.
  Qed.
End Test3.
Definition dM : mat QcOF := mkMat 3 3 (fun i j => match i, j with 0, 0 => lq 40 1 | 1, 1 => lq 17 1 | 2, 2 => lq 10 1 | 1, 2 => lq (-12) 1 | 2, 1 => lq (-12) 1 | _, _ => lq 0 1 end).
Definition dtable : list (list QcOF * list QcOF * (list QcOF * list QcOF)) := [([lq 59737 2523], [], ([lq 59737 2523], [lq 1 1]))].
Definition dlanczos : outcome (agg_result QcOF) :=
  compute_local_eigenvectors lparse ex_no_lobpcg qsqrt (dstev_of dtable) (lq 1 1000000) (fun _ _ => lq 0 1) (@insertion_sort nat) (fun _ _ _ => Fuel) ex_no_arpack true
    ldraw leig 1 (lq 3 1) dM [0] [4; 5; 6] [].
Lemma single : forall o e, match o with Ok c => match ag_evecs c with [v] => veqb v e | _ => false end | _ => false end = true -> exists r : agg_result QcOF, o = Ok r /\ ag_evecs r = [e].
Proof. intros [c| | | |] e H; try discriminate H. exists c. split; [reflexivity|]. destruct (ag_evecs c) as [|v [|? ?]]; try discriminate H. apply veqb_eq in H. rewrite H. reflexivity. Qed.
Lemma dM_sym : symmetric_matrix dM.
Proof. apply small_symmetric; [reflexivity|vm_compute; reflexivity]. Qed.
Example C91_lanczos_example : exists r, dlanczos = Ok r /\ approximates_up_to dM (rows_matrix 3 (ag_evecs r)) (lq 15 1) (lq 1 1).
Proof.
  assert (X : exists r, dlanczos = Ok r /\ ag_evecs r = [[lq 0 1; lq 20 29; lq 21 29]]) by (apply single; vm_compute; reflexivity).
  destruct X as (r & E & V). exists r. split; [exact E|].
  eapply (@C91_lanczos QcOF) with (c := 1) (m := 1) (lambda := lq 25 1).
  14: exact E.
  - exact qsqrt_ok.
  - apply dstev_of_ok.
  - apply fleb_le. vm_compute. reflexivity.
  - apply insertion_sort_contract.
  - exact dM_sym.
  - intros v Lv. apply (@spd_nonneg QcOF 3); auto. apply (@entries_spd QcOF dM). apply posdef_spd; [exact dM_sym|vm_compute; reflexivity].
  - intros c j [<-|[]] Hj. destruct j as [|[|[|j]]]; [destruct (Hj eq_refl)| | |]; split; apply Qc_is_canon; vm_compute; reflexivity.
  - reflexivity.
  - split; reflexivity.
  - vm_compute. lia.
  - vm_compute. lia.
  - lia.
  - vm_compute. lia.
  - intros k [<-|[]] _. apply fleb_le. vm_compute. reflexivity.
  - rewrite V. intros x Lx _ O. apply gap_test3 with (e0 := lq 0 1) (e1 := lq 20 29) (e2 := lq 21 29) (s := lq 1000 1); [reflexivity|reflexivity| |exact Lx|].
    + match goal with |- spd _ (mulvec ?M) => apply (@entries_spd QcOF M) end. apply posdef_spd; [apply small_symmetric; [reflexivity|vm_compute; reflexivity]|vm_compute; reflexivity].
    + apply O. left. reflexivity.
  - apply fleb_le. vm_compute. reflexivity.
  - apply fleb_le. vm_compute. reflexivity.
  - apply fleb_le. vm_compute. reflexivity.
Qed.
(** LAPACK with one and with two eigenvectors on an element of the mesh. *)
Definition mlapack (n : nat) : outcome (agg_result QcOF) :=
  compute_local_eigenvectors ex_parse_double ex_no_lobpcg qsqrt (fun _ _ => Fuel) (q 0 1) (fun _ _ => q 0 1) (@insertion_sort nat) hlapack ex_no_arpack true
    ex_draw heig n (lq 0 1) (lM 0) [] [0; 1] [].
Example C91_more_vectors_example : exists r1 r2, mlapack 1 = Ok r1 /\ mlapack 2 = Ok r2 /\
  forall lambda eps, approximates_up_to (lM 0) (rows_matrix 2 (ag_evecs r1)) lambda eps -> approximates_up_to (lM 0) (rows_matrix 2 (ag_evecs r2)) lambda eps.
Proof.
  assert (X : forall o : outcome (agg_result QcOF), match o with Ok _ => true | _ => false end = true -> exists r, o = Ok r) by (intros [c| | | |] H; try discriminate H; exists c; reflexivity).
  destruct (X (mlapack 1)) as (r1 & E1); [vm_compute; reflexivity|]. destruct (X (mlapack 2)) as (r2 & E2); [vm_compute; reflexivity|].
  exists r1, r2. split; [exact E1|]. split; [exact E2|]. intros lambda eps.
  eapply (@C91_more_vectors QcOF) with (n1 := 1) (n2 := 2).
  5: exact E1.
  - apply lapack_of_ok.
  - exact (pM_sym 0).
  - reflexivity.
  - lia.
  - exact E2.
Qed.

(** C91 needs the slack: at the default tolerance Lanczos accepts, after one step, a vector that is not constant on a floating agglomerate, and then the constant
    vector, which costs no energy, is represented with no positive lambda. *)
Section Single.
  Variable K : ofield.
  Add Field KfieldCLocalSingle : (f_field K).
  Local Open Scope K_scope.
  Lemma floating_psd : forall a : K, 0 <= a -> positive_semidefinite (mkMat 2 2 (fun i j => if (i =? j)%nat then a else - a)).
  Proof.
    intros a Ha [|x [|y [|? ?]]] Lv; try discriminate Lv. cbn. replace (_ + _) with (a * ((x - y) * (x - y))) by ring. apply fle_mul; [exact Ha|apply fsquare_nonneg].
  Qed.
  Lemma kernel_missed : forall (M : mat K) e0 e1 lambda, nr M = 2%nat -> nc M = 2%nat -> energy (mulvec M) [1; 1] = 0 -> e0 <> e1 -> 0 < lambda ->
    ~ approximates M (rows_matrix 2 [[e0; e1]]) lambda.
  Proof.
    intros M e0 e1 lambda Hr Hc E N Hl H. assert (Lv : length [1; 1 : K] = nc M) by (rewrite Hc; reflexivity). destruct (H [1; 1] Lv) as (w & Lw & B). rewrite E in B.
    destruct w as [|t [|? ?]]; try discriminate Lw. clear H.
    assert (Z : vsub [1; 1] (mulTvec (rows_matrix 2 [[e0; e1]]) [t]) = vzero 2).
    { change (vzero 2) with (@vzero K (length (vsub [1; 1] (mulTvec (rows_matrix 2 [[e0; e1]]) [t])))). apply dot_self_0. apply fle_antisym; [|apply dot_nonneg]. apply (@fle_mul_cancel K lambda); auto. replace (lambda * 0) with (0 : K) by ring. exact B. }
    cbn in Z. injection Z as Z0 Z1. assert (Q : (e1 - e0) * t = 0).
    { transitivity ((1 - (0 + e0 * t)) - (1 - (0 + e1 * t))); [ring|]. rewrite Z0, Z1. ring. }
    apply (@fmul_eq_0 K) in Q. destruct Q as [Q|Q]; [apply N; replace e1 with (e0 + (e1 - e0)) by ring; rewrite Q; ring|].
    apply (@f1_neq_0 K). rewrite <- Z0, Q. ring.
  Qed.
  Lemma other_missed : forall (M : mat K) e0 e1 v0 v1 mu lambda, nr M = 2%nat -> nc M = 2%nat -> energy (mulvec M) [v0; v1] <= mu -> dot [v0; v1] [v0; v1] = 1 -> dot [e0; e1] [v0; v1] = 0 ->
    0 <= lambda -> mu < lambda -> ~ approximates M (rows_matrix 2 [[e0; e1]]) lambda.
  Proof.
    intros M e0 e1 v0 v1 mu lambda Hr Hc E N O H0 Hl H. assert (Lv : length [v0; v1 : K] = nc M) by (rewrite Hc; reflexivity). destruct (H [v0; v1] Lv) as (w & Lw & B).
    destruct w as [|t [|? ?]]; try discriminate Lw. clear H. apply (@flt_irrefl K lambda). eapply fle_lt_trans; [|exact Hl]. eapply fle_trans; [|exact E]. eapply fle_trans; [|exact B].
    cbn in N, O |- *. set (X := t * t * (e0 * e0 + e1 * e1)).
    assert (PX : 0 <= X). { unfold X. replace (t * t * (e0 * e0 + e1 * e1)) with ((t * e0) * (t * e0) + (t * e1) * (t * e1)) by ring. apply fadd_nonneg; apply fsquare_nonneg. }
    assert (PL : 0 <= lambda * X) by (apply fle_mul; auto). apply fle_sub_0. match goal with |- _ <= ?g => replace g with (lambda * (v0 * v0 + (v1 * v1 + 0) - 1) - (1 + 1) * lambda * t * (e0 * v0 + (e1 * v1 + 0)) + lambda * X) by (unfold X; ring) end.
    rewrite N, O. match goal with |- _ <= ?g => replace g with (lambda * X) by ring end. exact PL.
  Qed.
End Single.
Definition kM : mat QcOF := mkMat 2 2 (fun i j => if i =? j then lq 1 1 else (- lq 1 1)%K).
Definition kdraw (c : nat) : QcOF := if c =? 0 then lq 23660 33461 else lq 23661 33461.
Definition ktable : list (list QcOF * list QcOF * (list QcOF * list QcOF)) := [([lq 1119638522 1119638521], [], ([lq 1119638522 1119638521], [lq 1 1]))].
Definition llanczos (table : list (list QcOF * list QcOF * (list QcOF * list QcOF))) (draw : nat -> QcOF) (M : mat QcOF) : outcome (agg_result QcOF) :=
  compute_local_eigenvectors ex_parse_double ex_no_lobpcg qsqrt (dstev_of table) (lq 1 1000000) (fun _ _ => lq 0 1) (@insertion_sort nat) (fun _ _ _ => Fuel) ex_no_arpack true
    draw (Node "" [("type"%string, leaf "lanczos")]) 1 tol_1e14 M [] [0; 1] [].
Theorem C91_kernel_refuted : exists (M : mat QcOF) table draw r, symmetric_matrix M /\ positive_semidefinite M /\ llanczos table draw M = Ok r /\
  (exists e, length e = 2 /\ e <> vzero 2 /\ mulvec M e = vzero 2) /\ forall lambda, flt 0%K lambda -> ~ approximates M (rows_matrix 2 (ag_evecs r)) lambda.
Proof.
  assert (X : exists r, llanczos ktable kdraw kM = Ok r /\ ag_evecs r = [[lq 23660 33461; lq 23661 33461]]) by (apply single; vm_compute; reflexivity).
  destruct X as (r & E & V). exists kM, ktable, kdraw, r. split; [split; [reflexivity|]; intros i j _ _; cbn [kM ent]; rewrite Nat.eqb_sym; reflexivity|]. split.
  - apply floating_psd. apply fleb_le. vm_compute. reflexivity.
  - split; [exact E|]. split.
    + exists [lq 1 1; lq 1 1]. split; [reflexivity|]. split; [intros Z; assert (W : veqb [lq 1 1; lq 1 1] (vzero 2) = true) by (rewrite Z; vm_compute; reflexivity); vm_compute in W; discriminate W|]. apply veqb_eq. vm_compute. reflexivity.
    + intros lambda Hl. rewrite V. apply kernel_missed; [reflexivity|reflexivity|apply Qc_is_canon; vm_compute; reflexivity| |exact Hl].
      intros Z. assert (W : veqb [lq 23660 33461] [lq 23661 33461] = true) by (rewrite Z; vm_compute; reflexivity). vm_compute in W. discriminate W.
Qed.
Print Assumptions C91_kernel_refuted.
(** C91 needs the gap, not only small residuals: started with the eigenvector of 26, Lanczos returns it, with no residual at all, and the discarded eigenvalue is 1. *)
Definition ntable : list (list QcOF * list QcOF * (list QcOF * list QcOF)) := [([lq 79 2], [], ([lq 79 2], [lq 1 1]))].
Definition ndraw (c : nat) : QcOF := if c =? 0 then lq 4 5 else lq (-3) 5.
Theorem C91_missed_refuted : exists (M : mat QcOF) table draw r, symmetric_matrix M /\ positive_semidefinite M /\ llanczos table draw M = Ok r /\
  (forall i, i < length (ag_evecs r) -> residual M (nth i (ag_evals r) 0%K) (nth i (ag_evecs r) []) = vzero 2) /\
  (exists e, gap M [e] (lq 25 1)) /\ forall lambda, flt (lq 1 1) lambda -> ~ approximates M (rows_matrix 2 (ag_evecs r)) lambda.
Proof.
  assert (X : exists r, llanczos ntable ndraw (lM 0) = Ok r /\ ag_evecs r = [[lq 4 5; lq (-3) 5]] /\ ag_evals r = [lq 26 1]).
  { assert (W : match llanczos ntable ndraw (lM 0) with Ok c => match ag_evecs c with [v] => veqb v [lq 4 5; lq (-3) 5] && veqb (ag_evals c) [lq 26 1] | _ => false end | _ => false end = true) by (vm_compute; reflexivity).
    destruct (llanczos ntable ndraw (lM 0)) as [c| | | |]; try discriminate W. exists c. split; [reflexivity|]. destruct (ag_evecs c) as [|v [|? ?]]; try discriminate W.
    apply andb_true_iff in W. destruct W as (W1 & W2). apply veqb_eq in W1. apply veqb_eq in W2. rewrite W1, W2. split; reflexivity. }
  destruct X as (r & E & V & L). exists (lM 0), ntable, ndraw, r. split; [exact (pM_sym 0)|]. split; [apply lpsd; lia|]. split; [exact E|]. rewrite V, L. split; [|split].
  - intros i Hi. cbn in Hi. assert (i = 0) by lia. subst i. apply veqb_eq. vm_compute. reflexivity.
  - exists [lq 3 5; lq 4 5]. intros x Lx O. apply gap_test with (e0 := lq 3 5) (e1 := lq 4 5) (s := lq 1000 1); auto.
    + match goal with |- spd _ (mulvec ?M) => apply (@entries_spd QcOF M) end. apply posdef_spd; [apply small_symmetric; [reflexivity|vm_compute; reflexivity]|vm_compute; reflexivity].
    + apply O. left. reflexivity.
  - intros lambda Hl. apply other_missed with (v0 := lq 3 5) (v1 := lq 4 5) (mu := lq 1 1); [reflexivity|reflexivity| | | | |exact Hl].
    + apply fleb_le. vm_compute. reflexivity.
    + apply Qc_is_canon. vm_compute. reflexivity.
    + apply Qc_is_canon. vm_compute. reflexivity.
    + eapply fle_trans; [|apply flt_le; exact Hl]. apply fleb_le. vm_compute. reflexivity.
Qed.
Print Assumptions C91_missed_refuted.
