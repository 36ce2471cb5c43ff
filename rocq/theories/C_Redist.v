(** Property theorems about cells distributed over ranks in several ways: C110. *)
From Coq Require Import String List Arith ZArith Bool Lia Field Permutation QArith Qcanon.
From Verif Require Import Base OField Mat LinAlg M_Ptree S_Ptree P_Ptree M_Agglo S_Agglo M_WorkStream M_Restr S_Restr P_Restr P_Restr2
  S_FastAP P_FastAP2 M_Lanczos S_Lanczos M_Eig S_Eig M_Hier S_Hier P_Hier P_HierC P_HierE P_HierS M_Smoother P_Smoother M_Host S_Host P_Host P_HostN M_HostEnd S_HostEnd P_HostEnd
  P_Amgx3 S_Rate P_Rate P_Approx M_Par S_Par P_Par P_Par2 P_Par3 P_Par4 M_ParEnd S_ParEnd P_ParEnd C_Host C_Restr C_Rate C_Par M_FastAP C_FastAP C_HostEnd E_Lanczos C_Lanczos C_Eig E_Solve E_CudaHier C_CudaHier P_CudaHier3 P_Rate2 P_Perm P_Lanczos9 P_AmgeDev2 C_ParEnd S_Redist P_Redist.
Import ListNotations.
Set Implicit Arguments.
Open Scope list_scope.
Open Scope nat_scope.

Section CRedist.
  Variable K : ofield.
  Add Field KfieldCRedist : (f_field K).
  Local Notation vec := (vec K).

  (** C110: the preconditioner depends on the space the rows of the restriction span, not on the rows: eigenvectors of other sign, length or order, or other
      vectors of the same space, give the same result of every vmult. *)
  Theorem C110_span : forall accepts_double owned_rows (A : mat K) mk mk' ilu ml eps te0 debug p k R AP R' AP',
    nr A = nc A -> spd (nc A) (mulvec A) -> c_levels p = 2%Z ->
    dealii_smoother_kind p = Ok k -> linear (nc A) (nc A) (par_kind_vmult owned_rows ilu k A) -> dealii_solver_kind accepts_double p = Ok KDirect ->
    pt_find p ["eigensolver"%string] <> None -> pt_find p ["agglomeration"%string] <> None ->
    mk p = Ok (R, AP) -> mk' p = Ok (R', AP') -> nc R = nc A -> full_row_rank R -> full_row_rank R' -> same_span R R' ->
    (pt_get parse_bool ["fast_ap"%string] false p = true -> meq AP (mmul A (mtrans R)) /\ meq AP' (mmul A (mtrans R'))) ->
    exists h s l h' s' l',
      construct (par_helpers accepts_double owned_rows A mk ilu ml) eps te0 debug (Ok tt) (Some p) None = (Ok h, s, l) /\
      construct (par_helpers accepts_double owned_rows A mk' ilu ml) eps te0 debug (Ok tt) (Some p) None = (Ok h', s', l') /\
      forall te x b, length x = nc A -> length b = nc A ->
        exists y lg lg', hierarchy_vmult te h x b [] = (Ok y, lg) /\ hierarchy_vmult te h' x b [] = (Ok y, lg').
  Proof.
    intros ad owned_rows A mk mk' ilu ml eps te0 debug p k R AP R' AP' DA Hspd HL SK LK CK PE PA M1 M2 DR FR FR' SP HF.
    assert (DR' : nc R' = nc A) by (destruct SP as (E & _); congruence).
    destruct (@par_two_level K ad owned_rows A mk ilu ml eps te0 debug p k R AP) as (h & s & l & C1 & W1); auto; [intros Q; apply HF; exact Q|].
    destruct (@par_two_level K ad owned_rows A mk' ilu ml eps te0 debug p k R' AP') as (h' & s' & l' & C2 & W2); auto; [intros Q; apply HF; exact Q|].
    exists h, s, l, h', s', l'. split; [exact C1|]. split; [exact C2|]. intros te x b Hx Hb.
    destruct (W1 te x b [] eq_refl Hx Hb) as (y & lg & E1 & _ & T1). destruct (W2 te x b [] eq_refl Hx Hb) as (y' & lg' & E2 & _ & T2).
    assert (E : y = y') by (eapply two_grid_unique; [| | | |eapply two_grid_span; [| | | |exact T1]|exact T2]; auto).
    exists y, lg, lg'. split; [exact E1|]. rewrite E. exact E2.
  Qed.

  (** External code, as in M_HostEnd.v. *)
  Variable parse_unsigned : string -> option Z.
  Variable parse_double : string -> option K.
  Variable lobpcg : (vec -> vec) -> Z -> K -> list vec -> bool * eigensolution K.
  Variable fsqrt : K -> option K.
  Variable dstev : list K -> list K -> outcome (list K * list K).
  Variable tol2 : K.
  Variable rand : nat -> nat -> K.
  Variable std_sort : (nat -> nat -> bool) -> list nat -> list nat.
  Variable lapack : mat K -> K -> K -> outcome (list K * list vec).
  Variable arpack : mat K -> K -> vec -> nat -> outcome (list K * list vec).
  Variables (debug dim3 : bool).
  Variable m : mesh.
  Variable F : fem K.
  Local Notation A := (assembled F m).
  Local Notation agglomerates := (rank_agglomerates parse_unsigned debug dim3).
  Local Notation problem := (rank_problem parse_double lobpcg fsqrt dstev tol2 rand std_sort lapack arpack debug).
  Local Notation run := (par_restrictor_run parse_unsigned parse_double lobpcg fsqrt dstev tol2 rand std_sort lapack arpack debug dim3 (f_ndofs F)).
  Hypothesis Hsym : forall c g h, f_cm F c g h = f_cm F c h g.
  Hypothesis Hlapack : lapack_ok lapack.
  Hypothesis Hspd : spd (f_ndofs F) (mulvec A).
  (** The cells distributed over ranks in two ways. *)
  Variables ranks ranks' : list (rank_env K).
  Hypothesis Hranks : forall rk, In rk ranks \/ In rk ranks' -> rank_ok debug F (fun g => ent A g g) rk.

  (** C110: the same agglomerates on other ranks, also on more or fewer of them, give a restriction with as many rows that spans the same space. *)
  Theorem C110_restriction : forall p R R', run ranks p R -> run ranks' p R' -> same_agglomerates agglomerates problem p ranks ranks' ->
    (forall eig, pt_find p ["eigensolver"%string] = Some eig -> eigensolver_matrix debug eig = Ok ELapack) ->
    nr R = nr R' /\ same_span R R' /\ (full_row_rank R -> full_row_rank R').
  Proof. intros p R R' H1 H2 H3 H4. exact (@redistributed K parse_unsigned parse_double lobpcg fsqrt dstev tol2 rand std_sort lapack arpack debug dim3 F A Hsym Hlapack ranks ranks' p R R' H1 H2 H3 H4 Hranks). Qed.
  (** C110: and the same result of every vmult. *)
  Theorem C110_same_preconditioner : forall accepts_double owned_rows mk mk' ilu ml eps te0 p k R AP R' AP',
    run ranks p R -> run ranks' p R' -> same_agglomerates agglomerates problem p ranks ranks' ->
    (forall eig, pt_find p ["eigensolver"%string] = Some eig -> eigensolver_matrix debug eig = Ok ELapack) ->
    c_levels p = 2%Z -> dealii_smoother_kind p = Ok k -> linear (f_ndofs F) (f_ndofs F) (par_kind_vmult owned_rows ilu k A) -> dealii_solver_kind accepts_double p = Ok KDirect ->
    pt_get parse_bool ["fast_ap"%string] false p = false -> mk p = Ok (R, AP) -> mk' p = Ok (R', AP') -> full_row_rank R ->
    exists h s l h' s' l',
      construct (par_helpers accepts_double owned_rows A mk ilu ml) eps te0 debug (Ok tt) (Some p) None = (Ok h, s, l) /\
      construct (par_helpers accepts_double owned_rows A mk' ilu ml) eps te0 debug (Ok tt) (Some p) None = (Ok h', s', l') /\
      forall te x b, length x = f_ndofs F -> length b = f_ndofs F ->
        exists y lg lg', hierarchy_vmult te h x b [] = (Ok y, lg) /\ hierarchy_vmult te h' x b [] = (Ok y, lg').
  Proof.
    intros ad owned_rows mk mk' ilu ml eps te0 p k R AP R' AP' R1 R2 SA HE HL SK LK CK HF M1 M2 FR.
    destruct (C110_restriction R1 R2 SA HE) as (_ & SP & FT). destruct (run_shape _ R1) as (PE & PA & DR).
    apply (@C110_span ad owned_rows A mk mk' ilu ml eps te0 debug p k R AP R' AP'); auto. rewrite HF. discriminate.
  Qed.
  (** C110: so, with one evaluator for all ranks, the same partition of the whole mesh into agglomerates gives the same preconditioner however its parts are
      distributed over however many ranks. *)
  Theorem C110_distribution : forall evaluate constrained accepts_double owned_rows mk mk' ilu ml eps te0 p k R AP R' AP',
    (forall rk, In rk ranks \/ In rk ranks' -> one_evaluator evaluate constrained rk) -> same_patches agglomerates p ranks ranks' ->
    run ranks p R -> run ranks' p R' ->
    (forall eig, pt_find p ["eigensolver"%string] = Some eig -> eigensolver_matrix debug eig = Ok ELapack) ->
    c_levels p = 2%Z -> dealii_smoother_kind p = Ok k -> linear (f_ndofs F) (f_ndofs F) (par_kind_vmult owned_rows ilu k A) -> dealii_solver_kind accepts_double p = Ok KDirect ->
    pt_get parse_bool ["fast_ap"%string] false p = false -> mk p = Ok (R, AP) -> mk' p = Ok (R', AP') -> full_row_rank R ->
    exists h s l h' s' l',
      construct (par_helpers accepts_double owned_rows A mk ilu ml) eps te0 debug (Ok tt) (Some p) None = (Ok h, s, l) /\
      construct (par_helpers accepts_double owned_rows A mk' ilu ml) eps te0 debug (Ok tt) (Some p) None = (Ok h', s', l') /\
      forall te x b, length x = f_ndofs F -> length b = f_ndofs F ->
        exists y lg lg', hierarchy_vmult te h x b [] = (Ok y, lg) /\ hierarchy_vmult te h' x b [] = (Ok y, lg').
  Proof.
    intros ev co ad owned_rows mk mk' ilu ml eps te0 p k R AP R' AP' HO SP R1 R2 HE. apply C110_same_preconditioner; auto. apply (@same_cells K _ _ _ _ _ _ _ _ _ _ _ _ ev co); assumption.
  Qed.
End CRedist.
(** C110: in particular the order of the ranks does not matter. *)
Theorem C110_rank_order : forall K parse_unsigned parse_double lobpcg fsqrt dstev tol2 rand std_sort lapack arpack debug dim3 p (ranks ranks' : list (rank_env K)), Permutation ranks ranks' ->
  same_agglomerates (rank_agglomerates parse_unsigned debug dim3) (rank_problem parse_double lobpcg fsqrt dstev tol2 rand std_sort lapack arpack debug) p ranks ranks'.
Proof. exact rank_order. Qed.
Print Assumptions C110_span.
Print Assumptions C110_restriction.
Print Assumptions C110_same_preconditioner.
Print Assumptions C110_rank_order.
Print Assumptions C110_distribution.

(** * Example: the two elements of C90 on two processes and on one. *)
Unset Implicit Arguments.
Definition srank : rank_env QcOF := mkRank (lmesh 2) (fun c => c) (fun _ => [0; 1]) (assemble_patch hF) (fun _ => []) (fun _ => ex_draw) (fun g => Some (ent hA2 g g)).
Definition srun := par_restrictor_run (fun s => parse_int s) ex_parse_double ex_no_lobpcg qsqrt (fun _ _ => Fuel) (q 0 1) (fun _ _ => q 0 1) (@insertion_sort nat) hlapack ex_no_arpack
  true false 3 [srank].
Lemma sranks_ok : forall rk, In rk pranks \/ In rk [srank] -> rank_ok true hF (fun g => ent hA2 g g) rk.
Proof.
  intros rk [I|[<-|[]]]; [apply pranks_ok; exact I|]. split; [intros c _; repeat split|]. split; [intros k; vm_compute; lia|]. split; [|split; [reflexivity|reflexivity]].
  intros cells N _. cbn [srank rk_number rk_evaluate]. rewrite map_id. exact (@evaluate_ok_example QcOF hF cells N).
Qed.
Lemma sagg : forall prec agg ui n, pt_find (pparams prec) ["agglomeration"%string] = Some agg -> pagglomerates srank agg [0; 0] = Ok (ui, n) -> ui = [1; 2] /\ n = 2.
Proof. intros prec agg ui n P H. injection P as <-. vm_compute in H. injection H as <- <-. auto. Qed.
Lemma sproblem : pproblem srank heig [1; 2] 1 [] = pproblem (prank 0) heig [1; 0] 1 [] /\ pproblem srank heig [1; 2] 2 [] = pproblem (prank 1) heig [1; 0] 1 [].
Proof. split; reflexivity. Qed.
Lemma ssame : forall prec, same_agglomerates pagglomerates pproblem (pparams prec) pranks [srank].
Proof.
  intros prec eig agg ls ls' Q1 Q2 H H'. injection Q1 as <-.
  inversion H as [|? l1 ? ls1 (ui1 & n1 & B1 & F1) H1]; subst. inversion H1 as [|? l2 ? ls2 (ui2 & n2 & B2 & F2) H2]; subst. inversion H2; subst.
  inversion H' as [|? l3 ? ls3 (ui3 & n3 & B3 & F3) H3]; subst. inversion H3; subst. clear H H1 H2 H' H3.
  destruct (pagg prec 0 agg ui1 n1 Q2 B1) as (-> & ->). destruct (pagg prec 1 agg ui2 n2 Q2 B2) as (-> & ->). destruct (sagg prec agg ui3 n3 Q2 B3) as (-> & ->). clear B1 B2 B3. cbn [seq] in *.
  inversion F1 as [|? c1 ? r1 E1 G1]; subst. inversion G1; subst. inversion F2 as [|? c2 ? r2 E2 G2]; subst. inversion G2; subst.
  inversion F3 as [|? c3 ? r3 E3 G3]; subst. inversion G3 as [|? c4 ? r4 E4 G4]; subst. inversion G4; subst. destruct sproblem as (S1 & S2).
  rewrite S1, E1 in E3. rewrite S2, E2 in E4. apply Ok_inj in E3. apply Ok_inj in E4. subst. apply Permutation_refl.
Qed.
Lemma sexists : forall prec, exists R, srun (pparams prec) R.
Proof.
  intros prec. assert (H := pcheck_ok). unfold pcheck in H. apply bind_Ok in H. destruct H as (c1 & E1 & H). apply bind_Ok in H. destruct H as (c2 & E2 & _).
  destruct sproblem as (S1 & S2). rewrite <- S1 in E1. rewrite <- S2 in E2.
  assert (RR : rank_results pagglomerates pproblem heig (Node "" [("partitioner"%string, leaf "metis"); ("n_agglomerates"%string, leaf "1")]) srank [c1; c2]).
  { exists [1; 2], 2. split; [vm_compute; reflexivity|]. cbn [seq]. repeat constructor; [exact E1|exact E2]. }
  assert (V := @results_ok QcOF (fun s => parse_int s) ex_parse_double ex_no_lobpcg qsqrt (fun _ _ => Fuel) (q 0 1) (fun _ _ => q 0 1) (@insertion_sort nat) hlapack ex_no_arpack true false hF hA2 hsym (lapack_of_ok _ _)
    heig (Node "" [("partitioner"%string, leaf "metis"); ("n_agglomerates"%string, leaf "1")]) srank [c1; c2] eq_refl (sranks_ok srank (or_intror (or_introl eq_refl))) RR). destruct V as (V1 & V2).
  destruct (@C11_restriction_rows QcOF true true (fun k => match nth_error [srank] k with Some rk => rk_gd rk | None => fun _ => None end) (fun g => ent hA2 g g) [[c1; c2]]) as (ms & A1 & _).
  - intros l c [<-|[]] Ic. apply V1. exact Ic.
  - intros [|k] l E; [injection E as <-; exact V2|destruct k; discriminate E].
  - eexists. exists heig. eexists. exists [data_of [c1; c2]], ms. split; [reflexivity|]. split; [reflexivity|]. split; [|split; [exact A1|reflexivity]].
    constructor; [|constructor]. exists [1; 2], 2, 1, 1. split; [vm_compute; reflexivity|].
    apply (@collect_exists QcOF (pproblem srank heig [1; 2]) (keeps_guess heig) 2 0 0 (fun a => if a =? 1 then c1 else c2)). intros a sc Ha.
    assert (X : pproblem srank heig [1; 2] a sc = pproblem srank heig [1; 2] a []) by (unfold pproblem, rank_problem; apply problem_scratch; reflexivity). rewrite X.
    assert (Q : a = 1 \/ a = 2) by lia. destruct Q as [-> | ->]; [exact E1|exact E2].
Qed.
Example C110_example : exists R R' h s l h' s' l', prun (pparams "true") R /\ srun (pparams "true") R' /\ same_span R R' /\
    construct (par_helpers (fun _ => false) prows hA2 (fun _ => Ok (R, R)) (fun _ r => r) (fun _ _ r => r)) 0%K (mkTenv true true) true (Ok tt) (Some (pparams "true")) None = (Ok h, s, l) /\
    construct (par_helpers (fun _ => false) prows hA2 (fun _ => Ok (R', R')) (fun _ r => r) (fun _ _ r => r)) 0%K (mkTenv true true) true (Ok tt) (Some (pparams "true")) None = (Ok h', s', l') /\
    forall x b, length x = 3 -> length b = 3 -> exists y lg lg', hierarchy_vmult (mkTenv true true) h x b [] = (Ok y, lg) /\ hierarchy_vmult (mkTenv true true) h' x b [] = (Ok y, lg').
Proof.
  destruct (pexists "true") as (R & HR). destruct (sexists "true") as (R' & HR'). assert (FR := pfull _ _ HR). exists R, R'.
  destruct (@C110_same_preconditioner QcOF (fun s => parse_int s) ex_parse_double ex_no_lobpcg qsqrt (fun _ _ => Fuel) (q 0 1) (fun _ _ => q 0 1) (@insertion_sort nat) hlapack ex_no_arpack
    true false (lmesh 2) hF hsym (lapack_of_ok _ _) hA2_spd pranks [srank] sranks_ok (fun _ => false) prows (fun _ => Ok (R, R)) (fun _ => Ok (R', R')) (fun _ r => r) (fun _ _ r => r) 0%K
    (mkTenv true true) (pparams "true") KSsor R R R' R' HR HR' (ssame "true")) as (h & s & l & h' & s' & l' & C1 & C2 & V); try exact FR; try reflexivity.
  - intros eig E. injection E as <-. reflexivity.
  - apply (@par_linear QcOF (assembled hF (lmesh 2)) (prows (assembled hF (lmesh 2)))). apply prows_ok. reflexivity.
  - exists h, s, l, h', s', l'. split; [exact HR|]. split; [exact HR'|]. split.
    + apply (@C110_restriction QcOF (fun s => parse_int s) ex_parse_double ex_no_lobpcg qsqrt (fun _ _ => Fuel) (q 0 1) (fun _ _ => q 0 1) (@insertion_sort nat) hlapack ex_no_arpack
        true false (lmesh 2) hF hsym (lapack_of_ok _ _) pranks [srank] sranks_ok (pparams "true") R R' HR HR' (ssame "true")). intros eig E. injection E as <-. reflexivity.
    + split; [exact C1|]. split; [exact C2|]. intros x b Hx Hb. exact (V (mkTenv true true) x b Hx Hb).
Qed.
Example C110_rank_order_example : pranks <> rev pranks /\ forall prec, same_agglomerates pagglomerates pproblem (pparams prec) pranks (rev pranks).
Proof.
  split; [|intros prec; apply C110_rank_order, Permutation_rev]. intros E.
  assert (H : map (fun rk => rk_number rk 0) pranks = map (fun rk => rk_number rk 0) (rev pranks)) by (rewrite <- E; reflexivity). vm_compute in H. discriminate H.
Qed.
Lemma spatches : forall prec, same_patches pagglomerates (pparams prec) pranks [srank].
Proof.
  intros prec agg ls ls' Q2 H H'.
  inversion H as [|? l1 ? ls1 (ui1 & n1 & B1 & F1) H1]; subst. inversion H1 as [|? l2 ? ls2 (ui2 & n2 & B2 & F2) H2]; subst. inversion H2; subst.
  inversion H' as [|? l3 ? ls3 (ui3 & n3 & B3 & F3) H3]; subst. inversion H3; subst. clear H H1 H2 H' H3.
  destruct (pagg prec 0 agg ui1 n1 Q2 B1) as (-> & ->). destruct (pagg prec 1 agg ui2 n2 Q2 B2) as (-> & ->). destruct (sagg prec agg ui3 n3 Q2 B3) as (-> & ->). apply Permutation_refl.
Qed.
Example C110_distribution_example : exists R R' h s l h' s' l', prun (pparams "true") R /\ srun (pparams "true") R' /\
    construct (par_helpers (fun _ => false) prows hA2 (fun _ => Ok (R, R)) (fun _ r => r) (fun _ _ r => r)) 0%K (mkTenv true true) true (Ok tt) (Some (pparams "true")) None = (Ok h, s, l) /\
    construct (par_helpers (fun _ => false) prows hA2 (fun _ => Ok (R', R')) (fun _ r => r) (fun _ _ r => r)) 0%K (mkTenv true true) true (Ok tt) (Some (pparams "true")) None = (Ok h', s', l') /\
    forall x b, length x = 3 -> length b = 3 -> exists y lg lg', hierarchy_vmult (mkTenv true true) h x b [] = (Ok y, lg) /\ hierarchy_vmult (mkTenv true true) h' x b [] = (Ok y, lg').
Proof.
  destruct (pexists "true") as (R & HR). destruct (sexists "true") as (R' & HR'). assert (FR := pfull _ _ HR). exists R, R'.
  destruct (@C110_distribution QcOF (fun s => parse_int s) ex_parse_double ex_no_lobpcg qsqrt (fun _ _ => Fuel) (q 0 1) (fun _ _ => q 0 1) (@insertion_sort nat) hlapack ex_no_arpack
    true false (lmesh 2) hF hsym (lapack_of_ok _ _) hA2_spd pranks [srank] sranks_ok (assemble_patch hF) (fun _ => []) (fun _ => false) prows (fun _ => Ok (R, R)) (fun _ => Ok (R', R'))
    (fun _ r => r) (fun _ _ r => r) 0%K (mkTenv true true) (pparams "true") KSsor R R R' R') as (h & s & l & h' & s' & l' & C1 & C2 & V); try exact FR; try reflexivity; try exact HR; try exact HR'.
  - intros rk [[<-|[<-|[]]]|[<-|[]]] cells; (split; [|reflexivity]); try reflexivity. cbn [srank rk_evaluate rk_number]. rewrite map_id. reflexivity.
  - apply spatches.
  - intros eig E. injection E as <-. reflexivity.
  - apply (@par_linear QcOF (assembled hF (lmesh 2)) (prows (assembled hF (lmesh 2)))). apply prows_ok. reflexivity.
  - exists h, s, l, h', s', l'. split; [exact HR|]. split; [exact HR'|]. split; [exact C1|]. split; [exact C2|]. intros x b Hx Hb. exact (V (mkTenv true true) x b Hx Hb).
Qed.

(** C110: the rows each rank owns must be the same, too: the smoothers of deal.II work on the blocks of the ranks, so even with the same restriction another
    distribution of the rows gives another result. *)
Definition oR : mat QcOF := mkMat 1 3 (fun _ _ => q 1 1).
Definition ovmult (owned : mat QcOF -> list (list nat)) (x b : vec QcOF) : option (vec QcOF) :=
  match construct (par_helpers (fun _ => false) owned hA2 (fun _ => Ok (oR, oR)) (fun _ r => r) (fun _ _ r => r)) 0%K (mkTenv true true) true (Ok tt) (Some (pparams "true")) None with
  | (Ok h, _, _) => match hierarchy_vmult (mkTenv true true) h x b [] with (Ok y, _) => Some y | _ => None end
  | _ => None
  end.
Definition ox : vec QcOF := [q 0 1; q 0 1; q 0 1].
Definition ob : vec QcOF := [q 1 1; q 0 1; q 0 1].
Definition orows (M : mat QcOF) : list (list nat) := [seq 0 (nc M)].
Lemma ocheck : match ovmult prows ox ob, ovmult orows ox ob with Some y, Some y' => negb (veqb y y') | _, _ => false end = true.
Proof. vm_compute. reflexivity. Qed.
Theorem C110_owned_rows_refuted : exists owned owned' y y',
  (forall M : mat QcOF, nr M = nc M -> distribution (nc M) (owned M) /\ distribution (nc M) (owned' M)) /\
  ovmult owned ox ob = Some y /\ ovmult owned' ox ob = Some y' /\ y <> y'.
Proof.
  assert (H := ocheck). exists prows, orows. destruct (ovmult prows ox ob) as [y|]; [|discriminate H]. destruct (ovmult orows ox ob) as [y'|]; [|discriminate H].
  exists y, y'. split; [intros M D; split; [apply prows_ok; exact D|]|split; [reflexivity|split; [reflexivity|]]].
  - unfold orows, distribution. cbn [concat]. rewrite app_nil_r. apply Permutation_refl.
  - intros <-. assert (Z : veqb y y = true); [|rewrite Z in H; discriminate H].
    unfold veqb. rewrite Nat.eqb_refl. cbn [andb]. unfold all_lt. apply forallb_forall. intros i _. apply feqb_eq. reflexivity.
Qed.
Print Assumptions C110_owned_rows_refuted.
