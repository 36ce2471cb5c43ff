(** Property theorems about the diagonal on several processes: C93. *)
From Coq Require Import String List Arith ZArith Bool Lia Field Permutation QArith Qcanon.
From Verif Require Import Base OField Mat LinAlg M_Ptree S_Ptree P_Ptree M_Agglo S_Agglo M_WorkStream M_Restr S_Restr P_Restr P_Restr2
  S_FastAP P_FastAP P_FastAP2 M_Perm S_Perm M_Lanczos S_Lanczos M_Eig S_Eig P_Eig M_Hier S_Hier M_Host S_Host M_HostEnd S_HostEnd P_HostEnd
  S_Rate M_Par S_Par M_ParEnd S_ParEnd P_ParEnd C_Host C_Restr C_Rate C_Par M_FastAP C_FastAP C_HostEnd E_Lanczos C_Lanczos C_Eig E_Solve C_ParEnd P_Perm C_Local M_Diag S_Diag P_Diag.
Import ListNotations.
Set Implicit Arguments.
Open Scope list_scope.
Open Scope nat_scope.

Section CDiag.
  Variable K : ofield.
  Local Notation vec := (vec K).

  (** C93: get_diagonal gives every process the diagonal of the operator at the dofs it owns and at its ghost dofs, in debug and release, if the rows of the
      matrix are distributed as its columns. *)
  Theorem C93_diagonal : forall debug (A : mat K) n owned relevant, distribution n owned -> length relevant = length owned ->
    (forall rel g, In rel relevant -> In g rel -> g < n) ->
    exists vs, get_diagonal debug A owned owned relevant = Ok vs /\ reads_diagonal A owned relevant vs.
  Proof. intros debug A n owned relevant. apply get_diagonal_spec. Qed.

  Variable parse_unsigned : string -> option Z.
  Variable parse_double : string -> option K.
  Variable lobpcg : (vec -> vec) -> Z -> K -> list vec -> bool * eigensolution K.
  Variable fsqrt : K -> option K.
  Variable dstev : list K -> list K -> outcome (list K * list K).
  Variable tol2 : K.
  Variable rand : nat -> nat -> K.
  Variable std_sort : (nat -> nat -> bool) -> list nat -> list nat.
  Variable lapack : mat K -> K -> K -> outcome (list K * list vec).
  Variable arpack : mat K -> K -> vec -> nat -> outcome (list K * list vec).
  Variables (debug dim3 : bool).
  Variable F : fem K.
  Variable m : mesh.
  Local Notation A := (assembled F m).
  Local Notation n := (f_ndofs F).
  Variables (owned relevant : list (list nat)) (ranks : list (rank_env K)) (vs : dvec K).
  Hypothesis Howned : distribution n owned.
  Hypothesis Hrelevant : relevant_ok n F owned relevant ranks.
  Hypothesis Hget : get_diagonal debug A owned owned relevant = Ok vs.
  Hypothesis Hgd : map (@rk_gd K) ranks = vs.
  Hypothesis Hprep : forall rk, In rk ranks -> rank_prepared debug F rk.
  Local Notation agglomerates := (rank_agglomerates parse_unsigned debug dim3).
  Local Notation problem := (rank_problem parse_double lobpcg fsqrt dstev tol2 rand std_sort lapack arpack debug).
  Local Notation rrun := (rank_run parse_unsigned parse_double lobpcg fsqrt dstev tol2 rand std_sort lapack arpack debug dim3).

  (** C93: with it every process has what the setup of the restriction needs (the hypothesis of C90, C91 and C92). *)
  Theorem C93_ready : forall rk, In rk ranks -> rank_ready debug F (fun g => ent A g g) rk.
  Proof.
    destruct Hrelevant as (L1 & L2 & HR & _). destruct (@C93_diagonal debug A n owned relevant Howned) as (vs' & E & R); [congruence|exact HR|].
    rewrite Hget in E. injection E as <-. intros rk I. eapply prepared_ready; eauto.
  Qed.

  (** C93: and the check at the end of the setup accepts what the processes collected, in debug and release. *)
  Theorem C93_self_check : forall eig agg ds, fem_ok F -> (forall c u, fle 0%K (cell_energy F c u)) -> ranks_cover (n_cells m) ranks ->
    (forall rk, In rk ranks -> keeps_vectors (agglomerates rk) (problem rk) (rk_evaluate rk) (rk_mesh rk) eig agg) ->
    0 < n -> (forall g, g < n -> ent A g g <> 0%K) -> Forall2 (rrun eig agg) ranks ds ->
    par_check debug tol_1e14 n owned vs ds = Ok tt.
  Proof.
    intros eig agg ds Hfem Hpsd Hcover HK Hn HNZ RR.
    destruct Hrelevant as (L1 & L2 & HR & _). destruct (@C93_diagonal debug A n owned relevant Howned) as (vs' & E & R); [congruence|exact HR|].
    rewrite Hget in E. injection E as <-. eapply check_accepts; eauto.
  Qed.
End CDiag.

Section CDiagSound.
  Variable K : ofield.
  (** C93: what the check tells: it accepts only if the diagonals of the agglomerates of all processes sum up to the diagonal. *)
  Theorem C93_check_meaning : forall (tol : K) n owned (vs : dvec K) D ls, distribution n owned -> (forall g, g < n -> owner_value owned vs g = Some (D g)) ->
    Forall2 (fun gd (l : list (agg_result K)) => gd_ok D l gd) vs ls -> (forall l c, In l ls -> In c l -> agg_ok c /\ ag_evecs c <> []) ->
    flt 0%K tol -> (exists g, g < n /\ D g <> 0%K) ->
    (par_check true tol n owned vs (map (@data_of K) ls) = Ok tt \/ par_check true tol n owned vs (map (@data_of K) ls) = Abort) /\
    (par_check true tol n owned vs (map (@data_of K) ls) = Ok tt -> forall g, g < n ->
      (fabs (diag_sum (concat ls) g - D g) < tol * linf n D /\ (D g <> 0 -> fabs (diag_sum (concat ls) g / D g - 1) < tol))%K).
  Proof.
    intros tol n owned vs D ls HD HO G2 Hok Ht Hnz. rewrite (@par_check_same K true D tol n owned vs ls HD HO G2).
    destruct (@C60_self_check K tol n D (fun g => Some (D g)) ls Hok (fun c _ g _ => eq_refl) Ht Hnz) as (S0 & _ & _ & S3). split; [exact S0|exact S3].
  Qed.
End CDiagSound.

(** C93: without the condition on the distribution it fails: if evaluate_global makes a matrix whose rows are not distributed as its columns, a debug build aborts and in a
    release build a process reads 0 for a nonzero entry. *)
Theorem C93_maps_refuted : exists (A : mat QcOF) rows owned relevant vs v g, distribution 2 rows /\ distribution 2 owned /\ length relevant = length owned /\
  (forall rel h, In rel relevant -> In h rel -> h < 2) /\
  get_diagonal true A rows owned relevant = Abort /\
  get_diagonal false A rows owned relevant = Ok vs /\ nth_error vs 0 = Some v /\ v g = Some 0%K /\ ent A g g <> 0%K.
Proof.
  exists (mkMat 2 2 (fun i j => if i =? j then 1%K else 0%K)), [[0]; [1]], [[0; 1]; []], [[0; 1]; [0; 1]].
  eexists. eexists. exists 1. split; [apply Permutation_refl|]. split; [apply Permutation_refl|]. split; [reflexivity|]. split; [intros rel h [<-|[<-|[]]] [<-|[<-|[]]]; lia|].
  split; [reflexivity|]. split; [cbv; reflexivity|]. split; [reflexivity|]. split; [reflexivity|]. exact (@f1_neq_0 QcOF).
Qed.

Print Assumptions C93_diagonal.
Print Assumptions C93_ready.
Print Assumptions C93_self_check.
Print Assumptions C93_check_meaning.
Print Assumptions C93_maps_refuted.

(** * Examples: the mesh of C90, two elements in a row on two processes: the first owns dofs 0 and 1, the second owns dof 2 and has dof 1 as a ghost. *)
Unset Implicit Arguments.
Definition downed : list (list nat) := [[0; 1]; [2]].
Definition drelevant : list (list nat) := [[0; 1]; [1; 2]].
Lemma downed_ok : distribution 3 downed.
Proof. apply Permutation_refl. Qed.
Definition drank (k : nat) (v : nat -> option QcOF) : rank_env QcOF :=
  mkRank pmesh (pnumber k) (fun _ => [0]) (fun cells => assemble_patch hF (map (pnumber k) cells)) (fun _ => []) (fun _ => ldraw) v.
Lemma dprepared : forall k v, k <= 1 -> rank_prepared true hF (drank k v).
Proof. intros k v Hk. destruct (prank_ok k Hk) as (J1 & J2 & J3 & _). split; [exact J1|]. split; [exact J2|exact J3]. Qed.
Lemma drelevant_ok : forall v0 v1, relevant_ok 3 hF downed drelevant [drank 0 v0; drank 1 v1].
Proof.
  intros v0 v1. split; [reflexivity|]. split; [reflexivity|]. split; [intros rel g [<-|[<-|[]]] I; repeat (destruct I as [<-|I]; [lia|]); destruct I|].
  intros [|[|r]] own rel rk E1 E2 E3; try (destruct r; discriminate E1); injection E1 as <-; injection E2 as <-; injection E3 as <-;
    intros c g Ic Ig; vm_compute in Ic; destruct Ic as [<-|[]]; vm_compute in Ig; vm_compute; intuition.
Qed.
(** What each process reads of the diagonal. *)
Example C93_example : exists v0 v1, get_diagonal true hA2 downed downed drelevant = Ok [v0; v1] /\
  map v0 [0; 1; 2] = [Some (ent hA2 0 0); Some (ent hA2 1 1); None] /\ map v1 [0; 1; 2] = [None; Some (ent hA2 1 1); Some (ent hA2 2 2)].
Proof. eexists. eexists. split; [reflexivity|]. split; reflexivity. Qed.
(** The hypotheses hold together: a setup that reads this diagonal runs and passes its check. *)
Example C93_example_check : exists v0 v1 ds, get_diagonal true hA2 downed downed drelevant = Ok [v0; v1] /\
  Forall2 (rank_run (fun s => parse_int s) lparse ex_no_lobpcg qsqrt (dstev_of ltable) (lq 1 1000000) (fun _ _ => lq 0 1) (@insertion_sort nat) (fun _ _ _ => Fuel) ex_no_arpack true false
    leig (Node "" [("partitioner"%string, leaf "metis"); ("n_agglomerates"%string, leaf "1")])) [drank 0 v0; drank 1 v1] ds /\
  par_check true tol_1e14 3 downed [v0; v1] ds = Ok tt.
Proof.
  eexists. eexists. assert (H := lcheck_ok). unfold lcheck in H. apply bind_Ok in H. destruct H as (c1 & E1 & H). apply bind_Ok in H. destruct H as (c2 & E2 & _).
  exists [data_of [c1]; data_of [c2]]. split; [reflexivity|].
  match goal with |- Forall2 ?P ?l ?d /\ par_check _ _ _ _ ?v _ = _ => assert (RR : Forall2 P l d); [|split; [exact RR|]] end.
  - constructor; [|constructor; [|constructor]]; exists [1; 0], 1, 1, 1; (split; [vm_compute; reflexivity|]).
    + apply (@collect_exists QcOF _ _ 1 0 0 (fun _ => c1)). intros id sc Hi. replace id with 1 by lia. exact E1.
    + apply (@collect_exists QcOF _ _ 1 0 0 (fun _ => c2)). intros id sc Hi. replace id with 1 by lia. exact E2.
  - eapply (@C93_self_check QcOF) with (m := lmesh 2) (F := hF) (relevant := drelevant).
    12: exact RR.
    + exact downed_ok.
    + apply drelevant_ok.
    + reflexivity.
    + reflexivity.
    + intros rk [<-|[<-|[]]]; apply dprepared; lia.
    + exact hfem_ok.
    + exact hcells.
    + exact lcover.
    + intros rk I ui n a sc c BA Ha E.
      assert (Q : ui = [1; 0] /\ n = 1) by (destruct I as [<-|[<-|[]]]; vm_compute in BA; injection BA as <- <-; auto). destruct Q as (-> & ->).
      replace a with 1 in * by lia.
      assert (Q : exists k, k <= 1 /\ lproblem (lrank k) leig [1; 0] 1 sc = Ok c /\ snd (rk_evaluate rk (agg_cells (rk_mesh rk) [1; 0] 1)) = lM k) by (destruct I as [<-|[<-|[]]]; [exists 0|exists 1]; (split; [lia|split; [exact E|reflexivity]])).
      destruct Q as (k & Hk & E' & ->). rewrite (lkept k c sc Hk E'). split; [discriminate|]. rewrite (pM_nr k Hk : nr (lM k) = 2). repeat constructor.
    + cbn; lia.
    + intros g Hg. assert (G : g = 0 \/ g = 1 \/ g = 2) by (cbn in Hg; lia). destruct G as [-> | [-> | ->]]; intros Z; vm_compute in Z; discriminate Z.
Qed.
