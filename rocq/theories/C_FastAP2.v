(** Property theorems about fast AP with inexact eigenpairs: C81. *)
From Coq Require Import String List Arith ZArith Bool Lia Field QArith Qcanon.
From Verif Require Import Base OField Mat LinAlg M_Ptree M_Host M_Perm S_Perm P_Perm M_Agglo S_Agglo M_WorkStream P_WorkStream M_Restr S_Restr P_Restr P_Restr2 M_FastAP S_FastAP P_FastAP P_FastAP2 M_Lanczos S_Lanczos M_Eig S_Eig P_Eig E_Lanczos C_Eig C_FastAP.
Import ListNotations.
Set Implicit Arguments.
Open Scope list_scope.
Open Scope nat_scope.

Section CFastAP2.
  Variable K : ofield.
  Add Field KFCfastap2 : (f_field K).
  Local Notation vec := (vec K).

  (** C81: column of A R^T of pair k of agglomerate i: what fast AP computes is the true column less the residual of that pair in the patch
      problem, at the dofs of the agglomerate, whatever the accuracy of this pair and of all the others. *)
  Theorem C81_error : forall debug (F : fem K) m conn ui evaluate A gd (D : nat -> K) counts p l nev mm bd ns nb corr,
    fem_ok F -> evaluate_ok F evaluate -> connectivity_ok F m conn -> global_matrix F m A ->
    length ui = n_cells m -> (forall c, c < n_cells m -> owned m c = true -> 1 <= nth c ui 0 <= length l) ->
    (forall a c, nth_error l a = Some c -> exists M, local_agg F (agg_cells m ui (S a)) nev c M) ->
    gd_ok D l gd -> (forall c g, In c l -> In g (ag_map c) -> D g = A g g /\ D g <> 0%K) ->
    compute_restriction debug true counts p gd (data_of l) = Ok mm ->
    build_boundary_agglomerates m ui (length l) conn = Ok bd ->
    ((forall q, In q bd -> fst q <> []) \/ (forall q, In q bd -> fst q = [])) ->
    fa_corrections evaluate true (r_E mm) (r_D mm) (n_rows_before counts p) (length (rows_of l)) ns nb bd corr ->
    forall i k c M, nth_error l i = Some c -> local_agg F (agg_cells m ui (S i)) nev c M -> k < nev ->
      let r := i * nev + k in
      let computed := fa_ap (flat_map (@ag_evals K) l) (r_E mm) corr (n_rows_before counts p) r in
      let true_column := fun g => sumn (f_ndofs F) (fun h => (A g h * spm_el (r_R mm) (n_rows_before counts p + r)%nat h)%K) in
      (forall j g, nth_error (ag_map c) j = Some g -> (true_column g - computed g)%K = nth j (pair_residual c M k) 0%K) /\
      (forall g, ~ In g (ag_map c) -> computed g = true_column g) /\
      sumn (f_ndofs F) (fun g => ((true_column g - computed g) * (true_column g - computed g))%K) = dot (pair_residual c M k) (pair_residual c M k).
  Proof.
    intros debug F m conn ui evaluate A gd D counts p l nev mm bd ns nb corr HF Hev Hconn HA Hui Hid Hex Hgd HD Hmm Hbd Hemp Hcorr i k c M Hc HM Hk r computed tc.
    assert (E : forall g, (tc g - computed g)%K = at_dof c g (fun j => nth j (pair_residual c M k) 0%K)).
    { intros g. unfold computed, tc, r. rewrite (@fast_ap_error K debug F m conn ui evaluate A gd D counts p l nev mm bd ns nb corr HF Hev Hconn HA Hui Hid Hex Hgd HD Hmm Hbd Hemp Hcorr i k c M g Hc HM Hk). ring. }
    clearbody computed tc. destruct HM as (HP & _ & L1 & L2 & L3). destruct HP as (P1 & P2 & P3 & P4 & P5).
    split; [|split].
    - intros j g Hj. assert (j < length (ag_map c)) by (apply nth_error_Some; congruence). rewrite E. apply nth_error_nth with (d := 0) in Hj. rewrite <- Hj. apply at_dof_one; auto.
    - intros g Hg. pose proof (E g) as Eg. rewrite at_dof_none in Eg by auto. replace (tc g) with (tc g - computed g + computed g)%K by ring. rewrite Eg. ring.
    - rewrite (@dot_sumn K _ _ (length (ag_map c))) by (unfold pair_residual, residual; rewrite vsub_length, mulvec_length; unfold vscale; rewrite map_length, L3 by auto; lia).
      rewrite <- (@sum_reindex K (f_ndofs F) (ag_map c) (fun g => ((tc g - computed g) * (tc g - computed g))%K) P1).
      + apply sumn_ext. intros j Hj. rewrite !E, at_dof_one by auto. reflexivity.
      + intros g Hg. apply P4 in Hg. destruct Hg as (d & _ & Hd). apply (HF d). exact Hd.
      + intros h _ Hh. rewrite E, at_dof_none by auto. ring.
  Qed.

  (** C81: all vectors of the agglomerates from Lanczos: every column is off by at most the tolerance used (not below 1e-4), up to the deflation factor. *)
  Theorem C81_lanczos : forall debug (F : fem K) m conn ui evaluate A gd (D : nat -> K) counts p l mm bd ns nb corr
    parse_double lobpcg fsqrt dstev tol2 rand std_sort lapack arpack params n_eig tolerance (cy me : nat),
    fem_ok F -> evaluate_ok F evaluate -> connectivity_ok F m conn -> global_matrix F m A -> (forall c g h, f_cm F c g h = f_cm F c h g) ->
    length ui = n_cells m -> (forall c, c < n_cells m -> owned m c = true -> 1 <= nth c ui 0 <= length l) ->
    sqrt_ok fsqrt -> dstev_ok dstev -> (0 <= tol2)%K -> std_sort_contract std_sort -> eigensolver_matrix debug params = Ok ELanczos ->
    (if pt_get parse_bool ["is_deflated"%string] false params
     then pt_require parse_int ["num_cycles"%string] params = Ok (Z.of_nat cy) /\ pt_require parse_int ["num_eigenpairs_per_cycle"%string] params = Ok (Z.of_nat me)
     else cy = 1 /\ me = n_eig) ->
    let maxit := Z.to_nat (pt_get parse_int ["max_iterations"%string] 200%Z params) in
    1 <= maxit -> 1 <= me -> 1 <= n_eig <= cy * me ->
    (forall a c, nth_error l a = Some c -> exists draw scratch, let '(cols, M) := evaluate (agg_cells m ui (S a)) in length cols <= maxit /\
       compute_local_eigenvectors parse_double lobpcg fsqrt dstev tol2 rand std_sort lapack arpack debug draw params n_eig tolerance M [] cols scratch = Ok c) ->
    gd_ok D l gd -> (forall c g, In c l -> In g (ag_map c) -> D g = A g g /\ D g <> 0%K) ->
    compute_restriction debug true counts p gd (data_of l) = Ok mm ->
    build_boundary_agglomerates m ui (length l) conn = Ok bd ->
    ((forall q, In q bd -> fst q <> []) \/ (forall q, In q bd -> fst q = [])) ->
    fa_corrections evaluate true (r_E mm) (r_D mm) (n_rows_before counts p) (length (rows_of l)) ns nb bd corr ->
    let tol := fmax tolerance (1 / fpos 10000)%K in
    length (rows_of l) = length l * n_eig /\
    forall r, r < length l * n_eig ->
      let computed := fa_ap (flat_map (@ag_evals K) l) (r_E mm) corr (n_rows_before counts p) r in
      let true_column := fun g => sumn (f_ndofs F) (fun h => (A g h * spm_el (r_R mm) (n_rows_before counts p + r)%nat h)%K) in
      (sumn (f_ndofs F) (fun g => (true_column g - computed g) * (true_column g - computed g)) <= tol * tol * (1 + fnat ((cy - 1) * me)))%K.
  Proof.
    intros debug F m conn ui evaluate A gd D counts p l mm bd ns nb corr parse_double lobpcg fsqrt dstev tol2 rand std_sort lapack arpack params n_eig tolerance cy me
      HF Hev Hconn HA Hsym Hui Hid Hsq Hds Ht Hss Hek Hpar maxit Hm1 Hme Hne Hl Hgd HD Hmm Hbd Hemp Hcorr tol.
    assert (HL : forall a c, nth_error l a = Some c -> local_agg F (agg_cells m ui (S a)) n_eig c (snd (evaluate (agg_cells m ui (S a)))) /\
      forall k, k < n_eig -> (dot (pair_residual c (snd (evaluate (agg_cells m ui (S a)))) k) (pair_residual c (snd (evaluate (agg_cells m ui (S a)))) k) <= tol * tol * (1 + fnat ((cy - 1) * me)))%K).
    { intros a c Ha. destruct (Hl a c Ha) as (draw & scratch & H). pose proof (Hev (agg_cells m ui (S a)) ltac:(apply NoDup_filter; apply seq_NoDup)) as HP.
      destruct (evaluate (agg_cells m ui (S a))) as [cols M]. cbn [fst snd] in *. destruct H as [Hlen E].
      pose proof HP as (P1 & P2 & P3 & P4 & P5).
      assert (Sy : symmetric_matrix M).
      { split; [unfold square; congruence|]. intros i j Hi Hj. rewrite !P5 by lia. f_equal. apply map_ext. intros d. apply Hsym. }
      assert (De : decoupled M []) by (intros x j []).
      destruct (C36_result _ _ _ _ _ _ _ _ _ _ _ _ _ _ _ _ _ _ E) as (kind & evals & _ & _ & _ & _ & _ & Ed & Em).
      destruct (@C67_lanczos K parse_double lobpcg fsqrt dstev tol2 rand std_sort lapack arpack debug draw params n_eig tolerance M [] cols scratch c cy me Hsq Hds Ht Hss Sy De Hek Hpar Hm1
        ltac:(fold maxit; lia) Hme Hne E) as (L1 & L2 & O & _ & R).
      split.
      - split; [rewrite Em; exact HP|]. split; [rewrite Em, Ed, P2; reflexivity|]. split; [exact L2|]. split; [exact L1|].
        intros k Hk. rewrite Em, <- P2. destruct O as [Sz _]. unfold sized_all in Sz. rewrite Forall_forall in Sz. apply Sz. apply nth_In. lia.
      - intros k Hk. apply (R k Hk). }
    assert (Hin : forall c, In c l -> length (ag_evecs c) = n_eig).
    { intros c Hc. apply In_nth_error in Hc. destruct Hc as [a Ha]. destruct (HL a c Ha) as [(_ & _ & L & _) _]. exact L. }
    split; [apply rows_of_length_const; exact Hin|].
    intros r Hr computed tc.
    assert (Hi : r / n_eig < length l) by (apply Nat.div_lt_upper_bound; lia).
    destruct (nth_error l (r / n_eig)) as [c|] eqn:Ec; [|apply nth_error_None in Ec; lia].
    destruct (HL _ _ Ec) as [HM HR].
    assert (Hk : r mod n_eig < n_eig) by (apply Nat.mod_upper_bound; lia).
    assert (Er : r = r / n_eig * n_eig + r mod n_eig) by (pose proof (Nat.div_mod r n_eig ltac:(lia)); lia).
    destruct (@C81_error debug F m conn ui evaluate A gd D counts p l n_eig mm bd ns nb corr HF Hev Hconn HA Hui Hid
      ltac:(intros a c' Ha; eexists; apply (HL a c' Ha)) Hgd HD Hmm Hbd Hemp Hcorr (r / n_eig) (r mod n_eig) c _ Ec HM Hk) as (_ & _ & X).
    rewrite <- Er in X. unfold computed, tc. rewrite X. apply HR. exact Hk.
  Qed.
End CFastAP2.
Print Assumptions C81_error.
Print Assumptions C81_lanczos.

(** ** Examples *)
(** Two cells with the matrix ((73, -36), (-36, 52))/25, whose eigenpairs are (1, (3, 4)/5) and (4, (4, -3)/5); each cell is an agglomerate. *)
Definition icm (c g h : nat) : QcOF :=
  if lmem (lcd 2 (fun c => c) c) g && lmem (lcd 2 (fun c => c) c) h then (if g =? h then if g =? c then q 73 25 else q 52 25 else q (-36) 25) else q 0 1.
Definition iF : fem QcOF := @mkFem QcOF 3 (lcd 2 (fun c => c)) icm.
Definition iA (g h : nat) : QcOF := lsum (map (fun c => icm c g h) (seq 0 2)).
Definition iui : list nat := [1; 2].
Definition iD (g : nat) : QcOF := iA g g.
Definition itable : list (list QcOF * list QcOF * (list QcOF * list QcOF)) :=
  [([q 4669 1250], [], ([q 4669 1250], [q 1 1]))].
Definition ilanczos (tolerance : QcOF) (a : nat) : outcome (agg_result QcOF) :=
  let '(cols, M) := assemble_patch iF (agg_cells (lmesh 2) iui a) in
  compute_local_eigenvectors ex_parse_double ex_no_lobpcg qsqrt (dstev_of itable) (q 1 1000000) (fun _ _ => q 0 1) (@insertion_sort nat) (fun _ _ _ => Fuel) ex_no_arpack true
    (fun c => if c =? 0 then q 4 5 else q 3 5) ex_params 1 tolerance M [] cols [].
Lemma iF_ok : fem_ok iF.
Proof.
  intros c. cbn [iF f_cd f_cm f_ndofs]. split.
  - intros g Hg. unfold lcd in Hg. destruct (Nat.ltb_spec c 2) as [Hc|Hc]; [|destruct Hg]. destruct Hg as [<-|[<-|[]]]; lia.
  - intros g h Hn. unfold icm. destruct (lmem _ g) eqn:E1; [|reflexivity]. destruct (lmem _ h) eqn:E2; [|reflexivity].
    exfalso. apply Hn. split; apply lmem_in; auto.
Qed.
Lemma icm_sym : forall c g h, icm c g h = icm c h g.
Proof.
  intros c g h. unfold icm. rewrite (andb_comm (lmem _ h)). destruct (_ && _) eqn:E; [|reflexivity]. rewrite (Nat.eqb_sym h g).
  destruct (Nat.eqb_spec g h); [subst; reflexivity|reflexivity].
Qed.
Lemma iA_ok : global_matrix iF (lmesh 2) iA.
Proof. exists (fun _ _ => 0%K). split; [intros; symmetry; apply Qcplus_0_r|auto]. Qed.

(** Lanczos with the tolerance 2 stops after one step with the pair (772/625, (4, 3)/5) for both agglomerates. *)
Definition icheck (a : nat) (c : agg_result QcOF) : bool :=
  (veqb (ag_evals c) [q 772 625] && veqb (nth 0 (ag_evecs c) []) [q 4 5; q 3 5] &&
   negb (feqb (nth 0 (pair_residual c (snd (assemble_patch iF (agg_cells (lmesh 2) iui a))) 0) 0%K) 0%K))%bool.
Lemma i_run : exists c1 c2, ilanczos (q 2 1) 1 = Ok c1 /\ ilanczos (q 2 1) 2 = Ok c2 /\ icheck 1 c1 = true /\ icheck 2 c2 = true.
Proof.
  destruct (ok_with_ex (ilanczos (q 2 1) 1) (icheck 1)) as (c1 & E1 & P1); [vm_compute; reflexivity|].
  destruct (ok_with_ex (ilanczos (q 2 1) 2) (icheck 2)) as (c2 & E2 & P2); [vm_compute; reflexivity|]. exists c1, c2. auto.
Qed.
Lemma i_map : forall t a c, ilanczos t a = Ok c -> ag_map c = fst (assemble_patch iF (agg_cells (lmesh 2) iui a)).
Proof.
  intros t a c E. unfold ilanczos in E. destruct (assemble_patch iF (agg_cells (lmesh 2) iui a)) as [cols M].
  destruct (C36_result _ _ _ _ _ _ _ _ _ _ _ _ _ _ _ _ _ _ E) as (_ & _ & _ & _ & _ & _ & _ & _ & Em). exact Em.
Qed.

(** The setting of the examples: everything C81_lanczos asks for. *)
Definition i_setting (l : list (agg_result QcOF)) (mm : rmats QcOF) (bd : list (list nat * list nat)) : Prop :=
  (forall a c, nth_error l a = Some c -> ilanczos (q 2 1) (S a) = Ok c) /\ length l = 2 /\ length (rows_of l) = 2 /\
  (forall a c, nth_error l a = Some c -> local_agg iF (agg_cells (lmesh 2) iui (S a)) 1 c (snd (assemble_patch iF (agg_cells (lmesh 2) iui (S a))))) /\
  gd_ok iD l (fun g => Some (iD g)) /\ (forall c g, In c l -> In g (ag_map c) -> iD g = iA g g /\ iD g <> 0%K) /\
  compute_restriction true true [2] 0 (fun g => Some (iD g)) (data_of l) = Ok mm /\
  build_boundary_agglomerates (lmesh 2) iui 2 (lconn 2 (fun c => c)) = Ok bd /\ bd = [([0], [1]); ([1], [0])].
Lemma i_exists : exists l mm bd, i_setting l mm bd /\ exists c1 c2, l = [c1; c2] /\ icheck 1 c1 = true /\ icheck 2 c2 = true.
Proof.
  destruct i_run as (c1 & c2 & E1 & E2 & P1 & P2).
  assert (Hl : forall a c, nth_error [c1; c2] a = Some c -> ilanczos (q 2 1) (S a) = Ok c).
  { intros [|[|a]] c Hc; cbn [nth_error] in Hc; [injection Hc as <-; exact E1|injection Hc as <-; exact E2|destruct a; discriminate Hc]. }
  assert (Hm : forall c, In c [c1; c2] -> forall g, In g (ag_map c) -> g < 3).
  { intros c [<-|[<-|[]]] g Hg; [rewrite (i_map _ _ E1) in Hg|rewrite (i_map _ _ E2) in Hg]; clear - Hg; vm_compute in Hg; lia. }
  assert (Hloc : forall a c, nth_error [c1; c2] a = Some c -> local_agg iF (agg_cells (lmesh 2) iui (S a)) 1 c (snd (assemble_patch iF (agg_cells (lmesh 2) iui (S a))))).
  { intros a c Ha. pose proof (Hl a c Ha) as E. unfold ilanczos in E.
    pose proof (@evaluate_ok_example QcOF iF (agg_cells (lmesh 2) iui (S a)) ltac:(apply NoDup_filter; apply seq_NoDup)) as HP.
    assert (Hn : nr (snd (assemble_patch iF (agg_cells (lmesh 2) iui (S a)))) <= 3).
    { destruct a as [|[|a]]; [vm_compute; lia|vm_compute; lia|destruct a; discriminate Ha]. }
    destruct (assemble_patch iF (agg_cells (lmesh 2) iui (S a))) as [cols M]. cbn [fst snd] in *. pose proof HP as (Q1 & Q2 & Q3 & Q4 & Q5).
    destruct (C36_result _ _ _ _ _ _ _ _ _ _ _ _ _ _ _ _ _ _ E) as (kind & evals & _ & _ & _ & _ & _ & Ed & Em).
    eapply (@C67_lanczos QcOF) with (c := 1) (m := 1) in E;
      [|exact qsqrt_ok|apply dstev_of_ok|apply fleb_le; vm_compute; reflexivity|apply insertion_sort_contract| |intros x j []|reflexivity|split; reflexivity|vm_compute; lia|
        change (Z.to_nat (pt_get parse_int ["max_iterations"%string] 200%Z ex_params)) with (Z.to_nat 200); transitivity 3; [exact Hn|vm_compute; lia]|lia|lia].
    - destruct E as (L1 & L2 & O & _). split; [rewrite Em; exact HP|]. split; [rewrite Em, Ed, Q2; reflexivity|]. split; [exact L2|]. split; [exact L1|].
      intros k Hk. destruct O as [Sz _]. unfold sized_all in Sz. rewrite Forall_forall in Sz. rewrite Em, <- Q2. apply Sz. apply nth_In. lia.
    - split; [unfold square; congruence|]. intros i j Hi Hj. rewrite !Q5 by lia. f_equal. apply map_ext. intros d. apply icm_sym. }
  assert (Hok : forall c, In c [c1; c2] -> agg_ok c /\ length (ag_evecs c) = 1 /\ length (ag_evals c) = 1).
  { intros c Hc. apply In_nth_error in Hc. destruct Hc as [a Ha]. eapply local_agg_ok. apply (Hloc a c Ha). }
  assert (Hgd : gd_ok iD [c1; c2] (fun g => Some (iD g))) by (intros c _ g _; reflexivity).
  exists [c1; c2], (rows_step true iD (n_rows_before [2] 0) (rows_of [c1; c2]) (mkR [] [] [])), [([0], [1]); ([1], [0])].
  split; [|exists c1, c2; auto]. split; [exact Hl|]. split; [reflexivity|]. split; [rewrite (@rows_of_length_const QcOF 1); [reflexivity|intros c Hc; apply (Hok c Hc)]|]. split; [exact Hloc|]. split; [exact Hgd|]. split.
  - intros c g Hc Hg. split; [reflexivity|]. specialize (Hm c Hc g Hg). do 3 (destruct g as [|g]; [qneq|]). lia.
  - split; [apply (@compute_restriction_spec QcOF true true [2] 0 _ iD [c1; c2] (fun c Hc => proj1 (Hok c Hc)) Hgd)|]. split; reflexivity.
Qed.

(** The bound of C81_lanczos: every column is off by at most 2 in the norm. *)
Example C81_example : exists l mm bd, i_setting l mm bd /\ (exists corr, fa_corrections (assemble_patch iF) true (r_E mm) (r_D mm) 0 2 3 2 bd corr) /\
  forall ns nb corr, fa_corrections (assemble_patch iF) true (r_E mm) (r_D mm) 0 2 ns nb bd corr -> forall r, r < 2 ->
    (sumn 3 (fun g => (sumn 3 (fun h => iA g h * spm_el (r_R mm) r h) - fa_ap (flat_map (@ag_evals QcOF) l) (r_E mm) corr 0 r g) *
                      (sumn 3 (fun h => iA g h * spm_el (r_R mm) r h) - fa_ap (flat_map (@ag_evals QcOF) l) (r_E mm) corr 0 r g)) <= q 4 1)%K.
Proof.
  destruct i_exists as (l & mm & bd & HS & c1 & c2 & El & P1 & P2). exists l, mm, bd. split; [exact HS|]. destruct HS as (Hl & Ll & Lr & Hloc & Hgd & HD & Hmm & Hbd & Ebd).
  assert (Hid : forall c, c < 2 -> owned (lmesh 2) c = true -> 1 <= nth c iui 0 <= 2) by (intros [|[|c]] Hc _; simpl; lia).
  split.
  { apply (@C15_run_exists QcOF iF (lmesh 2) (lconn 2 (fun c => c)) iui 2); auto; [exact iF_ok|apply evaluate_ok_example]. }
  intros ns nb corr Hcorr r Hr.
  assert (Hid' : forall c, c < 2 -> owned (lmesh 2) c = true -> 1 <= nth c iui 0 <= length l) by (rewrite Ll; exact Hid).
  destruct (@C81_lanczos QcOF true iF (lmesh 2) (lconn 2 (fun c => c)) iui (assemble_patch iF) iA (fun g => Some (iD g)) iD [2] 0 l mm bd ns nb corr
    ex_parse_double ex_no_lobpcg qsqrt (dstev_of itable) (q 1 1000000) (fun _ _ => q 0 1) (@insertion_sort nat) (fun _ _ _ => Fuel) ex_no_arpack ex_params 1 (q 2 1) 1 1
    iF_ok (@evaluate_ok_example QcOF iF) (lconn_ok _ 3 _) iA_ok icm_sym eq_refl Hid' qsqrt_ok (@dstev_of_ok QcOF itable)) as [_ H]; auto.
  - apply fleb_le; vm_compute; reflexivity.
  - apply insertion_sort_contract.
  - split; reflexivity.
  - vm_compute; lia.
  - intros a c Ha. exists (fun c => if c =? 0 then q 4 5 else q 3 5), []. pose proof (Hl a c Ha) as E. unfold ilanczos in E.
    assert (Hn : length (fst (assemble_patch iF (agg_cells (lmesh 2) iui (S a)))) <= 3).
    { destruct a as [|[|a]]; [vm_compute; lia|vm_compute; lia|]. exfalso. assert (S (S a) < length l) by (apply nth_error_Some; congruence). lia. }
    destruct (assemble_patch iF (agg_cells (lmesh 2) iui (S a))) as [cols M]. split; [|exact E].
    change (Z.to_nat (pt_get parse_int ["max_iterations"%string] 200%Z ex_params)) with (Z.to_nat 200). transitivity 3; [exact Hn|vm_compute; lia].
  - rewrite Ll. exact Hbd.
  - left. rewrite Ebd. intros q0 [<-|[<-|[]]]; discriminate.
  - rewrite Lr. exact Hcorr.
  - specialize (H r ltac:(rewrite Ll; lia)). cbv zeta in H. eapply fle_trans; [exact H|]. apply fleb_le; vm_compute; reflexivity.
Qed.

(** C81: the product differs from A R^T as soon as the pairs are not exact: Lanczos, all its calls successful, with a tolerance it meets. *)
Theorem C81_inexact_refuted : exists l mm bd, i_setting l mm bd /\ (exists corr, fa_corrections (assemble_patch iF) true (r_E mm) (r_D mm) 0 2 1 1 bd corr) /\
  forall ns nb corr, fa_corrections (assemble_patch iF) true (r_E mm) (r_D mm) 0 2 ns nb bd corr ->
    fa_ap (flat_map (@ag_evals QcOF) l) (r_E mm) corr 0 0 0 <> sumn 3 (fun h => (iA 0%nat h * spm_el (r_R mm) 0 h)%K).
Proof.
  destruct i_exists as (l & mm & bd & HS & c1 & c2 & El & P1 & P2). exists l, mm, bd. split; [exact HS|]. destruct HS as (Hl & Ll & Lr & Hloc & Hgd & HD & Hmm & Hbd & Ebd).
  assert (Hid : forall c, c < 2 -> owned (lmesh 2) c = true -> 1 <= nth c iui 0 <= 2) by (intros [|[|c]] Hc _; simpl; lia).
  split.
  { apply (@C15_run_exists QcOF iF (lmesh 2) (lconn 2 (fun c => c)) iui 2); auto; [exact iF_ok|apply evaluate_ok_example]. }
  intros ns nb corr Hcorr X.
  assert (Hid' : forall c, c < 2 -> owned (lmesh 2) c = true -> 1 <= nth c iui 0 <= length l) by (rewrite Ll; exact Hid).
  assert (H1 : nth_error l 0 = Some c1) by (rewrite El; reflexivity).
  assert (Hbd' : build_boundary_agglomerates (lmesh 2) iui (length l) (lconn 2 (fun c => c)) = Ok bd) by (rewrite Ll; exact Hbd).
  assert (Hc' : fa_corrections (assemble_patch iF) true (r_E mm) (r_D mm) (n_rows_before [2] 0) (length (rows_of l)) ns nb bd corr) by (rewrite Lr; exact Hcorr).
  assert (Hne : (forall q0, In q0 bd -> fst q0 <> []) \/ (forall q0, In q0 bd -> fst q0 = [])) by (left; rewrite Ebd; intros q0 [<-|[<-|[]]]; discriminate).
  destruct (@C81_error QcOF true iF (lmesh 2) (lconn 2 (fun c => c)) iui (assemble_patch iF) iA (fun g => Some (iD g)) iD [2] 0 l 1 mm bd ns nb corr
    iF_ok (@evaluate_ok_example QcOF iF) (lconn_ok _ 3 _) iA_ok eq_refl Hid' (fun a c Ha => ex_intro _ _ (Hloc a c Ha)) Hgd HD Hmm Hbd' Hne Hc' 0 0 c1 _ H1 (Hloc 0 c1 H1) ltac:(lia)) as (H & _ & _).
  specialize (H 0 0). rewrite (i_map _ _ (Hl 0 c1 H1)) in H. specialize (H eq_refl).
  unfold icheck in P1. apply andb_true_iff in P1. destruct P1 as [_ P1]. apply negb_true_iff in P1. rewrite <- H in P1. clear H.
  change (n_rows_before [2] 0) with 0 in P1. change (0 * 1 + 0) with 0 in P1. change (0 + 0) with 0 in P1. change (f_ndofs iF) with 3 in P1. rewrite X in P1.
  match type of P1 with feqb (?a - ?b)%K _ = false => assert (Z : (a - b)%K = 0%K) by (apply Qcplus_opp_r) end.
  rewrite Z in P1. vm_compute in P1. discriminate P1.
Qed.
Print Assumptions C81_inexact_refuted.
