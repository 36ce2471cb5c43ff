(** Property theorems about the host preconditioner from the mesh to vmult: C82. *)
From Coq Require Import String List Arith ZArith Bool Lia Field QArith Qcanon.
From Verif Require Import Base OField Mat LinAlg M_Ptree S_Ptree P_Ptree M_Agglo S_Agglo M_WorkStream M_Restr S_Restr M_FastAP S_FastAP M_Lanczos S_Lanczos E_Lanczos M_Eig S_Eig
  M_Hier S_Hier P_HierE M_Smoother P_Smoother M_Host S_Host P_Host P_HostN M_HostEnd S_HostEnd P_HostEnd E_Solve E_CudaHier P_CudaHier3 C_Host C_Lanczos C_Eig C_FastAP P_Perm.
Import ListNotations.
Set Implicit Arguments.
Open Scope list_scope.
Open Scope nat_scope.

Section CHostEnd.
  Variable K : ofield.
  Local Notation vec := (vec K).
  (** External code and user code, as in M_HostEnd.v. *)
  Variable parse_unsigned : string -> option Z.
  Variable parse_double : string -> option K.
  Variable lobpcg : (vec -> vec) -> Z -> K -> list vec -> bool * eigensolution K.
  Variable fsqrt : K -> option K.
  Variable dstev : list K -> list K -> outcome (list K * list K).
  Variable tol2 : K.
  Variable rand : nat -> nat -> K.
  Variable std_sort : (nat -> nat -> bool) -> list nat -> list nat.
  Variable lapack : mat K -> K -> K -> outcome (list K * list vec).
  Variable arpack : mat K -> K -> vec -> nat -> outcome (list K * list vec).
  Variable partition : partitioner_kind -> list nat.
  Variable conn : nat -> list nat.
  Variable evaluate : list nat -> list nat * mat K.
  Variable constrained : list nat -> list nat.
  Variable draws : nat -> nat -> K.
  Variables (debug dim3 : bool).
  Variable m : mesh.
  Variable F : fem K.
  Variable gd : nat -> option K.
  Local Notation A := (assembled F m).
  Local Notation run := (restrictor_run parse_unsigned parse_double lobpcg fsqrt dstev tol2 rand std_sort lapack arpack partition conn evaluate constrained draws
    debug dim3 m (f_ndofs F) gd (fun g => ent A g g)).
  Local Notation problem := (local_problem parse_double lobpcg fsqrt dstev tol2 rand std_sort lapack arpack evaluate constrained draws debug m).
  Local Notation agglomerates := (build_agglomerates parse_unsigned partition debug dim3 m).
  Local Notation fresh := (repeat 0 (n_cells m)).

  (** One rank, a mesh without local refinement, symmetric cell matrices with an SPD sum, no constrained dofs, exact LAPACK, the diagonal of A. *)
  Hypothesis Hmesh : mesh_ok debug m.
  Hypothesis Hpart : forall k, length (owned_cells m) <= length (partition k).
  Hypothesis Hserial : serial m.
  Hypothesis Hfem : fem_ok F.
  Hypothesis Heval : evaluate_ok F evaluate.
  Hypothesis Hconn : connectivity_ok F m conn.
  Hypothesis Hsym : forall c g h, f_cm F c g h = f_cm F c h g.
  Hypothesis Hconstr : forall cells, constrained cells = [].
  Hypothesis Hlapack : lapack_ok lapack.
  Hypothesis Hspd : spd (f_ndofs F) (mulvec A).
  Hypothesis Hgd : forall g, g < f_ndofs F -> gd g = Some (ent A g g).

  (** C82: "fast_ap" changes how A R^T is computed, not the preconditioner: with or without it, the restriction is the same, both hierarchies are
      constructed, and vmult gives the same result, that of the two-grid cycle. *)
  Theorem C82_fast_ap_same : forall accepts_double mk ilu ml eps te0 p k R AP R' AP',
    let p' := pt_put ["fast_ap"%string] "true" p in
    pt_get parse_bool ["fast_ap"%string] false p = false -> c_levels p = 2%Z ->
    dealii_smoother_kind p = Ok k -> linear (f_ndofs F) (f_ndofs F) (kind_vmult ilu k A) -> dealii_solver_kind accepts_double p = Ok KDirect ->
    (forall eig, pt_find p ["eigensolver"%string] = Some eig -> eigensolver_matrix debug eig = Ok ELapack) ->
    (forall agg ui n, pt_find p ["agglomeration"%string] = Some agg -> agglomerates agg fresh = Ok (ui, n) ->
      (forall a, 1 <= a <= n -> touches_others m ui conn a) \/ (forall a, 1 <= a <= n -> ~ touches_others m ui conn a)) ->
    mk p = Ok (R, AP) -> run fresh p R AP -> mk p' = Ok (R', AP') -> run fresh p' R' AP' -> full_row_rank R ->
    R' = R /\ exists h s l h' s' l',
      construct (host_helpers accepts_double A mk ilu ml) eps te0 debug (Ok tt) (Some p) None = (Ok h, s, l) /\
      construct (host_helpers accepts_double A mk ilu ml) eps te0 debug (Ok tt) (Some p') None = (Ok h', s', l') /\
      forall te x b, length x = f_ndofs F -> length b = f_ndofs F ->
        exists y lg lg', hierarchy_vmult te h x b [] = (Ok y, lg) /\ hierarchy_vmult te h' x b [] = (Ok y, lg') /\
          two_grid A R (kind_vmult ilu k A) (c_steps p) b (if c_prec p then vzero (f_ndofs F) else x) y.
  Proof.
    intros ad mk ilu ml eps te0 p k R AP R' AP' p' HF HL SK LK CK HE HT M1 R1 M2 R2 FR.
    assert (N1 : forall q, pt_find p' ("eigensolver"%string :: q) = pt_find p ("eigensolver"%string :: q)) by (intros q; apply put_fast_find; discriminate).
    assert (N2 : forall q, pt_find p' ("agglomeration"%string :: q) = pt_find p ("agglomeration"%string :: q)) by (intros q; apply put_fast_find; discriminate).
    destruct (@same_restriction K parse_unsigned parse_double lobpcg fsqrt dstev tol2 rand std_sort lapack arpack partition conn evaluate constrained draws debug dim3 m F gd
      p p' R AP R' AP' R1 R2 (eq_sym (N1 [])) (eq_sym (N2 [])) HE) as (<- & DR).
    split; auto.
    assert (FP : meq AP' (mmul A (mtrans R))).
    { apply (@fast_product K parse_unsigned parse_double lobpcg fsqrt dstev tol2 rand std_sort lapack arpack partition conn evaluate constrained draws debug dim3 m F gd
        Hmesh Hpart Hserial Hfem Heval Hsym Hconstr Hlapack Hspd Hgd fresh p' R AP' R2 eq_refl Hconn); auto.
      - apply put_fast_get.
      - intros eig E. rewrite N1 in E. apply HE; exact E.
      - intros agg ui n E. rewrite N2 in E. apply HT; exact E. }
    assert (PE : pt_find p ["eigensolver"%string] <> None /\ pt_find p ["agglomeration"%string] <> None).
    { destruct R1 as (eig & agg & ? & ? & ? & ? & ? & ? & P1 & P2 & _). rewrite P1, P2. split; discriminate. }
    destruct PE as (PE & PA). destruct (put_fast_values "true" p) as (V1 & V2 & V3). fold p' in V1, V2, V3.
    destruct (@host_two_level K ad A mk ilu ml eps te0 debug p k R AP) as (h & s & l & C1 & W1); auto; [intros Q; congruence|].
    destruct (@host_two_level K ad A mk ilu ml eps te0 debug p' k R AP') as (h' & s' & l' & C2 & W2); auto;
      [congruence|unfold p'; rewrite put_fast_smoother; auto|unfold p'; rewrite put_fast_solver; auto|rewrite N1; auto|rewrite N2; auto|].
    exists h, s, l, h', s', l'. split; [exact C1|]. split; [exact C2|]. intros te x b Hx Hb.
    destruct (W1 te x b [] eq_refl Hx Hb) as (y & lg & E1 & _ & T1). destruct (W2 te x b [] eq_refl Hx Hb) as (y' & lg' & E2 & _ & T2).
    rewrite V2, V3 in T2.
    assert (E : y' = y) by (eapply two_grid_unique; [| | | |exact T2|exact T1]; auto).
    exists y, lg, lg'. split; [exact E1|]. split; [rewrite <- E; exact E2|exact T1].
  Qed.

  (** C82: such runs exist in every build, debug self-check included, once LAPACK finds enough pairs for every agglomerate. *)
  Theorem C82_runs_exist : forall p eig agg ui n, pt_find p ["eigensolver"%string] = Some eig -> pt_find p ["agglomeration"%string] = Some agg ->
    agglomerates agg fresh = Ok (ui, n) -> eigensolver_matrix debug eig = Ok ELapack -> 1 <= n_eigenvectors eig -> 0 < f_ndofs F ->
    (forall a, 1 <= a <= n -> exists c, problem eig ui a [] = Ok c) -> exists R AP, run fresh p R AP.
  Proof.
    intros p eig agg ui n P1 P2 BA EL HE Hn HP. eapply run_exists with (ui' := ui); eauto.
  Qed.

  (** C82: from the mesh to an error-reducing symmetric preconditioner: the conclusions of C57 with the restriction and product build_restrictor computes,
      with or without "fast_ap". *)
  Theorem C82_from_mesh_to_preconditioner : forall accepts_double mk ilu ml eps te0 p R AP,
    c_prec p = true -> (0 < c_steps p)%nat -> c_levels p = 2%Z ->
    ci_eq (text_at p ["coarse"; "type"]%string "direct") "direct" ->
    ci_eq (text_at p ["smoother"; "type"]%string "Symmetric Gauss-Seidel") "symmetric gauss-seidel" ->
    (forall eig, pt_find p ["eigensolver"%string] = Some eig -> eigensolver_matrix debug eig = Ok ELapack) ->
    (forall agg ui n, pt_find p ["agglomeration"%string] = Some agg -> agglomerates agg fresh = Ok (ui, n) ->
      (forall a, 1 <= a <= n -> touches_others m ui conn a) \/ (forall a, 1 <= a <= n -> ~ touches_others m ui conn a)) ->
    mk p = Ok (R, AP) -> run fresh p R AP -> full_row_rank R ->
    exists h s l, construct (host_helpers accepts_double A mk ilu ml) eps te0 debug (Ok tt) (Some p) None = (Ok h, s, l) /\
    exists Mv : vec -> vec, linear (f_ndofs F) (f_ndofs F) Mv /\ self_adjoint (f_ndofs F) Mv /\
      (forall b, length b = f_ndofs F -> b <> vzero (f_ndofs F) -> flt 0%K (dot (Mv b) b)) /\
      (forall e, length e = f_ndofs F -> e <> vzero (f_ndofs F) -> flt (energy (mulvec A) (vsub e (Mv (mulvec A e)))) (energy (mulvec A) e)) /\
      forall te x b l, open_sections l = [] -> length x = f_ndofs F -> length b = f_ndofs F ->
        exists l', hierarchy_vmult te h x b l = (Ok (Mv b), l') /\ open_sections l' = [].
  Proof.
    intros ad mk ilu ml eps te0 p R AP P1 P2 P3 P4 P5 HE HT M1 R1 FR.
    assert (PE : pt_find p ["eigensolver"%string] <> None /\ pt_find p ["agglomeration"%string] <> None /\ nc R = f_ndofs F).
    { destruct R1 as (eig & agg & ? & ? & ? & ? & ? & ? & Q1 & Q2 & _ & _ & _ & -> & _). rewrite Q1, Q2. split; [discriminate|]. split; [discriminate|reflexivity]. }
    destruct PE as (PE & PA & DR).
    apply (@C57_default_host_configuration K ad A mk ilu ml eps te0 debug p); auto.
    right. split; auto. split; auto. split; auto. split; auto. exists R, AP. split; auto. split; auto. split; auto. intros HF.
    apply (@fast_product K parse_unsigned parse_double lobpcg fsqrt dstev tol2 rand std_sort lapack arpack partition conn evaluate constrained draws debug dim3 m F gd
        Hmesh Hpart Hserial Hfem Heval Hsym Hconstr Hlapack Hspd Hgd fresh p R AP R1 eq_refl Hconn); auto.
  Qed.
End CHostEnd.
Print Assumptions C82_fast_ap_same.
Print Assumptions C82_runs_exist.
Print Assumptions C82_from_mesh_to_preconditioner.

(** Two line elements with the matrix ((17, -12), (-12, 10)), whose eigenpairs are (1, (3/5, 4/5)) and (26, (4/5, -3/5)), each an agglomerate (METIS). *)
Definition hcm (c g h : nat) : QcOF :=
  if lmem (lcd 2 (fun c => c) c) g && lmem (lcd 2 (fun c => c) c) h then (if g =? h then (if g =? c then q 17 1 else q 10 1) else q (-12) 1) else q 0 1.
Definition hF : fem QcOF := @mkFem QcOF 3 (lcd 2 (fun c => c)) hcm.
Definition heig : ptree := Node "" [("type"%string, leaf "lapack")].
Definition hparams : ptree := Node "" [("eigensolver"%string, heig);
  ("agglomeration"%string, Node "" [("partitioner"%string, leaf "metis"); ("n_agglomerates"%string, leaf "2")])].
Definition hA2 : mat QcOF := assembled hF (lmesh 2).
Definition hgd (g : nat) : option QcOF := Some (ent hA2 g g).
Definition hlapack := lapack_of [q 29 2; q 79 2] [[q 3 5; q 4 5]; [q 4 5; q (-3) 5]].
Definition hproblem := local_problem ex_parse_double ex_no_lobpcg qsqrt (fun _ _ => Fuel) (q 0 1) (fun _ _ => q 0 1) (@insertion_sort nat) hlapack ex_no_arpack
  (assemble_patch hF) (fun _ => []) (fun _ => ex_draw) true (lmesh 2).
Definition hrun := restrictor_run (fun s => parse_int s) ex_parse_double ex_no_lobpcg qsqrt (fun _ _ => Fuel) (q 0 1) (fun _ _ => q 0 1) (@insertion_sort nat) hlapack ex_no_arpack
  (fun _ => [0; 1]) (lconn 2 (fun c => c)) (assemble_patch hF) (fun _ => []) (fun _ => ex_draw) true false (lmesh 2) 3 hgd (fun g => ent hA2 g g).
(** R R^T of the restriction. *)
Definition hrank : outcome bool :=
  let! c1 := hproblem heig [1; 2] 1 [] in let! c2 := hproblem heig [1; 2] 2 [] in
  let! mm := compute_restriction true true [length (da_evecs (data_of [c1; c2]))] 0 hgd (data_of [c1; c2]) in
  let R := spm_matrix (length (da_evecs (data_of [c1; c2]))) 3 (r_R mm) in
  Ok ((length (da_evecs (data_of [c1; c2])) =? 2) && posdef 2 (mmul R (mtrans R)))%bool.
Lemma bind_Ok : forall X Y (o : outcome X) (f : X -> outcome Y) y, bind o f = Ok y -> exists x, o = Ok x /\ f x = Ok y.
Proof. intros X Y [x| | | |] f y H; try discriminate H. exists x. auto. Qed.
Lemma Ok_inj : forall X (a b : X), Ok a = Ok b -> a = b.
Proof. intros X a b H. injection H as ->. reflexivity. Qed.
Lemma hrank_ok : hrank = Ok true.
Proof. vm_compute. reflexivity. Qed.

Lemma hfem_ok : fem_ok hF.
Proof.
  intros c. cbn [hF f_cd f_cm f_ndofs]. split.
  - intros g Hg. unfold lcd in Hg. destruct (Nat.ltb_spec c 2) as [Hc|Hc]; [|destruct Hg]. destruct Hg as [<-|[<-|[]]]; lia.
  - intros g h Hn. unfold hcm. destruct (lmem _ g) eqn:E1; [|reflexivity]. destruct (lmem _ h) eqn:E2; [|reflexivity].
    exfalso. apply Hn. split; apply lmem_in; auto.
Qed.
Lemma hsym : forall c g h, f_cm hF c g h = f_cm hF c h g.
Proof.
  intros c g h. cbn [hF f_cm]. unfold hcm. rewrite (andb_comm (lmem _ g)). destruct (_ && _)%bool; auto. rewrite (Nat.eqb_sym h g).
  destruct (Nat.eqb_spec g h) as [->|]; auto.
Qed.
Lemma hA2_spd : spd 3 (mulvec hA2).
Proof.
  assert (S : symmetric_matrix hA2).
  { split; [reflexivity|]. intros i j _ _. unfold hA2, assembled. cbn [ent]. apply lsum_map_ext. intros c _. apply hsym. }
  apply (@entries_spd QcOF hA2). apply (@posdef_spd QcOF hA2 S). vm_compute. reflexivity.
Qed.
Lemma hmesh : mesh_ok true (lmesh 2).
Proof. intros c _. repeat split. Qed.
Lemma hserial : serial (lmesh 2).
Proof. intros c _. reflexivity. Qed.
Lemma hconn : connectivity_ok hF (lmesh 2) (lconn 2 (fun c => c)).
Proof. exact (@lconn_ok 2 3 (fun c => c)). Qed.
Lemma hpart : forall k : partitioner_kind, length (owned_cells (lmesh 2)) <= length [0; 1].
Proof. intros k. vm_compute. lia. Qed.
Lemma hagg : forall agg ui n, pt_find hparams ["agglomeration"%string] = Some agg ->
  build_agglomerates (fun s => parse_int s) (fun _ => [0; 1]) true false (lmesh 2) agg [0; 0] = Ok (ui, n) -> ui = [1; 2] /\ n = 2.
Proof. intros agg ui n P H. injection P as <-. vm_compute in H. injection H as <- <-. auto. Qed.
Lemma htouch : forall a, 1 <= a <= 2 -> touches_others (lmesh 2) [1; 2] (lconn 2 (fun c => c)) a.
Proof.
  intros a Ha. assert (E : a = 1 \/ a = 2) by lia. destruct E as [-> | ->]; [exists 0, 1|exists 1, 0]; (split; [split; [cbn; lia|split; reflexivity]|]);
    (split; [vm_compute; auto|]); intros (_ & _ & E); discriminate E.
Qed.
Lemma hexists : forall p, pt_find p ["eigensolver"%string] = pt_find hparams ["eigensolver"%string] ->
  pt_find p ["agglomeration"%string] = pt_find hparams ["agglomeration"%string] -> exists R AP, hrun [0; 0] p R AP.
Proof.
  intros p P1 P2. unfold hrun.
  eapply (@C82_runs_exist QcOF) with (F := hF) (ui := [1; 2]) (n := 2).
  - exact hmesh.
  - exact hpart.
  - exact hserial.
  - exact hfem_ok.
  - apply evaluate_ok_example.
  - exact hconn.
  - exact hsym.
  - reflexivity.
  - apply lapack_of_ok.
  - exact hA2_spd.
  - intros g _. reflexivity.
  - rewrite P1. reflexivity.
  - rewrite P2. reflexivity.
  - vm_compute. reflexivity.
  - reflexivity.
  - vm_compute. lia.
  - cbn. lia.
  - intros a Ha. fold hproblem. assert (E : a = 1 \/ a = 2) by lia. assert (H := hrank_ok). unfold hrank in H.
    apply bind_Ok in H. destruct H as (c1 & E1 & H). apply bind_Ok in H. destruct H as (c2 & E2 & _).
    destruct E as [-> | ->]; [exists c1; exact E1|exists c2; exact E2].
Qed.
Lemma hfull : forall p R AP, pt_find p ["eigensolver"%string] = pt_find hparams ["eigensolver"%string] ->
  pt_find p ["agglomeration"%string] = pt_find hparams ["agglomeration"%string] -> hrun [0; 0] p R AP -> full_row_rank R.
Proof.
  intros p R AP P1 P2 (eig & agg & ui & n & ns & nb & d & mm & Q1 & Q2 & BA & C & CR & -> & _).
  rewrite P1 in Q1. rewrite P2 in Q2. destruct (@hagg agg ui n Q2 BA) as (-> & ->). injection Q1 as <-.
  assert (H := hrank_ok). unfold hrank in H. fold hproblem in C.
  eapply (@collected QcOF) in C; [|reflexivity]. destruct C as (res & HP & ->). fold hproblem in HP.
  cbn [seq map] in *. rewrite (HP 1 ltac:(lia)), (HP 2 ltac:(lia)) in H. cbn [bind] in H. rewrite CR in H. cbn [bind] in H. apply Ok_inj in H.
  apply andb_true_iff in H. destruct H as (H1 & H2). apply Nat.eqb_eq in H1. rewrite H1 in *.
  apply rank_test. apply posdef_spd; [|exact H2]. split; [reflexivity|].
  intros i j _ _. cbn [ent mmul mtrans]. apply sumn_ext. intros k _. apply Qcmult_comm.
Qed.

Example C82_example : exists R AP R' AP', hrun [0; 0] hparams R AP /\ hrun [0; 0] (pt_put ["fast_ap"%string] "true" hparams) R' AP' /\ R' = R /\
  let mk := fun p => if pt_get parse_bool ["fast_ap"%string] false p then Ok (R', AP') else Ok (R, AP) in
  exists h s l h' s' l',
    construct (host_helpers (fun _ => false) hA2 mk (fun _ r => r) (fun _ _ r => r)) 0%K (mkTenv true true) true (Ok tt) (Some hparams) None = (Ok h, s, l) /\
    construct (host_helpers (fun _ => false) hA2 mk (fun _ r => r) (fun _ _ r => r)) 0%K (mkTenv true true) true (Ok tt)
      (Some (pt_put ["fast_ap"%string] "true" hparams)) None = (Ok h', s', l') /\
    forall x b, length x = 3 -> length b = 3 -> exists y lg lg',
      hierarchy_vmult (mkTenv true true) h x b [] = (Ok y, lg) /\ hierarchy_vmult (mkTenv true true) h' x b [] = (Ok y, lg') /\
      two_grid hA2 R (ssor_vmult hA2) 1 b (vzero 3) y.
Proof.
  destruct (@hexists hparams eq_refl eq_refl) as (R & AP & R1).
  destruct (@hexists (pt_put ["fast_ap"%string] "true" hparams) eq_refl eq_refl) as (R' & AP' & R2).
  assert (FR := @hfull hparams R AP eq_refl eq_refl R1).
  exists R, AP, R', AP'. split; [exact R1|]. split; [exact R2|].
  set (mk := fun p => if pt_get parse_bool ["fast_ap"%string] false p then Ok (R', AP') else Ok (R, AP)).
  destruct (@C82_fast_ap_same QcOF (fun s => parse_int s) ex_parse_double ex_no_lobpcg qsqrt (fun _ _ => Fuel) (q 0 1) (fun _ _ => q 0 1) (@insertion_sort nat) hlapack ex_no_arpack (fun _ => [0; 1]) (lconn 2 (fun c => c)) (assemble_patch hF) (fun _ => []) (fun _ => ex_draw)
    true false (lmesh 2) hF hgd hmesh hpart hserial hfem_ok (@evaluate_ok_example QcOF hF)
    hconn hsym (fun _ => eq_refl) (lapack_of_ok _ _) hA2_spd (fun _ _ => eq_refl) (fun _ => false) mk (fun _ r => r) (fun _ _ r => r) 0%K (mkTenv true true) hparams KSsor
    R AP R' AP') as (E & h & s & l & h' & s' & l' & C1 & C2 & V); try exact R1; try exact R2; try exact FR; try reflexivity.
  - apply (@ssor_linear QcOF hA2). reflexivity.
  - intros eig E. injection E as <-. reflexivity.
  - intros agg ui n P B. left. intros a Ha. destruct (@hagg agg ui n P B) as (-> & ->). apply htouch. exact Ha.
  - split; [exact E|]. exists h, s, l, h', s', l'. split; [exact C1|]. split; [exact C2|]. intros x b Hx Hb. exact (V (mkTenv true true) x b Hx Hb).
Qed.

(** The same hierarchy, with fast_ap, is an error-reducing preconditioner. *)
Example C82_preconditioner_example : exists R AP, hrun [0; 0] (pt_put ["fast_ap"%string] "true" hparams) R AP /\
  exists h s l, construct (host_helpers (fun _ => false) hA2 (fun _ => Ok (R, AP)) (fun _ r => r) (fun _ _ r => r)) 0%K (mkTenv true true) true (Ok tt)
    (Some (pt_put ["fast_ap"%string] "true" hparams)) None = (Ok h, s, l) /\
  exists Mv, self_adjoint 3 Mv /\
    (forall e, length e = 3 -> e <> vzero 3 -> flt (energy (mulvec hA2) (vsub e (Mv (mulvec hA2 e)))) (energy (mulvec hA2) e)) /\
    forall x b, length x = 3 -> length b = 3 -> exists l', hierarchy_vmult (mkTenv true true) h x b [] = (Ok (Mv b), l').
Proof.
  destruct (@hexists (pt_put ["fast_ap"%string] "true" hparams) eq_refl eq_refl) as (R & AP & R1).
  assert (FR := @hfull (pt_put ["fast_ap"%string] "true" hparams) R AP eq_refl eq_refl R1). exists R, AP. split; [exact R1|].
  destruct (@C82_from_mesh_to_preconditioner QcOF (fun s => parse_int s) ex_parse_double ex_no_lobpcg qsqrt (fun _ _ => Fuel) (q 0 1) (fun _ _ => q 0 1) (@insertion_sort nat) hlapack ex_no_arpack (fun _ => [0; 1]) (lconn 2 (fun c => c)) (assemble_patch hF) (fun _ => []) (fun _ => ex_draw)
    true false (lmesh 2) hF hgd hmesh hpart hserial hfem_ok (@evaluate_ok_example QcOF hF)
    hconn hsym (fun _ => eq_refl) (lapack_of_ok _ _) hA2_spd (fun _ _ => eq_refl) (fun _ => false) (fun _ => Ok (R, AP)) (fun _ r => r) (fun _ _ r => r) 0%K (mkTenv true true)
    (pt_put ["fast_ap"%string] "true" hparams) R AP) as (h & s & l & C1 & Mv & _ & SA & _ & ER & V); try exact R1; try exact FR; try reflexivity.
  - vm_compute. lia.
  - apply lower_ci; [apply no_upperb_ok; reflexivity|reflexivity].
  - apply lower_ci; [apply no_upperb_ok; reflexivity|reflexivity].
  - intros eig E. injection E as <-. reflexivity.
  - intros agg ui n P B. left. intros a Ha. destruct (@hagg agg ui n P B) as (-> & ->). apply htouch. exact Ha.
  - exists h, s, l. split; [exact C1|]. exists Mv. split; [exact SA|]. split; [exact ER|]. intros x b Hx Hb.
    destruct (V (mkTenv true true) x b [] eq_refl Hx Hb) as (l' & V' & _). exists l'. exact V'.
Qed.
