(** Property theorems about the convergence rate measured by the driver: C103. *)
From Coq Require Import String List Arith ZArith Bool Lia Field QArith Qcanon.
From Verif Require Import Base OField Mat LinAlg M_Ptree S_Ptree P_Ptree M_Agglo S_Agglo M_WorkStream M_Restr S_Restr P_Restr P_Restr2 M_FastAP S_FastAP M_Lanczos S_Lanczos E_Lanczos P_Lanczos9
  M_Eig S_Eig P_Eig M_Hier S_Hier P_HierE P_HierS M_Smoother P_Smoother M_Host S_Host P_Host P_HostN M_HostEnd S_HostEnd P_HostEnd E_Solve E_CudaHier P_CudaHier3 C_Host C_Lanczos C_Eig
  C_FastAP C_HostEnd P_AmgeDev2 P_Perm S_Rate P_Rate P_Rate2 P_Approx M_RateRun S_RateRun P_RateRun C_Rate.
Import ListNotations.
Set Implicit Arguments.
Open Scope list_scope.
Open Scope nat_scope.

(** C103: any hierarchy. *)
Section CAny.
  Variable K : ofield.
  Add Field KfieldRR1 : (f_field K).
  Local Open Scope K_scope.
  Local Notation vec := (vec K).
  Variables (n : nat) (A : vec -> vec) (h : hierarchy K) (rho : K).
  Hypothesis LA : linear n n A.
  Hypothesis SA : spd n A.
  Hypothesis HR : reducing_cycle n A h rho.
  (** C103: what the driver reports, and bounds of it. *)
  Theorem C103_measures : forall mu Lam, symmetric_cycle n A h -> (forall v, length v = n -> mu * dot v v <= energy A v) ->
    (forall v, length v = n -> energy A v <= Lam * dot v v) -> 0 < mu -> 0 <= Lam -> measures_rate n A h rho mu Lam.
  Proof.
    intros mu Lam HS Hm0 HL0 Pm PL te x xs l N Hl Lx Ls. pose proof (lower_from LA SA Pm Hm0) as Hm. pose proof (@upper_from K n A Lam LA SA HL0) as HL.
    destruct (@tr_ok K n A h rho HR te x xs l Hl Lx Ls N) as (E1 & _ & _). destruct (@tr_ok K n A h rho HR te x xs l Hl Lx Ls (S N)) as (E2 & O2 & _).
    destruct (@rate_value K n A h rho LA SA HR te x xs l Hl Lx Ls N) as (v & E3 & RP).
    exists (tr A h te x xs l N), (tr A h te x xs l (S N)), v, (tl A h te x xs l N), (tl A h te x xs l (S N)).
    split; [exact E1|]. split; [exact E2|]. split; [exact O2|]. split; [exact E3|]. split; [exact RP|].
    split; [exact (@rr_bound K n A h rho LA HR te x xs l Hl Lx Ls mu Lam Hm HL Pm PL N)|].
    split; [exact (@rr_total K n A h rho LA HR te x xs l Hl Lx Ls mu Lam Hm HL Pm PL (S N))|].
    split; [exact (@en_step K n A h rho HR te x xs l Hl Lx Ls N)|].
    exact (@mean_factor K n A h rho LA SA HR te x xs l Hl Lx Ls HS N).
  Qed.
  (** C103: later cycles never reduce the energy by a smaller factor than earlier ones. *)
  Theorem C103_factors : symmetric_cycle n A h -> growing_factors n A h.
  Proof.
    intros HS te x xs l k Hl Lx Ls. destruct (@tr_ok K n A h rho HR te x xs l Hl Lx Ls k) as (E1 & _ & _).
    exists (tr A h te x xs l k), (tr A h te x xs l (S k)), (tr A h te x xs l (S (S k))), (tl A h te x xs l k), (tl A h te x xs l (S k)), (tl A h te x xs l (S (S k))).
    split; [exact E1|]. split; [exact (@tr_step K n A h rho HR te x xs l Hl Lx Ls k)|]. split; [exact (@tr_step K n A h rho HR te x xs l Hl Lx Ls (S k))|].
    exact (@factors K n A h rho LA SA HR te x xs l Hl Lx Ls HS k).
  Qed.
End CAny.
Print Assumptions C103_measures.
Print Assumptions C103_factors.

(** C103: the hierarchy with the default smoother and coarse solver. *)
Section CHost.
  Variable K : ofield.
  Add Field KfieldRR2 : (f_field K).
  Local Notation vec := (vec K).
  Variables (accepts_double : string -> bool) (A R AP : mat K) (mk : ptree -> outcome (mat K * mat K)) (ilu : mat K -> vec -> vec) (ml : ml_list -> mat K -> vec -> vec).
  Variables (eps : K) (te0 : tenv) (debug : bool) (p : ptree).
  Hypothesis Hsquare : nr A = nc A.
  Hypothesis Hspd : spd (nc A) (mulvec A).
  Hypothesis Hdef : default_two_level p.
  Hypothesis Hsolver : c_prec p = false.
  Hypothesis Heig : pt_find p ["eigensolver"%string] <> None.
  Hypothesis Hagg : pt_find p ["agglomeration"%string] <> None.
  Hypothesis Hmk : mk p = Ok (R, AP).
  Hypothesis Hcols : nc R = nc A.
  Hypothesis Hrank : full_row_rank R.
  Hypothesis Hproduct : pt_get parse_bool ["fast_ap"%string] false p = true -> meq AP (mmul A (mtrans R)).
  Local Notation built h := (exists s l, construct (host_helpers accepts_double A mk ilu ml) eps te0 debug (Ok tt) (Some p) None = (Ok h, s, l)).

  Lemma host_cycle : exists h, built h /\ forall te x b l, open_sections l = [] -> length x = nc A -> length b = nc A ->
    exists y l', hierarchy_vmult te h x b l = (Ok y, l') /\ open_sections l' = [] /\ two_grid A R (ssor_vmult A) (c_steps p) b x y.
  Proof.
    destruct Hdef as (D1 & D2 & D3 & D4).
    assert (SK : dealii_smoother_kind p = Ok KSsor).
    { unfold dealii_smoother_kind. rewrite get_string_text. apply lower_ci in D4; [|apply no_upperb_ok; reflexivity]. rewrite D4. reflexivity. }
    assert (CK : dealii_solver_kind accepts_double p = Ok KDirect).
    { destruct (C38_host_solver accepts_double p) as [(_ & E)|[(Q & _)|(Q & _)]]; auto; [|contradiction].
      exfalso. apply lower_ci in Q; [|apply no_upperb_ok; reflexivity]. apply lower_ci in D3; [|apply no_upperb_ok; reflexivity]. congruence. }
    assert (LK : linear (nc A) (nc A) (kind_vmult ilu KSsor A)) by (apply (@ssor_linear K A); exact Hsquare).
    destruct (@host_two_level K accepts_double A mk ilu ml eps te0 debug p KSsor R AP Hsquare Hspd D2 SK LK CK Heig Hagg Hmk Hcols Hrank Hproduct) as (h & s & l & CC & V).
    exists h. split; [exists s, l; exact CC|]. rewrite Hsolver in V. exact V.
  Qed.
  Lemma host_sym : forall h, (forall te x b l, open_sections l = [] -> length x = nc A -> length b = nc A ->
      exists y l', hierarchy_vmult te h x b l = (Ok y, l') /\ open_sections l' = [] /\ two_grid A R (ssor_vmult A) (c_steps p) b x y) -> symmetric_cycle (nc A) (mulvec A) h.
  Proof.
    intros h V te te' x x' xs xs' l l' l1 l1' y y' O O' Lx Lx' Ls Ls' E E'.
    assert (LB : forall z, length z = nc A -> length (mulvec A z) = nc A) by (intros z _; rewrite mulvec_length; exact Hsquare).
    destruct (V te x (mulvec A xs) l O Lx (LB _ Ls)) as (y2 & l2 & F & _ & T). rewrite F in E. injection E as <- _.
    destruct (V te' x' (mulvec A xs') l' O' Lx' (LB _ Ls')) as (y3 & l3 & F' & _ & T'). rewrite F' in E'. injection E' as <- _.
    apply (@two_grid_symmetric K A R (ssor_vmult A) (c_steps p)); auto; [apply (@ssor_linear K A); exact Hsquare|apply (@ssor_sym K A Hsquare); exact (proj1 Hspd)].
  Qed.

  (** C103: the hypotheses of the theorems above hold. *)
  Theorem C103_host : forall theta lambda, flt 0%K lambda -> approximates A R lambda -> fle 0%K theta -> fle (theta * triangle_bound A)%K 1%K ->
    exists h, built h /\ reducing_cycle (nc A) (mulvec A) h (1 - theta * lambda)%K /\ symmetric_cycle (nc A) (mulvec A) h.
  Proof.
    intros theta lambda Hl HA Ht Hb. destruct host_cycle as (h & B & V). exists h. split; [exact B|]. split; [|apply host_sym; exact V].
    intros te x xs l O Lx Ls. assert (LB : length (mulvec A xs) = nc A) by (rewrite mulvec_length; exact Hsquare).
    destruct (V te x (mulvec A xs) l O Lx LB) as (y & l' & E & O' & T). exists y, l'. split; [exact E|]. split; [exact O'|].
    apply (@two_grid_rate K A R (ssor_vmult A) theta lambda (c_steps p) (mulvec A xs) x y xs); auto.
    - apply (@ssor_linear K A); exact Hsquare.
    - apply (@ssor_sym K A Hsquare). exact (proj1 Hspd).
    - exact (proj1 Hdef).
    - exact (@ssor_smooths K A Hsquare Hspd theta Ht Hb).
  Qed.

  (** C103: if the coarse space is everything, the first cycle solves the system, and the reported rate is 0 / 0, not a number, whatever the start and the right-hand side. *)
  Theorem C103_exact_coarse_space : nr R = nc A -> exists h, built h /\
    forall te x xs l, open_sections l = [] -> length x = nc A -> length xs = nc A -> exists l', reported_rate te (mulvec A) h x (mulvec A xs) l = (Ok NaN, l').
  Proof.
    intros HN. destruct host_cycle as (h & B & V). exists h. split; [exact B|].
    assert (LA : linear (nc A) (nc A) (mulvec A)) by (pose proof (mulvec_linear A) as X; rewrite Hsquare in X; exact X).
    assert (LB : linear (nc A) (nc A) (ssor_vmult A)) by (apply (@ssor_linear K A); exact Hsquare).
    assert (LP : linear (nr R) (nc A) (mulTvec R)) by (rewrite <- Hcols; apply mulTvec_linear).
    assert (Z : energy (mulvec A) (vzero (nc A)) = 0%K) by (unfold energy; apply dot_zero_r).
    assert (HR : reducing_cycle (nc A) (mulvec A) h 0%K).
    { intros te x xs l O Lx Ls. destruct (V te x (mulvec A xs) l O Lx (lin_len LA _ Ls)) as (y & l' & E & O' & T). exists y, l'. split; [exact E|]. split; [exact O'|].
      destruct (@two_grid_parts K A R (ssor_vmult A) (c_steps p) x y xs Hsquare Hspd LB Hcols Lx Ls T) as (c & u & Lc & _ & Lu & Ou & Ey & Ly).
      assert (U0 : u = vzero (nc A)).
      { destruct (list_eq_dec (feq_dec K) u (vzero (nc A))) as [Q|Q]; [exact Q|exfalso].
        assert (LP' : linear (nc A) (nc A) (mulTvec R)) by (rewrite HN in LP; exact LP).
        assert (IJ : forall w, length w = nc A -> mulTvec R w = vzero (nc A) -> w = vzero (nc A)).
        { intros w Lw Ew. rewrite <- HN in Lw. rewrite <- Hcols in Ew. rewrite <- HN. apply Hrank; auto. }
        destruct (@injective_onto K (nc A) (mulTvec R) LP' IJ u Lu) as (w & Lw & Ew).
        pose proof (proj2 Hspd u Lu Q) as P. unfold energy in P. rewrite <- HN in Lw. pose proof (Ou w Lw) as Ow. rewrite Ew in Ow. rewrite Ow in P. exact (flt_irrefl P). }
      assert (I0 : forall k, S_Hier.iter k (error_step (mulvec A) (ssor_vmult A)) (vzero (nc A)) = vzero (nc A)).
      { induction k as [|k IH]; [reflexivity|]. cbn [S_Hier.iter]. unfold error_step at 2. rewrite (lin_zero LA), (lin_zero LB), vsub_self, vzero_length. exact IH. }
      rewrite U0, I0 in Ey. split.
      - exact Ly.
      - rewrite Ey, Z. replace (0 * 0 * energy (mulvec A) (vsub xs x))%K with (0 : K)%K by ring. apply fle_refl. }
    intros te x xs l O Lx Ls. unfold reported_rate.
    destruct (@rate_value K (nc A) (mulvec A) h 0%K LA Hspd HR te x xs l O Lx Ls 19) as (v & E & RP). exists (tl (mulvec A) h te x xs l 20). rewrite E.
    assert (Z1 : residual2 (mulvec A) (mulvec A xs) (tr (mulvec A) h te x xs l 1) = 0%K).
    { rewrite (@rr_eq K (nc A) (mulvec A) h 0%K LA HR te x xs l O Lx Ls 1).
      assert (Le := @err_len K (nc A) (mulvec A) h 0%K HR te x xs l O Lx Ls 1).
      destruct (list_eq_dec (feq_dec K) (vsub xs (tr (mulvec A) h te x xs l 1)) (vzero (nc A))) as [Q|Q]; [rewrite Q, (lin_zero LA); apply dot_zero_l|exfalso].
      pose proof (proj2 Hspd _ Le Q) as P. pose proof (@en_step K (nc A) (mulvec A) h 0%K HR te x xs l O Lx Ls 0) as S1. unfold en in S1.
      replace (0 * 0 * energy (mulvec A) (vsub xs (tr (mulvec A) h te x xs l 0)))%K with (0 : K)%K in S1 by ring. exact (flt_irrefl (@flt_le_trans K _ _ _ P S1)). }
    assert (Z19 := @rr_zero_later K (nc A) (mulvec A) h 0%K LA Hspd HR te x xs l O Lx Ls 1 18 Z1). cbn [Nat.add] in Z19.
    destruct RP as [(_ & ->)|(N & _)]; [reflexivity|contradiction].
  Qed.
End CHost.
Print Assumptions C103_host.
Print Assumptions C103_exact_coarse_space.

(** C103: from the mesh. *)
Section CMesh.
  Variable K : ofield.
  Add Field KfieldRR3 : (f_field K).
  Local Notation vec := (vec K).
  (** External code and user code, as in M_HostEnd.v. *)
  Variable parse_unsigned : string -> option Z.
  Variable parse_double : string -> option K.
  Variable lobpcg : (vec -> vec) -> Z -> K -> list vec -> bool * eigensolution K.
  Variable fsqrt : K -> option K.
  Variable dstev : list K -> list K -> outcome (list K * list K).
  Variable tol2 : K.
  Variable rand : nat -> nat -> K.
  Variable std_sort : (nat -> nat -> bool) -> list nat -> list nat.
  Variable lapack : mat K -> K -> K -> outcome (list K * list vec).
  Variable arpack : mat K -> K -> vec -> nat -> outcome (list K * list vec).
  Variable partition : partitioner_kind -> list nat.
  Variable conn : nat -> list nat.
  Variable evaluate : list nat -> list nat * mat K.
  Variable constrained : list nat -> list nat.
  Variable draws : nat -> nat -> K.
  Variables (debug dim3 : bool).
  Variable m : mesh.
  Variable F : fem K.
  Variable gd : nat -> option K.
  Local Notation A := (assembled F m).
  Local Notation run := (restrictor_run parse_unsigned parse_double lobpcg fsqrt dstev tol2 rand std_sort lapack arpack partition conn evaluate constrained draws
    debug dim3 m (f_ndofs F) gd (fun g => ent A g g)).
  Local Notation problem := (local_problem parse_double lobpcg fsqrt dstev tol2 rand std_sort lapack arpack evaluate constrained draws debug m).
  Local Notation agglomerates := (build_agglomerates parse_unsigned partition debug dim3 m).
  Local Notation fresh := (repeat 0 (n_cells m)).

  (** The hypotheses of C82, cell matrices that are positive semidefinite, and a LAPACK that finds all eigenvalues of the interval. *)
  Hypothesis Hmesh : mesh_ok debug m.
  Hypothesis Hpart : forall k, length (owned_cells m) <= length (partition k).
  Hypothesis Hserial : serial m.
  Hypothesis Hfem : fem_ok F.
  Hypothesis Heval : evaluate_ok F evaluate.
  Hypothesis Hconn : connectivity_ok F m conn.
  Hypothesis Hsym : forall c g h, f_cm F c g h = f_cm F c h g.
  Hypothesis Hpsd : forall c u, fle 0%K (cell_energy F c u).
  Hypothesis Hconstr : forall cells, constrained cells = [].
  Hypothesis Hlapack : lapack_ok lapack.
  Hypothesis Hcomplete : lapack_complete lapack.
  Hypothesis Hspd : spd (f_ndofs F) (mulvec A).
  Hypothesis Hgd : forall g, g < f_ndofs F -> gd g = Some (ent A g g).
  Section Rate.
    Variables (accepts_double : string -> bool) (mk : ptree -> outcome (mat K * mat K)) (ilu : mat K -> vec -> vec) (ml : ml_list -> mat K -> vec -> vec) (eps : K) (te0 : tenv).
    Variables (p : ptree) (R AP : mat K) (theta lambda : K).
    Hypothesis Hdef : default_two_level p.
    Hypothesis HE : forall eig, pt_find p ["eigensolver"%string] = Some eig -> eigensolver_matrix debug eig = Ok ELapack.
    Hypothesis HT : forall agg ui n, pt_find p ["agglomeration"%string] = Some agg -> agglomerates agg fresh = Ok (ui, n) ->
      (forall a, 1 <= a <= n -> touches_others m ui conn a) \/ (forall a, 1 <= a <= n -> ~ touches_others m ui conn a).
    Hypothesis Hmk : mk p = Ok (R, AP).
    Hypothesis Hrun : run fresh p R AP.
    Hypothesis Hrank : full_row_rank R.
    Hypothesis Hlam : flt 0%K lambda.
    Hypothesis Hdisc : discarded_above agglomerates problem evaluate m p lambda.
    Hypothesis Htheta : fle 0%K theta.
    Hypothesis Hbound : fle (theta * triangle_bound A)%K 1%K.
    Local Notation rho := (1 - theta * lambda)%K.
    Local Notation built h := (exists s l, construct (host_helpers accepts_double A mk ilu ml) eps te0 debug (Ok tt) (Some p) None = (Ok h, s, l)).

    (** C103: with the hypotheses of C87. *)
    Theorem C103_from_mesh : forall mu Lam, c_prec p = false -> (forall v, length v = f_ndofs F -> fle (mu * dot v v)%K (energy (mulvec A) v)) ->
      (forall v, length v = f_ndofs F -> fle (energy (mulvec A) v) (Lam * dot v v)%K) -> flt 0%K mu -> fle 0%K Lam ->
      exists h, built h /\ measures_rate (f_ndofs F) (mulvec A) h rho mu Lam /\ growing_factors (f_ndofs F) (mulvec A) h.
    Proof.
      intros mu Lam PF Hm HL Pm PL.
      assert (PE : pt_find p ["eigensolver"%string] <> None /\ pt_find p ["agglomeration"%string] <> None /\ nc R = f_ndofs F).
      { destruct Hrun as (eig & agg & ? & ? & ? & ? & ? & ? & Q1 & Q2 & _ & _ & _ & -> & _). rewrite Q1, Q2. split; [discriminate|]. split; [discriminate|reflexivity]. }
      destruct PE as (PE & PA & DR).
      assert (AX := @C86_coarse_space_approximates K parse_unsigned parse_double lobpcg fsqrt dstev tol2 rand std_sort lapack arpack partition conn evaluate constrained draws debug dim3 m F gd
        Hmesh Hpart Hserial Hfem Heval Hsym Hpsd Hconstr Hlapack Hcomplete Hspd Hgd p R AP lambda HE Hrun (flt_le Hlam) Hdisc).
      destruct (@C103_host K accepts_double A R AP mk ilu ml eps te0 debug p eq_refl Hspd Hdef PF PE PA Hmk DR Hrank) with (theta := theta) (lambda := lambda) as (h & B & RC & SC); auto.
      { intros HF. apply (@fast_product K parse_unsigned parse_double lobpcg fsqrt dstev tol2 rand std_sort lapack arpack partition conn evaluate constrained draws debug dim3 m F gd
          Hmesh Hpart Hserial Hfem Heval Hsym Hconstr Hlapack Hspd Hgd fresh p R AP Hrun eq_refl Hconn); auto. }
      exists h. split; [exact B|]. split.
      - exact (@C103_measures K (f_ndofs F) (mulvec A) h rho (mulvec_linear A) Hspd RC mu Lam SC Hm HL Pm PL).
      - exact (@C103_factors K (f_ndofs F) (mulvec A) h rho (mulvec_linear A) Hspd RC SC).
    Qed.
  End Rate.
End CMesh.
Print Assumptions C103_from_mesh.
(** Example: bounds of the eigenvalues by elimination. *)
Section Ex103.
  Add Field QcFieldX103 : (f_field QcOF).
  Local Open Scope K_scope.
  Definition combo (s mu : QcOF) (A : mat QcOF) : mat QcOF := mkMat (nr A) (nc A) (fun i j => s * ent A i j + (if (j =? i)%nat then mu else 0)).
  Lemma combo_form : forall s mu A v, nr A = nc A -> length v = nc A -> dot (mulvec (combo s mu A) v) v = s * energy (mulvec A) v + mu * dot v v.
  Proof.
    intros s mu A v Sq Lv. assert (E : mulvec (combo s mu A) v = vadd (vscale s (mulvec A v)) (vscale mu v)).
    { apply vec_ext; [rewrite vadd_length, !vscale_length, !mulvec_length; cbn [combo nr]; unfold OField.vec in *; lia|].
      intros i Hi. rewrite mulvec_length in Hi. cbn [combo nr] in Hi. rewrite nth_vadd, !nth_vscale, !nth_mulvec by (rewrite ?vscale_length, ?mulvec_length; cbn [combo nr]; unfold OField.vec in *; auto; lia). cbn [combo nc].
      assert (E : forall j, (j < nc A)%nat -> ent (combo s mu A) i j * nth j v 0 = s * (ent A i j * nth j v 0) + (if (j =? i)%nat then mu * nth i v 0 else 0)).
      { intros j Hj. cbn [combo ent]. destruct (Nat.eqb_spec j i) as [->|N]; ring. }
      rewrite (sumn_ext _ _ _ E), sumn_add, sumn_scale. f_equal. rewrite (sumn_single _ i); [rewrite Nat.eqb_refl; auto|lia|]. intros k _ N. destruct (Nat.eqb_spec k i); [contradiction|auto]. }
    rewrite E. rewrite dot_add_l by (rewrite !vscale_length, mulvec_length; lia). rewrite !dot_scale_l. reflexivity.
  Qed.
  Lemma combo_sym : forall s mu A, symmetric_matrix A -> symmetric_matrix (combo s mu A).
  Proof. intros s mu A (Sq & S). split; [exact Sq|]. intros i j Hi Hj. cbn [combo ent nr] in *. rewrite (S i j Hi Hj), (Nat.eqb_sym j i). reflexivity. Qed.
  Lemma combo_nonneg : forall s mu A v, symmetric_matrix A -> posdef (nr A) (combo s mu A) = true -> length v = nc A -> 0 <= s * energy (mulvec A) v + mu * dot v v.
  Proof.
    intros s mu A v S P Lv. rewrite <- combo_form by (auto; exact (proj1 S)).
    pose proof (proj1 (@posdef_spd QcOF (combo s mu A) (combo_sym s mu S)) P) as Q. apply entries_spd in Q. destruct Q as (D & Q).
    exact (@energy_nonneg QcOF (nc A) (mulvec (combo s mu A)) ltac:(pose proof (mulvec_linear (combo s mu A)) as X; rewrite D in X; exact X) Q v Lv).
  Qed.
  Lemma bounds_ok : forall A mu Lam, symmetric_matrix A -> posdef (nr A) (combo 1 (- mu) A) = true -> posdef (nr A) (combo (- (1)) Lam A) = true ->
    forall v, length v = nc A -> mu * dot v v <= energy (mulvec A) v /\ energy (mulvec A) v <= Lam * dot v v.
  Proof.
    intros A mu Lam S P1 P2 v Lv. pose proof (@combo_nonneg _ _ _ _ S P1 Lv) as H1. pose proof (@combo_nonneg _ _ _ _ S P2 Lv) as H2. split; apply fle_sub_0.
    - replace (energy (mulvec A) v - mu * dot v v) with (1 * energy (mulvec A) v + - mu * dot v v) by ring. exact H1.
    - replace (Lam * dot v v - energy (mulvec A) v) with (- (1) * energy (mulvec A) v + Lam * dot v v) by ring. exact H2.
  Qed.
End Ex103.

(** A matrix with three unknowns, restricted to the first. *)
Definition rA : mat QcOF := of_rows 3 3 [[q 8 1; q 6 1; q 8 1]; [q 6 1; q 9 1; q 12 1]; [q 8 1; q 12 1; q 17 1]].
Definition rR : mat QcOF := of_rows 1 3 [[q 1 1; q 0 1; q 0 1]].
Lemma rA_sym : symmetric_matrix rA.
Proof. split; [reflexivity|]. intros i j Hi Hj. cbn in Hi, Hj. destruct i as [|[|[|i]]], j as [|[|[|j]]]; try lia; reflexivity. Qed.
Lemma rA_bounds : forall v, length v = 3 -> fle (q 1 4 * dot v v)%K (energy (mulvec rA) v) /\ fle (energy (mulvec rA) v) (q 37 1 * dot v v)%K.
Proof. apply (@bounds_ok rA (q 1 4) (q 37 1) rA_sym); vm_compute; reflexivity. Qed.
Lemma rA_spd : S_Hier.spd 3 (mulvec rA).
Proof. apply (@entries_spd QcOF rA). apply (@posdef_spd QcOF rA rA_sym). vm_compute. reflexivity. Qed.
Section ExR.
  Add Field QcFieldX103R : (f_field QcOF).
  Local Open Scope K_scope.
  Lemma rR_full : full_row_rank rR.
  Proof.
    intros x Hx E. destruct x as [|a [|]]; try discriminate. assert (E0 : nth 0 (mulTvec rR [a]) 0 = 0) by (rewrite E; reflexivity).
    assert (O : q 1 1 = 1) by (apply Qc_is_canon; reflexivity). assert (Ea : a = 0).
    { rewrite <- E0. unfold mulTvec, mulvec, mtrans, rR, of_rows. cbn [nth map seq nr nc sumn ent]. cbn. change (a = 0 + q 1 1 * a) || idtac. rewrite O. ring. }
    rewrite Ea. reflexivity.
  Qed.
  Lemma rA_approximates : approximates rA rR (q 1 4).
  Proof.
    intros v Hv. exists (vzero 1). split; [reflexivity|]. assert (E : vsub v (mulTvec rR (vzero 1)) = v).
    { change 1%nat with (nr rR); rewrite (lin_zero (mulTvec_linear rR)). change (nc rA) with 3%nat in Hv. change (nc rR) with 3%nat. unfold OField.vec in *. vext. ring. }
    rewrite E. apply (rA_bounds _ Hv).
  Qed.
  Lemma xq1 : forall a b : QcOF, 0 + 1 * a + 0 * b = a.
  Proof. intros. ring. Qed.
  Lemma xq2 : forall a b : QcOF, 0 + 1 * a + 1 * b = a + b.
  Proof. intros. ring. Qed.
  Lemma xq3 : forall b : QcOF, 0 + b = b.
  Proof. intros. ring. Qed.
End ExR.
Definition ex_p103 : ptree := Node "" [("eigensolver"%string, Node "" []); ("agglomeration"%string, Node "" []); ("is preconditioner"%string, Node "false" [])].
Local Notation ex_helpers103 := (host_helpers (fun _ => false) rA (fun _ => Ok (rR, rA)) (fun _ r => r) (fun _ _ r => r)).
Lemma ex_default103 : default_two_level ex_p103.
Proof. split; [vm_compute; lia|]. split; [reflexivity|]. split; apply lower_ci; [apply no_upperb_ok; reflexivity|reflexivity|apply no_upperb_ok; reflexivity|reflexivity]. Qed.
Lemma ex_built103 : exists h s l, construct ex_helpers103 0%K (mkTenv true true) true (Ok tt) (Some ex_p103) None = (Ok h, s, l) /\
  reducing_cycle 3 (mulvec rA) h (q 249 250) /\ symmetric_cycle 3 (mulvec rA) h.
Proof.
  destruct (@C103_host QcOF (fun _ => false) rA rR rA (fun _ => Ok (rR, rA)) (fun _ r => r) (fun _ _ r => r) 0%K (mkTenv true true) true ex_p103) with (theta := q 2 125) (lambda := q 1 4)
    as (h & (s & l & B) & R1 & R2).
  - reflexivity.
  - exact rA_spd.
  - exact ex_default103.
  - reflexivity.
  - discriminate.
  - discriminate.
  - reflexivity.
  - reflexivity.
  - exact rR_full.
  - discriminate.
  - apply fltb_lt. vm_compute. reflexivity.
  - exact rA_approximates.
  - apply fleb_le. vm_compute. reflexivity.
  - apply fleb_le. vm_compute. reflexivity.
  - exists h, s, l. split; [exact B|]. split; [|exact R2].
    replace (1 - q 2 125 * q 1 4)%K with (q 249 250) in R1 by (apply Qc_is_canon; vm_compute; reflexivity). exact R1.
Qed.
(** Start vector: the errors (0, -4, 3) and (3, -4, 0) are reduced by 256/289 and 1/4 in each cycle. *)
Definition ex_x103 : vec QcOF := vadd (vscale (fpow (q 289 256) 19) [q 0 1; q (-4) 1; q 3 1]) (vscale (q 2 25 * fpow (q 4 1) 19)%K [q 3 1; q (-4) 1; q 0 1]).
Definition ex_check103 (S L : Type) (r : outcome (hierarchy QcOF) * S * L) : bool :=
  match r with
  | (Ok h, _, _) => match reported_rate (mkTenv true true) (mulvec rA) h ex_x103 (mulvec rA (vzero 3)) [] with
                    | (Ok (Num v), _) => fltb (q 3 2) v
                    | _ => false end
  | _ => false end.
Lemma ex_check103_ok : ex_check103 (construct ex_helpers103 0%K (mkTenv true true) true (Ok tt) (Some ex_p103) None) = true.
Proof. vm_compute. reflexivity. Qed.

(** C103: the reported rate is not a rate of the method: here every cycle reduces the energy norm of every error by the factor 249/250, and the driver reports a rate whose square is above 3/2. *)
Theorem C103_rate_refuted : exists (A R : mat QcOF) p h s l x v l' rho, S_Hier.spd (nc A) (mulvec A) /\ full_row_rank R /\ default_two_level p /\
  construct (host_helpers (fun _ => false) A (fun _ => Ok (R, A)) (fun _ r => r) (fun _ _ r => r)) 0%K (mkTenv true true) true (Ok tt) (Some p) None = (Ok h, s, l) /\
  flt rho 1%K /\ reducing_cycle (nc A) (mulvec A) h rho /\ symmetric_cycle (nc A) (mulvec A) h /\
  reported_rate (mkTenv true true) (mulvec A) h x (mulvec A (vzero (nc A))) [] = (Ok (Num v), l') /\ flt (q 3 2) v.
Proof.
  destruct ex_built103 as (h & s & l & B & R1 & R2). pose proof ex_check103_ok as C. rewrite B in C. unfold ex_check103 in C.
  assert (X : exists v l', reported_rate (mkTenv true true) (mulvec rA) h ex_x103 (mulvec rA (vzero 3)) [] = (Ok (Num v), l') /\ fltb (q 3 2) v = true).
  { revert C. generalize (reported_rate (mkTenv true true) (mulvec rA) h ex_x103 (mulvec rA (vzero 3)) []). intros [r l'] C.
    destruct r as [[v| |]| | | |]; try discriminate C. exists v, l'. split; [reflexivity|exact C]. }
  destruct X as (v & l' & E & F). exists rA, rR, ex_p103, h, s, l, ex_x103, v, l', (q 249 250).
  split; [exact rA_spd|]. split; [exact rR_full|]. split; [exact ex_default103|]. split; [exact B|]. split; [apply fltb_lt; vm_compute; reflexivity|].
  split; [exact R1|]. split; [exact R2|]. split; [exact E|]. apply fltb_lt. exact F.
Qed.
Print Assumptions C103_rate_refuted.
(** The same hierarchy: after 20 cycles the reported number is the quotient of the residuals and at most 148 times the square of the rate. *)
Example C103_measures_example : exists h s l, construct ex_helpers103 0%K (mkTenv true true) true (Ok tt) (Some ex_p103) None = (Ok h, s, l) /\
  measures_rate 3 (mulvec rA) h (q 249 250) (q 1 4) (q 37 1).
Proof.
  destruct ex_built103 as (h & s & l & B & R1 & R2). exists h, s, l. split; [exact B|].
  apply (@C103_measures QcOF 3 (mulvec rA) h (q 249 250) (mulvec_linear rA) rA_spd R1 (q 1 4) (q 37 1) R2).
  - intros v Lv. apply (rA_bounds v Lv).
  - intros v Lv. apply (rA_bounds v Lv).
  - apply fltb_lt. vm_compute. reflexivity.
  - apply fleb_le. vm_compute. reflexivity.
Qed.
Example C103_factors_example : exists h s l, construct ex_helpers103 0%K (mkTenv true true) true (Ok tt) (Some ex_p103) None = (Ok h, s, l) /\ growing_factors 3 (mulvec rA) h.
Proof.
  destruct ex_built103 as (h & s & l & B & R1 & R2). exists h, s, l. split; [exact B|]. exact (@C103_factors QcOF 3 (mulvec rA) h (q 249 250) (mulvec_linear rA) rA_spd R1 R2).
Qed.
(** One coarse dof for each of the two unknowns. *)
Definition rI : mat QcOF := of_rows 2 2 [[q 1 1; q 1 1]; [q 0 1; q 1 1]].
Lemma rI_full : full_row_rank rI.
Proof.
  intros x Hx E. destruct x as [|a [|b [|]]]; try discriminate. assert (E0 : nth 0 (mulTvec rI [a; b]) 0%K = 0%K) by (rewrite E; reflexivity). assert (E1 : nth 1 (mulTvec rI [a; b]) 0%K = 0%K) by (rewrite E; reflexivity).
  assert (T0 : nth 0 (mulTvec rI [a; b]) 0%K = a).
  { change (nth 0 (mulTvec rI [a; b]) 0%K) with (0 + q 1 1 * a + q 0 1 * b)%K. assert (O : q 1 1 = 1%K) by (apply Qc_is_canon; reflexivity). assert (Z : q 0 1 = 0%K) by (apply Qc_is_canon; reflexivity).
    rewrite O, Z. apply xq1. }
  assert (T1 : nth 1 (mulTvec rI [a; b]) 0%K = (a + b)%K).
  { change (nth 1 (mulTvec rI [a; b]) 0%K) with (0 + q 1 1 * a + q 1 1 * b)%K. assert (O : q 1 1 = 1%K) by (apply Qc_is_canon; reflexivity). rewrite O. apply xq2. }
  rewrite T0 in E0. rewrite T1 in E1. rewrite E0 in E1. rewrite xq3 in E1. rewrite E0, E1. reflexivity.
Qed.
Example C103_exact_coarse_space_example : exists h s l,
  construct (host_helpers (fun _ => false) (hA QcOF) (fun _ => Ok (rI, hA QcOF)) (fun _ r => r) (fun _ _ r => r)) 0%K (mkTenv true true) true (Ok tt) (Some ex_p103) None = (Ok h, s, l) /\
  forall x xs, length x = 2 -> length xs = 2 -> exists l', reported_rate (mkTenv true true) (mulvec (hA QcOF)) h x (mulvec (hA QcOF) xs) [] = (Ok NaN, l').
Proof.
  destruct (@C103_exact_coarse_space QcOF (fun _ => false) (hA QcOF) rI (hA QcOF) (fun _ => Ok (rI, hA QcOF)) (fun _ r => r) (fun _ _ r => r) 0%K (mkTenv true true) true ex_p103)
    as (h & (s & l & B) & V); try reflexivity; try discriminate.
  - exact (hA_spd QcOF).
  - exact ex_default103.
  - exact rI_full.
  - exists h, s, l. split; [exact B|]. intros x xs Lx Ls. apply V; auto.
Qed.
(** The mesh of C87: the eigenvalues of the matrix are between 1 and 100. *)
Lemma hA2_sym : symmetric_matrix hA2.
Proof. split; [reflexivity|]. intros i j _ _. unfold hA2, assembled. cbn [ent]. apply lsum_map_ext. intros c _. apply hsym. Qed.
Lemma hA2_bounds : forall v, length v = 3 -> fle (q 1 1 * dot v v)%K (energy (mulvec hA2) v) /\ fle (energy (mulvec hA2) v) (q 100 1 * dot v v)%K.
Proof. apply (@bounds_ok hA2 (q 1 1) (q 100 1) hA2_sym); vm_compute; reflexivity. Qed.
Example C103_from_mesh_example : exists R AP h s l, hrun [0; 0] hsolver R AP /\
  construct (host_helpers (fun _ => false) hA2 (fun _ => Ok (R, AP)) (fun _ r => r) (fun _ _ r => r)) 0%K (mkTenv true true) true (Ok tt) (Some hsolver) None = (Ok h, s, l) /\
  measures_rate 3 (mulvec hA2) h (1 - q 1 68 * q 26 1)%K (q 1 1) (q 100 1) /\ growing_factors 3 (mulvec hA2) h.
Proof.
  destruct (@hexists hsolver eq_refl eq_refl) as (R & AP & R1). assert (FR := @hfull hsolver R AP eq_refl eq_refl R1).
  destruct (@C103_from_mesh QcOF (fun s => parse_int s) ex_parse_double ex_no_lobpcg qsqrt (fun _ _ => Fuel) (q 0 1) (fun _ _ => q 0 1) (@insertion_sort nat) hlapack ex_no_arpack (fun _ => [0; 1]) (lconn 2 (fun c => c)) (assemble_patch hF) (fun _ => []) (fun _ => ex_draw)
    true false (lmesh 2) hF hgd hmesh hpart hserial hfem_ok (@evaluate_ok_example QcOF hF)
    hconn hsym hcells (fun _ => eq_refl) (lapack_of_ok _ _) hlapack_complete hA2_spd (fun _ _ => eq_refl) (fun _ => false) (fun _ => Ok (R, AP)) (fun _ r => r) (fun _ _ r => r) 0%K (mkTenv true true)
    hsolver R AP (q 1 68) (q 26 1)) with (mu := q 1 1) (Lam := q 100 1) as (h & (s & l & C1) & V); try exact R1; try exact FR; try reflexivity.
  - apply hdefault. auto.
  - intros eig E. injection E as <-. reflexivity.
  - intros agg ui n P B. left. intros a Ha. destruct (@hagg agg ui n P B) as (-> & ->). apply htouch. exact Ha.
  - apply fltb_lt. vm_compute. reflexivity.
  - exact (@hdisc hsolver eq_refl eq_refl).
  - apply fleb_le. vm_compute. reflexivity.
  - apply fleb_le. vm_compute. reflexivity.
  - intros v Lv. apply (hA2_bounds v Lv).
  - intros v Lv. apply (hA2_bounds v Lv).
  - apply fltb_lt. vm_compute. reflexivity.
  - apply fleb_le. vm_compute. reflexivity.
  - exists R, AP, h, s, l. split; [exact R1|]. split; [exact C1|]. exact V.
Qed.
