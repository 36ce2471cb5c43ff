(** Property theorems about the hierarchy: construction and V-cycle (C18-C28, C57-C59). *)
From Coq Require Import String List Arith ZArith Bool Lia Field QArith Qcanon.
From Verif Require Import Base OField Mat LinAlg M_Ptree S_Ptree P_Ptree M_Hier S_Hier P_Hier P_Hier2 P_HierC P_HierE P_HierS P_HierV P_HierD P_HierT M_Smoother P_Smoother M_Host P_Host.
Import ListNotations.
Set Implicit Arguments.
Open Scope list_scope.
Open Scope nat_scope.

(** ** Data of the examples: three unknowns, two, one. *)
Section ExampleData.
  Variable K : ofield.
  Local Open Scope K_scope.
  Definition xA : mat K := of_rows 3 3 [[1+1; -(1); 0]; [-(1); 1+1; -(1)]; [0; -(1); 1+1]].
  Definition xR1 : mat K := of_rows 2 3 [[1; 1; 0]; [0; 0; 1]].
  Definition xA1 : mat K := mmul xR1 (mmul xA (mtrans xR1)).
  Definition xR2 : mat K := of_rows 1 2 [[1; 1]].
  Definition xA2 : mat K := mmul xR2 (mmul xA1 (mtrans xR2)).
  Definition xsolver (A : mat K) : bx_apply K := fun b x =>
    if (length b =? nr A)%nat && (length x =? nc A)%nat then Ok (direct_solve A b) else UB.
  (** Three levels with the smoothing steps [B0] and [B1]. *)
  Definition xh (B : mat K -> vec K -> vec K) (prec : bool) (k : nat) : hierarchy K :=
    mkHierarchy [mkLevel (Some (TriOp xA)) None (Some (smoother_apply (TriOp xA) (B xA))) None;
                 mkLevel (Some (TriOp xA1)) (Some (TriOp xR1)) (Some (smoother_apply (TriOp xA1) (B xA1))) None;
                 mkLevel (Some (TriOp xA2)) (Some (TriOp xR2)) None (Some (xsolver xA2))] prec k.
  Definition xds (B : mat K -> vec K -> vec K) : list (fine K) :=
    [mkFine 3 (mulvec xA) (correction_step (mulvec xA) (B xA)) (mulvec xR1) (mulTvec xR1);
     mkFine 2 (mulvec xA1) (correction_step (mulvec xA1) (B xA1)) (mulvec xR2) (mulTvec xR2)].
End ExampleData.
(** A timer that never complains, no events so far. *)
Definition xte : tenv := mkTenv true false.
(** Rational vectors. *)
Definition qv (l : list (Z * positive)) : vec QcOF := map (fun '(z, p) => Q2Qc (z # p)) l.

Section ExampleLemmas.
  Variable K : ofield.
  Add Field KfieldXC : (f_field K).
  Local Open Scope K_scope.
  Lemma xA_spd : spd 3 (mulvec (xA K)).
  Proof.
    split.
    - intros x y Hx Hy. destruct x as [|x0 [|x1 [|x2 [|]]]]; try discriminate. destruct y as [|y0 [|y1 [|y2 [|]]]]; try discriminate.
      unfold mulvec, dot, dot, xA, of_rows. cbn. ring.
    - intros x Hx Nx. destruct x as [|x0 [|x1 [|x2 [|]]]]; try discriminate.
      replace (energy (mulvec (xA K)) [x0; x1; x2]) with (x0 * x0 + ((x0 - x1) * (x0 - x1) + ((x1 - x2) * (x1 - x2) + x2 * x2)))
        by (unfold energy, mulvec, dot, xA, of_rows; cbn; ring).
      assert (N : forall a : K, 0 <= a * a) by apply fsquare_nonneg.
      apply fle_neq_lt; [repeat apply fadd_nonneg; auto|]. intros E. symmetry in E.
      apply fadd_nonneg_eq_0 in E; [destruct E as (E0 & E)|auto|repeat apply fadd_nonneg; auto].
      apply fadd_nonneg_eq_0 in E; [destruct E as (E2 & E)|auto|repeat apply fadd_nonneg; auto].
      apply fadd_nonneg_eq_0 in E; [destruct E as (E4 & E5)|auto|auto].
      apply fsquare_0 in E0, E2, E4, E5. apply Nx. subst x0 x2.
      replace x1 with (0 : K); [reflexivity|]. transitivity (- (0 - x1) : K); [rewrite E2|]; ring.
  Qed.
  Lemma xR1_rank : full_row_rank (xR1 K).
  Proof.
    intros x Hx. destruct x as [|x0 [|x1 [|]]]; try discriminate. unfold mulTvec, mulvec, xR1, of_rows. cbn. intros E. injection E. intros E2 E1 E0.
    f_equal; [transitivity (0 + 1 * x0 + 0 * x1); [ring|exact E0]|f_equal]. transitivity (0 + 0 * x0 + 1 * x1); [ring|exact E2].
  Qed.
  Lemma xR2_rank : full_row_rank (xR2 K).
  Proof.
    intros x Hx. destruct x as [|x0 [|]]; try discriminate. unfold mulTvec, mulvec, xR2, of_rows. cbn. intros E. injection E. intros E1 E0.
    f_equal. transitivity (0 + 1 * x0); [ring|exact E0].
  Qed.
  Lemma xgal1 : forall x, mulvec (xA1 K) x = mulvec (xR1 K) (mulvec (xA K) (mulTvec (xR1 K) x)).
  Proof. intros x. apply galerkin_apply; reflexivity. Qed.
  Lemma xgal2 : forall x, mulvec (xA2 K) x = mulvec (xR2 K) (mulvec (xA1 K) (mulTvec (xR2 K) x)).
  Proof. intros x. apply galerkin_apply; reflexivity. Qed.
  Lemma xA1_spd : spd 2 (mulvec (xA1 K)).
  Proof.
    split.
    - apply (@galerkin_sym K (xA K) (xR1 K) (xA1 K)); auto; [apply xgal1|exact (proj1 xA_spd)].
    - apply (@galerkin_pd K (xA K) (xR1 K) (xA1 K)); auto; [apply xgal1|exact (proj2 xA_spd)|apply xR1_rank].
  Qed.
  Lemma xA2_spd : spd 1 (mulvec (xA2 K)).
  Proof.
    split.
    - apply (@galerkin_sym K (xA1 K) (xR2 K) (xA2 K)); auto; [apply xgal2|exact (proj1 xA1_spd)].
    - apply (@galerkin_pd K (xA1 K) (xR2 K) (xA2 K)); auto; [apply xgal2|exact (proj2 xA1_spd)|apply xR2_rank].
  Qed.
  Lemma xdescribes : forall B prec k, maps 3 3 (B (xA K)) -> maps 2 2 (B (xA1 K)) ->
    hier_describes (xh B prec k) (xds B) 1 (fun b _ => direct_solve (xA2 K) b).
  Proof.
    intros B prec k H1 H2. eexists _, _. split; [reflexivity|].
    eapply describes_fine; simpl; [reflexivity| |reflexivity| |reflexivity| | |].
    - apply (op_acts_tri (xA K)).
    - apply (smoother_apply_acts (xA K)); auto.
    - apply (op_acts_tri (xR1 K)).
    - apply (opT_acts_tri (xR1 K)).
    - eapply describes_fine; simpl; [reflexivity| |reflexivity| |reflexivity| | |].
      + apply (op_acts_tri (xA1 K)).
      + apply (smoother_apply_acts (xA1 K)); auto.
      + apply (op_acts_tri (xR2 K)).
      + apply (opT_acts_tri (xR2 K)).
      + eapply describes_coarsest; simpl; [reflexivity|reflexivity|reflexivity|].
        intros b x Hb Hx. unfold xsolver. rewrite Hb, Hx. simpl. split; auto.
  Qed.
  Lemma xlinear : linear_levels (xds (@ssor_vmult K)) 1 /\ jointly_linear 1 (fun b _ => direct_solve (xA2 K) b) /\
    symmetric_levels (xds (@ssor_vmult K)) 1 /\ self_adjoint 1 (fun b => direct_solve (xA2 K) b).
  Proof.
    assert (SY : symmetric_levels (xds (@ssor_vmult K)) 1).
    { cbn [symmetric_levels xds fn fA fS fR fP top_size].
      split; [apply (mulvec_linear (xA K))|]. split; [apply xA_spd|]. split.
      { exists (ssor_vmult (xA K)). split; [apply (@ssor_linear K (xA K)); auto|]. split; [apply (@ssor_sym K (xA K)); auto; apply xA_spd|auto]. }
      split; [apply (mulvec_linear (xR1 K))|]. split; [apply (mulTvec_linear (xR1 K))|]. split; [apply (mulvec_adjoint (xR1 K))|].
      split; [apply (mulvec_linear (xA1 K))|]. split; [apply xA1_spd|]. split.
      { exists (ssor_vmult (xA1 K)). split; [apply (@ssor_linear K (xA1 K)); auto|]. split; [apply (@ssor_sym K (xA1 K)); auto; apply xA1_spd|auto]. }
      split; [apply (mulvec_linear (xR2 K))|]. split; [apply (mulTvec_linear (xR2 K))|]. split; [apply (mulvec_adjoint (xR2 K))|]. exact I. }
    assert (EX : exact_solver (xA2 K) (fun b _ => direct_solve (xA2 K) b)).
    { intros b x Hb Hx. apply direct_exact; auto. apply xA2_spd. }
    assert (D : hier_describes (xh (@ssor_vmult K) true 1) (xds (@ssor_vmult K)) 1 (fun b _ => direct_solve (xA2 K) b)).
    { apply xdescribes; intros x Hx; [exact (lin_len (@ssor_linear K (xA K) eq_refl) x Hx)|exact (lin_len (@ssor_linear K (xA1 K) eq_refl) x Hx)]. }
    destruct D as (lv & rest & _ & D). destruct (describes_sized D) as (Sz & _ & _).
    split; [apply (symmetric_linear _ _ SY Sz)|]. split; [apply (@exact_joint K (xA2 K)); auto; apply xA2_spd|]. split; [exact SY|].
    apply (@exact_sym K (xA2 K) _ eq_refl xA2_spd EX).
  Qed.
End ExampleLemmas.

Section Theorems.
  Variable K : ofield.
  Add Field KfieldCH : (f_field K).
  Local Open Scope K_scope.
  Notation vec := (vec K).

  (** C18: in preconditioner mode the result does not depend on the content of x, whatever the components of the hierarchy do. *)
  Theorem C18_vmult_ignores_x : forall te (h : hierarchy K) x x' b l, h_is_preconditioner h = true -> length x = length x' ->
    hierarchy_vmult te h x b l = hierarchy_vmult te h x' b l.
  Proof.
    intros te h x x' b l HP HL. unfold hierarchy_vmult, hierarchy_apply, pbind. destruct (timer_enter te SApply l) as [[]]; auto.
    destruct (h_levels h); auto. rewrite HP. rewrite (@apply_levels_x_indep K te _ _ _ b x x') by auto. auto.
  Qed.

  (** C58: vmult computes the textbook V-cycle (residual b - A x, coarse problem for it, correction added). *)
  Theorem C58_vmult_is_textbook_vcycle : forall (h : hierarchy K) ds nc C, hier_describes h ds nc C -> linear_levels ds nc -> jointly_linear nc C ->
    vmult_gives h (top_size ds nc) (fun b x => textbook_vcycle (h_n_smoothing_steps h) ds nc C b
      (if h_is_preconditioner h then vzero (top_size ds nc) else x)).
  Proof.
    intros h ds nc C (lv & rest & EL & D) LL JC te x b l U O Hx Hb.
    destruct (describes_sized D) as (Sz & LC & _).
    destruct (@vmult_ok K te h lv rest ds nc C EL D U x b l O Hb Hx) as (t & l' & N & R & V).
    assert (Hx0 : length (if h_is_preconditioner h then vzero (top_size ds nc) else x) = top_size ds nc) by (destruct (h_is_preconditioner h); auto; apply vzero_length).
    exists l'. rewrite V. rewrite <- cyc_textbook by auto. split; [reflexivity|]. split; [apply cyc_length; auto|]. rewrite (@open_trace te l l' t N R); auto.
  Qed.

  Lemma vmult_cyc : forall (h : hierarchy K) ds nc C, hier_describes h ds nc C ->
    vmult_gives h (top_size ds nc) (fun b x => cyc (h_n_smoothing_steps h) ds nc C b (if h_is_preconditioner h then vzero (top_size ds nc) else x)).
  Proof.
    intros h ds nc C (lv & rest & EL & D) te x b l U O Hx Hb.
    destruct (describes_sized D) as (Sz & LC & _).
    destruct (@vmult_ok K te h lv rest ds nc C EL D U x b l O Hb Hx) as (t & l' & N & R & V).
    assert (Hx0 : length (if h_is_preconditioner h then vzero (top_size ds nc) else x) = top_size ds nc) by (destruct (h_is_preconditioner h); auto; apply vzero_length).
    exists l'. rewrite V. split; [reflexivity|]. split; [apply cyc_length; auto|]. rewrite (@open_trace te l l' t N R); auto.
  Qed.

  (** C19: with linear components, vmult in preconditioner mode is a linear map of b. *)
  Theorem C19_vmult_linear : forall (h : hierarchy K) ds nc C, hier_describes h ds nc C -> linear_levels ds nc -> jointly_linear nc C ->
    h_is_preconditioner h = true ->
    exists Mv, linear (top_size ds nc) (top_size ds nc) Mv /\ vmult_gives h (top_size ds nc) (fun b _ => Mv b).
  Proof.
    intros h ds nc C D LL JC HP. exists (fun b => cyc (h_n_smoothing_steps h) ds nc C b (vzero (top_size ds nc))).
    destruct D as (lv & rest & EL & D). destruct (describes_sized D) as (Sz & LC & _). split; [apply cyc_linear; auto|].
    pose proof (@vmult_cyc h ds nc C (ex_intro _ lv (ex_intro _ rest (conj EL D)))) as V. rewrite HP in V. exact V.
  Qed.

  (** C20: in solver mode, an exact solution is left unchanged by a cycle. *)
  Theorem C20_solution_is_fixed_point : forall (h : hierarchy K) d ds nc C, hier_describes h (d :: ds) nc C -> zero_levels (d :: ds) nc ->
    C (vzero nc) (vzero nc) = vzero nc -> h_is_preconditioner h = false ->
    forall te x l, usable te (length (h_levels h)) -> open_sections l = [] -> length x = fn d ->
      exists l', hierarchy_vmult te h x (fA d x) l = (Ok x, l').
  Proof.
    intros h d ds nc C D Z C0 HP te x l U O Hx. pose proof D as (lv & rest & EL & D'). destruct (describes_sized D') as (Sz & LC & _).
    assert (HA : length (fA d x) = fn d) by (destruct Sz as (Sz & _); apply Sz; auto).
    destruct (@vmult_cyc h (d :: ds) nc C D te x (fA d x) l U O) as (l' & V & _ & _); auto.
    rewrite HP in V. destruct (@cyc_fixed K (h_n_smoothing_steps h) (d :: ds) nc C Z C0 Sz) as (_ & F). rewrite (F d ds eq_refl x Hx) in V. eauto.
  Qed.

  (** C21: with symmetric components, vmult in preconditioner mode is symmetric. *)
  Theorem C21_vmult_symmetric : forall (h : hierarchy K) ds nc C, hier_describes h ds nc C -> symmetric_levels ds nc -> jointly_linear nc C ->
    self_adjoint nc (fun b => C b (vzero nc)) -> h_is_preconditioner h = true ->
    exists Mv, self_adjoint (top_size ds nc) Mv /\ vmult_gives h (top_size ds nc) (fun b _ => Mv b).
  Proof.
    intros h ds nc C D SY JC SC HP. exists (fun b => cyc (h_n_smoothing_steps h) ds nc C b (vzero (top_size ds nc))).
    pose proof D as (lv & rest & EL & D'). destruct (describes_sized D') as (Sz & LC & _). split; [apply cyc_symmetric; auto|].
    pose proof (@vmult_cyc h ds nc C D) as V. rewrite HP in V. exact V.
  Qed.

  (** C23: error propagation of two levels with exact coarse solves: smoothing, projection, smoothing; after the coarse correction the
      restricted residual vanishes, and an error in the range of the prolongation is eliminated. *)
  Theorem C23_two_grid_error : forall (h : hierarchy K) d nc C Ac B, hier_describes h [d] nc C ->
    linear (fn d) (fn d) (fA d) -> linear (fn d) (fn d) B -> linear (fn d) nc (fR d) -> linear nc (fn d) (fP d) ->
    (forall b x, length b = fn d -> length x = fn d -> fS d b x = correction_step (fA d) B b x) ->
    linear nc nc Ac -> (forall z, length z = nc -> Ac z = fR d (fA d (fP d z))) ->
    (forall b x, length b = nc -> length x = nc -> Ac (C b x) = b) ->
    forall te x e l, usable te (length (h_levels h)) -> open_sections l = [] -> length x = fn d -> length e = fn d ->
      let k := h_n_smoothing_steps h in
      let e0 := if h_is_preconditioner h then vscale (- (1)) x else e in
      let e1 := iter k (error_step (fA d) B) e0 in
      let e2 := vsub e1 (fP d (C (fR d (fA d e1)) (vzero nc))) in
      (exists l', hierarchy_vmult te h (vadd x e) (fA d x) l = (Ok (vadd x (iter k (error_step (fA d) B) e2)), l')) /\
      fR d (fA d e2) = vzero nc /\
      ((forall z, length z = nc -> Ac z = vzero nc -> z = vzero nc) -> (exists z, length z = nc /\ e1 = fP d z) -> e2 = vzero (fn d)).
  Proof.
    intros h d nc C Ac B D LA LB LR LP HS LAc HG HE te x e l U O Hx He k e0 e1 e2.
    pose proof D as (lv & rest & EL & D'). destruct (describes_sized D') as (Sz & LC & _).
    assert (He0 : length e0 = fn d) by (unfold e0; destruct (h_is_preconditioner h); vlen).
    assert (He1 : length e1 = fn d) by (unfold e1; apply (@iter_error K k (fn d) (fA d) B LA LB x e0); auto).
    assert (Hr : length (fR d (fA d e1)) = nc) by (apply (lin_len LR); apply (lin_len LA); auto).
    assert (Hc : length (C (fR d (fA d e1)) (vzero nc)) = nc) by (apply LC; auto; apply vzero_length).
    assert (Hp : length (fP d (C (fR d (fA d e1)) (vzero nc))) = fn d) by (apply (lin_len LP); auto).
    split; [|split].
    - destruct (@vmult_cyc h [d] nc C D te (vadd x e) (fA d x) l U O) as (l' & V & _ & _); [simpl; vlen|simpl; apply (lin_len LA); auto|].
      exists l'. rewrite V. do 2 f_equal. cbn [top_size].
      pose proof (@cyc_error K k d [] nc C B Sz LC LA LB HS x e0 Hx He0) as CE. cbv zeta in CE. fold e1 in CE. cbn [cyc top_size] in CE.
      fold e2 in CE. rewrite <- CE. clearbody e2. unfold e0. destruct (h_is_preconditioner h); auto.
      replace (vadd x (vscale (- (1)) x)) with (vzero (K:=K) (fn d)); auto. vext; ring.
    - unfold e2. rewrite (lin_sub LA) by auto. rewrite (lin_sub LR) by (apply (lin_len LA); auto). rewrite <- HG by auto. rewrite HE by (auto; apply vzero_length).
      rewrite vsub_self, Hr. auto.
    - intros INJ (z & Hz & EZ). unfold e2. replace (C (fR d (fA d e1)) (vzero nc)) with z.
      + rewrite <- EZ. rewrite vsub_self, He1. auto.
      + set (c := C (fR d (fA d e1)) (vzero nc)) in *.
        assert (E0 : vsub z c = vzero nc).
        { apply INJ; [vlen|]. rewrite (lin_sub LAc) by auto. rewrite HG by auto. rewrite <- EZ. unfold c. rewrite HE by (auto; apply vzero_length). rewrite vsub_self, Hr. auto. }
        apply vec_ext; [congruence|]. intros i Hi. assert (X : nth i (vsub z c) 0 = 0) by (rewrite E0; apply nth_vzero). rewrite nth_vsub in X by congruence.
        transitivity (nth i z 0 - nth i c 0 + nth i c 0); [ring|rewrite X; ring].
  Qed.

  (** C59: a cycle over any number of levels does not increase the energy of the error, for semidefinite operators too. *)
  Theorem C59_cycle_never_increases_energy : forall (h : hierarchy K) ds nc C Ac, hier_describes h ds nc C -> sym_ops ds nc ->
    linear nc nc Ac -> self_adjoint nc Ac -> galerkin_levels ds nc Ac -> solvable_levels ds nc Ac -> stable_smoothers ds -> stable_step nc Ac C ->
    h_is_preconditioner h = false ->
    forall te x e l, usable te (length (h_levels h)) -> open_sections l = [] -> length x = top_size ds nc -> length e = top_size ds nc ->
      length (top_op ds Ac x) = top_size ds nc ->
      exists e' l', hierarchy_vmult te h (vadd x e) (top_op ds Ac x) l = (Ok (vadd x e'), l') /\ energy (top_op ds Ac) e' <= energy (top_op ds Ac) e.
  Proof.
    intros h ds nc C Ac D SY LA SA GA SO ST SC HP te x e l U O Hx He HA.
    pose proof D as (lv & rest & EL & D'). destruct (describes_sized D') as (Sz & LC & _).
    destruct (@vmult_cyc h ds nc C D te (vadd x e) (top_op ds Ac x) l U O) as (l' & V & _ & _); [vlen|auto|]. rewrite HP in V.
    destruct (@cyc_stable K (h_n_smoothing_steps h) ds nc C Ac Sz LC SY LA SA GA SO ST SC x e Hx He) as (e' & E1 & E2 & E3).
    exists e', l'. split; auto. rewrite V, E2. auto.
  Qed.

  (** C28: the smoothers compute x - B (A x - b), for every operator object. *)
  Theorem C28_smoother_step : forall (a : op K) n fA B, op_acts a n n fA -> maps n n B ->
    forall b x, length b = n -> length x = n ->
      smoother_apply a B b x = Ok (vsub x (B (vsub (fA x) b))) /\
      (vsub x (B (vsub (fA x) b)) = x <-> B (vsub (fA x) b) = vzero n).
  Proof.
    intros a n fA B (_ & _ & HA) HB b x Hb Hx. destruct (HA x b Hx Hb) as (A1 & A2).
    assert (HR : length (vsub (fA x) b) = n) by vlen. assert (HBl := HB _ HR).
    split.
    - unfold smoother_apply, bind. rewrite A1. rewrite vec_add_sub by congruence. apply vec_add_sub. congruence.
    - split; intros E.
      + apply vec_ext; [rewrite vzero_length; auto|]. intros i Hi. rewrite nth_vzero.
        assert (X : nth i (vsub x (B (vsub (fA x) b))) 0 = nth i x 0) by (rewrite E; auto). rewrite nth_vsub in X by congruence.
        transitivity (nth i x 0 - (nth i x 0 - nth i (B (vsub (fA x) b)) 0)); [ring|rewrite X; ring].
      + rewrite E. apply vsub_zero_r. auto.
  Qed.
  (** C28: the step is linear in the pair (b, x) when A and B are. *)
  Theorem C28_smoother_step_linear : forall n (fA B : vec -> vec), linear n n fA -> linear n n B -> jointly_linear n (correction_step fA B).
  Proof.
    intros n fA B LA LB s t b c x y Hb Hc Hx Hy. unfold correction_step.
    change (vadd (vscale s x) (vscale t y)) with (lc s x t y). change (vadd (vscale s b) (vscale t c)) with (lc s b t c).
    change (vadd (vscale s (vsub x (B (vsub (fA x) b)))) (vscale t (vsub y (B (vsub (fA y) c))))) with
      (lc s (vsub x (B (vsub (fA x) b))) t (vsub y (B (vsub (fA y) c)))).
    assert (H1 := lin_len LA x Hx). assert (H2 := lin_len LA y Hy).
    rewrite (lin_lc LA) by auto. rewrite (@lc_sub K s _ t _ _ _ n) by auto.
    rewrite (lin_lc LB) by vlen. apply (@lc_sub K s _ t _ _ _ n); auto; apply (lin_len LB); vlen.
  Qed.
  (** C28: the default smoother (symmetric Gauss-Seidel) is symmetric and reduces every error, for every SPD matrix. *)
  Theorem C28_symmetric_gauss_seidel_good : forall A : mat K, nr A = nc A -> spd (nc A) (mulvec A) ->
    exists f, bx_acts (ssor_smoother A) (nc A) f /\ good_smoother (nc A) (mulvec A) f /\ strict_step (nc A) (mulvec A) f.
  Proof.
    intros A D S. exists (correction_step (mulvec A) (ssor_vmult A)). split; [apply smoother_apply_acts; auto; intros x Hx; exact (lin_len (@ssor_linear K A D) x Hx)|].
    assert (G : good_smoother (nc A) (mulvec A) (correction_step (mulvec A) (ssor_vmult A))) by (apply ssor_good; auto; apply S).
    split; auto. apply (@good_strict K (nc A) (mulvec A)); auto. pose proof (mulvec_linear A) as X. rewrite D in X. exact X.
  Qed.
  (** C28: Gauss-Seidel reduces every error too (but is not symmetric, see C21). *)
  Theorem C28_gauss_seidel_relaxes : forall A : mat K, nr A = nc A -> spd (nc A) (mulvec A) -> relaxes (nc A) (mulvec A) (sor_vmult A).
  Proof. intros A D S. apply sor_relaxes; auto; apply S. Qed.
  (** C28: Jacobi is linear and symmetric. *)
  Theorem C28_jacobi_symmetric : forall A : mat K, linear (nc A) (nc A) (jacobi_vmult A) /\ self_adjoint (nc A) (jacobi_vmult A).
  Proof. intros A. split; [apply jacobi_linear|apply jacobi_sym]. Qed.

  Section Construction.
    Variable H : Type.
    Variable hh : helpers K H.
    Variable eps : K.

    (** C22: every coarse operator is R A R^T and inherits symmetry and definiteness. *)
    Theorem C22_coarse_operators_galerkin : forall te dbg created p h0 h s l A h1,
      construct hh eps te dbg created (Some p) h0 = (Ok h, s, l) -> hh_get_global_operator hh h0 = (Ok (TriOp A), h1) ->
      pt_get parse_bool ["fast_ap"%string] false (c_params p) = false ->
      forall i lf lc, nth_error (h_levels h) i = Some lf -> nth_error (h_levels h) (S i) = Some lc ->
      exists Af R Ac, lv_op lf = Some (TriOp Af) /\ lv_restrictor lc = Some (TriOp R) /\ lv_op lc = Some (TriOp Ac) /\
        nr Af = nc Af /\ nc R = nc Af /\ nr Ac = nr R /\ nc Ac = nr R /\
        (forall x, mulvec Ac x = mulvec R (mulvec Af (mulTvec R x))) /\
        (self_adjoint (nc Af) (mulvec Af) -> self_adjoint (nc Ac) (mulvec Ac)) /\
        (pos_semidef (nc Af) (mulvec Af) -> pos_semidef (nc Ac) (mulvec Ac)) /\
        (pos_def (nc Af) (mulvec Af) -> full_row_rank R -> pos_def (nc Ac) (mulvec Ac)).
    Proof.
      intros te dbg created p h0 h s l A h1 E EG FA i lf lc0 E1 E2.
      destruct (construct_spec hh eps te dbg created p h0) as (r & s' & l' & E' & SP). rewrite E in E'. inversion E'; subst r s' l'.
      destruct SP as (_ & _ & _ & _ & _ & _ & _ & (a & h2 & EG2 & HB) & _). rewrite EG in EG2. inversion EG2; subst a h2.
      destruct (@built_galerkin K H hh eps _ _ _ _ _ _ HB FA A eq_refl i lf lc0 E1 E2) as (Af & R & Ac & P1 & P2 & P3 & P4 & P5 & P6 & P7 & P8).
      exists Af, R, Ac. do 8 (split; [auto|]). split; [|split].
      - apply (@galerkin_sym K Af R Ac); auto; congruence.
      - apply (@galerkin_psd K Af R Ac); auto; congruence.
      - apply (@galerkin_pd K Af R Ac); auto; congruence.
    Qed.

    (** C24: what construction leaves in the levels, whatever the helpers return. *)
    Theorem C24_levels_populated : forall te dbg created p h0 h s l, construct hh eps te dbg created (Some p) h0 = (Ok h, s, l) ->
      (0 < c_levels p)%Z /\ length (h_levels h) = Z.to_nat (c_levels p) /\
      forall i lv, nth_error (h_levels h) i = Some lv ->
        lv_op lv <> None /\ (lv_restrictor lv = None <-> i = 0%nat) /\
        (lv_smoother lv = None <-> S i = length (h_levels h)) /\ (lv_solver lv = None <-> S i <> length (h_levels h)).
    Proof.
      intros te dbg created p h0 h s l E.
      destruct (construct_spec hh eps te dbg created p h0) as (r & s' & l' & E' & SP). rewrite E in E'. inversion E'; subst r s' l'.
      destruct SP as (_ & P2 & P3 & _ & _ & _ & _ & (a & h2 & EG2 & HB) & _). split; auto. split; auto.
      intros i lv E1. destruct (built_slots HB) as (_ & SL). destruct (SL i lv E1) as ((o & Q1) & Q2 & Q3 & Q4).
      split; [congruence|]. split; [rewrite Q2; tauto|]. auto.
    Qed.
    (** C24: the helpers are asked in the order fine to coarse and each level holds what they returned for it. *)
    Theorem C24_levels_hold_helpers_objects : forall te dbg created p h0 h s l, construct hh eps te dbg created (Some p) h0 = (Ok h, s, l) ->
      h_is_preconditioner h = c_prec p /\ h_n_smoothing_steps h = c_steps p /\
      exists a h1, hh_get_global_operator hh h0 = (Ok a, h1) /\ built hh eps (c_params p) None a h1 (h_levels h) (cs_h s).
    Proof.
      intros te dbg created p h0 h s l E.
      destruct (construct_spec hh eps te dbg created p h0) as (r & s' & l' & E' & SP). rewrite E in E'. inversion E'; subst r s' l'.
      destruct SP as (_ & _ & _ & P4 & P5 & _ & _ & P8 & _). auto.
    Qed.
    (** C24: and conversely: when the helpers return objects of compatible types for every level, construction succeeds. *)
    Theorem C24_construction_succeeds : forall te dbg p h0 a h1 ls h', (0 < c_levels p)%Z ->
      hh_get_global_operator hh h0 = (Ok a, h1) -> length ls = Z.to_nat (c_levels p) -> built hh eps (c_params p) None a h1 ls h' ->
      exists l, construct hh eps te dbg (Ok tt) (Some p) h0 = (Ok (mkHierarchy ls (c_prec p) (c_steps p)), mkCstate ls h' (c_params p), l).
    Proof. intros. eapply construct_complete; eauto. Qed.

    (** C25: construction enters and leaves sections in a nested way; when it fails, "Setup" and at most one section inside it stay open. *)
    Theorem C25_construction_sections : forall te dbg created p h0 r s l, construct hh eps te dbg created (Some p) h0 = (r, s, l) ->
      t_present te = true ->
      match r with
      | Ok _ => nested (rev l) /\ open_sections l = []
      | _ => open_sections l = [SSetup] \/ exists sub, open_sections l = [sub; SSetup]
      end.
    Proof.
      intros te dbg created p h0 r s l E TP.
      destruct (construct_spec hh eps te dbg created p h0) as (r' & s' & l' & E' & SP). rewrite E in E'. inversion E'; subst r' s' l'.
      assert (F : (exists t sub, nested t /\ rev l = trace te (Enter SSetup :: t ++ match sub with None => [] | Some n => [Enter n] end)) ->
        open_sections l = [SSetup] \/ exists sub, open_sections l = [sub; SSetup]).
      { intros (t & sub & N & R). unfold trace in R. rewrite TP in R. rewrite <- (rev_involutive l), R. simpl. rewrite rev_app_distr. rewrite <- app_assoc.
        destruct sub as [n|]; cbn [rev app open_sections]; rewrite (open_nested N); simpl; eauto. }
      destruct r; try (apply F; apply SP). destruct SP as (_ & _ & _ & _ & _ & _ & _ & _ & (t & N & R)). unfold trace in R. rewrite TP in R.
      assert (N2 : nested (Enter SSetup :: t ++ [Leave])) by (apply nested_sec; [auto|constructor]).
      split; [rewrite R; auto|]. rewrite <- (rev_involutive l), R. rewrite <- (app_nil_r (rev _)). rewrite (open_nested N2). reflexivity.
    Qed.
    (** C25: a timer, and its mode, never changes what the constructor returns. *)
    Theorem C25_construction_independent_of_timer : forall te1 te2 dbg created params h0,
      fst (construct hh eps te1 dbg created params h0) = fst (construct hh eps te2 dbg created params h0).
    Proof. intros. apply construct_timer. Qed.

    (** C26: the caller's tree changes for a single level only, and then at one key only. *)
    Theorem C26_params_untouched : forall te dbg created p h0 r s l, construct hh eps te dbg created (Some p) h0 = (r, s, l) ->
      (c_levels p <> 1%Z -> cs_params s = p) /\
      (c_levels p = 1%Z ->
        (cs_params s = p /\ forall h, r <> Ok h) \/
        ((exists c, pt_find (cs_params s) ["coarse"; "params"; "zero starting solution"]%string = Some c /\ pt_data c = print_bool (c_prec p)) /\
         (forall q, ~ is_prefix q ["coarse"; "params"; "zero starting solution"]%string ->
            pt_find (cs_params s) q = pt_find p q) /\
         (forall q, is_prefix q ["coarse"; "params"]%string -> forall c, pt_find p q = Some c ->
            exists c', pt_find (cs_params s) q = Some c' /\ pt_data c' = pt_data c))).
    Proof.
      intros te dbg created p h0 r s l E.
      destruct (construct_spec hh eps te dbg created p h0) as (r' & s' & l' & E' & SP). rewrite E in E'. inversion E'; subst r' s' l'.
      assert (X : (cs_params s = p /\ forall h, r <> Ok h) \/ cs_params s = c_params p).
      { destruct r; [right; apply SP| | | |]; destruct SP as ([SP|SP] & _); auto; left; split; auto; congruence. }
      clear SP. unfold c_params in X. split.
      - intros N. destruct X as [(X & _)|X]; auto. destruct (Z.eqb_spec (c_levels p) 1); [contradiction|auto].
      - intros E1. rewrite E1 in X. cbn [Z.eqb Pos.eqb] in X. destruct X as [X|X]; [left; exact X|right]. rewrite X. clear X.
        split; [|split].
        + destruct (find_put_same key_zero_start (print_bool (c_prec p)) p) as (c & F1 & F2 & _). exists c. auto.
        + intros q NP. destruct (list_eq_dec string_dec q key_zero_start) as [->|NE]; [exfalso; apply NP; exists []; rewrite app_nil_r; reflexivity|].
          destruct (list_eq_dec string_dec (firstn 3 q) key_zero_start) as [EQ|NQ].
          * rewrite <- (firstn_skipn 3 q), EQ. apply find_put_below. intros Z. apply NE. rewrite <- (firstn_skipn 3 q), EQ, Z. apply app_nil_r.
          * apply find_put_other; [exact NP|]. intros (r0 & ->). apply NQ. reflexivity.
        + intros q (r0 & EQ) c F.
          assert (EK : key_zero_start = (q ++ r0 ++ ["zero starting solution"%string])%list) by (rewrite app_assoc, <- EQ; reflexivity).
          rewrite EK. destruct (r0 ++ ["zero starting solution"%string]) as [|k r1] eqn:ER; [destruct r0; discriminate|].
          destruct (find_put_above q k r1 (print_bool (c_prec p)) p) as (c' & G1 & G2). exists c'. rewrite F in G2. auto.
    Qed.

    (** C27: helpers whose objects fit in size give a hierarchy of the requested depth on which every cycle runs to the end. *)
    Theorem C27_fitting_sizes_suffice : forall te0 dbg p h0 (A : mat K) h1 J, (0 < c_levels p)%Z -> fitting_helpers hh (c_params p) J ->
      hh_get_global_operator hh h0 = (Ok (TriOp A), h1) -> nr A = nc A -> J h1 (nc A) ->
      exists h s l, construct hh eps te0 dbg (Ok tt) (Some p) h0 = (Ok h, s, l) /\ length (h_levels h) = Z.to_nat (c_levels p) /\
        forall te x b l, usable te (length (h_levels h)) -> open_sections l = [] -> length x = nc A -> length b = nc A ->
          exists y l', hierarchy_vmult te h x b l = (Ok y, l') /\ length y = nc A.
    Proof. intros te0 dbg p h0 A h1 J. apply fitting_runs. Qed.

    (** C57: for SPD problems with symmetric reducing smoothers, restrictions of full rank and exact coarse solves, the constructed hierarchy is
        a symmetric positive definite preconditioner and a convergent iteration. *)
    Theorem C57_spd_preconditioner : forall te0 dbg created p h0 h s l n (A : mat K),
      construct hh eps te0 dbg created (Some p) h0 = (Ok h, s, l) ->
      c_prec p = true -> (0 < c_steps p)%nat -> pt_get parse_bool ["fast_ap"%string] false (c_params p) = false ->
      spd_helpers hh (c_params p) h0 n A ->
      exists Mv : vec -> vec, linear n n Mv /\ self_adjoint n Mv /\ (forall b, length b = n -> b <> vzero n -> 0 < dot (Mv b) b) /\
        (forall e, length e = n -> e <> vzero n -> energy (mulvec A) (vsub e (Mv (mulvec A e))) < energy (mulvec A) e) /\
        forall te x b l, usable te (length (h_levels h)) -> open_sections l = [] -> length x = n -> length b = n ->
          exists l', hierarchy_vmult te h x b l = (Ok (Mv b), l') /\ open_sections l' = [].
    Proof. apply spd_end_to_end. Qed.
  End Construction.

  (** C25: a cycle on any hierarchy, with any timer: nested events when it returns; otherwise "Apply" stays open. *)
  Theorem C25_cycle_sections : forall te (h : hierarchy K) x b l r l', t_present te = true -> existsb (section_eqb SApply) (open_sections l) = false ->
    hierarchy_vmult te h x b l = (r, l') ->
    match r with
    | Ok _ => exists t, nested t /\ rev l' = rev l ++ t
    | _ => exists subs, open_sections l' = subs ++ SApply :: open_sections l
    end.
  Proof.
    intros te h x b l r l' TP O E. pose proof (@vmult_timer te K h x b l r l' E) as V. pose proof (@vmult_timer_fail te K h x b l r l' TP O E) as F.
    destruct r; auto. unfold trace in V. rewrite TP in V. exact V.
  Qed.
  (** C25 is false for three levels or more when deal.II checks its timer: the section "Apply: fine levels" is entered while it is open, and the
      cycle stops. *)
  Theorem C25_deep_cycle_with_checked_timer_refuted : forall te (h : hierarchy K) ds nc C, hier_describes h ds nc C -> (3 <= length (h_levels h))%nat ->
    t_present te = true -> t_debug te = true ->
    forall x b l, open_sections l = [] -> length b = top_size ds nc -> length x = top_size ds nc ->
    exists l', hierarchy_vmult te h x b l = (Abort, l') /\ open_sections l' = [SFine; SApply].
  Proof.
    intros te h ds nc C (lv & rest & EL & D) L TP TD x b l O Hb Hx. rewrite EL in L. destruct rest as [|lc [|lc2 rest]]; try (simpl in L; lia).
    eapply vmult_debug_aborts; eauto.
  Qed.

  (** C27 fails with three levels or more for helpers that do not know the level. *)
  Theorem C27_host_helpers_three_levels_refuted : forall accepts_double (A : mat K) mk ilu ml eps te dbg p R AP, (3 <= c_levels p)%Z ->
    pt_get parse_bool ["fast_ap"%string] false p = false -> nr A = nc A ->
    pt_find p ["eigensolver"%string] <> None -> pt_find p ["agglomeration"%string] <> None ->
    mk p = Ok (R, AP) -> nc R = nc A -> nr R <> nc A -> (exists k, dealii_smoother_kind p = Ok k) ->
    exists s l, construct (host_helpers accepts_double A mk ilu ml) eps te dbg (Ok tt) (Some p) None = (UB, s, l).
  Proof.
    intros ad A mk ilu ml eps te dbg p R AP L FA D E1 E2 EM D1 D2 (k & SK).
    eapply (@fixed_width_fails K _ (host_helpers ad A mk ilu ml) eps te dbg p None A None L FA eq_refl D).
    - intros h. exists R, h. split; [|auto]. simpl. unfold host_build_restrictor. destruct (pt_find p ["eigensolver"%string]); [|congruence].
      destruct (pt_find p ["agglomeration"%string]); [|congruence]. rewrite EM, FA. reflexivity.
    - intros M h. simpl. rewrite SK. simpl. eauto.
  Qed.
End Theorems.

(** * Concrete instances and counterexamples *)
Definition q (z : Z) : QcOF := Q2Qc (z # 1).
(** Equality of rational vectors by computation. *)
Lemma qeq : forall a b : vec QcOF, map this a = map this b -> a = b.
Proof.
  induction a as [|x a IH]; intros [|y b] H; simpl in H; try discriminate; auto. injection H. intros H2 H1. f_equal; auto.
  apply Qc_is_canon. rewrite H1. reflexivity.
Qed.
Ltac qvec := apply qeq; vm_compute; reflexivity.
Lemma xmaps3 : forall K : ofield, maps 3 3 (ssor_vmult (xA K)).
Proof. intros K x Hx. exact (lin_len (@ssor_linear K (xA K) eq_refl) x Hx). Qed.
Lemma xmaps2 : forall K : ofield, maps 2 2 (ssor_vmult (xA1 K)).
Proof. intros K x Hx. exact (lin_len (@ssor_linear K (xA1 K) eq_refl) x Hx). Qed.
Notation xhq := (xh (@ssor_vmult QcOF)).
Definition yte : tenv := mkTenv true true.

Example C18_example : let h := xhq true 1 in
  hierarchy_vmult xte h (map q [7; 8; 9]%Z) (map q [1; 2; 3]%Z) [] = hierarchy_vmult xte h (map q [0; 0; 0]%Z) (map q [1; 2; 3]%Z) [] /\
  exists y l, hierarchy_vmult xte h (map q [7; 8; 9]%Z) (map q [1; 2; 3]%Z) [] = (Ok y, l) /\ y <> vzero 3.
Proof. split; [apply C18_vmult_ignores_x; reflexivity|]. eexists _, _. split; [vm_compute; reflexivity|]. intros X. discriminate X. Qed.

(** Without the preconditioner flag the result does depend on x: the hypothesis of C18 is needed. *)
Example C18_solver_mode_depends : let h := xhq false 1 in
  fst (hierarchy_vmult xte h (map q [7; 8; 9]%Z) (map q [1; 2; 3]%Z) []) <> fst (hierarchy_vmult xte h (map q [0; 0; 0]%Z) (map q [1; 2; 3]%Z) []).
Proof. vm_compute. intros X. discriminate X. Qed.

Example C19_example : exists Mv, linear 3 3 Mv /\ vmult_gives (xhq true 2) 3 (fun b _ => Mv b) /\ Mv (map q [1; 0; 0]%Z) <> vzero 3.
Proof.
  destruct (xlinear QcOF) as (LL & JC & _ & _).
  destruct (C19_vmult_linear (xdescribes _ true 2 (xmaps3 QcOF) (xmaps2 QcOF)) LL JC eq_refl) as (Mv & L & G). exists Mv. split; auto. split; auto.
  destruct (G xte (map q [0; 0; 0]%Z) (map q [1; 0; 0]%Z) [] (or_introl eq_refl) eq_refl eq_refl eq_refl) as (l' & V & _ & _).
  intros Z. rewrite Z in V. vm_compute in V. discriminate V.
Qed.

Example C58_example : forall te b x, usable te 3 -> length b = 3 -> length x = 3 -> exists l',
  hierarchy_vmult te (xhq false 2) x b [] = (Ok (textbook_vcycle 2 (xds (@ssor_vmult QcOF)) 1 (fun b _ => direct_solve (xA2 QcOF) b) b x), l').
Proof.
  intros te b x U Hb Hx. destruct (xlinear QcOF) as (LL & JC & _ & _).
  pose proof (C58_vmult_is_textbook_vcycle (xdescribes _ false 2 (xmaps3 QcOF) (xmaps2 QcOF)) LL JC) as G.
  destruct (G te x b [] U eq_refl Hx Hb) as (l' & V & _). eauto.
Qed.

Example C20_example : exists l', hierarchy_vmult xte (xhq false 1) (map q [1; -2; 5]%Z) (mulvec (xA QcOF) (map q [1; -2; 5]%Z)) [] = (Ok (map q [1; -2; 5]%Z), l').
Proof.
  destruct (xlinear QcOF) as (LL & JC & _ & _). destruct LL as (L1 & _ & L2 & L3 & L4 & _ & L5 & L6 & _).
  assert (S : forall (A : mat QcOF) x, nr A = nc A -> length x = nc A -> correction_step (mulvec A) (ssor_vmult A) (mulvec A x) x = x).
  { intros A x D Hx. unfold correction_step. rewrite vsub_self, mulvec_length, D. rewrite (lin_zero (@ssor_linear QcOF A D)). apply vsub_zero_r; auto. }
  apply (@C20_solution_is_fixed_point QcOF _ _ _ _ _ (xdescribes _ false 1 (xmaps3 QcOF) (xmaps2 QcOF))); auto; [| |left; reflexivity].
  - cbn [zero_levels fA fS fR fP fn top_size]. split; [exact (lin_zero L1)|]. split; [intros x Hx; apply (S (xA QcOF)); auto|].
    split; [exact (lin_zero L2)|]. split; [exact (lin_zero L3)|]. split; [exact (lin_zero L4)|]. split; [intros x Hx; apply (S (xA1 QcOF)); auto|].
    split; [exact (lin_zero L5)|]. split; [exact (lin_zero L6)|exact I].
  - qvec.
Qed.

Example C21_example : exists Mv, self_adjoint 3 Mv /\ vmult_gives (xhq true 1) 3 (fun b _ => Mv b).
Proof.
  destruct (xlinear QcOF) as (_ & JC & SY & SC).
  exact (C21_vmult_symmetric (xdescribes _ true 1 (xmaps3 QcOF) (xmaps2 QcOF)) SY JC SC eq_refl).
Qed.

(** The same hierarchy as the host helpers build it. *)
Definition xtree (smoother levels : string) : ptree :=
  Node "" [("max levels"%string, Node levels []); ("eigensolver"%string, Node "" []); ("agglomeration"%string, Node "" []);
           ("smoother"%string, Node "" [("type"%string, Node smoother [])])].
Definition xhh : helpers QcOF (option (op QcOF)) :=
  host_helpers (fun _ => false) (xA QcOF) (fun _ => Ok (xR1 QcOF, xA QcOF)) (fun _ r => r) (fun _ _ r => r).
Definition xbuild (p : ptree) := construct xhh (q 0) xte false (Ok tt) (Some p) None.

(** A test of the constructed hierarchy that evaluates to true holds of it. *)
Lemma xbuilt : forall p (test : hierarchy QcOF -> bool), (match fst (fst (xbuild p)) with Ok h => test h | _ => false end) = true ->
  exists h s l, xbuild p = (Ok h, s, l) /\ test h = true.
Proof. intros p test. destruct (xbuild p) as [[[h| | | |] s] l]; simpl; intros T; try discriminate. eauto 6. Qed.
Definition xrun (h : hierarchy QcOF) (b : vec QcOF) : outcome (vec QcOF) := fst (hierarchy_vmult xte h (vzero 3) b []).

(** C21 is false with the smoother "gauss-seidel": the preconditioner of a symmetric problem is not symmetric. *)
Theorem C21_gauss_seidel_refuted : exists p h s l b c y z l1 l2, spd 3 (mulvec (xA QcOF)) /\ xbuild p = (Ok h, s, l) /\
  h_is_preconditioner h = true /\
  hierarchy_vmult xte h (vzero 3) b [] = (Ok y, l1) /\ hierarchy_vmult xte h (vzero 3) c [] = (Ok z, l2) /\ dot y c <> dot b z.
Proof.
  set (b := map q [1; 0; 0]%Z : vec QcOF). set (c := map q [0; 0; 1]%Z : vec QcOF).
  destruct (xbuilt (xtree "gauss-seidel" "2") (fun h => h_is_preconditioner h && match xrun h b, xrun h c with
    | Ok y, Ok z => negb (Qeq_bool (this (dot y c)) (this (dot b z))) | _, _ => false end)) as (h & s & l & E & T); [vm_compute; reflexivity|].
  apply andb_prop in T. destruct T as (T1 & T2). unfold xrun in T2.
  destruct (hierarchy_vmult xte h (vzero 3) b []) as [[y| | | |] l1] eqn:E1; try discriminate T2.
  destruct (hierarchy_vmult xte h (vzero 3) c []) as [[z| | | |] l2] eqn:E2; try discriminate T2.
  exists (xtree "gauss-seidel" "2"), h, s, l, b, c, y, z, l1, l2. split; [apply xA_spd|]. do 4 (split; [auto|]).
  intros X. cbn [fst] in T2. rewrite X in T2. rewrite Qeq_bool_refl in T2. discriminate T2.
Qed.

Definition xcoarse_op (h : hierarchy QcOF) : option (mat QcOF) :=
  match h_levels h with [_; lc] => match lv_op lc with Some (TriOp A) => Some A | _ => None end | _ => None end.
Fixpoint qveqb (a b : vec QcOF) : bool :=
  match a, b with [], [] => true | x :: a', y :: b' => Qc_eq_bool x y && qveqb a' b' | _, _ => false end.
Lemma qveqb_eq : forall a b, qveqb a b = true -> a = b.
Proof.
  induction a as [|x a IH]; intros [|y b] T; try discriminate; auto. cbn [qveqb] in T. apply andb_prop in T. destruct T as (T1 & T2).
  f_equal; auto. apply Qc_eq_bool_correct. auto.
Qed.
Example C22_example : exists h s l, xbuild (xtree "jacobi" "2") = (Ok h, s, l) /\ exists lf lc Ac,
  nth_error (h_levels h) 0 = Some lf /\ nth_error (h_levels h) 1 = Some lc /\ lv_op lc = Some (TriOp Ac) /\
  mulvec Ac (map q [1; 0]%Z) = map q [2; -1]%Z /\ mulvec Ac (map q [0; 1]%Z) = map q [-1; 2]%Z /\ pos_def 2 (mulvec Ac).
Proof.
  destruct (xbuilt (xtree "jacobi" "2") (fun h => match xcoarse_op h with
    | Some Ac => qveqb (mulvec Ac (map q [1; 0]%Z)) (map q [2; -1]%Z) && qveqb (mulvec Ac (map q [0; 1]%Z)) (map q [-1; 2]%Z) | None => false end))
    as (h & s & l & E & T); [vm_compute; reflexivity|].
  exists h, s, l. split; auto. destruct (@C24_levels_hold_helpers_objects QcOF _ xhh (q 0) xte false (Ok tt) _ None _ s l E) as (_ & _ & a & h1 & G & B).
  destruct h as [[|lf [|lc [|]]] pr k]; try discriminate T. unfold xcoarse_op in T. cbn [h_levels] in *. destruct (lv_op lc) as [[Ac|]|] eqn:EO; try discriminate T.
  apply andb_prop in T. destruct T as (T1 & T2).
  destruct (@C22_coarse_operators_galerkin QcOF _ xhh (q 0) xte false (Ok tt) _ None _ s l (xA QcOF) None E eq_refl eq_refl 0 lf lc eq_refl eq_refl)
    as (Af & R & Ac' & Q1 & Q2 & Q3 & Q4 & Q5 & Q6 & Q7 & Q8 & Q9 & Q10 & Q11).
  rewrite EO in Q3. inversion Q3; subst Ac'. exists lf, lc, Ac. do 3 (split; [auto|]). split; [apply qveqb_eq; auto|]. split; [apply qveqb_eq; auto|].
  inversion G; subst a h1. inversion B as [|ro a h0 sm h1 r h2 ap h3 ac ls h' H1 H2 H3 H4 H5]; subst. cbn [lv_op lv_restrictor] in *. inversion Q1; subst Af.
  assert (HR : hh_build_restrictor xhh (c_params (xtree "jacobi" "2")) h1 = (Ok (TriOp (xR1 QcOF)), h1)) by reflexivity. rewrite HR in H2. inversion H2; subst r h2.
  inversion H5; subst; cbn [lv_restrictor] in Q2; inversion Q2; subst R; cbn [nr xR1 of_rows] in Q7; rewrite Q7 in Q11; apply Q11; (exact (proj2 (xA_spd QcOF)) || apply xR1_rank).
Qed.

Example C23_example : let d := mkFine 3 (mulvec (xA QcOF)) (correction_step (mulvec (xA QcOF)) (ssor_vmult (xA QcOF))) (mulvec (xR1 QcOF)) (mulTvec (xR1 QcOF)) in
  let h := mkHierarchy [mkLevel (Some (TriOp (xA QcOF))) None (Some (ssor_smoother (xA QcOF))) None;
                        mkLevel (Some (TriOp (xA1 QcOF))) (Some (TriOp (xR1 QcOF))) None (Some (xsolver (xA1 QcOF)))] false 0 in
  (** no smoothing, error (5, 5, -2) in the range of the prolongation: eliminated *)
  exists l', hierarchy_vmult xte h (vadd (map q [1; 2; 3]%Z) (map q [5; 5; -2]%Z)) (fA d (map q [1; 2; 3]%Z)) [] = (Ok (map q [1; 2; 3]%Z), l').
Proof.
  intros d h.
  assert (D : hier_describes h [d] 2 (fun b _ => direct_solve (xA1 QcOF) b)).
  { eexists _, _. split; [reflexivity|]. eapply describes_fine; simpl; [reflexivity| |reflexivity| |reflexivity| | |].
    - apply (op_acts_tri (xA QcOF)).
    - apply (smoother_apply_acts (xA QcOF)); auto. apply xmaps3.
    - apply (op_acts_tri (xR1 QcOF)).
    - apply (opT_acts_tri (xR1 QcOF)).
    - eapply describes_coarsest; simpl; [reflexivity|reflexivity|reflexivity|]. intros b x Hb Hx. unfold xsolver. rewrite Hb, Hx. simpl. split; auto. }
  destruct (@C23_two_grid_error QcOF h d 2 _ (mulvec (xA1 QcOF)) (ssor_vmult (xA QcOF)) D) with (te := xte) (x := map q [1; 2; 3]%Z) (e := map q [5; 5; -2]%Z) (l := @nil tev)
    as ((l' & V) & _ & P); auto.
  - apply (mulvec_linear (xA QcOF)).
  - apply (@ssor_linear QcOF (xA QcOF)); auto.
  - apply (mulvec_linear (xR1 QcOF)).
  - apply (mulTvec_linear (xR1 QcOF)).
  - apply (mulvec_linear (xA1 QcOF)).
  - intros z _. apply xgal1.
  - intros b x Hb Hx. apply (@direct_exact QcOF (xA1 QcOF)); auto. apply xA1_spd.
  - right. auto.
  - cbn [h_n_smoothing_steps h_is_preconditioner h iter] in V, P. rewrite P in V.
    + exists l'. rewrite V. do 2 f_equal.
    + apply (spd_injective (xA1_spd QcOF)).
    + exists (map q [5; -2]%Z). split; [reflexivity|qvec].
Qed.

Definition is_some (A : Type) (o : option A) : bool := match o with Some _ => true | None => false end.
Example C24_example : exists h s l, xbuild (xtree "jacobi" "2") = (Ok h, s, l) /\
  map (fun lv => (is_some (lv_restrictor lv), is_some (lv_smoother lv), is_some (lv_solver lv))) (h_levels h) = [(false, true, false); (true, false, true)].
Proof.
  destruct (xbuilt (xtree "jacobi" "2") (fun h => match map (fun lv => (is_some (lv_restrictor lv), is_some (lv_smoother lv), is_some (lv_solver lv))) (h_levels h) with
    [(false, true, false); (true, false, true)] => true | _ => false end)) as (h & s & l & E & T); [vm_compute; reflexivity|].
  exists h, s, l. split; auto. destruct (map _ _) as [|[[[] []] []] [|[[[] []] []] [|]]]; try discriminate T. reflexivity.
Qed.
Example C24_levels_example : forall h s l, xbuild (xtree "jacobi" "2") = (Ok h, s, l) ->
  length (h_levels h) = 2 /\ exists lv, nth_error (h_levels h) 1 = Some lv /\ lv_smoother lv = None /\ lv_solver lv <> None.
Proof.
  intros h s l E. destruct (@C24_levels_populated QcOF _ xhh (q 0) xte false (Ok tt) _ None _ s l E) as (_ & L & P). change (Z.to_nat (c_levels (xtree "jacobi" "2"))) with 2 in L. split; auto.
  destruct h as [[|lf [|lc [|]]] pr k]; try discriminate L. exists lc. split; [reflexivity|]. destruct (P 1 lc eq_refl) as (_ & _ & Q1 & Q2).
  split; [apply Q1; reflexivity|]. intros X. apply Q2 in X. apply X. reflexivity.
Qed.

Example C25_example :
  (exists h s l, xbuild (xtree "jacobi" "2") = (Ok h, s, l) /\ nested (rev l) /\ length l = 12) /\
  (exists s l, xbuild (xtree "unknown" "2") = (Throw, s, l) /\ open_sections l = [SBuildSmoother; SSetup]).
Proof.
  split.
  - destruct (xbuild (xtree "jacobi" "2")) as ((r & s) & l) eqn:E. pose proof (@C25_construction_sections QcOF _ xhh (q 0) xte false (Ok tt) _ None r s l E eq_refl) as N.
    assert (T : (match xbuild (xtree "jacobi" "2") with (Ok _, _, l) => Nat.eqb (length l) 12 | _ => false end) = true) by (vm_compute; reflexivity).
    rewrite E in T. destruct r as [h| | | |]; try discriminate T. exists h, s, l. split; auto. split; [apply N|apply Nat.eqb_eq; auto].
  - destruct (xbuild (xtree "unknown" "2")) as ((r & s) & l) eqn:E.
    assert (T : (match xbuild (xtree "unknown" "2") with (Throw, _, l) => match open_sections l with [SBuildSmoother; SSetup] => true | _ => false end | _ => false end) = true) by (vm_compute; reflexivity).
    rewrite E in T. destruct r; try discriminate T. exists s, l. split; auto. destruct (open_sections l) as [|[] [|[] [|]]]; try discriminate T. reflexivity.
Qed.
Example C25_cycle_example : exists y t, nested t /\ length t = 8 /\ hierarchy_vmult xte (xhq true 1) (vzero 3) (map q [1; 2; 3]%Z) [] = (Ok y, rev t).
Proof.
  destruct (hierarchy_vmult xte (xhq true 1) (vzero 3) (map q [1; 2; 3]%Z) []) as [r l] eqn:E.
  pose proof (@C25_cycle_sections QcOF xte (xhq true 1) (vzero 3) (map q [1; 2; 3]%Z) [] r l eq_refl eq_refl E) as N.
  assert (T : (match hierarchy_vmult xte (xhq true 1) (vzero 3) (map q [1; 2; 3]%Z) [] with (Ok _, l) => Nat.eqb (length l) 8 | _ => false end) = true) by (vm_compute; reflexivity).
  rewrite E in T. destruct r as [y| | | |]; try discriminate T. destruct N as (t & N & R). cbn [rev app] in R. exists y, t. split; auto. apply Nat.eqb_eq in T.
  split; [rewrite <- R, rev_length; auto|]. rewrite <- R, rev_involutive. reflexivity.
Qed.
Example C25_deep_example : exists l', hierarchy_vmult yte (xhq true 1) (vzero 3) (map q [1; 2; 3]%Z) [] = (Abort, l') /\ open_sections l' = [SFine; SApply].
Proof.
  apply (@C25_deep_cycle_with_checked_timer_refuted QcOF yte _ _ _ _ (xdescribes _ true 1 (xmaps3 QcOF) (xmaps2 QcOF))); auto.
Qed.

Example C26_example : exists h s l,
  xbuild (Node "" [("max levels"%string, Node "1" []); ("coarse"%string, Node "kept" [("type"%string, Node "direct" [])])]) = (Ok h, s, l) /\
  cs_params s = Node "" [("max levels"%string, Node "1" []);
    ("coarse"%string, Node "kept" [("type"%string, Node "direct" []); ("params"%string, Node "" [("zero starting solution"%string, Node "true" [])])])].
Proof.
  set (p := Node "" [("max levels"%string, Node "1" []); ("coarse"%string, Node "kept" [("type"%string, Node "direct" [])])]).
  assert (E1 : (match fst (fst (xbuild p)) with Ok _ => true | _ => false end) = true) by (vm_compute; reflexivity).
  assert (E2 : cs_params (snd (fst (xbuild p))) = pt_put key_zero_start "true" p) by (vm_compute; reflexivity).
  destruct (xbuild p) as ((r & s) & l). cbn [fst snd] in *. destruct r as [h| | | |]; try discriminate E1. exists h, s, l. split; auto.
Qed.

(** Helpers that merge neighbouring unknowns, state: number of unknowns of the current level. *)
Definition pair_up (n : nat) : mat QcOF := mkMat (Nat.div2 (S n)) n (fun i j => if Nat.eqb (Nat.div2 j) i then q 1 else q 0).
Definition tridiag (n : nat) : mat QcOF :=
  mkMat n n (fun i j => if Nat.eqb i j then q 2 else if Nat.eqb i (S j) || Nat.eqb j (S i) then q (-1) else q 0).
Definition pair_helpers (n : nat) : helpers QcOF nat :=
  {| hh_get_global_operator := fun _ => (Ok (TriOp (tridiag n)), n);
     hh_build_restrictor := fun _ m => (Ok (TriOp (pair_up m)), Nat.div2 (S m));
     hh_build_smoother := fun a _ m => match a with TriOp A => (Ok (ssor_smoother A), m) | MfOp _ _ => (UB, m) end;
     hh_build_coarse_solver := fun a _ m => match a with TriOp A => (Ok (ssor_smoother A), m) | MfOp _ _ => (UB, m) end;
     hh_fast_multiply_transpose := fun m => (UB, m) |}.
Example C27_example : exists h s l,
  construct (pair_helpers 20) (q 0) xte true (Ok tt) (Some (Node "" [("max levels"%string, Node "5" [])])) 0 = (Ok h, s, l) /\
  length (h_levels h) = 5 /\
  forall x b l, open_sections l = [] -> length x = 20 -> length b = 20 -> exists y l', hierarchy_vmult xte h x b l = (Ok y, l') /\ length y = 20.
Proof.
  destruct (@C27_fitting_sizes_suffice QcOF nat (pair_helpers 20) (q 0) xte true (Node "" [("max levels"%string, Node "5" [])]) 0 (tridiag 20) 20 (fun m n => m = n))
    as (h & s & l & E & L & R); auto; [reflexivity| |].
  - assert (SG : forall A : mat QcOF, nr A = nc A -> bx_acts (ssor_smoother A) (nc A) (correction_step (mulvec A) (ssor_vmult A))).
    { intros A D. apply smoother_apply_acts; auto. intros x Hx. exact (lin_len (@ssor_linear QcOF A D) x Hx). }
    constructor.
    + intros A m D J. eexists _, _, _. split; [reflexivity|]. split; auto.
    + intros m n ->. eexists _, _. split; [reflexivity|]. split; reflexivity.
    + intros A m D J. eexists _, _, _. split; [reflexivity|]. auto.
  - exists h, s, l. split; auto. split; auto. intros x b l0 O Hx Hb. apply R; auto. left. reflexivity.
Qed.
Example C27_refuted_example : exists s l, xbuild (xtree "jacobi" "3") = (UB, s, l).
Proof.
  apply (C27_host_helpers_three_levels_refuted (fun _ => false) (xA QcOF) (fun _ => Ok (xR1 QcOF, xA QcOF))) with (R := xR1 QcOF) (AP := xA QcOF);
    try reflexivity; try discriminate; try (vm_compute; congruence). eexists. vm_compute. reflexivity.
Qed.

Example C28_example : smoother_apply (TriOp (xA QcOF)) (jacobi_vmult (xA QcOF)) (map q [1; 2; 3]%Z) (map q [1; 1; 1]%Z) =
  Ok (qv [(1%Z, 1%positive); (2%Z, 1%positive); (2%Z, 1%positive)]).
Proof.
  rewrite (proj1 (@C28_smoother_step QcOF (TriOp (xA QcOF)) 3 (mulvec (xA QcOF)) (jacobi_vmult (xA QcOF)) (op_acts_tri (xA QcOF))
    (lin_len (jacobi_linear (xA QcOF))) (map q [1; 2; 3]%Z) (map q [1; 1; 1]%Z) eq_refl eq_refl)). f_equal.
Qed.
Example C28_linear_example : jointly_linear 3 (correction_step (mulvec (xA QcOF)) (sor_vmult (xA QcOF))).
Proof. apply C28_smoother_step_linear; [apply (mulvec_linear (xA QcOF))|apply (@sor_linear QcOF (xA QcOF)); auto]. Qed.
Example C28_ssor_example : exists f, bx_acts (ssor_smoother (xA QcOF)) 3 f /\ strict_step 3 (mulvec (xA QcOF)) f.
Proof. destruct (@C28_symmetric_gauss_seidel_good QcOF (xA QcOF) eq_refl (xA_spd QcOF)) as (f & F1 & _ & F3). eauto. Qed.
Example C28_sor_example : relaxes 3 (mulvec (xA QcOF)) (sor_vmult (xA QcOF)).
Proof. exact (@C28_gauss_seidel_relaxes QcOF (xA QcOF) eq_refl (xA_spd QcOF)). Qed.
Example C28_jacobi_example : dot (jacobi_vmult (xA QcOF) (map q [1; 2; 3]%Z)) (map q [4; 5; 6]%Z) = dot (map q [1; 2; 3]%Z) (jacobi_vmult (xA QcOF) (map q [4; 5; 6]%Z)) /\
  dot (jacobi_vmult (xA QcOF) (map q [1; 2; 3]%Z)) (map q [4; 5; 6]%Z) = q 16.
Proof. split; [apply (proj2 (C28_jacobi_symmetric (xA QcOF))); reflexivity|apply Qc_is_canon; vm_compute; reflexivity]. Qed.

Section JacobiMatrix.
  Variable K : ofield.
  Add Field KfieldJM : (f_field K).
  Local Open Scope K_scope.
  Definition jA : mat K := of_rows 3 3 [[1+1+1; 1+1; 1+1]; [1+1; 1+1+1; 1+1]; [1+1; 1+1; 1+1+1]].
  Lemma jA_spd : spd 3 (mulvec jA).
  Proof.
    split.
    - intros x y Hx Hy. destruct x as [|x0 [|x1 [|x2 [|]]]]; try discriminate. destruct y as [|y0 [|y1 [|y2 [|]]]]; try discriminate.
      unfold mulvec, dot, dot, jA, of_rows. cbn. ring.
    - intros x Hx Nx. destruct x as [|x0 [|x1 [|x2 [|]]]]; try discriminate.
      replace (energy (mulvec jA) [x0; x1; x2]) with (x0 * x0 + (x1 * x1 + (x2 * x2 + ((x0 + x1 + x2) * (x0 + x1 + x2) + (x0 + x1 + x2) * (x0 + x1 + x2)))))
        by (unfold energy, mulvec, dot, jA, of_rows; cbn; ring).
      assert (N : forall a : K, 0 <= a * a) by apply fsquare_nonneg.
      apply fle_neq_lt; [repeat apply fadd_nonneg; auto|]. intros E. symmetry in E.
      apply fadd_nonneg_eq_0 in E; [destruct E as (E0 & E)|auto|repeat apply fadd_nonneg; auto].
      apply fadd_nonneg_eq_0 in E; [destruct E as (E1 & E)|auto|repeat apply fadd_nonneg; auto].
      apply fadd_nonneg_eq_0 in E; [destruct E as (E2 & E)|auto|repeat apply fadd_nonneg; auto].
      apply fsquare_0 in E0, E1, E2. apply Nx. subst. reflexivity.
  Qed.
End JacobiMatrix.
(** C28: "jacobi" does not reduce errors for every SPD matrix: here one step enlarges the energy of the error. *)
Theorem C28_jacobi_reduces_refuted : exists (A : mat QcOF) b x e y, nr A = nc A /\ spd (nc A) (mulvec A) /\ length x = nc A /\ length e = nc A /\
  b = mulvec A x /\ jacobi_smoother A b (vadd x e) = Ok y /\ flt (energy (mulvec A) e) (energy (mulvec A) (vsub y x)).
Proof.
  exists (jA QcOF), (mulvec (jA QcOF) (map q [1; 2; 3]%Z)), (map q [1; 2; 3]%Z), (map q [1; 1; 1]%Z), (qv [((-1)%Z, 3%positive); (2%Z, 3%positive); (5%Z, 3%positive)]).
  split; [reflexivity|]. split; [apply jA_spd|]. split; [reflexivity|]. split; [reflexivity|]. split; [reflexivity|].
  split; [|apply fltb_lt; vm_compute; reflexivity].
  unfold jacobi_smoother. rewrite (proj1 (@C28_smoother_step QcOF (TriOp (jA QcOF)) 3 (mulvec (jA QcOF)) (jacobi_vmult (jA QcOF)) (op_acts_tri (jA QcOF))
    (lin_len (jacobi_linear (jA QcOF))) (mulvec (jA QcOF) (map q [1; 2; 3]%Z)) (vadd (map q [1; 2; 3]%Z) (map q [1; 1; 1]%Z)) eq_refl eq_refl)). f_equal.
Qed.

Example C59_example : exists e' l', hierarchy_vmult xte (xhq false 1) (vadd (map q [1; 2; 3]%Z) (map q [4; -1; 7]%Z)) (mulvec (xA QcOF) (map q [1; 2; 3]%Z)) [] =
  (Ok (vadd (map q [1; 2; 3]%Z) e'), l') /\ fle (energy (mulvec (xA QcOF)) e') (energy (mulvec (xA QcOF)) (map q [4; -1; 7]%Z)).
Proof.
  destruct (xlinear QcOF) as ((L1 & _ & L2 & L3 & L4 & _ & L5 & L6 & _) & JC & (_ & S1 & _ & _ & _ & A1 & _ & S2 & _ & _ & _ & A2 & _) & SC).
  assert (GS : forall A : mat QcOF, nr A = nc A -> linear (nc A) (nc A) (mulvec A) -> spd (nc A) (mulvec A) -> stable_step (nc A) (mulvec A) (correction_step (mulvec A) (ssor_vmult A))).
  { intros A D L S. apply (@good_strict QcOF (nc A) (mulvec A)); auto. apply ssor_good; auto; apply S. }
  apply (@C59_cycle_never_increases_energy QcOF _ _ _ _ (mulvec (xA2 QcOF)) (xdescribes _ false 1 (xmaps3 QcOF) (xmaps2 QcOF))); try reflexivity; [| | | | | | |left; reflexivity].
  - cbn [sym_ops fn fA fR fP top_size]. repeat (split; [assumption|]). exact I.
  - apply (mulvec_linear (xA2 QcOF)).
  - apply xA2_spd.
  - cbn [galerkin_levels fn fA fR fP top_size]. split; [intros x _; apply xgal1|]. split; [intros x _; apply xgal2|exact I].
  - cbn [solvable_levels fn fA fR fP top_size top_op]. split; [|split; [|exact I]].
    + intros e He. destruct (@spd_onto QcOF 2 (mulvec (xA1 QcOF)) L4 (xA1_spd QcOF) (mulvec (xR1 QcOF) (mulvec (xA QcOF) e))) as (z & Z1 & Z2); [reflexivity|eauto].
    + intros e He. destruct (@spd_onto QcOF 1 (mulvec (xA2 QcOF)) (mulvec_linear (xA2 QcOF)) (xA2_spd QcOF) (mulvec (xR2 QcOF) (mulvec (xA1 QcOF) e))) as (z & Z1 & Z2); [reflexivity|eauto].
  - cbn [stable_smoothers fn fA fS]. split; [|split; [|exact I]].
    + exact (GS (xA QcOF) eq_refl L1 (xA_spd QcOF)).
    + exact (GS (xA1 QcOF) eq_refl L4 (xA1_spd QcOF)).
  - apply (@exact_strict QcOF (xA2 QcOF) (fun b _ => direct_solve (xA2 QcOF) b)); auto; [apply xA2_spd|].
    intros b x Hb Hx. apply direct_exact; auto. apply xA2_spd.
Qed.

Print Assumptions C18_vmult_ignores_x.
Print Assumptions C58_vmult_is_textbook_vcycle.
Print Assumptions C19_vmult_linear.
Print Assumptions C20_solution_is_fixed_point.
Print Assumptions C21_vmult_symmetric.
Print Assumptions C23_two_grid_error.
Print Assumptions C59_cycle_never_increases_energy.
Print Assumptions C28_smoother_step.
Print Assumptions C28_smoother_step_linear.
Print Assumptions C28_symmetric_gauss_seidel_good.
Print Assumptions C28_gauss_seidel_relaxes.
Print Assumptions C28_jacobi_symmetric.
Print Assumptions C22_coarse_operators_galerkin.
Print Assumptions C24_levels_populated.
Print Assumptions C24_levels_hold_helpers_objects.
Print Assumptions C24_construction_succeeds.
Print Assumptions C25_construction_sections.
Print Assumptions C25_construction_independent_of_timer.
Print Assumptions C26_params_untouched.
Print Assumptions C27_fitting_sizes_suffice.
Print Assumptions C57_spd_preconditioner.
Print Assumptions C25_cycle_sections.
Print Assumptions C25_deep_cycle_with_checked_timer_refuted.
Print Assumptions C27_host_helpers_three_levels_refuted.
Print Assumptions C21_gauss_seidel_refuted.
Print Assumptions C28_jacobi_reduces_refuted.
