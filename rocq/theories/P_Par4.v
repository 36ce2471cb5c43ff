(** How much of the error one step of the symmetric Gauss-Seidel smoother removes on several ranks, and the two-level cycle with it. *)
From Coq Require Import String List Arith ZArith Bool Lia Field Permutation.
From Verif Require Import Base OField Mat LinAlg M_Ptree S_Ptree P_Ptree M_Agglo M_Hier S_Hier P_Hier P_Hier2 P_HierC P_HierE P_HierS P_HierV M_Smoother P_Smoother P_Cheby M_Host P_Host
  S_FastAP S_HostEnd P_HostEnd S_Rate P_Rate P_Rate2 P_Approx M_Par S_Par P_Par P_Par2 P_Par3.
Import ListNotations.
Set Implicit Arguments.
Open Scope list_scope.
Open Scope nat_scope.

Section Par4.
  Variable K : ofield.
  Add Field KfieldPar4 : (f_field K).
  Local Open Scope K_scope.
  Notation vec := (vec K).

  Lemma error_energy : forall n (fA B : vec -> vec) e, linear n n fA -> self_adjoint n fA -> linear n n B -> length e = n ->
    energy fA e - energy fA (error_step fA B e) = (1 + 1) * dot (B (fA e)) (fA e) - energy fA (B (fA e)).
  Proof.
    intros n fA B e LA SA LB He. pose proof (lin_len LA e He) as L1. pose proof (lin_len LB _ L1) as L2.
    unfold error_step. rewrite vsub_as_add by congruence. rewrite (energy_add LA SA) by (auto; vlen). unfold energy at 3. rewrite (lin_scale LA) by auto.
    rewrite !dot_scale_l, !dot_scale_r. fold (energy fA (B (fA e))). rewrite (dot_comm (fA e)). unfold energy. ring.
  Qed.

  Section Smooths.
    Variable A : mat K.
    Variable owned : list (list nat).
    Hypothesis DA : nr A = nc A.
    Hypothesis HD : distribution (nc A) owned.
    Hypothesis SP : spd (nc A) (mulvec A).
    Variables theta delta : K.
    Hypothesis Ht : 0 <= theta.
    Hypothesis Hd : 0 <= delta.
    Hypothesis Hd1 : delta <= 1.
    Hypothesis Hb : forall own, In own owned -> theta * triangle_bound (local_block A own) <= 1.
    Hypothesis Hw : weakly_coupled owned A delta.
    Let HL : linear (nc A) (nc A) (mulvec A).
    Proof. pose proof (mulvec_linear A) as X. rewrite DA in X. exact X. Qed.
    Local Notation B := (par_ssor_vmult owned A).

    Lemma par_removes : forall r, length r = nc A -> theta * dot r r <= (1 + 1) * dot (B r) r - energy (mulvec (blocks (nc A) owned A)) (B r).
    Proof.
      intros r Hr. pose proof (lin_len (par_linear A HD) r Hr) as LB.
      rewrite (blocks_energy HD A) by auto. rewrite !(dot_ranks HD) by auto. rewrite <- !lsum_map_scale, <- lsum_sub. apply lsum_le. intros own I.
      rewrite (par_gather A HD) by auto. pose proof (local_spd DA HD SP own I) as SL. set (M := local_block A own) in *. set (s := gather own r).
      assert (Ls : length s = nc M) by apply gather_length.
      pose proof (@ssor_smooths K M eq_refl SL theta Ht (Hb own I)) as S.
      assert (E : exists e, length e = nc M /\ mulvec M e = s) by (exists (direct_solve M s); apply (@direct_exact K M eq_refl SL s Ls)).
      destruct E as (e & Le & E). specialize (S e Le).
      rewrite (@error_energy (nc M) (mulvec M) (ssor_vmult M) e (mulvec_linear M) (proj1 SL) (@ssor_linear K M eq_refl) Le) in S.
      rewrite E in S. exact S.
    Qed.

    Theorem par_smooths : smooths (nc A) (mulvec A) B (delta * theta).
    Proof.
      intros e He. pose proof (lin_len HL e He) as Lr. rewrite (@error_energy (nc A)); auto; [|exact (proj1 SP)|apply par_linear; auto].
      set (r := mulvec A e) in *. pose proof (lin_len (par_linear A HD) r Lr) as LB.
      pose proof (par_removes _ Lr) as P1. pose proof (par_below DA HD SP _ Lr) as P2. pose proof (Hw _ LB) as P3. fold (energy (mulvec A) (B r)) in P3.
      fold (energy (mulvec (blocks (nc A) owned A)) (B r)) in P3. fold (energy (mulvec (blocks (nc A) owned A)) (B r)) in P2.
      set (E := energy (mulvec (blocks (nc A) owned A)) (B r)) in *. set (X := dot (B r) r) in *. set (EA := energy (mulvec A) (B r)) in *. set (d := dot r r) in *.
      apply (@fle_mul_l K delta) in P1; auto. apply fle_sub_0 in P1, P2, P3, Hd1. apply fle_sub_0.
      replace ((1 + 1) * X - EA - delta * theta * d) with
        (((1 + 1 - delta) * E - EA) + (delta * ((1 + 1) * X - E) - delta * (theta * d)) + (1 + 1) * ((1 - delta) * (X - E))) by ring.
      apply fadd_nonneg; [apply fadd_nonneg; auto|]. apply fle_mul; [apply flt_le, two_pos|]. apply fle_mul; auto.
    Qed.
  End Smooths.

  (** A test for [weakly_coupled]. *)
  Lemma weak_test : forall owned (A : mat K) delta, nr A = nc A ->
    spd (nc A) (mulvec (mkMat (nc A) (nc A) (fun i j => (1 + 1 - delta) * ent (blocks (nc A) owned A) i j - ent A i j))) -> weakly_coupled owned A delta.
  Proof.
    intros owned A delta D S x Hx.
    set (M := mkMat (nc A) (nc A) (fun i j => (1 + 1 - delta) * ent (blocks (nc A) owned A) i j - ent A i j)) in *.
    assert (P := @energy_nonneg K (nc A) (mulvec M) (mulvec_linear M) S x Hx).
    apply fle_sub_0. fold (energy (mulvec A) x). fold (energy (mulvec (blocks (nc A) owned A)) x). fold (energy (mulvec M) x) in P.
    rewrite (@energy_sums K A D A x D eq_refl Hx), (@energy_sums K A D (blocks (nc A) owned A) x eq_refl eq_refl Hx).
    rewrite (@energy_sums K A D M x eq_refl eq_refl Hx) in P.
    match goal with |- 0 <= ?r => match type of P with _ <= ?l => replace r with l; [exact P|] end end.
    rewrite <- sumn_scale, <- sumn_sub. apply sumn_ext. intros i Hi. rewrite <- sumn_scale, <- sumn_sub. apply sumn_ext. intros j Hj. cbn [ent M]. ring.
  Qed.

  Local Close Scope K_scope.
  (** As P_HostEnd.host_two_level. *)
  Lemma par_two_level : forall accepts_double owned_rows (A : mat K) mk ilu ml eps te0 dbg p k R AP,
    nr A = nc A -> spd (nc A) (mulvec A) -> c_levels p = 2%Z ->
    dealii_smoother_kind p = Ok k -> linear (nc A) (nc A) (par_kind_vmult owned_rows ilu k A) -> dealii_solver_kind accepts_double p = Ok KDirect ->
    pt_find p ["eigensolver"%string] <> None -> pt_find p ["agglomeration"%string] <> None ->
    mk p = Ok (R, AP) -> nc R = nc A -> full_row_rank R -> (pt_get parse_bool ["fast_ap"%string] false p = true -> meq AP (mmul A (mtrans R))) ->
    exists h s l, construct (par_helpers accepts_double owned_rows A mk ilu ml) eps te0 dbg (Ok tt) (Some p) None = (Ok h, s, l) /\
      forall te x b l, open_sections l = [] -> length x = nc A -> length b = nc A ->
        exists y l', hierarchy_vmult te h x b l = (Ok y, l') /\ open_sections l' = [] /\
          two_grid A R (par_kind_vmult owned_rows ilu k A) (c_steps p) b (if c_prec p then vzero (nc A) else x) y.
  Proof.
    intros ad owned_rows A mk ilu ml eps te0 dbg p k R AP D S HL SK LB CK PE PA EM DR FR PO.
    set (hh := par_helpers ad owned_rows A mk ilu ml). set (B := par_kind_vmult owned_rows ilu k A) in *.
    set (ap := if pt_get parse_bool ["fast_ap"%string] false p then AP else mmul A (mtrans R)).
    assert (EQ : meq ap (mmul A (mtrans R))).
    { unfold ap. destruct (pt_get parse_bool ["fast_ap"%string] false p); auto. split; [auto|]. split; auto. }
    set (f := correction_step (mulvec A) B).
    set (Ac := mmul R ap).
    pose proof EQ as (M1 & M2 & M3). cbn [nr nc mmul mtrans] in M1, M2.
    assert (E : forall x, mulvec Ac x = mulvec R (mulvec A (mulTvec R x))).
    { intros x. unfold Ac. rewrite mulvec_mmul by congruence. f_equal. unfold mulTvec. rewrite <- mulvec_mmul by (simpl; congruence).
      apply mulvec_meq. exact EQ. }
    assert (D1 : nr Ac = nc Ac) by (unfold Ac; simpl; congruence).
    assert (D2 : nr R = nc Ac) by (unfold Ac; simpl; congruence).
    assert (SC : spd (nc Ac) (mulvec Ac)).
    { split.
      - apply (@galerkin_sym K A R Ac); auto. exact (proj1 S).
      - apply (@galerkin_pd K A R Ac); auto. exact (proj2 S). }
    assert (LA : linear (nc A) (nc A) (mulvec A)) by (pose proof (mulvec_linear A) as X; rewrite D in X; exact X).
    set (C := fun b (_ : vec) => direct_solve Ac b).
    assert (XC : exact_solver Ac C) by (intros b x Hb _; apply direct_exact; auto).
    set (ds := [mkFine (nc A) (mulvec A) f (mulvec R) (mulTvec R)]).
    set (lv := mkLevel (Some (TriOp A)) None (Some (smoother_apply (TriOp A) B)) None).
    eassert (X : exists lc h', built hh eps (c_params p) None (TriOp A) None [lv; lc] h' /\ describes lv [lc] ds (nc Ac) C).
    { unfold c_params. rewrite HL. cbn [Z.eqb Pos.eqb].
      eexists (mkLevel (Some (TriOp Ac)) (Some (TriOp R)) None (Some _)), _. split.
      { unfold lv. eapply built_cons with (h1 := None) (r := TriOp R) (h2 := if pt_get parse_bool ["fast_ap"%string] false p then Some (TriOp AP) else None)
          (ap := TriOp ap) (h3 := if pt_get parse_bool ["fast_ap"%string] false p then Some (TriOp AP) else None).
        - simpl. rewrite SK. simpl. reflexivity.
        - simpl. unfold host_build_restrictor. destruct (pt_find p ["eigensolver"%string]); [|congruence]. destruct (pt_find p ["agglomeration"%string]); [|congruence].
          rewrite EM. destruct (pt_get parse_bool ["fast_ap"%string] false p); reflexivity.
        - unfold product_from, ap. destruct (pt_get parse_bool ["fast_ap"%string] false p); simpl; auto.
          rewrite DR, Nat.eqb_refl. auto.
        - simpl. replace (nc R =? nr ap)%nat with true by (symmetry; apply Nat.eqb_eq; congruence). reflexivity.
        - constructor. simpl. rewrite CK. reflexivity. }
      eapply describes_fine; simpl; [reflexivity| |reflexivity| |reflexivity| | |].
      - pose proof (op_acts_tri A) as X. rewrite D in X. exact X.
      - apply smoother_apply_acts; auto. intros x Hx. exact (lin_len LB x Hx).
      - replace (nc ap) with (nr R) by (symmetry; exact M2). rewrite <- DR. apply op_acts_tri.
      - replace (nc ap) with (nr R) by (symmetry; exact M2). rewrite <- DR. apply opT_acts_tri.
      - eapply describes_coarsest; simpl; [reflexivity|reflexivity|reflexivity|].
        intros b x Hb Hx. cbn [nc mmul] in Hb, Hx. rewrite Hb, Hx. replace (nr R) with (nc ap) by exact M2. rewrite !Nat.eqb_refl. simpl. split; auto.
        exact (proj1 (@direct_exact K Ac D1 SC b Hb)). }
    destruct X as (lc & h' & X4 & X5).
    destruct (@construct_complete K _ hh eps te0 dbg p None (TriOp A) None [lv; lc] h') as (l & EC); [lia|reflexivity|rewrite HL; reflexivity|exact X4|].
    eexists _, _, l. split; [exact EC|].
    intros te x b l0 O Hx Hb.
    destruct (describes_sized X5) as (Sz & LC & _).
    destruct (@vmult_ok K te (mkHierarchy [lv; lc] (c_prec p) (c_steps p)) lv [lc] ds (nc Ac) C eq_refl X5 (or_intror (le_n 2)) x b l0 O Hb Hx) as (t & l' & N & RL & V).
    cbn [h_n_smoothing_steps h_is_preconditioner] in V. change (top_size ds (nc Ac)) with (nc A) in V.
    set (x0 := if c_prec p then vzero (nc A) else x) in *.
    assert (Hx0 : length x0 = nc A) by (unfold x0; destruct (c_prec p); auto; apply vzero_length).
    eexists _, l'. split; [exact V|]. split.
    { rewrite <- (rev_involutive l'), RL. rewrite rev_app_distr, rev_involutive. unfold trace. destruct (t_present te); auto. rewrite open_nested; auto. }
    rewrite cyc_textbook; auto.
    - cbn [textbook_vcycle ds fS fA fR fP top_size]. set (u := iter (c_steps p) (f b) x0).
      assert (Lf : forall w, length w = nc A -> length (f b w) = nc A).
      { intros w Hw. assert (LA' := lin_len LA w Hw). unfold f, correction_step. assert (Lv : length (vsub (mulvec A w) b) = nc A) by vlen. pose proof (lin_len LB _ Lv). vlen. }
      assert (Lu : length u = nc A).
      { unfold u. clear - Lf Hx0. generalize (c_steps p). revert Hx0. generalize x0. intros z Hz n. revert z Hz. induction n as [|n IH]; intros z Hz; simpl; auto. }
      assert (Lr : length (mulvec R (vsub b (mulvec A u))) = nc Ac) by (rewrite mulvec_length; exact D2).
      exists (C (mulvec R (vsub b (mulvec A u))) (vzero (nc Ac))). fold f. fold u.
      destruct (XC _ (vzero (nc Ac)) Lr (vzero_length _ _)) as (Q1 & Q2). split; [congruence|]. split; [rewrite <- E; exact Q2|reflexivity].
    - cbn [linear_levels ds fn fA fS fR fP top_size]. split; [exact LA|]. split; [apply step_linear; auto|]. split; [|split; [|exact I]].
      + rewrite <- DR, <- D2. apply mulvec_linear.
      + rewrite <- DR, <- D2. apply (mulvec_linear (mtrans R)).
    - apply exact_joint; auto.
  Qed.
End Par4.
