(** The host configuration with smoothers on several ranks. *)
From Coq Require Import String List Arith ZArith Ascii Bool Lia Field Permutation.
From Verif Require Import Base OField Mat LinAlg M_Ptree S_Ptree P_Ptree M_Hier S_Hier P_Hier P_Hier2 P_HierC P_HierE P_HierS P_HierV M_Smoother P_Smoother M_Host P_Host
  M_Par S_Par P_Par P_Par2.
Import ListNotations.
Set Implicit Arguments.
Open Scope list_scope.
Open Scope nat_scope.

Section Par3.
  Variable K : ofield.
  Add Field KfieldPar3 : (f_field K).
  Local Open Scope K_scope.
  Notation vec := (vec K).
  Variable accepts_double : string -> bool.
  Variable owned_rows : mat K -> list (list nat).
  Variable A : mat K.
  Variable mk : ptree -> outcome (mat K * mat K).
  Variable ilu : mat K -> vec -> vec.
  Variable ml : ml_list -> mat K -> vec -> vec.
  Variable eps : K.
  Let hh := par_helpers accepts_double owned_rows A mk ilu ml.
  Hypothesis HO : forall M, nr M = nc M -> distribution (nc M) (owned_rows M).

  Lemma par_len : forall M : mat K, nr M = nc M -> maps (nc M) (nc M) (par_ssor_vmult (owned_rows M) M).
  Proof.
    intros M D x Hx. assert (L : linear (nc M) (nc M) (par_ssor_vmult (owned_rows M) M)); [|exact (lin_len L x Hx)].
    apply on_ranks_linear; auto. intros own I. apply (@ssor_linear K (local_block M own)). reflexivity.
  Qed.
  Lemma par_spd : forall p h0, nr A = nc A -> spd (nc A) (mulvec A) ->
    (forall M, nr M = nc M -> spd (nc M) (mulvec M) -> twice_blocks M (owned_rows M)) ->
    dealii_smoother_kind p = Ok KSsor -> dealii_solver_kind accepts_double p = Ok KDirect ->
    (forall R AP, mk p = Ok (R, AP) -> forall x, length x = nr R -> mulTvec R x = vzero (nc R) -> x = vzero (nr R)) ->
    spd_helpers hh p h0 (nc A) A.
  Proof.
    intros p h0 D S TB E1 E2 FR. constructor.
    - intros a h1 E. inversion E; subst. auto.
    - intros M h s h' DM SM E. simpl in E. rewrite E1 in E. simpl in E. inversion E; subst.
      exists (correction_step (mulvec M) (par_ssor_vmult (owned_rows M) M)). split.
      + apply smoother_apply_acts; auto. apply par_len; auto.
      + apply par_good; auto.
    - intros h R h' E. simpl in E. unfold host_build_restrictor in E.
      destruct (pt_find p ["eigensolver"%string]); [|discriminate]. destruct (pt_find p ["agglomeration"%string]); [|discriminate].
      destruct (mk p) as [[R' AP]| | | |] eqn:EM; try discriminate. inversion E; subst. apply (FR R AP); auto.
    - intros M h s h' DM SM E. simpl in E. rewrite E2 in E. simpl in E. inversion E; subst.
      exists (fun b _ => direct_solve M b). split.
      + intros b x Hb Hx. rewrite Hb, Hx, DM, !Nat.eqb_refl. simpl. split; auto. apply direct_exact; auto.
      + intros b x Hb _. apply direct_exact; auto.
  Qed.
  Lemma par_end_to_end : forall te0 dbg p, nr A = nc A -> spd (nc A) (mulvec A) ->
    c_prec p = true -> (0 < c_steps p)%nat ->
    dealii_solver_kind accepts_double p = Ok KDirect ->
    (c_levels p = 1%Z \/ c_levels p = 2%Z /\ dealii_smoother_kind p = Ok KSsor /\ twice_blocks A (owned_rows A) /\
       pt_find p ["eigensolver"%string] <> None /\ pt_find p ["agglomeration"%string] <> None /\
       exists R AP, mk p = Ok (R, AP) /\ nc R = nc A /\ (forall x, length x = nr R -> mulTvec R x = vzero (nc R) -> x = vzero (nr R)) /\
         product_ok A p R AP) ->
    exists h s l, construct hh eps te0 dbg (Ok tt) (Some p) None = (Ok h, s, l) /\
      exists Mv : vec -> vec, linear (nc A) (nc A) Mv /\ self_adjoint (nc A) Mv /\
        (forall b, length b = nc A -> b <> vzero (nc A) -> 0 < dot (Mv b) b) /\
        (forall e, length e = nc A -> e <> vzero (nc A) -> energy (mulvec A) (vsub e (Mv (mulvec A e))) < energy (mulvec A) e) /\
        forall te x b l, open_sections l = [] -> length x = nc A -> length b = nc A ->
          exists l', hierarchy_vmult te h x b l = (Ok (Mv b), l') /\ open_sections l' = [].
  Proof.
    intros te0 dbg p D S HP HK CK HL.
    assert (X : exists lv rest h' ds Ac C, length (lv :: rest) = Z.to_nat (c_levels p) /\ (length (lv :: rest) <= 2)%nat /\ (0 < c_levels p)%Z /\
      built hh eps (c_params p) None (TriOp A) None (lv :: rest) h' /\
      describes lv rest ds (nc Ac) C /\ chain (@spd_mat K) (@good_mat_smoother K) ds A Ac /\ exact_solver Ac C /\ nr Ac = nc Ac /\ spd_mat Ac).
    { destruct HL as [HL|(HL & SK & TB & PE & PA & R & AP & EM & DR & FR & PO)].
      - assert (CK' := @solver_kind_put accepts_double p (print_bool (c_prec p)) CK).
        unfold c_params. rewrite HL. cbn [Z.eqb Pos.eqb].
        eexists (mkLevel (Some (TriOp A)) None None (Some _)), [], None, [], A, (fun b _ => direct_solve A b).
        split; [reflexivity|]. split; [simpl; lia|]. split; [lia|]. split.
        { constructor. unfold hh, par_helpers. cbn [hh_build_coarse_solver]. unfold host_build_coarse_solver. rewrite CK'. reflexivity. }
        split. { eapply describes_coarsest; simpl; [reflexivity|reflexivity|reflexivity|].
          intros b x Hb Hx. rewrite Hb, Hx, D, !Nat.eqb_refl. simpl. split; auto. apply direct_exact; auto. }
        split; [split; auto|]. split; [|auto]. intros b x Hb _. apply direct_exact; auto.
      - unfold c_params. rewrite HL. cbn [Z.eqb Pos.eqb].
        set (ap := if pt_get parse_bool ["fast_ap"%string] false p then AP else mmul A (mtrans R)).
        assert (EQ : meq ap (mmul A (mtrans R))).
        { unfold ap. unfold product_ok in PO. destruct (pt_get parse_bool ["fast_ap"%string] false p); auto. split; [auto|]. split; auto. }
        set (f := correction_step (mulvec A) (par_ssor_vmult (owned_rows A) A)).
        assert (G : good_smoother (nc A) (mulvec A) f) by (apply par_good; auto).
        destruct (@two_level_chain K A R ap f D S G DR FR EQ) as (CH & D1 & SC).
        set (Ac := mmul R ap) in *.
        eexists (mkLevel (Some (TriOp A)) None (Some _) None), [mkLevel (Some (TriOp Ac)) (Some (TriOp R)) None (Some _)], _,
          [mkFine (nc A) (mulvec A) f (mulvec R) (mulTvec R)], Ac, (fun b _ => direct_solve Ac b).
        split; [reflexivity|]. split; [simpl; lia|]. split; [lia|]. split.
        { eapply built_cons with (h1 := None) (r := TriOp R) (h2 := if pt_get parse_bool ["fast_ap"%string] false p then Some (TriOp AP) else None)
            (ap := TriOp ap) (h3 := if pt_get parse_bool ["fast_ap"%string] false p then Some (TriOp AP) else None).
          - simpl. rewrite SK. simpl. reflexivity.
          - simpl. unfold host_build_restrictor. destruct (pt_find p ["eigensolver"%string]); [|congruence]. destruct (pt_find p ["agglomeration"%string]); [|congruence].
            rewrite EM. destruct (pt_get parse_bool ["fast_ap"%string] false p); reflexivity.
          - unfold product_from, ap. destruct (pt_get parse_bool ["fast_ap"%string] false p); simpl; auto.
            rewrite DR, Nat.eqb_refl. auto.
          - simpl. destruct EQ as (Q1 & Q2 & _). simpl in Q1, Q2. replace (nc R =? nr ap)%nat with true by (symmetry; apply Nat.eqb_eq; congruence). reflexivity.
          - constructor. simpl. rewrite CK. reflexivity. }
        split. { eapply describes_fine; simpl; [reflexivity| |reflexivity| |reflexivity| | |].
          - pose proof (op_acts_tri A) as X. rewrite D in X. exact X.
          - apply smoother_apply_acts; auto. apply par_len; auto.
          - replace (nc ap) with (nr R) by (symmetry; exact (proj1 (proj2 EQ))). rewrite <- DR. apply op_acts_tri.
          - replace (nc ap) with (nr R) by (symmetry; exact (proj1 (proj2 EQ))). rewrite <- DR. apply opT_acts_tri.
          - eapply describes_coarsest; simpl; [reflexivity|reflexivity|reflexivity|].
            intros b x Hb Hx. cbn [nc mmul] in Hb, Hx. rewrite Hb, Hx. replace (nr R) with (nc ap) by (exact (proj1 (proj2 EQ))). rewrite !Nat.eqb_refl. simpl. split; auto.
            exact (proj1 (@direct_exact K Ac D1 SC b Hb)). }
        split; [exact CH|]. split; [|auto]. intros b x Hb _. apply direct_exact; auto. }
    destruct X as (lv & rest & h' & ds & Ac & C & X1 & X2 & X3 & X4 & X5 & X6 & X7 & X8 & X9).
    destruct (@construct_complete K _ hh eps te0 dbg p None (TriOp A) None (lv :: rest) h' X3 eq_refl X1 X4) as (l & E).
    eexists _, _, l. split; [exact E|].
    destruct (describes_sized X5) as (Sz & _ & _).
    destruct (@spd_cycle K (c_steps p) ds A Ac C X6 X7 X8 X9 Sz HK) as (M1 & M2 & M3 & M4).
    exists (fun b => cyc (c_steps p) ds (nc Ac) C b (vzero (nc A))). do 4 (split; [assumption|]).
    intros te x b l0 O Hx Hb.
    destruct (chain_top _ _ _ _ _ X6) as (T1 & T2).
    destruct (@vmult_ok K te (mkHierarchy (lv :: rest) (c_prec p) (c_steps p)) lv rest ds (nc Ac) C eq_refl X5 (or_intror X2) x b l0 O) as (t & l' & N & R & V); try congruence.
    cbn [h_n_smoothing_steps h_is_preconditioner] in V. rewrite HP, T1 in V. exists l'. rewrite HP. split; auto.
    rewrite <- (rev_involutive l'), R. rewrite rev_app_distr, rev_involutive. unfold trace. destruct (t_present te); auto.
    rewrite open_nested; auto.
  Qed.

  Lemma sweep_meq : forall (M N : mat K) r order x, meq M N -> (forall i, In i order -> (i < nr M)%nat /\ (i < nc M)%nat) -> gs_sweep M r x order = gs_sweep N r x order.
  Proof.
    intros M N r order x Q. revert x. unfold gs_sweep. induction order as [|i order IH]; intros x H; [reflexivity|]. cbn [fold_left].
    assert (E : gs_update M r x i = gs_update N r x i).
    { unfold gs_update. rewrite (mulvec_meq x Q). destruct (H i (or_introl eq_refl)) as (H1 & H2). destruct Q as (_ & _ & Q). rewrite Q by auto. reflexivity. }
    rewrite E. apply IH. intros j Hj. apply H. right. auto.
  Qed.
  Lemma ssor_meq : forall (M N : mat K) r, nr M = nc M -> meq M N -> ssor_vmult M r = ssor_vmult N r.
  Proof.
    intros M N r D Q. unfold ssor_vmult. rewrite <- (proj1 (proj2 Q)). apply sweep_meq; auto. intros i Hi. rewrite D. apply in_app_or in Hi.
    destruct Hi as [Hi|Hi]; [|apply in_rev in Hi]; apply in_seq in Hi; lia.
  Qed.
  (** One process: the serial smoother. *)
  Lemma one_rank : forall (M : mat K) r, nr M = nc M -> length r = nc M -> par_ssor_vmult [seq 0 (nc M)] M r = ssor_vmult M r.
  Proof.
    intros M r D Hr. assert (HD : distribution (nc M) [seq 0 (nc M)]) by (unfold distribution; cbn [concat]; rewrite app_nil_r; apply Permutation_refl).
    assert (G : forall x : vec, length x = nc M -> gather (seq 0 (nc M)) x = x).
    { intros x Hx. apply vec_ext; [rewrite gather_length, seq_length; auto|]. intros i Hi. rewrite gather_length, seq_length in Hi.
      rewrite gather_nth by (rewrite seq_length; auto). rewrite seq_nth by auto. reflexivity. }
    assert (LB : linear (nc M) (nc M) (par_ssor_vmult [seq 0 (nc M)] M)) by (apply on_ranks_linear; auto; intros own I; apply (@ssor_linear K (local_block M own)); reflexivity).
    assert (Q : meq (local_block M (seq 0 (nc M))) M).
    { split; [cbn [nr local_block]; rewrite seq_length; auto|]. split; [cbn [nc local_block]; rewrite seq_length; auto|].
      intros i j Hi Hj. cbn [nr nc local_block] in Hi, Hj. rewrite seq_length in Hi, Hj. cbn [ent local_block]. rewrite !seq_nth by auto. reflexivity. }
    assert (X : gather (seq 0 (nc M)) (par_ssor_vmult [seq 0 (nc M)] M r) = ssor_vmult (local_block M (seq 0 (nc M))) (gather (seq 0 (nc M)) r)).
    { apply (@on_ranks_spec K (nc M) [seq 0 (nc M)] HD (@ssor_vmult K) M r eq_refl Hr); [|left; auto].
      intros o Io. apply (lin_len (@ssor_linear K (local_block M o) eq_refl)). apply gather_length. }
    rewrite (G _ (lin_len LB r Hr)), (G r Hr) in X. rewrite X. apply ssor_meq; auto.
  Qed.
End Par3.
