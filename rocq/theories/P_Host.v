(** Host helpers: the default configuration meets the contracts under which the cycle is an SPD preconditioner. *)
From Coq Require Import String List Arith ZArith Ascii Bool Lia Field.
From Verif Require Import Base OField Mat LinAlg M_Ptree S_Ptree P_Ptree M_Hier S_Hier P_Hier P_Hier2 P_HierC P_HierE P_HierS P_HierV M_Smoother P_Smoother M_Host.
Import ListNotations.
Set Implicit Arguments.
Open Scope list_scope.
Open Scope nat_scope.

Section Host.
  Variable K : ofield.
  Add Field KfieldHost : (f_field K).
  Local Open Scope K_scope.
  Notation vec := (vec K).

  (** Elimination on a positive definite matrix. *)
  Definition sform (n : nat) (a : nat -> nat -> K) (x : nat -> K) : K := sumn n (fun i => sumn n (fun j => a i j * x j) * x i).
  Definition pdf (n : nat) (a : nat -> nat -> K) : Prop :=
    (forall i j, (i < n)%nat -> (j < n)%nat -> a i j = a j i) /\
    forall x : nat -> K, (exists i, (i < n)%nat /\ x i <> 0) -> 0 < sform n a x.

  Lemma pdf_pivot : forall n a, pdf (S n) a -> 0 < a O O.
  Proof.
    intros n a (S & P). specialize (P (fun i => if Nat.eqb i 0 then 1 else 0)). unfold sform in P.
    rewrite (@sumn_single K (Datatypes.S n) 0%nat) in P.
    - rewrite (@sumn_single K (Datatypes.S n) 0%nat) in P.
      + simpl in P. replace (a O O) with (a O O * 1 * 1) by ring. apply P. exists O. split; [lia|]. simpl. apply f1_neq_0.
      + lia.
      + intros i Hi Ni. destruct (Nat.eqb_spec i 0); [contradiction|]. ring.
    - lia.
    - intros i Hi Ni. destruct (Nat.eqb_spec i 0); [contradiction|]. ring.
  Qed.

  Definition schur (a : nat -> nat -> K) : nat -> nat -> K := fun i j => a (S i) (S j) - a (S i) O * a O (S j) / a O O.
  Lemma pdf_schur : forall n a, pdf (S n) a -> pdf n (schur a).
  Proof.
    intros n a P. pose proof (pdf_pivot P) as A0. destruct P as (Sy & P). split.
    - intros i j Hi Hj. unfold schur. rewrite (Sy (S i) (S j)), (Sy (S i) O), (Sy O (S j)) by lia. rewrite !(Fdiv_def (f_field K)). ring.
    - intros x (i & Hi & Nx). set (g := sumn n (fun j => a O (S j) * x j)).
      assert (N0 : a O O <> 0) by (intros E; rewrite E in A0; exact (flt_irrefl A0)).
      specialize (P (fun k => match k with O => - g / a O O | S j => x j end)).
      replace (sform n (schur a) x) with (sform (S n) a (fun k => match k with O => - g / a O O | S j => x j end)).
      { apply P. exists (S i). split; [lia|auto]. }
      unfold sform. rewrite sumn_shift. rewrite sumn_shift. fold g.
      assert (E1 : sumn n (fun i0 => sumn (S n) (fun j => a (S i0) j * match j with O => - g / a O O | S j0 => x j0 end) * x i0) =
        sumn n (fun i0 => sumn n (fun j => a (S i0) (S j) * x j) * x i0) - g * g / a O O).
      { transitivity (sumn n (fun i0 => sumn n (fun j => a (S i0) (S j) * x j) * x i0 + (- g / a O O) * (a O (S i0) * x i0))).
        - apply sumn_ext. intros k Hk. rewrite sumn_shift. rewrite (Sy (S k) O) by lia. field. auto.
        - rewrite sumn_add, sumn_scale. fold g. field. auto. }
      rewrite E1.
      assert (E2 : sumn n (fun i0 => sumn n (fun j => schur a i0 j * x j) * x i0) =
        sumn n (fun i0 => sumn n (fun j => a (S i0) (S j) * x j) * x i0) - g * g / a O O).
      { transitivity (sumn n (fun i0 => sumn n (fun j => a (S i0) (S j) * x j) * x i0 - (g / a O O) * (a O (S i0) * x i0))).
        - apply sumn_ext. intros k Hk. unfold schur.
          transitivity ((sumn n (fun j => a (S k) (S j) * x j) - a (S k) O / a O O * g) * x k).
          + f_equal. unfold g. rewrite <- sumn_scale. rewrite <- sumn_sub. apply sumn_ext. intros j Hj. field. auto.
          + rewrite (Sy (S k) O) by lia. field. auto.
        - rewrite sumn_sub, sumn_scale. fold g. field. auto. }
      rewrite E2. field. auto.
  Qed.

  Lemma eliminate_ok : forall n a b, pdf n a -> length b = n ->
    length (eliminate n a b) = n /\ forall i, (i < n)%nat -> sumn n (fun j => a i j * nth j (eliminate n a b) 0) = nth i b 0.
  Proof.
    induction n as [|n IH]; intros a b P Hb; [simpl; split; auto; intros i Hi; lia|].
    pose proof (pdf_pivot P) as A0. assert (N0 : a O O <> 0) by (intros E; rewrite E in A0; exact (flt_irrefl A0)).
    cbn [eliminate]. fold (schur a).
    set (c := map (fun i => nth (S i) b 0 - a (S i) O * nth O b 0 / a O O) (seq 0 n)).
    destruct (IH (schur a) c (pdf_schur P)) as (L & E). { unfold c. rewrite map_length, seq_length. auto. }
    set (y := eliminate n (schur a) c) in *. split; [simpl; auto|].
    intros i Hi. rewrite sumn_shift. cbn [nth].
    set (g := sumn n (fun j => a O (S j) * nth j y 0)).
    destruct i as [|i].
    - fold g. field. auto.
    - specialize (E i ltac:(lia)). unfold c in E. rewrite nth_map_seq in E by lia.
      assert (E' : sumn n (fun j => schur a i j * nth j y 0) = sumn n (fun j => a (S i) (S j) * nth j y 0) - a (S i) O / a O O * g).
      { unfold g. rewrite <- sumn_scale, <- sumn_sub. apply sumn_ext. intros j Hj. unfold schur. field. auto. }
      rewrite E' in E.
      transitivity (a (S i) O * ((nth 0 b 0 - g) / a O O) + (nth (S i) b 0 - a (S i) O * nth 0 b 0 / a O O + a (S i) O / a O O * g)).
      + f_equal. rewrite <- E. ring.
      + field. auto.
  Qed.

  Lemma spd_pdf : forall A : mat K, nr A = nc A -> spd (nc A) (mulvec A) -> pdf (nc A) (ent A).
  Proof.
    intros A D (Sy & P). split.
    - intros i j Hi Hj. apply (@self_adjoint_sym K A D Sy); lia.
    - intros x (i & Hi & Nx). set (v := map x (seq 0 (nc A))).
      assert (Lv : length v = nc A) by (unfold v; rewrite map_length, seq_length; auto).
      replace (sform (nc A) (ent A) x) with (energy (mulvec A) v).
      + apply P; auto. intros E. apply Nx. transitivity (nth i v 0). { unfold v. rewrite nth_map_seq; auto. } rewrite E. apply nth_vzero.
      + unfold energy, sform. rewrite (@dot_sumn K _ _ (nc A)); [|rewrite mulvec_length; auto|auto].
        apply sumn_ext. intros k Hk. rewrite nth_mulvec by lia. unfold v at 2. rewrite nth_map_seq by auto. f_equal.
        apply sumn_ext. intros j Hj. unfold v. rewrite nth_map_seq by auto. auto.
  Qed.

  Lemma direct_exact : forall A : mat K, nr A = nc A -> spd (nc A) (mulvec A) -> forall b, length b = nc A ->
    length (direct_solve A b) = nc A /\ mulvec A (direct_solve A b) = b.
  Proof.
    intros A D S b Hb. destruct (@eliminate_ok (nc A) (ent A) b (spd_pdf D S) Hb) as (L & E). split; auto.
    apply vec_ext; rewrite mulvec_length; [congruence|]. intros i Hi. rewrite nth_mulvec by auto. apply E. lia.
  Qed.

  Variable accepts_double : string -> bool.
  Variable A : mat K.
  Variable mk : ptree -> outcome (mat K * mat K).
  Variable ilu : mat K -> vec -> vec.
  Variable ml : ml_list -> mat K -> vec -> vec.
  Variable eps : K.
  Let hh := host_helpers accepts_double A mk ilu ml.

  Lemma ssor_len : forall M : mat K, nr M = nc M -> maps (nc M) (nc M) (ssor_vmult M).
  Proof. intros M D x Hx. exact (lin_len (ssor_linear M D) x Hx). Qed.

  Lemma host_spd : forall p h0, nr A = nc A -> spd (nc A) (mulvec A) ->
    dealii_smoother_kind p = Ok KSsor -> dealii_solver_kind accepts_double p = Ok KDirect ->
    (forall R AP, mk p = Ok (R, AP) -> forall x, length x = nr R -> mulTvec R x = vzero (nc R) -> x = vzero (nr R)) ->
    spd_helpers hh p h0 (nc A) A.
  Proof.
    intros p h0 D S E1 E2 FR. constructor.
    - intros a h1 E. inversion E; subst. auto.
    - intros M h s h' DM SM E. simpl in E. rewrite E1 in E. simpl in E. inversion E; subst.
      exists (correction_step (mulvec M) (ssor_vmult M)). split.
      + apply smoother_apply_acts; auto. apply ssor_len; auto.
      + apply ssor_good; auto; apply SM.
    - intros h R h' E. simpl in E. unfold host_build_restrictor in E.
      destruct (pt_find p ["eigensolver"%string]); [|discriminate]. destruct (pt_find p ["agglomeration"%string]); [|discriminate].
      destruct (mk p) as [[R' AP]| | | |] eqn:EM; try discriminate. inversion E; subst. apply (FR R AP); auto.
    - intros M h s h' DM SM E. simpl in E. rewrite E2 in E. simpl in E. inversion E; subst.
      exists (fun b _ => direct_solve M b). split.
      + intros b x Hb Hx. rewrite Hb, Hx, DM, !Nat.eqb_refl. simpl. split; auto. apply direct_exact; auto.
      + intros b x Hb _. apply direct_exact; auto.
  Qed.

  (** The coarse operator of two levels from any product equal to A R^T. *)
  Lemma two_level_chain : forall (R AP : mat K) f, nr A = nc A -> spd (nc A) (mulvec A) -> good_smoother (nc A) (mulvec A) f ->
    nc R = nc A -> (forall x, length x = nr R -> mulTvec R x = vzero (nc R) -> x = vzero (nr R)) ->
    meq AP (mmul A (mtrans R)) ->
    let Ac := mmul R AP in
    chain (@spd_mat K) (@good_mat_smoother K) [mkFine (nc A) (mulvec A) f (mulvec R) (mulTvec R)] A Ac /\ nr Ac = nc Ac /\ spd_mat Ac.
  Proof.
    intros R AP f D S G DR FR (M1 & M2 & M3) Ac. cbn [nr nc mmul mtrans] in M1, M2.
    assert (E : forall x, mulvec Ac x = mulvec R (mulvec A (mulTvec R x))).
    { intros x. unfold Ac. rewrite mulvec_mmul by congruence. f_equal. unfold mulTvec. rewrite <- mulvec_mmul by (simpl; congruence).
      apply mulvec_meq. split; [exact M1|]. split; [exact M2|]. exact M3. }
    assert (D1 : nr Ac = nc Ac) by (unfold Ac; simpl; congruence).
    assert (D2 : nr R = nc Ac) by (unfold Ac; simpl; congruence).
    assert (SC : spd_mat Ac).
    { split.
      - apply (@galerkin_sym K A R Ac); auto. exact (proj1 S).
      - apply (@galerkin_pd K A R Ac); auto. exact (proj2 S). }
    split; [|split; auto]. cbn [chain]. split; [auto|]. split; [exact S|].
    exists R, Ac. cbn [fn fA fS fR fP]. repeat split; auto; apply SC.
  Qed.

  (** What is asked of the parameters and of the restriction. *)
  Definition product_ok (p : ptree) (R AP : mat K) : Prop :=
    pt_get parse_bool ["fast_ap"%string] false p = true -> meq AP (mmul A (mtrans R)).

  Lemma solver_kind_put : forall p v, dealii_solver_kind accepts_double p = Ok KDirect ->
    dealii_solver_kind accepts_double (pt_put key_zero_start v p) = Ok KDirect.
  Proof.
    intros p v E. unfold dealii_solver_kind in *. unfold get_string, pt_get in *.
    rewrite find_put_other by (intros (r & X); unfold key_zero_start in X; simpl in X; congruence).
    set (s := lower _) in *. destruct (String.eqb s "direct"); auto.
    destruct (String.eqb s "ml"); [|discriminate].
    destruct (pt_find p ["coarse"%string; "params"%string]) as [t|]; [|discriminate].
    destruct (ptree2plist accepts_double t); simpl in E; discriminate.
  Qed.

  Lemma host_end_to_end : forall te0 dbg p, nr A = nc A -> spd (nc A) (mulvec A) ->
    c_prec p = true -> (0 < c_steps p)%nat ->
    dealii_solver_kind accepts_double p = Ok KDirect ->
    (c_levels p = 1%Z \/ c_levels p = 2%Z /\ dealii_smoother_kind p = Ok KSsor /\
       pt_find p ["eigensolver"%string] <> None /\ pt_find p ["agglomeration"%string] <> None /\
       exists R AP, mk p = Ok (R, AP) /\ nc R = nc A /\ (forall x, length x = nr R -> mulTvec R x = vzero (nc R) -> x = vzero (nr R)) /\
         product_ok p R AP) ->
    exists h s l, construct hh eps te0 dbg (Ok tt) (Some p) None = (Ok h, s, l) /\
      exists Mv : vec -> vec, linear (nc A) (nc A) Mv /\ self_adjoint (nc A) Mv /\
        (forall b, length b = nc A -> b <> vzero (nc A) -> 0 < dot (Mv b) b) /\
        (forall e, length e = nc A -> e <> vzero (nc A) -> energy (mulvec A) (vsub e (Mv (mulvec A e))) < energy (mulvec A) e) /\
        forall te x b l, open_sections l = [] -> length x = nc A -> length b = nc A ->
          exists l', hierarchy_vmult te h x b l = (Ok (Mv b), l') /\ open_sections l' = [].
  Proof.
    intros te0 dbg p D S HP HK CK HL.
    assert (X : exists lv rest h' ds Ac C, length (lv :: rest) = Z.to_nat (c_levels p) /\ (length (lv :: rest) <= 2)%nat /\ (0 < c_levels p)%Z /\
      built hh eps (c_params p) None (TriOp A) None (lv :: rest) h' /\
      describes lv rest ds (nc Ac) C /\ chain (@spd_mat K) (@good_mat_smoother K) ds A Ac /\ exact_solver Ac C /\ nr Ac = nc Ac /\ spd_mat Ac).
    { destruct HL as [HL|(HL & SK & PE & PA & R & AP & EM & DR & FR & PO)].
      - assert (CK' := solver_kind_put p (print_bool (c_prec p)) CK).
        unfold c_params. rewrite HL. cbn [Z.eqb Pos.eqb].
        eexists (mkLevel (Some (TriOp A)) None None (Some _)), [], None, [], A, (fun b _ => direct_solve A b).
        split; [reflexivity|]. split; [simpl; lia|]. split; [lia|]. split.
        { constructor. unfold hh, host_helpers. cbn [hh_build_coarse_solver]. unfold host_build_coarse_solver. rewrite CK'. reflexivity. }
        split. { eapply describes_coarsest; simpl; [reflexivity|reflexivity|reflexivity|].
          intros b x Hb Hx. rewrite Hb, Hx, D, !Nat.eqb_refl. simpl. split; auto. apply direct_exact; auto. }
        split; [split; auto|]. split; [|auto]. intros b x Hb _. apply direct_exact; auto.
      - unfold c_params. rewrite HL. cbn [Z.eqb Pos.eqb].
        set (ap := if pt_get parse_bool ["fast_ap"%string] false p then AP else mmul A (mtrans R)).
        assert (EQ : meq ap (mmul A (mtrans R))).
        { unfold ap. unfold product_ok in PO. destruct (pt_get parse_bool ["fast_ap"%string] false p); auto. split; [auto|]. split; auto. }
        set (f := correction_step (mulvec A) (ssor_vmult A)).
        assert (G : good_smoother (nc A) (mulvec A) f) by (apply ssor_good; auto; apply S).
        destruct (@two_level_chain R ap f D S G DR FR EQ) as (CH & D1 & SC).
        set (Ac := mmul R ap) in *.
        eexists (mkLevel (Some (TriOp A)) None (Some _) None), [mkLevel (Some (TriOp Ac)) (Some (TriOp R)) None (Some _)], _,
          [mkFine (nc A) (mulvec A) f (mulvec R) (mulTvec R)], Ac, (fun b _ => direct_solve Ac b).
        split; [reflexivity|]. split; [simpl; lia|]. split; [lia|]. split.
        { eapply built_cons with (h1 := None) (r := TriOp R) (h2 := if pt_get parse_bool ["fast_ap"%string] false p then Some (TriOp AP) else None)
            (ap := TriOp ap) (h3 := if pt_get parse_bool ["fast_ap"%string] false p then Some (TriOp AP) else None).
          - simpl. rewrite SK. simpl. reflexivity.
          - simpl. unfold host_build_restrictor. destruct (pt_find p ["eigensolver"%string]); [|congruence]. destruct (pt_find p ["agglomeration"%string]); [|congruence].
            rewrite EM. destruct (pt_get parse_bool ["fast_ap"%string] false p); reflexivity.
          - unfold product_from, ap. destruct (pt_get parse_bool ["fast_ap"%string] false p); simpl; auto.
            rewrite DR, Nat.eqb_refl. auto.
          - simpl. destruct EQ as (Q1 & Q2 & _). simpl in Q1, Q2. replace (nc R =? nr ap)%nat with true by (symmetry; apply Nat.eqb_eq; congruence). reflexivity.
          - constructor. simpl. rewrite CK. reflexivity. }
        split. { eapply describes_fine; simpl; [reflexivity| |reflexivity| |reflexivity| | |].
          - pose proof (op_acts_tri A) as X. rewrite D in X. exact X.
          - apply smoother_apply_acts; auto. apply ssor_len; auto.
          - replace (nc ap) with (nr R) by (symmetry; exact (proj1 (proj2 EQ))). rewrite <- DR. apply op_acts_tri.
          - replace (nc ap) with (nr R) by (symmetry; exact (proj1 (proj2 EQ))). rewrite <- DR. apply opT_acts_tri.
          - eapply describes_coarsest; simpl; [reflexivity|reflexivity|reflexivity|].
            intros b x Hb Hx. cbn [nc mmul] in Hb, Hx. rewrite Hb, Hx. replace (nr R) with (nc ap) by (exact (proj1 (proj2 EQ))). rewrite !Nat.eqb_refl. simpl. split; auto.
            exact (proj1 (@direct_exact Ac D1 SC b Hb)). }
        split; [exact CH|]. split; [|auto]. intros b x Hb _. apply direct_exact; auto. }
    destruct X as (lv & rest & h' & ds & Ac & C & X1 & X2 & X3 & X4 & X5 & X6 & X7 & X8 & X9).
    destruct (@construct_complete K _ hh eps te0 dbg p None (TriOp A) None (lv :: rest) h' X3 eq_refl X1 X4) as (l & E).
    eexists _, _, l. split; [exact E|].
    destruct (describes_sized X5) as (Sz & _ & _).
    destruct (@spd_cycle K (c_steps p) ds A Ac C X6 X7 X8 X9 Sz HK) as (M1 & M2 & M3 & M4).
    exists (fun b => cyc (c_steps p) ds (nc Ac) C b (vzero (nc A))). do 4 (split; [assumption|]).
    intros te x b l0 O Hx Hb.
    destruct (chain_top _ _ _ _ _ X6) as (T1 & T2).
    destruct (@vmult_ok K te (mkHierarchy (lv :: rest) (c_prec p) (c_steps p)) lv rest ds (nc Ac) C eq_refl X5 (or_intror X2) x b l0 O) as (t & l' & N & R & V); try congruence.
    cbn [h_n_smoothing_steps h_is_preconditioner] in V. rewrite HP, T1 in V. exists l'. rewrite HP. split; auto.
    rewrite <- (rev_involutive l'), R. rewrite rev_app_distr, rev_involutive. unfold trace. destruct (t_present te); auto.
    rewrite open_nested; auto.
  Qed.
End Host.
