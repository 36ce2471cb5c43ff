(** From construction to the cycle: consequences of [built]. *)
From Coq Require Import String List Arith ZArith Bool Lia.
From Verif Require Import Base OField Mat M_Ptree S_Ptree P_Ptree M_Hier S_Hier P_Hier P_Hier2 P_HierC.
Import ListNotations.
Set Implicit Arguments.
Open Scope list_scope.
Open Scope nat_scope.

Section HierE.
  Variable K : ofield.
  Notation vec := (vec K).
  Variable H : Type.
  Variable hh : helpers K H.
  Variable eps : K.

  (** Slots of consecutive levels. *)
  Lemma built_slots : forall p ro a h ls h', built hh eps p ro a h ls h' ->
    length ls <> 0 /\
    forall i lv, nth_error ls i = Some lv ->
      (exists o, lv_op lv = Some o) /\
      (lv_restrictor lv = None <-> i = 0 /\ ro = None) /\
      (lv_smoother lv = None <-> S i = length ls) /\
      (lv_solver lv = None <-> S i <> length ls).
  Proof.
    induction 1 as [ro a h s h' E|ro a h sm h1 r h2 ap h3 ac ls h' E1 E2 E3 E4 B IH].
    - split; [discriminate|]. intros [|i] lv N; [|destruct i; discriminate]. inversion N; subst; simpl.
      split; [eauto|]. split; [tauto|]. split; [tauto|]. split; intros X; [discriminate|congruence].
    - destruct IH as (I1 & I2). split; [discriminate|]. intros [|i] lv N.
      + inversion N; subst; simpl. split; [eauto|]. split; [tauto|]. split; [split; [discriminate|intros; lia]|]. split; auto.
      + simpl in N. destruct (I2 i lv N) as (J1 & J2 & J3 & J4). split; auto.
        split; [split; [intros X; apply J2 in X; destruct X; discriminate|intros (X & _); discriminate]|].
        cbn [length]. split; [rewrite J3; lia|rewrite J4; lia].
  Qed.

  Lemma op_multiply_tri : forall a b c : op K, op_multiply a b = Ok c ->
    exists A B, a = TriOp A /\ b = TriOp B /\ nc A = nr B /\ c = TriOp (mmul A B).
  Proof.
    intros [A|n f] [B|m g] c E; simpl in E; try discriminate. destruct (Nat.eqb_spec (nc A) (nr B)); inversion E; eauto 6.
  Qed.
  Lemma op_multiply_transpose_tri : forall (A : mat K) r ap, op_multiply_transpose eps (TriOp A) r = Ok ap ->
    exists R, r = TriOp R /\ nc A = nc R /\ ap = TriOp (mmul A (mtrans R)).
  Proof.
    intros A [R|n f] ap E; simpl in E; try discriminate. destruct (Nat.eqb_spec (nc A) (nc R)); inversion E; eauto.
  Qed.

  Lemma galerkin_apply : forall A R : mat K, nc A = nc R -> nc R = nr A -> forall x,
    mulvec (mmul R (mmul A (mtrans R))) x = mulvec R (mulvec A (mulTvec R x)).
  Proof. intros A R E1 E2 x. rewrite mulvec_mmul by (simpl; auto). rewrite mulvec_mmul by (simpl; auto). reflexivity. Qed.

  (** Consecutive levels of a hierarchy built from an assembled matrix without fast_ap. *)
  Lemma built_galerkin : forall p ro a h ls h', built hh eps p ro a h ls h' -> pt_get parse_bool ["fast_ap"%string] false p = false ->
    forall A, a = TriOp A ->
    forall i lf lc, nth_error ls i = Some lf -> nth_error ls (S i) = Some lc ->
    exists A R Ac, lv_op lf = Some (TriOp A) /\ lv_restrictor lc = Some (TriOp R) /\ lv_op lc = Some (TriOp Ac) /\
      nr A = nc A /\ nc R = nc A /\ nr Ac = nr R /\ nc Ac = nr R /\
      (forall x, mulvec Ac x = mulvec R (mulvec A (mulTvec R x))).
  Proof.
    induction 1 as [ro a h s h' E|ro a h sm h1 r h2 ap h3 ac ls h' E1 E2 E3 E4 B IH]; intros FA A -> i lf lc N1 N2.
    - destruct i; discriminate.
    - unfold product_from in E3. rewrite FA in E3. destruct E3 as (E3 & ->).
      destruct (op_multiply_transpose_tri _ _ E3) as (R & -> & D1 & ->).
      destruct (op_multiply_tri _ _ E4) as (R' & B' & X1 & X2 & D2 & X3). inversion X1; inversion X2; subst R' B' ac.
      simpl in D2. destruct i as [|i].
      + simpl in N1, N2. inversion N1; subst lf.
        assert (L : lv_op lc = Some (TriOp (mmul R (mmul A (mtrans R)))) /\ lv_restrictor lc = Some (TriOp R)).
        { inversion B; subst; simpl in N2; inversion N2; auto. }
        destruct L as (L1 & L2). exists A, R, (mmul R (mmul A (mtrans R))). repeat split; auto; try (simpl; congruence).
        apply galerkin_apply; auto.
      + exact (IH FA _ eq_refl i lf lc N1 N2).
  Qed.

  (** A chain of matrix levels. [SM A f]: f is the action of the smoother built for A. *)
  Section Chain.
    Variable P : mat K -> Prop.
    Variable SM : mat K -> (vec -> vec -> vec) -> Prop.
    Fixpoint chain (ds : list (fine K)) (A Ac : mat K) : Prop :=
      nr A = nc A /\ P A /\
      match ds with
      | [] => A = Ac
      | d :: ds' => exists R A', fn d = nc A /\ fA d = mulvec A /\ SM A (fS d) /\ fR d = mulvec R /\ fP d = mulTvec R /\
          nc R = nc A /\ nr R = nc A' /\ (forall x, mulvec A' x = mulvec R (mulvec A (mulTvec R x))) /\ chain ds' A' Ac
      end.
    Variable CS : mat K -> (vec -> vec -> vec) -> Prop.
    (** State of the helpers in which the operator of the current level is A. *)
    Variable J : H -> mat K -> Prop.
    Variable p : ptree.
    Hypothesis J_P : forall h A, J h A -> nr A = nc A /\ P A.
    Hypothesis J_smoother : forall h A s h', J h A -> hh_build_smoother hh (TriOp A) p h = (Ok s, h') ->
      J h' A /\ exists f, bx_acts s (nc A) f /\ SM A f.
    Hypothesis J_coarse : forall h A s h', J h A -> hh_build_coarse_solver hh (TriOp A) p h = (Ok s, h') ->
      exists C, bx_acts s (nc A) C /\ CS A C.
    Hypothesis J_restrict : forall h A r h2 ap h3 ac, J h A -> hh_build_restrictor hh p h = (Ok r, h2) ->
      product_from hh eps p (TriOp A) r h2 ap h3 -> op_multiply r ap = Ok ac ->
      exists R Ac, r = TriOp R /\ ac = TriOp Ac /\ nc R = nc A /\ nr R = nc Ac /\
        (forall x, mulvec Ac x = mulvec R (mulvec A (mulTvec R x))) /\ J h3 Ac.

    Lemma chain_top : forall ds A Ac, chain ds A Ac -> top_size ds (nc Ac) = nc A /\ (forall x, top_op ds (mulvec Ac) x = mulvec A x).
    Proof.
      intros [|d ds] A Ac (C1 & C2 & C3); simpl.
      - subst. auto.
      - destruct C3 as (R & A' & E1 & E2 & _). rewrite E2. auto.
    Qed.

    Lemma op_acts_tri : forall A : mat K, op_acts (TriOp A) (nc A) (nr A) (mulvec A).
    Proof.
      intros A. split; [reflexivity|]. split; [reflexivity|]. intros x y Hx Hy. simpl. rewrite Hx, Hy, !Nat.eqb_refl. simpl.
      split; auto. apply mulvec_length.
    Qed.
    Lemma opT_acts_tri : forall A : mat K, opT_acts (TriOp A) (nc A) (nr A) (mulTvec A).
    Proof.
      intros A x y Hx Hy. simpl. rewrite Hx, Hy, !Nat.eqb_refl. simpl. split; auto. apply mulTvec_length.
    Qed.

    Lemma built_chain : forall ro a h ls h', built hh eps p ro a h ls h' -> forall A, a = TriOp A -> J h A ->
      exists lv rest ds Ac C, ls = lv :: rest /\ lv_restrictor lv = ro /\ describes lv rest ds (nc Ac) C /\ chain ds A Ac /\ CS Ac C /\ length ds = length rest.
    Proof.
      induction 1 as [ro a h s h' E|ro a h sm h1 r h2 ap h3 ac ls h' E1 E2 E3 E4 B IH]; intros A -> HJ.
      - destruct (J_coarse HJ E) as (C & C1 & C2). destruct (J_P HJ) as (D1 & D2).
        exists (mkLevel (Some (TriOp A)) ro None (Some s)), [], [], A, C. split; auto. split; auto. split; [eapply describes_coarsest; simpl; eauto|].
        split; [split; auto|auto].
      - destruct (J_smoother HJ E1) as (J1 & f & F1 & F2).
        destruct (@J_restrict _ _ _ _ _ _ _ J1 E2 E3 E4) as (R & Ac & -> & -> & D1 & D2 & D3 & J3).
        destruct (IH Ac eq_refl J3) as (lv & rest & ds & Acc & C & -> & I2 & I3 & I4 & I5 & I6).
        destruct (J_P HJ) as (P1 & P2).
        exists (mkLevel (Some (TriOp A)) ro (Some sm) None), (lv :: rest), (mkFine (nc A) (mulvec A) f (mulvec R) (mulTvec R) :: ds), Acc, C.
        split; auto. split; auto. destruct (chain_top _ _ _ I4) as (T1 & T2).
        split.
        + eapply describes_fine; simpl; eauto.
          * pose proof (op_acts_tri A) as X. rewrite P1 in X. exact X.
          * rewrite T1, <- D2, <- D1. apply op_acts_tri.
          * rewrite T1, <- D2, <- D1. apply opT_acts_tri.
        + split; [|split; auto; simpl; congruence]. split; auto. split; auto. exists R, Ac. simpl. repeat split; auto.
    Qed.

    Lemma chain_galerkin : forall ds A Ac, chain ds A Ac -> galerkin_levels ds (nc Ac) (mulvec Ac).
    Proof.
      induction ds as [|d ds IH]; intros A Ac (C1 & C2 & C3); [exact I|].
      destruct C3 as (R & A' & E1 & E2 & E3 & E4 & E5 & E6 & E7 & E8 & E9). cbn [galerkin_levels]. split; [|eapply IH; eauto].
      intros x Hx. destruct (chain_top _ _ _ E9) as (T1 & T2). assert (X : match ds with [] => mulvec Ac x | d' :: _ => fA d' x end = top_op ds (mulvec Ac) x) by (destruct ds; auto).
      rewrite X, T2, E8, E2, E4, E5. auto.
    Qed.

    (** Linear smoothers make linear levels, symmetric ones symmetric levels. *)
    Lemma chain_linear : forall ds A Ac, chain ds A Ac -> (forall A f, P A -> nr A = nc A -> SM A f -> jointly_linear (nc A) f) ->
      linear_levels ds (nc Ac).
    Proof.
      induction ds as [|d ds IH]; intros A Ac (C1 & C2 & C3) HS; [exact I|].
      destruct C3 as (R & A' & E1 & E2 & E3 & E4 & E5 & E6 & E7 & E8 & E9). destruct (chain_top _ _ _ E9) as (T1 & T2).
      cbn [linear_levels]. rewrite E1, E2, E4, E5, T1, <- E7, <- E6.
      split; [rewrite E6; pose proof (mulvec_linear A) as X; rewrite C1 in X; exact X|].
      split; [rewrite E6; auto|]. split; [apply mulvec_linear|]. split; [apply mulTvec_linear|eapply IH; eauto].
    Qed.

    Lemma chain_symmetric : forall ds A Ac, chain ds A Ac -> (forall A, P A -> self_adjoint (nc A) (mulvec A)) ->
      (forall A f, P A -> nr A = nc A -> SM A f -> exists B, linear (nc A) (nc A) B /\ self_adjoint (nc A) B /\
         forall b x, length b = nc A -> length x = nc A -> f b x = correction_step (mulvec A) B b x) ->
      symmetric_levels ds (nc Ac) /\ sym_ops ds (nc Ac).
    Proof.
      induction ds as [|d ds IH]; intros A Ac (C1 & C2 & C3) HP HS; [split; exact I|].
      destruct C3 as (R & A' & E1 & E2 & E3 & E4 & E5 & E6 & E7 & E8 & E9). destruct (chain_top _ _ _ E9) as (T1 & T2).
      destruct (IH _ _ E9 HP HS) as (I1 & I2).
      assert (LA : linear (nc A) (nc A) (mulvec A)) by (pose proof (mulvec_linear A) as X; rewrite C1 in X; exact X).
      assert (LR : linear (nc A) (nc A') (mulvec R)) by (rewrite <- E6, <- E7; apply mulvec_linear).
      assert (LT : linear (nc A') (nc A) (mulTvec R)) by (rewrite <- E6, <- E7; apply mulTvec_linear).
      assert (AD : adjoint (nc A) (nc A') (mulvec R) (mulTvec R)) by (rewrite <- E6, <- E7; apply mulvec_adjoint).
      cbn [symmetric_levels sym_ops]. rewrite E1, E2, E4, E5, T1.
      split; repeat (split; auto).
    Qed.
  End Chain.

  (** Without fast_ap the restriction contract holds for every square matrix, for every hereditary property. *)
  Lemma plain_restrict : forall p (P : mat K -> Prop), pt_get parse_bool ["fast_ap"%string] false p = false ->
    (forall A R Ac, nr A = nc A -> P A -> nc R = nc A -> nr Ac = nc Ac -> nr R = nc Ac -> (forall x, mulvec Ac x = mulvec R (mulvec A (mulTvec R x))) -> P Ac) ->
    forall (h : H) A r h2 ap h3 ac, nr A = nc A /\ P A -> hh_build_restrictor hh p h = (Ok r, h2) ->
      product_from hh eps p (TriOp A) r h2 ap h3 -> op_multiply r ap = Ok ac ->
      exists R Ac, r = TriOp R /\ ac = TriOp Ac /\ nc R = nc A /\ nr R = nc Ac /\
        (forall x, mulvec Ac x = mulvec R (mulvec A (mulTvec R x))) /\ (nr Ac = nc Ac /\ P Ac).
  Proof.
    intros p P FA HP h A r h2 ap h3 ac (HA & PA) E2 E3 E4.
    unfold product_from in E3. rewrite FA in E3. destruct E3 as (E3 & ->).
    destruct (op_multiply_transpose_tri _ _ E3) as (R & -> & D1 & ->).
    destruct (op_multiply_tri _ _ E4) as (R' & B' & X1 & X2 & D2 & X3). inversion X1; inversion X2; subst R' B' ac.
    pose proof (galerkin_apply A R D1 D2) as G.
    exists R, (mmul R (mmul A (mtrans R))). do 5 (split; [auto|]). split; [reflexivity|]. apply (HP A R); auto.
  Qed.

  (** Symmetry, semidefiniteness and definiteness pass to R A R^T. *)
  Definition psd_mat (A : mat K) : Prop := forall x : vec, length x = nc A -> fle 0%K (energy (mulvec A) x).
  Definition pd_mat (A : mat K) : Prop := forall x : vec, length x = nc A -> x <> vzero (nc A) -> flt 0%K (energy (mulvec A) x).
  Lemma galerkin_sym : forall A R Ac : mat K, nr A = nc A -> nc R = nc A -> nr Ac = nc Ac -> nr R = nc Ac ->
    (forall x, mulvec Ac x = mulvec R (mulvec A (mulTvec R x))) -> self_adjoint (nc A) (mulvec A) -> self_adjoint (nc Ac) (mulvec Ac).
  Proof.
    intros A R Ac D1 D2 D3 D4 G S x y Hx Hy. rewrite !G.
    pose proof (mulvec_adjoint R) as AD.
    rewrite (AD (mulvec A (mulTvec R x)) y) by (rewrite ?mulvec_length; congruence).
    rewrite (S (mulTvec R x) (mulTvec R y)) by (rewrite mulTvec_length; auto).
    symmetry. rewrite dot_comm. rewrite (AD (mulvec A (mulTvec R y)) x) by (rewrite ?mulvec_length; congruence). apply dot_comm.
  Qed.
  Lemma galerkin_energy : forall A R Ac : mat K, nr A = nc A -> nc R = nc A -> nr R = nc Ac ->
    (forall x, mulvec Ac x = mulvec R (mulvec A (mulTvec R x))) -> forall x : vec, length x = nc Ac ->
    energy (mulvec Ac) x = energy (mulvec A) (mulTvec R x).
  Proof.
    intros A R Ac D1 D2 D3 G x Hx. unfold energy. rewrite G. apply (mulvec_adjoint R); rewrite ?mulvec_length; congruence.
  Qed.
  Lemma galerkin_psd : forall A R Ac : mat K, nr A = nc A -> nc R = nc A -> nr R = nc Ac ->
    (forall x, mulvec Ac x = mulvec R (mulvec A (mulTvec R x))) -> psd_mat A -> psd_mat Ac.
  Proof.
    intros A R Ac D1 D2 D3 G S x Hx. rewrite (@galerkin_energy A R Ac D1 D2 D3 G x Hx). apply S. rewrite mulTvec_length. auto.
  Qed.
  Lemma galerkin_pd : forall A R Ac : mat K, nr A = nc A -> nc R = nc A -> nr R = nc Ac ->
    (forall x, mulvec Ac x = mulvec R (mulvec A (mulTvec R x))) -> pd_mat A ->
    (forall x, length x = nr R -> mulTvec R x = vzero (nc R) -> x = vzero (nr R)) -> pd_mat Ac.
  Proof.
    intros A R Ac D1 D2 D3 G S Inj x Hx Hn. rewrite (@galerkin_energy A R Ac D1 D2 D3 G x Hx). apply S.
    - rewrite mulTvec_length. auto.
    - intros E. apply Hn. rewrite <- D3. apply Inj; try congruence.
  Qed.
End HierE.
