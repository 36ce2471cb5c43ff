(** The hierarchy of a symmetric positive definite problem: end to end from construction to vmult. *)
From Coq Require Import String List Arith ZArith Bool Lia Field.
From Verif Require Import Base OField Mat LinAlg M_Ptree S_Ptree P_Ptree M_Hier S_Hier P_Hier P_Hier2 P_HierC P_HierE.
Import ListNotations.
Set Implicit Arguments.
Open Scope list_scope.
Open Scope nat_scope.

Section HierS.
  Variable K : ofield.
  Add Field KfieldHS : (f_field K).
  Local Open Scope K_scope.
  Notation vec := (vec K).
  Ltac vx := vext; try ring.

  Lemma energy_nonneg : forall n (A : vec -> vec), linear n n A -> spd n A -> forall e, length e = n -> 0 <= energy A e.
  Proof.
    intros n A HL (_ & H) e He. destruct (list_eq_dec (feq_dec K) e (vzero n)) as [->|N].
    - unfold energy. rewrite dot_zero_r. apply fle_refl.
    - apply flt_le. auto.
  Qed.
  Lemma spd_injective : forall n (A : vec -> vec), spd n A -> forall x, length x = n -> A x = vzero n -> x = vzero n.
  Proof.
    intros n A (_ & H) x Hx E. destruct (list_eq_dec (feq_dec K) x (vzero n)) as [|N]; auto. exfalso.
    specialize (H x Hx N). unfold energy in H. rewrite E, dot_zero_l in H. exact (flt_irrefl H).
  Qed.
  Lemma spd_onto : forall n (A : vec -> vec), linear n n A -> spd n A -> forall b, length b = n -> exists x, length x = n /\ A x = b.
  Proof. intros. apply (@injective_onto K n A); auto. apply spd_injective; auto. Qed.
  Lemma spd_inj2 : forall n (A : vec -> vec), linear n n A -> spd n A -> forall x y, length x = n -> length y = n -> A x = A y -> x = y.
  Proof.
    intros n A HL HS x y Hx Hy E. assert (Z : vsub x y = vzero n).
    { apply (spd_injective HS); [vlen|]. rewrite (lin_sub HL) by auto. rewrite E, vsub_self. rewrite (lin_len HL); auto. }
    apply vec_ext; [congruence|]. intros i Hi. pose proof (f_equal (fun v => nth i v 0) Z) as Q. cbv beta in Q.
    rewrite nth_vsub, nth_vzero in Q by vlen. transitivity (nth i x 0 - nth i y 0 + nth i y 0); [ring|]. rewrite Q. ring.
  Qed.

  (** Smoothers. *)
  Lemma good_strict : forall n (A : vec -> vec) (f : vec -> vec -> vec), linear n n A -> spd n A -> good_smoother n A f -> strict_step n A f /\ stable_step n A f.
  Proof.
    intros n A f HA HS (B & B1 & B2 & B3 & B4).
    assert (G : forall x e, length x = n -> length e = n -> exists e', length e' = n /\ f (A x) (vadd x e) = vadd x e' /\
      (e <> vzero n -> energy A e' < energy A e) /\ energy A e' <= energy A e).
    { intros x e Hx He. pose proof (lin_len HA x Hx) as L1. pose proof (lin_len HA e He) as L2. pose proof (lin_len B1 _ L2) as L3.
      exists (error_step A B e). split; [unfold error_step; vlen|]. split; [rewrite B4 by (auto; vlen); apply (cstep_error HA); auto|].
      assert (E : energy A (error_step A B e) = energy A e - ((1 + 1) * dot (B (A e)) (A e) - dot (A (B (A e))) (B (A e)))).
      { unfold error_step. rewrite vsub_as_add by congruence. rewrite (energy_add HA (proj1 HS)) by (auto; vlen).
        unfold energy at 2. rewrite (lin_scale HA) by auto. rewrite !dot_scale_l, !dot_scale_r. rewrite (dot_comm (B (A e)) (A e)). ring. }
      assert (S1 : e <> vzero n -> energy A (error_step A B e) < energy A e).
      { intros N. assert (NA : A e <> vzero n) by (intros X; apply N; apply (spd_injective HS); auto).
        pose proof (B3 (A e) L2 NA) as R. apply flt_sub_0 in R. rewrite E. apply flt_sub_0.
        replace (energy A e - (energy A e - ((1 + 1) * dot (B (A e)) (A e) - dot (A (B (A e))) (B (A e))))) with
          ((1 + 1) * dot (B (A e)) (A e) - dot (A (B (A e))) (B (A e))) by ring. auto. }
      split; auto. destruct (list_eq_dec (feq_dec K) e (vzero n)) as [->|N]; [|apply flt_le; auto].
      unfold error_step. rewrite (lin_zero HA), (lin_zero B1). rewrite vsub_zero_r by vlen. apply fle_refl. }
    split; intros x e Hx He.
    - intros N. destruct (G x e Hx He) as (e' & G1 & G2 & G3 & G4). exists e'. auto.
    - destruct (G x e Hx He) as (e' & G1 & G2 & G3 & G4). exists e'. auto.
  Qed.

  Lemma exact_joint : forall (A : mat K) (C : vec -> vec -> vec), nr A = nc A -> spd (nc A) (mulvec A) -> exact_solver A C -> jointly_linear (nc A) C.
  Proof.
    intros A C D HS HC s t b c x y Hb Hc Hx Hy.
    assert (HL : linear (nc A) (nc A) (mulvec A)) by (pose proof (mulvec_linear A) as X; rewrite D in X; exact X).
    destruct (HC b x Hb Hx) as (L1 & E1). destruct (HC c y Hc Hy) as (L2 & E2).
    destruct (HC (vadd (vscale s b) (vscale t c)) (vadd (vscale s x) (vscale t y))) as (L3 & E3); try vlen.
    apply (spd_inj2 HL HS); auto; [vlen|]. rewrite E3. rewrite (lin_add HL) by vlen. rewrite !(lin_scale HL) by auto. congruence.
  Qed.
  Lemma exact_sym : forall (A : mat K) (C : vec -> vec -> vec), nr A = nc A -> spd (nc A) (mulvec A) -> exact_solver A C -> self_adjoint (nc A) (fun b => C b (vzero (nc A))).
  Proof.
    intros A C D (HS & _) HC b c Hb Hc. assert (Hz : length (vzero (nc A) : vec) = nc A) by apply vzero_length.
    destruct (HC b _ Hb Hz) as (L1 & E1). destruct (HC c _ Hc Hz) as (L2 & E2).
    rewrite <- E2 at 1. rewrite <- E1 at 2. rewrite <- HS by auto. auto.
  Qed.
  Lemma exact_strict : forall (A : mat K) (C : vec -> vec -> vec), nr A = nc A -> spd (nc A) (mulvec A) -> exact_solver A C ->
    strict_step (nc A) (mulvec A) C /\ stable_step (nc A) (mulvec A) C.
  Proof.
    intros A C D HS HC.
    assert (HL : linear (nc A) (nc A) (mulvec A)) by (pose proof (mulvec_linear A) as X; rewrite D in X; exact X).
    assert (G : forall x e, length x = nc A -> length e = nc A -> C (mulvec A x) (vadd x e) = vadd x (vzero (nc A))).
    { intros x e Hx He. destruct (HC (mulvec A x) (vadd x e)) as (L1 & E1); [rewrite mulvec_length; auto|vlen|].
      rewrite vadd_zero_r by auto. apply (spd_inj2 HL HS); auto. }
    assert (Z : energy (mulvec A) (vzero (nc A)) = 0) by (unfold energy; apply dot_zero_r).
    split; intros x e Hx He; [intros N|]; exists (vzero (nc A)); (split; [vlen|split; [auto|rewrite Z]]).
    - apply HS; auto.
    - apply (energy_nonneg HL HS); auto.
  Qed.

  Definition spd_mat (A : mat K) : Prop := spd (nc A) (mulvec A).
  Definition good_mat_smoother (A : mat K) (f : vec -> vec -> vec) : Prop := good_smoother (nc A) (mulvec A) f.

  Lemma chain_solvable : forall ds A Ac, chain spd_mat good_mat_smoother ds A Ac -> solvable_levels ds (nc Ac) (mulvec Ac).
  Proof.
    induction ds as [|d ds IH]; intros A Ac (C1 & C2 & C3); [exact I|].
    destruct C3 as (R & A' & E1 & E2 & E3 & E4 & E5 & E6 & E7 & E8 & E9). cbn [solvable_levels]. split; [|eapply IH; eauto].
    intros e He. destruct (chain_top _ _ _ _ _ E9) as (T1 & T2). rewrite T1.
    assert (P9 : nr A' = nc A' /\ spd_mat A') by (destruct ds; destruct E9 as (X1 & X2 & _); auto). destruct P9 as (D' & S').
    assert (HL : linear (nc A') (nc A') (mulvec A')) by (pose proof (mulvec_linear A') as X; rewrite D' in X; exact X).
    destruct (spd_onto HL S' (fR d (fA d e))) as (z & Lz & Ez).
    { rewrite E4, mulvec_length. auto. }
    exists z. split; auto. rewrite T2. auto.
  Qed.
  Lemma chain_stable : forall ds A Ac, chain spd_mat good_mat_smoother ds A Ac -> stable_smoothers ds.
  Proof.
    induction ds as [|d ds IH]; intros A Ac (C1 & C2 & C3); [exact I|].
    destruct C3 as (R & A' & E1 & E2 & E3 & E4 & E5 & E6 & E7 & E8 & E9). cbn [stable_smoothers]. split; [|eapply IH; eauto].
    assert (HL : linear (nc A) (nc A) (mulvec A)) by (pose proof (mulvec_linear A) as X; rewrite C1 in X; exact X).
    rewrite E1, E2. exact (proj2 (good_strict HL C2 E3)).
  Qed.

  Section EndToEnd.
    Variable H : Type.
    Variable hh : helpers K H.
    Variable eps : K.

    Lemma spd_chain : forall p h0 n A a h1 ls h', pt_get parse_bool ["fast_ap"%string] false p = false -> spd_helpers hh p h0 n A ->
      hh_get_global_operator hh h0 = (Ok a, h1) -> built hh eps p None a h1 ls h' ->
      exists lv rest ds Ac C, ls = lv :: rest /\ describes lv rest ds (nc Ac) C /\ chain spd_mat good_mat_smoother ds A Ac /\
        (exact_solver Ac C /\ nr Ac = nc Ac /\ spd_mat Ac) /\ length ds = length rest.
    Proof.
      intros p h0 n A a h1 ls h' FA SH EG HB. destruct (sh_op SH EG) as (-> & D1 & D2 & HS). subst n.
      destruct (@built_chain K H hh eps spd_mat good_mat_smoother (fun A C => exact_solver A C /\ nr A = nc A /\ spd_mat A) (fun _ A => nr A = nc A /\ spd_mat A) p)
        with (ro := @None (op K)) (a := TriOp A) (h := h1) (ls := ls) (h' := h') (A := A)
        as (lv & rest & ds & Ac & C & I1 & I2 & I3 & I4 & I5 & I6); auto.
      - intros h A0 s h2 (D & S) E. split; auto. eapply (sh_smoother SH); eauto.
      - intros h A0 s h2 (D & S) E. destruct (sh_coarse SH h D S E) as (C & C1 & C2). exists C. split; auto. split; auto.
        intros b x Hb Hx. split; auto. apply (C1 b x); auto.
      - intros h A0 r h2 ap h3 ac (D & S) E2 E3 E4.
        unfold product_from in E3. rewrite FA in E3. destruct E3 as (E3 & ->).
        destruct (op_multiply_transpose_tri _ _ _ E3) as (R & -> & X1 & ->).
        destruct (op_multiply_tri _ _ E4) as (R' & B' & Y1 & Y2 & X2 & Y3). inversion Y1; inversion Y2; subst R' B' ac.
        pose proof (galerkin_apply A0 R X1 X2) as G.
        exists R, (mmul R (mmul A0 (mtrans R))). do 5 (split; [auto|]). split; [reflexivity|]. split.
        + apply (@galerkin_sym K A0 R); auto. exact (proj1 S).
        + apply (@galerkin_pd K A0 R); auto.
          * intros x Hx Hn. apply S; auto.
          * exact (@sh_restrictor _ _ _ _ _ _ _ SH h R h2 E2).
      - split; [auto|]. unfold spd_mat. rewrite D2. exact HS.
      - exists lv, rest, ds, Ac, C. auto.
    Qed.

    (** The properties of the resulting preconditioner. *)
    Lemma spd_cycle : forall k ds (A Ac : mat K) C, chain spd_mat good_mat_smoother ds A Ac -> exact_solver Ac C -> nr Ac = nc Ac -> spd_mat Ac ->
      sized ds (nc Ac) -> (0 < k)%nat ->
      let n := nc A in let Mv := fun b => cyc k ds (nc Ac) C b (vzero n) in
      linear n n Mv /\ self_adjoint n Mv /\ (forall b, length b = n -> b <> vzero n -> 0 < dot (Mv b) b) /\
      (forall e, length e = n -> e <> vzero n -> energy (mulvec A) (vsub e (Mv (mulvec A e))) < energy (mulvec A) e).
    Proof.
      intros k ds A Ac C Ch EC D Sc Sz Hk n Mv.
      assert (PA : nr A = nc A /\ spd_mat A) by (destruct ds; destruct Ch as (X1 & X2 & _); auto). destruct PA as (DA & SA).
      assert (HL : linear n n (mulvec A)) by (unfold n; pose proof (mulvec_linear A) as X; rewrite DA in X; exact X).
      assert (HLc : linear (nc Ac) (nc Ac) (mulvec Ac)) by (pose proof (mulvec_linear Ac) as X; rewrite D in X; exact X).
      destruct (@chain_symmetric K spd_mat good_mat_smoother ds A Ac Ch) as (CY & CO).
      { intros A0 P0. exact (proj1 P0). }
      { intros A0 f P0 D0 (B & B1 & B2 & B3 & B4). exists B. auto. }
      destruct (chain_top _ _ _ _ _ Ch) as (T1 & T2). fold n in T1.
      assert (HCl : coarse_length (nc Ac) C) by (intros b x Hb Hx; apply EC; auto).
      assert (HCj : jointly_linear (nc Ac) C) by (apply exact_joint; auto).
      pose proof (@symmetric_linear K ds (nc Ac) CY Sz) as CL.
      assert (LM : linear n n Mv). { unfold Mv. rewrite <- T1. apply cyc_linear; auto. }
      assert (SM : self_adjoint n Mv). { unfold Mv. rewrite <- T1. apply cyc_symmetric; auto. apply exact_sym; auto. }
      assert (ST : strict_step n (mulvec A) (cyc k ds (nc Ac) C)).
      { destruct ds as [|d ds].
        - destruct Ch as (_ & _ & <-). unfold P_Hier.cyc. exact (proj1 (exact_strict DA SA EC)).
        - pose proof Ch as (_ & _ & (R & A' & E1 & E2 & E3 & _)).
          assert (X : strict_step (fn d) (fA d) (cyc k (d :: ds) (nc Ac) C)).
          { apply cyc_strict with (Ac := mulvec Ac); auto.
            - exact (proj1 Sc).
            - apply (@chain_galerkin K _ _ _ _ _ Ch).
            - apply (@chain_solvable _ _ _ Ch).
            - apply (@chain_stable _ _ _ Ch).
            - exact (proj2 (exact_strict D Sc EC)).
            - rewrite E1, E2. exact (proj1 (good_strict HL SA E3)). }
          rewrite E1, E2 in X. exact X. }
      split; auto. split; auto. split.
      - intros b Hb Nb. destruct (spd_onto HL SA b Hb) as (x & Lx & <-).
        apply (@strict_pd K n (mulvec A) (cyc k ds (nc Ac) C)); auto.
        + exact (proj1 SA).
        + intros e He. apply (energy_nonneg HL SA); auto.
        + intros ->. apply Nb. apply (lin_zero HL).
        + exact (lin_len LM (mulvec A x) (lin_len HL x Lx)).
      - intros e He Ne. assert (Hme : length (vscale (- (1)) e) = n) by vlen.
        assert (Nme : vscale (- (1)) e <> vzero n).
        { intros E. apply Ne. transitivity (vscale (- (1)) (vscale (- (1)) e)); [vx|]. rewrite E. vx. }
        destruct (ST e _ He Hme Nme) as (w & Lw & Ew & Nw).
        assert (E3 : vadd e (vscale (- (1)) e) = vzero n) by vx. rewrite E3 in Ew. fold (Mv (mulvec A e)) in Ew. rewrite Ew.
        assert (Nz : energy (mulvec A) (vscale (- (1)) e) = energy (mulvec A) e).
        { unfold energy. rewrite (lin_scale HL) by auto. rewrite dot_scale_l, dot_scale_r. ring. }
        rewrite Nz in Nw.
        replace (vsub e (vadd e w)) with (vscale (- (1)) w) by vx.
        unfold energy at 1. rewrite (lin_scale HL) by auto. rewrite dot_scale_l, dot_scale_r.
        replace (- (1) * (- (1) * dot (mulvec A w) w)) with (energy (mulvec A) w) by (unfold energy; ring). auto.
    Qed.

  End EndToEnd.
End HierS.
