(** Rate of the two-grid cycle with an inexact coarse solver. *)
From Coq Require Import String List Arith ZArith Bool Lia Field.
From Verif Require Import Base OField Mat LinAlg M_Ptree S_Ptree P_Ptree M_Agglo M_Hier S_Hier P_Hier P_Hier2 P_HierC P_HierE P_HierS P_HierV M_Smoother P_Smoother P_Cheby M_Host S_Host P_Host
  S_FastAP S_HostEnd P_HostEnd S_Rate P_Rate P_Rate2 P_Approx M_Par S_Par P_Par P_Par2 P_Par3 P_Par4 P_Local S_Coarse.
Import ListNotations.
Set Implicit Arguments.
Open Scope list_scope.
Open Scope nat_scope.

Section PCoarse.
  Variable K : ofield.
  Add Field KfieldCoarse : (f_field K).
  Local Open Scope K_scope.
  Local Notation vec := (vec K).
  Ltac vx := unfold OField.vec in *; vext; try ring.

  Lemma lin_comp : forall n m q (f g : vec -> vec), linear n m f -> linear m q g -> linear n q (fun x => g (f x)).
  Proof.
    intros n m q f g Lf Lg. constructor.
    - intros x Hx. apply (lin_len Lg), (lin_len Lf), Hx.
    - intros x y Hx Hy. rewrite (lin_add Lf) by auto. apply (lin_add Lg); apply (lin_len Lf); auto.
    - intros s x Hx. rewrite (lin_scale Lf) by auto. apply (lin_scale Lg), (lin_len Lf), Hx.
  Qed.
  Lemma lin_minus : forall n m (f g : vec -> vec), linear n m f -> linear n m g -> linear n m (fun x => vsub (f x) (g x)).
  Proof.
    intros n m f g Lf Lg. constructor.
    - intros x Hx. pose proof (lin_len Lf _ Hx). pose proof (lin_len Lg _ Hx). vlen.
    - intros x y Hx Hy. rewrite (lin_add Lf), (lin_add Lg) by auto.
      pose proof (lin_len Lf _ Hx). pose proof (lin_len Lg _ Hx). pose proof (lin_len Lf _ Hy). pose proof (lin_len Lg _ Hy). vx.
    - intros s x Hx. rewrite (lin_scale Lf), (lin_scale Lg) by auto. pose proof (lin_len Lf _ Hx). pose proof (lin_len Lg _ Hx). vx.
  Qed.
  Lemma lin_id : forall n, linear n n (fun x : vec => x).
  Proof. intros n. constructor; auto. Qed.
  Lemma lin_iter : forall n (f : vec -> vec), linear n n f -> forall k, linear n n (iter k f).
  Proof. intros n f L. induction k; [apply lin_id|]. cbn [iter]. apply (@lin_comp n n n f (iter k f)); auto. Qed.

  (** A symmetric map bounded as a form is bounded as a map. *)
  Lemma form_bound : forall n (A E : vec -> vec) rho, linear n n A -> spd n A -> linear n n E -> 0 <= rho ->
    (forall x y, length x = n -> length y = n -> dot (A (E x)) y = dot (A x) (E y)) ->
    (forall x, length x = n -> dot (A (E x)) x <= rho * energy A x /\ - (rho * energy A x) <= dot (A (E x)) x) ->
    forall x, length x = n -> energy A (E x) <= rho * rho * energy A x.
  Proof.
    intros n A E rho LA SA LE Hr Sy Bd.
    assert (AL := lin_len LA). assert (EL := lin_len LE).
    assert (CS : forall x y, length x = n -> length y = n -> dot (A (E x)) y * dot (A (E x)) y <= (rho * energy A x) * (rho * energy A y)).
    { intros x y Hx Hy. apply quad_cs. intros t s.
      set (a := vscale t x). set (b := vscale s y). assert (La : length a = n) by (unfold a; vlen). assert (Lb : length b = n) by (unfold b; vlen).
      destruct (Bd (vadd a b) ltac:(vlen)) as (B1 & _). destruct (Bd (vsub a b) ltac:(vlen)) as (_ & B2).
      assert (Q : forall v w, length v = n -> length w = n -> dot (A v) w = dot (A w) v) by (intros v w Hv Hw; rewrite (proj1 SA v w Hv Hw); apply dot_comm).
      assert (E1 : dot (A (E (vadd a b))) (vadd a b) = dot (A (E a)) a + (1 + 1) * dot (A (E a)) b + dot (A (E b)) b).
      { rewrite (lin_add LE), (lin_add LA) by auto. rewrite dot_add_l, !dot_add_r by (rewrite ?AL; auto; congruence). rewrite (Sy b a) by auto.
        rewrite (Q b (E a)) by auto. ring. }
      assert (E2 : dot (A (E (vsub a b))) (vsub a b) = dot (A (E a)) a - (1 + 1) * dot (A (E a)) b + dot (A (E b)) b).
      { rewrite (lin_sub LE), (lin_sub LA) by auto. rewrite dot_sub_l, !dot_sub_r by (rewrite ?AL; auto; congruence). rewrite (Sy b a) by auto.
        rewrite (Q b (E a)) by auto. ring. }
      assert (N1 : energy A (vadd a b) = energy A a + (1 + 1) * dot (A a) b + energy A b).
      { unfold energy. rewrite (lin_add LA) by auto. rewrite dot_add_l, !dot_add_r by (rewrite ?AL; auto; congruence). rewrite (Q b a) by auto. ring. }
      assert (N2 : energy A (vsub a b) = energy A a - (1 + 1) * dot (A a) b + energy A b).
      { unfold energy. rewrite (lin_sub LA) by auto. rewrite dot_sub_l, !dot_sub_r by (rewrite ?AL; auto; congruence). rewrite (Q b a) by auto. ring. }
      rewrite E1, N1 in B1. rewrite E2, N2 in B2.
      assert (Na : energy A a = t * t * energy A x) by (unfold energy, a; rewrite (lin_scale LA) by auto; rewrite dot_scale_l, dot_scale_r; ring).
      assert (Nb : energy A b = s * s * energy A y) by (unfold energy, b; rewrite (lin_scale LA) by auto; rewrite dot_scale_l, dot_scale_r; ring).
      assert (Sab : dot (A (E a)) b = t * s * dot (A (E x)) y).
      { unfold a, b. rewrite (lin_scale LE) by auto. rewrite (lin_scale LA) by auto. rewrite dot_scale_l, dot_scale_r. ring. }
      rewrite Na, Nb, Sab in *. apply fle_sub_0 in B1, B2.
      apply (@fle_mul_cancel K (1 + 1)); [apply two_pos|].
      match type of B1 with 0 <= ?u => match type of B2 with 0 <= ?v => assert (B := @fadd_nonneg K u v B1 B2) end end.
      match type of B with 0 <= ?u => match goal with |- ?l <= ?r => apply fle_sub_0; replace (r - l) with u by ring; exact B end end. }
    intros x Hx. pose proof (EL x Hx) as Le. pose proof (CS x (E x) Hx Le) as H. fold (energy A (E x)) in H.
    pose proof (energy_nonneg LA SA _ Le) as P. pose proof (energy_nonneg LA SA _ Hx) as Px.
    destruct (feq_dec K (energy A (E x)) 0) as [Z|N]; [rewrite Z; apply fle_mul; [apply fsquare_nonneg|exact Px]|].
    apply (@fle_mul_cancel K (energy A (E x))); [apply fle_neq_lt; auto|]. eapply fle_trans; [exact H|].
    apply fle_sub_0. match goal with |- 0 <= ?e => replace e with (0 : K) by ring end. apply fle_refl.
  Qed.

  Section Inexact.
    Variables (n mc : nat) (A B P R C : vec -> vec) (theta lambda alpha beta : K).
    Hypothesis LA : linear n n A.
    Hypothesis SA : spd n A.
    Hypothesis LB : linear n n B.
    Hypothesis SB : self_adjoint n B.
    Hypothesis Ht : 0 <= theta.
    Hypothesis Hl : 0 < lambda.
    Hypothesis HS : smooths n A B theta.
    Hypothesis LP : linear mc n P.
    Hypothesis LR : linear n mc R.
    Hypothesis AD : forall w v, length w = mc -> length v = n -> dot (P w) v = dot w (R v).
    Hypothesis HP : forall v, length v = n -> exists w, length w = mc /\ lambda * dot (vsub v (P w)) (vsub v (P w)) <= energy A v.
    Hypothesis LC : linear mc mc C.
    Hypothesis SC : self_adjoint mc C.
    Hypothesis Hsolve : forall g, length g = mc -> exists w, length w = mc /\ R (A (P w)) = g.
    Hypothesis Ha0 : 0 <= alpha.
    Hypothesis Ha1 : alpha <= 1.
    Hypothesis Hrho : theta * lambda <= 1.
    Hypothesis Hnear : forall w, length w = mc -> let g := R (A (P w)) in alpha * dot w g <= dot (C g) g /\ dot (C g) g <= beta * dot w g.
    Variable k : nat.
    Hypothesis Hk : (0 < k)%nat.
    Notation S := (error_step A B).
    Definition inexact_error (e : vec) : vec := let f := iter k S e in iter k S (vsub f (P (C (R (A f))))).

    Lemma S_linear : linear n n S.
    Proof. unfold error_step. apply (@lin_minus n n (fun x => x) (fun x => B (A x))); [apply lin_id|apply (@lin_comp n n n A B); auto]. Qed.
    Lemma err_linear : linear n n inexact_error.
    Proof.
      unfold inexact_error. apply (@lin_comp n n n (fun e => vsub (iter k S e) (P (C (R (A (iter k S e)))))) (iter k S)); [|apply lin_iter, S_linear].
      apply (@lin_comp n n n (iter k S) (fun f => vsub f (P (C (R (A f)))))); [apply lin_iter, S_linear|].
      apply (@lin_minus n n (fun x => x) (fun f => P (C (R (A f))))); [apply lin_id|].
      apply (@lin_comp n mc n (fun f => C (R (A f))) P); auto. apply (@lin_comp n mc mc (fun f => R (A f)) C); auto. apply (@lin_comp n n mc A R); auto.
    Qed.

    Lemma corr_form : forall f g, length f = n -> length g = n -> dot (A (vsub f (P (C (R (A f)))))) g = dot (A f) g - dot (C (R (A f))) (R (A g)).
    Proof.
      intros f g Hf Hg. pose proof (lin_len LA _ Hf) as L1. pose proof (lin_len LA _ Hg) as L1g. pose proof (lin_len LR _ L1) as L2. pose proof (lin_len LC _ L2) as L3. pose proof (lin_len LP _ L3) as L4.
      rewrite (lin_sub LA) by auto. rewrite dot_sub_l by (rewrite L1, (lin_len LA _ L4); auto). f_equal. rewrite (proj1 SA _ g L4 Hg). apply AD; auto.
    Qed.
    Lemma err_form : forall x y, length x = n -> length y = n ->
      dot (A (inexact_error x)) y = dot (A (iter k S x)) (iter k S y) - dot (C (R (A (iter k S x)))) (R (A (iter k S y))).
    Proof.
      intros x y Hx Hy. unfold inexact_error. pose proof (iter_len LA LB k _ Hx) as Lx. pose proof (iter_len LA LB k _ Hy) as Ly.
      pose proof (lin_len LA _ Lx) as L1. pose proof (lin_len LR _ L1) as L2. pose proof (lin_len LC _ L2) as L3. pose proof (lin_len LP _ L3) as L4.
      rewrite (@iter_sym K n A B LA SA LB SB) by (auto; vlen). apply corr_form; auto.
    Qed.
    Lemma err_sym : forall x y, length x = n -> length y = n -> dot (A (inexact_error x)) y = dot (A x) (inexact_error y).
    Proof.
      intros x y Hx Hy. rewrite (proj1 SA x (inexact_error y) Hx (lin_len err_linear _ Hy)). rewrite (dot_comm x). rewrite !err_form by auto.
      pose proof (iter_len LA LB k _ Hx) as Lx. pose proof (iter_len LA LB k _ Hy) as Ly. f_equal.
      - rewrite (proj1 SA _ _ Lx Ly). apply dot_comm.
      - rewrite (SC (R (A (iter k S x))) (R (A (iter k S y)))) by (apply (lin_len LR), (lin_len LA); auto). apply dot_comm.
    Qed.

    (** The form of the error propagation. *)
    Lemma err_bounds : forall e, length e = n ->
      dot (A (inexact_error e)) e <= (1 - alpha * theta * lambda) * energy A e /\
      forall t, 0 <= t -> beta - 1 <= t -> - (t * energy A e) <= dot (A (inexact_error e)) e.
    Proof.
      intros e He. rewrite err_form by auto. set (f := iter k S e). assert (Lf : length f = n) by (apply iter_len; auto).
      fold (energy A f). pose proof (lin_len LA _ Lf) as LAf. pose proof (lin_len LR _ LAf) as LRf.
      destruct (Hsolve (R (A f)) LRf) as (w & Lw & Ew). destruct (Hnear w Lw) as (N1 & N2). cbv zeta in N1, N2. rewrite Ew in N1, N2.
      pose proof (lin_len LP _ Lw) as LPw. pose proof (lin_len LA _ LPw) as LAPw. set (u := vsub f (P w)). assert (Lu : length u = n) by (unfold u; vlen).
      assert (O : orthogonal n A mc P u).
      { split; auto. intros v Lv. rewrite dot_comm. rewrite AD by (auto; apply (lin_len LA); auto). unfold u. rewrite (lin_sub LA) by auto.
        rewrite (lin_sub LR) by (apply (lin_len LA); auto). rewrite Ew, vsub_self, dot_zero_r. reflexivity. }
      assert (PW : dot w (R (A f)) = energy A (P w)).
      { rewrite <- Ew, <- AD by auto. unfold energy. apply dot_comm. }
      assert (SPL : energy A f = energy A u + energy A (P w)).
      { unfold energy at 1. assert (X : f = vadd u (P w)) by (unfold u; vx). rewrite X. rewrite (lin_add LA) by auto. pose proof (lin_len LA _ Lu) as LAu.
        rewrite dot_add_l, !dot_add_r by congruence. rewrite (proj2 O _ Lw). rewrite (proj1 SA (P w) u LPw Lu), (dot_comm (P w) (A u)), (proj2 O _ Lw). unfold energy. ring. }
      rewrite PW in N1, N2. pose proof (energy_nonneg LA SA _ Lu) as Pu. pose proof (energy_nonneg LA SA _ LPw) as Pw. pose proof (energy_nonneg LA SA _ He) as Pe.
      assert (Df : energy A f <= energy A e) by (apply (@iter_decreases K n A B LA LB theta Ht HS k e He)).
      assert (Hr : 0 <= 1 - theta * lambda) by (apply -> (@fle_sub_0 K); exact Hrho).
      assert (Bu : energy A u <= (1 - theta * lambda) * energy A e).
      { destruct (feq_dec K (energy A u) 0) as [Z|N]; [rewrite Z; apply fle_mul; auto|].
        assert (Pu' : 0 < energy A u) by (apply fle_neq_lt; auto).
        assert (Li : length (iter k S u) = n) by (apply iter_len; auto).
        assert (EE : energy A u = dot (A (iter k S u)) e).
        { rewrite (@iter_sym K n A B LA SA LB SB) by auto. fold f. unfold energy. unfold u at 2. rewrite dot_sub_r by congruence. rewrite (proj2 O _ Lw). ring. }
        assert (CSu := @energy_cs K n A LA SA (iter k S u) e Li He). rewrite <- EE in CSu.
        apply (@fle_mul_cancel K (energy A u)); auto. eapply fle_trans; [exact CSu|].
        assert (SO := @smooth_orthogonal K n A B LA SA LB theta lambda Ht Hl HS mc P LP HP k u Hk O).
        replace (energy A u * ((1 - theta * lambda) * energy A e)) with (energy A e * ((1 - theta * lambda) * energy A u)) by ring.
        replace (energy A (iter k S u) * energy A e) with (energy A e * energy A (iter k S u)) by ring. apply fle_mul_l; auto. }
      set (c := dot (C (R (A f))) (R (A f))) in *. split.
      - assert (H1 : 0 <= (1 - alpha) * (energy A e - energy A f)) by (apply fle_mul; apply -> (@fle_sub_0 K); auto).
        assert (H2 : 0 <= alpha * ((1 - theta * lambda) * energy A e - energy A u)) by (apply fle_mul; auto; apply -> (@fle_sub_0 K); auto).
        apply fle_sub_0 in N1. apply fle_sub_0.
        replace ((1 - alpha * theta * lambda) * energy A e - (energy A f - c)) with
          ((1 - alpha) * (energy A e - energy A f) + alpha * ((1 - theta * lambda) * energy A e - energy A u) + (c - alpha * energy A (P w))) by (rewrite SPL; ring).
        apply fadd_nonneg; [apply fadd_nonneg|]; auto.
      - intros t Ht0 Htb. apply fle_sub_0 in N2, Htb, Df. apply fle_sub_0.
        assert (Pf : energy A (P w) <= energy A f) by (apply fle_sub_0; rewrite SPL; replace (energy A u + energy A (P w) - energy A (P w)) with (energy A u) by ring; exact Pu).
        replace (energy A f - c - - (t * energy A e)) with
          ((beta * energy A (P w) - c) + (t - (beta - 1)) * energy A (P w) + t * (energy A e - energy A f) + (1 + t) * energy A u) by (rewrite SPL; ring).
        assert (P1 : 0 <= 1 + t) by (apply fadd_nonneg; [apply f0_le_1|exact Ht0]).
        repeat apply fadd_nonneg; auto; apply fle_mul; auto.
    Qed.

    Variable rho : K.
    Hypothesis R1 : 1 - alpha * theta * lambda <= rho.
    Hypothesis R2 : beta - 1 <= rho.
    Lemma rho_nonneg : 0 <= rho.
    Proof.
      eapply fle_trans; [|exact R1]. apply fle_sub_0 in Ha1, Hrho.
      assert (Q : 0 <= theta * lambda) by (apply fle_mul; auto; apply flt_le; auto).
      apply fle_sub_0. replace (1 - alpha * theta * lambda - 0) with ((1 - theta * lambda) + theta * lambda * (1 - alpha)) by ring.
      apply fadd_nonneg; auto. apply fle_mul; auto.
    Qed.
    Lemma err_rate : forall e, length e = n -> energy A (inexact_error e) <= rho * rho * energy A e.
    Proof.
      apply (@form_bound n A inexact_error rho LA SA err_linear rho_nonneg err_sym). intros x Hx. destruct (err_bounds x Hx) as (B1 & B2). split.
      - eapply fle_trans; [exact B1|]. pose proof (energy_nonneg LA SA _ Hx) as P0.
        apply fle_sub_0 in R1. apply fle_sub_0. replace (rho * energy A x - (1 - alpha * theta * lambda) * energy A x) with ((rho - (1 - alpha * theta * lambda)) * energy A x) by ring.
        apply fle_mul; auto.
      - apply B2; [apply rho_nonneg|exact R2].
    Qed.
  End Inexact.
  Local Close Scope K_scope.
  (** As P_Par4.par_two_level, with the coarse solver ML. *)
  Lemma par_ml_two_level : forall accepts_double owned_rows (A : mat K) mk ilu ml lst eps te0 dbg p k R AP,
    nr A = nc A -> spd (nc A) (mulvec A) -> c_levels p = 2%Z ->
    dealii_smoother_kind p = Ok k -> linear (nc A) (nc A) (par_kind_vmult owned_rows ilu k A) -> dealii_solver_kind accepts_double p = Ok (KMl lst) ->
    pt_find p ["eigensolver"%string] <> None -> pt_find p ["agglomeration"%string] <> None ->
    mk p = Ok (R, AP) -> nc R = nc A -> full_row_rank R -> (pt_get parse_bool ["fast_ap"%string] false p = true -> meq AP (mmul A (mtrans R))) ->
    (forall M, meq M (mmul R (mmul A (mtrans R))) -> linear (nr R) (nr R) (ml lst M)) ->
    exists Ac, meq Ac (mmul R (mmul A (mtrans R))) /\
    exists h s l, construct (par_helpers accepts_double owned_rows A mk ilu ml) eps te0 dbg (Ok tt) (Some p) None = (Ok h, s, l) /\
      forall te x b l, open_sections l = [] -> length x = nc A -> length b = nc A ->
        exists y l', hierarchy_vmult te h x b l = (Ok y, l') /\ open_sections l' = [] /\
          y = inexact_two_grid A R (par_kind_vmult owned_rows ilu k A) (ml lst Ac) (c_steps p) b (if c_prec p then vzero (nc A) else x).
  Proof.
    intros ad owned_rows A mk ilu ml lst eps te0 dbg p k R AP D S HL SK LB CK PE PA EM DR FR PO HML.
    set (hh := par_helpers ad owned_rows A mk ilu ml). set (B := par_kind_vmult owned_rows ilu k A) in *.
    set (ap := if pt_get parse_bool ["fast_ap"%string] false p then AP else mmul A (mtrans R)).
    assert (EQ : meq ap (mmul A (mtrans R))).
    { unfold ap. destruct (pt_get parse_bool ["fast_ap"%string] false p); auto. split; [auto|]. split; auto. }
    set (f := correction_step (mulvec A) B).
    set (Ac := mmul R ap).
    pose proof EQ as (M1 & M2 & M3). cbn [nr nc mmul mtrans] in M1, M2.
    assert (E : forall x, mulvec Ac x = mulvec R (mulvec A (mulTvec R x))).
    { intros x. unfold Ac. rewrite mulvec_mmul by congruence. f_equal. unfold mulTvec. rewrite <- mulvec_mmul by (simpl; congruence).
      apply mulvec_meq. exact EQ. }
    assert (D1 : nr Ac = nc Ac) by (unfold Ac; simpl; congruence).
    assert (D2 : nr R = nc Ac) by (unfold Ac; simpl; congruence).
    assert (MA : meq Ac (mmul R (mmul A (mtrans R)))).
    { unfold Ac. split; [reflexivity|]. split; [simpl; congruence|]. intros i j Hi Hj. cbn [nr nc mmul] in Hi, Hj. unfold mmul at 1 2. cbn [ent]. apply sumn_ext. intros q Hq.
      rewrite (M3 q j) by congruence. reflexivity. }
    assert (LC : linear (nr R) (nr R) (ml lst Ac)) by (apply HML; exact MA).
    assert (LA : linear (nc A) (nc A) (mulvec A)) by (pose proof (mulvec_linear A) as X; rewrite D in X; exact X).
    set (C := fun b (_ : vec) => ml lst Ac b).
    set (ds := [mkFine (nc A) (mulvec A) f (mulvec R) (mulTvec R)]).
    set (lv := mkLevel (Some (TriOp A)) None (Some (smoother_apply (TriOp A) B)) None).
    eassert (X : exists lc h', built hh eps (c_params p) None (TriOp A) None [lv; lc] h' /\ describes lv [lc] ds (nc Ac) C).
    { unfold c_params. rewrite HL. cbn [Z.eqb Pos.eqb].
      eexists (mkLevel (Some (TriOp Ac)) (Some (TriOp R)) None (Some _)), _. split.
      { unfold lv. eapply built_cons with (h1 := None) (r := TriOp R) (h2 := if pt_get parse_bool ["fast_ap"%string] false p then Some (TriOp AP) else None)
          (ap := TriOp ap) (h3 := if pt_get parse_bool ["fast_ap"%string] false p then Some (TriOp AP) else None).
        - simpl. rewrite SK. simpl. reflexivity.
        - simpl. unfold host_build_restrictor. destruct (pt_find p ["eigensolver"%string]); [|congruence]. destruct (pt_find p ["agglomeration"%string]); [|congruence].
          rewrite EM. destruct (pt_get parse_bool ["fast_ap"%string] false p); reflexivity.
        - unfold product_from, ap. destruct (pt_get parse_bool ["fast_ap"%string] false p); simpl; auto.
          rewrite DR, Nat.eqb_refl. auto.
        - simpl. replace (nc R =? nr ap)%nat with true by (symmetry; apply Nat.eqb_eq; congruence). reflexivity.
        - constructor. simpl. rewrite CK. reflexivity. }
      eapply describes_fine; simpl; [reflexivity| |reflexivity| |reflexivity| | |].
      - pose proof (op_acts_tri A) as X. rewrite D in X. exact X.
      - apply smoother_apply_acts; auto. intros x Hx. exact (lin_len LB x Hx).
      - replace (nc ap) with (nr R) by (symmetry; exact M2). rewrite <- DR. apply op_acts_tri.
      - replace (nc ap) with (nr R) by (symmetry; exact M2). rewrite <- DR. apply opT_acts_tri.
      - eapply describes_coarsest; simpl; [reflexivity|reflexivity|reflexivity|].
        intros b x Hb Hx. cbn [nc mmul] in Hb, Hx. rewrite Hb, Hx. replace (nr R) with (nc ap) by exact M2. rewrite !Nat.eqb_refl. simpl. split; auto.
        change (length (ml lst Ac b) = nc Ac). rewrite <- D2. apply (lin_len LC). rewrite D2. exact Hb. }
    destruct X as (lc & h' & X4 & X5).
    destruct (@construct_complete K _ hh eps te0 dbg p None (TriOp A) None [lv; lc] h') as (l & EC); [lia|reflexivity|rewrite HL; reflexivity|exact X4|].
    exists Ac. split; [exact MA|]. eexists _, _, l. split; [exact EC|].
    intros te x b l0 O Hx Hb.
    destruct (describes_sized X5) as (Sz & LCC & _).
    destruct (@vmult_ok K te (mkHierarchy [lv; lc] (c_prec p) (c_steps p)) lv [lc] ds (nc Ac) C eq_refl X5 (or_intror (le_n 2)) x b l0 O Hb Hx) as (t & l' & N & RL & V).
    cbn [h_n_smoothing_steps h_is_preconditioner] in V. change (top_size ds (nc Ac)) with (nc A) in V.
    set (x0 := if c_prec p then vzero (nc A) else x) in *.
    assert (Hx0 : length x0 = nc A) by (unfold x0; destruct (c_prec p); auto; apply vzero_length).
    eexists _, l'. split; [exact V|]. split.
    { rewrite <- (rev_involutive l'), RL. rewrite rev_app_distr, rev_involutive. unfold trace. destruct (t_present te); auto. rewrite open_nested; auto. }
    rewrite cyc_textbook; auto.
    - cbn [linear_levels ds fn fA fS fR fP top_size]. split; [exact LA|]. split; [apply step_linear; auto|]. split; [|split; [|exact I]].
      + rewrite <- DR, <- D2. apply mulvec_linear.
      + rewrite <- DR, <- D2. apply (mulvec_linear (mtrans R)).
    - intros s1 t1 b1 c1 x1 y1 Hb1 Hc1 _ _. unfold C. rewrite <- D2 in Hb1, Hc1. rewrite (lin_add LC), !(lin_scale LC) by vlen. reflexivity.
  Qed.

  Local Open Scope K_scope.
  (** A solver that reduces the error is near. *)
  Lemma reducing_near : forall (M : mat K) B gamma, nr M = nc M -> spd (nc M) (mulvec M) -> linear (nc M) (nc M) B -> self_adjoint (nc M) B -> 0 <= gamma ->
    reducing_solver M B gamma -> near_solver M B (1 - gamma) (1 + gamma).
  Proof.
    intros M B gamma D S LB SB Hg H. split; [exact LB|]. split; [exact SB|]. intros w Lw.
    assert (LA : linear (nc M) (nc M) (mulvec M)) by (pose proof (mulvec_linear M) as X; rewrite D in X; exact X).
    pose proof (lin_len LA _ Lw) as L1. pose proof (lin_len LB _ L1) as L2.
    assert (Lv : length (vsub w (B (mulvec M w))) = nc M) by vlen.
    assert (C := @energy_cs K (nc M) (mulvec M) LA S (vsub w (B (mulvec M w))) w Lv Lw).
    assert (I : dot (mulvec M (vsub w (B (mulvec M w)))) w = energy (mulvec M) w - dot (B (mulvec M w)) (mulvec M w)).
    { rewrite (lin_sub LA) by auto. rewrite dot_sub_l by (rewrite !mulvec_length; reflexivity). unfold energy. f_equal. apply (proj1 S); auto. }
    rewrite I in C. set (t := dot (B (mulvec M w)) (mulvec M w)) in *. pose proof (energy_nonneg LA S _ Lw) as P0. specialize (H w Lw). set (e := energy (mulvec M) w) in *.
    assert (Q : (e - t) * (e - t) <= (gamma * e) * (gamma * e)).
    { eapply fle_trans; [exact C|]. replace (gamma * e * (gamma * e)) with (e * (gamma * gamma * e)) by ring.
      match goal with |- ?a * e <= _ => replace (a * e) with (e * a) by ring end. apply fle_mul_l; auto. }
    assert (Pg : 0 <= gamma * e) by (apply fle_mul; auto).
    assert (Q1 := @le_of_squares K _ _ Pg Q). assert (Q2 : t - e <= gamma * e).
    { apply le_of_squares; auto. replace ((t - e) * (t - e)) with ((e - t) * (e - t)) by ring. exact Q. }
    apply fle_sub_0 in Q1, Q2. split; apply fle_sub_0.
    - replace (t - (1 - gamma) * e) with (gamma * e - (e - t)) by ring. exact Q1.
    - replace ((1 + gamma) * e - t) with (gamma * e - (t - e)) by ring. exact Q2.
  Qed.

  (** The cycle on vectors: error and energy product of what one cycle from zero returns. *)
  Section Grid.
    Variables (A R Ac : mat K) (B C : vec -> vec) (theta lambda alpha beta : K) (k : nat).
    Hypothesis DA : nr A = nc A.
    Hypothesis SA : spd (nc A) (mulvec A).
    Hypothesis LB : linear (nc A) (nc A) B.
    Hypothesis SB : self_adjoint (nc A) B.
    Hypothesis DR : nc R = nc A.
    Hypothesis FR : full_row_rank R.
    Hypothesis MA : meq Ac (mmul R (mmul A (mtrans R))).
    Hypothesis Hk : (0 < k)%nat.
    Hypothesis Ht : 0 <= theta.
    Hypothesis Hl : 0 < lambda.
    Hypothesis HS : smooths (nc A) (mulvec A) B theta.
    Hypothesis HA : approximates A R lambda.
    Hypothesis NC : near_solver Ac C alpha beta.
    Hypothesis Ha0 : 0 <= alpha.
    Hypothesis Ha1 : alpha <= 1.
    Hypothesis Hrho : theta * lambda <= 1.
    Lemma Ac_acts : forall x, mulvec Ac x = mulvec R (mulvec A (mulTvec R x)).
    Proof.
      intros x. rewrite (mulvec_meq x MA). rewrite mulvec_mmul by (simpl; congruence). rewrite mulvec_mmul by (simpl; congruence). reflexivity.
    Qed.
    Lemma Ac_dims : nr Ac = nr R /\ nc Ac = nr R.
    Proof. destruct MA as (M1 & M2 & _). simpl in M1, M2. auto. Qed.
    Lemma Ac_spd : spd (nc Ac) (mulvec Ac).
    Proof.
      destruct Ac_dims as (E1 & E2). split.
      - apply (@galerkin_sym K A R Ac); auto; try congruence; [exact Ac_acts|exact (proj1 SA)].
      - apply (@galerkin_pd K A R Ac); auto; try congruence; [exact Ac_acts|exact (proj2 SA)].
    Qed.
    Lemma lA : linear (nc A) (nc A) (mulvec A).
    Proof. pose proof (mulvec_linear A) as X. rewrite DA in X. exact X. Qed.
    Lemma lP : linear (nr R) (nc A) (mulTvec R).
    Proof. rewrite <- DR. apply mulTvec_linear. Qed.
    Lemma lR : linear (nc A) (nr R) (mulvec R).
    Proof. rewrite <- DR. apply mulvec_linear. Qed.
    Lemma lC : linear (nr R) (nr R) C.
    Proof. destruct Ac_dims as (E1 & E2). rewrite <- E2. exact (proj1 NC). Qed.
    Lemma sC : self_adjoint (nr R) C.
    Proof. destruct Ac_dims as (E1 & E2). rewrite <- E2. exact (proj1 (proj2 NC)). Qed.
    Lemma adR : forall w v : vec, length w = nr R -> length v = nc A -> dot (mulTvec R w) v = dot w (mulvec R v).
    Proof. intros w v Lw Lv. apply mulTvec_adjoint; auto. rewrite DR. exact Lv. Qed.
    Lemma solvable : forall g : vec, length g = nr R -> exists w, length w = nr R /\ mulvec R (mulvec A (mulTvec R w)) = g.
    Proof.
      intros g Lg. destruct Ac_dims as (E1 & E2). rewrite <- E2 in Lg. destruct (@direct_exact K Ac ltac:(congruence) Ac_spd g Lg) as (Q1 & Q2).
      exists (direct_solve Ac g). split; [congruence|]. rewrite <- Ac_acts. exact Q2.
    Qed.
    Lemma nearR : forall w : vec, length w = nr R -> let g := mulvec R (mulvec A (mulTvec R w)) in alpha * dot w g <= dot (C g) g /\ dot (C g) g <= beta * dot w g.
    Proof.
      intros w Lw. destruct Ac_dims as (E1 & E2). destruct (proj2 (proj2 NC) w ltac:(congruence)) as (N1 & N2). unfold energy in N1, N2. rewrite Ac_acts in N1, N2.
      cbv zeta. rewrite (dot_comm w). split; assumption.
    Qed.
    Notation err := (inexact_error (mulvec A) B (mulTvec R) (mulvec R) C k).
    Lemma grid_error : forall xs e : vec, length xs = nc A -> length e = nc A -> inexact_two_grid A R B C k (mulvec A xs) (vsub xs e) = vsub xs (err e).
    Proof.
      intros xs e Ls Le. unfold inexact_two_grid, inexact_error. cbv zeta. pose proof lA as LA. pose proof lP as LP. pose proof lR as LR. pose proof lC as LC.
      rewrite (P_Rate.iter_error LA LB) by auto. set (e1 := iter k (error_step (mulvec A) B) e).
      assert (Le1 : length e1 = nc A) by (unfold e1; apply iter_len; auto).
      assert (Y : vsub (mulvec A xs) (mulvec A (vsub xs e1)) = mulvec A e1).
      { rewrite (lin_sub LA) by auto. pose proof (lin_len LA _ Ls). pose proof (lin_len LA _ Le1). vx. }
      rewrite Y. set (c := C (mulvec R (mulvec A e1))). assert (Lc : length c = nr R) by (apply (lin_len LC), (lin_len LR), (lin_len LA); auto).
      pose proof (lin_len LP _ Lc) as LPc. assert (X : vadd (vsub xs e1) (mulTvec R c) = vsub xs (vsub e1 (mulTvec R c))) by vx. rewrite X.
      apply (P_Rate.iter_error LA LB); auto. vlen.
    Qed.
    Lemma err_len : forall e : vec, length e = nc A -> length (err e) = nc A.
    Proof. intros e Le. apply (lin_len (err_linear lA LB lP lR lC k) e Le). Qed.
    Lemma grid_rate : forall rho, 1 - alpha * theta * lambda <= rho -> beta - 1 <= rho -> forall x0 xs : vec, length x0 = nc A -> length xs = nc A ->
      let y := inexact_two_grid A R B C k (mulvec A xs) x0 in
      length y = nc A /\ energy (mulvec A) (vsub xs y) <= rho * rho * energy (mulvec A) (vsub xs x0).
    Proof.
      intros rho R1 R2 x0 xs L0 Ls. cbv zeta. set (e := vsub xs x0). assert (Le : length e = nc A) by (unfold e; vlen).
      assert (X0 : x0 = vsub xs e) by (unfold e; vx). rewrite X0. rewrite grid_error by auto. pose proof (err_len _ Le) as Lr.
      split; [vlen|]. assert (X : forall z : vec, length z = nc A -> vsub xs (vsub xs z) = z) by (intros z Hz; vx). rewrite X by auto.
      apply (@err_rate (nc A) (nr R) (mulvec A) B (mulTvec R) (mulvec R) C theta lambda alpha beta lA SA LB SB Ht Hl HS lP lR adR HA lC sC solvable Ha0 Ha1 Hrho nearR k Hk rho R1 R2 e Le).
    Qed.
    Lemma grid_spectrum : forall t, 1 <= t -> beta <= t -> forall e : vec, length e = nc A ->
      let y := inexact_two_grid A R B C k (mulvec A e) (vzero (nc A)) in
      alpha * theta * lambda * energy (mulvec A) e <= dot y (mulvec A e) /\ dot y (mulvec A e) <= t * energy (mulvec A) e.
    Proof.
      intros t T1 T2 e Le. cbv zeta. assert (X0 : vzero (nc A) = vsub e e) by vx. rewrite X0. rewrite grid_error by auto. pose proof (err_len _ Le) as Lr.
      assert (I : dot (vsub e (err e)) (mulvec A e) = energy (mulvec A) e - dot (mulvec A (err e)) e).
      { rewrite dot_sub_l by vlen. rewrite dot_comm. fold (energy (mulvec A) e). f_equal. symmetry. apply (proj1 SA); auto. }
      rewrite I.
      destruct (@err_bounds (nc A) (nr R) (mulvec A) B (mulTvec R) (mulvec R) C theta lambda alpha beta lA SA LB SB Ht Hl HS lP lR adR HA lC solvable Ha0 Ha1 Hrho nearR k Hk e Le) as (B1 & B2).
      apply fle_sub_0 in T1. assert (T3 : beta - 1 <= t - 1).
      { apply fle_sub_0 in T2. apply fle_sub_0. replace (t - 1 - (beta - 1)) with (t - beta) by ring. exact T2. }
      specialize (B2 (t - 1) T1 T3). apply fle_sub_0 in B1, B2. set (c := dot (mulvec A (err e)) e) in *. set (en := energy (mulvec A) e) in *. split; apply fle_sub_0.
      - replace (en - c - alpha * theta * lambda * en) with ((1 - alpha * theta * lambda) * en - c) by ring. exact B1.
      - replace (t * en - (en - c)) with (c - - ((t - 1) * en)) by ring. exact B2.
    Qed.
  End Grid.
End PCoarse.
