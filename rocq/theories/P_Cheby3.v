(** The rate of matrix-free hierarchies. *)
From Coq Require Import String List Arith ZArith NArith Bool Lia Field.
From Verif Require Import Base OField Mat LinAlg M_Ptree S_Ptree P_Ptree M_Hier M_Smoother M_Host S_Host S_Hier P_Hier P_Hier2 P_HierC P_HierE P_HierS P_HierV P_Smoother P_Host
  M_Cheby S_Cheby P_Poly P_Cheby P_Cheby2 M_HostEnd S_HostEnd P_HostEnd S_Rate P_Rate.
Import ListNotations.
Set Implicit Arguments.
Open Scope list_scope.
Open Scope nat_scope.

Section P.
  Variable K : ofield.
  Add Field KfieldC3 : (f_field K).
  Local Open Scope K_scope.
  Notation vec := (vec K).
  Ltac vx := unfold OField.vec in *; vext; try ring.
  Variable parse_double : string -> option K.
  Variable cg : N -> nat -> (vec -> vec) -> vec -> option (K * K).
  Variable autod : K -> K -> K -> N.

  Lemma cheb_vmult_smooths : forall data n (A : vec -> vec) d dinv lo hi dmax th, linear n n A -> spd n A -> inverse_diagonal n d dinv ->
    cd_eig_cg_n_iterations data <> 0%N -> cg (cd_eig_cg_n_iterations data) n A dinv = Some (lo, hi) ->
    usable_estimate n A d (cd_smoothing_range data) lo hi -> 0 < dmax -> (forall i, (i < n)%nat -> nth i d 0 <= dmax) ->
    cheb_gain dmax (interval_low (cd_smoothing_range data) lo (fpos 12 / fpos 10 * hi)) (fpos 12 / fpos 10 * hi) th ->
    smooths n A (cheb_vmult cg autod data n A dinv) th.
  Proof.
    intros data n A d dinv lo hi dmax th LA SA HD HN CG (U1 & U2 & U3) Hd HM Hth.
    set (hi' := fpos 12 / fpos 10 * hi) in *.
    assert (Hhi : 0 < hi') by (apply fmul_pos; auto; apply fdiv_pos; apply fpos_pos).
    destruct (@alpha_ok K data lo hi' Hhi U2) as (A1 & A2).
    change (interval_low (cd_smoothing_range data) lo hi') with (cheb_alpha data lo hi') in Hth. set (alpha := cheb_alpha data lo hi') in *.
    assert (Hth' : th * dmax * ((hi' + alpha) / (1 + 1) * ((hi' + alpha) / (1 + 1))) <= alpha).
    { assert (P4 : 0 < ((1 + 1) * (1 + 1) : K)) by (apply fmul_pos; apply two_pos). apply (@fle_mul_cancel K _ _ _ P4).
      replace ((1 + 1) * (1 + 1) * (th * dmax * ((hi' + alpha) / (1 + 1) * ((hi' + alpha) / (1 + 1))))) with (th * dmax * ((hi' + alpha) * (hi' + alpha))) by (field; apply pos_neq, two_pos).
      exact Hth. }
    assert (Q : exists B, smooths n A B th /\ forall b, cheb_vmult cg autod data n A dinv b = B b).
    { unfold cheb_vmult, cheb_eigenvalues. rewrite (proj2 (N.eqb_neq _ _)) by auto. rewrite CG. fold hi'. fold alpha.
      set (delta := (hi' - alpha) / (1 + 1)). set (theta := (hi' + alpha) / (1 + 1)).
      set (deg := if (cd_degree data =? 2 ^ 32 - 1)%N then _ else _).
      destruct ((deg <? 2)%N || fltb (fabs delta) (cheb_tiny K)).
      - exists (fun b => vscale (1 / theta) (diag_apply dinv b)). split; [|auto].
        apply (@richardson_smooths K n A LA SA d dinv HD hi' alpha) with (dmax := dmax); auto.
      - assert (Hde : 0 < delta). { apply fdiv_pos; [apply flt_sub_0 in A2; auto|apply two_pos]. }
        exists (fun b => cheb_loop (N.to_nat (deg - 1)) A dinv b (theta / delta) delta (delta / theta) (vzero n) (vscale (1 / theta) (diag_apply dinv b))).
        split; [|auto]. apply (@cheb_smooths K n A LA SA d dinv HD hi' alpha) with (dmax := dmax); auto. }
    destruct Q as (B & S & E). intros e He. specialize (S e He). unfold error_step in *. rewrite E. exact S.
  Qed.

  (** Two corrections with the same steps are the same function. *)
  Lemma same_steps : forall n (A B C : vec -> vec), linear n n A -> maps n n B -> maps n n C ->
    (forall b x, length b = n -> length x = n -> correction_step A B b x = correction_step A C b x) -> forall r, length r = n -> B r = C r.
  Proof.
    intros n A B C LA MB MC H r Hr. specialize (H (vscale (- (1)) r) (vzero n) ltac:(vlen) (vzero_length _ _)). unfold correction_step in H.
    rewrite (lin_zero LA) in H. assert (X : vsub (vzero n) (vscale (- (1)) r) = r) by vx. rewrite X in H. pose proof (MB r Hr) as L1. pose proof (MC r Hr) as L2.
    assert (Y : forall z : vec, length z = n -> vsub (vzero n) (vsub (vzero n) z) = z) by (intros z Hz; vx). rewrite <- (Y _ L1), <- (Y _ L2), H. reflexivity.
  Qed.

  Variable accepts_double : string -> bool.
  Variable mk : ptree -> outcome (mat K * mat K).
  Variable ml_vmult : ml_list -> mat K -> vec -> vec.
  Variable eps : K.
  Variable n : nat.
  Variable f : vec -> vec.
  Variable dinv : vec.
  Notation hh := (mf_helpers parse_double cg autod n f dinv accepts_double mk ml_vmult).

  (** Construction and vmult: the two-grid cycle with the Chebyshev smoother. *)
  Lemma mf_two_level : forall te0 dbg p A d lo hi dmax th, is_matrix n f A -> spd n (mulvec A) -> inverse_diagonal n d dinv -> c_levels p = 2%Z ->
    dealii_solver_kind accepts_double p = Ok KDirect -> matrix_free_smoother_kind p = Ok KChebyshev ->
    cg 8%N n f dinv = Some (lo, hi) -> usable_estimate n f d (pt_get parse_double ["smoother"; "smoothing_range"]%string 0 p) lo hi ->
    0 < dmax -> (forall i, (i < n)%nat -> nth i d 0 <= dmax) ->
    cheb_gain dmax (interval_low (pt_get parse_double ["smoother"; "smoothing_range"]%string 0 p) lo (fpos 12 / fpos 10 * hi)) (fpos 12 / fpos 10 * hi) th ->
    pt_find p ["eigensolver"%string] <> None -> pt_find p ["agglomeration"%string] <> None ->
    forall R AP, mk p = Ok (R, AP) -> nc R = n -> full_row_rank R ->
    (if pt_get parse_bool ["fast_ap"%string] false p then meq AP (mmul A (mtrans R)) else no_small_entry eps A R) ->
    exists B, linear n n B /\ self_adjoint n B /\ smooths n (mulvec A) B th /\
    exists h s l, construct hh eps te0 dbg (Ok tt) (Some p) None = (Ok h, s, l) /\
      forall te x b l, open_sections l = [] -> length x = n -> length b = n ->
        exists y l', hierarchy_vmult te h x b l = (Ok y, l') /\ open_sections l' = [] /\
          two_grid A R B (c_steps p) b (if c_prec p then vzero n else x) y.
  Proof.
    intros te0 dbg p A d lo hi dmax th IM S HD HL CK SK CG U Hd HM Hth PE PA R AP EM DR FR PO.
    destruct (@matrix_linear K cg autod eps n f dinv A IM S) as (LF & SF). pose proof IM as (D1 & D2 & D3).
    set (data := mf_cheb_data parse_double p). set (B := cheb_vmult cg autod data n f dinv).
    assert (I8 : cd_eig_cg_n_iterations data <> 0%N) by (unfold data; rewrite iterations_read; discriminate).
    assert (CG' : cg (cd_eig_cg_n_iterations data) n f dinv = Some (lo, hi)) by (unfold data; rewrite iterations_read; exact CG).
    assert (RR : cd_smoothing_range data = pt_get parse_double ["smoother"; "smoothing_range"]%string 0 p) by (unfold data; apply range_read).
    rewrite <- RR in U, Hth.
    destruct (@cheb_vmult_good K cg autod data n f d dinv lo hi LF SF HD I8 CG' U) as (MB & G). fold B in MB, G.
    assert (SB := @cheb_vmult_smooths data n f d dinv lo hi dmax th LF SF HD I8 CG' U Hd HM Hth). fold B in SB.
    destruct G as (C & LC & SC & _ & E4).
    assert (EB : forall r, length r = n -> B r = C r) by (apply (same_steps LF MB (lin_len LC)); exact E4).
    assert (LB : linear n n B).
    { constructor; [exact MB| |].
      - intros x y Hx Hy. rewrite !EB by (auto; vlen). apply (lin_add LC); auto.
      - intros s x Hx. rewrite !EB by (auto; vlen). apply (lin_scale LC); auto. }
    assert (AB : self_adjoint n B) by (intros x y Hx Hy; rewrite !EB by auto; apply SC; auto).
    assert (Lf := lin_len LF).
    assert (SMA : smooths n (mulvec A) B th).
    { intros e He. specialize (SB e He). unfold energy, error_step in *. rewrite <- (D3 e He). assert (L1 := MB _ (Lf e He)). rewrite <- D3 by vlen. exact SB. }
    exists B. split; [exact LB|]. split; [exact AB|]. split; [exact SMA|].
    set (ap := if pt_get parse_bool ["fast_ap"%string] false p then AP else matrix_transpose_matrix_multiply eps n f R).
    assert (EQ : meq ap (mmul A (mtrans R))).
    { unfold ap. destruct (pt_get parse_bool ["fast_ap"%string] false p); auto. apply (@truncated_exact K cg autod eps n f dinv A R); auto. }
    assert (DA : nr A = nc A) by congruence. rewrite <- D2 in LB, AB, SMA, S.
    assert (DRA : nc R = nc A) by congruence.
    set (g := correction_step (mulvec A) B).
    set (Ac := mmul R ap).
    pose proof EQ as (M1 & M2 & M3). cbn [nr nc mmul mtrans] in M1, M2.
    assert (E : forall x, mulvec Ac x = mulvec R (mulvec A (mulTvec R x))).
    { intros x. unfold Ac. rewrite mulvec_mmul by congruence. f_equal. unfold mulTvec. rewrite <- mulvec_mmul by (simpl; congruence).
      apply mulvec_meq. exact EQ. }
    assert (DD1 : nr Ac = nc Ac) by (unfold Ac; simpl; congruence).
    assert (DD2 : nr R = nc Ac) by (unfold Ac; simpl; congruence).
    assert (SAC : spd (nc Ac) (mulvec Ac)).
    { split.
      - apply (@galerkin_sym K A R Ac); auto. exact (proj1 S).
      - apply (@galerkin_pd K A R Ac); auto. exact (proj2 S). }
    assert (LA : linear (nc A) (nc A) (mulvec A)) by (pose proof (mulvec_linear A) as X; rewrite DA in X; exact X).
    set (CS := fun b (_ : vec) => direct_solve Ac b).
    assert (XC : exact_solver Ac CS) by (intros b x Hb _; apply direct_exact; auto).
    set (ds := [mkFine (nc A) (mulvec A) g (mulvec R) (mulTvec R)]).
    set (lv := mkLevel (Some (MfOp n f)) None (Some (smoother_apply (MfOp n f) B)) None).
    eassert (X : exists lc h', built hh eps (c_params p) None (MfOp n f) None [lv; lc] h' /\ describes lv [lc] ds (nc Ac) CS).
    { unfold c_params. rewrite HL. cbn [Z.eqb Pos.eqb].
      eexists (mkLevel (Some (TriOp Ac)) (Some (TriOp R)) None (Some _)), _. split.
      { unfold lv. eapply built_cons with (h1 := None) (r := TriOp R) (h2 := if pt_get parse_bool ["fast_ap"%string] false p then Some (TriOp AP) else None)
          (ap := TriOp ap) (h3 := if pt_get parse_bool ["fast_ap"%string] false p then Some (TriOp AP) else None).
        - cbn [hh_build_smoother mf_helpers]. unfold mf_build_smoother. rewrite SK. reflexivity.
        - cbn [hh_build_restrictor mf_helpers]. unfold host_build_restrictor. destruct (pt_find p ["eigensolver"%string]); [|congruence]. destruct (pt_find p ["agglomeration"%string]); [|congruence].
          rewrite EM. destruct (pt_get parse_bool ["fast_ap"%string] false p); reflexivity.
        - unfold product_from, ap. destruct (pt_get parse_bool ["fast_ap"%string] false p); cbn [hh_fast_multiply_transpose mf_helpers deref]; auto.
          cbn [op_multiply_transpose]. rewrite DR, Nat.eqb_refl. auto.
        - cbn [op_multiply]. replace (nc R =? nr ap)%nat with true by (symmetry; apply Nat.eqb_eq; congruence). reflexivity.
        - constructor. cbn [hh_build_coarse_solver mf_helpers]. unfold host_build_coarse_solver. rewrite CK. reflexivity. }
      eapply describes_fine; simpl; [reflexivity| |reflexivity| |reflexivity| | |].
      - rewrite D2. split; [reflexivity|]. split; [reflexivity|]. intros x y Hx Hy. cbn [op_apply]. rewrite Hx, Hy, Nat.eqb_refl. cbn [andb]. rewrite D3 by auto. split; auto.
        rewrite mulvec_length. auto.
      - rewrite D2. intros b x Hb Hx. destruct (@mf_smoother_acts K n f B Lf MB b x Hb Hx) as (Q1 & Q2). unfold g. unfold correction_step in *. rewrite <- D3 by auto. split; assumption.
      - replace (nc ap) with (nr R) by (symmetry; exact M2). rewrite <- DRA. apply op_acts_tri.
      - replace (nc ap) with (nr R) by (symmetry; exact M2). rewrite <- DRA. apply opT_acts_tri.
      - eapply describes_coarsest; simpl; [reflexivity|reflexivity|reflexivity|].
        intros b x Hb Hx. cbn [nc mmul] in Hb, Hx. rewrite Hb, Hx. replace (nr R) with (nc ap) by exact M2. rewrite !Nat.eqb_refl. simpl. split; auto.
        exact (proj1 (@direct_exact K Ac DD1 SAC b Hb)). }
    destruct X as (lc & h' & X4 & X5).
    destruct (@construct_complete K _ hh eps te0 dbg p None (MfOp n f) None [lv; lc] h') as (l & EC); [lia|reflexivity|rewrite HL; reflexivity|exact X4|].
    eexists _, _, l. split; [exact EC|].
    intros te x b l0 O Hx Hb. rewrite <- D2 in Hx, Hb |- *.
    destruct (describes_sized X5) as (Sz & LCS & _).
    destruct (@vmult_ok K te (mkHierarchy [lv; lc] (c_prec p) (c_steps p)) lv [lc] ds (nc Ac) CS eq_refl X5 (or_intror (le_n 2)) x b l0 O Hb Hx) as (t & l' & N & RL & V).
    cbn [h_n_smoothing_steps h_is_preconditioner] in V. change (top_size ds (nc Ac)) with (nc A) in V.
    set (x0 := if c_prec p then vzero (nc A) else x) in *.
    assert (Hx0 : length x0 = nc A) by (unfold x0; destruct (c_prec p); auto; apply vzero_length).
    eexists _, l'. split; [exact V|]. split.
    { rewrite <- (rev_involutive l'), RL. rewrite rev_app_distr, rev_involutive. unfold trace. destruct (t_present te); auto. rewrite open_nested; auto. }
    rewrite cyc_textbook; auto.
    - cbn [textbook_vcycle ds fS fA fR fP top_size]. set (u := iter (c_steps p) (g b) x0).
      assert (Lg : forall w, length w = nc A -> length (g b w) = nc A).
      { intros w Hw. assert (LA' := lin_len LA w Hw). unfold g, correction_step. assert (Lv : length (vsub (mulvec A w) b) = nc A) by vlen. pose proof (lin_len LB _ Lv). vlen. }
      assert (Lu : length u = nc A).
      { unfold u. clear - Lg Hx0. generalize (c_steps p). revert Hx0. generalize x0. intros z Hz k. revert z Hz. induction k as [|k IH]; intros z Hz; simpl; auto. }
      assert (Lr : length (mulvec R (vsub b (mulvec A u))) = nc Ac) by (rewrite mulvec_length; exact DD2).
      exists (CS (mulvec R (vsub b (mulvec A u))) (vzero (nc Ac))). fold g. fold u.
      destruct (XC _ (vzero (nc Ac)) Lr (vzero_length _ _)) as (Q1 & Q2). split; [congruence|]. split; [rewrite <- E; exact Q2|reflexivity].
    - cbn [linear_levels ds fn fA fS fR fP top_size]. split; [exact LA|]. split; [apply step_linear; auto|]. split; [|split; [|exact I]].
      + rewrite <- DRA, <- DD2. apply mulvec_linear.
      + rewrite <- DRA, <- DD2. apply (mulvec_linear (mtrans R)).
    - apply exact_joint; auto.
  Qed.

  (** The rate of one call. *)
  Lemma mf_rate : forall te0 dbg p A d lo hi dmax th lambda, is_matrix n f A -> spd n (mulvec A) -> inverse_diagonal n d dinv -> (0 < c_steps p)%nat -> c_levels p = 2%Z ->
    dealii_solver_kind accepts_double p = Ok KDirect -> matrix_free_smoother_kind p = Ok KChebyshev ->
    cg 8%N n f dinv = Some (lo, hi) -> usable_estimate n f d (pt_get parse_double ["smoother"; "smoothing_range"]%string 0 p) lo hi ->
    0 < dmax -> (forall i, (i < n)%nat -> nth i d 0 <= dmax) -> 0 <= th ->
    cheb_gain dmax (interval_low (pt_get parse_double ["smoother"; "smoothing_range"]%string 0 p) lo (fpos 12 / fpos 10 * hi)) (fpos 12 / fpos 10 * hi) th ->
    pt_find p ["eigensolver"%string] <> None -> pt_find p ["agglomeration"%string] <> None ->
    forall R AP, mk p = Ok (R, AP) -> nc R = n -> full_row_rank R ->
    (if pt_get parse_bool ["fast_ap"%string] false p then meq AP (mmul A (mtrans R)) else no_small_entry eps A R) ->
    0 < lambda -> approximates A R lambda ->
    exists h s l, construct hh eps te0 dbg (Ok tt) (Some p) None = (Ok h, s, l) /\
      forall te x xs l, open_sections l = [] -> length x = nc A -> length xs = nc A ->
        exists y l', hierarchy_vmult te h x (mulvec A xs) l = (Ok y, l') /\ open_sections l' = [] /\ length y = nc A /\
          energy (mulvec A) (vsub xs y) <= (1 - th * lambda) * (1 - th * lambda) * energy (mulvec A) (vsub xs (if c_prec p then vzero (nc A) else x)).
  Proof.
    intros te0 dbg p A d lo hi dmax th lambda IM S HD HK HL CK SK CG U Hd HM Ht Hth PE PA R AP EM DR FR PO Hl AX.
    destruct (@mf_two_level te0 dbg p A d lo hi dmax th IM S HD HL CK SK CG U Hd HM Hth PE PA R AP EM DR FR PO) as (B & LB & SB & SM & h & s & l & EC & V).
    exists h, s, l. split; [exact EC|]. intros te x xs l0 O Hx Hs. pose proof IM as (D1 & D2 & D3). rewrite D2 in Hx, Hs.
    destruct (V te x (mulvec A xs) l0 O Hx ltac:(rewrite mulvec_length; auto)) as (y & l' & V1 & V2 & V3). rewrite <- D2 in *.
    destruct (@two_grid_rate K A R B th lambda (c_steps p) (mulvec A xs) (if c_prec p then vzero (nc A) else x) y xs) as (Ly & EN); auto.
    - destruct (c_prec p); auto. apply vzero_length.
    - exists y, l'. auto.
  Qed.
End P.
