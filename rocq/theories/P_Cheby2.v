(** The matrix-free smoother object and the matrix-free hierarchy. *)
From Coq Require Import String List Arith ZArith NArith Bool Lia Field.
From Verif Require Import Base OField Mat LinAlg M_Ptree S_Ptree P_Ptree M_Hier M_Smoother M_Host S_Host S_Hier P_Hier P_Hier2 P_HierC P_HierE P_HierS P_HierV P_Smoother P_Host
  M_Cheby S_Cheby P_Poly P_Cheby.
Import ListNotations.
Set Implicit Arguments.
Open Scope list_scope.
Open Scope nat_scope.

Section P.
  Variable K : ofield.
  Add Field KfieldC2 : (f_field K).
  Local Open Scope K_scope.
  Notation vec := (vec K).
  Variable parse_double : string -> option K.
  Variable cg : N -> nat -> (vec -> vec) -> vec -> option (K * K).
  Variable autod : K -> K -> K -> N.

  Lemma range_read : forall p, cd_smoothing_range (mf_cheb_data parse_double p) = pt_get parse_double ["smoother"; "smoothing_range"]%string 0 p.
  Proof.
    intros p. unfold mf_cheb_data, pt_get_optional, pt_get.
    destruct (pt_find p ["smoother"; "degree"]%string) as [c1|]; [destruct (parse_int (pt_data c1))|];
    (destruct (pt_find p ["smoother"; "smoothing_range"]%string) as [c2|]; [destruct (parse_double (pt_data c2))|]);
    (destruct (pt_find p ["smoother"; "max_eigenvalue"]%string) as [c3|]; [destruct (parse_double (pt_data c3))|]); reflexivity.
  Qed.
  Lemma iterations_read : forall p, cd_eig_cg_n_iterations (mf_cheb_data parse_double p) = 8%N.
  Proof.
    intros p. unfold mf_cheb_data, pt_get_optional.
    destruct (pt_find p ["smoother"; "degree"]%string) as [c1|]; [destruct (parse_int (pt_data c1))|];
    (destruct (pt_find p ["smoother"; "smoothing_range"]%string) as [c2|]; [destruct (parse_double (pt_data c2))|]);
    (destruct (pt_find p ["smoother"; "max_eigenvalue"]%string) as [c3|]; [destruct (parse_double (pt_data c3))|]); reflexivity.
  Qed.

  Lemma mf_smoother_acts : forall n (A B : vec -> vec), maps n n A -> maps n n B ->
    bx_acts (smoother_apply (MfOp n A) B) n (correction_step A B).
  Proof.
    intros n A B HA HB b x Hb Hx. unfold smoother_apply, op_apply, bind, correction_step.
    rewrite Hb, Hx, Nat.eqb_refl. simpl andb. cbv iota.
    pose proof (HA x Hx) as LA. rewrite vec_add_sub by congruence.
    assert (L : length (vsub (A x) b) = n) by vlen.
    pose proof (HB _ L) as LB. rewrite vec_add_sub by congruence. split; auto. vlen.
  Qed.

  Lemma fmin_pos : forall a b : K, 0 < a -> 0 < b -> 0 < (if fleb a b then a else b).
  Proof. intros a b Ha Hb. destruct (fleb a b); auto. Qed.
  Lemma nine_tenths : forall q h : K, q + 1 <> 0 -> h - q / (q + 1) * h = h / (q + 1).
  Proof. intros q h N. field. auto. Qed.
  Lemma alpha_ok : forall data (lo hi : K), 0 < hi -> (1 < cd_smoothing_range data \/ 0 < lo) ->
    0 < cheb_alpha data lo hi /\ cheb_alpha data lo hi < hi.
  Proof.
    intros data lo hi Hh H. unfold cheb_alpha. destruct (fltb 1 (cd_smoothing_range data)) eqn:E.
    - apply fltb_lt in E. set (r := cd_smoothing_range data) in *. assert (Hr : 0 < r) by (eapply flt_trans; [apply f0_lt_1|auto]).
      split; [apply fdiv_pos; auto|]. apply flt_sub_0. replace (hi - hi / r) with (hi * (r - 1) / r) by (field; apply pos_neq; auto).
      apply fdiv_pos; auto. apply fmul_pos; auto. apply flt_sub_0 in E. auto.
    - apply fltb_ge in E. destruct H as [H|H]; [exfalso; apply H; auto|].
      assert (P9 : 0 < fpos 9 / fpos 10 * hi) by (apply fmul_pos; auto; apply fdiv_pos; apply fpos_pos).
      assert (L9 : fpos 9 / fpos 10 * hi < hi).
      { apply flt_sub_0. replace (hi - fpos 9 / fpos 10 * hi) with (hi / fpos 10); [apply fdiv_pos; auto; apply fpos_pos|].
        pose proof (pos_neq (@fpos_pos K 10)) as N. assert (T : @fpos K 10 = fpos 9 + 1) by (cbn [fpos]; ring). rewrite T in N |- *. symmetry. apply nine_tenths. exact N. }
      split; [apply fmin_pos; auto|]. destruct (fleb lo _) eqn:E2; auto. apply fleb_le in E2. eapply fle_lt_trans; eauto.
  Qed.

  Lemma cheb_vmult_good : forall data n (A : vec -> vec) d dinv lo hi, linear n n A -> spd n A -> inverse_diagonal n d dinv ->
    cd_eig_cg_n_iterations data <> 0%N -> cg (cd_eig_cg_n_iterations data) n A dinv = Some (lo, hi) ->
    usable_estimate n A d (cd_smoothing_range data) lo hi ->
    maps n n (cheb_vmult cg autod data n A dinv) /\ good_smoother n A (correction_step A (cheb_vmult cg autod data n A dinv)).
  Proof.
    intros data n A d dinv lo hi LA SA HD HN CG (U1 & U2 & U3).
    set (hi' := fpos 12 / fpos 10 * hi) in *.
    assert (Hhi : 0 < hi') by (apply fmul_pos; auto; apply fdiv_pos; apply fpos_pos).
    destruct (@alpha_ok data lo hi' Hhi U2) as (A1 & A2). set (alpha := cheb_alpha data lo hi') in *.
    assert (Q : exists B, good_smoother n A (correction_step A B) /\ maps n n B /\ forall b, cheb_vmult cg autod data n A dinv b = B b).
    { unfold cheb_vmult, cheb_eigenvalues. rewrite (proj2 (N.eqb_neq _ _)) by auto. rewrite CG. fold hi'. fold alpha.
      set (delta := (hi' - alpha) / (1 + 1)). set (theta := (hi' + alpha) / (1 + 1)).
      set (deg := if (cd_degree data =? 2 ^ 32 - 1)%N then _ else _).
      assert (HL : maps n n (fun b => vscale (1 / theta) (diag_apply dinv b))).
      { intros b Hb. rewrite vscale_length. apply (lin_len (diag_linear HD)); auto. }
      destruct ((deg <? 2)%N || fltb (fabs delta) (cheb_tiny K)).
      - exists (fun b => vscale (1 / theta) (diag_apply dinv b)). split; [|split; [exact HL|auto]].
        apply (@richardson_good K n A LA SA d dinv HD hi' alpha); auto.
      - assert (Hde : 0 < delta). { apply fdiv_pos; [apply flt_sub_0 in A2; auto|apply two_pos]. }
        exists (fun b => cheb_loop (N.to_nat (deg - 1)) A dinv b (theta / delta) delta (delta / theta) (vzero n) (vscale (1 / theta) (diag_apply dinv b))).
        split; [apply (@cheb_good K n A LA SA d dinv HD hi' alpha); auto|]. split; [|auto].
        intros b Hb. generalize (N.to_nat (deg - 1)) as k. generalize (delta / theta) as rho.
        assert (G : forall k rho xo x, length xo = n -> length x = n -> length (cheb_loop k A dinv b (theta / delta) delta rho xo x) = n).
        { induction k; intros rho xo x Ho Hx; cbn [cheb_loop]; auto. apply IHk; auto.
          pose proof (lin_len LA x Hx). assert (length (diag_apply dinv (vsub b (A x))) = n) by (apply (lin_len (diag_linear HD)); vlen). vlen. }
        intros rho k. apply G; [vlen|]. apply HL; auto. }
    destruct Q as (B & (C & C1 & C2 & C3 & C4) & MB & E). split.
    - intros b Hb. rewrite E. auto.
    - exists C. split; [|split; [|split]]; auto. intros b x Hb Hx. rewrite <- C4 by auto. unfold correction_step. rewrite E. auto.
  Qed.

  Lemma smoother_get : forall p n (A : vec -> vec) d dinv lo hi, linear n n A -> spd n A -> inverse_diagonal n d dinv ->
    matrix_free_smoother_kind p = Ok KChebyshev -> cg 8 n A dinv = Some (lo, hi) ->
    usable_estimate n A d (pt_get parse_double ["smoother"; "smoothing_range"]%string 0 p) lo hi ->
    exists s f, mf_build_smoother parse_double cg autod dinv (MfOp n A) p = Ok s /\ bx_acts s n f /\ good_smoother n A f.
  Proof.
    intros p n A d dinv lo hi LA SA HD KS CG U. unfold mf_build_smoother. rewrite KS. cbn [bind].
    set (data := mf_cheb_data parse_double p).
    destruct (@cheb_vmult_good data n A d dinv lo hi) as (M & G); auto.
    - unfold data. rewrite iterations_read. discriminate.
    - unfold data. rewrite iterations_read. exact CG.
    - unfold data. rewrite range_read. exact U.
    - eexists _, _. split; [reflexivity|]. split; [|exact G]. apply mf_smoother_acts; auto. exact (lin_len LA).
  Qed.

  (** *** The two level hierarchy *)
  Variable accepts_double : string -> bool.
  Variable mk : ptree -> outcome (mat K * mat K).
  Variable ml_vmult : ml_list -> mat K -> vec -> vec.
  Variable eps : K.
  Variable n : nat.
  Variable f : vec -> vec.
  Variable dinv : vec.
  Notation hh := (mf_helpers parse_double cg autod n f dinv accepts_double mk ml_vmult).

  Lemma truncated_exact : forall A R : mat K, is_matrix n f A -> nc R = n -> no_small_entry eps A R ->
    meq (matrix_transpose_matrix_multiply eps n f R) (mmul A (mtrans R)).
  Proof.
    intros A R (D1 & D2 & D3) DR NS. split; [symmetry; exact D1|]. split; [reflexivity|]. intros i j Hi Hj.
    cbn [nr nc matrix_transpose_matrix_multiply] in Hi, Hj. cbn [ent matrix_transpose_matrix_multiply]. cbv zeta.
    assert (LR : length (row R j) = n) by (rewrite <- DR; unfold row; vlen).
    rewrite D3 by auto.
    assert (V : nth i (mulvec A (row R j)) 0 = ent (mmul A (mtrans R)) i j).
    { rewrite nth_mulvec by lia. cbn [ent mmul mtrans]. apply sumn_ext. intros k Hk. f_equal. unfold row. rewrite D2, <- DR in Hk.
      rewrite (nth_indep _ 0 (ent R j 0%nat)) by vlen. rewrite (map_nth (fun j0 => ent R j j0) (seq 0 (nc R)) 0%nat k). rewrite seq_nth by auto. reflexivity. }
    rewrite V. destruct (NS i j ltac:(lia) Hj) as [Z|Z].
    - rewrite Z. destruct (fltb eps (fabs 0)); auto.
    - apply fltb_lt in Z. rewrite Z. auto.
  Qed.

  Lemma matrix_linear : forall A, is_matrix n f A -> spd n (mulvec A) -> linear n n f /\ spd n f.
  Proof.
    intros A (D1 & D2 & D3) (S1 & S2). pose proof (mulvec_linear A) as L. rewrite D1, D2 in L. split; [constructor|split].
    - intros x Hx. rewrite D3 by auto. apply (lin_len L); auto.
    - intros x y Hx Hy. rewrite !D3 by (auto; vlen). apply (lin_add L); auto.
    - intros s x Hx. rewrite !D3 by (auto; vlen). apply (lin_scale L); auto.
    - intros x y Hx Hy. rewrite !D3 by auto. apply S1; auto.
    - intros x Hx N. unfold energy. rewrite D3 by auto. apply S2; auto.
  Qed.
  Lemma good_matrix : forall A g, is_matrix n f A -> good_smoother n f g -> good_smoother n (mulvec A) g.
  Proof.
    intros A g (D1 & D2 & D3) (B & B1 & B2 & B3 & B4). exists B. split; [|split; [|split]]; auto.
    - intros r Hr N. rewrite <- D3 by (apply (lin_len B1); auto). apply B3; auto.
    - intros b x Hb Hx. rewrite B4 by auto. unfold correction_step. rewrite D3; auto.
  Qed.

  Lemma mf_end_to_end : forall te0 dbg p A d lo hi, is_matrix n f A -> spd n (mulvec A) -> inverse_diagonal n d dinv ->
    c_prec p = true -> (0 < c_steps p)%nat -> c_levels p = 2%Z ->
    dealii_solver_kind accepts_double p = Ok KDirect -> matrix_free_smoother_kind p = Ok KChebyshev ->
    cg 8 n f dinv = Some (lo, hi) -> usable_estimate n f d (pt_get parse_double ["smoother"; "smoothing_range"]%string 0 p) lo hi ->
    pt_find p ["eigensolver"%string] <> None -> pt_find p ["agglomeration"%string] <> None ->
    forall R AP, mk p = Ok (R, AP) -> nc R = n -> (forall x, length x = nr R -> mulTvec R x = vzero (nc R) -> x = vzero (nr R)) ->
    (if pt_get parse_bool ["fast_ap"%string] false p then meq AP (mmul A (mtrans R)) else no_small_entry eps A R) ->
    exists h s l, construct hh eps te0 dbg (Ok tt) (Some p) None = (Ok h, s, l) /\
      exists Mv : vec -> vec, linear n n Mv /\ self_adjoint n Mv /\
        (forall b, length b = n -> b <> vzero n -> 0 < dot (Mv b) b) /\
        (forall e, length e = n -> e <> vzero n -> energy f (vsub e (Mv (f e))) < energy f e) /\
        forall te x b l, open_sections l = [] -> length x = n -> length b = n ->
          exists l', hierarchy_vmult te h x b l = (Ok (Mv b), l') /\ open_sections l' = [].
  Proof.
    intros te0 dbg p A d lo hi IM S HD HP HK HL CK SK CG U PE PA R AP EM DR FR PO.
    destruct (matrix_linear IM S) as (LF & SF). pose proof IM as (D1 & D2 & D3).
    destruct (smoother_get p LF SF HD SK CG U) as (sm & g & SM & AC & GS).
    pose proof (good_matrix IM GS) as GM.
    set (ap := if pt_get parse_bool ["fast_ap"%string] false p then AP else matrix_transpose_matrix_multiply eps n f R).
    assert (EQ : meq ap (mmul A (mtrans R))).
    { unfold ap. destruct (pt_get parse_bool ["fast_ap"%string] false p); auto. apply truncated_exact; auto. }
    assert (DA : nr A = nc A) by congruence.
    assert (S' : spd (nc A) (mulvec A)) by (rewrite D2; auto).
    assert (GM' : good_smoother (nc A) (mulvec A) g) by (rewrite D2; auto).
    assert (DR' : nc R = nc A) by congruence.
    destruct (@two_level_chain K A R ap g DA S' GM' DR' FR EQ) as (CH & E1 & SC).
    set (Ac := mmul R ap) in *.
    assert (NAP : nc ap = nr R) by exact (proj1 (proj2 EQ)).
    assert (NAP1 : nr ap = n) by (rewrite (proj1 EQ); exact D1).
    set (lv := mkLevel (Some (MfOp n f)) None (Some sm) None).
    set (solver := fun b x : vec => if ((length b =? nr Ac) && (length x =? nc Ac))%nat then Ok (direct_solve Ac b) else UB).
    set (lc := mkLevel (Some (TriOp Ac)) (Some (TriOp R)) None (Some solver)).
    set (ds := [mkFine (nc A) (mulvec A) g (mulvec R) (mulTvec R)]) in *.
    assert (BU : built hh eps (c_params p) None (MfOp n f) None [lv; lc]
      (if pt_get parse_bool ["fast_ap"%string] false p then Some (TriOp AP) else None)).
    { unfold c_params. rewrite HL. cbn [Z.eqb Pos.eqb].
      eapply built_cons with (h1 := None) (r := TriOp R) (h2 := if pt_get parse_bool ["fast_ap"%string] false p then Some (TriOp AP) else None)
        (ap := TriOp ap) (h3 := if pt_get parse_bool ["fast_ap"%string] false p then Some (TriOp AP) else None).
      - cbn [hh_build_smoother mf_helpers]. rewrite SM. reflexivity.
      - cbn [hh_build_restrictor mf_helpers]. unfold host_build_restrictor. destruct (pt_find p ["eigensolver"%string]); [|congruence]. destruct (pt_find p ["agglomeration"%string]); [|congruence].
        rewrite EM. destruct (pt_get parse_bool ["fast_ap"%string] false p); reflexivity.
      - unfold product_from, ap. destruct (pt_get parse_bool ["fast_ap"%string] false p); cbn [hh_fast_multiply_transpose mf_helpers deref]; auto.
        cbn [op_multiply_transpose]. rewrite DR, Nat.eqb_refl. auto.
      - cbn [op_multiply]. rewrite NAP1, DR, Nat.eqb_refl. reflexivity.
      - constructor. cbn [hh_build_coarse_solver mf_helpers]. unfold host_build_coarse_solver. rewrite CK. reflexivity. }
    assert (DE : describes lv [lc] ds (nc Ac) (fun b _ => direct_solve Ac b)).
    { eapply describes_fine; simpl; [reflexivity| |reflexivity| |reflexivity| | |].
      - rewrite D2. split; [reflexivity|]. split; [reflexivity|]. intros x y Hx Hy. cbn [op_apply]. rewrite Hx, Hy, Nat.eqb_refl. cbn [andb]. rewrite D3 by auto. split; auto.
        rewrite mulvec_length. auto.
      - rewrite D2. exact AC.
      - rewrite NAP, <- DR'. apply op_acts_tri.
      - rewrite NAP, <- DR'. apply opT_acts_tri.
      - eapply describes_coarsest; simpl; [reflexivity|reflexivity|reflexivity|].
        intros b x Hb Hx. unfold solver. rewrite Hb, Hx. change (nr Ac) with (nr R). change (nc Ac) with (nc ap). rewrite NAP, !Nat.eqb_refl. simpl. split; auto.
        assert (Hb' : length b = nc Ac) by exact Hb. rewrite (proj1 (@direct_exact K Ac E1 SC b Hb')). exact NAP. }
    assert (X7 : exact_solver Ac (fun b _ => direct_solve Ac b)) by (intros b x Hb _; apply direct_exact; auto).
    destruct (@construct_complete K _ hh eps te0 dbg p None (MfOp n f) None [lv; lc] _ ltac:(rewrite HL; lia) eq_refl ltac:(rewrite HL; reflexivity) BU) as (l & E).
    eexists _, _, l. split; [exact E|].
    destruct (describes_sized DE) as (Sz & _ & _).
    destruct (@spd_cycle K (c_steps p) ds A Ac (fun b _ => direct_solve Ac b) CH X7 E1 SC Sz HK) as (M1 & M2 & M3 & M4).
    rewrite D2 in *.
    exists (fun b => cyc (c_steps p) ds (nc Ac) (fun b _ => direct_solve Ac b) b (vzero n)). do 3 (split; [assumption|]). split.
    { intros e He N. unfold energy. assert (LE : length (f e) = n) by (apply (lin_len LF); auto). rewrite D3.
      - rewrite !D3 by auto. rewrite !D3 in LE by auto. apply (M4 e He N).
      - rewrite D3 by auto. pose proof (lin_len M1 (mulvec A e) ltac:(rewrite <- D3; auto)) as LM. cbv beta in LM. vlen. }
    intros te x b l0 O Hx Hb.
    destruct (chain_top _ _ _ _ _ CH) as (T1 & T2).
    destruct (@vmult_ok K te (mkHierarchy [lv; lc] (c_prec p) (c_steps p)) lv [lc] ds (nc Ac) (fun b _ => direct_solve Ac b) eq_refl DE ltac:(right; simpl; lia) x b l0 O) as (t & l' & NN & RR & V); try congruence.
    cbn [h_n_smoothing_steps h_is_preconditioner] in V. rewrite HP, T1, D2 in V. exists l'. rewrite HP. split; auto.
    rewrite <- (rev_involutive l'), RR. rewrite rev_app_distr, rev_involutive. unfold trace. destruct (t_present te); auto.
    rewrite open_nested; auto.
  Qed.

  (** No other number of levels can be built. *)
  Lemma mf_two_levels_only : forall te0 dbg created params h0 h s l,
    construct hh eps te0 dbg created params h0 = (Ok h, s, l) -> length (h_levels h) = 2%nat.
  Proof.
    intros te0 dbg created [p|] h0 h s l E.
    2:{ exfalso. unfold construct in E. unfold cbind at 1 in E. unfold ctimer at 1 in E. rewrite enter_setup in E.
        unfold cbind at 1 in E. unfold clift at 1 in E. destruct created; try discriminate E. }
    destruct (@construct_spec K _ hh eps te0 dbg created p h0) as (r & s' & l' & E' & H). rewrite E in E'. inversion E'; subst r s' l'; clear E'.
    destruct H as (_ & _ & _ & _ & _ & _ & _ & (a & h1 & G & B) & _).
    cbn [hh_get_global_operator mf_helpers] in G. inversion G; subst a h1; clear G.
    inversion B; subst.
    - match goal with H : hh_build_coarse_solver _ _ _ _ = _ |- _ => cbn [hh_build_coarse_solver mf_helpers host_build_coarse_solver] in H; inversion H end.
    - match goal with H : built _ _ _ (Some _) _ _ _ _ |- _ => rename H into B2 end.
      match goal with H : op_multiply r ap = Ok ac |- _ => rename H into EM end.
      assert (TR : exists M, ac = TriOp M).
      { destruct r as [Rm|]; cbn [op_multiply] in EM; [|discriminate]. destruct ap as [Pm|]; [|discriminate]. destruct (Nat.eqb _ _); [|discriminate]. inversion EM. eauto. }
      destruct TR as (M & ->). inversion B2; subst; [cbn [length]; auto|]. exfalso.
      match goal with H : hh_build_smoother _ (TriOp M) _ _ = _ |- _ => cbn [hh_build_smoother mf_helpers] in H; unfold mf_build_smoother in H;
        destruct (matrix_free_smoother_kind (c_params p)); cbn [bind] in H; inversion H end.
  Qed.

  (** What is built without fast_ap, for any operator. *)
  Lemma mf_built : forall te0 dbg p, c_levels p = 2%Z ->
    dealii_solver_kind accepts_double p = Ok KDirect -> matrix_free_smoother_kind p = Ok KChebyshev ->
    pt_find p ["eigensolver"%string] <> None -> pt_find p ["agglomeration"%string] <> None ->
    forall R AP, mk p = Ok (R, AP) -> nc R = n -> pt_get parse_bool ["fast_ap"%string] false p = false ->
    exists h s l lv lc, construct hh eps te0 dbg (Ok tt) (Some p) None = (Ok h, s, l) /\ h_levels h = [lv; lc] /\
      lv_op lc = Some (TriOp (mmul R (matrix_transpose_matrix_multiply eps n f R))).
  Proof.
    intros te0 dbg p HL CK SK PE PA R AP EM DR FF. set (ap := matrix_transpose_matrix_multiply eps n f R). set (Ac := mmul R ap).
    set (sm := smoother_apply (MfOp n f) (cheb_vmult cg autod (mf_cheb_data parse_double p) n f dinv)).
    set (lv := mkLevel (Some (MfOp n f)) None (Some sm) None).
    set (solver := fun b x : vec => if ((length b =? nr Ac) && (length x =? nc Ac))%nat then Ok (direct_solve Ac b) else UB).
    set (lc := mkLevel (Some (TriOp Ac)) (Some (TriOp R)) None (Some solver)).
    assert (BU : built hh eps (c_params p) None (MfOp n f) None [lv; lc] None).
    { unfold c_params. rewrite HL. cbn [Z.eqb Pos.eqb].
      eapply built_cons with (h1 := None) (r := TriOp R) (h2 := None) (ap := TriOp ap) (h3 := None).
      - cbn [hh_build_smoother mf_helpers]. unfold mf_build_smoother. rewrite SK. reflexivity.
      - cbn [hh_build_restrictor mf_helpers]. unfold host_build_restrictor. destruct (pt_find p ["eigensolver"%string]); [|congruence]. destruct (pt_find p ["agglomeration"%string]); [|congruence].
        rewrite EM, FF. reflexivity.
      - unfold product_from. rewrite FF. cbn [op_multiply_transpose]. rewrite DR, Nat.eqb_refl. auto.
      - cbn [op_multiply]. rewrite DR. change (nr ap) with n. rewrite Nat.eqb_refl. reflexivity.
      - constructor. cbn [hh_build_coarse_solver mf_helpers]. unfold host_build_coarse_solver. rewrite CK. reflexivity. }
    destruct (@construct_complete K _ hh eps te0 dbg p None (MfOp n f) None [lv; lc] _ ltac:(rewrite HL; lia) eq_refl ltac:(rewrite HL; reflexivity) BU) as (l & E).
    eexists _, _, l, lv, lc. split; [exact E|]. split; reflexivity.
  Qed.
End P.

Section Scale.
  Variable K : ofield.
  Add Field KfieldC3 : (f_field K).
  Local Open Scope K_scope.
  Lemma sumn_term : forall n (g : nat -> K) i, (forall j, (j < n)%nat -> 0 <= g j) -> (i < n)%nat -> g i <= sumn n g.
  Proof.
    induction n; intros g i H Hi; [lia|]. cbn [sumn]. destruct (Nat.eq_dec i n) as [->|Ne].
    - replace (g n) with (0 + g n) at 1 by ring. apply fle_add2; [apply sumn_nonneg; intros; apply H; lia|apply fle_refl].
    - replace (g i) with (g i + 0) by ring. apply fle_add2; [apply IHn; [intros; apply H; lia|lia]|apply H; lia].
  Qed.
  Lemma fabs_scale : forall s x : K, 0 <= s -> fabs (s * x) = s * fabs x.
  Proof.
    intros s x Hs. unfold fabs. destruct (fleb 0 x) eqn:E.
    - apply fleb_le in E. rewrite (proj2 (fleb_le K 0 (s * x))); auto. apply fle_mul; auto.
    - apply fleb_gt in E. destruct (fleb 0 (s * x)) eqn:E2; [|ring]. apply fleb_le in E2.
      assert (Z : 0 <= s * - x) by (apply fle_mul; auto; apply fle_opp_0; apply flt_le; auto).
      assert (Z2 : s * x = 0). { apply fle_antisym; auto. replace (s * x) with (- (s * - x)) by ring. replace (0 : K) with (- (0) : K) by ring. apply fle_opp; auto. }
      transitivity (s * x); auto. replace (s * - x) with (- (s * x)) by ring. rewrite Z2. ring.
  Qed.
  (** A factor so small that nothing is kept. *)
  Lemma scale_kills : forall (eps : K) (A R : mat K), 0 < eps -> nr A = nc A -> nc R = nc A -> exists s, 0 < s /\
    zero_matrix (matrix_transpose_matrix_multiply eps (nc A) (mulvec (scaled s A)) R).
  Proof.
    intros eps A R He D DR. set (W := sumn (nr A) (fun i => sumn (nr R) (fun j => fabs (nth i (mulvec A (row R j)) 0)))).
    assert (HW : 0 <= W) by (apply sumn_nonneg; intros; apply sumn_nonneg; intros; apply fabs_nonneg).
    assert (P : 0 < 1 + W) by (apply fadd_pos; [apply f0_lt_1|auto]).
    exists (eps / (1 + W)). set (s := eps / (1 + W)). assert (Hs : 0 < s) by (apply fdiv_pos; auto). split; auto.
    intros i j Hi Hj. cbn [nr nc ent matrix_transpose_matrix_multiply] in *.
    assert (V : nth i (mulvec (scaled s A) (row R j)) 0 = s * nth i (mulvec A (row R j)) 0).
    { rewrite !nth_mulvec by (cbn [nr scaled]; lia). cbn [nc ent scaled]. rewrite <- sumn_scale. apply sumn_ext. intros k Hk. ring. }
    rewrite V, fabs_scale by (apply flt_le; auto).
    assert (L : fabs (nth i (mulvec A (row R j)) 0) <= W).
    { eapply fle_trans; [|apply (@sumn_term (nr A) (fun i => sumn (nr R) (fun j => fabs (nth i (mulvec A (row R j)) 0))) i); [intros; apply sumn_nonneg; intros; apply fabs_nonneg|lia]].
      cbv beta. apply (@sumn_term (nr R) (fun j => fabs (nth i (mulvec A (row R j)) 0)) j); auto. intros. apply fabs_nonneg. }
    set (v := fabs (nth i (mulvec A (row R j)) 0)) in *.
    assert (Q : fltb eps (s * v) = false).
    { apply fltb_ge. apply fle_trans with (s * (1 + W)).
      - apply fle_mul_l; [apply flt_le; auto|]. replace v with (0 + v) by ring. apply fle_add2; auto. apply f0_le_1.
      - unfold s. replace (eps / (1 + W) * (1 + W)) with eps by (field; apply pos_neq; auto). apply fle_refl. }
    rewrite Q. auto.
  Qed.
  Lemma scaled_spd : forall s (A : mat K), 0 < s -> nr A = nc A -> spd (nc A) (mulvec A) -> spd (nc A) (mulvec (scaled s A)).
  Proof.
    intros s A Hs D (S1 & S2).
    assert (E : forall x, mulvec (scaled s A) x = vscale s (mulvec A x)).
    { intros x. apply vec_ext; [rewrite vscale_length, !mulvec_length; auto|]. intros i Hi. rewrite mulvec_length in Hi. cbn [nr scaled] in Hi.
      rewrite nth_vscale, !nth_mulvec by (cbn [nr scaled]; lia). cbn [nc ent scaled]. rewrite <- sumn_scale. apply sumn_ext. intros k Hk. ring. }
    split.
    - intros x y Hx Hy. rewrite !E, dot_scale_l, dot_scale_r. f_equal. apply S1; auto.
    - intros x Hx N. unfold energy. rewrite E, dot_scale_l. apply fmul_pos; auto. apply S2; auto.
  Qed.
End Scale.
