(** The cycle for every mode of the timer. *)
From Coq Require Import String List Arith ZArith Bool Lia.
From Verif Require Import Base OField Mat LinAlg M_Ptree S_Ptree P_Ptree M_Hier S_Hier P_Hier P_Hier2 P_HierC P_HierE P_HierS.
Import ListNotations.
Set Implicit Arguments.
Open Scope list_scope.
Open Scope nat_scope.

Lemma cycle_log_nested : forall r, nested (rev (cycle_log r)).
Proof.
  induction r; simpl; [apply nested_one|]. rewrite rev_app_distr. simpl. apply nested_sec; [auto|constructor].
Qed.
Lemma rev_tlog : forall te r, rev (tlog te (cycle_log r)) = trace te (rev (cycle_log r)).
Proof. intros. unfold tlog, trace. destruct (t_present te); auto. Qed.
Lemma open_nested : forall t, nested t -> forall k, open_sections (rev t ++ k) = open_sections k.
Proof.
  induction 1 as [|s t1 t2 N1 I1 N2 I2]; intros k; simpl; auto. rewrite rev_app_distr. simpl. rewrite <- !app_assoc. simpl.
  rewrite I2. simpl. rewrite I1. auto.
Qed.
Lemma open_cycle_log : forall r k, open_sections (cycle_log r ++ k) = open_sections k.
Proof. intros. rewrite <- (rev_involutive (cycle_log r)). apply open_nested, cycle_log_nested. Qed.

Section V.
  Variable K : ofield.
  Local Open Scope K_scope.
  Notation vec := (vec K).

  Lemma vmult_ok : forall te (h : hierarchy K) lv rest ds nc C, h_levels h = lv :: rest -> describes lv rest ds nc C ->
    usable te (length (h_levels h)) ->
    forall x b l, open_sections l = [] -> length b = top_size ds nc -> length x = top_size ds nc ->
    exists t l', nested t /\ rev l' = rev l ++ trace te t /\
      hierarchy_vmult te h x b l =
        (Ok (cyc (h_n_smoothing_steps h) ds nc C b (if h_is_preconditioner h then vzero (top_size ds nc) else x)), l').
  Proof.
    intros te h lv rest ds nc C EL D U x b l O Hb Hx. unfold hierarchy_vmult, hierarchy_apply. rewrite EL in *.
    exists (Enter SApply :: rev (cycle_log (length rest)) ++ [Leave]).
    assert (E : timer_enter te SApply l = (Ok tt, opn te SApply l)).
    { unfold timer_enter, opn. rewrite O. simpl. rewrite andb_false_r. destruct (t_present te); auto. }
    unfold pbind. rewrite E.
    assert (A : apply_levels te (h_is_preconditioner h) (h_n_smoothing_steps h) true lv rest b x (opn te SApply l) =
      (Ok (cyc (h_n_smoothing_steps h) ds nc C b (if h_is_preconditioner h then vzero (top_size ds nc) else x)),
       tlog te (cycle_log (length rest)) ++ opn te SApply l)).
    { destruct U as [Q|U].
      - rewrite (@apply_levels_ok K te _ _ lv rest ds nc C D Q true b x) by auto. cbn [negb orb]. auto.
      - apply apply_levels_debug_ok; auto; [simpl in U; lia| |]; unfold opn; destruct (t_present te); simpl; rewrite O; auto. }
    rewrite A. unfold timer_leave, pret.
    assert (N : nested (Enter SApply :: rev (cycle_log (length rest)) ++ [Leave])) by (apply nested_sec; [apply cycle_log_nested|constructor]).
    unfold tlog, opn, trace. destruct (t_present te).
    - rewrite open_cycle_log. cbn [open_sections].
      eexists. split; [exact N|]. split; [|reflexivity]. cbn [rev]. rewrite rev_app_distr. cbn [rev app]. rewrite <- !app_assoc. auto.
    - eexists. split; [exact N|]. split; [|reflexivity]. rewrite app_nil_r. auto.
  Qed.

  (** With three or more levels, a timer, and deal.II in debug mode, the cycle always aborts. *)
  Lemma vmult_debug_aborts : forall te (h : hierarchy K) lv lc lc2 rest ds nc C, h_levels h = lv :: lc :: lc2 :: rest ->
    describes lv (lc :: lc2 :: rest) ds nc C -> t_present te = true -> t_debug te = true ->
    forall x b l, open_sections l = [] -> length b = top_size ds nc -> length x = top_size ds nc ->
    exists l', hierarchy_vmult te h x b l = (Abort, l') /\ open_sections l' = [SFine; SApply].
  Proof.
    intros te h lv lc lc2 rest ds nc C EL D TP TD x b l O Hb Hx. unfold hierarchy_vmult, hierarchy_apply. rewrite EL.
    unfold pbind at 1. unfold timer_enter at 1. rewrite TP, O. cbn [existsb]. rewrite andb_false_r.
    inversion D as [|lv' lc' rest' a s r d ds' nc' C' H1 H2 H3 H4 H5 H6 H7 H8]; subst. cbn [top_size] in *.
    set (prec := h_is_preconditioner h). set (k := h_n_smoothing_steps h).
    set (lc_rest := lc2 :: rest) in *. cbn [apply_levels]. rewrite map_zero, Hx. cbn [negb orb].
    set (x0 := if prec then vzero (fn d) else x).
    assert (Hx0 : length x0 = fn d) by (unfold x0; destruct prec; auto; apply vzero_length).
    destruct (describes_sized H8) as (Z1 & Z2 & (ac & Z3 & Z4)).
    destruct H2 as (A1 & A2 & A3). destruct H6 as (R1 & R2 & R3).
    unfold pbind at 1. unfold pbind at 1. unfold timer_enter at 1. rewrite TP. cbn [open_sections existsb]. rewrite O. cbn [section_eqb existsb orb]. rewrite andb_false_r.
    destruct (@smooth_loop_ok K k s (fS d) (fn d) b x0 H4 Hb Hx0) as (S1 & S2).
    rewrite (pbind_plift (a := iter k (fS d b) x0)) by (rewrite H3; auto).
    rewrite (pbind_plift (a := vzero (fn d))) by (unfold build_vector; rewrite H1; simpl; rewrite A1; auto).
    rewrite (pbind_plift (a := a)) by (rewrite H1; auto).
    destruct (A3 (iter k (fS d b) x0) (vzero (fn d)) S2 (vzero_length _ _)) as (A4 & A5).
    rewrite (pbind_plift (a := fA d (iter k (fS d b) x0))) by auto.
    set (x1 := iter k (fS d b) x0) in *.
    rewrite (pbind_plift (a := vsub (fA d x1) b)) by (apply vec_add_sub; congruence).
    assert (L2 : length (vsub (fA d x1) b) = fn d) by (rewrite vsub_length; lia).
    rewrite (pbind_plift (a := vzero (top_size ds' nc))) by (unfold build_vector; rewrite Z3; simpl; rewrite Z4; auto).
    rewrite (pbind_plift (a := r)) by (rewrite H5; auto).
    destruct (R3 (vsub (fA d x1) b) (vzero (top_size ds' nc)) L2 (vzero_length _ _)) as (R4 & R5).
    rewrite (pbind_plift (a := fR d (vsub (fA d x1) b))) by auto.
    rewrite (pbind_plift (a := vzero (top_size ds' nc))) by (unfold build_vector; rewrite Z3; simpl; rewrite Z4; auto).
    unfold pbind at 1. unfold lc_rest. cbn [apply_levels]. unfold pbind at 1. unfold timer_enter at 1. rewrite TP, TD. cbn [open_sections existsb section_eqb orb andb].
    eexists. split; [reflexivity|]. cbn [open_sections]. rewrite O. auto.
  Qed.

  (** Whether there is a timer, and in which mode, does not change what the constructor returns. *)
  Section Timer.
    Variable H : Type.
    Variable hh : helpers K H.
    Variable eps : K.
    Lemma setup_levels_timer : forall te1 te2 prec todo pre ro a h p l1 l2, clean l1 -> clean l2 ->
      fst (setup_levels hh eps te1 prec (S todo) (length pre) (mkCstate (pre ++ mkLevel (Some a) ro None None :: repeat level0 todo) h p) l1) =
      fst (setup_levels hh eps te2 prec (S todo) (length pre) (mkCstate (pre ++ mkLevel (Some a) ro None None :: repeat level0 todo) h p) l2).
    Proof.
      intros te1 te2 prec. induction todo as [|todo IH]; intros pre ro a h p l1 l2 C1 C2.
      - cbn [setup_levels repeat]. rewrite !(@setup_coarsest_eq K H hh _ prec _ h p _ _ (mkLevel (Some a) ro None None) a) by (auto; apply nth_app0).
        cbv zeta. destruct (hh_build_coarse_solver hh a _ h) as [[]]; auto.
      - change (setup_levels hh eps ?te prec (S (S todo)) (length pre)) with
          (cbind (setup_fine hh eps te (length pre)) (fun _ => setup_levels hh eps te prec (S todo) (S (length pre)))).
        cbn [repeat]. unfold cbind.
        rewrite !(@setup_fine_eq K H hh eps _ _ h p (length pre) _ (mkLevel (Some a) ro None None) a level0) by (auto; first [apply nth_app0|apply nth_app1]).
        destruct (hh_build_smoother hh a p h) as [[sm| | | |] h1]; auto. cbv zeta.
        destruct (hh_build_restrictor hh p h1) as [[r| | | |] h2]; auto.
        destruct (ap_call hh eps p a r h2) as [[ap| | | |] h3]; auto.
        destruct (op_multiply r ap) as [ac| | | |]; auto.
        rewrite upd_app, !upd_app1. unfold set_smoother, set_operator, set_restrictor, level0. cbn [lv_op lv_restrictor lv_smoother lv_solver].
        specialize (IH (pre ++ [mkLevel (Some a) ro (Some sm) None]) (Some r) ac h3 p
          (sec te1 SBuildMatrix (sec te1 (ap_sec p) (sec te1 SBuildRestrictor (sec te1 SBuildSmoother l1))))
          (sec te2 SBuildMatrix (sec te2 (ap_sec p) (sec te2 SBuildRestrictor (sec te2 SBuildSmoother l2))))).
        rewrite app_length in IH. cbn [length] in IH. rewrite Nat.add_1_r in IH. rewrite <- app_assoc in IH. cbn [app] in IH.
        apply IH; repeat apply clean_sec; auto.
    Qed.
    Lemma construct_timer : forall te1 te2 dbg created params h0,
      fst (construct hh eps te1 dbg created params h0) = fst (construct hh eps te2 dbg created params h0).
    Proof.
      intros te1 te2 dbg created params h0.
      destruct params as [p|].
      2:{ unfold construct. unfold cbind at 1. unfold ctimer at 1. rewrite enter_setup. symmetry.
          unfold cbind at 1. unfold ctimer at 1. rewrite enter_setup.
          unfold cbind at 1. unfold clift at 1. unfold cbind at 3. unfold clift at 2.
          destruct created; try reflexivity. }
      destruct (@construct_spec K H hh eps te1 dbg created p h0) as (r1 & s1 & l1 & E1 & P1).
      destruct (@construct_spec K H hh eps te2 dbg created p h0) as (r2 & s2 & l2 & E2 & P2).
      clear P1 P2. rewrite E1, E2. cbn [fst]. unfold construct in E1, E2.
      unfold cbind at 1 in E1. unfold ctimer at 1 in E1. rewrite enter_setup in E1.
      unfold cbind at 1 in E2. unfold ctimer at 1 in E2. rewrite enter_setup in E2.
      unfold cbind at 1 in E1. unfold clift at 1 in E1. unfold cbind at 1 in E2. unfold clift at 1 in E2.
      destruct created as [[]| | | |]; try congruence.
      unfold cbind at 1 in E1. unfold clift at 1 in E1. cbn [deref] in E1. unfold cbind at 1 in E2. unfold clift at 1 in E2. cbn [deref] in E2.
      cbv zeta in E1, E2. fold (c_levels p) in E1, E2. fold (c_steps p) in E1, E2. fold (c_prec p) in E1, E2.
      unfold cbind at 1 in E1. unfold clift at 1 in E1. unfold cbind at 1 in E2. unfold clift at 1 in E2.
      destruct (assert_dbg dbg (0 <? c_levels p)%Z) as [[]| | | |] eqn:EA; try congruence.
      unfold cbind at 1 in E1. unfold clift at 1 in E1. unfold cbind at 1 in E2. unfold clift at 1 in E2. unfold resize_levels in E1, E2.
      destruct (Z.ltb_spec (c_levels p) 0) as [Hn|Hn]; try congruence.
      unfold cbind at 1 in E1. unfold cbind at 1 in E2. cbn [cs_h cs_params cs_levels] in E1, E2.
      unfold cbind at 1 in E1. unfold ccall at 1, call at 1 in E1. unfold cbind at 1 in E2. unfold ccall at 1, call at 1 in E2. cbn [cs_h cs_levels cs_params] in E1, E2.
      destruct (hh_get_global_operator hh h0) as [[a| | | |] h1] eqn:EG; try congruence.
      unfold cbind at 1 in E1. unfold cset_level at 1 in E1. unfold cbind at 1 in E2. unfold cset_level at 1 in E2. cbn [cs_h cs_levels cs_params] in E1, E2.
      destruct (Z.to_nat (c_levels p)) as [|todo] eqn:EL; cbn [repeat nth_error] in E1, E2; try congruence.
      cbn [upd] in E1, E2. unfold set_operator at 1 in E1. unfold set_operator at 1 in E2. cbn [level0 lv_op lv_restrictor lv_smoother lv_solver] in E1, E2.
      pose proof (@setup_levels_timer te1 te2 (c_prec p) todo [] None a h1 p _ _ (clean_setup te1) (clean_setup te2)) as T.
      cbn [length app] in T.
      destruct (@setup_levels_spec K H hh eps te1 (c_prec p) todo [] None a h1 p _ (clean_setup te1)) as (q1 & t1 & m1 & D1 & D2 & D3).
      destruct (@setup_levels_spec K H hh eps te2 (c_prec p) todo [] None a h1 p _ (clean_setup te2)) as (q2 & t2 & m2 & F1 & F2 & F3).
      cbn [length app] in D1, F1. rewrite D1, F1 in T. cbn [fst] in T. inversion T; subst q2 t2.
      unfold cbind at 1 in E1. rewrite D1 in E1. unfold cbind at 1 in E2. rewrite F1 in E2.
      destruct q1 as [[]| | | |]; try congruence.
      destruct D3 as (ls1 & _ & _ & _ & D3). destruct F3 as (ls2 & _ & _ & _ & F3).
      unfold cbind at 1 in E1. unfold ctimer at 1 in E1. unfold cbind at 1 in E2. unfold ctimer at 1 in E2.
      destruct (@leave_setup te1 m1 _ D3 (setup_trace_nested _ _)) as (v1 & V1 & _). rewrite V1 in E1.
      destruct (@leave_setup te2 m2 _ F3 (setup_trace_nested _ _)) as (v2 & V2 & _). rewrite V2 in E2.
      unfold cbind, cget, cret in E1, E2. congruence.
    Qed.

    Lemma spd_end_to_end : forall te0 dbg created p h0 h s l n A,
      construct hh eps te0 dbg created (Some p) h0 = (Ok h, s, l) ->
      c_prec p = true -> (0 < c_steps p)%nat -> pt_get parse_bool ["fast_ap"%string] false (c_params p) = false ->
      spd_helpers hh (c_params p) h0 n A ->
      exists Mv : vec -> vec, linear n n Mv /\ self_adjoint n Mv /\ (forall b, length b = n -> b <> vzero n -> 0 < dot (Mv b) b) /\
        (forall e, length e = n -> e <> vzero n -> energy (mulvec A) (vsub e (Mv (mulvec A e))) < energy (mulvec A) e) /\
        forall te x b l, usable te (length (h_levels h)) -> open_sections l = [] -> length x = n -> length b = n ->
          exists l', hierarchy_vmult te h x b l = (Ok (Mv b), l') /\ open_sections l' = [].
    Proof.
      intros te0 dbg created p h0 h s l n A E HP HK FA SH.
      destruct (construct_spec hh eps te0 dbg created p h0) as (r & s' & l' & E' & SP). rewrite E in E'. inversion E'; subst r s' l'.
      destruct SP as (_ & _ & _ & P4 & P5 & _ & _ & (a & h1 & EG & HB) & _).
      destruct (@spd_chain K H hh eps (c_params p) h0 n A a h1 _ _ FA SH EG HB) as (lv & rest & ds & Ac & C & L1 & L2 & L3 & (L4 & L5 & L6) & L7).
      destruct (sh_op SH EG) as (_ & D1 & D2 & HS).
      destruct (describes_sized L2) as (Sz & _ & _).
      destruct (@spd_cycle K (c_steps p) ds A Ac C L3 L4 L5 L6 Sz HK) as (M1 & M2 & M3 & M4). rewrite D2 in *.
      exists (fun b => cyc (c_steps p) ds (nc Ac) C b (vzero n)). do 4 (split; [assumption|]).
      intros te x b l0 U O Hx Hb.
      destruct (chain_top _ _ _ _ _ L3) as (T1 & T2). rewrite D2 in T1.
      destruct (@vmult_ok te h lv rest ds (nc Ac) C L1 L2 U x b l0 O) as (t & l' & N & R & V); try congruence.
      rewrite P4, P5, HP, T1 in V. exists l'. split; auto.
      rewrite <- (rev_involutive l'), R. rewrite rev_app_distr, rev_involutive. unfold trace. destruct (t_present te); auto.
      rewrite open_nested; auto.
    Qed.
  End Timer.
End V.
