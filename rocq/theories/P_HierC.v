(** Proofs about the constructor of Hierarchy. *)
From Coq Require Import String List Arith ZArith Bool Lia.
From Verif Require Import Base OField Mat M_Ptree S_Ptree P_Ptree M_Hier S_Hier P_Hier.
Import ListNotations.
Set Implicit Arguments.
Open Scope list_scope.
Open Scope nat_scope.

Lemma nested_app : forall t1 t2, nested t1 -> nested t2 -> nested (t1 ++ t2).
Proof.
  intros t1 t2 H. revert t2. induction H as [|s a b Ha IHa Hb IHb]; intros t2 H2; simpl; auto.
  rewrite <- app_assoc. simpl. constructor; auto.
Qed.
Lemma nested_one : forall s, nested [Enter s; Leave].
Proof. intros s. exact (@nested_sec s [] [] nested_nil nested_nil). Qed.

(** Log after entering a section / after entering and leaving it. *)
Definition opn (te : tenv) (s : section_name) (l : list tev) : list tev := if t_present te then Enter s :: l else l.
Definition sec (te : tenv) (s : section_name) (l : list tev) : list tev := if t_present te then Leave :: Enter s :: l else l.
(** No section but "Setup" is open. *)
Definition clean (l : list tev) : Prop := Forall (eq SSetup) (open_sections l).

Lemma clean_fresh : forall l s, clean l -> s <> SSetup -> existsb (section_eqb s) (open_sections l) = false.
Proof.
  intros l s H Hs. unfold clean in H. induction H as [|x k Hx Hk IH]; simpl; auto. subst x. rewrite IH.
  destruct s; simpl; auto. congruence.
Qed.
Lemma open_sec : forall te s l, open_sections (sec te s l) = open_sections l.
Proof. intros. unfold sec. destruct (t_present te); auto. Qed.
Lemma clean_sec : forall te s l, clean l -> clean (sec te s l).
Proof. intros. unfold clean. rewrite open_sec. auto. Qed.
Lemma enter_clean : forall te s l, clean l -> s <> SSetup -> timer_enter te s l = (Ok tt, opn te s l).
Proof. intros. apply enter_fresh. apply clean_fresh; auto. Qed.
Lemma leave_opn : forall te s l, timer_leave te (opn te s l) = (Ok tt, sec te s l).
Proof. intros te s l. unfold timer_leave, opn, sec. destruct (t_present te); auto. Qed.

(** Trace, oldest first. *)
Definition trace (te : tenv) (t : list tev) : list tev := if t_present te then t else [].
Lemma rev_opn : forall te s l, rev (opn te s l) = rev l ++ trace te [Enter s].
Proof. intros. unfold opn, trace. destruct (t_present te); simpl; auto. rewrite app_nil_r. auto. Qed.
Lemma rev_sec : forall te s l, rev (sec te s l) = rev l ++ trace te [Enter s; Leave].
Proof. intros. unfold sec, trace. destruct (t_present te); simpl; rewrite <- ?app_assoc, ?app_nil_r; auto. Qed.

Section HierC.
  Variable K : ofield.
  Notation vec := (vec K).
  Variable H : Type.
  Variable hh : helpers K H.
  Variable eps : K.
  Variable te : tenv.

  Definition oc {A B} (m : outcome A) : outcome B :=
    match m with Ok _ => UB | Throw => Throw | Abort => Abort | UB => UB | Fuel => Fuel end.
  Definition failed {A} (m : outcome A) : Prop := match m with Ok _ => False | _ => True end.

  Definition ap_call (p : ptree) (a r : op K) (h : H) : outcome (op K) * H :=
    if pt_get parse_bool ["fast_ap"%string] false p then hh_fast_multiply_transpose hh h else (op_multiply_transpose eps a r, h).
  Definition ap_sec (p : ptree) : section_name := if pt_get parse_bool ["fast_ap"%string] false p then SFastAp else SAp.
  Lemma product_from_call : forall p a r h ap h', product_from hh eps p a r h ap h' <-> ap_call p a r h = (Ok ap, h').
  Proof.
    intros. unfold product_from, ap_call. destruct (pt_get _ _ _ p); [tauto|]. split.
    - intros (E & ->). rewrite E. auto.
    - intros E. inversion E. auto.
  Qed.

  Lemma setup_ap_eq : forall p a r s l, clean l ->
    setup_ap hh eps te p a r s l =
      match ap_call p a r (cs_h s) with
      | (Ok ap, h') => (Ok ap, mkCstate (cs_levels s) h' (cs_params s), sec te (ap_sec p) l)
      | (e, h') => (e, mkCstate (cs_levels s) h' (cs_params s), opn te (ap_sec p) l)
      end.
  Proof.
    intros p a r [L h q] l C. unfold setup_ap, ap_call, ap_sec. destruct (pt_get _ _ _ p).
    - unfold cbind, ctimer, ccall, call, cret. 
      rewrite enter_clean by (auto; discriminate). cbn [cs_h cs_levels cs_params]. destruct (hh_fast_multiply_transpose hh h) as [[x| | | |] h']; auto. cbv beta iota.
      rewrite leave_opn. auto.
    - unfold cbind, ctimer, clift, cret. 
      rewrite enter_clean by (auto; discriminate). cbn [cs_h cs_levels cs_params]. destruct (op_multiply_transpose eps a r); auto. cbv beta iota.
      rewrite leave_opn. auto.
  Qed.

  Lemma setup_fine_eq : forall L h p i l lf a lc, clean l -> nth_error L i = Some lf -> lv_op lf = Some a ->
    nth_error L (S i) = Some lc ->
    setup_fine hh eps te i (mkCstate L h p) l =
    match hh_build_smoother hh a p h with
    | (Ok sm, h1) =>
        let L1 := upd L i (set_smoother lf sm) in
        let l1 := sec te SBuildSmoother l in
        match hh_build_restrictor hh p h1 with
        | (Ok r, h2) =>
            let L2 := upd L1 (S i) (set_restrictor lc r) in
            let l2 := sec te SBuildRestrictor l1 in
            match ap_call p a r h2 with
            | (Ok ap, h3) =>
                let l3 := sec te (ap_sec p) l2 in
                match op_multiply r ap with
                | Ok ac => (Ok tt, mkCstate (upd L2 (S i) (set_operator (set_restrictor lc r) ac)) h3 p, sec te SBuildMatrix l3)
                | e => (oc e, mkCstate L2 h3 p, opn te SBuildMatrix l3)
                end
            | (e, h3) => (oc e, mkCstate L2 h3 p, opn te (ap_sec p) l2)
            end
        | (e, h2) => (oc e, mkCstate L1 h2 p, opn te SBuildRestrictor l1)
        end
    | (e, h1) => (oc e, mkCstate L h1 p, opn te SBuildSmoother l)
    end.
  Proof.
    intros L h p i l lf a lc C N1 O1 N2. unfold setup_fine.
    unfold cbind at 1. unfold ctimer at 1. rewrite enter_clean by (auto; discriminate).
    unfold cbind at 1. unfold cop at 1. cbn [cs_levels]. rewrite N1, O1. cbn [deref].
    unfold cbind at 1. unfold cget at 1. cbn [cs_params].
    unfold cbind at 1. unfold ccall at 1, call at 1. cbn [cs_h cs_levels cs_params].
    destruct (hh_build_smoother hh a p h) as [[sm| | | |] h1]; auto.
    unfold cbind at 1. unfold cset_level at 1. cbn [cs_h cs_levels cs_params]. rewrite N1.
    unfold cbind at 1. unfold ctimer at 1. rewrite leave_opn.
    assert (C1 : clean (sec te SBuildSmoother l)) by (apply clean_sec; auto).
    unfold cbind at 1. unfold ctimer at 1. rewrite enter_clean by (auto; discriminate).
    unfold cbind at 1. unfold ccall at 1, call at 1. cbn [cs_h cs_levels cs_params].
    destruct (hh_build_restrictor hh p h1) as [[r| | | |] h2]; auto.
    assert (N2' : nth_error (upd L i (set_smoother lf sm)) (S i) = Some lc) by (rewrite nth_error_upd_neq by lia; auto).
    unfold cbind at 1. unfold cset_level at 1. cbn [cs_h cs_levels cs_params]. rewrite N2'.
    unfold cbind at 1. unfold ctimer at 1. rewrite leave_opn.
    assert (C2 : clean (sec te SBuildRestrictor (sec te SBuildSmoother l))) by (apply clean_sec; auto).
    unfold cbind at 1. rewrite setup_ap_eq by auto. cbn [cs_h cs_levels cs_params].
    destruct (ap_call p a r h2) as [[ap| | | |] h3]; auto.
    unfold cbind at 1. unfold ctimer at 1. rewrite enter_clean by (try apply clean_sec; auto; discriminate).
    unfold cbind at 1. unfold clift at 1.
    destruct (op_multiply r ap) as [ac| | | |]; auto.
    unfold cbind at 1. unfold ctimer at 1. rewrite leave_opn.
    unfold cset_level. cbn [cs_h cs_levels cs_params].
    rewrite nth_error_upd_eq by (apply nth_error_lt in N2'; auto). auto.
  Qed.

  Lemma setup_coarsest_eq : forall prec L h p i l lf a, clean l -> nth_error L i = Some lf -> lv_op lf = Some a ->
    setup_coarsest hh te prec i (mkCstate L h p) l =
    let p' := if (i =? 0)%nat then pt_put key_zero_start (print_bool prec) p else p in
    match hh_build_coarse_solver hh a p' h with
    | (Ok s, h1) => (Ok tt, mkCstate (upd L i (set_solver lf s)) h1 p', sec te SBuildCoarse l)
    | (e, h1) => (oc e, mkCstate L h1 p', opn te SBuildCoarse l)
    end.
  Proof.
    intros prec L h p i l lf a C N1 O1. unfold setup_coarsest.
    set (p' := if i =? 0 then _ else p).
    assert (E : (if i =? 0 then cput key_zero_start (print_bool prec) else cret tt) (mkCstate L h p) l = (Ok tt, mkCstate L h p', l)).
    { unfold p'. destruct (i =? 0); reflexivity. }
    unfold cbind at 1. rewrite E.
    unfold cbind at 1. unfold ctimer at 1. rewrite enter_clean by (auto; discriminate).
    unfold cbind at 1. unfold cop at 1. cbn [cs_levels]. rewrite N1, O1. cbn [deref].
    unfold cbind at 1. unfold cget at 1. cbn [cs_params].
    unfold cbind at 1. unfold ccall at 1, call at 1. cbn [cs_h cs_levels cs_params].
    destruct (hh_build_coarse_solver hh a p' h) as [[sm| | | |] h1]; auto.
    unfold cbind at 1. unfold cset_level at 1. cbn [cs_h cs_levels cs_params]. rewrite N1.
    unfold ctimer. rewrite leave_opn. auto.
  Qed.

  Definition params_after (prec : bool) (todo i : nat) (p : ptree) : ptree :=
    if (i =? 0)%nat && (todo =? 0)%nat then pt_put key_zero_start (print_bool prec) p else p.

  (** Trace of the set-up of a level and the ones after it, oldest first. *)
  Fixpoint setup_trace (p : ptree) (todo : nat) : list tev :=
    match todo with
    | O => [Enter SBuildCoarse; Leave]
    | S t => [Enter SBuildSmoother; Leave; Enter SBuildRestrictor; Leave; Enter (ap_sec p); Leave; Enter SBuildMatrix; Leave] ++ setup_trace p t
    end.
  Lemma setup_trace_nested : forall p t, nested (setup_trace p t).
  Proof.
    induction t; simpl; [apply nested_one|].
    do 4 (apply (@nested_sec _ []); [constructor|]). auto.
  Qed.

  Lemma upd_app : forall A (pre : list A) x y post, upd (pre ++ x :: post) (length pre) y = pre ++ y :: post.
  Proof. induction pre; simpl; intros; f_equal; auto. Qed.
  Lemma upd_app1 : forall A (pre : list A) x z y post, upd (pre ++ x :: z :: post) (S (length pre)) y = pre ++ x :: y :: post.
  Proof. induction pre as [|q pre IH]; intros; [reflexivity|exact (f_equal (cons q) (IH x z y post))]. Qed.
  Lemma nth_app0 : forall A (pre : list A) x post, nth_error (pre ++ x :: post) (length pre) = Some x.
  Proof. induction pre; simpl; intros; auto. Qed.
  Lemma nth_app1 : forall A (pre : list A) x z post, nth_error (pre ++ x :: z :: post) (S (length pre)) = Some z.
  Proof. induction pre as [|q pre IH]; intros; [reflexivity|exact (IH x z post)]. Qed.

  Lemma setup_levels_spec : forall prec todo pre ro a h p l, clean l ->
    let i := length pre in let p' := params_after prec todo i p in
    exists r s' l',
      setup_levels hh eps te prec (S todo) i (mkCstate (pre ++ mkLevel (Some a) ro None None :: repeat level0 todo) h p) l = (r, s', l') /\
      cs_params s' = p' /\
      match r with
      | Ok _ => exists ls, cs_levels s' = pre ++ ls /\ length ls = S todo /\ built hh eps p' ro a h ls (cs_h s') /\
                  rev l' = rev l ++ trace te (setup_trace p todo)
      | _ => exists t sub, nested t /\ sub <> SSetup /\ rev l' = rev l ++ trace te (t ++ [Enter sub])
      end.
  Proof.
    induction todo as [|todo IH]; intros pre ro a h p l C i p'.
    - cbn [setup_levels repeat]. rewrite (@setup_coarsest_eq prec _ h p i l (mkLevel (Some a) ro None None) a C) by (auto; apply nth_app0).
      cbv zeta. assert (Ep : (if i =? 0 then pt_put key_zero_start (print_bool prec) p else p) = p').
      { unfold p', params_after. rewrite andb_true_r. auto. }
      rewrite Ep.
      assert (F : exists (t : list tev) sub, nested t /\ sub <> SSetup /\ rev (opn te SBuildCoarse l) = rev l ++ trace te (t ++ [Enter sub])).
      { exists [], SBuildCoarse. split; [constructor|]. split; [discriminate|]. apply rev_opn. }
      destruct (hh_build_coarse_solver hh a p' h) as [[s| | | |] h1] eqn:E; eexists _, _, _; (split; [reflexivity|]); split; auto.
      cbn [cs_levels cs_h]. unfold i. rewrite upd_app. eexists. split; [reflexivity|]. split; auto.
      split; [|apply rev_sec]. apply built_last; auto.
    - change (setup_levels hh eps te prec (S (S todo)) i) with
        (cbind (setup_fine hh eps te i) (fun _ => setup_levels hh eps te prec (S todo) (S i))).
      assert (Ep : p' = p). { unfold p', params_after. rewrite andb_false_r. auto. }
      cbn [repeat]. unfold cbind.
      rewrite (@setup_fine_eq _ h p i l (mkLevel (Some a) ro None None) a level0 C) by (auto; first [apply nth_app0|apply nth_app1]).
      destruct (hh_build_smoother hh a p h) as [[sm| | | |] h1] eqn:E1;
        try (eexists _, _, _; (split; [reflexivity|]); split; [auto|]; cbn [oc]; exists [], SBuildSmoother; split; [constructor|]; split; [discriminate|]; apply rev_opn).
      cbv zeta.
      destruct (hh_build_restrictor hh p h1) as [[r| | | |] h2] eqn:E2;
        try (eexists _, _, _; (split; [reflexivity|]); split; [auto|]; cbn [oc]; exists [Enter SBuildSmoother; Leave], SBuildRestrictor; split; [apply nested_one|]; split; [discriminate|];
             rewrite rev_opn, rev_sec; unfold trace; destruct (t_present te); rewrite <- ?app_assoc; auto).
      destruct (ap_call p a r h2) as [[ap| | | |] h3] eqn:E3;
        try (eexists _, _, _; (split; [reflexivity|]); split; [auto|]; cbn [oc]; exists [Enter SBuildSmoother; Leave; Enter SBuildRestrictor; Leave], (ap_sec p);
             split; [apply (@nested_sec _ []); [constructor|apply nested_one]|]; split; [unfold ap_sec; destruct (pt_get _ _ _ p); discriminate|];
             rewrite rev_opn, !rev_sec; unfold trace; destruct (t_present te); rewrite <- ?app_assoc; auto).
      destruct (op_multiply r ap) as [ac| | | |] eqn:E4;
        try (eexists _, _, _; (split; [reflexivity|]); split; [auto|]; cbn [oc]; exists [Enter SBuildSmoother; Leave; Enter SBuildRestrictor; Leave; Enter (ap_sec p); Leave], SBuildMatrix;
             split; [do 2 (apply (@nested_sec _ []); [constructor|]); apply nested_one|]; split; [discriminate|];
             rewrite rev_opn, !rev_sec; unfold trace; destruct (t_present te); rewrite <- ?app_assoc; auto).
      unfold i. rewrite upd_app, !upd_app1. unfold set_smoother, set_operator, set_restrictor, level0. cbn [lv_op lv_restrictor lv_smoother lv_solver].
      set (l4 := sec te SBuildMatrix _). assert (C4 : clean l4) by (unfold l4; repeat apply clean_sec; auto).
      specialize (IH (pre ++ [mkLevel (Some a) ro (Some sm) None]) (Some r) ac h3 p l4 C4). cbv zeta in IH.
      rewrite app_length in IH. cbn [length] in IH. rewrite Nat.add_1_r in IH. rewrite <- app_assoc in IH. cbn [app] in IH.
      destruct IH as (rr & s' & l' & I1 & I2 & I3). exists rr, s', l'. unfold level0 in I1. split; [exact I1|].
      assert (Eq : params_after prec todo (S (length pre)) p = p) by reflexivity. rewrite Eq in *. split; [congruence|].
      assert (R4 : rev l4 = rev l ++ trace te [Enter SBuildSmoother; Leave; Enter SBuildRestrictor; Leave; Enter (ap_sec p); Leave; Enter SBuildMatrix; Leave]).
      { unfold l4. rewrite !rev_sec. unfold trace. destruct (t_present te); rewrite <- ?app_assoc; auto. }
      assert (FT : forall (t : list tev) sub, nested t -> sub <> SSetup -> rev l' = rev l4 ++ trace te (t ++ [Enter sub]) ->
        exists (t : list tev) sub, nested t /\ sub <> SSetup /\ rev l' = rev l ++ trace te (t ++ [Enter sub])).
      { intros t sub Ht Hs El. exists ([Enter SBuildSmoother; Leave; Enter SBuildRestrictor; Leave; Enter (ap_sec p); Leave; Enter SBuildMatrix; Leave] ++ t), sub.
        split; [do 4 (apply (@nested_sec _ []); [constructor|]); auto|]. split; auto.
        rewrite El, R4. unfold trace. destruct (t_present te); rewrite <- ?app_assoc; auto. }
      destruct rr; try (destruct I3 as (t & sub & T1 & T2 & T3); solve [eauto]).
      destruct I3 as (ls & L1 & L2 & L3 & L4). exists (mkLevel (Some a) ro (Some sm) None :: ls).
      split; [rewrite L1, <- app_assoc; auto|]. split; [cbn [length]; congruence|]. rewrite Ep. split.
      + eapply built_cons; eauto. apply product_from_call. exact E3.
      + rewrite L4, R4. cbn [setup_trace]. unfold trace. destruct (t_present te); rewrite <- ?app_assoc; auto.
  Qed.

  Lemma built_setup : forall prec todo pre ro a h p l ls h', clean l ->
    built hh eps (params_after prec todo (length pre) p) ro a h ls h' -> length ls = S todo ->
    exists l', setup_levels hh eps te prec (S todo) (length pre) (mkCstate (pre ++ mkLevel (Some a) ro None None :: repeat level0 todo) h p) l =
      (Ok tt, mkCstate (pre ++ ls) h' (params_after prec todo (length pre) p), l').
  Proof.
    induction todo as [|todo IH]; intros pre ro a h p l ls h' C B HL.
    - cbn [setup_levels repeat]. rewrite (@setup_coarsest_eq prec _ h p _ l (mkLevel (Some a) ro None None) a C) by (auto; apply nth_app0).
      cbv zeta. assert (Ep : (if length pre =? 0 then pt_put key_zero_start (print_bool prec) p else p) = params_after prec 0 (length pre) p).
      { unfold params_after. rewrite andb_true_r. auto. }
      rewrite Ep. inversion B as [ro0 a0 h0 s h0' E|ro0 a0 h0 sm h1 r h2 ap h3 ac ls0 h0' E1 E2 E3 E4 B1]; subst.
      + rewrite E. rewrite upd_app. eexists. reflexivity.
      + cbn [length] in HL. inversion B1; subst; cbn [length] in HL; lia.
    - change (setup_levels hh eps te prec (S (S todo)) (length pre)) with
        (cbind (setup_fine hh eps te (length pre)) (fun _ => setup_levels hh eps te prec (S todo) (S (length pre)))).
      assert (Ep : params_after prec (S todo) (length pre) p = p). { unfold params_after. rewrite andb_false_r. auto. }
      rewrite Ep in *. cbn [repeat]. unfold cbind.
      rewrite (@setup_fine_eq _ h p _ l (mkLevel (Some a) ro None None) a level0 C) by (auto; first [apply nth_app0|apply nth_app1]).
      inversion B as [ro0 a0 h0 s h0' E|ro0 a0 h0 sm h1 r h2 ap h3 ac ls0 h0' E1 E2 E3 E4 B1]; subst; [discriminate|].
      apply product_from_call in E3. rewrite E1. cbv zeta. rewrite E2, E3, E4.
      rewrite upd_app, !upd_app1. unfold set_smoother, set_operator, set_restrictor, level0. cbn [lv_op lv_restrictor lv_smoother lv_solver].
      set (l4 := sec te SBuildMatrix _). assert (C4 : clean l4) by (unfold l4; repeat apply clean_sec; auto).
      destruct (IH (pre ++ [mkLevel (Some a) ro (Some sm) None]) (Some r) ac h3 p l4 ls0 h' C4) as (l' & I).
      { rewrite app_length, Nat.add_1_r. exact B1. }
      { cbn [length] in HL. lia. }
      rewrite app_length in I. cbn [length] in I. rewrite Nat.add_1_r in I. rewrite <- !app_assoc in I. cbn [app] in I.
      exists l'. exact I.
  Qed.

  Lemma clean_setup : clean (opn te SSetup []).
  Proof. unfold clean, opn. destruct (t_present te); simpl; auto. Qed.
  Lemma enter_setup : timer_enter te SSetup [] = (Ok tt, opn te SSetup []).
  Proof. unfold timer_enter, opn. destruct (t_present te); simpl; rewrite ?andb_false_r; auto. Qed.

  Lemma leave_setup : forall l t, rev l = rev (opn te SSetup []) ++ trace te t -> nested t ->
    exists l', timer_leave te l = (Ok tt, l') /\ rev l' = trace te (Enter SSetup :: t ++ [Leave]).
  Proof.
    intros l t E N. rewrite rev_opn in E. unfold timer_leave, trace in *. destruct (t_present te) eqn:P.
    - assert (O : open_sections l = [SSetup]).
      { simpl in E. rewrite <- (rev_involutive l), E. simpl. clear E.
        assert (G : forall t, nested t -> forall k, open_sections (rev t ++ k) = open_sections k).
        { induction 1 as [|s t1 t2 N1 I1 N2 I2]; intros k; simpl; auto. rewrite rev_app_distr. simpl. rewrite <- !app_assoc. simpl.
          rewrite I2. simpl. rewrite I1. auto. }
        rewrite G; auto. }
      rewrite O. eexists. split; [reflexivity|]. simpl. rewrite E. simpl. rewrite ?app_assoc. auto.
    - eexists. split; [reflexivity|]. simpl in *. auto.
  Qed.

  (** What the constructor does, whatever the helpers do. *)
  Lemma construct_spec : forall dbg created p h0, exists r s l,
    construct hh eps te dbg created (Some p) h0 = (r, s, l) /\
    match r with
    | Ok h => created = Ok tt /\ (0 < c_levels p)%Z /\ length (h_levels h) = Z.to_nat (c_levels p) /\
        h_is_preconditioner h = c_prec p /\ h_n_smoothing_steps h = c_steps p /\
        cs_levels s = h_levels h /\ cs_params s = c_params p /\
        (exists a h1, hh_get_global_operator hh h0 = (Ok a, h1) /\ built hh eps (c_params p) None a h1 (h_levels h) (cs_h s)) /\
        exists t, nested t /\ rev l = trace te (Enter SSetup :: t ++ [Leave])
    | _ => (cs_params s = p \/ cs_params s = c_params p) /\
        exists t sub, nested t /\ rev l = trace te (Enter SSetup :: t ++ match sub with None => [] | Some n => [Enter n] end)
    end.
  Proof.
    intros dbg created p h0. unfold construct.
    unfold cbind at 1. unfold ctimer at 1. rewrite enter_setup.
    assert (F : exists t (sub : option section_name), nested t /\ rev (opn te SSetup []) = trace te (Enter SSetup :: t ++ match sub with None => [] | Some n => [Enter n] end)).
    { exists [], None. split; [constructor|]. rewrite rev_opn. reflexivity. }
    unfold cbind at 1. unfold clift at 1.
    destruct created as [[]| | | |]; try (eexists _, _, _; split; [reflexivity|]; split; [auto|exact F]).
    unfold cbind at 1. unfold clift at 1. cbn [deref]. cbv zeta. fold (c_levels p). fold (c_steps p). fold (c_prec p).
    unfold cbind at 1. unfold clift at 1.
    destruct (assert_dbg dbg (0 <? c_levels p)%Z) as [[]| | | |] eqn:EA; try (eexists _, _, _; split; [reflexivity|]; split; [auto|exact F]).
    unfold cbind at 1. unfold clift at 1. unfold resize_levels.
    destruct (Z.ltb_spec (c_levels p) 0) as [Hn|Hn]; [eexists _, _, _; split; [reflexivity|]; split; [auto|exact F]|].
    unfold cbind at 1. cbn [cs_h cs_params cs_levels].
    unfold cbind at 1. unfold ccall at 1, call at 1. cbn [cs_h cs_levels cs_params].
    destruct (hh_get_global_operator hh h0) as [[a| | | |] h1] eqn:EG; try (eexists _, _, _; split; [reflexivity|]; split; [auto|exact F]).
    unfold cbind at 1. unfold cset_level at 1. cbn [cs_h cs_levels cs_params].
    destruct (Z.to_nat (c_levels p)) as [|todo] eqn:EL; cbn [repeat nth_error]; [eexists _, _, _; split; [reflexivity|]; split; [auto|exact F]|].
    cbn [upd]. unfold set_operator at 1. cbn [level0 lv_op lv_restrictor lv_smoother lv_solver].
    destruct (@setup_levels_spec (c_prec p) todo [] None a h1 p (opn te SSetup []) clean_setup) as (r & s' & l' & E1 & E2 & E3).
    cbn [length app] in E1. unfold cbind at 1. change (@mkLevel K (@Some (op K) a) None None None) with (@mkLevel K (Some a) None None None).
    assert (EP : params_after (c_prec p) todo (length (@nil (level K))) p = c_params p).
    { unfold params_after, c_params. cbn [length Nat.eqb andb]. destruct todo; cbn [Nat.eqb].
      - assert (c_levels p = 1%Z) as -> by lia. auto.
      - destruct (Z.eqb_spec (c_levels p) 1); auto. lia. }
    cbv zeta in *. rewrite EP in *. rewrite E1.
    destruct r as [[]| | | |];
      try (eexists _, _, _; split; [reflexivity|]; split; [auto|]; destruct E3 as (t & sub & T1 & T2 & T3); exists t, (Some sub); split; auto;
           rewrite T3, rev_opn; unfold trace; destruct (t_present te); reflexivity).
    destruct E3 as (ls & L1 & L2 & L3 & L4).
    unfold cbind at 1. unfold ctimer at 1.
    destruct (@leave_setup l' _ L4 (setup_trace_nested _ _)) as (l'' & V1 & V2). rewrite V1.
    unfold cbind, cget, cret. eexists _, _, _. split; [reflexivity|]. cbn [h_levels h_is_preconditioner h_n_smoothing_steps].
    cbn [app] in L1. rewrite L1. repeat split; auto; try lia; eauto using setup_trace_nested.
  Qed.

  Lemma construct_complete : forall dbg p h0 a h1 ls h', (0 < c_levels p)%Z ->
    hh_get_global_operator hh h0 = (Ok a, h1) -> length ls = Z.to_nat (c_levels p) -> built hh eps (c_params p) None a h1 ls h' ->
    exists l, construct hh eps te dbg (Ok tt) (Some p) h0 = (Ok (mkHierarchy ls (c_prec p) (c_steps p)), mkCstate ls h' (c_params p), l).
  Proof.
    intros dbg p h0 a h1 ls h' HP EG HL HB. unfold construct.
    unfold cbind at 1. unfold ctimer at 1. rewrite enter_setup.
    unfold cbind at 1. unfold clift at 1.
    unfold cbind at 1. unfold clift at 1. cbn [deref]. cbv zeta. fold (c_levels p). fold (c_steps p). fold (c_prec p).
    unfold cbind at 1. unfold clift at 1.
    assert (EA : assert_dbg dbg (0 <? c_levels p)%Z = Ok tt).
    { unfold assert_dbg. destruct (Z.ltb_spec 0 (c_levels p)); [|lia]. rewrite andb_false_r. auto. }
    rewrite EA.
    unfold cbind at 1. unfold clift at 1. unfold resize_levels.
    destruct (Z.ltb_spec (c_levels p) 0) as [Hn|Hn]; [lia|].
    unfold cbind at 1. cbn [cs_h cs_params cs_levels].
    unfold cbind at 1. unfold ccall at 1, call at 1. cbn [cs_h cs_levels cs_params]. rewrite EG.
    unfold cbind at 1. unfold cset_level at 1. cbn [cs_h cs_levels cs_params].
    destruct (Z.to_nat (c_levels p)) as [|todo] eqn:EL; cbn [repeat nth_error]; [lia|].
    cbn [upd]. unfold set_operator at 1. cbn [level0 lv_op lv_restrictor lv_smoother lv_solver].
    assert (EP : params_after (c_prec p) todo (length (@nil (level K))) p = c_params p).
    { unfold params_after, c_params. cbn [length Nat.eqb andb]. destruct todo; cbn [Nat.eqb].
      - assert (c_levels p = 1%Z) as -> by lia. auto.
      - destruct (Z.eqb_spec (c_levels p) 1); auto. lia. }
    pose proof HB as HB0. rewrite <- EP in HB0.
    destruct (@built_setup (c_prec p) todo [] None a h1 p (opn te SSetup []) ls h' clean_setup HB0 HL) as (l' & E1).
    destruct (@setup_levels_spec (c_prec p) todo [] None a h1 p (opn te SSetup []) clean_setup) as (r & s' & l0 & D1 & D2 & D3).
    cbn [length app] in E1, D1. rewrite E1 in D1. inversion D1; subst r s' l0. destruct D3 as (_ & _ & _ & _ & D3).
    unfold cbind at 1. rewrite E1. cbn [length] in EP. rewrite EP.
    unfold cbind at 1. unfold ctimer at 1.
    destruct (@leave_setup l' _ D3 (setup_trace_nested _ _)) as (l'' & V1 & V2). rewrite V1.
    unfold cbind, cget, cret. eexists. reflexivity.
  Qed.
End HierC.
