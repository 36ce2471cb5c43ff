(** Timer sections of a cycle, whatever the components of the hierarchy do. *)
From Coq Require Import String List Arith ZArith Bool Lia.
From Verif Require Import Base OField Mat M_Ptree M_Hier S_Hier P_Hier P_HierC P_HierV.
Import ListNotations.
Set Implicit Arguments.
Open Scope list_scope.
Open Scope nat_scope.

Section T.
  Variable te : tenv.

  (** Returning: the events are nested; otherwise: no section that was open before has been closed. *)
  Definition wf {A} (m : prog A) : Prop := forall l r l', m l = (r, l') ->
    match r with
    | Ok _ => exists t, nested t /\ rev l' = rev l ++ trace te t
    | _ => exists subs, open_sections l' = subs ++ open_sections l
    end.
  (** The same for the remainder of a section that is open at the start. *)
  Definition wf_in {A} (m : prog A) : Prop := forall l r l', (t_present te = true -> open_sections l <> []) -> m l = (r, l') ->
    match r with
    | Ok _ => exists t, nested t /\ rev l' = rev l ++ trace te (t ++ [Leave])
    | _ => exists subs, open_sections l' = subs ++ open_sections l
    end.

  Lemma open_trace : forall l l' t, nested t -> rev l' = rev l ++ trace te t -> open_sections l' = open_sections l.
  Proof.
    intros l l' t N E. rewrite <- (rev_involutive l'), E, rev_app_distr, rev_involutive. unfold trace. destruct (t_present te); auto. apply open_nested; auto.
  Qed.
  Lemma trace_app : forall t1 t2, trace te (t1 ++ t2) = trace te t1 ++ trace te t2.
  Proof. intros. unfold trace. destruct (t_present te); auto. Qed.

  Lemma wf_plift : forall A (m : outcome A), wf (plift m).
  Proof.
    intros A m l r l' E. inversion E; subst. destruct r; try (exists []; reflexivity). exists []. split; [constructor|]. unfold trace. destruct (t_present te); rewrite app_nil_r; auto.
  Qed.
  Lemma wf_in_bind : forall A B (m : prog A) (f : A -> prog B), wf m -> (forall a, wf_in (f a)) -> wf_in (pbind m f).
  Proof.
    intros A B m f W1 W2 l r l' O E. unfold pbind in E. destruct (m l) as [r1 l1] eqn:E1. specialize (W1 l r1 l1 E1).
    destruct r1 as [a| | | |]; try (inversion E; subst; exact W1).
    destruct W1 as (t1 & N1 & R1). pose proof (@open_trace l l1 t1 N1 R1) as O1.
    assert (O2 : t_present te = true -> open_sections l1 <> []) by (rewrite O1; auto).
    specialize (W2 a l1 r l' O2 E). destruct r; try (rewrite O1 in W2; exact W2).
    destruct W2 as (t2 & N2 & R2). exists (t1 ++ t2). split; [apply nested_app; auto|]. rewrite R2, R1, <- app_assoc, <- trace_app, app_assoc. auto.
  Qed.
  Lemma wf_in_leave : forall A (a : A), wf_in (pbind (timer_leave te) (fun _ => pret a)).
  Proof.
    intros A a l r l' O E. unfold pbind, timer_leave, pret in E. destruct (t_present te) eqn:TP.
    - destruct (open_sections l) eqn:EO; [exfalso; apply O; auto|]. inversion E; subst. exists []. split; [constructor|]. unfold trace. rewrite TP. simpl. auto.
    - inversion E; subst. exists []. split; [constructor|]. unfold trace. rewrite TP. rewrite app_nil_r. auto.
  Qed.
  Lemma wf_section : forall A s (m : prog A), wf_in m -> wf (pbind (timer_enter te s) (fun _ => m)).
  Proof.
    intros A s m W l r l' E. unfold pbind, timer_enter in E. destruct (t_present te) eqn:TP.
    - destruct (t_debug te && existsb (section_eqb s) (open_sections l)).
      + inversion E; subst. exists []. auto.
      + assert (O : t_present te = true -> open_sections (Enter s :: l) <> []) by (intros _; simpl; congruence).
        specialize (W (Enter s :: l) r l' O E). destruct r; try (destruct W as (subs & W); exists (subs ++ [s]); rewrite W; simpl; rewrite <- app_assoc; reflexivity).
        destruct W as (t & N & R). exists (Enter s :: t ++ [Leave]). split; [apply nested_sec; [auto|constructor]|].
        rewrite R. unfold trace. rewrite TP. simpl. rewrite <- app_assoc. reflexivity.
    - assert (O : t_present te = true -> open_sections l <> []) by congruence.
      specialize (W l r l' O E). destruct r; auto. destruct W as (t & N & R). exists [Enter s; Leave]. split; [apply nested_one|].
      rewrite R. unfold trace. rewrite TP. auto.
  Qed.

  Variable K : ofield.
  Lemma wf_apply_levels : forall prec k rest first (lv : level K) b x, wf (apply_levels te prec k first lv rest b x).
  Proof.
    intros prec k. induction rest as [|lc rest IH]; intros first lv b x; cbn [apply_levels]; apply wf_section;
      repeat (apply wf_in_bind; [solve [apply wf_plift|apply IH]|intros ?]); apply wf_in_leave.
  Qed.

  Lemma vmult_timer : forall (h : hierarchy K) x b l r l', hierarchy_vmult te h x b l = (r, l') ->
    match r with
    | Ok _ => exists t, nested t /\ rev l' = rev l ++ trace te t
    | _ => exists subs, open_sections l' = subs ++ open_sections l
    end.
  Proof.
    intros h x b. change (wf (hierarchy_vmult te h x b)). apply wf_section. apply wf_in_bind.
    - unfold hierarchy_apply. destruct (h_levels h); [apply wf_plift|apply wf_apply_levels].
    - intros y. apply wf_in_leave.
  Qed.
  (** With a timer, failing after the section "Apply" was entered leaves it open. *)
  Lemma vmult_timer_fail : forall (h : hierarchy K) x b l r l', t_present te = true -> existsb (section_eqb SApply) (open_sections l) = false ->
    hierarchy_vmult te h x b l = (r, l') ->
    match r with Ok _ => True | _ => exists subs, open_sections l' = subs ++ SApply :: open_sections l end.
  Proof.
    intros h x b l r l' TP O E. unfold hierarchy_vmult in E. unfold pbind at 1 in E. unfold timer_enter at 1 in E. rewrite TP, O, andb_false_r in E.
    assert (W : wf_in (pbind (hierarchy_apply te h b x) (fun y => pbind (timer_leave te) (fun _ => pret y)))).
    { apply wf_in_bind.
      - unfold hierarchy_apply. destruct (h_levels h); [apply wf_plift|apply wf_apply_levels].
      - intros y. apply wf_in_leave. }
    assert (NE : t_present te = true -> open_sections (Enter SApply :: l) <> []) by (simpl; congruence).
    specialize (W _ _ _ NE E). destruct r; auto; exact W.
  Qed.
End T.
