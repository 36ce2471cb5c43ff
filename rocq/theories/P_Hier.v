(** Proofs about the V-cycle. *)
From Coq Require Import List Arith ZArith Bool Lia Field.
From Verif Require Import Base OField Mat M_Hier S_Hier.
Import ListNotations.
Set Implicit Arguments.
Open Scope nat_scope.

Section P.
  Variable K : ofield.
  Add Field KfieldH : (f_field K).
  Local Open Scope K_scope.
  Notation vec := (vec K).

  Ltac vx := vext; try ring.

  Lemma map_zero : forall x : vec, map (fun _ => (0 : K)) x = vzero (length x).
  Proof. induction x; simpl; auto. rewrite IHx. auto. Qed.

  Lemma iter_length : forall k n (f : vec -> vec) x, maps n n f -> length x = n -> length (iter k f x) = n.
  Proof. induction k; simpl; intros; auto. Qed.
  Lemma iter_ext : forall k n (f g : vec -> vec) x, maps n n f -> (forall y, length y = n -> f y = g y) -> length x = n -> iter k f x = iter k g x.
  Proof. induction k; simpl; intros n f g x Hm H Hx; auto. rewrite <- H by auto. apply (@IHk n); auto. Qed.
  Lemma iter_S_r : forall k (f : vec -> vec) x, iter (S k) f x = f (iter k f x).
  Proof. induction k; simpl; intros; auto. rewrite <- IHk. auto. Qed.

  (** The cycle with the signs of the code: negative residual, subtracted correction. *)
  Fixpoint cyc (k : nat) (ds : list (fine K)) (nc : nat) (C : vec -> vec -> vec) (b x : vec) : vec :=
    match ds with
    | [] => C b x
    | d :: ds' =>
        let x1 := iter k (fS d b) x in
        let r := vsub (fA d x1) b in
        let e := cyc k ds' nc C (fR d r) (vzero (top_size ds' nc)) in
        iter k (fS d b) (vsub x1 (fP d e))
    end.

  (** Sizes of the components. *)
  Fixpoint sized (ds : list (fine K)) (nc : nat) : Prop :=
    match ds with
    | [] => True
    | d :: ds' => maps (fn d) (fn d) (fA d) /\ (forall b x, length b = fn d -> length x = fn d -> length (fS d b x) = fn d) /\
        maps (fn d) (top_size ds' nc) (fR d) /\ maps (top_size ds' nc) (fn d) (fP d) /\ sized ds' nc
    end.

  Lemma cyc_length : forall k ds nc C b x, sized ds nc -> (forall b x, length b = nc -> length x = nc -> length (C b x) = nc) ->
    length b = top_size ds nc -> length x = top_size ds nc -> length (cyc k ds nc C b x) = top_size ds nc.
  Proof.
    induction ds as [|d ds IH]; intros nc C b x Hs HC Hb Hx; [apply HC; auto|].
    cbn [cyc top_size] in *. destruct Hs as (H1 & H2 & H3 & H4 & H5).
    assert (Hm : maps (fn d) (fn d) (fS d b)) by (intros y Hy; auto).
    assert (Hx1 : length (iter k (fS d b) x) = fn d) by (apply iter_length; auto).
    apply iter_length; auto. rewrite vsub_length, Hx1, H4, Nat.min_id; auto.
    apply IH; auto. - rewrite H3; auto. rewrite vsub_length, H1, Hb, Nat.min_id; auto. - apply vzero_length.
  Qed.

  Lemma vaxpy_m1 : forall y x : vec, length y = length x -> vaxpy (- (1)) x y = vsub y x.
  Proof. intros. vx. Qed.

  Lemma vec_add_sub : forall y x : vec, length y = length x -> vec_add y (- (1)) x = Ok (vsub y x).
  Proof. intros y x H. unfold vec_add. rewrite H, Nat.eqb_refl. rewrite vaxpy_m1; auto. Qed.

  Lemma smooth_loop_ok : forall k (s : bx_apply K) f n b x, bx_acts s n f -> length b = n -> length x = n ->
    smooth_loop k (Some s) b x = Ok (iter k (f b) x) /\ length (iter k (f b) x) = n.
  Proof.
    induction k; intros s f n b x Hs Hb Hx; simpl; auto.
    destruct (Hs b x Hb Hx) as (E & L). rewrite E. simpl. apply (IHk s f n b (f b x)); auto.
  Qed.

  Lemma describes_sized : forall lv rest ds nc C, @describes K lv rest ds nc C -> sized ds nc /\
    (forall b x, length b = nc -> length x = nc -> length (C b x) = nc) /\
    exists a, lv_op lv = Some a /\ op_dom a = top_size ds nc.
  Proof.
    induction 1 as [lv a s nc C H1 H2 H3 H4|lv lc rest a s r d ds nc C H1 H2 H3 H4 H5 H6 H7 H8 IH].
    - split; [exact I|]. split; [intros; apply H4; auto|]. exists a. auto.
    - destruct IH as (I1 & I2 & I3). split; [|split; auto].
      + cbn [sized]. destruct H2 as (_ & _ & H2). destruct H6 as (_ & _ & H6).
        repeat split; auto.
        * intros x Hx. apply (H2 x (vzero (fn d))); auto. apply vzero_length.
        * intros b x Hb Hx. apply H4; auto.
        * intros x Hx. apply (H6 x (vzero (top_size ds nc))); auto. apply vzero_length.
        * intros x Hx. apply (H7 x (vzero (fn d))); auto. apply vzero_length.
      + exists a. destruct H2. auto.
  Qed.

  (** *** The program computes the cycle. *)
  (** A timer that does not stop the program: absent, release mode, or the section is not open. *)
  Lemma pbind_plift : forall A B (m : outcome A) a (f : A -> prog B) l, m = Ok a -> pbind (plift m) f l = f a l.
  Proof. intros A B m a f l ->. reflexivity. Qed.

  Lemma enter_quiet : forall te s l, quiet te -> timer_enter te s l = (Ok tt, if t_present te then Enter s :: l else l).
  Proof. intros te s l H. unfold timer_enter, quiet in *. destruct (t_present te), (t_debug te); simpl in *; auto; discriminate. Qed.
  Lemma leave_quiet : forall te l, quiet te -> timer_leave te l = (Ok tt, if t_present te then Leave :: l else l).
  Proof.
    intros te l H. unfold timer_leave, quiet in *. destruct (t_present te), (t_debug te); simpl in *; auto; try discriminate.
    destruct (open_sections l); auto.
  Qed.
  (** In any mode, entering a section that is not open and leaving when one is open succeed. *)
  Lemma enter_fresh : forall te s l, existsb (section_eqb s) (open_sections l) = false -> timer_enter te s l = (Ok tt, if t_present te then Enter s :: l else l).
  Proof. intros te s l H. unfold timer_enter. rewrite H, andb_false_r. destruct (t_present te); auto. Qed.
  Lemma leave_open : forall te l, open_sections l <> [] -> timer_leave te l = (Ok tt, if t_present te then Leave :: l else l).
  Proof. intros te l H. unfold timer_leave. destruct (t_present te); auto. destruct (open_sections l); auto. congruence. Qed.

  (** Log added by one cycle over [n] levels, newest event first. *)
  Fixpoint cycle_log (rest : nat) : list tev :=
    match rest with
    | O => [Leave; Enter SCoarsest]
    | S r => Leave :: cycle_log r ++ [Enter SFine]
    end.
  Definition tlog (te : tenv) (l : list tev) : list tev := if t_present te then l else [].

  Lemma tlog_cons : forall te e l k, (if t_present te then e :: l ++ k else k) = tlog te (e :: l) ++ k.
  Proof. intros. unfold tlog. destruct (t_present te); auto. Qed.
  Lemma tlog_app : forall te a b, tlog te (a ++ b) = tlog te a ++ tlog te b.
  Proof. intros. unfold tlog. destruct (t_present te); auto. Qed.

  Lemma apply_levels_ok : forall te prec k (lv : level K) rest ds nc C, describes lv rest ds nc C -> quiet te ->
    forall first b x l, length b = top_size ds nc -> length x = top_size ds nc ->
    apply_levels te prec k first lv rest b x l =
      (Ok (cyc k ds nc C b (if negb first || prec then vzero (top_size ds nc) else x)), tlog te (cycle_log (length rest)) ++ l).
  Proof.
    intros te prec k lv rest ds nc C D Q.
    induction D as [lv a s nc C H1 H2 H3 H4|lv lc rest a s r d ds nc C H1 H2 H3 H4 H5 H6 H7 H8 IH]; intros first b x l Hb Hx; cbn [top_size] in *.
    - cbn [apply_levels]. rewrite map_zero, Hx.
      set (x0 := if negb first || prec then vzero nc else x).
      assert (Hx0 : length x0 = nc) by (unfold x0; destruct (negb first || prec); auto; apply vzero_length).
      unfold pbind at 1. rewrite enter_quiet by auto.
      rewrite (pbind_plift (a := s)) by (rewrite H3; auto).
      rewrite (pbind_plift (a := C b x0)) by (apply H4; auto).
      unfold pbind. rewrite leave_quiet by auto. unfold pret. cbn [cyc]. f_equal. unfold tlog. destruct (t_present te); auto.
    - cbn [apply_levels]. rewrite map_zero, Hx.
      set (x0 := if negb first || prec then vzero (fn d) else x).
      assert (Hx0 : length x0 = fn d) by (unfold x0; destruct (negb first || prec); auto; apply vzero_length).
      destruct (describes_sized H8) as (Z1 & Z2 & (ac & Z3 & Z4)).
      destruct H2 as (A1 & A2 & A3). destruct H6 as (R1 & R2 & R3).
      unfold pbind at 1. rewrite enter_quiet by auto.
      destruct (@smooth_loop_ok k s (fS d) (fn d) b x0 H4 Hb Hx0) as (S1 & S2).
      rewrite (pbind_plift (a := iter k (fS d b) x0)) by (rewrite H3; auto).
      rewrite (pbind_plift (a := vzero (fn d))) by (unfold build_vector; rewrite H1; simpl; rewrite A1; auto).
      rewrite (pbind_plift (a := a)) by (rewrite H1; auto).
      destruct (A3 (iter k (fS d b) x0) (vzero (fn d)) S2 (vzero_length _ _)) as (A4 & A5).
      rewrite (pbind_plift (a := fA d (iter k (fS d b) x0))) by auto.
      set (x1 := iter k (fS d b) x0) in *.
      rewrite (pbind_plift (a := vsub (fA d x1) b)) by (apply vec_add_sub; congruence).
      assert (L2 : length (vsub (fA d x1) b) = fn d) by (rewrite vsub_length; lia).
      rewrite (pbind_plift (a := vzero (top_size ds nc))) by (unfold build_vector; rewrite Z3; simpl; rewrite Z4; auto).
      rewrite (pbind_plift (a := r)) by (rewrite H5; auto).
      destruct (R3 (vsub (fA d x1) b) (vzero (top_size ds nc)) L2 (vzero_length _ _)) as (R4 & R5).
      rewrite (pbind_plift (a := fR d (vsub (fA d x1) b))) by auto.
      rewrite (pbind_plift (a := vzero (top_size ds nc))) by (unfold build_vector; rewrite Z3; simpl; rewrite Z4; auto).
      unfold pbind at 1. rewrite IH by (auto; apply vzero_length). cbn [negb orb].
      set (e := cyc k ds nc C (fR d (vsub (fA d x1) b)) (vzero (top_size ds nc))) in *.
      assert (Le : length e = top_size ds nc) by (apply cyc_length; auto; apply vzero_length).
      rewrite (pbind_plift (a := vzero (fn d))) by (unfold build_vector; rewrite H1; simpl; rewrite A1; auto).
      destruct (H7 e (vzero (fn d)) Le (vzero_length _ _)) as (P1 & P2).
      rewrite (pbind_plift (a := fP d e)) by auto.
      rewrite (pbind_plift (a := vsub x1 (fP d e))) by (apply vec_add_sub; congruence).
      assert (L3 : length (vsub x1 (fP d e)) = fn d) by (rewrite vsub_length; lia).
      destruct (@smooth_loop_ok k s (fS d) (fn d) b (vsub x1 (fP d e)) H4 Hb L3) as (S3 & S4).
      rewrite (pbind_plift (a := iter k (fS d b) (vsub x1 (fP d e)))) by (rewrite H3; auto).
      unfold pbind. rewrite leave_quiet by auto. unfold pret. cbn [cyc]. f_equal.
      unfold tlog. cbn [length cycle_log]. destruct (t_present te); auto. simpl. rewrite <- app_assoc. auto.
  Qed.

  (** With at most two levels the debug checks of the timer pass as well. *)
  Lemma apply_levels_debug_ok : forall te prec k (lv : level K) rest ds nc C, describes lv rest ds nc C -> (length rest <= 1)%nat ->
    forall b x l, length b = top_size ds nc -> length x = top_size ds nc ->
    existsb (section_eqb SFine) (open_sections l) = false -> existsb (section_eqb SCoarsest) (open_sections l) = false ->
    apply_levels te prec k true lv rest b x l =
      (Ok (cyc k ds nc C b (if prec then vzero (top_size ds nc) else x)), tlog te (cycle_log (length rest)) ++ l).
  Proof.
    intros te prec k lv rest ds nc C D HL b x l Hb Hx O1 O2.
    destruct D as [lv a s nc C H1 H2 H3 H4|lv lc rest a s r d ds nc C H1 H2 H3 H4 H5 H6 H7 H8]; cbn [top_size] in *.
    - cbn [apply_levels]. rewrite map_zero, Hx. cbn [negb orb].
      set (x0 := if prec then vzero nc else x).
      assert (Hx0 : length x0 = nc) by (unfold x0; destruct prec; auto; apply vzero_length).
      unfold pbind at 1. rewrite enter_fresh by auto.
      rewrite (pbind_plift (a := s)) by (rewrite H3; auto).
      rewrite (pbind_plift (a := C b x0)) by (apply H4; auto).
      unfold pbind, pret. destruct (t_present te) eqn:E.
      + rewrite leave_open by (simpl; congruence). rewrite E. unfold tlog. rewrite E. reflexivity.
      + unfold timer_leave. rewrite E. unfold tlog. rewrite E. reflexivity.
    - assert (Hr : rest = []) by (destruct rest; auto; simpl in HL; lia).
      assert (Q2 : forall l', existsb (section_eqb SCoarsest) (open_sections l') = false -> forall bb xx, length bb = top_size ds nc -> length xx = top_size ds nc ->
        apply_levels te prec k false lc rest bb xx l' = (Ok (cyc k ds nc C bb (vzero (top_size ds nc))), tlog te (cycle_log 0) ++ l')).
      { intros l' Ol bb xx Hbb Hxx. rewrite Hr in *. inversion H8 as [lv' a' s' nc' C' G1 G2 G3 G4|]; subst. cbn [top_size apply_levels] in *.
        rewrite map_zero, Hxx. cbn [negb orb].
        unfold pbind at 1. rewrite enter_fresh by auto.
        rewrite (pbind_plift (a := s')) by (rewrite G3; auto).
        rewrite (pbind_plift (a := C bb (vzero (op_dom a')))) by (apply G4; auto; apply vzero_length).
        unfold pbind, pret. destruct (t_present te) eqn:E.
        - rewrite leave_open by (simpl; congruence). rewrite E. unfold tlog. rewrite E. auto.
        - unfold timer_leave. rewrite E. unfold tlog. rewrite E. auto. }
      cbn [apply_levels]. rewrite map_zero, Hx. cbn [negb orb].
      set (x0 := if prec then vzero (fn d) else x).
      assert (Hx0 : length x0 = fn d) by (unfold x0; destruct prec; auto; apply vzero_length).
      destruct (describes_sized H8) as (Z1 & Z2 & (ac & Z3 & Z4)).
      destruct H2 as (A1 & A2 & A3). destruct H6 as (R1 & R2 & R3).
      unfold pbind at 1. rewrite enter_fresh by auto.
      set (l1 := if t_present te then Enter SFine :: l else l).
      assert (Ol1 : existsb (section_eqb SCoarsest) (open_sections l1) = false) by (unfold l1; destruct (t_present te); auto).
      destruct (@smooth_loop_ok k s (fS d) (fn d) b x0 H4 Hb Hx0) as (S1 & S2).
      rewrite (pbind_plift (a := iter k (fS d b) x0)) by (rewrite H3; auto).
      rewrite (pbind_plift (a := vzero (fn d))) by (unfold build_vector; rewrite H1; simpl; rewrite A1; auto).
      rewrite (pbind_plift (a := a)) by (rewrite H1; auto).
      destruct (A3 (iter k (fS d b) x0) (vzero (fn d)) S2 (vzero_length _ _)) as (A4 & A5).
      rewrite (pbind_plift (a := fA d (iter k (fS d b) x0))) by auto.
      set (x1 := iter k (fS d b) x0) in *.
      rewrite (pbind_plift (a := vsub (fA d x1) b)) by (apply vec_add_sub; congruence).
      assert (L2 : length (vsub (fA d x1) b) = fn d) by (rewrite vsub_length; lia).
      rewrite (pbind_plift (a := vzero (top_size ds nc))) by (unfold build_vector; rewrite Z3; simpl; rewrite Z4; auto).
      rewrite (pbind_plift (a := r)) by (rewrite H5; auto).
      destruct (R3 (vsub (fA d x1) b) (vzero (top_size ds nc)) L2 (vzero_length _ _)) as (R4 & R5).
      rewrite (pbind_plift (a := fR d (vsub (fA d x1) b))) by auto.
      rewrite (pbind_plift (a := vzero (top_size ds nc))) by (unfold build_vector; rewrite Z3; simpl; rewrite Z4; auto).
      unfold pbind at 1. rewrite Q2 by (auto; apply vzero_length).
      set (e := cyc k ds nc C (fR d (vsub (fA d x1) b)) (vzero (top_size ds nc))) in *.
      assert (Le : length e = top_size ds nc) by (apply cyc_length; auto; apply vzero_length).
      rewrite (pbind_plift (a := vzero (fn d))) by (unfold build_vector; rewrite H1; simpl; rewrite A1; auto).
      destruct (H7 e (vzero (fn d)) Le (vzero_length _ _)) as (P1 & P2).
      rewrite (pbind_plift (a := fP d e)) by auto.
      rewrite (pbind_plift (a := vsub x1 (fP d e))) by (apply vec_add_sub; congruence).
      assert (L3 : length (vsub x1 (fP d e)) = fn d) by (rewrite vsub_length; lia).
      destruct (@smooth_loop_ok k s (fS d) (fn d) b (vsub x1 (fP d e)) H4 Hb L3) as (S3 & S4).
      rewrite (pbind_plift (a := iter k (fS d b) (vsub x1 (fP d e)))) by (rewrite H3; auto).
      unfold pbind, pret. rewrite Hr. unfold l1, tlog. destruct (t_present te) eqn:E.
      + rewrite leave_open by (simpl; congruence). rewrite ?E. reflexivity.
      + unfold timer_leave. rewrite ?E. reflexivity.
  Qed.
End P.
