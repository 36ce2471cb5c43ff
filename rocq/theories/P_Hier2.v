(** Linearity, fixed points, symmetry and energy of the V-cycle. *)
From Coq Require Import List Arith ZArith Bool Lia Field.
From Verif Require Import Base OField Mat M_Hier S_Hier P_Hier.
Import ListNotations.
Set Implicit Arguments.
Open Scope nat_scope.

Section P.
  Variable K : ofield.
  Add Field KfieldH2 : (f_field K).
  Local Open Scope K_scope.
  Notation vec := (vec K).
  Notation cyc := (@cyc K).
  Notation sized := (@sized K).

  Ltac vx := vext; try ring.

  (** *** Independence of the initial vector *)
  Lemma apply_levels_x_indep : forall te k (lv : level K) rest b x x' l, length x = length x' ->
    apply_levels te true k true lv rest b x l = apply_levels te true k true lv rest b x' l.
  Proof.
    intros te k lv rest b x x' l H.
    destruct rest; cbn [apply_levels]; cbn [negb orb]; rewrite !map_zero, H; auto.
  Qed.

  (** *** Linearity *)
  Definition lc (s : K) (a : vec) (t : K) (b : vec) : vec := vadd (vscale s a) (vscale t b).
  Lemma lc_length : forall s a t b n, length a = n -> length b = n -> length (lc s a t b) = n.
  Proof. intros. unfold lc. vlen. Qed.
  Lemma lin_lc : forall n m f, linear n m f -> forall s a t b, length a = n -> length b = n -> f (lc s a t b) = lc s (f a) t (f b).
  Proof.
    intros n m f H s a t b Ha Hb. unfold lc. rewrite (lin_add H) by (rewrite vscale_length; auto). rewrite !(lin_scale H) by auto. auto.
  Qed.
  Lemma lc_sub : forall s a t b c d n, length a = n -> length b = n -> length c = n -> length d = n ->
    vsub (lc s a t b) (lc s c t d) = lc s (vsub a c) t (vsub b d).
  Proof. intros. unfold lc. vx. Qed.
  Lemma lc_add : forall s a t b c d n, length a = n -> length b = n -> length c = n -> length d = n ->
    vadd (lc s a t b) (lc s c t d) = lc s (vadd a c) t (vadd b d).
  Proof. intros. unfold lc. vx. Qed.
  Lemma lc_zero : forall s t n, lc s (vzero n) t (vzero n) = vzero n.
  Proof. intros. unfold lc. vx. Qed.

  Lemma iter_lc : forall n f, jointly_linear n f -> (forall b x, length b = n -> length x = n -> length (f b x) = n) ->
    forall k s t (b c x y : vec), length b = n -> length c = n -> length x = n -> length y = n ->
    iter k (f (lc s b t c)) (lc s x t y) = lc s (iter k (f b) x) t (iter k (f c) y).
  Proof.
    intros n f H HL. induction k; intros s t b c x y Hb Hc Hx Hy; simpl; auto.
    assert (E : f (lc s b t c) (lc s x t y) = lc s (f b x) t (f c y)) by (apply H; auto). rewrite E. apply IHk; auto.
  Qed.

  Lemma cyc_joint : forall k ds nc C, sized ds nc -> linear_levels ds nc -> jointly_linear nc C ->
    (forall b x, length b = nc -> length x = nc -> length (C b x) = nc) ->
    jointly_linear (top_size ds nc) (cyc k ds nc C).
  Proof.
    induction ds as [|d ds IH]; intros nc C Hs HL HC HCl; [exact HC|].
    cbn [top_size]. destruct HL as (L1 & L2 & L3 & L4 & L5). pose proof Hs as Hs0. destruct Hs as (S1 & S2 & S3 & S4 & S5).
    intros s t b c x y Hb Hc Hx Hy. fold (lc s b t c). fold (lc s x t y). cbn [P_Hier.cyc].
    assert (Mb : forall b, length b = fn d -> maps (fn d) (fn d) (fS d b)) by (intros b0 Hb0 z Hz; auto).
    rewrite (iter_lc L2) by auto.
    set (x1 := iter k (fS d b) x). set (y1 := iter k (fS d c) y).
    assert (Hx1 : length x1 = fn d) by (apply iter_length; auto).
    assert (Hy1 : length y1 = fn d) by (apply iter_length; auto).
    rewrite (lin_lc L1) by auto.
    assert (HAx : length (fA d x1) = fn d) by auto. assert (HAy : length (fA d y1) = fn d) by auto.
    rewrite (@lc_sub _ _ _ _ _ _ (fn d)) by auto.
    assert (Hr1 : length (vsub (fA d x1) b) = fn d) by (rewrite vsub_length; lia).
    assert (Hr2 : length (vsub (fA d y1) c) = fn d) by (rewrite vsub_length; lia).
    rewrite (lin_lc L3) by auto.
    specialize (IH nc C S5 L5 HC HCl).
    assert (Hz : length (vzero (top_size ds nc) : vec) = top_size ds nc) by apply vzero_length.
    set (e1 := cyc k ds nc C (fR d (vsub (fA d x1) b)) (vzero (top_size ds nc))).
    set (e2 := cyc k ds nc C (fR d (vsub (fA d y1) c)) (vzero (top_size ds nc))).
    assert (He1 : length e1 = top_size ds nc) by (apply cyc_length; auto).
    assert (He2 : length e2 = top_size ds nc) by (apply cyc_length; auto).
    assert (E : cyc k ds nc C (lc s (fR d (vsub (fA d x1) b)) t (fR d (vsub (fA d y1) c))) (vzero (top_size ds nc)) = lc s e1 t e2)
      by (rewrite <- (lc_zero s t (top_size ds nc)) at 1; apply IH; auto).
    rewrite E. rewrite (lin_lc L4) by auto.
    assert (Hp1 : length (fP d e1) = fn d) by auto. assert (Hp2 : length (fP d e2) = fn d) by auto.
    rewrite (@lc_sub _ _ _ _ _ _ (fn d)) by auto.
    apply (iter_lc L2); auto; rewrite vsub_length; lia.
  Qed.

  (** *** The textbook form *)
  Lemma vsub_opp : forall a b : vec, length a = length b -> vsub a b = vscale (- (1)) (vsub b a).
  Proof. intros. vx. Qed.

  Lemma jl_odd : forall n f, jointly_linear n f -> (forall b x, length b = n -> length x = n -> length (f b x) = n) ->
    forall (b : vec), length b = n -> f (vscale (- (1)) b) (vzero n) = vscale (- (1)) (f b (vzero n)).
  Proof.
    intros n f H HL b Hb.
    assert (Hz : length (vzero n : vec) = n) by apply vzero_length.
    pose proof (H (- (1)) 0 b b (vzero n) (vzero n) Hb Hb Hz Hz) as E.
    replace (vadd (vscale (- (1)) b) (vscale 0 b)) with (vscale (- (1)) b) in E by (vx).
    replace (vadd (vscale (- (1)) (vzero n : vec)) (vscale 0 (vzero n))) with (vzero n : vec) in E by (vx).
    rewrite E. assert (Hf : length (f b (vzero n)) = n) by auto. vx.
  Qed.

  Lemma cyc_textbook : forall k ds nc C, sized ds nc -> linear_levels ds nc -> jointly_linear nc C ->
    (forall b x, length b = nc -> length x = nc -> length (C b x) = nc) ->
    forall b x, length b = top_size ds nc -> length x = top_size ds nc ->
    cyc k ds nc C b x = textbook_vcycle k ds nc C b x.
  Proof.
    induction ds as [|d ds IH]; intros nc C Hs HL HC HCl b x Hb Hx; [reflexivity|].
    cbn [top_size] in *. pose proof HL as (L1 & L2 & L3 & L4 & L5). pose proof Hs as (S1 & S2 & S3 & S4 & S5).
    cbn [P_Hier.cyc textbook_vcycle].
    assert (Mb : maps (fn d) (fn d) (fS d b)) by (intros z Hz; auto).
    set (x1 := iter k (fS d b) x). assert (Hx1 : length x1 = fn d) by (apply iter_length; auto).
    f_equal. assert (HA : length (fA d x1) = fn d) by auto.
    assert (Hr : length (vsub b (fA d x1)) = fn d) by (rewrite vsub_length; lia).
    assert (Hz : length (vzero (top_size ds nc) : vec) = top_size ds nc) by apply vzero_length.
    rewrite (vsub_opp (fA d x1) b) by congruence. rewrite (lin_scale L3) by auto.
    pose proof (@cyc_joint k _ _ _ S5 L5 HC HCl) as J.
    rewrite (jl_odd J) by (auto; intros; apply cyc_length; auto).
    rewrite IH by auto.
    set (e := textbook_vcycle k ds nc C (fR d (vsub b (fA d x1))) (vzero (top_size ds nc))).
    assert (He : length e = top_size ds nc). { unfold e. rewrite <- IH; auto. apply cyc_length; auto. }
    rewrite (lin_scale L4) by auto. assert (Hp : length (fP d e) = fn d) by auto. vx.
  Qed.

  (** *** Exact solutions are kept *)
  Lemma iter_fix : forall k (f : vec -> vec) x, f x = x -> iter k f x = x.
  Proof. induction k; simpl; intros; auto. rewrite H. auto. Qed.

  Lemma cyc_fixed : forall k (ds : list (fine K)) nc (C : vec -> vec -> vec), zero_levels ds nc -> C (vzero nc) (vzero nc) = vzero nc -> sized ds nc ->
    cyc k ds nc C (vzero (top_size ds nc)) (vzero (top_size ds nc)) = vzero (top_size ds nc) /\
    forall d ds', ds = d :: ds' -> forall x, length x = fn d -> cyc k ds nc C (fA d x) x = x.
  Proof.
    induction ds as [|d ds IH]; intros nc C HZ HC Hs.
    - split; auto. discriminate.
    - destruct HZ as (Z1 & Z2 & Z3 & Z4 & Z5). destruct Hs as (S1 & S2 & S3 & S4 & S5).
      destruct (IH nc C Z5 HC S5) as (I1 & _).
      assert (G : forall x, length x = fn d -> cyc k (d :: ds) nc C (fA d x) x = x).
      { intros x Hx. cbn [P_Hier.cyc]. rewrite (@iter_fix k (fS d (fA d x)) x) by auto.
        rewrite vsub_self. rewrite S1 by auto. rewrite Z3, I1, Z4. rewrite vsub_zero_r by auto. apply iter_fix. auto. }
      split.
      + cbn [top_size]. rewrite <- Z1 at 1. apply G. apply vzero_length.
      + intros d0 ds0 E x Hx. inversion E; subst. auto.
  Qed.

  (** *** Sequences of corrections *)
  Section Corrections.
    Variable n : nat.
    Variable A : vec -> vec.
    Hypothesis HA : linear n n A.

    (** x, then x - D (A x - b) for the corrections D in order. *)
    Fixpoint run (l : list (vec -> vec)) (b x : vec) : vec :=
      match l with [] => x | D :: l' => run l' b (correction_step A D b x) end.
    Definition all_lin (l : list (vec -> vec)) : Prop := Forall (fun D => linear n n D) l.

    Lemma cstep_length : forall D b x, linear n n D -> length b = n -> length x = n -> length (correction_step A D b x) = n.
    Proof.
      intros D b x HD Hb Hx. unfold correction_step. pose proof (lin_len HA x Hx).
      assert (length (vsub (A x) b) = n) by vlen. pose proof (lin_len HD _ H0). vlen.
    Qed.
    Lemma run_length : forall l b x, all_lin l -> length b = n -> length x = n -> length (run l b x) = n.
    Proof. induction l; simpl; intros b x Hl Hb Hx; auto. inversion Hl; subst. apply IHl; auto. apply cstep_length; auto. Qed.
    Lemma run_app : forall l1 l2 b x, run (l1 ++ l2) b x = run l2 b (run l1 b x).
    Proof. induction l1; simpl; auto. Qed.
    Lemma run_repeat : forall k D b x, run (repeat D k) b x = iter k (correction_step A D b) x.
    Proof. induction k; simpl; auto. Qed.

    (** Starting from x is the same as solving for the residual from 0. *)
    Lemma run_shift : forall l b x y, all_lin l -> length b = n -> length x = n -> length y = n ->
      run l b (vadd x y) = vadd x (run l (vsub b (A x)) y).
    Proof.
      induction l as [|D l IH]; simpl; intros b x y Hl Hb Hx Hy; auto. inversion Hl; subst.
      pose proof (lin_len HA x Hx) as LA. pose proof (lin_len HA y Hy) as LB.
      rewrite <- IH by (auto; apply cstep_length; auto; vlen). f_equal. unfold correction_step.
      rewrite (lin_add HA) by auto.
      assert (E : vsub (vadd (A x) (A y)) b = vsub (A y) (vsub b (A x))) by vx.
      rewrite E. set (z := vsub (A y) (vsub b (A x))). assert (Hz : length z = n) by (unfold z; vlen).
      pose proof (lin_len H1 z Hz). vx.
    Qed.

    Definition M (l : list (vec -> vec)) (b : vec) : vec := run l b (vzero n).
    Lemma M_length : forall l b, all_lin l -> length b = n -> length (M l b) = n.
    Proof. intros. apply run_length; auto. apply vzero_length. Qed.

    Lemma M_cons : forall D l b, linear n n D -> all_lin l -> length b = n -> M (D :: l) b = vadd (D b) (M l (vsub b (A (D b)))).
    Proof.
      intros D l b HD Hl Hb. unfold M. simpl. pose proof (lin_len HD b Hb) as L1.
      rewrite <- run_shift by (auto; apply vzero_length). f_equal.
      rewrite vadd_zero_r by auto. unfold correction_step. rewrite (lin_zero HA).
      assert (E : vsub (vzero n) b = vscale (- (1)) b) by vx. rewrite E. rewrite (lin_scale HD) by auto. vx.
    Qed.
    Lemma M_snoc : forall D l b, linear n n D -> all_lin l -> length b = n -> M (l ++ [D]) b = vadd (M l b) (D (vsub b (A (M l b)))).
    Proof.
      intros D l b HD Hl Hb. unfold M. rewrite run_app. simpl. fold (M l b). unfold correction_step.
      pose proof (@M_length _ _ Hl Hb) as LM. pose proof (lin_len HA _ LM) as LA.
      rewrite (vsub_opp (A (M l b)) b) by congruence. rewrite (lin_scale HD) by vlen.
      assert (Hz : length (vsub b (A (M l b))) = n) by vlen. pose proof (lin_len HD _ Hz). vx.
    Qed.

    (** Reversing the order of symmetric corrections gives the transpose. *)
    Lemma M_adjoint : self_adjoint n A -> forall l, all_lin l -> Forall (self_adjoint n) l ->
      adjoint n n (M l) (M (rev l)).
    Proof.
      intros SA. induction l as [|D l IH] using rev_ind; intros Hl Hs b c Hb Hc.
      - simpl. unfold M; simpl. rewrite dot_zero_l, dot_zero_r. auto.
      - apply Forall_app in Hl. destruct Hl as (Hl & HD). inversion HD; subst. apply Forall_app in Hs. destruct Hs as (Hs & HsD).
        inversion HsD as [|? ? SD]; subst. specialize (IH Hl Hs).
        rewrite rev_app_distr. simpl. assert (Hlr : all_lin (rev l)) by (apply Forall_rev; auto).
        rewrite M_snoc, M_cons by auto.
        pose proof (@M_length _ _ Hl Hb) as LM. pose proof (lin_len HA _ LM) as LA.
        pose proof (lin_len H1 _ Hc) as LD. pose proof (lin_len HA _ LD) as LAD.
        assert (L2 : length (vsub b (A (M l b))) = n) by vlen. assert (L3 : length (vsub c (A (D c))) = n) by vlen.
        pose proof (lin_len H1 _ L2) as L4. pose proof (@M_length _ _ Hlr L3) as L5.
        rewrite dot_add_l by congruence. rewrite dot_add_r by congruence. rewrite <- IH by auto.
        rewrite (SD (vsub b (A (M l b))) c) by auto. rewrite dot_sub_l by congruence. rewrite dot_sub_r by congruence.
        rewrite (SA (M l b) (D c)) by auto. ring.
    Qed.

    (** Error propagation. *)
    Lemma cstep_error : forall D x e, linear n n D -> length x = n -> length e = n ->
      correction_step A D (A x) (vadd x e) = vadd x (error_step A D e).
    Proof.
      intros D x e HD Hx He. unfold correction_step, error_step. rewrite (lin_add HA) by auto.
      pose proof (lin_len HA _ Hx) as L1. pose proof (lin_len HA _ He) as L2.
      assert (E : vsub (vadd (A x) (A e)) (A x) = A e) by vx. rewrite E. pose proof (lin_len HD _ L2). vx.
    Qed.
  End Corrections.

  (** *** The cycle as a sequence of corrections *)
  Lemma cyc_run : forall k d ds nc C B, linear (fn d) (fn d) (fA d) -> linear (fn d) (fn d) B ->
    (forall b x, length b = fn d -> length x = fn d -> fS d b x = correction_step (fA d) B b x) ->
    forall b x, length b = fn d -> length x = fn d ->
    linear (fn d) (fn d) (fun r => fP d (cyc k ds nc C (fR d r) (vzero (top_size ds nc)))) ->
    cyc k (d :: ds) nc C b x =
      run (fA d) (repeat B k ++ (fun r => fP d (cyc k ds nc C (fR d r) (vzero (top_size ds nc)))) :: repeat B k) b x.
  Proof.
    intros k d ds nc C B HA HB HS b x Hb Hx HD. cbn [P_Hier.cyc].
    set (D := fun r => fP d (cyc k ds nc C (fR d r) (vzero (top_size ds nc)))) in *.
    assert (Hm : maps (fn d) (fn d) (fS d b)). { intros z Hz. rewrite HS by auto. apply cstep_length; auto. }
    rewrite run_app. cbn [run]. rewrite !run_repeat.
    rewrite (@iter_ext K k (fn d) _ (correction_step (fA d) B b) x Hm) by auto.
    set (x1 := iter k (correction_step (fA d) B b) x).
    change (fP d (cyc k ds nc C (fR d (vsub (fA d x1) b)) (vzero (top_size ds nc)))) with (D (vsub (fA d x1) b)).
    change (vsub x1 (D (vsub (fA d x1) b))) with (correction_step (fA d) D b x1).
    apply (@iter_ext K k (fn d) _ _ _ Hm); auto. apply cstep_length; auto.
    apply iter_length; auto. intros z Hz. apply cstep_length; auto.
  Qed.

  Lemma jl_linear : forall n f, jointly_linear n f -> (forall b x, length b = n -> length x = n -> length (f b x) = n) ->
    linear n n (fun b : vec => f b (vzero n)).
  Proof.
    intros n f H HL. assert (Hz : length (vzero n : vec) = n) by apply vzero_length. constructor; auto.
    - intros x y Hx Hy. pose proof (H 1 1 x y (vzero n) (vzero n) Hx Hy Hz Hz) as E.
      rewrite !vscale_1 in E. rewrite vadd_zero_r in E by auto. auto.
    - intros s x Hx. pose proof (H s 0 x x (vzero n) (vzero n) Hx Hx Hz Hz) as E.
      replace (vadd (vscale s x) (vscale 0 x)) with (vscale s x) in E by vx.
      replace (vadd (vscale s (vzero n : vec)) (vscale 0 (vzero n))) with (vzero n : vec) in E by vx.
      rewrite E. assert (length (f x (vzero n)) = n) by auto. vx.
  Qed.

  Lemma symmetric_linear : forall ds nc, symmetric_levels ds nc -> sized ds nc -> @linear_levels K ds nc.
  Proof.
    induction ds as [|d ds IH]; intros nc H Hs; [exact I|].
    destruct H as (H1 & H2 & (B & HB1 & HB2 & HB3) & H4 & H5 & H6 & H7). destruct Hs as (S1 & S2 & S3 & S4 & S5).
    split; auto. split; [|split; [|split]]; auto.
    intros s t b c x y Hb Hc Hx Hy. fold (lc s b t c). fold (lc s x t y). rewrite !HB3 by (auto using lc_length).
    fold (lc s (correction_step (fA d) B b x) t (correction_step (fA d) B c y)). unfold correction_step.
    rewrite (lin_lc H1) by auto. assert (length (fA d x) = fn d) by auto. assert (length (fA d y) = fn d) by auto.
    rewrite (@lc_sub _ _ _ _ _ _ (fn d)) by auto.
    assert (L1 : length (vsub (fA d x) b) = fn d) by vlen. assert (L2 : length (vsub (fA d y) c) = fn d) by vlen.
    rewrite (lin_lc HB1) by auto. apply (@lc_sub _ _ _ _ _ _ (fn d)); auto; apply (lin_len HB1); auto.
  Qed.

  Definition coarse_length (nc : nat) (C : vec -> vec -> vec) : Prop := forall b x, length b = nc -> length x = nc -> length (C b x) = nc.

  (** The map b -> cycle result from x = 0 is linear. *)
  Lemma cyc_linear : forall k ds nc C, sized ds nc -> linear_levels ds nc -> jointly_linear nc C -> coarse_length nc C ->
    linear (top_size ds nc) (top_size ds nc) (fun b => cyc k ds nc C b (vzero (top_size ds nc))).
  Proof.
    intros k ds nc C Hs HL HC HCl. apply (jl_linear (@cyc_joint k _ _ _ Hs HL HC HCl)). intros. apply cyc_length; auto.
  Qed.

  Lemma coarse_corr_linear : forall k d ds nc C, sized (d :: ds) nc -> linear_levels (d :: ds) nc -> jointly_linear nc C -> coarse_length nc C ->
    linear (fn d) (fn d) (fun r => fP d (cyc k ds nc C (fR d r) (vzero (top_size ds nc)))).
  Proof.
    intros k d ds nc C Hs HL HC HCl. destruct HL as (L1 & L2 & L3 & L4 & L5). destruct Hs as (S1 & S2 & S3 & S4 & S5).
    pose proof (@cyc_linear k _ _ _ S5 L5 HC HCl) as G. exact (linear_comp L3 (linear_comp G L4)).
  Qed.

  Lemma cyc_symmetric : forall k ds nc C, sized ds nc -> symmetric_levels ds nc -> jointly_linear nc C -> coarse_length nc C ->
    self_adjoint nc (fun b => C b (vzero nc)) ->
    self_adjoint (top_size ds nc) (fun b => cyc k ds nc C b (vzero (top_size ds nc))).
  Proof.
    induction ds as [|d ds IH]; intros nc C Hs HS HC HCl HCs; [exact HCs|].
    pose proof (@symmetric_linear (d :: ds) _ HS Hs) as HL.
    destruct HS as (H1 & H2 & (B & HB1 & HB2 & HB3) & H4 & H5 & H6 & H7).
    pose proof (@coarse_corr_linear k _ _ _ _ Hs HL HC HCl) as HD.
    destruct Hs as (S1 & S2 & S3 & S4 & S5). specialize (IH nc C S5 H7 HC HCl HCs).
    cbn [top_size]. set (D := fun r => fP d (cyc k ds nc C (fR d r) (vzero (top_size ds nc)))) in *.
    assert (SD : self_adjoint (fn d) D).
    { intros x y Hx Hy. unfold D. set (m := top_size ds nc) in *.
      assert (Lx : length (fR d x) = m) by auto. assert (Ly : length (fR d y) = m) by auto.
      assert (Lcx : length (cyc k ds nc C (fR d x) (vzero m)) = m) by (apply cyc_length; auto; apply vzero_length).
      assert (Lcy : length (cyc k ds nc C (fR d y) (vzero m)) = m) by (apply cyc_length; auto; apply vzero_length).
      rewrite dot_comm. rewrite <- (H6 y _ Hy Lcx). rewrite dot_comm. rewrite (IH _ _ Lx Ly). rewrite <- (H6 x _ Hx Lcy). auto. }
    set (l := repeat B k ++ D :: repeat B k).
    assert (Hl : all_lin (fn d) l). { unfold l. apply Forall_app. split; [|constructor; auto]; apply Forall_forall; intros f Hf; apply repeat_spec in Hf; subst; auto. }
    assert (Hsl : Forall (self_adjoint (fn d)) l). { unfold l. apply Forall_app. split; [|constructor; auto]; apply Forall_forall; intros f Hf; apply repeat_spec in Hf; subst; auto. }
    assert (Hrev : rev l = l).
    { unfold l. rewrite rev_app_distr. simpl. rewrite <- app_assoc. simpl.
      assert (RR : forall j, rev (repeat B j) = repeat B j).
      { induction j; auto. simpl. rewrite IHj. clear. induction j; simpl; auto. rewrite IHj. auto. }
      rewrite RR. auto. }
    intros b c Hb Hc.
    rewrite !(@cyc_run k _ ds nc C _ H1 HB1 HB3) by (auto; apply vzero_length). fold D. fold l.
    pose proof (M_adjoint H1 H2 Hl Hsl) as Adj. rewrite Hrev in Adj. apply (Adj b c); auto.
  Qed.

  (** *** Error propagation *)
  Lemma iter_error : forall k n A B, linear n n A -> linear n n B -> forall x e : vec, length x = n -> length e = n ->
    iter k (correction_step A B (A x)) (vadd x e) = vadd x (iter k (error_step A B) e) /\ length (iter k (error_step A B) e) = n.
  Proof.
    intros k n A B HA HB. induction k; intros x e Hx He; simpl; auto.
    rewrite (@cstep_error n A HA B x e HB) by auto. apply IHk; auto. unfold error_step.
    pose proof (lin_len HA _ He) as L. pose proof (lin_len HB _ L). vlen.
  Qed.

  (** One cycle maps the error e to G^k (e' - P Mc R A e') with e' = G^k e, whatever is done on the coarser levels. *)
  Lemma cyc_error : forall k d ds nc C B, sized (d :: ds) nc -> coarse_length nc C -> linear (fn d) (fn d) (fA d) -> linear (fn d) (fn d) B ->
    (forall b x, length b = fn d -> length x = fn d -> fS d b x = correction_step (fA d) B b x) ->
    forall x e, length x = fn d -> length e = fn d ->
    let e1 := iter k (error_step (fA d) B) e in
    let e2 := vsub e1 (fP d (cyc k ds nc C (fR d (fA d e1)) (vzero (top_size ds nc)))) in
    cyc k (d :: ds) nc C (fA d x) (vadd x e) = vadd x (iter k (error_step (fA d) B) e2).
  Proof.
    intros k d ds nc C B Hs HCl HA HB HS x e Hx He e1 e2. destruct Hs as (S1 & S2 & S3 & S4 & S5). cbn [P_Hier.cyc].
    assert (Hb : length (fA d x) = fn d) by auto.
    assert (Hm : maps (fn d) (fn d) (fS d (fA d x))) by (intros z Hz; auto).
    rewrite (@iter_ext K k (fn d) _ (correction_step (fA d) B (fA d x)) (vadd x e) Hm) by (auto; vlen).
    destruct (@iter_error k _ _ _ HA HB x e Hx He) as (E1 & L1). rewrite E1. fold e1 in L1 |- *.
    rewrite (lin_add HA) by auto. assert (LA : length (fA d e1) = fn d) by auto.
    assert (E2 : vsub (vadd (fA d x) (fA d e1)) (fA d x) = fA d e1) by vx. rewrite E2.
    set (c := fP d (cyc k ds nc C (fR d (fA d e1)) (vzero (top_size ds nc)))) in *.
    assert (Lc : length c = fn d). { unfold c. apply S4. apply cyc_length; auto. apply vzero_length. }
    assert (L2 : length e2 = fn d) by (unfold e2; vlen).
    assert (E3 : vsub (vadd x e1) c = vadd x e2) by (unfold e2; vx). rewrite E3.
    rewrite (@iter_ext K k (fn d) _ (correction_step (fA d) B (fA d x)) (vadd x e2) Hm) by (auto; vlen).
    destruct (@iter_error k _ _ _ HA HB x e2 Hx L2) as (E4 & _). auto.
  Qed.

  (** *** Energy *)
  Lemma energy_add : forall n A, linear n n A -> self_adjoint n A -> forall a b : vec, length a = n -> length b = n ->
    energy A (vadd a b) = energy A a + (1 + 1) * dot (A a) b + energy A b.
  Proof.
    intros n A HA SA a b Ha Hb. unfold energy. rewrite (lin_add HA) by auto.
    pose proof (lin_len HA _ Ha) as L1. pose proof (lin_len HA _ Hb) as L2.
    rewrite dot_add_l by congruence. rewrite !dot_add_r by congruence.
    rewrite (SA b a) by auto. rewrite (dot_comm b). ring.
  Qed.

  Lemma stable_iter : forall k n (A : vec -> vec) (f : vec -> vec -> vec), maps n n A -> stable_step n A f -> forall x e, length x = n -> length e = n ->
    exists e', length e' = n /\ iter k (f (A x)) (vadd x e) = vadd x e' /\ energy A e' <= energy A e.
  Proof.
    intros k n A f HA Hf. induction k; intros x e Hx He; simpl.
    - exists e. split; auto. split; auto. apply fle_refl.
    - destruct (Hf x e Hx He) as (e1 & L1 & E1 & N1). rewrite E1. destruct (IHk x e1 Hx L1) as (e2 & L2 & E2 & N2).
      exists e2. split; auto. split; auto. eapply fle_trans; eauto.
  Qed.

  (** One level on top of a stable cycle: the error after pre-smoothing bounds the error at the end. *)
  Lemma cyc_level : forall k (d : fine K) (ds : list (fine K)) nc (C : vec -> vec -> vec) (Ac : vec -> vec), sized (d :: ds) nc -> coarse_length nc C -> sym_ops (d :: ds) nc ->
    linear nc nc Ac -> self_adjoint nc Ac ->
    galerkin_levels (d :: ds) nc Ac -> solvable_levels (d :: ds) nc Ac -> stable_smoothers (d :: ds) ->
    stable_step (top_size ds nc) (top_op ds Ac) (cyc k ds nc C) ->
    forall x e, length x = fn d -> length e = fn d ->
    exists e1 e', length e1 = fn d /\ length e' = fn d /\ iter k (fS d (fA d x)) (vadd x e) = vadd x e1 /\
      cyc k (d :: ds) nc C (fA d x) (vadd x e) = vadd x e' /\
      energy (fA d) e' <= energy (fA d) e1 /\ energy (fA d) e1 <= energy (fA d) e.
  Proof.
    intros k d ds nc C Ac Hs HCl HY LAc SAc HG HV HT IH.
    destruct Hs as (S1 & S2 & S3 & S4 & S5). destruct HY as (Y1 & Y2 & Y3 & Y4 & Y5 & Y6).
    destruct HG as (G1 & G2). destruct HV as (V1 & V2). destruct HT as (T1 & T2).
    set (m := top_size ds nc) in *. set (A1 := top_op ds Ac) in *.
    assert (LA1 : linear m m A1). { unfold m, A1. destruct ds; simpl; auto. destruct Y6; auto. }
    assert (SA1 : self_adjoint m A1). { unfold m, A1. destruct ds; simpl; auto. destruct Y6 as (_ & ? & _); auto. }
    assert (Gal : forall x, length x = m -> A1 x = fR d (fA d (fP d x))). { intros x Hx. rewrite <- G1 by auto. unfold A1, top_op. destruct ds; auto. }
    intros x e Hx He. cbn [P_Hier.cyc].
    destruct (@stable_iter k _ _ _ S1 T1 x e Hx He) as (e1 & L1 & E1 & N1). rewrite E1.
    assert (LAe1 : length (fA d e1) = fn d) by auto. assert (LAx : length (fA d x) = fn d) by auto.
    rewrite (lin_add Y1) by auto.
    assert (E2 : vsub (vadd (fA d x) (fA d e1)) (fA d x) = fA d e1) by vx. rewrite E2.
    destruct (V1 e1 L1) as (z & Lz & Ez). fold A1 in Ez. rewrite Ez. fold m.
    (* the coarse cycle started from 0 solves A1 y = A1 z with error -z *)
    assert (Lmz : length (vscale (- (1)) z) = m) by vlen.
    destruct (IH z (vscale (- (1)) z) Lz Lmz) as (w & Lw & Ew & Nw). fold A1 in Ew.
    assert (E3 : vadd z (vscale (- (1)) z) = vzero m) by vx. rewrite E3 in Ew. rewrite Ew.
    assert (Nz : energy A1 (vscale (- (1)) z) = energy A1 z).
    { unfold energy. rewrite (lin_scale LA1) by auto. rewrite dot_scale_l, dot_scale_r. ring. }
    rewrite Nz in Nw.
    (* split the error orthogonally *)
    assert (LPz : length (fP d z) = fn d) by auto. assert (LPw : length (fP d w) = fn d) by auto.
    set (g := vsub e1 (fP d z)). assert (Lg : length g = fn d) by (unfold g; vlen).
    assert (Orth : forall u, length u = m -> dot (fA d g) (fP d u) = 0).
    { intros u Hu. assert (LAg : length (fA d g) = fn d) by auto. rewrite <- (Y5 (fA d g) u LAg Hu).
      unfold g. rewrite (lin_sub Y1) by auto. assert (LAP : length (fA d (fP d z)) = fn d) by auto.
      rewrite (lin_sub Y3) by auto. rewrite Ez, Gal by auto. rewrite vsub_self. apply dot_zero_l. }
    assert (EnP : forall u, length u = m -> energy (fA d) (fP d u) = energy A1 u).
    { intros u Hu. unfold energy. assert (LPu : length (fP d u) = fn d) by auto.
      assert (LAPu : length (fA d (fP d u)) = fn d) by auto. rewrite <- (Y5 _ u LAPu Hu). rewrite Gal by auto. auto. }
    set (e2 := vsub g (fP d w)). assert (L2 : length e2 = fn d) by (unfold e2; vlen).
    assert (Ee2 : energy (fA d) e2 = energy (fA d) g + energy A1 w).
    { unfold e2. rewrite vsub_as_add by congruence. rewrite (energy_add Y1 Y2) by (auto; vlen).
      rewrite dot_scale_r, Orth by auto.
      assert (X : energy (fA d) (vscale (- (1)) (fP d w)) = energy (fA d) (fP d w)).
      { unfold energy. rewrite (lin_scale Y1) by auto. rewrite dot_scale_l, dot_scale_r. ring. }
      rewrite X, EnP by auto. ring. }
    assert (Ee1 : energy (fA d) e1 = energy (fA d) g + energy A1 z).
    { replace e1 with (vadd g (fP d z)) at 1 by (unfold g; vx). rewrite (energy_add Y1 Y2) by auto. rewrite Orth, EnP by auto. ring. }
    assert (N2 : energy (fA d) e2 <= energy (fA d) e1).
    { rewrite Ee2, Ee1. apply fle_add2; [apply fle_refl|auto]. }
    rewrite (lin_add Y4) by auto.
    assert (E4 : vsub (vadd x e1) (vadd (fP d z) (fP d w)) = vadd x e2) by (unfold e2, g; vx). rewrite E4.
    destruct (@stable_iter k _ _ _ S1 T1 x e2 Hx L2) as (e3 & L3 & E5 & N3). rewrite E5. exists e1, e3. split; auto. split; auto. split; auto. split; auto. split; auto.
    eapply fle_trans; [exact N3|exact N2].
  Qed.

  Lemma cyc_stable : forall k (ds : list (fine K)) nc (C : vec -> vec -> vec) (Ac : vec -> vec), sized ds nc -> coarse_length nc C -> sym_ops ds nc ->
    linear nc nc Ac -> self_adjoint nc Ac ->
    galerkin_levels ds nc Ac -> solvable_levels ds nc Ac -> stable_smoothers ds -> stable_step nc Ac C ->
    stable_step (top_size ds nc) (top_op ds Ac) (cyc k ds nc C).
  Proof.
    induction ds as [|d ds IH]; intros nc C Ac Hs HCl HY LAc SAc HG HV HT HC; [exact HC|].
    assert (HI : stable_step (top_size ds nc) (top_op ds Ac) (cyc k ds nc C)).
    { destruct Hs as (S1 & S2 & S3 & S4 & S5). destruct HY as (Y1 & Y2 & Y3 & Y4 & Y5 & Y6).
      destruct HG as (G1 & G2). destruct HV as (V1 & V2). destruct HT as (T1 & T2). auto. }
    intros x e Hx He. cbn [top_size top_op] in *.
    destruct (@cyc_level k d ds nc C Ac Hs HCl HY LAc SAc HG HV HT HI x e Hx He) as (e1 & e' & L1 & L2 & E1 & E2 & N1 & N2).
    exists e'. split; auto. split; auto. eapply fle_trans; eauto.
  Qed.

  Lemma cyc_strict : forall k (d : fine K) (ds : list (fine K)) nc (C : vec -> vec -> vec) (Ac : vec -> vec), sized (d :: ds) nc -> coarse_length nc C -> sym_ops (d :: ds) nc ->
    linear nc nc Ac -> self_adjoint nc Ac ->
    galerkin_levels (d :: ds) nc Ac -> solvable_levels (d :: ds) nc Ac -> stable_smoothers (d :: ds) -> stable_step nc Ac C ->
    strict_step (fn d) (fA d) (fS d) -> (0 < k)%nat ->
    strict_step (fn d) (fA d) (cyc k (d :: ds) nc C).
  Proof.
    intros k d ds nc C Ac Hs HCl HY LAc SAc HG HV HT HC HX Hk x e Hx He Hn.
    assert (HI : stable_step (top_size ds nc) (top_op ds Ac) (cyc k ds nc C)).
    { destruct Hs as (S1 & S2 & S3 & S4 & S5). destruct HY as (Y1 & Y2 & Y3 & Y4 & Y5 & Y6).
      destruct HG as (G1 & G2). destruct HV as (V1 & V2). destruct HT as (T1 & T2). apply cyc_stable; auto. }
    destruct (@cyc_level k d ds nc C Ac Hs HCl HY LAc SAc HG HV HT HI x e Hx He) as (e1 & e' & L1 & L2 & E1 & E2 & N1 & N2).
    exists e'. split; auto. split; auto. eapply fle_lt_trans; [exact N1|].
    destruct k as [|k]; [lia|]. cbn [iter] in E1. destruct (HX x e Hx He Hn) as (e0 & L0 & E0 & N0). rewrite E0 in E1.
    destruct HT as (T1 & _). destruct Hs as (S1 & _).
    destruct (@stable_iter k _ _ _ S1 T1 x e0 Hx L0) as (e3 & L3 & E3 & N3). rewrite E3 in E1.
    assert (e3 = e1).
    { apply vec_ext; [congruence|]. intros i Hi. pose proof (f_equal (fun v => nth i v 0) E1) as Q. cbv beta in Q.
      rewrite !nth_vadd in Q by vlen. transitivity ((nth i x 0 + nth i e3 0) - nth i x 0); [ring|]. rewrite Q. ring. }
    subst e3. eapply fle_lt_trans; [exact N3|exact N0].
  Qed.

  (** A cycle that reduces every nonzero error is a positive definite preconditioner on the range of A. *)
  Lemma strict_pd : forall n (A : vec -> vec) (f : vec -> vec -> vec), linear n n A -> self_adjoint n A -> (forall e : vec, length e = n -> 0 <= energy A e) -> strict_step n A f ->
    forall x : vec, length x = n -> x <> vzero n -> length (f (A x) (vzero n)) = n -> 0 < dot (f (A x) (vzero n)) (A x).
  Proof.
    intros n A f HA SA HP Hf x Hx Hn HL. assert (Hmx : length (vscale (- (1)) x) = n) by vlen.
    assert (Hmn : vscale (- (1)) x <> vzero n).
    { intros E. apply Hn. transitivity (vscale (- (1)) (vscale (- (1)) x)); [vx|]. rewrite E. vx. }
    destruct (Hf x (vscale (- (1)) x) Hx Hmx Hmn) as (w & Lw & Ew & Nw).
    assert (E3 : vadd x (vscale (- (1)) x) = vzero n) by vx. rewrite E3 in Ew. set (y := f (A x) (vzero n)) in *.
    assert (Ew2 : w = vadd y (vscale (- (1)) x)) by (rewrite Ew; vx).
    assert (Nz : energy A (vscale (- (1)) x) = energy A x).
    { unfold energy. rewrite (lin_scale HA) by auto. rewrite dot_scale_l, dot_scale_r. ring. }
    rewrite Nz in Nw. rewrite Ew2 in Nw. rewrite (energy_add HA SA) in Nw by auto. rewrite dot_scale_r, Nz in Nw.
    apply flt_sub_0 in Nw.
    replace (dot y (A x)) with (dot (A y) x). 2:{ rewrite SA; auto. }
    assert (P2 : 0 < (1 + 1) * dot (A y) x).
    { replace ((1 + 1) * dot (A y) x) with ((energy A x - (energy A y + (1 + 1) * (- (1) * dot (A y) x) + energy A x)) + energy A y) by ring.
      apply fadd_pos; auto. }
    destruct (flt_total K 0 (dot (A y) x)) as [G|[G|G]]; auto; exfalso.
    - rewrite <- G in P2. replace ((1 + 1) * 0) with (0 : K) in P2 by ring. exact (flt_irrefl P2).
    - apply (@flt_irrefl K 0). eapply flt_le_trans; [exact P2|]. apply flt_le in G.
      replace ((1 + 1) * dot (A y) x) with (dot (A y) x + dot (A y) x) by ring.
      replace (0 : K) with (0 + 0 : K) by ring. apply fle_add2; auto.
  Qed.

  (** The cycle as a preconditioner is positive semidefinite on the range of A. *)
  Lemma stable_psd : forall n (A : vec -> vec) (f : vec -> vec -> vec), linear n n A -> self_adjoint n A -> stable_step n A f ->
    forall x : vec, length x = n -> length (f (A x) (vzero n)) = n ->
    (* 2 <M A x, A x> >= <M A x, A M A x> *)
    energy A (f (A x) (vzero n)) <= (1 + 1) * dot (f (A x) (vzero n)) (A x).
  Proof.
    intros n A f HA SA Hf x Hx HL. assert (Hmx : length (vscale (- (1)) x) = n) by vlen.
    destruct (Hf x (vscale (- (1)) x) Hx Hmx) as (w & Lw & Ew & Nw).
    assert (E3 : vadd x (vscale (- (1)) x) = vzero n) by vx. rewrite E3 in Ew. set (y := f (A x) (vzero n)) in *.
    assert (Ew2 : w = vadd y (vscale (- (1)) x)) by (rewrite Ew; vx).
    assert (Nz : energy A (vscale (- (1)) x) = energy A x).
    { unfold energy. rewrite (lin_scale HA) by auto. rewrite dot_scale_l, dot_scale_r. ring. }
    rewrite Nz in Nw. rewrite Ew2 in Nw. rewrite (energy_add HA SA) in Nw by auto. rewrite dot_scale_r, Nz in Nw.
    apply fle_sub_0 in Nw. apply fle_sub_0.
    replace (dot y (A x)) with (dot (A y) x). 2:{ rewrite SA; auto. }
    replace ((1 + 1) * dot (A y) x - energy A y) with (energy A x - (energy A y + (1 + 1) * (- (1) * dot (A y) x) + energy A x)) by ring.
    auto.
  Qed.
End P.
