(** The coarse space of spectral AMGe approximates every vector. *)
From Coq Require Import List Arith Bool Lia Field.
From Verif Require Import Base OField Mat LinAlg M_Agglo S_Agglo M_Restr S_Restr M_FastAP S_FastAP P_Restr P_Restr2 P_FastAP S_Lanczos S_Eig M_Hier S_Hier S_HostEnd S_Rate P_Rate P_Rate2.
Import ListNotations.
Set Implicit Arguments.
Open Scope nat_scope.

Section PApprox.
  Variable K : ofield.
  Add Field KfieldApprox : (f_field K).
  Local Open Scope K_scope.
  Local Notation vec := (vec K).
  Ltac vx := unfold OField.vec in *; vext; try ring.

  (** ** Projection on orthonormal vectors *)
  Fixpoint proj (n : nat) (es : list vec) (v : vec) : vec :=
    match es with [] => vzero n | e :: t => vadd (vscale (dot e v) e) (proj n t v) end.
  Lemma proj_len : forall n es v, sized_all n es -> length (proj n es v) = n.
  Proof.
    induction es as [|e es IH]; intros v H; simpl; [vlen|]. inversion H; subst. assert (L := IH v H3). unfold OField.vec in *. vlen.
  Qed.
  Lemma proj_nth : forall n es v j, sized_all n es -> nth j (proj n es v) 0 = lsum (map (fun e => dot e v * nth j e 0) es).
  Proof.
    induction es as [|e es IH]; intros v j H; simpl.
    - apply nth_vzero.
    - inversion H; subst. assert (L := proj_len v H3). unfold OField.vec in *. rewrite nth_vadd by vlen. rewrite nth_vscale, IH by auto. reflexivity.
  Qed.
  Lemma proj_dot : forall n es v y, sized_all n es -> length y = n -> dot y (proj n es v) = lsum (map (fun e => dot e v * dot y e) es).
  Proof.
    induction es as [|e es IH]; intros v y H Hy; simpl.
    - apply dot_zero_r.
    - inversion H; subst. assert (L := proj_len v H3). unfold OField.vec in *. rewrite dot_add_r by vlen. rewrite dot_scale_r, IH by auto. reflexivity.
  Qed.
  Lemma proj_in : forall n es v e, orthonormal n es -> In e es -> dot e (proj n es v) = dot e v.
  Proof.
    intros n es v e [Sz O] I. destruct (In_nth _ _ [] I) as (i & Hi & <-). rewrite proj_dot; auto.
    - rewrite (@lsum_nth K _ _ es []). rewrite (@sumn_single K _ i); auto.
      + rewrite O, Nat.eqb_refl by auto. unfold OField.vec in *. ring.
      + intros j Hj Hne. rewrite O by auto. destruct (Nat.eqb_spec i j); [congruence|]. ring.
    - unfold sized_all in Sz. rewrite Forall_forall in Sz. auto.
  Qed.
  Lemma rest_orth : forall n es v e, orthonormal n es -> length v = n -> In e es -> dot e (vsub v (proj n es v)) = 0.
  Proof.
    intros n es v e O Hv I. assert (L := proj_len v (proj1 O)). rewrite dot_sub_r by congruence. rewrite (@proj_in n es v e O I). ring.
  Qed.

  (** The part orthogonal to eigenvectors has no more energy. *)
  Lemma rest_energy : forall (M : mat K) es mus v, square M -> symmetric_matrix M -> positive_semidefinite M -> orthonormal (nr M) es ->
    length v = nr M -> (forall i, (i < length es)%nat -> eigenpair M (nth i mus 0) (nth i es [])) ->
    dot (mulvec M (vsub v (proj (nr M) es v))) (vsub v (proj (nr M) es v)) <= dot (mulvec M v) v.
  Proof.
    intros M es mus v Sq Sy PD O Hv HE. set (s := proj (nr M) es v). set (x := vsub v s).
    assert (Ls : length s = nr M) by (apply proj_len; apply (proj1 O)). assert (Lx : length x = nr M) by (unfold x; vlen).
    assert (LM : linear (nr M) (nr M) (mulvec M)) by (pose proof (mulvec_linear M) as X; unfold square in Sq; rewrite <- Sq in X; exact X).
    assert (Ev : v = vadd x s) by (unfold x; vx).
    assert (Z : dot (mulvec M x) s = 0).
    { unfold s. rewrite proj_dot; [|apply (proj1 O)|apply (lin_len LM); auto]. rewrite (@lsum_nth K _ _ es []).
      apply sumn_zero. intros i Hi. assert (Ie : In (nth i es []) es) by (apply nth_In; auto).
      assert (Le : length (nth i es []) = nr M) by (destruct O as [Sz _]; unfold sized_all in Sz; rewrite Forall_forall in Sz; auto).
      rewrite (mulvec_adjoint M x (nth i es [])) by (unfold square in Sq; congruence).
      assert (T : mulTvec M (nth i es []) = mulvec M (nth i es [])).
      { unfold mulTvec. apply mulvec_meq. split; [|split]; simpl; auto. intros p q Hp Hq. unfold square in Sq. apply Sy; lia. }
      rewrite T, (HE i Hi), dot_scale_r. rewrite (dot_comm x). unfold x, s. rewrite rest_orth by auto. ring. }
    assert (Z2 : dot (mulvec M s) x = 0).
    { rewrite <- Z. rewrite (mulvec_adjoint M s x) by (unfold square in Sq; congruence).
      assert (T : mulTvec M x = mulvec M x).
      { unfold mulTvec. apply mulvec_meq. split; [|split]; simpl; auto. intros p q Hp Hq. unfold square in Sq. apply Sy; lia. }
      rewrite T. apply dot_comm. }
    assert (E : dot (mulvec M v) v = dot (mulvec M x) x + dot (mulvec M s) s).
    { rewrite Ev. rewrite (lin_add LM) by auto. pose proof (lin_len LM _ Lx). pose proof (lin_len LM _ Ls).
      rewrite dot_add_l, !dot_add_r by congruence. rewrite Z, Z2. ring. }
    rewrite E. apply fle_sub_0. replace (dot (mulvec M x) x + dot (mulvec M s) s - dot (mulvec M x) x) with (dot (mulvec M s) s) by ring. apply PD; auto.
  Qed.

  (** ** Energy of cells *)
  Section Fem.
    Variable F : fem K.
    Hypothesis HF : fem_ok F.
    Local Notation n := (f_ndofs F).

    Lemma patch_energy : forall cells cols M (u : nat -> K), patch_ok F cells cols M ->
      dot (mulvec M (map u cols)) (map u cols) = sumn n (fun g => cells_apply F cells u g * u g).
    Proof.
      intros cells cols M u P. pose proof P as (Hn & Hr & Hc & Hin & HM).
      rewrite (@dot_sumn K _ _ (length cols)) by (rewrite ?mulvec_length, ?map_length; auto).
      transitivity (sumn n (fun g => sumn (length cols) (fun t => if (nth t cols 0 =? g)%nat then nth t (mulvec M (map u cols)) 0 * u g else 0))).
      - rewrite sumn_swap. apply sumn_ext. intros t Ht. rewrite (@sumn_single K n (nth t cols 0%nat)).
        + rewrite Nat.eqb_refl, nth_map_K by auto. reflexivity.
        + assert (I : In (nth t cols 0%nat) cols) by (apply nth_In; auto). apply Hin in I. destruct I as (c & _ & I). exact (proj1 (HF c) _ I).
        + intros i _ Hne. destruct (Nat.eqb_spec (nth t cols 0%nat) i); congruence.
      - apply sumn_ext. intros g Hg. rewrite <- (patch_apply u g HF P), <- sumn_scale_r. apply sumn_ext. intros t Ht. destruct (_ =? g)%nat; ring.
    Qed.
    Lemma patch_psd : forall cells cols M, (forall c u, 0 <= cell_energy F c u) -> patch_ok F cells cols M -> positive_semidefinite M.
    Proof.
      intros cells cols M PC P x Hx. pose proof P as (Hn & Hr & Hc & Hin & HM).
      set (u := fun g => sumn (length cols) (fun t => if (nth t cols 0 =? g)%nat then nth t x 0 else 0)).
      assert (E : x = map u cols).
      { apply vec_ext; [rewrite map_length; congruence|]. intros i Hi. rewrite Hx, Hr in Hi. rewrite nth_map_K by auto. unfold u.
        rewrite (@sumn_single K _ i); auto; [rewrite Nat.eqb_refl; auto|]. intros t Ht Hne. destruct (Nat.eqb_spec (nth t cols 0%nat) (nth i cols 0%nat)) as [Q|Q]; auto.
        exfalso. apply Hne. apply (proj1 (NoDup_nth cols 0%nat) Hn); auto. }
      rewrite E, (patch_energy u P). unfold cells_apply.
      assert (T : sumn n (fun g => lsum (map (fun c => sumn n (fun h => f_cm F c g h * u h)) cells) * u g) = lsum (map (fun c => cell_energy F c u) cells)).
      { unfold cell_energy. rewrite lsum_sumn_swap. apply sumn_ext. intros g Hg. rewrite lsum_scale_r. reflexivity. }
      rewrite T. clear -PC. induction cells as [|c l IH]; simpl; [apply fle_refl|]. apply fadd_nonneg; auto.
    Qed.
    Lemma assembled_energy : forall m v, length v = n ->
      energy (mulvec (assembled F m)) v = sumn n (fun g => cells_apply F (seq 0 (n_cells m)) (fun h => nth h v 0) g * nth g v 0).
    Proof.
      intros m v Hv. unfold energy. rewrite (@dot_sumn K _ _ n) by (rewrite ?mulvec_length; auto). apply sumn_ext. intros g Hg. f_equal.
      rewrite nth_mulvec by auto. cbn [assembled nc ent]. unfold cells_apply. rewrite lsum_sumn_swap. apply sumn_ext. intros h Hh.
      rewrite lsum_scale_r. reflexivity.
    Qed.
  End Fem.

  (** ** Sums over rows *)
  Lemma lsum_rows : forall (f : agg_result K * vec -> K) (l : list (agg_result K)),
    lsum (map f (rows_of l)) = lsum (map (fun c => lsum (map (fun e => f (c, e)) (ag_evecs c))) l).
  Proof.
    induction l as [|c l IH]; simpl; auto. unfold rows_of in *. cbn [flat_map]. rewrite map_app, lsum_app, map_map, IH. reflexivity.
  Qed.
  Lemma at_dof_mul : forall (c : agg_result K) g f h, NoDup (ag_map c) -> at_dof c g (fun j => f j * h j) = at_dof c g f * at_dof c g h.
  Proof.
    intros c g f h N. destruct (in_dec Nat.eq_dec g (ag_map c)) as [I|I].
    - destruct (In_nth _ _ 0%nat I) as (j & Hj & <-). rewrite !at_dof_one by auto. reflexivity.
    - rewrite !at_dof_none by auto. ring.
  Qed.
  Lemma at_dof_sub : forall (c : agg_result K) g f h, at_dof c g (fun j => f j - h j) = at_dof c g f - at_dof c g h.
  Proof. intros. unfold at_dof. rewrite <- sumn_sub. apply sumn_ext. intros j _. destruct (_ =? g)%nat; ring. Qed.
  Lemma at_dof_lsum : forall (c : agg_result K) g A (l : list A) (f : A -> nat -> K),
    lsum (map (fun e => at_dof c g (f e)) l) = at_dof c g (fun j => lsum (map (fun e => f e j) l)).
  Proof.
    intros. unfold at_dof. rewrite lsum_sumn_swap. apply sumn_ext. intros j _. destruct (_ =? g)%nat; auto. apply lsum_map_0. auto.
  Qed.
  Lemma at_dof_square : forall (c : agg_result K) n (x : vec), NoDup (ag_map c) -> (forall g, In g (ag_map c) -> (g < n)%nat) -> length x = length (ag_map c) ->
    sumn n (fun g => at_dof c g (fun j => nth j x 0) * at_dof c g (fun j => nth j x 0)) = dot x x.
  Proof.
    intros c n x N B Hx. rewrite (@dot_sumn K _ _ (length (ag_map c))) by auto.
    rewrite <- (@sum_reindex K n (ag_map c) (fun g => at_dof c g (fun j => nth j x 0) * at_dof c g (fun j => nth j x 0))); auto.
    - apply sumn_ext. intros j Hj. rewrite !at_dof_one by auto. reflexivity.
    - intros h _ I. rewrite !at_dof_none by auto. ring.
  Qed.

  Lemma lsum_nonneg : forall A (f : A -> K) l, (forall x, In x l -> 0 <= f x) -> 0 <= lsum (map f l).
  Proof. induction l as [|a l IH]; intros H; simpl; [apply fle_refl|]. apply fadd_nonneg; [apply H; left; auto|apply IH; intros; apply H; right; auto]. Qed.
  Lemma lsum_sub : forall A (f g : A -> K) l, lsum (map (fun x => f x - g x) l) = lsum (map f l) - lsum (map g l).
  Proof. induction l as [|a l IH]; simpl; [ring|]. rewrite IH. ring. Qed.
  Lemma lsum_le : forall A (f g : A -> K) l, (forall x, In x l -> f x <= g x) -> lsum (map f l) <= lsum (map g l).
  Proof. intros A f g l H. apply fle_sub_0. rewrite <- lsum_sub. apply lsum_nonneg. intros x I. apply -> (@fle_sub_0 K). apply H; auto. Qed.

  (** Jensen: a mean of values, squared, is at most the sum of their squares. *)
  Lemma jensen : forall A (w x : A -> K) l, (forall a, In a l -> 0 <= w a) -> lsum (map w l) = 1 ->
    lsum (map (fun a => w a * x a) l) * lsum (map (fun a => w a * x a) l) <= lsum (map (fun a => x a * x a) l).
  Proof.
    intros A w x l Hw H1.
    assert (C : lsum (map (fun a => w a * x a) l) * lsum (map (fun a => w a * x a) l) <= lsum (map w l) * lsum (map (fun a => w a * (x a * x a)) l)).
    { apply quad_cs. intros t s.
      assert (E : t * t * lsum (map w l) - (1 + 1) * t * s * lsum (map (fun a => w a * x a) l) + s * s * lsum (map (fun a => w a * (x a * x a)) l) =
        lsum (map (fun a => w a * ((t - s * x a) * (t - s * x a))) l)).
      { rewrite <- !lsum_map_scale, <- lsum_sub, <- lsum_map_add. apply lsum_map_ext. intros a _. ring. }
      rewrite E. apply lsum_nonneg. intros a I. apply fle_mul; auto. apply fsquare_nonneg. }
    eapply fle_trans; [exact C|]. rewrite H1. replace (1 * lsum (map (fun a => w a * (x a * x a)) l)) with (lsum (map (fun a => w a * (x a * x a)) l)) by ring.
    apply lsum_le. intros a I.
    assert (B : w a <= 1).
    { rewrite <- H1. clear H1 C. induction l as [|b l IH]; [destruct I|]. simpl. destruct I as [->|I].
      - apply fle_sub_0. replace (w a + lsum (map w l) - w a) with (lsum (map w l)) by ring. apply lsum_nonneg. intros; apply Hw; right; auto.
      - eapply fle_trans; [apply IH; auto; intros; apply Hw; right; auto|]. apply fle_sub_0. replace (w b + lsum (map w l) - lsum (map w l)) with (w b) by ring. apply Hw; left; auto. }
    apply fle_sub_0. replace (x a * x a - w a * (x a * x a)) with ((1 - w a) * (x a * x a)) by ring. apply fle_mul; [apply -> (@fle_sub_0 K); auto|apply fsquare_nonneg].
  Qed.

  (** ** The coarse space *)
  Section Coarse.
    Variable F : fem K.
    Variable m : mesh.
    Variable Ix : Type.
    Variable ids : list Ix.
    Variable res : Ix -> agg_result K.
    Variable cells : Ix -> list nat.
    Variable Mof : Ix -> mat K.
    Variable lambda : K.
    Local Notation n := (f_ndofs F).
    Local Notation A := (assembled F m).
    Local Notation nm a := (length (ag_map (res a))).
    Hypothesis HF : fem_ok F.
    Hypothesis HC : forall c u, 0 <= cell_energy F c u.
    Hypothesis Hp : forall a, In a ids -> patch_ok F (cells a) (ag_map (res a)) (Mof a).
    Hypothesis Hd : forall a, In a ids -> ag_diag (res a) = map (fun k => ent (Mof a) k k) (seq 0 (nm a)).
    Hypothesis Ho : forall a, In a ids -> sized_all (nr (Mof a)) (ag_evecs (res a)).
    Variable coef : Ix -> vec.
    Hypothesis Hcf : forall a, In a ids -> length (coef a) = length (ag_evecs (res a)).
    Hypothesis Hl : 0 <= lambda.
    Hypothesis HS : forall f : nat -> K, lsum (map (fun a => lsum (map f (cells a))) ids) = lsum (map f (seq 0 (n_cells m))).
    Hypothesis HD : forall g, (g < n)%nat -> 0 < ent A g g.
    Variable R : mat K.
    Local Notation rows := (rows_of (map res ids)).
    Hypothesis HR : nr R = length rows /\ nc R = n /\ forall r g ce, (g < n)%nat -> nth_error rows r = Some ce -> ent R r g = r_entry (fun g => ent A g g) ce g.

    Variable v : vec.
    Hypothesis Hv : length v = n.
    Let u (g : nat) : K := nth g v 0.
    Let vc (c : agg_result K) : vec := map u (ag_map c).
    Let P (a : Ix) : vec := mulTvec (rows_matrix (nm a) (ag_evecs (res a))) (coef a).
    Let x (a : Ix) : vec := vsub (vc (res a)) (P a).
    Variable slack : Ix -> K.
    Hypothesis Hg : forall a, In a ids -> lambda * dot (x a) (x a) <= energy (mulvec (Mof a)) (vc (res a)) + slack a.
    Let w : vec := flat_map coef ids.
    Let om (a : Ix) (g : nat) : K := at_dof (res a) g (fun j => nth j (ag_diag (res a)) 0 / ent A g g).

    Lemma nr_M : forall a, In a ids -> nr (Mof a) = nm a /\ nc (Mof a) = nm a.
    Proof. intros a I. destruct (Hp a I) as (_ & H1 & H2 & _). auto. Qed.
    Lemma diag_at : forall a g, In a ids -> at_dof (res a) g (fun j => nth j (ag_diag (res a)) 0) = lsum (map (fun k => f_cm F k g g) (cells a)).
    Proof.
      intros a g I. destruct (Hp a I) as (Q1 & Q2 & Q3 & Q4 & Q5). destruct (in_dec Nat.eq_dec g (ag_map (res a))) as [J|J].
      - destruct (In_nth _ _ 0%nat J) as (j & Hj & <-). rewrite at_dof_one by auto. rewrite (Hd a I).
        rewrite (nth_indep _ 0 (ent (Mof a) 0%nat 0%nat)) by (rewrite map_length, seq_length; auto). rewrite (map_nth (fun k => ent (Mof a) k k)), seq_nth by auto. cbn. apply Q5; auto.
      - rewrite at_dof_none by auto. symmetry. apply lsum_map_0. intros k Hk. apply (proj2 (HF k)). intros (Z & _). apply J. apply Q4. eauto.
    Qed.
    Lemma om_scaled : forall a g, In a ids -> (g < n)%nat -> om a g = finv (ent A g g) * lsum (map (fun k => f_cm F k g g) (cells a)).
    Proof.
      intros a g I Hg'. rewrite <- diag_at by auto. unfold om. rewrite <- at_dof_scale. apply at_dof_ext. intros j _ _. field. apply not_eq_sym, flt_neq; auto.
    Qed.
    Lemma om_sum : forall g, (g < n)%nat -> lsum (map (fun a => om a g) ids) = 1.
    Proof.
      intros g Hg'. assert (N : ent A g g <> 0) by (apply not_eq_sym, flt_neq; auto).
      transitivity (lsum (map (fun a => finv (ent A g g) * lsum (map (fun k => f_cm F k g g) (cells a))) ids)).
      { apply lsum_map_ext. intros a I. apply om_scaled; auto. }
      rewrite lsum_map_scale, HS. cbn [assembled ent] in *. field. auto.
    Qed.
    Lemma cell_diag_nonneg : forall k g, (g < n)%nat -> 0 <= f_cm F k g g.
    Proof.
      intros k g Hg'. specialize (HC k (fun h => if (h =? g)%nat then 1 else 0)). unfold cell_energy in HC.
      rewrite (@sumn_single K n g) in HC; auto; [|intros i _ Hne; destruct (Nat.eqb_spec i g); [congruence|ring]].
      rewrite (@sumn_single K n g) in HC; auto; [|intros i _ Hne; destruct (Nat.eqb_spec i g); [congruence|ring]].
      rewrite Nat.eqb_refl in HC. replace (f_cm F k g g * 1 * 1) with (f_cm F k g g) in HC by ring. auto.
    Qed.
    Lemma om_nonneg : forall a g, In a ids -> (g < n)%nat -> 0 <= om a g.
    Proof.
      intros a g I Hg'. rewrite om_scaled by auto. apply fle_mul; [apply flt_le, finv_pos; auto|]. apply lsum_nonneg. intros k _. apply cell_diag_nonneg; auto.
    Qed.
    Lemma P_len : forall a, length (P a) = nm a.
    Proof. intros a. unfold P. apply mulTvec_length. Qed.
    Lemma P_nth : forall a j, In a ids -> nth j (P a) 0 = sumn (length (ag_evecs (res a))) (fun i => nth j (nth i (ag_evecs (res a)) []) 0 * nth i (coef a) 0).
    Proof.
      intros a j I. destruct (lt_dec j (nm a)) as [L|L].
      - unfold P, mulTvec. rewrite nth_mulvec by exact L. reflexivity.
      - rewrite nth_overflow by (rewrite P_len; lia). symmetry. apply sumn_zero. intros i Hi.
        rewrite (nth_overflow (nth i (ag_evecs (res a)) [])); [ring|]. assert (Z := Ho a I). unfold sized_all in Z. rewrite Forall_forall in Z.
        rewrite (Z _ (nth_In _ _ Hi)), (proj1 (nr_M a I)). lia.
    Qed.
    Lemma rows_sum : forall (f : agg_result K * vec -> K) l, (forall a, In a l -> length (coef a) = length (ag_evecs (res a))) ->
      sumn (length (rows_of (map res l))) (fun r => f (nth r (rows_of (map res l)) (mkAgg [] [] [] [], [])) * nth r (flat_map coef l) 0) =
      lsum (map (fun a => sumn (length (ag_evecs (res a))) (fun i => f (res a, nth i (ag_evecs (res a)) []) * nth i (coef a) 0)) l).
    Proof.
      induction l as [|a l IH]; intros H; [reflexivity|]. cbn [map lsum flat_map]. rewrite <- IH by (intros; apply H; right; auto).
      pose proof (H a (or_introl eq_refl)) as La. change (rows_of (res a :: map res l)) with (map (pair (res a)) (ag_evecs (res a)) ++ rows_of (map res l)).
      rewrite app_length, map_length, sumn_plus. f_equal; apply sumn_ext; intros r Hr.
      - rewrite app_nth1 by (rewrite map_length; exact Hr). rewrite app_nth1 by lia.
        rewrite nth_indep with (d' := (res a, [])) (l := map (pair (res a)) (ag_evecs (res a))) by (rewrite map_length; exact Hr). rewrite (map_nth (pair (res a))). reflexivity.
      - rewrite app_nth2 by (rewrite map_length; lia). rewrite app_nth2 by lia. rewrite map_length, La.
        replace (length (ag_evecs (res a)) + r - length (ag_evecs (res a)))%nat with r by lia. reflexivity.
    Qed.
    Lemma vc_len : forall c, length (vc c) = length (ag_map c).
    Proof. intros. unfold vc. apply map_length. Qed.
    Lemma x_len : forall a, In a ids -> length (x a) = nm a.
    Proof. intros a I. unfold x. assert (H1 := P_len a). assert (H2 := vc_len (res a)). vlen. Qed.

    Lemma rest_at : forall g, (g < n)%nat -> nth g (vsub v (mulTvec R w)) 0 = lsum (map (fun a => om a g * at_dof (res a) g (fun j => nth j (x a) 0)) ids).
    Proof.
      intros g Hg'. destruct HR as (R1 & R2 & R3).
      rewrite nth_vsub by (rewrite mulTvec_length; congruence).
      assert (E1 : nth g (mulTvec R w) 0 = lsum (map (fun a => at_dof (res a) g (fun j => nth j (ag_diag (res a)) 0 / ent A g g * nth j (P a) 0)) ids)).
      { unfold mulTvec. rewrite nth_mulvec by (simpl; congruence). cbn [mtrans nc ent].
        transitivity (sumn (length rows) (fun r => r_entry (fun g => ent A g g) (nth r rows (mkAgg [] [] [] [], [])) g * nth r w 0)).
        - rewrite R1. apply sumn_ext. intros r Hr.
          assert (En := nth_error_nth' rows (mkAgg [] [] [] [], []) Hr). rewrite (R3 _ _ _ Hg' En). reflexivity.
        - unfold w. rewrite (rows_sum (fun ce => r_entry (fun g => ent A g g) ce g)) by exact Hcf. apply lsum_map_ext. intros a I. unfold r_entry. cbn [fst snd].
          transitivity (at_dof (res a) g (fun j => lsum (map (fun i => nth j (ag_diag (res a)) 0 / ent A g g * (nth j (nth i (ag_evecs (res a)) []) 0 * nth i (coef a) 0)) (seq 0 (length (ag_evecs (res a))))))).
          + rewrite <- at_dof_lsum. rewrite (@lsum_nth K _ _ (seq 0 _) 0%nat), seq_length. apply sumn_ext. intros i Hi. rewrite seq_nth by exact Hi. cbn [plus].
            transitivity (nth i (coef a) 0 * at_dof (res a) g (fun j => nth j (ag_diag (res a)) 0 / ent A g g * nth j (nth i (ag_evecs (res a)) []) 0)); [ring|].
            rewrite <- at_dof_scale. apply at_dof_ext. intros j _ _. ring.
          + apply at_dof_ext. intros j _ _. rewrite lsum_map_scale. f_equal. rewrite P_nth by exact I. rewrite (@lsum_nth K _ _ (seq 0 _) 0%nat), seq_length.
            apply sumn_ext. intros i Hi. rewrite seq_nth by exact Hi. reflexivity. }
      assert (E2 : nth g v 0 = lsum (map (fun a => at_dof (res a) g (fun j => nth j (ag_diag (res a)) 0 / ent A g g * nth j (vc (res a)) 0)) ids)).
      { transitivity (nth g v 0 * lsum (map (fun a => om a g) ids)); [rewrite om_sum by auto; ring|]. rewrite <- lsum_map_scale. apply lsum_map_ext. intros a I.
        unfold om. rewrite <- at_dof_scale. apply at_dof_ext. intros j Hj Ej. unfold vc. rewrite nth_map_K by auto. unfold u. rewrite Ej. ring. }
      rewrite E1, E2, <- lsum_sub. apply lsum_map_ext. intros a I. rewrite <- at_dof_sub. unfold om. rewrite <- at_dof_mul by (exact (proj1 (Hp a I))).
      apply at_dof_ext. intros j Hj _. unfold x. assert (H1 := P_len a). assert (H2 := vc_len (res a)). rewrite nth_vsub by congruence. ring.
    Qed.

    Lemma w_len : length w = nr R.
    Proof.
      rewrite (proj1 HR). unfold w. clear - Hcf. induction ids as [|a l IH]; [reflexivity|]. cbn [flat_map map]. unfold rows_of in *. cbn [flat_map].
      rewrite !app_length, map_length. rewrite (Hcf a (or_introl eq_refl)). f_equal. apply IH. intros; apply Hcf; right; auto.
    Qed.

    Lemma coarse_near : lambda * dot (vsub v (mulTvec R w)) (vsub v (mulTvec R w)) <= energy (mulvec A) v + lsum (map slack ids).
    Proof.
      assert (L : length (vsub v (mulTvec R w)) = n) by (rewrite vsub_length, mulTvec_length; destruct HR as (_ & -> & _); rewrite Hv; apply Nat.min_id).
      assert (B1 : dot (vsub v (mulTvec R w)) (vsub v (mulTvec R w)) <= lsum (map (fun a => dot (x a) (x a)) ids)).
      { rewrite (@dot_sumn K _ _ n L L).
        apply fle_trans with (sumn n (fun g => lsum (map (fun a => at_dof (res a) g (fun j => nth j (x a) 0) * at_dof (res a) g (fun j => nth j (x a) 0)) ids))).
        - apply sumn_le'. intros g Hg'. rewrite rest_at by auto. apply jensen; [intros a I; apply om_nonneg; auto|apply om_sum; auto].
        - rewrite <- (@lsum_sumn_swap K _ ids n (fun a g => at_dof (res a) g (fun j => nth j (x a) 0) * at_dof (res a) g (fun j => nth j (x a) 0))).
          apply lsum_le. intros a I. destruct (Hp a I) as (Q1 & _ & _ & Q4 & _). rewrite at_dof_square; auto; [apply fle_refl| |apply x_len; auto].
          intros g J. apply Q4 in J. destruct J as (k & _ & J). exact (proj1 (HF k) _ J). }
      eapply fle_trans; [apply fle_mul_l; [exact Hl|exact B1]|]. rewrite <- lsum_map_scale.
      apply fle_trans with (lsum (map (fun a => sumn n (fun g => cells_apply F (cells a) u g * u g) + slack a) ids)).
      - apply lsum_le. intros a I. eapply fle_trans; [apply (Hg a I)|]. rewrite <- (@patch_energy F HF _ _ _ u (Hp a I)). apply fle_refl.
      - match goal with |- ?a <= ?b => replace b with a; [apply fle_refl|] end. rewrite lsum_map_add. f_equal. rewrite (@assembled_energy F m v Hv), lsum_sumn_swap. apply sumn_ext. intros g _.
        rewrite <- lsum_scale_r. f_equal. unfold cells_apply. apply HS.
    Qed.
  End Coarse.
End PApprox.

Section PApproxAll.
  Variable K : ofield.
  Add Field KfieldApproxAll : (f_field K).
  Local Open Scope K_scope.
  Local Notation vec := (vec K).
  Ltac vx := unfold OField.vec in *; vext; try ring.

  (** A vector on the agglomerates: no dof counts more often than there are cells at it. *)
  Lemma pieces_bound : forall (F : fem K) m (Ix : Type) (ids : list Ix) (res : Ix -> agg_result K) cells Mof kappa (v : vec), fem_ok F ->
    (forall a, In a ids -> patch_ok F (cells a) (ag_map (res a)) (Mof a)) ->
    (forall f : nat -> K, lsum (map (fun a => lsum (map f (cells a))) ids) = lsum (map f (seq 0 (n_cells m)))) ->
    cells_per_dof F (n_cells m) kappa -> length v = f_ndofs F ->
    lsum (map (fun a => let x := map (fun g => nth g v 0) (ag_map (res a)) in dot x x) ids) <= fnat kappa * dot v v.
  Proof.
    intros F m Ix ids res cells Mof kappa v HF Hp HS HK Hv. set (n := f_ndofs F) in *.
    set (ind := fun (l : list nat) (g : nat) => if existsb (Nat.eqb g) l then 1 else 0 : K).
    assert (I0 : forall l g, 0 <= ind l g) by (intros l g; unfold ind; destruct (existsb _ l); [apply f0_le_1|apply fle_refl]).
    assert (E1 : forall a, In a ids -> (let x := map (fun g => nth g v 0) (ag_map (res a)) in dot x x) = sumn n (fun g => ind (ag_map (res a)) g * (nth g v 0 * nth g v 0))).
    { intros a Ia. destruct (Hp a Ia) as (Q1 & _ & _ & Q4 & _). cbv zeta. rewrite (@dot_sumn K _ _ (length (ag_map (res a)))) by apply map_length.
      rewrite <- (@sum_reindex K n (ag_map (res a)) (fun g => ind (ag_map (res a)) g * (nth g v 0 * nth g v 0))); auto.
      - apply sumn_ext. intros j Hj. rewrite nth_map_K by exact Hj. unfold ind.
        replace (existsb (Nat.eqb (nth j (ag_map (res a)) 0%nat)) (ag_map (res a))) with true; [ring|]. symmetry. apply existsb_exists.
        exists (nth j (ag_map (res a)) 0%nat). split; [apply nth_In; exact Hj|apply Nat.eqb_refl].
      - intros g J. apply Q4 in J. destruct J as (k & _ & J). exact (proj1 (HF k) _ J).
      - intros h _ J. unfold ind. destruct (existsb (Nat.eqb h) (ag_map (res a))) eqn:E; [|ring]. exfalso. apply J. apply existsb_exists in E.
        destruct E as (y & Iy & E). apply Nat.eqb_eq in E. subst y. exact Iy. }
    rewrite (@lsum_map_ext K _ _ (fun a => sumn n (fun g => ind (ag_map (res a)) g * (nth g v 0 * nth g v 0)))) by exact E1.
    rewrite (@lsum_sumn_swap K _ ids n (fun a g => ind (ag_map (res a)) g * (nth g v 0 * nth g v 0))).
    rewrite (@dot_sumn K _ _ n Hv Hv), <- sumn_scale. apply sumn_le'. intros g Hg. rewrite <- lsum_scale_r.
    replace (fnat kappa * (nth g v 0 * nth g v 0)) with ((nth g v 0 * nth g v 0) * fnat kappa) by ring.
    match goal with |- ?a * ?b <= _ => replace (a * b) with (b * a) by ring end. apply fle_mul_l; [apply fsquare_nonneg|].
    apply fle_trans with (lsum (map (fun a => lsum (map (fun c => ind (f_cd F c) g) (cells a))) ids)).
    - apply lsum_le. intros a Ia. destruct (Hp a Ia) as (_ & _ & _ & Q4 & _). unfold ind at 1. destruct (existsb (Nat.eqb g) (ag_map (res a))) eqn:E; [|apply lsum_nonneg; auto].
      apply existsb_exists in E. destruct E as (y & Iy & E). apply Nat.eqb_eq in E. subst y. apply Q4 in Iy. destruct Iy as (k & Ik & Ig).
      assert (X : forall l, In k l -> 1 <= lsum (map (fun c => ind (f_cd F c) g) l)); [|apply X; exact Ik].
      induction l as [|c l IH]; intros I; [destruct I|]. cbn [map lsum]. destruct I as [->|I].
      + assert (E : ind (f_cd F k) g = 1). { unfold ind. replace (existsb (Nat.eqb g) (f_cd F k)) with true; auto. symmetry. apply existsb_exists. exists g. split; [exact Ig|apply Nat.eqb_refl]. }
        rewrite E. apply fle_sub_0. replace (1 + lsum (map (fun c => ind (f_cd F c) g) l) - 1) with (lsum (map (fun c => ind (f_cd F c) g) l)) by ring. apply lsum_nonneg; auto.
      + eapply fle_trans; [apply IH; exact I|]. apply fle_sub_0.
        replace (ind (f_cd F c) g + lsum (map (fun c => ind (f_cd F c) g) l) - lsum (map (fun c => ind (f_cd F c) g) l)) with (ind (f_cd F c) g) by ring. apply I0.
    - rewrite HS. eapply fle_trans; [|apply fnat_le; apply (HK g Hg)].
      match goal with |- ?a <= ?b => replace b with a; [apply fle_refl|] end.
      generalize (seq 0 (n_cells m)) as l. unfold ind. induction l as [|c l IH]; [reflexivity|]. cbn [map lsum filter]. rewrite IH.
      destruct (existsb (Nat.eqb g) (f_cd F c)); [cbn [length fnat]; ring|ring].
  Qed.

  (** If the kept vectors of every agglomerate represent the vectors on that agglomerate, the coarse space represents all vectors as well. *)
  Lemma coarse_up_to : forall (F : fem K) m (Ix : Type) (ids : list Ix) (res : Ix -> agg_result K) cells Mof lambda eps kappa, fem_ok F -> (forall c u, 0 <= cell_energy F c u) ->
    (forall a, In a ids -> patch_ok F (cells a) (ag_map (res a)) (Mof a) /\ ag_diag (res a) = map (fun k => ent (Mof a) k k) (seq 0 (length (ag_map (res a)))) /\
      sized_all (nr (Mof a)) (ag_evecs (res a)) /\ approximates_up_to (Mof a) (rows_matrix (nr (Mof a)) (ag_evecs (res a))) lambda eps) -> 0 <= lambda -> 0 <= eps ->
    cells_per_dof F (n_cells m) kappa ->
    (forall f : nat -> K, lsum (map (fun a => lsum (map f (cells a))) ids) = lsum (map f (seq 0 (n_cells m)))) ->
    (forall g, (g < f_ndofs F)%nat -> 0 < ent (assembled F m) g g) ->
    forall R, nr R = length (rows_of (map res ids)) -> nc R = f_ndofs F ->
    (forall r g ce, (g < f_ndofs F)%nat -> nth_error (rows_of (map res ids)) r = Some ce -> ent R r g = r_entry (fun g => ent (assembled F m) g g) ce g) ->
    approximates_up_to (assembled F m) R lambda (eps * fnat kappa).
  Proof.
    intros F m Ix ids res cells Mof lambda eps kappa HF HC H Hl Heps HK HS HD R R1 R2 R3 v Hv.
    assert (X : exists cs : list (Ix * vec), map fst cs = ids /\ forall ac, In ac cs -> length (snd ac) = length (ag_evecs (res (fst ac))) /\
      let va := map (fun g => nth g v 0) (ag_map (res (fst ac))) in
      let xa := vsub va (mulTvec (rows_matrix (length (ag_map (res (fst ac)))) (ag_evecs (res (fst ac)))) (snd ac)) in
      lambda * dot xa xa <= energy (mulvec (Mof (fst ac))) va + eps * dot va va).
    { clear - H. induction ids as [|a l IH]; [exists []; split; [reflexivity|intros ac []]|].
      destruct IH as (cs & E & Q); [intros; apply H; right; auto|]. destruct (H a (or_introl eq_refl)) as ((_ & P1 & P2 & _) & _ & _ & AP).
      destruct (AP (map (fun g => nth g v 0) (ag_map (res a)))) as (c & Lc & Ec); [rewrite map_length; congruence|].
      rewrite P1 in Ec. exists ((a, c) :: cs). split; [cbn [map fst]; congruence|]. intros ac [<-|I]; [|apply Q; exact I]. cbn [fst snd]. split; [exact Lc|exact Ec]. }
    destruct X as (cs & <- & Q).
    assert (HS' : forall f : nat -> K, lsum (map (fun ac : Ix * vec => lsum (map f (cells (fst ac)))) cs) = lsum (map f (seq 0 (n_cells m)))) by (intros f; rewrite <- HS, map_map; reflexivity).
    eexists. split; [|eapply fle_trans; [apply (@coarse_near K F m _ cs (fun ac => res (fst ac)) (fun ac => cells (fst ac)) (fun ac => Mof (fst ac)) lambda) with
      (coef := snd) (slack := fun ac => eps * (let va := map (fun g => nth g v 0) (ag_map (res (fst ac))) in dot va va))|]].
    - rewrite R1, map_map. clear - Q. induction cs as [|a l IH]; [reflexivity|]. cbn [flat_map map]. unfold rows_of in *. cbn [flat_map].
      rewrite !app_length, map_length. rewrite (proj1 (Q a (or_introl eq_refl))). f_equal. apply IH. intros; apply Q; right; auto.
    - exact HF.
    - exact HC.
    - intros a I. apply (H (fst a)). apply in_map; exact I.
    - intros a I. apply (H (fst a)). apply in_map; exact I.
    - intros a I. apply (H (fst a)). apply in_map; exact I.
    - intros a I. apply (Q a I).
    - exact Hl.
    - exact HS'.
    - exact HD.
    - split; [rewrite R1, map_map; reflexivity|]. split; [exact R2|]. intros r g ce Hg' Hr. apply R3; auto. rewrite map_map. exact Hr.
    - exact Hv.
    - intros a I. apply (Q a I).
    - apply fle_add2; [apply fle_refl|]. rewrite lsum_map_scale. replace (eps * fnat kappa * dot v v) with (eps * (fnat kappa * dot v v)) by ring. apply fle_mul_l; [exact Heps|].
      apply (@pieces_bound F m _ cs (fun ac => res (fst ac)) (fun ac => cells (fst ac)) (fun ac => Mof (fst ac)) kappa v HF); auto.
      intros a I. apply (H (fst a)). apply in_map; exact I.
  Qed.
  Lemma up_to_0 : forall (A R : mat K) lambda eps, eps = 0 -> (approximates A R lambda <-> approximates_up_to A R lambda eps).
  Proof.
    intros A R lambda eps ->. split; intros H v Hv; destruct (H v Hv) as (w & Lw & Ew); exists w; (split; [exact Lw|]).
    - replace (energy (mulvec A) v + 0 * dot v v) with (energy (mulvec A) v) by ring. exact Ew.
    - replace (energy (mulvec A) v + 0 * dot v v) with (energy (mulvec A) v) in Ew by ring. exact Ew.
  Qed.
  Lemma some_per_dof : forall (F : fem K) N, cells_per_dof F N N.
  Proof. intros F N g _. rewrite <- (seq_length N 0) at 2. generalize (seq 0 N) as l. induction l as [|c l IH]; cbn [filter length]; [lia|]. destruct (existsb _ _); cbn [length]; lia. Qed.
  Lemma coarse_from_local : forall (F : fem K) m (Ix : Type) (ids : list Ix) (res : Ix -> agg_result K) cells Mof lambda, fem_ok F -> (forall c u, 0 <= cell_energy F c u) ->
    (forall a, In a ids -> patch_ok F (cells a) (ag_map (res a)) (Mof a) /\ ag_diag (res a) = map (fun k => ent (Mof a) k k) (seq 0 (length (ag_map (res a)))) /\
      sized_all (nr (Mof a)) (ag_evecs (res a)) /\ approximates (Mof a) (rows_matrix (nr (Mof a)) (ag_evecs (res a))) lambda) -> 0 <= lambda ->
    (forall f : nat -> K, lsum (map (fun a => lsum (map f (cells a))) ids) = lsum (map f (seq 0 (n_cells m)))) ->
    (forall g, (g < f_ndofs F)%nat -> 0 < ent (assembled F m) g g) ->
    forall R, nr R = length (rows_of (map res ids)) -> nc R = f_ndofs F ->
    (forall r g ce, (g < f_ndofs F)%nat -> nth_error (rows_of (map res ids)) r = Some ce -> ent R r g = r_entry (fun g => ent (assembled F m) g g) ce g) ->
    approximates (assembled F m) R lambda.
  Proof.
    intros F m Ix ids res cells Mof lambda HF HC H Hl HS HD R R1 R2 R3. apply (@up_to_0 _ _ _ (0 * fnat (n_cells m))); [ring|].
    apply (@coarse_up_to F m Ix ids res cells Mof lambda 0 (n_cells m)); auto; [|apply fle_refl|apply some_per_dof].
    intros a I. destruct (H a I) as (Q1 & Q2 & Q3 & Q4). split; [exact Q1|]. split; [exact Q2|]. split; [exact Q3|]. apply (@up_to_0 _ _ _ 0); auto.
  Qed.

  (** The coefficients of the orthogonal projection. *)
  Lemma proj_rows : forall n es (v : vec), sized_all n es -> mulTvec (rows_matrix n es) (map (fun e => dot e v) es) = proj n es v.
  Proof.
    intros n es v Z. apply vec_ext; [rewrite mulTvec_length, proj_len; auto|]. intros j Hj. rewrite mulTvec_length in Hj. cbn [rows_matrix nc] in Hj.
    unfold mulTvec. rewrite nth_mulvec by exact Hj. cbn [mtrans rows_matrix nc nr ent]. rewrite proj_nth by exact Z. rewrite (@lsum_nth K _ _ es []).
    apply sumn_ext. intros i Hi. rewrite nth_indep with (l := map (fun e => dot e v) es) (d' := dot [] v) by (rewrite map_length; exact Hi). rewrite (map_nth (fun e => dot e v)). ring.
  Qed.
  Lemma exact_represents : forall (M : mat K) es mus lambda, symmetric_matrix M -> positive_semidefinite M -> orthonormal (nr M) es ->
    (forall i, (i < length es)%nat -> eigenpair M (nth i mus 0) (nth i es [])) -> gap M es lambda -> approximates M (rows_matrix (nr M) es) lambda.
  Proof.
    intros M es mus lambda Sy PD O HE HG v Hv. assert (Sq : nr M = nc M) by apply Sy. exists (map (fun e => dot e v) es).
    split; [rewrite map_length; reflexivity|]. rewrite proj_rows by apply O. eapply fle_trans; [apply HG|].
    - rewrite vsub_length, proj_len by apply O. rewrite Hv, Sq. apply Nat.min_id.
    - intros e Ie. apply rest_orth; auto. congruence.
    - unfold energy. apply rest_energy with (mus := mus); auto. congruence.
  Qed.

  Lemma coarse_approximates : forall (F : fem K) m (Ix : Type) (ids : list Ix) (res : Ix -> agg_result K) cells Mof lambda, fem_ok F -> (forall c u, 0 <= cell_energy F c u) ->
    (forall a, In a ids -> patch_ok F (cells a) (ag_map (res a)) (Mof a) /\ ag_diag (res a) = map (fun k => ent (Mof a) k k) (seq 0 (length (ag_map (res a)))) /\
      symmetric_matrix (Mof a) /\ orthonormal (nr (Mof a)) (ag_evecs (res a)) /\
      (forall i, (i < length (ag_evecs (res a)))%nat -> eigenpair (Mof a) (nth i (ag_evals (res a)) 0) (nth i (ag_evecs (res a)) [])) /\
      gap (Mof a) (ag_evecs (res a)) lambda) -> 0 <= lambda ->
    (forall f : nat -> K, lsum (map (fun a => lsum (map f (cells a))) ids) = lsum (map f (seq 0 (n_cells m)))) ->
    (forall g, (g < f_ndofs F)%nat -> 0 < ent (assembled F m) g g) ->
    forall R, nr R = length (rows_of (map res ids)) -> nc R = f_ndofs F ->
    (forall r g ce, (g < f_ndofs F)%nat -> nth_error (rows_of (map res ids)) r = Some ce -> ent R r g = r_entry (fun g => ent (assembled F m) g g) ce g) ->
    approximates (assembled F m) R lambda.
  Proof.
    intros F m Ix ids res cells Mof lambda HF HC H Hl HS HD R R1 R2 R3.
    apply (@coarse_from_local F m Ix ids res cells Mof lambda); auto. intros a I. destruct (H a I) as (Q1 & Q2 & Q3 & Q4 & Q5 & Q6).
    split; [exact Q1|]. split; [exact Q2|]. split; [apply Q4|]. apply exact_represents with (mus := ag_evals (res a)); auto. exact (@patch_psd K F HF _ _ _ HC Q1).
  Qed.

  (** ** What LAPACK leaves out *)
  Lemma quotient_lower : forall (B : mat K) vs es k mu x, symmetric_matrix B -> orthonormal (nr B) vs -> length es = length vs ->
    (forall i, (i < length vs)%nat -> eigenpair B (nth i es 0) (nth i vs [])) -> gap B vs mu -> (k <= length vs)%nat ->
    forall lam, lam <= mu -> (forall i, (k <= i < length vs)%nat -> lam <= nth i es 0) ->
    length x = nr B -> (forall v, In v (firstn k vs) -> dot v x = 0) -> lam * dot x x <= dot (mulvec B x) x.
  Proof.
    intros B vs es k mu x Sy O Le HE HG Hk lam H1 H2 Lx HX.
    set (ws := skipn k vs). assert (Sq : nr B = nc B) by apply Sy.
    assert (Lw : length ws = (length vs - k)%nat) by apply skipn_length.
    assert (Nw : forall i, nth i ws [] = nth (k + i) vs []).
    { intros i. unfold ws. rewrite <- (firstn_skipn k vs) at 2. rewrite app_nth2; rewrite firstn_length_le by auto; [|lia]. f_equal. lia. }
    assert (Ow : orthonormal (nr B) ws).
    { split.
      - unfold sized_all. rewrite Forall_forall. intros v Iv. destruct O as [Sz _]. unfold sized_all in Sz. rewrite Forall_forall in Sz. apply Sz.
        rewrite <- (firstn_skipn k vs). apply in_or_app. right. exact Iv.
      - intros i j Hi Hj. rewrite !Nw. rewrite (proj2 O) by lia. destruct (Nat.eqb_spec (k + i) (k + j)); destruct (Nat.eqb_spec i j); auto; lia. }
    set (s := proj (nr B) ws x). set (y := vsub x s).
    assert (Ls : length s = nr B) by (apply proj_len; apply (proj1 Ow)). assert (Ly : length y = nr B) by (unfold y; vlen).
    assert (LM : linear (nr B) (nr B) (mulvec B)) by (pose proof (mulvec_linear B) as X; rewrite <- Sq in X; exact X).
    assert (AD : forall p q : vec, length p = nr B -> length q = nr B -> dot (mulvec B p) q = dot p (mulvec B q)).
    { intros p q Lp Lq. rewrite (mulvec_adjoint B p q) by congruence. f_equal. unfold mulTvec. apply mulvec_meq. split; [|split]; simpl; auto. intros i j Hi Hj. apply Sy; lia. }
    assert (Lws : forall i, (i < length ws)%nat -> length (nth i ws []) = nr B).
    { intros i Hi. destruct Ow as [Sz _]. unfold sized_all in Sz. rewrite Forall_forall in Sz. apply Sz. apply nth_In; auto. }
    assert (Ew : forall i, (i < length ws)%nat -> mulvec B (nth i ws []) = vscale (nth (k + i) es 0) (nth i ws [])).
    { intros i Hi. rewrite Nw. apply HE. lia. }
    assert (Ys : forall i, (i < length ws)%nat -> dot (nth i ws []) y = 0) by (intros i Hi; unfold y, s; apply rest_orth; auto; apply nth_In; auto).
    assert (Z : dot (mulvec B y) s = 0).
    { unfold s. rewrite proj_dot; [|apply (proj1 Ow)|apply (lin_len LM); auto]. rewrite (@lsum_nth K _ _ ws []). apply sumn_zero. intros i Hi.
      rewrite AD, Ew, dot_scale_r by auto. rewrite (dot_comm y), Ys by auto. ring. }
    assert (Z2 : dot y s = 0).
    { unfold s. rewrite proj_dot; [|apply (proj1 Ow)|auto]. rewrite (@lsum_nth K _ _ ws []). apply sumn_zero. intros i Hi. rewrite (dot_comm y), Ys by auto. ring. }
    assert (Ex : x = vadd y s) by (unfold y; vx).
    assert (Sn : forall i, (i < length ws)%nat -> dot s (nth i ws []) = dot (nth i ws []) x).
    { intros i Hi. rewrite dot_comm. unfold s. apply proj_in; auto. apply nth_In; auto. }
    assert (Es : dot s s = sumn (length ws) (fun i => dot (nth i ws []) x * dot (nth i ws []) x)).
    { unfold s at 2. rewrite proj_dot; [|apply (proj1 Ow)|auto]. rewrite (@lsum_nth K _ _ ws []). apply sumn_ext. intros i Hi. rewrite Sn by auto. reflexivity. }
    assert (EB : dot (mulvec B s) s = sumn (length ws) (fun i => nth (k + i) es 0 * (dot (nth i ws []) x * dot (nth i ws []) x))).
    { unfold s at 2. rewrite proj_dot; [|apply (proj1 Ow)|apply (lin_len LM); auto]. rewrite (@lsum_nth K _ _ ws []). apply sumn_ext. intros i Hi.
      rewrite AD, Ew, dot_scale_r, Sn by auto. ring. }
    assert (Hy : mu * dot y y <= dot (mulvec B y) y).
    { apply HG; [congruence|]. intros v Iv. rewrite <- (firstn_skipn k vs) in Iv. apply in_app_or in Iv. destruct Iv as [Iv|Iv].
      - unfold y. assert (Lv : length v = nr B). { destruct O as [Sz _]. unfold sized_all in Sz. rewrite Forall_forall in Sz. apply Sz. rewrite <- (firstn_skipn k vs). apply in_or_app. left; auto. }
        rewrite dot_sub_r by congruence. rewrite HX by auto. unfold s. rewrite proj_dot; [|apply (proj1 Ow)|auto]. rewrite (@lsum_nth K _ _ ws []).
        rewrite sumn_zero; [ring|]. intros i Hi. assert (Hi2 : (k + i < length vs)%nat) by lia. unfold OField.vec in *. destruct (In_nth _ _ [] Iv) as (j & Hj & <-). rewrite firstn_length_le in Hj by auto.
        assert (Ej : nth j (firstn k vs) [] = nth j vs []). { rewrite <- (firstn_skipn k vs) at 2. rewrite app_nth1; auto. rewrite firstn_length_le by auto. auto. }
        rewrite Ej, Nw. assert (Oij : dot (nth j vs []) (nth (k + i) vs []) = if (j =? k + i)%nat then 1 else 0) by (apply (proj2 O); unfold OField.vec in *; lia).
        unfold OField.vec in *. rewrite Oij. destruct (Nat.eqb_spec j (k + i)); [lia|]. unfold OField.vec in *. ring.
      - fold ws in Iv. destruct (In_nth _ _ [] Iv) as (i & Hi & <-). apply Ys; auto. }
    assert (Es1 : lam * dot s s <= dot (mulvec B s) s).
    { rewrite Es, EB, <- sumn_scale. apply sumn_le'. intros i Hi. apply fle_sub_0.
      replace (nth (k + i) es 0 * (dot (nth i ws []) x * dot (nth i ws []) x) - lam * (dot (nth i ws []) x * dot (nth i ws []) x)) with
        ((nth (k + i) es 0 - lam) * (dot (nth i ws []) x * dot (nth i ws []) x)) by ring. apply fle_mul; [|apply fsquare_nonneg]. apply -> (@fle_sub_0 K). apply H2. lia. }
    assert (Ey : lam * dot y y <= mu * dot y y).
    { apply fle_sub_0. replace (mu * dot y y - lam * dot y y) with ((mu - lam) * dot y y) by ring. apply fle_mul; [apply -> (@fle_sub_0 K); auto|apply dot_nonneg]. }
    pose proof (lin_len LM _ Ly) as LBy. pose proof (lin_len LM _ Ls) as LBs.
    assert (Z3 : dot (mulvec B s) y = 0) by (rewrite AD by auto; rewrite dot_comm; exact Z).
    assert (Q1 : dot x x = dot y y + dot s s) by (rewrite Ex, dot_add_l, !dot_add_r by congruence; rewrite (dot_comm s y), Z2; ring).
    assert (Q2 : dot (mulvec B x) x = dot (mulvec B y) y + dot (mulvec B s) s).
    { rewrite Ex. rewrite (lin_add LM) by auto. rewrite dot_add_l, !dot_add_r by congruence. rewrite Z, Z3. ring. }
    rewrite Q1, Q2. apply fle_sub_0. assert (Hy2 := fle_trans K _ _ _ Ey Hy). apply fle_sub_0 in Hy2. apply fle_sub_0 in Es1.
    replace (dot (mulvec B y) y + dot (mulvec B s) s - lam * (dot y y + dot s s)) with
      ((dot (mulvec B y) y - lam * dot y y) + (dot (mulvec B s) s - lam * dot s s)) by ring. apply fadd_nonneg; auto.
  Qed.
End PApproxAll.
