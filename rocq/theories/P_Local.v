(** Quality of inexact local vectors, and what the rate of one call implies. *)
From Coq Require Import String List Arith ZArith Bool Lia Field.
From Verif Require Import Base OField Mat LinAlg M_Ptree M_Agglo M_Restr S_Restr S_FastAP S_Lanczos S_Eig P_Eig M_Hier S_Hier P_HierE P_Hier2 P_Restr2 S_Rate P_Rate P_Rate2 P_Approx P_FastAP P_HierS.
Import ListNotations.
Set Implicit Arguments.
Open Scope list_scope.
Open Scope nat_scope.

Section PLocal.
  Variable K : ofield.
  Add Field KfieldLocal : (f_field K).
  Local Open Scope K_scope.
  Local Notation vec := (vec K).
  Ltac vx := unfold OField.vec in *; vext; try ring.

  Lemma le_of_squares : forall a b : K, 0 <= b -> a * a <= b * b -> a <= b.
  Proof.
    intros a b Hb Hab. destruct (fle_dec K a b) as [Q|Q]; auto. exfalso. assert (Pa : flt 0 a) by (eapply fle_lt_trans; eauto).
    apply (@flt_irrefl K (a * a)). eapply fle_lt_trans; [exact Hab|].
    apply flt_sub_0. replace (a * a - b * b) with ((a - b) * (a + b)) by ring. apply fmul_pos; [apply flt_sub_0 in Q; exact Q|apply fadd_pos; auto].
  Qed.
  Lemma mean_nonneg : forall a b c : K, 0 <= a -> 0 <= c -> b * b <= a * c -> 0 <= a + (1 + 1) * b + c.
  Proof.
    intros a b c Ha Hc H. assert (Q : - ((1 + 1) * b) <= a + c).
    { apply le_of_squares; [apply fadd_nonneg; auto|]. apply fle_sub_0.
      replace ((a + c) * (a + c) - - ((1 + 1) * b) * - ((1 + 1) * b)) with ((a - c) * (a - c) + (1 + 1) * (1 + 1) * (a * c - b * b)) by ring.
      apply fadd_nonneg; [apply fsquare_nonneg|]. apply fle_mul; [apply fsquare_nonneg|]. apply -> (@fle_sub_0 K). exact H. }
    apply fle_sub_0 in Q. replace (a + (1 + 1) * b + c) with (a + c - - ((1 + 1) * b)) by ring. exact Q.
  Qed.

  (** Orthonormal vectors that are eigenvectors up to their residuals. *)
  Lemma inexact_represents : forall (M : mat K) es mus lambda lambda' eps, symmetric_matrix M -> positive_semidefinite M -> orthonormal (nr M) es ->
    gap M es lambda -> lambda' <= lambda -> 0 <= eps ->
    sumn (length es) (fun i => dot (residual M (nth i mus 0) (nth i es [])) (residual M (nth i mus 0) (nth i es []))) <= (lambda - lambda') * eps ->
    approximates_up_to M (rows_matrix (nr M) es) lambda' eps.
  Proof.
    intros M es mus lambda lambda' eps Sy PD O HG Hl He HR v Hv. assert (Sq : nr M = nc M) by apply Sy. rewrite <- Sq in Hv.
    set (eta := sumn (length es) _) in HR.
    exists (map (fun e => dot e v) es). split; [rewrite map_length; reflexivity|]. rewrite proj_rows by apply O.
    set (s := proj (nr M) es v). set (x := vsub v s).
    assert (Ls : length s = nr M) by (apply proj_len; apply (proj1 O)). assert (Lx : length x = nr M) by (unfold x; vlen).
    assert (LM : linear (nr M) (nr M) (mulvec M)) by (pose proof (mulvec_linear M) as X; rewrite <- Sq in X; exact X).
    assert (Ev : v = vadd x s) by (unfold x; vx).
    assert (SY : forall a b, length a = nr M -> length b = nr M -> dot (mulvec M a) b = dot a (mulvec M b)).
    { intros a b La Lb. rewrite (mulvec_adjoint M a b) by congruence. f_equal. unfold mulTvec. apply mulvec_meq. split; [|split]; simpl; auto. intros p q Hp Hq. apply Sy; lia. }
    assert (Le : forall i, (i < length es)%nat -> length (nth i es []) = nr M).
    { intros i Hi. destruct O as [Sz _]. unfold sized_all in Sz. rewrite Forall_forall in Sz. apply Sz, nth_In; auto. }
    assert (XO : forall i, (i < length es)%nat -> dot (nth i es []) x = 0) by (intros i Hi; unfold x, s; apply rest_orth; auto; apply nth_In; auto).
    set (b := dot (mulvec M x) s).
    assert (Eb : b = sumn (length es) (fun i => dot (nth i es []) v * dot x (residual M (nth i mus 0) (nth i es [])))).
    { unfold b, s. rewrite proj_dot; [|apply (proj1 O)|apply (lin_len LM); auto]. rewrite (@lsum_nth K _ _ es []). apply sumn_ext. intros i Hi. f_equal.
      rewrite SY by auto. unfold residual. assert (L1 := Le i Hi). rewrite dot_sub_r by (rewrite mulvec_length; unfold OField.vec in *; vlen). rewrite dot_scale_r, (dot_comm x (nth i es [])), XO by auto. ring. }
    assert (Es : dot s s = sumn (length es) (fun i => dot (nth i es []) v * dot (nth i es []) v)).
    { unfold s at 2. rewrite proj_dot by (auto; apply (proj1 O)). rewrite (@lsum_nth K _ _ es []). apply sumn_ext. intros i Hi. f_equal.
      rewrite dot_comm. unfold s. apply proj_in; auto. apply nth_In; auto. }
    assert (B : b * b <= dot s s * (dot x x * eta)).
    { set (cs := map (fun i => dot (nth i es []) v) (seq 0 (length es))). set (ds := map (fun i => dot x (residual M (nth i mus 0) (nth i es []))) (seq 0 (length es))).
      assert (Lc : length cs = length es) by (unfold cs; rewrite map_length, seq_length; auto). assert (Ld : length ds = length es) by (unfold ds; rewrite map_length, seq_length; auto).
      assert (Nc : forall i, (i < length es)%nat -> nth i cs 0 = dot (nth i es []) v).
      { intros i Hi. unfold cs. rewrite nth_map_K by (rewrite seq_length; auto). rewrite seq_nth by auto. reflexivity. }
      assert (Nd : forall i, (i < length es)%nat -> nth i ds 0 = dot x (residual M (nth i mus 0) (nth i es []))).
      { intros i Hi. unfold ds. rewrite nth_map_K by (rewrite seq_length; auto). rewrite seq_nth by auto. reflexivity. }
      assert (C := @dot_cs K cs ds ltac:(congruence)). rewrite !(@dot_sumn K _ _ (length es)) in C by auto.
      replace (sumn (length es) (fun i => nth i cs 0 * nth i ds 0)) with b in C by (rewrite Eb; apply sumn_ext; intros i Hi; rewrite Nc, Nd by auto; reflexivity).
      replace (sumn (length es) (fun i => nth i cs 0 * nth i cs 0)) with (dot s s) in C by (rewrite Es; apply sumn_ext; intros i Hi; rewrite Nc by auto; reflexivity).
      eapply fle_trans; [exact C|]. apply fle_mul_l; [apply dot_nonneg|]. unfold eta. rewrite <- sumn_scale. apply sumn_le'. intros i Hi. rewrite Nd by auto.
      apply dot_cs. unfold residual. assert (L1 := Le i Hi). assert (L2 := mulvec_length M (nth i es [])). unfold OField.vec in *. vlen. }
    assert (E : energy (mulvec M) v = dot (mulvec M x) x + (1 + 1) * b + dot (mulvec M s) s).
    { unfold energy. rewrite Ev at 1 2. rewrite (lin_add LM) by auto. pose proof (lin_len LM _ Lx). pose proof (lin_len LM _ Ls).
      rewrite dot_add_l, !dot_add_r by congruence. unfold b. rewrite (SY s x) by auto. rewrite (dot_comm s). ring. }
    assert (Pv : dot s s <= dot v v).
    { rewrite Ev. rewrite dot_add_l, !dot_add_r by congruence. assert (Z : dot x s = 0).
      { unfold s. rewrite proj_dot by (auto; apply (proj1 O)). rewrite (@lsum_nth K _ _ es []). apply sumn_zero. intros i Hi. rewrite (dot_comm x), XO by auto. ring. }
      rewrite (dot_comm s x), Z. apply fle_sub_0. replace (dot x x + 0 + (0 + dot s s) - dot s s) with (dot x x) by ring. apply dot_nonneg. }
    assert (G : lambda * dot x x <= dot (mulvec M x) x).
    { apply HG; [congruence|]. intros e Ie. unfold x, s. apply rest_orth; auto. }
    assert (PS : 0 <= dot (mulvec M s) s) by (apply PD; auto).
    assert (Al : 0 <= lambda - lambda') by (apply -> (@fle_sub_0 K); exact Hl).
    assert (Q : 0 <= (lambda - lambda') * dot x x + (1 + 1) * b + eps * dot s s).
    { apply mean_nonneg; [apply fle_mul; [exact Al|apply dot_nonneg]|apply fle_mul; [exact He|apply dot_nonneg]|]. eapply fle_trans; [exact B|].
      replace ((lambda - lambda') * dot x x * (eps * dot s s)) with (dot s s * (dot x x * ((lambda - lambda') * eps))) by ring.
      apply fle_mul_l; [apply dot_nonneg|]. apply fle_mul_l; [apply dot_nonneg|exact HR]. }
    rewrite E. apply fle_sub_0. apply fle_sub_0 in G. assert (Pv' : 0 <= eps * (dot v v - dot s s)) by (apply fle_mul; [exact He|apply -> (@fle_sub_0 K); exact Pv]).
    replace (dot (mulvec M x) x + (1 + 1) * b + dot (mulvec M s) s + eps * dot v v - lambda' * dot x x) with
      ((dot (mulvec M x) x - lambda * dot x x) + (((lambda - lambda') * dot x x + (1 + 1) * b + eps * dot s s) + (dot (mulvec M s) s + eps * (dot v v - dot s s)))) by ring.
    apply fadd_nonneg; [exact G|]. apply fadd_nonneg; [exact Q|]. apply fadd_nonneg; auto.
  Qed.

  (** A definite matrix absorbs the additional term. *)
  Lemma absorb : forall (A R : mat K) lambda eps mu lambda', (forall v, length v = nc A -> mu * dot v v <= energy (mulvec A) v) -> 0 < mu -> 0 <= eps ->
    lambda' * (mu + eps) <= lambda * mu -> approximates_up_to A R lambda eps -> approximates A R lambda'.
  Proof.
    intros A R lambda eps mu lambda' Hm Pm He HL H v Hv. destruct (H v Hv) as (w & Lw & Ew). exists w. split; [exact Lw|].
    set (x := dot (vsub v (mulTvec R w)) (vsub v (mulTvec R w))) in *. assert (Px : 0 <= x) by apply dot_nonneg.
    assert (Ps : 0 < mu + eps) by (apply fadd_pos; auto).
    assert (Q : (mu + eps) * (lambda' * x) <= (mu + eps) * energy (mulvec A) v).
    { apply fle_trans with (mu * (lambda * x)).
      - replace ((mu + eps) * (lambda' * x)) with (x * (lambda' * (mu + eps))) by ring. replace (mu * (lambda * x)) with (x * (lambda * mu)) by ring. apply fle_mul_l; auto.
      - eapply fle_trans; [apply fle_mul_l; [apply flt_le; exact Pm|exact Ew]|].
        apply fle_sub_0. replace ((mu + eps) * energy (mulvec A) v - mu * (energy (mulvec A) v + eps * dot v v)) with (eps * (energy (mulvec A) v - mu * dot v v)) by ring.
        apply fle_mul; auto. apply -> (@fle_sub_0 K). apply Hm; auto. }
    destruct (fle_dec K (lambda' * x) (energy (mulvec A) v)) as [Y|Y]; auto. exfalso. apply (@flt_irrefl K ((mu + eps) * (lambda' * x))).
    eapply fle_lt_trans; [exact Q|]. apply flt_sub_0. replace ((mu + eps) * (lambda' * x) - (mu + eps) * energy (mulvec A) v) with ((mu + eps) * (lambda' * x - energy (mulvec A) v)) by ring.
    apply fmul_pos; auto. apply flt_sub_0 in Y. exact Y.
  Qed.

  (** Constrained dofs: the vectors vanish there, and the matrix has only its diagonal there. *)
  Lemma gap_constrained : forall (M : mat K) C es lambda, square M -> decoupled M C -> (forall e, In e es -> length e = nr M /\ vanishes C e) ->
    (forall c, In c C -> (c < nr M)%nat -> lambda <= ent M c c) ->
    (forall x, length x = nc M -> vanishes C x -> (forall v, In v es -> dot v x = 0) -> lambda * dot x x <= dot (mulvec M x) x) -> gap M es lambda.
  Proof.
    intros M C es lambda Sq D HV HC HG x Lx HX. unfold square in Sq. rewrite <- Sq in *.
    set (inC := fun i => existsb (Nat.eqb i) C).
    assert (IC : forall i, inC i = true <-> In i C).
    { intros i. unfold inC. rewrite existsb_exists. split; [intros (y & I & E); apply Nat.eqb_eq in E; subst; auto|intros I; exists i; split; auto; apply Nat.eqb_refl]. }
    set (xf := map (fun i => if inC i then 0 else nth i x 0) (seq 0 (nr M))). set (xc := map (fun i => if inC i then nth i x 0 else 0) (seq 0 (nr M))).
    assert (Lf : length xf = nr M) by (unfold xf; rewrite map_length, seq_length; auto). assert (Lc : length xc = nr M) by (unfold xc; rewrite map_length, seq_length; auto).
    assert (Nf : forall i, (i < nr M)%nat -> nth i xf 0 = if inC i then 0 else nth i x 0).
    { intros i Hi. unfold xf. rewrite nth_map_K by (rewrite seq_length; auto). rewrite seq_nth by auto. reflexivity. }
    assert (Nc : forall i, (i < nr M)%nat -> nth i xc 0 = if inC i then nth i x 0 else 0).
    { intros i Hi. unfold xc. rewrite nth_map_K by (rewrite seq_length; auto). rewrite seq_nth by auto. reflexivity. }
    assert (Vf : vanishes C xf).
    { intros c Ic. destruct (lt_dec c (nr M)) as [L|L]; [rewrite Nf by auto; apply IC in Ic; rewrite Ic; reflexivity|apply nth_overflow; lia]. }
    assert (Gf : lambda * dot xf xf <= dot (mulvec M xf) xf).
    { apply HG; auto. intros v Iv. destruct (HV v Iv) as (Lv & Vv). rewrite <- (HX v Iv). rewrite !(@dot_sumn K _ _ (nr M)) by auto. apply sumn_ext. intros i Hi.
      rewrite Nf by auto. destruct (inC i) eqn:E; auto. apply IC in E. rewrite (Vv i E). ring. }
    assert (E1 : dot x x = dot xf xf + dot xc xc).
    { rewrite !(@dot_sumn K _ _ (nr M)) by auto. rewrite <- sumn_add. apply sumn_ext. intros i Hi. rewrite Nf, Nc by auto. destruct (inC i); ring. }
    assert (E2 : dot (mulvec M x) x = dot (mulvec M xf) xf + sumn (nr M) (fun i => ent M i i * (nth i xc 0 * nth i xc 0))).
    { rewrite !(@dot_sumn K _ _ (nr M)) by (auto; rewrite mulvec_length; auto). rewrite <- sumn_add. apply sumn_ext. intros i Hi. rewrite !nth_mulvec by auto. rewrite Nf, Nc by auto.
      destruct (inC i) eqn:E.
      - apply IC in E. rewrite (@sumn_single K (nc M) i) by (try lia; intros j _ Hne; rewrite (proj1 (D i j E Hne)); ring). ring.
      - replace (sumn (nc M) (fun j => ent M i j * nth j x 0)) with (sumn (nc M) (fun j => ent M i j * nth j xf 0)); [ring|]. apply sumn_ext. intros j Hj. rewrite Nf by congruence.
        destruct (inC j) eqn:F; auto. apply IC in F. assert (Hne : i <> j) by (intros ->; apply IC in F; congruence). rewrite (proj2 (D j i F Hne)). ring. }
    rewrite E1, E2. apply fle_sub_0. apply fle_sub_0 in Gf.
    assert (Q : 0 <= sumn (nr M) (fun i => ent M i i * (nth i xc 0 * nth i xc 0)) - lambda * dot xc xc).
    { rewrite (@dot_sumn K _ _ (nr M) Lc Lc), <- sumn_scale, <- sumn_sub. apply sumn_nonneg. intros i Hi. rewrite Nc by auto. destruct (inC i) eqn:E.
      - apply IC in E. replace (ent M i i * (nth i x 0 * nth i x 0) - lambda * (nth i x 0 * nth i x 0)) with ((ent M i i - lambda) * (nth i x 0 * nth i x 0)) by ring.
        apply fle_mul; [apply -> (@fle_sub_0 K); apply HC; auto|apply fsquare_nonneg].
      - match goal with |- _ <= ?a => replace a with (0 : K) by ring end. apply fle_refl. }
    match goal with |- 0 <= ?a => replace a with ((dot (mulvec M xf) xf - lambda * dot xf xf) + (sumn (nr M) (fun i => ent M i i * (nth i xc 0 * nth i xc 0)) - lambda * dot xc xc)) by ring end.
    apply fadd_nonneg; auto.
  Qed.

  (** More vectors represent no less. *)
  Lemma more_rows : forall (M : mat K) n es fs lambda eps, nc M = n -> approximates_up_to M (rows_matrix n es) lambda eps -> approximates_up_to M (rows_matrix n (es ++ fs)) lambda eps.
  Proof.
    intros M n es fs lambda eps En H v Hv. destruct (H v Hv) as (w & Lw & Ew). cbn [rows_matrix nr] in Lw. exists (w ++ repeat 0 (length fs)).
    split; [cbn [rows_matrix nr]; rewrite !app_length, repeat_length; congruence|].
    assert (E : mulTvec (rows_matrix n (es ++ fs)) (w ++ repeat 0 (length fs)) = mulTvec (rows_matrix n es) w); [|rewrite E; exact Ew].
    apply vec_ext; [rewrite !mulTvec_length; reflexivity|]. intros j Hj. rewrite mulTvec_length in Hj. cbn [rows_matrix nc] in Hj.
    unfold mulTvec. rewrite !nth_mulvec by exact Hj. cbn [mtrans rows_matrix nc nr ent]. rewrite app_length, sumn_plus.
    replace (sumn (length fs) _) with (0 : K).
    - match goal with |- ?a + 0 = _ => replace (a + 0) with a by ring end. apply sumn_ext. intros i Hi. rewrite !app_nth1 by congruence. reflexivity.
    - symmetry. apply sumn_zero. intros i Hi. rewrite (app_nth2 w) by lia. rewrite nth_repeat. ring.
  Qed.

  (** From the rate of one call to repeated calls and to the condition number. *)
  Section FromRate.
    Variables (A : mat K) (h : hierarchy K) (rho : K) (prec : bool).
    Hypothesis DA : nr A = nc A.
    Hypothesis Hspd : spd (nc A) (mulvec A).
    Hypothesis V : forall te x xs l, open_sections l = [] -> length x = nc A -> length xs = nc A ->
      exists y l', hierarchy_vmult te h x (mulvec A xs) l = (Ok y, l') /\ open_sections l' = [] /\ length y = nc A /\
        energy (mulvec A) (vsub xs y) <= rho * rho * energy (mulvec A) (vsub xs (if prec then vzero (nc A) else x)).
    Lemma repeated_rate : prec = false -> forall te x xs k l, open_sections l = [] -> length x = nc A -> length xs = nc A ->
      exists y l', repeated_vmult te h (mulvec A xs) k x l = (Ok y, l') /\ open_sections l' = [] /\
        energy (mulvec A) (vsub xs y) <= fpow (rho * rho) k * energy (mulvec A) (vsub xs x).
    Proof.
      intros PF. rewrite PF in V. intros te x xs k. revert x. induction k as [|k IH]; intros x l Hl Lx Lxs.
      - exists x, l. split; [reflexivity|]. split; [exact Hl|]. cbn [fpow].
        replace (1 * energy (mulvec A) (vsub xs x)) with (energy (mulvec A) (vsub xs x)) by ring. apply fle_refl.
      - destruct (V te x xs l Hl Lx Lxs) as (y & l1 & E & O & Ly & EN). destruct (IH y l1 O Ly Lxs) as (z & l2 & E2 & O2 & EN2).
        exists z, l2. split; [cbn [repeated_vmult]; rewrite E; exact E2|]. split; [exact O2|]. eapply fle_trans; [exact EN2|]. cbn [fpow].
        replace (rho * rho * fpow (rho * rho) k * energy (mulvec A) (vsub xs x)) with (fpow (rho * rho) k * (rho * rho * energy (mulvec A) (vsub xs x))) by ring.
        apply fle_mul_l; [|exact EN]. clear. induction k; cbn [fpow]; [apply f0_le_1|]. apply fle_mul; [apply fsquare_nonneg|exact IHk].
    Qed.
    Lemma condition_rate : prec = true -> 0 <= rho -> forall te x e l, open_sections l = [] -> length x = nc A -> length e = nc A ->
      exists y l', hierarchy_vmult te h x (mulvec A e) l = (Ok y, l') /\ open_sections l' = [] /\
        (1 - rho) * energy (mulvec A) e <= dot y (mulvec A e) /\ dot y (mulvec A e) <= (1 + rho) * energy (mulvec A) e.
    Proof.
      intros PF Hr. rewrite PF in V. intros te x e l Hl Lx Le. destruct (V te x e l Hl Lx Le) as (y & l1 & E & O & Ly & EN). exists y, l1. split; [exact E|]. split; [exact O|].
      assert (Z : vsub e (vzero (nc A)) = e) by vx. rewrite Z in EN.
      assert (LA : linear (nc A) (nc A) (mulvec A)) by (pose proof (mulvec_linear A) as X; rewrite DA in X; exact X).
      assert (Ld : length (vsub e y) = nc A) by (unfold OField.vec in *; vlen).
      assert (C := @energy_cs K (nc A) (mulvec A) LA Hspd (vsub e y) e Ld Le).
      assert (Pe : 0 <= energy (mulvec A) e) by (apply (@energy_nonneg K (nc A) (mulvec A) LA Hspd); auto).
      assert (I : dot (mulvec A (vsub e y)) e = energy (mulvec A) e - dot y (mulvec A e)).
      { rewrite (lin_sub LA) by auto. rewrite dot_sub_l by (rewrite !mulvec_length; reflexivity). unfold energy. f_equal. apply (proj1 Hspd); auto. }
      rewrite I in C. set (t := dot y (mulvec A e)) in *. set (n0 := energy (mulvec A) e) in *.
      assert (S : (n0 - t) * (n0 - t) <= (rho * n0) * (rho * n0)).
      { eapply fle_trans; [exact C|]. replace (rho * n0 * (rho * n0)) with (n0 * (rho * rho * n0)) by ring.
        replace (energy (mulvec A) (vsub e y) * n0) with (n0 * energy (mulvec A) (vsub e y)) by ring. apply fle_mul_l; auto. }
      assert (Pr : 0 <= rho * n0) by (apply fle_mul; auto).
      split.
      - assert (Q := @le_of_squares _ _ Pr S). apply fle_sub_0 in Q. apply fle_sub_0. replace (t - (1 - rho) * n0) with (rho * n0 - (n0 - t)) by ring. exact Q.
      - assert (S2 : (t - n0) * (t - n0) <= (rho * n0) * (rho * n0)) by (replace ((t - n0) * (t - n0)) with ((n0 - t) * (n0 - t)) by ring; exact S).
        assert (Q := @le_of_squares _ _ Pr S2). apply fle_sub_0 in Q. apply fle_sub_0. replace ((1 + rho) * n0 - t) with (rho * n0 - (t - n0)) by ring. exact Q.
    Qed.
  End FromRate.
End PLocal.
