(** Rate of convergence of the two-grid cycle. *)
From Coq Require Import List Arith Lia Bool Field.
From Verif Require Import Base OField Mat LinAlg M_Hier S_Hier P_Hier P_HierS M_Smoother P_Smoother S_HostEnd S_Rate.
Import ListNotations.
Set Implicit Arguments.
Open Scope nat_scope.

Section PRate.
  Variable K : ofield.
  Add Field KfieldRate : (f_field K).
  Local Open Scope K_scope.
  Local Notation vec := (vec K).
  Ltac vx := unfold OField.vec in *; vext; try ring.

  Lemma fle_mul_cancel : forall a x y : K, 0 < a -> a * x <= a * y -> x <= y.
  Proof.
    intros a x y Ha H. destruct (fle_dec K x y) as [L|L]; auto. exfalso.
    assert (P : 0 < a * (x - y)) by (apply fmul_pos; auto; apply flt_sub_0 in L; exact L).
    apply fle_sub_0 in H. apply (@flt_irrefl K 0). eapply flt_le_trans; [exact P|].
    apply fle_sub_0. replace (0 - a * (x - y)) with (a * y - a * x) by ring. exact H.
  Qed.

  (** Cauchy-Schwarz from a nonnegative quadratic form. *)
  Lemma quad_cs : forall P S Q : K, (forall t s, 0 <= t * t * P - (1 + 1) * t * s * S + s * s * Q) -> S * S <= P * Q.
  Proof.
    intros P S Q H. assert (HP : 0 <= P).
    { specialize (H 1 0). replace (1 * 1 * P - (1 + 1) * 1 * 0 * S + 0 * 0 * Q) with P in H by ring. auto. }
    destruct (feq_dec K P 0) as [Z|N].
    - subst P. destruct (feq_dec K S 0) as [->|NS]; [replace (0 * 0) with (0 : K) by ring; replace (0 * Q) with (0 : K) by ring; apply fle_refl|].
      exfalso. set (t := (Q + 1) / ((1 + 1) * S)). specialize (H t 1).
      assert (N2 : (1 + 1 : K) <> 0) by (apply not_eq_sym, flt_neq, fadd_pos; [apply f0_lt_1|apply f0_le_1]).
      assert (E : t * t * 0 - (1 + 1) * t * 1 * S + 1 * 1 * Q = - (1)) by (unfold t; field; auto).
      rewrite E in H. apply (@flt_irrefl K 0). apply flt_le_trans with 1; [apply f0_lt_1|].
      apply fle_sub_0. replace (0 - 1) with (- (1) : K) by ring. auto.
    - assert (LP : 0 < P) by (apply fle_neq_lt; auto). apply (@fle_mul_cancel P); auto.
      specialize (H S P). apply fle_sub_0. replace (P * (P * Q) - P * (S * S)) with (S * S * P - (1 + 1) * S * P * S + P * P * Q) by ring. auto.
  Qed.

  Lemma dot_cs : forall x y : vec, length x = length y -> dot x y * dot x y <= dot x x * dot y y.
  Proof.
    intros x y L. apply quad_cs. intros t s.
    assert (E : t * t * dot x x - (1 + 1) * t * s * dot x y + s * s * dot y y = dot (vsub (vscale t x) (vscale s y)) (vsub (vscale t x) (vscale s y))).
    { rewrite dot_sub_l, !dot_sub_r, !dot_scale_l, !dot_scale_r by vlen. rewrite (dot_comm y x). ring. }
    rewrite E. apply dot_nonneg.
  Qed.

  Section Cycle.
    Variable n : nat.
    Variable A B : vec -> vec.
    Hypothesis LA : linear n n A.
    Hypothesis SA : spd n A.
    Hypothesis LB : linear n n B.
    Hypothesis SB : self_adjoint n B.
    Notation S := (error_step A B).

    Lemma A_len : forall x, length x = n -> length (A x) = n. Proof. exact (lin_len LA). Qed.
    Lemma S_len : forall e, length e = n -> length (S e) = n.
    Proof. intros e He. unfold error_step. assert (H := lin_len LB _ (A_len _ He)). vlen. Qed.

    Lemma energy_cs : forall x y, length x = n -> length y = n -> dot (A x) y * dot (A x) y <= energy A x * energy A y.
    Proof.
      intros x y Hx Hy. apply quad_cs. intros t s. pose proof (A_len _ Hx) as LX. pose proof (A_len _ Hy) as LY.
      assert (E : t * t * energy A x - (1 + 1) * t * s * dot (A x) y + s * s * energy A y = energy A (vsub (vscale t x) (vscale s y))).
      { unfold energy. rewrite (lin_sub LA) by vlen. rewrite !(lin_scale LA) by auto. rewrite dot_sub_l, !dot_sub_r, !dot_scale_l, !dot_scale_r by vlen.
        assert (C : dot (A y) x = dot (A x) y) by (rewrite (proj1 SA y x Hy Hx); apply dot_comm). rewrite C. ring. }
      rewrite E. apply (@energy_nonneg K n A LA SA). vlen.
    Qed.

    (** The smoothing step is symmetric in the energy inner product. *)
    Lemma S_sym : forall x y, length x = n -> length y = n -> dot (A (S x)) y = dot (A x) (S y).
    Proof.
      intros x y Hx Hy. unfold error_step. pose proof (A_len _ Hx) as LX. pose proof (A_len _ Hy) as LY.
      pose proof (lin_len LB _ LX) as LBX. pose proof (lin_len LB _ LY) as LBY. pose proof (A_len _ LBX) as LABX.
      rewrite (lin_sub LA) by auto. rewrite dot_sub_l, dot_sub_r by congruence. f_equal. rewrite (proj1 SA (B (A x)) y LBX Hy).
      apply SB; auto.
    Qed.
    Lemma iter_len : forall k e, length e = n -> length (iter k S e) = n.
    Proof. induction k; intros e He; simpl; auto. apply IHk, S_len, He. Qed.
    Lemma iter_last : forall k e, iter (Datatypes.S k) S e = S (iter k S e).
    Proof. induction k; intros e; simpl; auto. rewrite <- IHk. reflexivity. Qed.
    Lemma iter_sym : forall k x y, length x = n -> length y = n -> dot (A (iter k S x)) y = dot (A x) (iter k S y).
    Proof.
      induction k; intros x y Hx Hy; auto. cbn [iter]. rewrite IHk by (auto using S_len).
      rewrite S_sym by (auto using iter_len). rewrite <- iter_last. reflexivity.
    Qed.

    Variable theta lambda : K.
    Hypothesis Ht : 0 <= theta.
    Hypothesis Hl : 0 < lambda.
    Hypothesis HS : smooths n A B theta.

    Lemma S_decreases : forall e, length e = n -> energy A (S e) <= energy A e.
    Proof.
      intros e He. apply fle_sub_0. eapply fle_trans; [|apply HS; exact He]. apply fle_mul; auto. apply dot_nonneg.
    Qed.
    Lemma iter_decreases : forall k e, length e = n -> energy A (iter k S e) <= energy A e.
    Proof.
      induction k; intros e He; [apply fle_refl|]. cbn [iter]. eapply fle_trans; [apply IHk, S_len, He|apply S_decreases, He].
    Qed.

    (** A coarse space [P c] and the error [u] of a correction from it. *)
    Variable mc : nat.
    Variable P : vec -> vec.
    Hypothesis LP : linear mc n P.
    Hypothesis HP : forall v, length v = n -> exists w, length w = mc /\ lambda * dot (vsub v (P w)) (vsub v (P w)) <= energy A v.
    Definition orthogonal (u : vec) : Prop := length u = n /\ forall w, length w = mc -> dot (A u) (P w) = 0.

    Lemma orthogonal_small : forall u, orthogonal u -> lambda * energy A u <= dot (A u) (A u).
    Proof.
      intros u (Hu & O). destruct (HP u Hu) as (w & Lw & Hw). pose proof (lin_len LP _ Lw) as LPw. pose proof (A_len _ Hu) as LAu.
      assert (E : energy A u = dot (A u) (vsub u (P w))) by (unfold energy; rewrite dot_sub_r by congruence; rewrite (O _ Lw); ring).
      pose proof (energy_nonneg LA SA _ Hu) as Pe.
      destruct (feq_dec K (energy A u) 0) as [Z|N]; [rewrite Z; replace (lambda * 0) with (0 : K) by ring; apply dot_nonneg|].
      apply (@fle_mul_cancel (energy A u)); [apply fle_neq_lt; auto|].
      assert (C := @dot_cs (A u) (vsub u (P w)) ltac:(vlen)). rewrite <- E in C.
      eapply fle_trans; [|eapply fle_trans; [apply (@fle_mul_l K lambda _ _ (flt_le Hl) C)|]].
      - apply fle_sub_0. replace (lambda * (energy A u * energy A u) - energy A u * (lambda * energy A u)) with (0 : K) by ring. apply fle_refl.
      - replace (lambda * (dot (A u) (A u) * dot (vsub u (P w)) (vsub u (P w)))) with (dot (A u) (A u) * (lambda * dot (vsub u (P w)) (vsub u (P w)))) by ring.
        replace (energy A u * dot (A u) (A u)) with (dot (A u) (A u) * energy A u) by ring. apply fle_mul_l; auto. apply dot_nonneg.
    Qed.

    Notation rho := (1 - theta * lambda).
    Lemma smooth_orthogonal : forall k u, (0 < k)%nat -> orthogonal u -> energy A (iter k S u) <= rho * energy A u.
    Proof.
      intros [|k] u Hk O; [lia|]. pose proof (proj1 O) as Hu. cbn [iter]. eapply fle_trans; [apply iter_decreases, S_len, Hu|].
      pose proof (HS u Hu) as H. pose proof (orthogonal_small O) as H2. apply (@fle_mul_l K theta _ _ Ht) in H2.
      apply fle_sub_0. apply fle_sub_0 in H. apply fle_sub_0 in H2.
      replace (rho * energy A u - energy A (S u)) with
        ((energy A u - energy A (S u) - theta * dot (A u) (A u)) + (theta * dot (A u) (A u) - theta * (lambda * energy A u))) by ring.
      apply fadd_nonneg; auto.
    Qed.

    (** Coarse correction between smoothing steps: [u] is the error of e' = S^k e after the correction with P c. *)
    Lemma cycle_rate : forall k e c, (0 < k)%nat -> length e = n -> length c = mc ->
      orthogonal (vsub (iter k S e) (P c)) ->
      energy A (iter k S (vsub (iter k S e) (P c))) <= rho * rho * energy A e.
    Proof.
      intros k e c Hk He Lc O. set (f := vsub (iter k S e) (P c)) in *. pose proof (proj1 O) as Lf.
      pose proof (lin_len LP _ Lc) as LPc. pose proof (iter_len k _ He) as Li.
      pose proof (smooth_orthogonal Hk O) as H1. pose proof (energy_nonneg LA SA _ Lf) as Pf.
      assert (Ls : length (iter k S f) = n) by (apply iter_len; auto).
      pose proof (energy_nonneg LA SA _ Ls) as Ps. pose proof (energy_nonneg LA SA _ He) as Pe.
      destruct (feq_dec K (energy A f) 0) as [Z|N].
      { rewrite Z in H1. replace (rho * 0) with (0 : K) in H1 by ring. eapply fle_trans; [exact H1|]. apply fle_mul; auto. apply fsquare_nonneg. }
      assert (Pf' : 0 < energy A f) by (apply fle_neq_lt; auto).
      assert (Pr : 0 <= rho).
      { apply (@fle_mul_cancel (energy A f)); auto. replace (energy A f * 0) with (0 : K) by ring. replace (energy A f * rho) with (rho * energy A f) by ring.
        eapply fle_trans; [exact Ps|exact H1]. }
      assert (E : energy A f = dot (A (iter k S f)) e).
      { rewrite iter_sym by auto. unfold energy at 1. unfold f at 2. rewrite dot_sub_r by (rewrite Li, LPc; auto). rewrite (proj2 O _ Lc). ring. }
      assert (C := @energy_cs (iter k S f) e Ls He). rewrite <- E in C.
      assert (H2 : energy A f <= rho * energy A e).
      { apply (@fle_mul_cancel (energy A f)); auto. eapply fle_trans; [exact C|].
        replace (energy A f * (rho * energy A e)) with (energy A e * (rho * energy A f)) by ring.
        replace (energy A (iter k S f) * energy A e) with (energy A e * energy A (iter k S f)) by ring. apply fle_mul_l; auto. }
      eapply fle_trans; [exact H1|]. replace (rho * rho * energy A e) with (rho * (rho * energy A e)) by ring. apply fle_mul_l; auto.
    Qed.
  End Cycle.

  (** Errors of the iterates of a correction. *)
  Lemma iter_error : forall n (A B : vec -> vec), linear n n A -> linear n n B -> forall k x e, length x = n -> length e = n ->
    iter k (correction_step A B (A x)) (vsub x e) = vsub x (iter k (error_step A B) e).
  Proof.
    intros n A B LA LB. induction k; intros x e Hx He; auto. cbn [iter].
    assert (E : correction_step A B (A x) (vsub x e) = vsub x (error_step A B e)).
    { unfold correction_step, error_step. pose proof (lin_len LA _ Hx) as L1. pose proof (lin_len LA _ He) as L2. pose proof (lin_len LB _ L2) as L3.
      rewrite (lin_sub LA) by auto. assert (X : vsub (vsub (A x) (A e)) (A x) = vscale (- (1)) (A e)) by vx. rewrite X, (lin_scale LB) by auto. vx. }
    rewrite E. apply IHk; auto. unfold error_step. pose proof (lin_len LB _ (lin_len LA _ He)). vlen.
  Qed.

  (** The two-grid cycle. *)
  Theorem two_grid_rate : forall (A R : mat K) B theta lambda k b x0 y xs, nr A = nc A -> spd (nc A) (mulvec A) -> linear (nc A) (nc A) B ->
    self_adjoint (nc A) B -> nc R = nc A -> (0 < k)%nat -> 0 <= theta -> 0 < lambda -> smooths (nc A) (mulvec A) B theta -> approximates A R lambda ->
    length x0 = nc A -> length xs = nc A -> mulvec A xs = b -> two_grid A R B k b x0 y ->
    length y = nc A /\
    energy (mulvec A) (vsub xs y) <= (1 - theta * lambda) * (1 - theta * lambda) * energy (mulvec A) (vsub xs x0).
  Proof.
    intros A R B theta lambda k b x0 y xs D SA LB SB DR Hk Ht Hl HS HA Lx Ls <- (c & Lc & Ec & ->).
    assert (LA : linear (nc A) (nc A) (mulvec A)) by (pose proof (mulvec_linear A) as X; rewrite D in X; exact X).
    assert (LP : linear (nr R) (nc A) (mulTvec R)) by (rewrite <- DR; apply mulTvec_linear).
    assert (LR : linear (nc A) (nr R) (mulvec R)) by (rewrite <- DR; apply mulvec_linear).
    unfold approximates in HA. set (n := nc A) in *.
    set (e := vsub xs x0) in *. assert (Le : length e = n) by (unfold e; vlen).
    assert (X0 : x0 = vsub xs e) by (unfold e; vx). clearbody e. subst x0.
    rewrite (iter_error LA LB) in * by auto. set (e1 := iter k (error_step (mulvec A) B) e) in *.
    assert (Le1 : length e1 = n) by (unfold e1; apply iter_len; auto).
    pose proof (lin_len LP _ Lc) as LPc.
    assert (X : vadd (vsub xs e1) (mulTvec R c) = vsub xs (vsub e1 (mulTvec R c))) by vx. rewrite X. clear X.
    rewrite (iter_error LA LB) by (auto; vlen).
    assert (Lf : length (vsub e1 (mulTvec R c)) = n) by vlen.
    assert (Lg : length (iter k (error_step (mulvec A) B) (vsub e1 (mulTvec R c))) = n) by (apply iter_len; auto).
    split; [vlen|].
    assert (X : forall z : vec, length z = n -> vsub xs (vsub xs z) = z) by (intros z Hz; vx). rewrite X by auto.
    apply (@cycle_rate n (mulvec A) B LA SA LB SB theta lambda Ht Hl HS (nr R) (mulTvec R) LP HA k e c Hk Le Lc).
    fold e1. split; auto. intros w Lw.
    rewrite dot_comm.
    assert (LAf : length (mulvec A (vsub e1 (mulTvec R c))) = n) by (apply (lin_len LA); auto).
    assert (Q : dot (mulTvec R w) (mulvec A (vsub e1 (mulTvec R c))) = dot w (mulvec R (mulvec A (vsub e1 (mulTvec R c))))).
    { apply mulTvec_adjoint; auto. rewrite DR. auto. }
    rewrite Q. rewrite (lin_sub LA) by auto.
    rewrite (lin_sub LR) by (apply (lin_len LA); auto). rewrite Ec.
    assert (Y : vsub (mulvec A xs) (mulvec A (vsub xs e1)) = mulvec A e1).
    { rewrite (lin_sub LA) by auto. pose proof (lin_len LA _ Ls). pose proof (lin_len LA _ Le1). vx. }
    rewrite Y, vsub_self, dot_zero_r. reflexivity.
  Qed.
End PRate.
