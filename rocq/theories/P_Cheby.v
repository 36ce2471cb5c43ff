(** Proofs about the Chebyshev smoother. *)
From Coq Require Import String List Arith ZArith NArith Bool Lia Field.
From Verif Require Import Base OField Mat LinAlg M_Ptree M_Hier M_Host S_Hier P_Hier P_Hier2 P_HierE P_HierS P_Smoother M_Cheby S_Cheby P_Poly S_Rate.
Import ListNotations.
Set Implicit Arguments.
Open Scope nat_scope.

Section P.
  Variable K : ofield.
  Add Field KfieldCh : (f_field K).
  Local Open Scope K_scope.
  Notation vec := (vec K).

  Lemma two_pos : (0 : K) < 1 + 1.
  Proof. apply fadd_pos; [apply f0_lt_1|apply f0_le_1]. Qed.
  Lemma fdiv_pos : forall a b : K, 0 < a -> 0 < b -> 0 < a / b.
  Proof. intros a b Ha Hb. rewrite (Fdiv_def (f_field K)). apply fmul_pos; auto. apply finv_pos; auto. Qed.
  Lemma pos_neq : forall a : K, 0 < a -> a <> 0.
  Proof. intros a H E. subst. exact (flt_irrefl H). Qed.

  Lemma le_cancel : forall a x y : K, 0 < a -> a * x <= a * y -> x <= y.
  Proof.
    intros a x y Ha H. replace x with (1 / a * (a * x)) by (field; apply pos_neq; auto). replace y with (1 / a * (a * y)) by (field; apply pos_neq; auto).
    apply fle_mul_l; auto. apply flt_le, fdiv_pos; auto. apply f0_lt_1.
  Qed.
  Lemma sums_le : forall n (f g : nat -> K), (forall i, (i < n)%nat -> f i <= g i) -> sumn n f <= sumn n g.
  Proof. induction n; intros f g H; cbn [sumn]; [apply fle_refl|]. apply fle_add2; [apply IHn; intros; apply H; lia|apply H; lia]. Qed.
  (** A correction whose error map is A-self-adjoint and shrinks the energy is a good smoother. *)
  Lemma good_from_error : forall n (A B E : vec -> vec), linear n n A -> spd n A -> maps n n B -> linear n n E ->
    (forall e, length e = n -> B (A e) = vsub e (E e)) ->
    (forall u v, length u = n -> length v = n -> dot (A (E u)) v = dot (A u) (E v)) ->
    (forall e, length e = n -> e <> vzero n -> energy A (E e) < energy A e) ->
    good_smoother n A (correction_step A B).
  Proof.
    intros n A B E LA SA MB LE HB HS HE. exists B.
    assert (ONTO : forall b, length b = n -> exists e, length e = n /\ A e = b) by (intros; apply spd_onto; auto).
    assert (LB : linear n n B).
    { constructor; auto.
      - intros x y Hx Hy. destruct (ONTO x Hx) as (e & He & <-). destruct (ONTO y Hy) as (g & Hg & <-).
        rewrite <- (lin_add LA) by auto. rewrite !HB by (auto; vlen). rewrite (lin_add LE) by auto.
        pose proof (lin_len LE e He). pose proof (lin_len LE g Hg). vext. ring.
      - intros s x Hx. destruct (ONTO x Hx) as (e & He & <-). rewrite <- (lin_scale LA) by auto. rewrite !HB by (auto; vlen).
        rewrite (lin_scale LE) by auto. rewrite vscale_sub; auto. rewrite (lin_len LE); auto. }
    split; [exact LB|]. split; [|split].
    - intros x y Hx Hy. destruct (ONTO x Hx) as (e & He & <-). destruct (ONTO y Hy) as (g & Hg & <-).
      rewrite !HB by auto. pose proof (lin_len LE e He) as H1. pose proof (lin_len LE g Hg) as H2.
      rewrite dot_sub_l, dot_sub_r by congruence.
      assert (Q1 : dot e (A g) = dot (A e) g) by (symmetry; apply (proj1 SA); auto). rewrite Q1.
      assert (Q2 : dot (E e) (A g) = dot (A (E e)) g) by (symmetry; apply (proj1 SA); auto). rewrite Q2. rewrite HS by auto. auto.
    - intros r Hr N. destruct (ONTO r Hr) as (e & He & <-).
      assert (Ne : e <> vzero n). { intros ->. apply N. apply (lin_zero LA). }
      rewrite HB by auto. pose proof (lin_len LE e He) as H1. set (w := vsub e (E e)). assert (Hw : length w = n) by (unfold w; vlen).
      specialize (HE e He Ne).
      assert (Q : E e = vsub e w) by (unfold w; vext; ring). rewrite Q in HE. unfold energy in HE.
      rewrite (lin_sub LA) in HE by auto. pose proof (lin_len LA e He). pose proof (lin_len LA w Hw).
      rewrite dot_sub_l, !dot_sub_r in HE by congruence.
      assert (S1 : dot (A w) e = dot w (A e)) by (apply (proj1 SA); auto).
      assert (S2 : dot (A e) w = dot w (A e)) by apply dot_comm.
      rewrite S1, S2 in HE. apply flt_sub_0 in HE. apply flt_sub_0.
      replace ((1 + 1) * dot w (A e) - dot (A w) w) with (dot (A e) e - (dot (A e) e - dot w (A e) - (dot w (A e) - dot (A w) w))) by ring. exact HE.
    - auto.
  Qed.

  Section Op.
    Variable n : nat.
    Variable A : vec -> vec.
    Hypothesis LA : linear n n A.
    Hypothesis SA : spd n A.
    Variable d dinv : vec.
    Hypothesis HD : inverse_diagonal n d dinv.
    Variable hi alpha : K.
    Hypothesis Hhi : 0 < hi.
    Hypothesis Hal : 0 < alpha.
    Hypothesis HB : bounded_by n A d hi.
    Let delta := (hi - alpha) / (1 + 1).
    Let theta := (hi + alpha) / (1 + 1).

    Lemma diag_linear : linear n n (diag_apply dinv).
    Proof.
      destruct HD as (H1 & H2 & _). unfold diag_apply. constructor.
      - intros x Hx. rewrite vmap2_length. lia.
      - intros x y Hx Hy. apply vec_ext; [rewrite vadd_length, !vmap2_length, vadd_length; lia|]. intros i Hi.
        rewrite nth_vadd by (rewrite !vmap2_length; lia). rewrite !nth_vmap2 by (first [ring|vlen]). rewrite nth_vadd by congruence. ring.
      - intros s x Hx. apply vec_ext; [rewrite vscale_length, !vmap2_length, vscale_length; lia|]. intros i Hi.
        rewrite nth_vscale. rewrite !nth_vmap2 by (first [ring|vlen]). rewrite nth_vscale. ring.
    Qed.
    Lemma nth_diag : forall r i, length r = n -> nth i (diag_apply dinv r) 0 = nth i dinv 0 * nth i r 0.
    Proof. intros r i Hr. unfold diag_apply. apply nth_vmap2; [destruct HD; intuition congruence|ring]. Qed.
    Lemma diag_sym : self_adjoint n (diag_apply dinv).
    Proof.
      intros x y Hx Hy. rewrite !(@dot_sumn K _ _ n) by (auto; apply (lin_len diag_linear); auto). apply sumn_ext. intros i Hi. rewrite !nth_diag by auto. ring.
    Qed.
    Lemma diag_weight : forall r, length r = n -> sumn n (fun i => nth i d 0 * nth i (diag_apply dinv r) 0 * nth i (diag_apply dinv r) 0) = dot (diag_apply dinv r) r.
    Proof.
      intros r Hr. rewrite (@dot_sumn K _ _ n) by (auto; apply (lin_len diag_linear); auto). apply sumn_ext. intros i Hi. rewrite !nth_diag by auto.
      destruct HD as (_ & _ & H). destruct (H i Hi) as (P & ->). field. apply pos_neq; auto.
    Qed.
    Lemma diag_pos : forall r, length r = n -> r <> vzero n -> 0 < dot (diag_apply dinv r) r.
    Proof.
      intros r Hr N. rewrite (@dot_sumn K _ _ n) by (auto; apply (lin_len diag_linear); auto).
      apply fle_neq_lt.
      - apply sumn_nonneg. intros i Hi. rewrite nth_diag by auto. destruct HD as (_ & _ & H). destruct (H i Hi) as (P & ->).
        replace (1 / nth i d 0 * nth i r 0 * nth i r 0) with (1 / nth i d 0 * (nth i r 0 * nth i r 0)) by ring.
        apply fle_mul; [apply flt_le; apply fdiv_pos; auto; apply f0_lt_1|apply fsquare_nonneg].
      - intros E. apply N. apply vec_ext; [rewrite vzero_length; auto|]. intros i Hi. rewrite Hr in Hi. rewrite nth_vzero.
        assert (Z : nth i (diag_apply dinv r) 0 * nth i r 0 = 0).
        { apply (@sumn_nonneg_eq_0 K n (fun i => nth i (diag_apply dinv r) 0 * nth i r 0)); auto. intros j Hj. rewrite nth_diag by auto.
          destruct HD as (_ & _ & H). destruct (H j Hj) as (P & ->).
          replace (1 / nth j d 0 * nth j r 0 * nth j r 0) with (1 / nth j d 0 * (nth j r 0 * nth j r 0)) by ring.
          apply fle_mul; [apply flt_le; apply fdiv_pos; auto; apply f0_lt_1|apply fsquare_nonneg]. }
        rewrite nth_diag in Z by auto. destruct HD as (_ & _ & H). destruct (H i Hi) as (P & Q). rewrite Q in Z.
        apply fsquare_0. destruct (@fmul_eq_0 K _ _ Z) as [Z1|Z1]; [|rewrite Z1; ring].
        destruct (@fmul_eq_0 K _ _ Z1) as [Z2|Z2]; [exfalso; exact (pos_neq (fdiv_pos (@f0_lt_1 K) P) Z2)|rewrite Z2; ring].
    Qed.

    Definition G (v : vec) : vec := diag_apply dinv (A v).
    Lemma G_linear : linear n n G.
    Proof. exact (linear_comp LA diag_linear). Qed.
    Definition ipA (u v : vec) : K := dot (A u) v.
    Lemma ipA_sym : forall u v, length u = n -> length v = n -> ipA u v = ipA v u.
    Proof. intros u v Hu Hv. unfold ipA. rewrite (proj1 SA) by auto. apply dot_comm. Qed.
    Lemma ipA_add : forall a b c, length a = n -> length b = n -> length c = n -> ipA (vadd a b) c = ipA a c + ipA b c.
    Proof. intros. unfold ipA. rewrite (lin_add LA) by auto. apply dot_add_l. rewrite !(lin_len LA); auto. Qed.
    Lemma ipA_scale : forall s a c, length a = n -> length c = n -> ipA (vscale s a) c = s * ipA a c.
    Proof. intros. unfold ipA. rewrite (lin_scale LA) by auto. apply dot_scale_l. Qed.
    Lemma ipA_G : forall a b, length a = n -> length b = n -> ipA (G a) b = ipA a (G b).
    Proof.
      intros a b Ha Hb. unfold ipA, G. pose proof (lin_len LA a Ha) as L1. pose proof (lin_len LA b Hb) as L2.
      rewrite (proj1 SA) by (auto; apply (lin_len diag_linear); auto). rewrite diag_sym by auto. auto.
    Qed.
    Lemma G_pos : forall v, length v = n -> v <> vzero n -> 0 < ipA (G v) v.
    Proof.
      intros v Hv N. rewrite ipA_sym by (auto; apply (lin_len G_linear); auto). unfold ipA, G. pose proof (lin_len LA v Hv) as L. rewrite dot_comm.
      apply diag_pos; auto. intros E. apply N. apply (spd_injective SA); auto.
    Qed.
    Lemma G_dot : forall v, length v = n -> ipA (G v) v = dot (diag_apply dinv (A v)) (A v).
    Proof. intros v Hv. rewrite ipA_sym by (auto; apply (lin_len G_linear); auto). unfold ipA, G. apply dot_comm. Qed.
    Lemma G_nonneg : forall v, length v = n -> 0 <= ipA (G v) v.
    Proof.
      intros v Hv. rewrite G_dot by auto. pose proof (lin_len LA v Hv) as Hr. rewrite (@dot_sumn K _ _ n) by (auto; apply (lin_len diag_linear); auto).
      apply sumn_nonneg. intros i Hi. rewrite nth_diag by auto. destruct HD as (_ & _ & H). destruct (H i Hi) as (P & ->).
      replace (1 / nth i d 0 * nth i (A v) 0 * nth i (A v) 0) with (1 / nth i d 0 * (nth i (A v) 0 * nth i (A v) 0)) by ring.
      apply fle_mul; [apply flt_le; apply fdiv_pos; auto; apply f0_lt_1|apply fsquare_nonneg].
    Qed.
    Lemma G_low : forall dmax v, (forall i, (i < n)%nat -> nth i d 0 <= dmax) -> length v = n -> dot (A v) (A v) <= dmax * ipA (G v) v.
    Proof.
      intros dmax v HM Hv. rewrite G_dot by auto. pose proof (lin_len LA v Hv) as Hr. rewrite !(@dot_sumn K _ _ n) by (auto; apply (lin_len diag_linear); auto).
      rewrite <- sumn_scale. apply sums_le. intros i Hi. rewrite nth_diag by auto. destruct HD as (_ & _ & H). destruct (H i Hi) as (P & ->).
      set (a := nth i (A v) 0). set (b := nth i d 0) in *. pose proof (pos_neq P) as NB.
      apply fle_sub_0. replace (dmax * (1 / b * a * a) - a * a) with ((dmax - b) * (1 / b * (a * a))) by (field; auto).
      apply fle_mul; [apply -> (@fle_sub_0 K); apply HM; auto|]. apply fle_mul; [apply flt_le; apply fdiv_pos; auto; apply f0_lt_1|apply fsquare_nonneg].
    Qed.
    (** <G v, G v> <= hi <G v, v> *)
    Lemma G_bound : forall v, length v = n -> ipA (G v) (G v) <= hi * ipA (G v) v.
    Proof.
      intros v Hv. pose proof (lin_len LA v Hv) as L. pose proof (lin_len G_linear v Hv) as L2. pose proof (HB _ L2) as H.
      unfold G in H at 2 3. rewrite diag_weight in H by auto. unfold energy in H. unfold ipA at 1. eapply fle_trans; [exact H|].
      rewrite ipA_sym by auto. unfold ipA. rewrite (dot_comm (diag_apply dinv (A v))). apply fle_refl.
    Qed.
    Lemma theta_pos : 0 < theta.
    Proof. unfold theta. apply fdiv_pos; [apply fadd_pos; auto; apply flt_le; auto|apply two_pos]. Qed.
    Lemma two_neq : (1 + 1 : K) <> 0. Proof. apply pos_neq, two_pos. Qed.

    (** One step. *)
    Definition E1 (e : vec) : vec := vsub e (vscale (1 / theta) (G e)).
    Lemma first_step : forall e, length e = n -> e <> vzero n -> energy A (E1 e) < energy A e.
    Proof.
      intros e He N. pose proof (lin_len G_linear e He) as L. unfold energy. change (ipA (E1 e) (E1 e) < ipA e e).
      assert (Q : E1 e = vadd e (vscale (- (1 / theta)) (G e))) by (unfold E1; vext; ring). rewrite Q.
      assert (LQ : length (vadd e (vscale (- (1 / theta)) (G e))) = n) by vlen.
      rewrite ipA_add, ipA_scale by (auto; vlen).
      rewrite (ipA_sym e), (ipA_sym (G e)) by (auto; vlen).
      rewrite !ipA_add, !ipA_scale by (auto; vlen). rewrite (ipA_sym e (G e)) by auto.
      apply flt_sub_0. pose proof (G_bound _ He) as HG. pose proof (G_pos He N) as GP. pose proof theta_pos as TP. pose proof (pos_neq TP) as TN.
      replace (ipA e e - (ipA e e + - (1 / theta) * ipA (G e) e + - (1 / theta) * (ipA (G e) e + - (1 / theta) * ipA (G e) (G e))))
        with ((1 / theta * (1 / theta)) * ((theta + theta - hi) * ipA (G e) e + (hi * ipA (G e) e - ipA (G e) (G e)))) by (field; auto).
      apply fmul_pos; [apply fmul_pos; apply fdiv_pos; auto; apply f0_lt_1|]. apply fadd_pos; [|apply fle_sub_0 in HG; auto].
      apply fmul_pos; auto. unfold theta. replace ((hi + alpha) / (1 + 1) + (hi + alpha) / (1 + 1) - hi) with alpha by (field; apply two_neq). auto.
    Qed.
    Lemma first_step_by : forall e, length e = n -> alpha / (theta * theta) * ipA (G e) e <= energy A e - energy A (E1 e).
    Proof.
      intros e He. pose proof (lin_len G_linear e He) as L. unfold energy. change (alpha / (theta * theta) * ipA (G e) e <= ipA e e - ipA (E1 e) (E1 e)).
      assert (Q : E1 e = vadd e (vscale (- (1 / theta)) (G e))) by (unfold E1; vext; ring). rewrite Q.
      assert (LQ : length (vadd e (vscale (- (1 / theta)) (G e))) = n) by vlen.
      rewrite (ipA_add e), ipA_scale by (auto; vlen).
      rewrite (ipA_sym e (vadd _ _)), (ipA_sym (G e) (vadd _ _)) by (auto; vlen).
      rewrite !ipA_add, !ipA_scale by (auto; vlen). rewrite (ipA_sym e (G e)) by auto.
      pose proof (G_bound _ He) as HG. pose proof theta_pos as TP. pose proof (pos_neq TP) as TN.
      apply fle_sub_0. apply fle_sub_0 in HG.
      assert (HT : alpha = theta + theta - hi) by (unfold theta; field; apply two_neq). rewrite HT at 1.
      match goal with |- 0 <= ?x => replace x with ((1 / theta * (1 / theta)) * (hi * ipA (G e) e - ipA (G e) (G e))) by (field; auto) end.
      apply fle_mul; [apply fle_mul; apply flt_le, fdiv_pos; auto; apply f0_lt_1|exact HG].
    Qed.
    (** In terms of the residual. *)
    Lemma smooths_by : forall B E dmax th, (forall e, length e = n -> B (A e) = vsub e (E e)) -> maps n n E -> 0 < dmax -> (forall i, (i < n)%nat -> nth i d 0 <= dmax) ->
      (forall e, length e = n -> alpha / (theta * theta) * ipA (G e) e <= energy A e - energy A (E e)) ->
      th * dmax * (theta * theta) <= alpha -> smooths n A B th.
    Proof.
      intros B E dmax th HBE ME Hd HM HE Hth e He. unfold error_step. rewrite HBE by auto. pose proof (ME e He) as L.
      replace (vsub e (vsub e (E e))) with (E e) by (vext; ring).
      eapply fle_trans; [|apply HE; auto]. pose proof (@G_low dmax e HM He) as HL. pose proof (@G_nonneg e He) as HN. pose proof theta_pos as TP. pose proof (pos_neq TP) as TN.
      assert (T2 : 0 < theta * theta) by (apply fmul_pos; auto).
      apply (@le_cancel (dmax * (theta * theta))); [apply fmul_pos; auto|].
      set (g := ipA (G e) e) in *. set (a := dot (A e) (A e)) in *.
      apply fle_trans with (alpha * a).
      - replace (dmax * (theta * theta) * (th * a)) with (a * (th * dmax * (theta * theta))) by ring. replace (alpha * a) with (a * alpha) by ring. apply fle_mul_l; auto. unfold a. apply dot_nonneg.
      - replace (dmax * (theta * theta) * (alpha / (theta * theta) * g)) with (alpha * (dmax * g)) by (field; auto). apply fle_mul_l; auto. apply flt_le; auto.
    Qed.
    Lemma richardson_smooths : forall dmax th, 0 < dmax -> (forall i, (i < n)%nat -> nth i d 0 <= dmax) -> th * dmax * (theta * theta) <= alpha ->
      smooths n A (fun b => vscale (1 / theta) (diag_apply dinv b)) th.
    Proof.
      intros dmax th Hd HM Hth. apply smooths_by with E1 dmax; auto.
      - intros e He. unfold E1, G. pose proof (lin_len G_linear e He) as L. unfold G in L. vext. ring.
      - intros e He. unfold E1. pose proof (lin_len G_linear e He). vlen.
      - apply first_step_by.
    Qed.
    Lemma E1_linear : linear n n E1.
    Proof.
      pose proof (lin_len G_linear) as LL. unfold E1. constructor.
      - intros x Hx. specialize (LL x Hx). vlen.
      - intros x y Hx Hy. pose proof (LL x Hx). pose proof (LL y Hy). rewrite (lin_add G_linear) by auto. vext. ring.
      - intros s x Hx. pose proof (LL x Hx). rewrite (lin_scale G_linear) by auto. vext. ring.
    Qed.
    Lemma E1_sym : forall u v, length u = n -> length v = n -> ipA (E1 u) v = ipA u (E1 v).
    Proof.
      intros u v Hu Hv. pose proof (lin_len G_linear u Hu). pose proof (lin_len G_linear v Hv).
      assert (Q : forall e, length e = n -> E1 e = vadd e (vscale (- (1 / theta)) (G e))).
      { intros e He. pose proof (lin_len G_linear e He). unfold E1. vext. ring. }
      rewrite !Q by auto. rewrite ipA_add, ipA_scale by (auto; vlen). rewrite (ipA_sym u (vadd _ _)) by (auto; vlen). rewrite ipA_add, ipA_scale by (auto; vlen).
      rewrite (ipA_sym v u) by auto. rewrite (ipA_sym (G v) u) by auto. rewrite ipA_G by auto. auto.
    Qed.
    Lemma richardson_good : good_smoother n A (correction_step A (fun b => vscale (1 / theta) (diag_apply dinv b))).
    Proof.
      apply good_from_error with E1; auto.
      - intros x Hx. rewrite vscale_length. apply (lin_len diag_linear); auto.
      - apply E1_linear.
      - intros e He. unfold E1, G. pose proof (lin_len G_linear e He) as L. unfold G in L. vext. ring.
      - apply E1_sym.
      - apply first_step.
    Qed.

    (** More steps. *)
    Hypothesis Hde : 0 < delta.
    Let x0 := theta / delta.
    Let X (v : vec) : vec := vscale (1 / delta) (vsub (vscale theta v) (G v)).
    Let DN : delta <> 0. Proof. apply pos_neq; auto. Qed.
    Let TN : theta <> 0. Proof. apply pos_neq, theta_pos. Qed.
    Lemma X_linear : linear n n X.
    Proof.
      pose proof (lin_len G_linear) as LL. unfold X. constructor.
      - intros x Hx. specialize (LL x Hx). vlen.
      - intros x y Hx Hy. pose proof (LL x Hx). pose proof (LL y Hy). rewrite (lin_add G_linear) by auto. vext. ring.
      - intros s x Hx. pose proof (LL x Hx). rewrite (lin_scale G_linear) by auto. vext. ring.
    Qed.
    Lemma X_add : forall e, length e = n -> X e = vadd (vscale (theta / delta) e) (vscale (- (1 / delta)) (G e)).
    Proof. intros e He. pose proof (lin_len G_linear e He). unfold X. vext. field. auto. Qed.
    Lemma X_sym : forall u v, length u = n -> length v = n -> ipA (X u) v = ipA u (X v).
    Proof.
      intros u v Hu Hv. pose proof (lin_len G_linear u Hu). pose proof (lin_len G_linear v Hv).
      rewrite !X_add by auto. rewrite ipA_add, !ipA_scale by (auto; vlen). rewrite (ipA_sym u (vadd _ _)) by (auto; vlen). rewrite ipA_add, !ipA_scale by (auto; vlen).
      rewrite (ipA_sym v u) by auto. rewrite (ipA_sym (G v) u) by auto. rewrite ipA_G by auto. auto.
    Qed.
    Lemma G_of_X : forall e, length e = n -> G e = vscale delta (vsub (vscale x0 e) (X e)).
    Proof. intros e He. pose proof (lin_len G_linear e He). unfold X, x0. vext. field. auto. Qed.
    Lemma x0_gt_1 : 1 < x0.
    Proof.
      unfold x0. apply flt_sub_0. replace (theta / delta - 1) with ((theta - delta) / delta) by (field; auto). apply fdiv_pos; auto.
      unfold theta, delta. replace ((hi + alpha) / (1 + 1) - (hi - alpha) / (1 + 1)) with alpha by (field; apply two_neq). auto.
    Qed.
    Lemma x0_neq : x0 <> 0.
    Proof. apply pos_neq. eapply flt_trans; [apply f0_lt_1|apply x0_gt_1]. Qed.
    Notation spos' := (spos n X ipA).
    Notation pos' := (pos n X ipA).
    Lemma P1' : spos' (PS (PC x0) PX).
    Proof.
      intros v Hv N. unfold PS, PO. cbn [ev]. pose proof (lin_len X_linear v Hv). pose proof (lin_len G_linear v Hv).
      replace (vadd (vscale x0 v) (vscale (- (1)) (X v))) with (vscale (1 / delta) (G v)).
      - rewrite ipA_scale by auto. apply fmul_pos; [apply fdiv_pos; auto; apply f0_lt_1|apply G_pos; auto].
      - rewrite X_add by auto. unfold x0. vext. field. auto.
    Qed.
    Lemma P2' : pos' (PM (PS (PC x0) PX) (PA (PC 1) PX)).
    Proof.
      intros v Hv. unfold PS, PO. cbn [ev]. pose proof (lin_len X_linear v Hv) as L1. pose proof (lin_len G_linear v Hv) as L2.
      assert (Q : vadd (vscale 1 v) (X v) = vscale (1 / delta) (vsub (vscale hi v) (G v))).
      { rewrite X_add by auto. vext. unfold theta, delta. field.
        split; [apply two_neq|]. intros Z. apply DN. unfold delta. rewrite Z. field. apply two_neq. }
      rewrite Q. set (w := vscale (1 / delta) (vsub (vscale hi v) (G v))). assert (Hw : length w = n) by (unfold w; vlen).
      pose proof (lin_len X_linear w Hw). pose proof (lin_len G_linear w Hw).
      replace (vadd (vscale x0 w) (vscale (- (1)) (X w))) with (vscale (1 / delta) (G w)).
      2:{ rewrite X_add by auto. unfold x0. vext. field. auto. }
      rewrite ipA_scale by auto. unfold w. rewrite (lin_scale G_linear) by vlen. rewrite ipA_scale by (auto; apply (lin_len G_linear); vlen).
      rewrite ipA_G by (auto; vlen).
      replace (ipA (vsub (vscale hi v) (G v)) (G v)) with (hi * ipA (G v) v - ipA (G v) (G v)).
      2:{ replace (vsub (vscale hi v) (G v)) with (vadd (vscale hi v) (vscale (- (1)) (G v))) by (vext; ring).
          rewrite ipA_add, !ipA_scale by (auto; vlen). rewrite (ipA_sym v) by auto. ring. }
      assert (D1 : 0 <= 1 / delta) by (apply flt_le, fdiv_pos; auto; apply f0_lt_1).
      apply fle_mul; auto. apply fle_mul; auto. pose proof (G_bound _ Hv) as H3. apply fle_sub_0 in H3. exact H3.
    Qed.
    Notation T := (@T K).
    Notation tk := (tk x0).
    Let tn : forall k, tk k <> 0. Proof. intros k. apply pos_neq. apply tk_pos. apply x0_gt_1. Qed.
    Notation evX := (ev X).

    Lemma loop_error : forall k j e xo x, length e = n -> length xo = n -> length x = n ->
      vsub e xo = vscale (1 / tk j) (evX (T j) e) -> vsub e x = vscale (1 / tk (S j)) (evX (T (S j)) e) ->
      let y := cheb_loop k A dinv (A e) x0 delta (tk j / tk (S j)) xo x in
      length y = n /\ vsub e y = vscale (1 / tk (S j + k)) (evX (T (S j + k)) e).
    Proof.
      induction k; intros j e xo x He Ho Hx E0 E1'.
      - cbn [cheb_loop]. rewrite Nat.add_0_r. auto.
      - cbn [cheb_loop]. replace (S j + S k)%nat with (S (S j) + k)%nat by lia.
        assert (R : 1 / ((1 + 1) * x0 - tk j / tk (S j)) = tk (S j) / tk (S (S j))).
        { pose proof (tn j). pose proof (tn (S j)). pose proof (tn (S (S j))) as N2. rewrite tk_SS in N2 |- *. field. split; auto. }
        rewrite R. set (rk := tk (S j) / tk (S (S j))).
        set (xn := vadd (vadd x _) _).
        pose proof (lin_len LA e He) as LE. pose proof (lin_len LA x Hx) as LAx.
        assert (LG : length (diag_apply dinv (vsub (A e) (A x))) = n) by (apply (lin_len diag_linear); vlen).
        assert (Hn : length xn = n) by (unfold xn; vlen).
        apply IHk; auto.
        assert (LT : forall i, length (evX (T i) e) = n) by (intros i; apply (ev_len X_linear); auto).
        (* new error *)
        assert (QG : diag_apply dinv (vsub (A e) (A x)) = vscale delta (vsub (vscale x0 (vsub e x)) (X (vsub e x)))).
        { rewrite <- (lin_sub LA) by auto. change (G (vsub e x) = vscale delta (vsub (vscale x0 (vsub e x)) (X (vsub e x)))). apply G_of_X. vlen. }
        assert (LV : length (vsub e x) = n) by vlen.
        pose proof (lin_len X_linear _ LV) as LXV.
        assert (QN : vsub e xn = vsub (vscale ((1 + 1) * rk) (X (vsub e x))) (vscale (rk * (tk j / tk (S j))) (vsub e xo))).
        { unfold xn. rewrite QG. vext. unfold rk. pose proof (tn (S j)). pose proof (tn (S (S j))) as N2.
          pose proof (tk_SS x0 j) as TS.
          assert (C : 1 + tk (S j) / tk (S (S j)) * (tk j / tk (S j)) - (1 + 1) * (tk (S j) / tk (S (S j))) * x0 = 0).
          { rewrite TS in N2 |- *. field. auto. }
          set (a := nth i e 0). set (b := nth i x 0). set (c := nth i xo 0). set (g := nth i (X (vsub e x)) 0).
          set (r1 := tk (S j) / tk (S (S j))) in *. set (r2 := tk j / tk (S j)) in *.
          transitivity ((1 + r1 * r2 - (1 + 1) * r1 * x0) * (a - b) + ((1 + 1) * r1 * g - r1 * r2 * (a - c))); [field; auto|]. rewrite C. ring. }
        rewrite QN, E0, E1'. rewrite (lin_scale X_linear) by auto. change (X (evX (T (S j)) e)) with (evX (PM PX (T (S j))) e).
        assert (LP : length (evX (PM PX (T (S j))) e) = n) by (apply (ev_len X_linear); auto).
        rewrite T_SS. unfold PS, PO. cbn [ev].
        assert (LP' : length (X (evX (T (S j)) e)) = n) by exact LP.
        unfold rk. rewrite !vscale_1.
        assert (LX2 : length (vadd (X (evX (T (S j)) e)) (X (evX (T (S j)) e))) = n) by vlen.
        pose proof (LT j). vext. field. pose proof (tn j). pose proof (tn (S j)). pose proof (tn (S (S j))). auto.
    Qed.

    Definition Ek (k : nat) (e : vec) : vec := vscale (1 / tk (S k)) (evX (T (S k)) e).
    Lemma cheb_error : forall k e, length e = n -> let y := cheb_loop k A dinv (A e) x0 delta (delta / theta) (vzero n) (vscale (1 / theta) (diag_apply dinv (A e))) in
        length y = n /\ vsub e y = Ek k e.
    Proof.
      intros k e He. pose proof (lin_len G_linear e He) as L. unfold G in L.
        replace (delta / theta) with (tk 0 / tk 1) by (cbn [P_Poly.tk]; unfold x0; field; auto).
        apply loop_error; auto; try vlen.
        - cbn [P_Poly.tk P_Poly.T ev]. vext. field. apply f1_neq_0.
        - cbn [P_Poly.tk P_Poly.T ev]. rewrite X_add by auto. unfold G. vext. unfold x0. field. auto.
    Qed.
    Lemma cheb_good : forall k, good_smoother n A (correction_step A (fun b => cheb_loop k A dinv b x0 delta (delta / theta) (vzero n) (vscale (1 / theta) (diag_apply dinv b)))).
    Proof.
      intros k. pose proof (cheb_error k) as ER.
      apply good_from_error with (Ek k); auto.
      - intros b Hb. destruct (spd_onto LA SA b Hb) as (e & He & <-). apply ER; auto.
      - unfold Ek. pose proof (ev_linear X_linear (T (S k))) as LL. constructor; intros.
        + rewrite vscale_length. apply (lin_len LL); auto.
        + rewrite (lin_add LL) by auto. apply vscale_add. rewrite !(lin_len LL); auto.
        + rewrite (lin_scale LL) by auto. rewrite !vscale_vscale. f_equal. ring.
      - intros e He. destruct (ER e He) as (L & Q). rewrite <- Q. cbv zeta in *. vext. ring.
      - intros u v Hu Hv. change (ipA (Ek k u) v = ipA u (Ek k v)). unfold Ek.
        pose proof (ev_len X_linear (T (S k)) u Hu). pose proof (ev_len X_linear (T (S k)) v Hv).
        rewrite ipA_scale by auto. rewrite (ipA_sym u (vscale _ _)) by (auto; vlen). rewrite ipA_scale by auto.
        rewrite (ipA_sym (evX (T (S k)) v)) by auto. f_equal.
        apply (@ip_ev K n X X_linear ipA ipA_add ipA_scale X_sym ipA_sym); auto.
      - intros e He N. unfold energy. change (ipA (Ek k e) (Ek k e) < ipA e e). unfold Ek.
        pose proof (ev_len X_linear (T (S k)) e He) as L. rewrite ipA_scale by (auto; vlen). rewrite ipA_sym by (auto; vlen). rewrite ipA_scale by auto.
        pose proof (@T_contracts K n X X_linear x0 ipA ipA_add ipA_scale X_sym ipA_sym P1' P2' x0_gt_1 k e He N) as H.
        pose proof (tk_pos x0 x0_gt_1 (S k)) as TP. pose proof (tn (S k)) as TKN.
        apply flt_sub_0 in H. apply flt_sub_0.
        replace (ipA e e - 1 / tk (S k) * (1 / tk (S k) * ipA (evX (T (S k)) e) (evX (T (S k)) e)))
          with (1 / tk (S k) * (1 / tk (S k)) * (tk (S k) * tk (S k) * ipA e e - ipA (evX (T (S k)) e) (evX (T (S k)) e))) by (field; auto).
        apply fmul_pos; auto. apply fmul_pos; apply fdiv_pos; auto; apply f0_lt_1.
    Qed.

    (** How much is gained. *)
    Lemma cheb_by : forall k e, length e = n -> alpha / (theta * theta) * ipA (G e) e <= energy A e - energy A (Ek k e).
    Proof.
      intros k e He. unfold energy. change (alpha / (theta * theta) * ipA (G e) e <= ipA e e - ipA (Ek k e) (Ek k e)). unfold Ek.
      pose proof (ev_len X_linear (T (S k)) e He) as L. rewrite (ipA_scale (1 / tk (S k))) by (auto; vlen). rewrite (ipA_sym (evX (T (S k)) e)) by (auto; vlen). rewrite (ipA_scale (1 / tk (S k))) by auto.
      pose proof (@T_contracts_by K n X X_linear x0 ipA ipA_add ipA_scale X_sym ipA_sym P1' P2' x0_gt_1 k e He) as H.
      pose proof (@tk_uk_bound K x0 x0_gt_1 k) as HU.
      pose proof (tk_pos x0 x0_gt_1 (S k)) as TP. pose proof (tn (S k)) as TKN.
      assert (EG : ipA (ev X (PS (PC x0) PX) e) e = ipA (G e) e / delta).
      { unfold PS, PO. cbn [ev]. pose proof (lin_len X_linear e He). pose proof (lin_len G_linear e He).
        replace (vadd (vscale x0 e) (vscale (- (1)) (X e))) with (vscale (1 / delta) (G e)); [rewrite ipA_scale by auto; field; auto|].
        rewrite X_add by auto. unfold x0. vext. field. auto. }
      rewrite EG in H. pose proof (@G_nonneg e He) as Hg. set (g := ipA (G e) e) in *.
      set (u := uk K x0 (S (2 * k))) in *. set (t := tk (S k)) in *. set (W := ipA (evX (T (S k)) e) (evX (T (S k)) e)) in *.
      apply (@le_cancel (t * t)); [apply fmul_pos; auto|].
      replace (t * t * (ipA e e - 1 / t * (1 / t * W))) with (t * t * ipA e e - W) by (field; auto).
      eapply fle_trans; [|exact H].
      replace (t * t * (alpha / (theta * theta) * g)) with (alpha / (theta * theta) * g * (t * t)) by ring.
      apply fle_trans with (alpha / (theta * theta) * g * (x0 * x0 * u)).
      - apply fle_mul_l; auto. apply fle_mul; auto. apply flt_le, fdiv_pos; auto. apply fmul_pos; apply theta_pos.
      - assert (Q : x0 - 1 = alpha / delta).
        { unfold x0. replace alpha with (theta - delta); [field; auto|]. unfold theta, delta. field. apply two_neq. }
        rewrite Q. unfold x0. replace (alpha / delta * u * (g / delta)) with (alpha / (theta * theta) * g * (theta / delta * (theta / delta) * u)) by (field; auto). apply fle_refl.
    Qed.
    Lemma cheb_smooths : forall k dmax th, 0 < dmax -> (forall i, (i < n)%nat -> nth i d 0 <= dmax) -> th * dmax * (theta * theta) <= alpha ->
      smooths n A (fun b => cheb_loop k A dinv b x0 delta (delta / theta) (vzero n) (vscale (1 / theta) (diag_apply dinv b))) th.
    Proof.
      intros k dmax th Hd HM Hth. apply smooths_by with (Ek k) dmax; auto.
      - intros e He. destruct (@cheb_error k e He) as (L & Q). rewrite <- Q. cbv zeta in *. vext. ring.
      - intros e He. unfold Ek. rewrite vscale_length. apply (ev_len X_linear); auto.
      - apply cheb_by.
    Qed.
  End Op.
End P.
