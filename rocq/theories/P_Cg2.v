(** Chebyshev's bound and the loop of the conjugate gradient method. *)
From Coq Require Import String List Arith Bool Lia Field.
From Verif Require Import Base OField Mat LinAlg M_Ptree M_Hier M_Cg S_Hier S_Rate S_Cg P_Hier P_Hier2 P_HierE P_HierS P_Smoother P_Rate P_Cheby P_Cg.
Import ListNotations.
Set Implicit Arguments.
Open Scope nat_scope.

Section P.
  Variable K : ofield.
  Add Field KfieldCg2 : (f_field K).
  Local Open Scope K_scope.
  Notation vec := (vec K).
  Ltac vx := unfold OField.vec in *; vext; try ring.

  (** ** The numbers T_k(eta) *)
  Lemma ts_cheb : forall (eta : K) k, fst (ts eta k) = chebT k eta /\ fst (ts eta (S k)) = chebT (S k) eta.
  Proof.
    intros eta. induction k as [|k (IH1 & IH2)]; [split; cbn; [reflexivity|ring]|]. split; [exact IH2|].
    change (chebT (S (S k)) eta) with ((1 + 1) * eta * chebT (S k) eta - chebT k eta). rewrite <- IH1, <- IH2. cbn [ts fst snd]. ring.
  Qed.
  Lemma ts_pell : forall (eta : K) k, fst (ts eta k) * fst (ts eta k) - (eta * eta - 1) * (snd (ts eta k) * snd (ts eta k)) = 1.
  Proof.
    intros eta. induction k as [|k IH]; cbn [ts fst snd]; [ring|].
    transitivity (fst (ts eta k) * fst (ts eta k) - (eta * eta - 1) * (snd (ts eta k) * snd (ts eta k))); [ring|exact IH].
  Qed.
  Lemma ts_pos : forall (eta : K) k, 1 <= eta -> 0 < fst (ts eta k) /\ 0 <= snd (ts eta k).
  Proof.
    intros eta k H. assert (HE : 0 < eta) by (eapply flt_le_trans; [apply f0_lt_1|exact H]).
    assert (H2 : 0 <= eta * eta - 1).
    { replace (eta * eta - 1) with ((eta - 1) * (eta + 1)) by ring. apply fle_mul; [apply -> (@fle_sub_0 K); exact H|].
      apply fadd_nonneg; [apply flt_le; exact HE|apply f0_le_1]. }
    induction k as [|k (IH1 & IH2)]; cbn [ts fst snd]; [split; [apply f0_lt_1|apply fle_refl]|]. split.
    - apply fadd_pos; [apply fmul_pos; auto|apply fle_mul; auto].
    - apply fadd_nonneg; [apply fle_mul; [apply flt_le; exact HE|exact IH2]|apply flt_le; exact IH1].
  Qed.
  Lemma sq_le : forall a b : K, 0 <= b -> a * a <= b * b -> a <= b.
  Proof.
    intros a b Hb Hab. destruct (fle_dec K a b) as [Q|Q]; auto. exfalso. assert (Pa : 0 < a) by (eapply fle_lt_trans; eauto).
    apply (@flt_irrefl K (a * a)). eapply fle_lt_trans; [exact Hab|].
    apply flt_sub_0. replace (a * a - b * b) with ((a - b) * (a + b)) by ring. apply fmul_pos; [apply flt_sub_0 in Q; exact Q|apply fadd_pos; auto].
  Qed.
  (** 2 T_k(eta) >= (eta + y)^k whenever y^2 <= eta^2 - 1. *)
  Lemma ts_grow : forall (eta y : K) k, 1 <= eta -> 0 <= y -> y * y <= eta * eta - 1 -> fpow (eta + y) k <= fst (ts eta k) + fst (ts eta k).
  Proof.
    intros eta y k H Hy HH. destruct (@ts_pos eta k H) as (P1 & P2).
    assert (G : fpow (eta + y) k <= fst (ts eta k) + y * snd (ts eta k)).
    { clear P1 P2. induction k as [|k IH]; cbn [fpow ts fst snd].
      - replace (1 + y * 0) with (1 : K) by ring. apply fle_refl.
      - destruct (@ts_pos eta k H) as (P1 & P2). set (t := fst (ts eta k)) in *. set (s := snd (ts eta k)) in *.
        eapply fle_trans; [apply fle_mul_l; [|exact IH]; apply fadd_nonneg; [eapply fle_trans; [apply f0_le_1|exact H]|exact Hy]|].
        apply fle_sub_0.
        replace (eta * t + (eta * eta - 1) * s + y * (eta * s + t) - (eta + y) * (t + y * s)) with ((eta * eta - 1 - y * y) * s) by ring.
        apply fle_mul; [apply -> (@fle_sub_0 K); exact HH|exact P2]. }
    eapply fle_trans; [exact G|]. assert (Q : y * snd (ts eta k) <= fst (ts eta k)).
    { apply sq_le; [apply flt_le; exact P1|]. apply fle_sub_0. pose proof (ts_pell eta k) as E. set (t := fst (ts eta k)) in *. set (s := snd (ts eta k)) in *.
      replace (t * t - y * s * (y * s)) with ((eta * eta - 1 - y * y) * (s * s) + (t * t - (eta * eta - 1) * (s * s))) by ring. rewrite E.
      apply fadd_nonneg; [|apply f0_le_1]. apply fle_mul; [apply -> (@fle_sub_0 K); exact HH|apply fsquare_nonneg]. }
    apply fle_sub_0. apply fle_sub_0 in Q. match goal with |- _ <= ?z => replace z with (fst (ts eta k) - y * snd (ts eta k)) by ring end. exact Q.
  Qed.

  (** ** The vectors T_k(X) e0 *)
  Section Bound.
    Variables (n : nat) (A M : vec -> vec) (x0 xs : vec) (a c : K).
    Hypothesis LA : linear n n A.
    Hypothesis SA : spd n A.
    Hypothesis LM : linear n n M.
    Hypothesis SM : spd n M.
    Hypothesis Hx0 : length x0 = n.
    Hypothesis Hxs : length xs = n.
    Hypothesis Hac : a < c.
    Hypothesis HS : spectrum_in n A M a c.
    Local Notation eta := ((c + a) / (c - a)).
    Local Notation sigma := ((1 + 1) / (c - a)).
    Local Notation X := (P_Cg.X A M eta sigma).
    Local Notation uw := (P_Cg.uw n A M x0 xs eta sigma).
    Let ip (u v : vec) : K := dot (A u) v.
    Let XL : linear n n X := P_Cg.X_linear x0 xs eta sigma LA LM Hx0 Hxs.

    Lemma ca_neq : c - a <> 0.
    Proof. apply pos_neq. apply flt_sub_0 in Hac. exact Hac. Qed.
    Lemma ip_sym : forall u v, length u = n -> length v = n -> ip u v = ip v u.
    Proof. intros u v Hu Hv. unfold ip. rewrite (proj1 SA) by auto. apply dot_comm. Qed.
    Lemma ip_add : forall u v w, length u = n -> length v = n -> length w = n -> ip (vadd u v) w = ip u w + ip v w.
    Proof. intros. unfold ip. rewrite (lin_add LA) by auto. apply dot_add_l. rewrite !(lin_len LA); auto. Qed.
    Lemma ip_sub : forall u v w, length u = n -> length v = n -> length w = n -> ip (vsub u v) w = ip u w - ip v w.
    Proof. intros. unfold ip. rewrite (lin_sub LA) by auto. apply dot_sub_l. rewrite !(lin_len LA); auto. Qed.
    Lemma ip_scale : forall s u w, length u = n -> length w = n -> ip (vscale s u) w = s * ip u w.
    Proof. intros. unfold ip. rewrite (lin_scale LA) by auto. apply dot_scale_l. Qed.
    Lemma ip_X : forall u v, length u = n -> length v = n -> ip (X u) v = ip u (X v).
    Proof.
      intros u v Hu Hv. pose proof (lin_len LA u Hu) as L1. pose proof (lin_len LA v Hv) as L2. pose proof (lin_len LM _ L1) as L3. pose proof (lin_len LM _ L2) as L4.
      assert (E : ip (M (A u)) v = ip (M (A v)) u).
      { unfold ip. rewrite (proj1 SA) by auto. rewrite (proj1 SM) by auto. rewrite dot_comm. rewrite <- (proj1 SA) by auto. reflexivity. }
      unfold P_Cg.X. rewrite ip_sub by (auto; unfold OField.vec in *; vlen). rewrite !ip_scale by auto.
      rewrite (@ip_sym u (vsub _ _)) by (auto; unfold OField.vec in *; vlen). rewrite ip_sub by (auto; unfold OField.vec in *; vlen). rewrite !ip_scale by auto.
      rewrite E, (@ip_sym v u) by auto. reflexivity.
    Qed.
    Lemma ip_X_range : forall v, length v = n -> 0 <= ip v v + ip (X v) v /\ 0 <= ip v v - ip (X v) v.
    Proof.
      intros v Hv. destruct (HS v Hv) as (H1 & H2). pose proof (lin_len LA v Hv) as L1. pose proof (lin_len LM _ L1) as L2.
      assert (E : ip (X v) v = eta * ip v v - sigma * dot (M (A v)) (A v)).
      { unfold P_Cg.X. rewrite ip_sub by (auto; unfold OField.vec in *; vlen). rewrite !ip_scale by auto. f_equal. f_equal. unfold ip. rewrite (proj1 SA) by auto. reflexivity. }
      rewrite E. unfold energy in H1, H2. fold (ip v v) in H1, H2. set (m := dot (M (A v)) (A v)) in *. set (p := ip v v) in *. pose proof ca_neq as NC.
      assert (PS : 0 <= sigma) by (apply flt_le; apply fdiv_pos; [apply two_pos|apply flt_sub_0 in Hac; exact Hac]).
      apply fle_sub_0 in H1. apply fle_sub_0 in H2. split.
      - replace (p + (eta * p - sigma * m)) with (sigma * (c * p - m)) by (field; exact NC). apply fle_mul; auto.
      - replace (p - (eta * p - sigma * m)) with (sigma * (m - a * p)) by (field; exact NC). apply fle_mul; auto.
    Qed.
    Lemma X_contracts : forall v, length v = n -> ip (X v) (X v) <= ip v v.
    Proof.
      intros v Hv. pose proof (lin_len XL v Hv) as L1. pose proof (lin_len XL _ L1) as L2.
      assert (Lp : length (vsub v (X v)) = n) by (unfold OField.vec in *; vlen). assert (Lq : length (vadd v (X v)) = n) by (unfold OField.vec in *; vlen).
      destruct (ip_X_range _ Lp) as (P & _). destruct (ip_X_range _ Lq) as (_ & Q). rewrite (lin_sub XL) in P by auto. rewrite (lin_add XL) in Q by auto.
      rewrite !ip_sub in P by auto. rewrite !ip_add in Q by auto.
      rewrite (@ip_sym v (vsub v (X v))), (@ip_sym (X v) (vsub v (X v))), (@ip_sym (X (X v)) (vsub v (X v))) in P by auto.
      rewrite (@ip_sym v (vadd v (X v))), (@ip_sym (X v) (vadd v (X v))), (@ip_sym (X (X v)) (vadd v (X v))) in Q by auto.
      rewrite !ip_sub in P by auto. rewrite !ip_add in Q by auto.
      assert (E1 : ip v (X (X v)) = ip (X v) (X v)) by (rewrite ip_X; auto).
      assert (E2 : ip v (X v) = ip (X v) v) by (rewrite (@ip_sym v); auto). rewrite E1, E2 in P. rewrite E1, E2 in Q.
      set (p0 := ip v v) in *. set (p1 := ip (X v) v) in *. set (p2 := ip (X v) (X v)) in *. set (p3 := ip (X v) (X (X v))) in *.
      pose proof (@fadd_nonneg K _ _ P Q) as R. apply fle_sub_0. apply (@fle_mul_cancel K (1 + 1)); [apply two_pos|].
      replace ((1 + 1) * 0) with (0 : K) by ring. eapply fle_trans; [exact R|].
      match goal with |- ?y <= ?z => replace y with z by ring; apply fle_refl end.
    Qed.
    Lemma uw_bound : forall k, energy A (fst (uw k)) <= energy A (vsub xs x0).
    Proof.
      intros k. assert (UL := uw_len x0 xs eta sigma LA LM Hx0 Hxs k). destruct UL as (Lu & Lw).
      assert (N : ip (fst (uw k)) (fst (uw k)) + ip (snd (uw k)) (snd (uw k)) - ip (X (snd (uw k))) (X (snd (uw k))) = ip (vsub xs x0) (vsub xs x0)).
      { clear Lu Lw. induction k as [|k IH].
        - cbn [P_Cg.uw fst snd]. rewrite (lin_zero XL). unfold P_Cg.e0. ring.
        - destruct (uw_len x0 xs eta sigma LA LM Hx0 Hxs k) as (Lu & Lw). rewrite <- IH. cbn [P_Cg.uw fst snd]. set (u := fst (uw k)) in *. set (w := snd (uw k)) in *.
          pose proof (lin_len XL u Lu) as L1. pose proof (lin_len XL w Lw) as L2. pose proof (lin_len XL _ L2) as L3.
          assert (L4 : length (vsub w (X (X w))) = n) by (unfold OField.vec in *; vlen).
          assert (L5 : length (vsub (X u) (vsub w (X (X w)))) = n) by (unfold OField.vec in *; vlen).
          assert (L6 : length (vadd (X w) u) = n) by (unfold OField.vec in *; vlen).
          assert (L7 : length (vadd (X (X w)) (X u)) = n) by (unfold OField.vec in *; vlen).
          rewrite (lin_add XL) by auto.
          rewrite (@ip_sub (X u) (vsub w (X (X w)))) by auto. rewrite (@ip_sub w (X (X w))) by auto.
          rewrite (@ip_add (X w) u) by auto. rewrite (@ip_add (X (X w)) (X u)) by auto.
          rewrite (@ip_sym (X u) (vsub (X u) _)), (@ip_sym w (vsub (X u) _)), (@ip_sym (X (X w)) (vsub (X u) _)) by auto.
          rewrite !(@ip_sub (X u) (vsub w (X (X w)))) by auto. rewrite !(@ip_sub w (X (X w))) by auto.
          rewrite (@ip_sym (X w) (vadd _ _)), (@ip_sym u (vadd _ _)), (@ip_sym (X (X w)) (vadd _ _)), (@ip_sym (X u) (vadd _ _)) by auto.
          rewrite !ip_add by auto.
          rewrite (@ip_sym (X (X w)) (X u)) by auto. rewrite (@ip_sym (X (X w)) w) by auto. rewrite <- (@ip_X w (X w)) by auto.
          rewrite (@ip_sym w (X u)), (@ip_X u w) by auto. rewrite (@ip_sym (X w) u) by auto. ring. }
      unfold energy. fold (ip (fst (uw k)) (fst (uw k))). fold (ip (vsub xs x0) (vsub xs x0)). rewrite <- N. pose proof (X_contracts _ Lw) as C. apply fle_sub_0 in C. apply fle_sub_0.
      match goal with |- _ <= ?z => replace z with (ip (snd (uw k)) (snd (uw k)) - ip (X (snd (uw k))) (X (snd (uw k)))) by ring end. exact C.
    Qed.
    Lemma mid_rate : forall k x g ds, Mid n A M x0 xs eta sigma k x g ds ->
      chebT k eta * chebT k eta * energy A (vsub xs x) <= energy A (vsub xs x0).
    Proof.
      intros k x g ds HM. rewrite <- (proj1 (ts_cheb eta k)). eapply fle_trans; [exact (mid_optimal LA SA LM Hx0 Hxs HM)|]. apply uw_bound.
    Qed.
  End Bound.
End P.
