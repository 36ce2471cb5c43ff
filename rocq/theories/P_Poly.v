(** Polynomials of a linear operator, the Chebyshev recurrence and its positivity, without eigenvectors. *)
From Coq Require Import List Arith Bool Lia Field Ring Setoid.
From Verif Require Import Base OField Mat LinAlg M_Hier S_Hier P_Hier P_Hier2.
Import ListNotations.
Set Implicit Arguments.
Open Scope nat_scope.

Section Poly.
  Variable K : ofield.
  Add Field KfieldPo : (f_field K).
  Local Open Scope K_scope.
  Notation vec := (vec K).
  Ltac vx := vext; try ring.

  Variable n : nat.
  Variable X : vec -> vec.
  Hypothesis LX : linear n n X.

  Inductive pexp : Type := PC (k : K) | PX | PA (p q : pexp) | PM (p q : pexp).
  Fixpoint ev (p : pexp) (v : vec) : vec :=
    match p with
    | PC k => vscale k v
    | PX => X v
    | PA p q => vadd (ev p v) (ev q v)
    | PM p q => ev p (ev q v)
    end.
  Definition peq (p q : pexp) : Prop := forall v, length v = n -> ev p v = ev q v.
  Definition PO (p : pexp) : pexp := PM (PC (- (1))) p.
  Definition PS (p q : pexp) : pexp := PA p (PO q).

  Lemma ev_len : forall p v, length v = n -> length (ev p v) = n.
  Proof. induction p; intros v Hv; cbn [ev]; auto. - vlen. - apply (lin_len LX); auto. - rewrite vadd_length, IHp1, IHp2; auto. apply Nat.min_id. Qed.
  Lemma ev_linear : forall p, linear n n (ev p).
  Proof.
    induction p; cbn [ev].
    - constructor; [intros; vlen|intros; apply vscale_add; congruence|intros; rewrite !vscale_vscale; f_equal; ring].
    - exact LX.
    - constructor; intros.
      + rewrite vadd_length, (lin_len IHp1), (lin_len IHp2); auto. apply Nat.min_id.
      + pose proof (lin_len IHp1). pose proof (lin_len IHp2).
        rewrite (lin_add IHp1), (lin_add IHp2) by auto. apply vec_ext; [autorewrite with veclen; rewrite !H1, !H2 by auto; lia|].
        intros i Hi. rewrite !nth_vadd; auto; autorewrite with veclen; rewrite ?H1, ?H2 by auto; try lia. ring.
      + rewrite (lin_scale IHp1), (lin_scale IHp2) by auto. rewrite vscale_add; auto. rewrite (lin_len IHp1), (lin_len IHp2); auto.
    - apply (linear_comp IHp2 IHp1).
  Qed.

  Lemma ev_comm_X : forall p v, length v = n -> ev p (X v) = X (ev p v).
  Proof.
    induction p; intros v Hv; cbn [ev]; auto.
    - symmetry. apply (lin_scale LX); auto.
    - rewrite IHp1, IHp2 by auto. symmetry. apply (lin_add LX); apply ev_len; auto.
    - rewrite IHp2 by auto. apply IHp1. apply ev_len; auto.
  Qed.
  Lemma ev_comm : forall p q v, length v = n -> ev p (ev q v) = ev q (ev p v).
  Proof.
    intros p q. revert p. induction q; intros r v Hv; cbn [ev].
    - apply (lin_scale (ev_linear r)); auto.
    - apply ev_comm_X; auto.
    - rewrite (lin_add (ev_linear r)) by (apply ev_len; auto). rewrite IHq1, IHq2 by auto. auto.
    - rewrite IHq1 by (apply ev_len; auto). rewrite IHq2 by auto. auto.
  Qed.

  Lemma peq_equiv : Setoid_Theory pexp peq.
  Proof. split; [intros p v Hv; auto|intros p q H v Hv; symmetry; auto|intros p q r H1 H2 v Hv; rewrite H1 by auto; auto]. Qed.
  Lemma p_ext : ring_eq_ext PA PM PO peq.
  Proof.
    constructor.
    - intros p p' H q q' H' v Hv. cbn [ev]. rewrite H, H'; auto.
    - intros p p' H q q' H' v Hv. cbn [ev]. rewrite H' by auto. rewrite H; auto. apply ev_len; auto.
    - intros p p' H v Hv. cbn [ev PO]. unfold PO. cbn [ev]. rewrite H; auto.
  Qed.
  Lemma p_ring : ring_theory (PC 0) (PC 1) PA PM PS PO peq.
  Proof.
    constructor; intros; intros v Hv; unfold PS, PO; cbn [ev].
    - rewrite vscale_0, Hv. apply vadd_zero_l. apply ev_len; auto.
    - apply vadd_comm. rewrite !ev_len; auto.
    - apply vadd_assoc; rewrite !ev_len; auto.
    - apply vscale_1.
    - apply ev_comm; auto.
    - auto.
    - auto.
    - reflexivity.
    - rewrite <- vsub_as_add by auto. rewrite vsub_self, vscale_0, ev_len; auto.
  Qed.
  Add Parametric Relation : pexp peq
    reflexivity proved by (Equivalence.equiv_reflexive peq_equiv)
    symmetry proved by (Equivalence.equiv_symmetric peq_equiv)
    transitivity proved by (Equivalence.equiv_transitive peq_equiv) as peq_rel.
  Add Parametric Morphism : PA with signature peq ==> peq ==> peq as PA_mor.
  Proof. apply (Radd_ext p_ext). Qed.
  Add Parametric Morphism : PM with signature peq ==> peq ==> peq as PM_mor.
  Proof. apply (Rmul_ext p_ext). Qed.
  Add Parametric Morphism : PO with signature peq ==> peq as PO_mor.
  Proof. apply (Ropp_ext p_ext). Qed.
  Add Parametric Morphism : PS with signature peq ==> peq ==> peq as PS_mor.
  Proof. intros p p' H q q' H'. unfold PS. rewrite H, H'. reflexivity. Qed.
  Add Ring PolyRing : p_ring (setoid peq_equiv p_ext).

  Declare Scope P_scope.
  Infix "==" := peq (at level 70, no associativity) : P_scope.
  Notation "p + q" := (PA p q) : P_scope.
  Notation "p * q" := (PM p q) : P_scope.
  Notation "p - q" := (PS p q) : P_scope.
  Notation "- p" := (PO p) : P_scope.
  Notation I := (PC 1).
  Notation O := (PC 0).
  Delimit Scope P_scope with P.
  Local Open Scope P_scope.

  Lemma PC_add : forall a b, PC (a + b)%K == PC a + PC b.
  Proof. intros a b v Hv. cbn [ev]. vx. Qed.
  Lemma PC_mul : forall a b, PC (a * b)%K == PC a * PC b.
  Proof. intros a b v Hv. cbn [ev]. rewrite vscale_vscale. auto. Qed.
  Lemma PC_opp : forall a, PC (- a)%K == - PC a.
  Proof. intros a v Hv. unfold PO. cbn [ev]. rewrite vscale_vscale. f_equal. ring. Qed.
  Lemma PC_sub : forall a b, PC (a - b)%K == PC a - PC b.
  Proof. intros a b. transitivity (PC (a + - b)%K). - intros v Hv. cbn [ev]. f_equal. ring. - rewrite PC_add, PC_opp. unfold PS. reflexivity. Qed.

  Notation two := (I + I).
  (** T, the shifted U (u 0 = 0, u 1 = 1), and the kernels (1 - T) / (1 - X). *)
  Fixpoint T (k : nat) : pexp := match k with 0%nat => I | S k' => match k' with 0%nat => PX | S k'' => two * PX * T k' - T k'' end end.
  Fixpoint u (k : nat) : pexp := match k with 0%nat => O | S k' => match k' with 0%nat => I | S k'' => two * PX * u k' - u k'' end end.
  Fixpoint Fj (k : nat) : pexp := match k with 0%nat => O | S k' => match k' with 0%nat => I | S k'' => two + two * PX * Fj k' - Fj k'' end end.
  Lemma T_SS : forall k, T (S (S k)) = two * PX * T (S k) - T k. Proof. reflexivity. Qed.
  Lemma u_SS : forall k, u (S (S k)) = two * PX * u (S k) - u k. Proof. reflexivity. Qed.
  Lemma Fj_SS : forall k, Fj (S (S k)) = two + two * PX * Fj (S k) - Fj k. Proof. reflexivity. Qed.

  Lemma pair_ind : forall P : nat -> Prop, P 0%nat -> P 1%nat -> (forall k, P k -> P (S k) -> P (S (S k))) -> forall k, P k.
  Proof. intros P H0 H1 HS k. enough (P k /\ P (S k)) by tauto. induction k as [|k [A B]]; auto. Qed.

  Lemma shift0 : forall p q, p - q == O -> p == q.
  Proof. intros p q H. transitivity (p - q + q); [ring|]. rewrite H. ring. Qed.

  Lemma u_pell : forall k, u (S k) * u (S k) - two * PX * u (S k) * u k + u k * u k == I.
  Proof.
    induction k.
    - cbn [u]. ring.
    - etransitivity; [|exact IHk]. rewrite u_SS. ring.
  Qed.
  Lemma T_pell : forall k, T (S k) * T (S k) - two * PX * T (S k) * T k + T k * T k == I - PX * PX.
  Proof.
    induction k.
    - cbn [T]. ring.
    - etransitivity; [|exact IHk]. rewrite T_SS. ring.
  Qed.
  Lemma Fj_T : forall k, (I - PX) * Fj k == I - T k.
  Proof.
    induction k as [| |k H1 H2] using pair_ind.
    - cbn [Fj T]. ring.
    - cbn [Fj T]. ring.
    - rewrite Fj_SS, T_SS.
      transitivity (two * (I - PX) + two * PX * ((I - PX) * Fj (S k)) - (I - PX) * Fj k); [ring|]. rewrite H1, H2. ring.
  Qed.
  Lemma Fj_square : forall m, Fj (2 * m) == two * (I + PX) * (u m * u m) /\ Fj (S (2 * m)) == (u (S m) + u m) * (u (S m) + u m).
  Proof.
    induction m as [|m [E1 E2]].
    - cbn [Nat.mul Nat.add Fj u]. split; ring.
    - replace (2 * S m)%nat with (S (S (2 * m))) by lia.
      assert (E3 : Fj (S (S (2 * m))) == two * (I + PX) * (u (S m) * u (S m))).
      { rewrite Fj_SS, E1, E2. apply shift0.
        transitivity (two * (I - (u (S m) * u (S m) - two * PX * u (S m) * u m + u m * u m))); [ring|]. rewrite u_pell. ring. }
      split; auto. rewrite Fj_SS, E3, E2, u_SS. apply shift0.
      transitivity (two * (I - (u (S m) * u (S m) - two * PX * u (S m) * u m + u m * u m))); [ring|]. rewrite u_pell. ring.
  Qed.
  Lemma T_double : forall k, T (2 * k) == two * (T k * T k) - I /\ T (S (2 * k)) == two * (T (S k) * T k) - PX.
  Proof.
    induction k as [|k [E1 E2]].
    - cbn [Nat.mul Nat.add T]. split; ring.
    - replace (2 * S k)%nat with (S (S (2 * k))) by lia.
      assert (E3 : T (S (S (2 * k))) == two * (T (S k) * T (S k)) - I).
      { rewrite T_SS, E1, E2. apply shift0.
        transitivity (two * ((I - PX * PX) - (T (S k) * T (S k) - two * PX * T (S k) * T k + T k * T k))); [ring|]. rewrite T_pell. ring. }
      split; auto. rewrite (T_SS (S (2 * k))), E3, E2, (T_SS k). ring.
  Qed.

  (** The value of T at the scalar x0 and what divides it. *)
  Variable x0 : K.
  Fixpoint tk (k : nat) : K := match k with 0%nat => 1 | S k' => match k' with 0%nat => x0 | S k'' => (1 + 1) * x0 * tk k' - tk k'' end end%K.
  Lemma tk_SS : forall k, tk (S (S k)) = ((1 + 1) * x0 * tk (S k) - tk k)%K. Proof. reflexivity. Qed.
  Lemma tk_pell : forall k, (tk (S k) * tk (S k) - (1 + 1) * x0 * tk (S k) * tk k + tk k * tk k = 1 - x0 * x0)%K.
  Proof. induction k; [cbn [tk]; ring|]. rewrite tk_SS, <- IHk. ring. Qed.
  Lemma tk_double : forall k, (tk (2 * k) = (1 + 1) * (tk k * tk k) - 1 /\ tk (S (2 * k)) = (1 + 1) * (tk (S k) * tk k) - x0)%K.
  Proof.
    induction k as [|k [E1 E2]].
    - cbn [Nat.mul Nat.add tk]. split; ring.
    - replace (2 * S k)%nat with (S (S (2 * k))) by lia.
      assert (E3 : (tk (S (S (2 * k))) = (1 + 1) * (tk (S k) * tk (S k)) - 1)%K).
      { rewrite tk_SS, E1, E2.
        transitivity ((1 + 1) * (tk (S k) * tk (S k)) - 1 + (1 + 1) * ((1 - x0 * x0) - (tk (S k) * tk (S k) - (1 + 1) * x0 * tk (S k) * tk k + tk k * tk k)))%K; [ring|]. rewrite tk_pell. ring. }
      split; auto. rewrite (tk_SS (S (2 * k))), E3, E2, (tk_SS k). ring.
  Qed.
  Notation Y := (PC x0).
  Fixpoint dj (k : nat) : pexp := match k with 0%nat => O | S k' => match k' with 0%nat => O | S k'' => two * Y * dj k' - dj k'' + (two * Y - two) * Fj k' end end.
  Lemma dj_SS : forall k, dj (S (S k)) = two * Y * dj (S k) - dj k + (two * Y - two) * Fj (S k). Proof. reflexivity. Qed.

  Lemma T_quot : forall k, PC (tk k) - T k == (Y - PX) * (Fj k + dj k).
  Proof.
    induction k as [| |k H1 H2] using pair_ind.
    - cbn [tk T Fj dj]. ring.
    - cbn [tk T Fj dj]. ring.
    - rewrite tk_SS, PC_sub, !PC_mul, PC_add.
      transitivity (two * Y * (PC (tk (S k)) - T (S k)) - (PC (tk k) - T k) + two * (Y - PX) * T (S k)); [rewrite T_SS; ring|].
      rewrite H1, H2. rewrite Fj_SS, dj_SS.
      transitivity (two * Y * ((Y - PX) * (Fj (S k) + dj (S k))) - (Y - PX) * (Fj k + dj k) + two * (Y - PX) * (I - (I - T (S k)))); [ring|].
      rewrite <- Fj_T. ring.
  Qed.

  (** *** Positivity in an inner product in which X is self adjoint *)
  Variable ip : vec -> vec -> K.
  Hypothesis ip_add : forall a b c, length a = n -> length b = n -> length c = n -> (ip (vadd a b) c = ip a c + ip b c)%K.
  Hypothesis ip_scale : forall s a c, length a = n -> length c = n -> (ip (vscale s a) c = s * ip a c)%K.
  Hypothesis ip_X : forall a b, length a = n -> length b = n -> ip (X a) b = ip a (X b).
  Hypothesis ip_sym : forall a b, length a = n -> length b = n -> ip a b = ip b a.

  Definition pos (p : pexp) : Prop := forall v, length v = n -> (0 <= ip (ev p v) v)%K.
  Definition spos (p : pexp) : Prop := forall v, length v = n -> v <> vzero n -> (0 < ip (ev p v) v)%K.

  Lemma ip_ev : forall p a b, length a = n -> length b = n -> ip (ev p a) b = ip a (ev p b).
  Proof.
    induction p; intros a b Ha Hb; cbn [ev].
    - rewrite ip_scale by auto. rewrite (ip_sym a (vscale k b)) by (auto; vlen). rewrite ip_scale by auto. rewrite (ip_sym a b); auto.
    - auto.
    - rewrite ip_add by (auto; apply ev_len; auto). rewrite (ip_sym a (vadd _ _)) by (auto; rewrite vadd_length, !ev_len by auto; apply Nat.min_id).
      rewrite ip_add by (auto; apply ev_len; auto). rewrite IHp1, IHp2 by auto. rewrite (ip_sym a (ev p1 b)), (ip_sym a (ev p2 b)) by (auto; apply ev_len; auto). auto.
    - rewrite IHp1 by (auto; apply ev_len; auto). rewrite IHp2 by (auto; apply ev_len; auto). rewrite ev_comm; auto.
  Qed.

  Lemma pos_eq : forall p q, p == q -> pos p -> pos q.
  Proof. intros p q E H v Hv. rewrite <- E by auto. auto. Qed.
  Lemma spos_eq : forall p q, p == q -> spos p -> spos q.
  Proof. intros p q E H v Hv N. rewrite <- E by auto. auto. Qed.
  Lemma pos_add : forall p q, pos p -> pos q -> pos (p + q).
  Proof. intros p q H1 H2 v Hv. cbn [ev]. rewrite ip_add by (auto; apply ev_len; auto). apply fadd_nonneg; auto. Qed.
  Lemma spos_add : forall p q, spos p -> pos q -> spos (p + q).
  Proof. intros p q H1 H2 v Hv N. cbn [ev]. rewrite ip_add by (auto; apply ev_len; auto). apply fadd_pos; auto. Qed.
  Lemma pos_scale : forall a p, (0 <= a)%K -> pos p -> pos (PC a * p).
  Proof. intros a p Ha H v Hv. cbn [ev]. rewrite ip_scale by (auto; apply ev_len; auto). apply fle_mul; auto. Qed.
  Lemma spos_scale : forall a p, (0 < a)%K -> spos p -> spos (PC a * p).
  Proof. intros a p Ha H v Hv N. cbn [ev]. rewrite ip_scale by (auto; apply ev_len; auto). apply fmul_pos; auto. Qed.
  Lemma pos_square : forall p q, pos p -> pos (p * (q * q)).
  Proof.
    intros p q H v Hv. cbn [ev]. rewrite (ev_comm p q) by (apply ev_len; auto). rewrite ip_ev by (auto; apply ev_len; apply ev_len; auto).
    apply H. apply ev_len; auto.
  Qed.
  Lemma pos_O : pos O.
  Proof. intros v Hv. cbn [ev]. rewrite ip_scale by auto. replace (0 * ip v v)%K with (0 : K) by ring. apply fle_refl. Qed.
  Lemma spos_pos : forall p, spos p -> pos p.
  Proof.
    intros p H v Hv. destruct (list_eq_dec (feq_dec K) v (vzero n)) as [->|N]; [|apply flt_le; auto].
    rewrite (lin_zero (ev_linear p)). rewrite <- (@vscale_zero K 0%K n) at 1. rewrite ip_scale by vlen.
    replace (0 * _)%K with (0 : K) by ring. apply fle_refl.
  Qed.

  Hypothesis P1 : spos (Y - PX).
  Hypothesis P2 : pos ((Y - PX) * (I + PX)).
  Hypothesis Hx0 : (1 < x0)%K.

  Lemma Fj_pos : forall k, pos ((Y - PX) * Fj k).
  Proof.
    intros k. destruct (Nat.Even_or_Odd k) as [[m ->]|[m ->]].
    - apply pos_eq with (PC (1 + 1)%K * ((Y - PX) * (I + PX) * (u m * u m))).
      + rewrite (proj1 (Fj_square m)). rewrite PC_add. ring.
      + apply pos_scale; [apply fadd_nonneg; apply f0_le_1|]. apply pos_square. auto.
    - apply pos_eq with ((Y - PX) * ((u (S m) + u m) * (u (S m) + u m))).
      + replace (2 * m + 1)%nat with (S (2 * m)) by lia. rewrite (proj2 (Fj_square m)). reflexivity.
      + apply pos_square. apply spos_pos. auto.
  Qed.
  Lemma x0_gap : (0 < (1 + 1) * x0 - (1 + 1))%K.
  Proof.
    replace ((1 + 1) * x0 - (1 + 1))%K with ((1 + 1) * (x0 - 1))%K by ring. apply fmul_pos; [apply fadd_pos; [apply f0_lt_1|apply f0_le_1]|].
    apply flt_sub_0 in Hx0. auto.
  Qed.
  Lemma dj_pos : forall k, pos ((Y - PX) * dj k) /\ pos ((Y - PX) * (dj (S k) - dj k)).
  Proof.
    induction k as [|k [H1 H2]].
    - split; [apply pos_eq with O; [cbn [dj]; ring|apply pos_O]|apply pos_eq with O; [cbn [dj]; ring|apply pos_O]].
    - assert (H3 : pos ((Y - PX) * dj (S k))).
      { apply pos_eq with ((Y - PX) * dj k + (Y - PX) * (dj (S k) - dj k)); [ring|]. apply pos_add; auto. }
      split; auto. rewrite dj_SS.
      apply pos_eq with ((Y - PX) * (dj (S k) - dj k) + PC ((1 + 1) * x0 - (1 + 1))%K * ((Y - PX) * dj (S k)) + PC ((1 + 1) * x0 - (1 + 1))%K * ((Y - PX) * Fj (S k))).
      + rewrite PC_sub, !PC_mul, !PC_add. ring.
      + pose proof (flt_le x0_gap). apply pos_add; [apply pos_add; auto; apply pos_scale; auto|]. apply pos_scale; auto. apply Fj_pos.
  Qed.
  Lemma dj_spos : forall k, spos ((Y - PX) * dj (S (S k))).
  Proof.
    induction k.
    - apply spos_eq with (PC ((1 + 1) * x0 - (1 + 1))%K * (Y - PX)).
      + cbn [dj Fj]. rewrite PC_sub, !PC_mul, !PC_add. ring.
      + apply spos_scale; auto. apply x0_gap.
    - apply spos_eq with ((Y - PX) * dj (S (S k)) + (Y - PX) * (dj (S (S (S k))) - dj (S (S k)))); [ring|].
      apply spos_add; auto. apply dj_pos.
  Qed.

  Lemma tk_ge : forall k, (1 <= tk k)%K /\ (tk k <= tk (S k))%K.
  Proof.
    pose proof (flt_le Hx0) as H1. induction k as [|k [H2 H3]].
    - cbn [tk]. split; [apply fle_refl|auto].
    - assert (H4 : (1 <= tk (S k))%K) by (eapply fle_trans; eauto). split; auto. rewrite tk_SS.
      apply fle_sub_0. replace ((1 + 1) * x0 * tk (S k) - tk k - tk (S k))%K with (((1 + 1) * x0 - (1 + 1)) * tk (S k) + (tk (S k) - tk k))%K by ring.
      apply fadd_nonneg; [|apply fle_sub_0 in H3; auto]. apply fle_mul; [apply flt_le; apply x0_gap|]. eapply fle_trans; [apply f0_le_1|auto].
  Qed.
  Lemma tk_pos : forall k, (0 < tk k)%K.
  Proof. intros k. eapply flt_le_trans; [apply f0_lt_1|apply tk_ge]. Qed.

  (** T_k(X) shrinks every nonzero vector below T_k(x0). *)
  Lemma T_contracts : forall k v, length v = n -> v <> vzero n ->
    (ip (ev (T (S k)) v) (ev (T (S k)) v) < tk (S k) * tk (S k) * ip v v)%K.
  Proof.
    intros k v Hv N. apply flt_sub_0.
    assert (Q : two * (PC (tk (S k) * tk (S k))%K - T (S k) * T (S k)) == (Y - PX) * Fj (2 * S k) + (Y - PX) * dj (2 * S k)).
    { transitivity (PC (tk (2 * S k)) - T (2 * S k)).
      - rewrite (proj1 (T_double (S k))). rewrite (proj1 (tk_double (S k))). rewrite PC_sub, !PC_mul, PC_add. ring.
      - rewrite T_quot. ring. }
    assert (SP : spos (two * (PC (tk (S k) * tk (S k))%K - T (S k) * T (S k)))).
    { eapply spos_eq; [symmetry; exact Q|]. replace (2 * S k)%nat with (S (S (2 * k))) by lia.
      apply spos_eq with ((Y - PX) * dj (S (S (2 * k))) + (Y - PX) * Fj (S (S (2 * k)))); [ring|]. apply spos_add; [apply dj_spos|apply Fj_pos]. }
    specialize (SP v Hv N). unfold PS, PO in SP. cbn [ev] in SP.
    set (w := ev (T (S k)) v) in *. assert (Hw : length w = n) by (apply ev_len; auto).
    assert (Hw2 : length (ev (T (S k)) w) = n) by (apply ev_len; auto).
    rewrite !vscale_1 in SP. rewrite !ip_add in SP by (auto; vlen). rewrite !ip_scale in SP by auto.
    rewrite (@ip_ev _ w v) in SP by auto. fold w in SP.
    destruct (@fle_dec K (tk (S k) * tk (S k) * ip v v - ip w w)%K 0%K) as [L|L]; auto. exfalso. apply SP.
    replace (tk (S k) * tk (S k) * ip v v + - (1) * ip w w + (tk (S k) * tk (S k) * ip v v + - (1) * ip w w))%K
      with ((tk (S k) * tk (S k) * ip v v - ip w w) + (tk (S k) * tk (S k) * ip v v - ip w w))%K by ring.
    replace (0 : K) with (0 + 0 : K)%K by ring. apply fle_add2; auto.
  Qed.
  (** *** How much T_k(X) shrinks *)
  Fixpoint uk (k : nat) : K := match k with 0%nat => 0 | S k' => match k' with 0%nat => 1 | S k'' => (1 + 1) * x0 * uk k' - uk k'' end end%K.
  Lemma uk_SS : forall k, uk (S (S k)) = ((1 + 1) * x0 * uk (S k) - uk k)%K. Proof. reflexivity. Qed.
  Lemma tk_uk : forall k, tk (S k) = (x0 * uk (S k) - uk k)%K.
  Proof.
    induction k as [| |k H1 H2] using pair_ind.
    - cbn [tk uk]. ring.
    - cbn [tk uk]. ring.
    - rewrite tk_SS, H1, H2, (uk_SS (S k)), (uk_SS k). ring.
  Qed.
  Lemma uk_grows : forall k, (x0 * uk k <= uk (S k))%K.
  Proof.
    destruct k.
    - cbn [uk]. replace (x0 * 0)%K with (0 : K) by ring. apply f0_le_1.
    - rewrite uk_SS. apply fle_sub_0. replace ((1 + 1) * x0 * uk (S k) - uk k - x0 * uk (S k))%K with (x0 * uk (S k) - uk k)%K by ring.
      rewrite <- tk_uk. apply flt_le, tk_pos.
  Qed.
  Lemma uk_nonneg : forall k, (0 <= uk k)%K.
  Proof.
    induction k; [cbn [uk]; apply fle_refl|]. eapply fle_trans; [|apply uk_grows]. apply fle_mul; auto. eapply fle_trans; [apply f0_le_1|apply flt_le; exact Hx0].
  Qed.
  Lemma uk_double : forall m, (uk (2 * m) = uk m * ((1 + 1) * uk (S m) - (1 + 1) * x0 * uk m) /\ uk (S (2 * m)) = uk (S m) * uk (S m) - uk m * uk m)%K.
  Proof.
    induction m as [|m [E1 E2]].
    - cbn [Nat.mul Nat.add uk]. split; ring.
    - replace (2 * S m)%nat with (S (S (2 * m))) by lia.
      assert (E3 : (uk (S (S (2 * m))) = uk (S m) * ((1 + 1) * uk (S (S m)) - (1 + 1) * x0 * uk (S m)))%K) by (rewrite uk_SS, E1, E2, (uk_SS m); ring).
      split; auto. rewrite (uk_SS (S (2 * m))), E3, E2, (uk_SS m). ring.
  Qed.
  Lemma tk_uk_bound : forall k, (tk (S k) * tk (S k) <= x0 * x0 * uk (S (2 * k)))%K.
  Proof.
    intros k. rewrite tk_uk, (proj2 (uk_double k)). apply fle_sub_0. set (a := uk k). set (b := uk (S k)).
    replace (x0 * x0 * (b * b - a * a) - (x0 * b - a) * (x0 * b - a))%K with (a * ((1 + 1) * x0 * (b - x0 * a) + (x0 - 1) * (x0 + 1) * a))%K by ring.
    assert (H0 : (0 <= x0)%K) by (eapply fle_trans; [apply f0_le_1|apply flt_le; exact Hx0]).
    assert (Ha : (0 <= a)%K) by apply uk_nonneg.
    apply fle_mul; [exact Ha|]. apply fadd_nonneg.
    - apply fle_mul; [apply fle_mul; [apply fadd_nonneg; apply f0_le_1|exact H0]|]. apply -> (@fle_sub_0 K). apply uk_grows.
    - apply fle_mul; [|exact Ha]. apply fle_mul; [|apply fadd_nonneg; [exact H0|apply f0_le_1]]. apply flt_le. apply flt_sub_0 in Hx0. exact Hx0.
  Qed.
  Notation gg := ((1 + 1) * x0 - (1 + 1))%K.
  Lemma dj_low : forall k, pos ((Y - PX) * (dj (S k) - PC (gg * uk k)%K)) /\
    pos ((Y - PX) * ((dj (S (S k)) - PC (gg * uk (S k))%K) - (dj (S k) - PC (gg * uk k)%K))).
  Proof.
    induction k as [|k [H1 H2]].
    - split; (apply pos_eq with O; [|apply pos_O]).
      + cbn [dj uk]. rewrite PC_mul. ring.
      + cbn [dj uk Fj]. rewrite !PC_mul, !PC_sub, !PC_mul, !PC_add. ring.
    - assert (H3 : pos ((Y - PX) * (dj (S (S k)) - PC (gg * uk (S k))%K))).
      { eapply pos_eq; [|apply pos_add; [exact H1|exact H2]]. ring. }
      split; [exact H3|].
      apply pos_eq with ((Y - PX) * ((dj (S (S k)) - PC (gg * uk (S k))%K) - (dj (S k) - PC (gg * uk k)%K)) +
        PC gg * ((Y - PX) * (dj (S (S k)) - PC (gg * uk (S k))%K)) + PC gg * ((Y - PX) * Fj (S (S k)))).
      + rewrite (dj_SS (S k)), uk_SS. rewrite !PC_mul, !PC_sub, !PC_mul, !PC_add. ring.
      + pose proof (flt_le x0_gap). apply pos_add; [apply pos_add; auto; apply pos_scale; auto|]. apply pos_scale; auto. apply Fj_pos.
  Qed.
  Lemma T_contracts_by : forall k v, length v = n ->
    ((x0 - 1) * uk (S (2 * k)) * ip (ev (Y - PX)%P v) v <= tk (S k) * tk (S k) * ip v v - ip (ev (T (S k)) v) (ev (T (S k)) v))%K.
  Proof.
    intros k v Hv.
    assert (Q : two * (PC (tk (S k) * tk (S k))%K - T (S k) * T (S k)) - PC (gg * uk (S (2 * k)))%K * (Y - PX) ==
      (Y - PX) * Fj (S (S (2 * k))) + (Y - PX) * (dj (S (S (2 * k))) - PC (gg * uk (S (2 * k)))%K)).
    { transitivity (PC (tk (2 * S k)) - T (2 * S k) - PC (gg * uk (S (2 * k)))%K * (Y - PX)).
      - rewrite (proj1 (T_double (S k))). rewrite (proj1 (tk_double (S k))). rewrite PC_sub, !PC_mul, PC_add. ring.
      - rewrite T_quot. replace (2 * S k)%nat with (S (S (2 * k))) by lia. ring. }
    assert (SP : pos (two * (PC (tk (S k) * tk (S k))%K - T (S k) * T (S k)) - PC (gg * uk (S (2 * k)))%K * (Y - PX))).
    { eapply pos_eq; [symmetry; exact Q|]. apply pos_add; [apply Fj_pos|]. exact (proj1 (dj_low (S (2 * k)))). }
    specialize (SP v Hv). unfold PS, PO in SP. cbn [ev] in SP. unfold PS, PO. cbn [ev].
    set (w := ev (T (S k)) v) in *. assert (Hw : length w = n) by (apply ev_len; auto).
    assert (Hw2 : length (ev (T (S k)) w) = n) by (apply ev_len; auto).
    assert (HX : length (X v) = n) by (apply (lin_len LX); auto).
    rewrite !vscale_1 in SP. rewrite !ip_add in SP by (auto; vlen). rewrite !ip_scale in SP by (auto; vlen).
    rewrite (@ip_ev _ w v) in SP by auto. fold w in SP.
    rewrite !ip_add in SP by (auto; vlen). rewrite !ip_scale in SP by (auto; vlen).
    rewrite !ip_add by (auto; vlen). rewrite !ip_scale by (auto; vlen).
    set (t := tk (S k)) in *. set (q := uk (S (2 * k))) in *. set (b := ip w w) in *. set (a := ip v v) in *. set (c := ip (X v) v) in *.
    assert (G2 : ((0 : K) < 1 + 1)%K) by (apply fadd_pos; [apply f0_lt_1|apply f0_le_1]).
    assert (SP2 : (0 <= (1 + 1) * (t * t * a - b - (x0 - 1) * q * (x0 * a + - (1) * c)))%K).
    { match type of SP with (0 <= ?e)%K => replace ((1 + 1) * (t * t * a - b - (x0 - 1) * q * (x0 * a + - (1) * c)))%K with e by ring end. exact SP. }
    destruct (@fle_dec K ((x0 - 1) * q * (x0 * a + - (1) * c))%K (t * t * a - b)%K) as [L|L]; auto. exfalso.
    apply flt_sub_0 in L. apply (@flt_irrefl K 0%K). eapply flt_le_trans; [exact (fmul_pos G2 L)|].
    apply fle_sub_0. match type of SP2 with (0 <= ?e)%K => match goal with |- (0 <= ?f)%K => replace f with e by ring end end. exact SP2.
  Qed.

End Poly.
Arguments PC {K} k.
Arguments PX {K}.
Arguments T {K} k.
Arguments tk {K} x0 k.
Arguments tk_SS {K} x0 k.
Arguments T_SS {K} k.
Arguments tk_pos {K} x0 _ k.
