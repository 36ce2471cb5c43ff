(** Smoothing property of symmetric Gauss-Seidel. *)
From Coq Require Import List Arith Lia Bool Field.
From Verif Require Import Base OField Mat LinAlg M_Hier S_Hier P_Hier P_Hier2 P_HierE P_HierS M_Smoother P_Smoother S_Rate P_Rate.
Import ListNotations.
Set Implicit Arguments.
Open Scope nat_scope.

Section PRate2.
  Variable K : ofield.
  Add Field KfieldRate2 : (f_field K).
  Local Open Scope K_scope.
  Local Notation vec := (vec K).
  Ltac vx := unfold OField.vec in *; vext; try ring.

  Lemma sumn_le' : forall n (f g : nat -> K), (forall i, (i < n)%nat -> f i <= g i) -> sumn n f <= sumn n g.
  Proof.
    intros n f g H. apply fle_sub_0. rewrite <- sumn_sub. apply sumn_nonneg. intros i Hi. apply -> fle_sub_0. apply H; auto.
  Qed.
  (** Cauchy-Schwarz with weights. *)
  Lemma weighted_cs : forall m (d a z : nat -> K), (forall j, (j < m)%nat -> 0 < d j) ->
    sumn m (fun j => a j * z j) * sumn m (fun j => a j * z j) <= sumn m (fun j => a j * a j / d j) * sumn m (fun j => d j * z j * z j).
  Proof.
    intros m d a z Hd. apply quad_cs. intros t s.
    assert (E : t * t * sumn m (fun j => a j * a j / d j) - (1 + 1) * t * s * sumn m (fun j => a j * z j) + s * s * sumn m (fun j => d j * z j * z j) =
      sumn m (fun j => d j * ((t * a j / d j - s * z j) * (t * a j / d j - s * z j)))).
    { rewrite <- !sumn_scale, <- sumn_sub, <- sumn_add. apply sumn_ext. intros j Hj. field. apply not_eq_sym, flt_neq. auto. }
    rewrite E. apply sumn_nonneg. intros j Hj. apply fle_mul; [apply flt_le; auto|apply fsquare_nonneg].
  Qed.

  Section Fixed.
    Variable A : mat K.
    Hypothesis DA : nr A = nc A.
    Hypothesis SPD : spd (nc A) (mulvec A).
    Let n := nc A.
    Let LA : linear n n (mulvec A).
    Proof. unfold n. pose proof (mulvec_linear A) as X. rewrite DA in X. exact X. Qed.

    Section Sweep.
      Variable e : vec.
      Hypothesis He : length e = n.
      Let E (j : nat) : vec := errs A (seq 0 j) e.
      Let z (j : nat) : K := nth j (mulvec A (E j)) 0 / ent A j j.

      Lemma E_len : forall j, length (E j) = n.
      Proof. intros j. unfold E. exact (proj2 (@run_errs K A DA (seq 0 j) e e He He)). Qed.
      Lemma E_succ : forall j, E (S j) = vsub (E j) (vscale (z j) (unit_vec n j)).
      Proof. intros j. unfold E at 1, errs. rewrite seq_S, fold_left_app. reflexivity. Qed.
      Lemma E_sum : forall j, (j <= n)%nat -> forall i, (i < n)%nat ->
        nth i (mulvec A (E j)) 0 = nth i (mulvec A e) 0 - sumn j (fun l => ent A i l * z l).
      Proof.
        induction j; intros Hj i Hi.
        - simpl. unfold E, errs. simpl. ring.
        - rewrite E_succ. rewrite (lin_sub LA) by (auto using E_len; vlen). pose proof (lin_len LA _ (E_len j)) as L1.
          rewrite (lin_scale LA) by vlen. assert (L2 : length (mulvec A (unit_vec n j)) = n) by (apply (lin_len LA); vlen).
          rewrite nth_vsub by (vlen). rewrite nth_vscale. rewrite IHj by lia. unfold n at 1. rewrite mulvec_unit by (unfold n in *; lia). simpl. ring.
      Qed.
      Lemma residual_lower : forall i, (i < n)%nat -> nth i (mulvec A e) 0 = sumn (S i) (fun l => ent A i l * z l).
      Proof.
        intros i Hi. pose proof (@E_sum i ltac:(lia) i Hi) as H. simpl. unfold z at 2. rewrite H.
        assert (N : ent A i i <> 0) by (apply not_eq_sym, flt_neq; apply (@diag_pos K A DA (proj2 SPD)); auto). field. auto.
      Qed.
      Lemma sweep_energy : forall j, (j <= n)%nat -> energy (mulvec A) (E j) = energy (mulvec A) e - sumn j (fun l => ent A l l * z l * z l).
      Proof.
        induction j; intros Hj.
        - unfold E, errs. simpl. ring.
        - assert (N : ent A j j <> 0) by (apply not_eq_sym, flt_neq; apply (@diag_pos K A DA (proj2 SPD)); auto).
          unfold E, errs. rewrite seq_S, fold_left_app. simpl fold_left. fold (errs A (seq 0 j) e). fold (E j).
          rewrite (@D1_energy K A DA (proj1 SPD) (proj2 SPD)) by (auto using E_len). rewrite IHj by lia. simpl.
          assert (ZZ : nth j (mulvec A (E j)) 0 * nth j (mulvec A (E j)) 0 / ent A j j = ent A j j * z j * z j) by (unfold z; field; auto).
          rewrite ZZ. ring.
      Qed.
      Lemma forward_smooths : dot (mulvec A e) (mulvec A e) <= triangle_bound A * (energy (mulvec A) e - energy (mulvec A) (E n)).
      Proof.
        rewrite sweep_energy by auto. set (T := sumn n (fun l => ent A l l * z l * z l)).
        assert (Q : energy (mulvec A) e - (energy (mulvec A) e - T) = T) by ring. rewrite Q. clear Q.
        pose proof (lin_len LA _ He) as L. rewrite (@dot_sumn K _ _ n L L). unfold triangle_bound. rewrite DA. fold n.
        rewrite <- sumn_scale_r. apply sumn_le'. intros i Hi. rewrite residual_lower by auto.
        assert (DP : forall j, (j < n)%nat -> 0 < ent A j j) by (apply (@diag_pos K A DA (proj2 SPD))).
        eapply fle_trans; [apply weighted_cs with (d := fun j => ent A j j); intros j Hj; apply DP; lia|].
        apply fle_mul_l.
        - apply sumn_nonneg. intros j Hj. rewrite (Fdiv_def (f_field K)). apply fle_mul; [apply fsquare_nonneg|apply flt_le, finv_pos, DP; lia].
        - unfold T. replace n with (S i + (n - S i))%nat by lia. rewrite sumn_plus. apply fle_sub_0.
          match goal with |- 0 <= ?a + ?b - ?a => replace (a + b - a) with b by ring end.
          apply sumn_nonneg. intros j Hj. match goal with |- 0 <= ?a * ?b * ?c => replace (a * b * c) with (a * (b * c)) by ring end. apply fle_mul; [apply flt_le, DP; lia|apply fsquare_nonneg].
      Qed.
    End Sweep.

    Lemma energy_opp : forall e, length e = n -> energy (mulvec A) (vscale (- (1)) e) = energy (mulvec A) e.
    Proof. intros e He. unfold energy. rewrite (lin_scale LA) by auto. rewrite dot_scale_l, dot_scale_r. ring. Qed.

    Theorem ssor_smooths : forall theta, 0 <= theta -> theta * triangle_bound A <= 1 -> smooths (nc A) (mulvec A) (ssor_vmult A) theta.
    Proof.
      intros theta Ht Hb e He. fold n in He. set (f := vscale (- (1)) e). assert (Lf : length f = n) by (unfold f; vlen).
      set (order := (seq 0 n ++ rev (seq 0 n))%list).
      destruct (@run_errs K A DA order e f He Lf) as (R1 & R2). pose proof (lin_len LA _ He) as L.
      assert (Z : vadd e f = vzero n) by (unfold f; vx). rewrite Z in R1.
      change (run (mulvec A) (map (D1 A) order) (mulvec A e) (vzero n)) with (sweep A order (mulvec A e)) in R1.
      unfold order in R1. rewrite <- (@ssor_sweep K A DA) in R1 by auto. fold order in R1.
      assert (EE : error_step (mulvec A) (ssor_vmult A) e = vscale (- (1)) (errs A order f)) by (unfold error_step; rewrite R1; vx).
      rewrite EE, energy_opp by auto. rewrite <- (energy_opp e He). fold f.
      assert (DD : dot (mulvec A e) (mulvec A e) = dot (mulvec A f) (mulvec A f)) by (unfold f; rewrite (lin_scale LA), dot_scale_l, dot_scale_r by auto; ring).
      rewrite DD. set (f1 := errs A (seq 0 n) f). assert (Lf1 : length f1 = n) by (unfold f1; exact (proj2 (@run_errs K A DA (seq 0 n) f f Lf Lf))).
      assert (B1 : energy (mulvec A) (errs A order f) <= energy (mulvec A) f1).
      { unfold order, errs. rewrite fold_left_app.
        exact (proj1 (@errs_energy K A DA (proj1 SPD) (proj2 SPD) (rev (seq 0 n)) f1 (Forall_rev (seq_lt A DA)) Lf1)). }
      pose proof (@forward_smooths f Lf) as F. cbv beta in F. fold f1 in F.
      apply fle_trans with (energy (mulvec A) f - energy (mulvec A) f1).
      - apply (@fle_mul_l K theta _ _ Ht) in F. eapply fle_trans; [exact F|].
        assert (P : 0 <= energy (mulvec A) f - energy (mulvec A) f1).
        { apply -> fle_sub_0. exact (proj1 (@errs_energy K A DA (proj1 SPD) (proj2 SPD) (seq 0 n) f (seq_lt A DA) Lf)). }
        apply fle_sub_0. apply fle_sub_0 in Hb.
        set (p := energy (mulvec A) f - energy (mulvec A) f1) in *. set (t := triangle_bound A) in *.
        replace (p - theta * (t * p)) with ((1 - theta * t) * p) by ring. apply fle_mul; auto.
      - apply fle_sub_0. apply fle_sub_0 in B1. replace (energy (mulvec A) f - energy (mulvec A) (errs A order f) - (energy (mulvec A) f - energy (mulvec A) f1)) with
          (energy (mulvec A) f1 - energy (mulvec A) (errs A order f)) by ring. auto.
    Qed.
  End Fixed.
End PRate2.
