(** When the symmetric Gauss-Seidel smoother reduces errors on several ranks. *)
From Coq Require Import String List Arith ZArith Bool Lia Field Permutation.
From Verif Require Import Base OField Mat LinAlg M_Ptree M_Hier M_Smoother S_Hier P_Hier P_Hier2 P_HierE P_HierS P_HierV P_Smoother P_Cheby P_Approx P_FastAP P_FastAP2 P_Restr2 P_Rate2 M_Host P_Host M_Par S_Par P_Par.
Import ListNotations.
Set Implicit Arguments.
Open Scope list_scope.
Open Scope nat_scope.

Section Good.
  Variable K : ofield.
  Add Field KfieldPar2 : (f_field K).
  Local Open Scope K_scope.
  Notation vec := (vec K).
  Ltac vx := vext; try ring.
  Variable A : mat K.
  Variable owned : list (list nat).
  Hypothesis DA : nr A = nc A.
  Let n := nc A.
  Hypothesis HD : distribution n owned.
  Hypothesis SP : spd n (mulvec A).
  Let HL : linear n n (mulvec A).
  Proof. unfold n. pose proof (mulvec_linear A) as X. rewrite DA in X. exact X. Qed.
  Let SA : self_adjoint n (mulvec A) := proj1 SP.
  Let B := par_ssor_vmult owned A.

  (** The energy as a double sum. *)
  Lemma energy_sums : forall (M : mat K) x, nr M = n -> nc M = n -> length x = n ->
    energy (mulvec M) x = sumn n (fun i => sumn n (fun j => ent M i j * nth j x 0 * nth i x 0)).
  Proof.
    intros M x E1 E2 Hx. unfold energy. rewrite (@dot_sumn K _ _ n) by (auto; rewrite mulvec_length; auto). apply sumn_ext. intros i Hi.
    rewrite nth_mulvec by lia. rewrite E2. rewrite <- sumn_scale_r. reflexivity.
  Qed.

  Lemma local_energy : forall own y, In own owned -> length y = length own ->
    let x := put_owned own y (vzero n) in length x = n /\ gather own x = y /\ energy (mulvec A) x = energy (mulvec (local_block A own)) y.
  Proof.
    intros own y I Ly x. assert (Lx : length x = n) by (unfold x; rewrite put_length; vlen).
    pose proof (owned_NoDup HD own I) as ND. pose proof (fun g => @owned_lt n owned HD own g I) as LT.
    assert (G : gather own x = y) by (apply put_gather; auto; apply Forall_forall; intros g Hg; rewrite vzero_length; auto).
    assert (Z : forall g, ~ In g own -> nth g x 0 = 0) by (intros g Hg; unfold x; rewrite put_other by auto; apply nth_vzero).
    split; auto. split; auto. unfold energy. rewrite (@dot_sumn K _ _ n) by (auto; rewrite mulvec_length; auto).
    transitivity (sumn n (fun g => if memb own g then nth g (mulvec A x) 0 * nth g x 0 else 0)).
    { apply sumn_ext. intros g Hg. destruct (memb own g) eqn:E; auto. rewrite Z; [ring|]. intros C. apply memb_in in C. congruence. }
    rewrite <- (@lsum_mask K n own) by auto. rewrite <- G at 2. rewrite <- (gather_length own x) in Ly.
    assert (L2 : length (mulvec (local_block A own) y) = length own) by (rewrite mulvec_length; auto).
    rewrite (@dot_sumn K _ _ (length own)) by (auto; apply gather_length). rewrite (@lsum_nth K _ _ own 0%nat). apply sumn_ext. intros i Hi.
    rewrite gather_nth by auto. f_equal. set (g := nth i own 0%nat). assert (Hg : In g own) by (apply nth_In; auto).
    rewrite nth_mulvec by (rewrite DA; fold n; auto). rewrite nth_mulvec by (cbn [nr local_block]; auto). cbn [nc ent local_block]. fold n g.
    transitivity (sumn n (fun j => if memb own j then ent A g j * nth j x 0 else 0)).
    { apply sumn_ext. intros j Hj. destruct (memb own j) eqn:E; auto. rewrite Z; [ring|]. intros C. apply memb_in in C. congruence. }
    rewrite <- (@lsum_mask K n own) by auto. rewrite (@lsum_nth K _ _ own 0%nat). apply sumn_ext. intros j Hj. rewrite <- G, gather_nth by auto. reflexivity.
  Qed.
  Lemma local_spd : forall own, In own owned -> spd (length own) (mulvec (local_block A own)).
  Proof.
    intros own I. split.
    - assert (E : forall i j, (i < n)%nat -> (j < n)%nat -> ent A i j = ent A j i) by (intros; apply (@self_adjoint_sym K A DA SA); fold n; lia).
      intros x y Hx Hy. rewrite !(@dot_sumn K _ _ (length own)) by (auto; rewrite mulvec_length; auto).
      transitivity (sumn (length own) (fun i => sumn (length own) (fun j => ent (local_block A own) i j * nth j x 0 * nth i y 0))).
      { apply sumn_ext. intros i Hi. rewrite nth_mulvec by auto. cbn [nc local_block]. rewrite <- sumn_scale_r. reflexivity. }
      rewrite sumn_swap. apply sumn_ext. intros i Hi. rewrite nth_mulvec by auto. cbn [nc local_block]. rewrite <- sumn_scale.
      apply sumn_ext. intros j Hj. cbn [ent local_block]. rewrite (E (nth j own 0%nat) (nth i own 0%nat)) by (apply (owned_lt HD own); auto; apply nth_In; auto). ring.
    - intros y Hy Ny. destruct (local_energy own y I Hy) as (L & G & E). rewrite <- E. apply (proj2 SP); auto.
      intros C. apply Ny. rewrite <- G, C. apply vec_ext; [rewrite gather_length; vlen|]. intros i Hi. rewrite gather_length in Hi.
      rewrite gather_nth by auto. rewrite !nth_vzero. auto.
  Qed.

  Lemma par_linear : linear n n B.
  Proof. apply on_ranks_linear; auto. intros own I. apply (@ssor_linear K (local_block A own)). reflexivity. Qed.
  Lemma par_sym : self_adjoint n B.
  Proof.
    apply on_ranks_sym; auto; intros own I.
    - apply (@ssor_linear K (local_block A own)). reflexivity.
    - apply (@ssor_sym K (local_block A own)); [reflexivity|]. apply (local_spd own I).
  Qed.
  Lemma par_gather : forall r own, length r = n -> In own owned -> gather own (B r) = ssor_vmult (local_block A own) (gather own r).
  Proof.
    intros r own Hr I. apply (@on_ranks_spec K n owned HD (@ssor_vmult K) A r eq_refl Hr); auto.
    intros o Io. apply (lin_len (@ssor_linear K (local_block A o) eq_refl)). apply gather_length.
  Qed.
  (** On its own block no rank corrects too much. *)
  Lemma par_below : forall r, length r = n -> energy (mulvec (blocks n owned A)) (B r) <= dot (B r) r.
  Proof.
    intros r Hr. pose proof (lin_len par_linear r Hr) as LB. rewrite (blocks_energy HD A) by auto. rewrite (dot_ranks HD) by auto.
    apply lsum_le. intros own I. rewrite par_gather by auto.
    apply (@ssor_below K (local_block A own) eq_refl); [apply local_spd; auto|apply gather_length].
  Qed.
  Lemma par_positive : forall r, length r = n -> r <> vzero n -> 0 < dot (B r) r.
  Proof.
    intros r Hr Nr. pose proof (lin_len par_linear r Hr) as LB. rewrite (dot_ranks HD) by auto.
    assert (P : forall own, In own owned -> 0 <= dot (gather own (B r)) (gather own r)).
    { intros own I. rewrite par_gather by auto. eapply fle_trans; [|apply (@ssor_below K (local_block A own) eq_refl); [apply local_spd; auto|apply gather_length]].
      apply (@energy_nonneg K (length own) (mulvec (local_block A own)) (mulvec_linear (local_block A own)) (local_spd own I)).
      apply (lin_len (@ssor_linear K (local_block A own) eq_refl)). apply gather_length. }
    apply fle_neq_lt; [apply lsum_nonneg; auto|]. intros Z. symmetry in Z.
    assert (Q : forall own, In own owned -> gather own r = vzero (length own)).
    { intros own I. destruct (list_eq_dec (feq_dec K) (gather own r) (vzero (length own))) as [E|N]; auto. exfalso.
      assert (S : 0 < dot (gather own (B r)) (gather own r)).
      { rewrite par_gather by auto. pose proof (local_spd own I) as SL.
        assert (R : relaxes (length own) (mulvec (local_block A own)) (ssor_vmult (local_block A own))).
        { intros r0 Hr0 Nr0. rewrite (@ssor_sweep K (local_block A own) eq_refl r0 Hr0).
          refine (@sweep_relaxes K (local_block A own) eq_refl (proj1 SL) (proj2 SL) _ (sym_lt (local_block A own) eq_refl) _ r0 Hr0 Nr0).
          intros i Hi. apply in_or_app. left. apply in_seq. lia. }
        specialize (R (gather own r) (gather_length _ _) N).
        assert (P0 : 0 <= dot (mulvec (local_block A own) (ssor_vmult (local_block A own) (gather own r))) (ssor_vmult (local_block A own) (gather own r))).
        { apply (@energy_nonneg K (length own) (mulvec (local_block A own)) (mulvec_linear (local_block A own)) SL).
          apply (lin_len (@ssor_linear K (local_block A own) eq_refl)). apply gather_length. }
        assert (Q : 0 < (1 + 1) * dot (ssor_vmult (local_block A own) (gather own r)) (gather own r)) by (eapply fle_lt_trans; eauto).
        replace (dot (ssor_vmult (local_block A own) (gather own r)) (gather own r)) with
          (((1 + 1) * dot (ssor_vmult (local_block A own) (gather own r)) (gather own r)) * finv (1 + 1)) by (field; apply two_neq).
        apply fmul_pos; auto. apply finv_pos. apply two_pos. }
      revert Z S P. generalize (B r). intros b Z S P. clear - Z S P I. revert I P Z. induction owned as [|o l IH]; intros I P Z; [destruct I|]. cbn [map lsum] in Z.
      apply fadd_nonneg_eq_0 in Z; [|apply P; left; auto|apply lsum_nonneg; intros; apply P; right; auto]. destruct Z as (Z1 & Z2).
      destruct I as [<-|I]; [rewrite Z1 in S; exact (flt_irrefl S)|]. apply (IH I); [intros o' Io; apply P; right; auto|exact Z2]. }
    apply Nr. apply (ranks_ext HD); [auto|vlen|]. intros own I. rewrite Q by auto.
    apply vec_ext; [rewrite gather_length; vlen|]. intros i Hi. rewrite vzero_length in Hi. rewrite gather_nth by auto. rewrite !nth_vzero. auto.
  Qed.

  (** The condition for reduction. *)
  Definition twice_blocks : Prop := forall x, length x = n -> x <> vzero n -> energy (mulvec A) x < (1 + 1) * energy (mulvec (blocks n owned A)) x.
  Lemma par_good : twice_blocks -> good_smoother n (mulvec A) (correction_step (mulvec A) B).
  Proof.
    intros T. exists B. split; [apply par_linear|]. split; [apply par_sym|]. split; auto.
    intros r Hr Nr. pose proof (lin_len par_linear r Hr) as LB. pose proof (par_positive Hr Nr) as P.
    assert (NB : B r <> vzero n). { intros C. rewrite C, dot_zero_l in P. exact (flt_irrefl P). }
    eapply flt_le_trans; [apply (T (B r) LB NB)|]. apply fle_mul_l; [apply flt_le; apply two_pos|]. apply par_below; auto.
  Qed.

  Lemma sum_diff2 : forall (f g : nat -> nat -> K), sumn n (fun i => sumn n (fun j => f i j)) + sumn n (fun i => sumn n (fun j => g i j)) =
    sumn n (fun i => sumn n (fun j => f i j + g i j)).
  Proof. intros f g. rewrite <- sumn_add. apply sumn_ext. intros i Hi. rewrite <- sumn_add. auto. Qed.

  Lemma coloured : two_colours owned A -> twice_blocks.
  Proof.
    intros (c & C1 & C2) x Hx Nx. set (s := fun g => if c g then 1 else - (1) : K).
    set (y := map (fun g => s g * nth g x 0) (seq 0 n)). assert (Ly : length y = n) by (unfold y; rewrite map_length, seq_length; auto).
    assert (Ey : forall g, (g < n)%nat -> nth g y 0 = s g * nth g x 0) by (intros g Hg; unfold y; rewrite nth_map_seq; auto).
    assert (S2 : forall g, s g * s g = 1) by (intros g; unfold s; destruct (c g); ring).
    assert (P : 0 < energy (mulvec A) y).
    { apply (proj2 SP); auto. intros Z. apply Nx. apply vec_ext; [vlen|]. intros g Hg. rewrite nth_vzero.
      transitivity (s g * nth g y 0); [rewrite Ey by lia; transitivity (s g * s g * nth g x 0); [rewrite S2; ring|ring]|]. rewrite Z, nth_vzero. ring. }
    apply flt_sub_0. replace ((1 + 1) * energy (mulvec (blocks n owned A)) x - energy (mulvec A) x) with (energy (mulvec A) y); auto.
    assert (E : energy (mulvec A) y + energy (mulvec A) x = (1 + 1) * energy (mulvec (blocks n owned A)) x).
    { rewrite !energy_sums by auto. rewrite sum_diff2, <- sumn_scale. apply sumn_ext. intros i Hi. rewrite <- sumn_scale. apply sumn_ext. intros j Hj.
      cbn [ent blocks]. rewrite !Ey by auto. destruct (sameb owned i j) eqn:Es.
      - apply sameb_iff in Es. unfold s. rewrite (C1 i j Es). destruct (c j); ring.
      - destruct (feq_dec K (ent A i j) 0) as [->|Na]; [ring|].
        assert (D : c i <> c j) by (apply C2; auto; intros Q; apply sameb_iff in Q; congruence).
        unfold s. destruct (c i), (c j); try congruence; ring. }
    rewrite <- E. ring.
  Qed.

  (** One rank, or two. *)
  Lemma few_ranks : (length owned <= 2)%nat -> two_colours owned A.
  Proof.
    intros L. exists (fun g => memb (hd [] owned) g). split.
    - intros i j (own & I & I1 & I2). destruct owned as [|a [|b [|]]]; try (cbn [length] in L; lia); [destruct I| |]; cbn [hd].
      + destruct I as [<-|[]]. rewrite (proj2 (memb_in a i) I1), (proj2 (memb_in a j) I2). auto.
      + destruct (memb a i) eqn:E1, (memb a j) eqn:E2; auto; exfalso.
        * apply memb_in in E1. assert (X : a = own) by (apply (@same_owner n [a; b] HD a own i); auto; left; auto). subst own. apply memb_in in I2. congruence.
        * apply memb_in in E2. assert (X : a = own) by (apply (@same_owner n [a; b] HD a own j); auto; left; auto). subst own. apply memb_in in I1. congruence.
    - intros i j Hi Hj _ N E. apply N. fold n in Hi, Hj.
      destruct (owned_cover HD Hi) as (oi & I1 & I2). destruct (owned_cover HD Hj) as (oj & J1 & J2).
      destruct owned as [|a [|b [|]]]; try (cbn [length] in L; lia); [destruct I1| |]; cbn [hd] in E.
      + destruct I1 as [<-|[]], J1 as [<-|[]]. exists a. split; auto. left. auto.
      + destruct (memb a i) eqn:E1; symmetry in E.
        * apply memb_in in E1, E. exists a. split; [left; auto|auto].
        * assert (oi = b). { destruct I1 as [<-|[<-|[]]]; auto. apply memb_in in I2. congruence. }
          assert (oj = b). { destruct J1 as [<-|[<-|[]]]; auto. apply memb_in in J2. congruence. }
          subst. exists b. split; [right; left; auto|auto].
  Qed.

  (** Diagonal dominance. *)
  Lemma fabs_bound : forall a x y : K, - (fabs a * (x * x + y * y)) <= (1 + 1) * (a * x * y).
  Proof.
    intros a x y. unfold fabs. destruct (fleb 0 a) eqn:E.
    - apply fleb_le in E. apply (@fle_sub_0 K). replace ((1 + 1) * (a * x * y) - - (a * (x * x + y * y))) with (a * ((x + y) * (x + y))) by ring.
      apply fle_mul; auto. apply fsquare_nonneg.
    - apply fleb_gt in E. apply (@fle_sub_0 K). replace ((1 + 1) * (a * x * y) - - (- a * (x * x + y * y))) with (- a * ((x - y) * (x - y))) by ring.
      apply fle_mul; [|apply fsquare_nonneg]. apply fle_opp_0. apply flt_le. auto.
  Qed.
  (** The slack of an entry. *)
  Definition slack (C : mat K) (x : vec) (i j : nat) : K :=
    if (j =? i)%nat then 0 else fabs (ent C i j) * (nth j x 0 * nth j x 0 + nth i x 0 * nth i x 0) + (1 + 1) * (ent C i j * nth j x 0 * nth i x 0).
  Lemma slack_nonneg : forall C x i j, 0 <= slack C x i j.
  Proof.
    intros C x i j. unfold slack. destruct (j =? i)%nat; [apply fle_refl|]. pose proof (fabs_bound (ent C i j) (nth j x 0) (nth i x 0)) as B0.
    apply -> (@fle_sub_0 K) in B0. match goal with |- 0 <= ?e => match type of B0 with 0 <= ?f => replace e with f by ring end end. auto.
  Qed.
  Lemma slack_0 : forall C x i j, slack C x i j = 0 -> ent C i j <> 0 -> i <> j -> nth j x 0 = 0 -> nth i x 0 = 0.
  Proof.
    intros C x i j E N D Z. unfold slack in E. destruct (Nat.eqb_spec j i) as [Q|_]; [congruence|]. rewrite Z in E.
    apply fsquare_0. assert (Q : fabs (ent C i j) * (nth i x 0 * nth i x 0) = 0) by (etransitivity; [|exact E]; ring).
    apply fmul_eq_0 in Q. destruct Q as [Q|Q]; auto. exfalso. apply N. unfold fabs in Q. destruct (fleb 0 (ent C i j)); auto.
    transitivity (- - ent C i j); [ring|]. rewrite Q. ring.
  Qed.
  Definition sparing (C : mat K) (i : nat) : K := ent C i i - sumn n (fun j => if (j =? i)%nat then 0 else fabs (ent C i j)).
  Lemma dominant_eq : forall (C : mat K) x, nr C = n -> nc C = n -> length x = n -> (forall i j, (i < n)%nat -> (j < n)%nat -> fabs (ent C i j) = fabs (ent C j i)) ->
    (1 + 1) * energy (mulvec C) x = (1 + 1) * sumn n (fun i => sparing C i * (nth i x 0 * nth i x 0)) + sumn n (fun i => sumn n (fun j => slack C x i j)).
  Proof.
    intros C x R1 R2 Hx HC.
    set (a := fun i j => if (j =? i)%nat then 0 else fabs (ent C i j)).
    assert (EQ : (1 + 1) * energy (mulvec C) x = (1 + 1) * sumn n (fun i => ent C i i * (nth i x 0 * nth i x 0)) -
      sumn n (fun i => sumn n (fun j => a i j * (nth j x 0 * nth j x 0 + nth i x 0 * nth i x 0))) + sumn n (fun i => sumn n (fun j => slack C x i j))).
    { rewrite (energy_sums C) by auto. rewrite <- !sumn_scale, <- sumn_sub, <- sumn_add. apply sumn_ext. intros i Hi.
      rewrite <- sumn_scale.
      replace ((1 + 1) * (ent C i i * (nth i x 0 * nth i x 0))) with (sumn n (fun j => if (j =? i)%nat then (1 + 1) * (ent C i i * (nth i x 0 * nth i x 0)) else 0)).
      2:{ rewrite (@sumn_single K n i); [rewrite Nat.eqb_refl; auto|auto|]. intros j Hj N. destruct (Nat.eqb_spec j i); [contradiction|auto]. }
      rewrite <- sumn_sub, <- sumn_add. apply sumn_ext. intros j Hj. unfold a, slack. destruct (Nat.eqb_spec j i) as [->|N]; ring. }
    assert (SY : sumn n (fun i => sumn n (fun j => a i j * (nth j x 0 * nth j x 0 + nth i x 0 * nth i x 0))) =
      (1 + 1) * sumn n (fun i => sumn n (fun j => a i j) * (nth i x 0 * nth i x 0))).
    { assert (X1 : sumn n (fun i => sumn n (fun j => a i j * (nth i x 0 * nth i x 0))) = sumn n (fun i => sumn n (fun j => a i j) * (nth i x 0 * nth i x 0))).
      { apply sumn_ext. intros i Hi. apply sumn_scale_r. }
      assert (X2 : sumn n (fun i => sumn n (fun j => a i j * (nth j x 0 * nth j x 0))) = sumn n (fun i => sumn n (fun j => a i j) * (nth i x 0 * nth i x 0))).
      { rewrite sumn_swap, <- X1. apply sumn_ext. intros i Hi. apply sumn_ext. intros j Hj. unfold a. rewrite (Nat.eqb_sym i j). destruct (j =? i)%nat; [auto|].
        rewrite (HC j i) by auto. auto. }
      transitivity (sumn n (fun i => sumn n (fun j => a i j * (nth j x 0 * nth j x 0))) + sumn n (fun i => sumn n (fun j => a i j * (nth i x 0 * nth i x 0)))).
      - rewrite sum_diff2. apply sumn_ext. intros i Hi. apply sumn_ext. intros j Hj. ring.
      - rewrite X1, X2. ring. }
    rewrite SY in EQ. rewrite EQ.
    replace (sumn n (fun i => sparing C i * (nth i x 0 * nth i x 0))) with
      (sumn n (fun i => ent C i i * (nth i x 0 * nth i x 0)) - sumn n (fun i => sumn n (fun j => a i j) * (nth i x 0 * nth i x 0))); [ring|].
    rewrite <- sumn_sub. apply sumn_ext. intros i Hi. unfold a, sparing. ring.
  Qed.
  (** Twice the blocks minus the matrix: the same absolute values. *)
  Definition flipped : mat K := mkMat n n (fun i j => if sameb owned i j then ent A i j else - ent A i j).
  Lemma flipped_energy : forall x, length x = n -> energy (mulvec flipped) x = (1 + 1) * energy (mulvec (blocks n owned A)) x - energy (mulvec A) x.
  Proof.
    intros x Hx. rewrite !energy_sums by auto. rewrite <- sumn_scale, <- sumn_sub. apply sumn_ext. intros i Hi.
    rewrite <- sumn_scale, <- sumn_sub. apply sumn_ext. intros j Hj. cbn [ent flipped blocks]. destruct (sameb owned i j); ring.
  Qed.
  Lemma flipped_abs : forall i j, fabs (ent flipped i j) = fabs (ent A i j).
  Proof. intros. cbn [ent flipped]. destruct (sameb owned i j); [auto|apply fabs_opp]. Qed.
  Lemma sameb_refl : forall i, (i < n)%nat -> sameb owned i i = true.
  Proof. intros i Hi. apply sameb_iff. destruct (owned_cover HD Hi) as (own & I1 & I2). exists own. auto. Qed.
  Lemma flipped_sparing : forall i, (i < n)%nat -> sparing flipped i = ent A i i - off_diagonal A i.
  Proof.
    intros i Hi. unfold sparing. f_equal.
    - cbn [ent flipped]. rewrite sameb_refl by auto. auto.
    - unfold off_diagonal. fold n. apply sumn_ext. intros j Hj. rewrite flipped_abs. auto.
  Qed.
  Lemma flipped_sum : forall x, length x = n -> (1 + 1) * ((1 + 1) * energy (mulvec (blocks n owned A)) x - energy (mulvec A) x) =
    (1 + 1) * sumn n (fun i => (ent A i i - off_diagonal A i) * (nth i x 0 * nth i x 0)) + sumn n (fun i => sumn n (fun j => slack flipped x i j)).
  Proof.
    intros x Hx. rewrite <- flipped_energy by auto. rewrite (dominant_eq flipped) by (auto; intros i j Hi Hj; rewrite !flipped_abs; f_equal; apply (@self_adjoint_sym K A DA SA); fold n; lia).
    f_equal. f_equal. apply sumn_ext. intros i Hi. rewrite flipped_sparing by auto. auto.
  Qed.
  Lemma halve : forall a b : K, (1 + 1) * a = b -> 0 <= b -> 0 <= a.
  Proof. intros a b E H. replace a with (finv (1 + 1) * b) by (rewrite <- E; field; apply two_neq). apply fle_mul; auto. apply flt_le. apply finv_pos. apply two_pos. Qed.
  Lemma flipped_nonneg : dominant A -> forall x, length x = n -> 0 <= (1 + 1) * energy (mulvec (blocks n owned A)) x - energy (mulvec A) x.
  Proof.
    intros D x Hx. eapply halve; [apply (flipped_sum x Hx)|]. apply fadd_nonneg.
    - apply fle_mul; [apply flt_le; apply two_pos|]. apply sumn_nonneg. intros i Hi. apply fle_mul; [|apply fsquare_nonneg]. apply -> (@fle_sub_0 K). apply D. auto.
    - apply sumn_nonneg. intros i Hi. apply sumn_nonneg. intros j Hj. apply slack_nonneg.
  Qed.
  Lemma anchored_twice : anchored_dominant A -> twice_blocks.
  Proof.
    intros (D & AN) x Hx Nx. apply flt_sub_0. apply fle_neq_lt; [apply flipped_nonneg; auto|]. intros Z. apply Nx. apply vec_ext; [vlen|]. intros i Hi. rewrite nth_vzero.
    rewrite Hx in Hi. pose proof (flipped_sum x Hx) as Q. rewrite <- Z in Q. symmetry in Q. replace ((1 + 1) * 0) with (0 : K) in Q by ring.
    assert (T : forall i, (i < n)%nat -> 0 <= (ent A i i - off_diagonal A i) * (nth i x 0 * nth i x 0)).
    { intros k Hk. apply fle_mul; [|apply fsquare_nonneg]. apply -> (@fle_sub_0 K). apply D. auto. }
    assert (T2 : forall i, (i < n)%nat -> 0 <= sumn n (fun j => slack flipped x i j)) by (intros k Hk; apply sumn_nonneg; intros; apply slack_nonneg).
    apply fadd_nonneg_eq_0 in Q; [|apply fle_mul; [apply flt_le; apply two_pos|apply sumn_nonneg; auto]|apply sumn_nonneg; auto]. destruct Q as (Q1 & Q2).
    apply fmul_eq_0 in Q1. destruct Q1 as [Q1|Q1]; [destruct (@two_neq K Q1)|].
    pose proof (@sumn_nonneg_eq_0 K n _ T Q1) as W1. pose proof (@sumn_nonneg_eq_0 K n _ T2 Q2) as W2. cbv beta in W1, W2.
    specialize (AN i Hi). clear Hi. induction AN as [i Hi S|i j Hi Hj N AN IH].
    - specialize (W1 i Hi). apply fmul_eq_0 in W1. destruct W1 as [W1|W1]; [|apply fsquare_0; auto].
      apply -> (@flt_sub_0 K) in S. rewrite W1 in S. destruct (flt_irrefl S).
    - destruct (Nat.eq_dec i j) as [->|NE]; auto. specialize (W2 i Hi).
      pose proof (@sumn_nonneg_eq_0 K n (fun j => slack flipped x i j) (fun k _ => slack_nonneg flipped x i k) W2 j Hj) as W3. cbv beta in W3.
      apply (@slack_0 flipped x i j W3); auto. cbn [ent flipped]. destruct (sameb owned i j); auto. intros C. apply N. transitivity (- - ent A i j); [ring|]. rewrite C. ring.
  Qed.
  (** Weak dominance: no step makes the error larger. *)
  Lemma dominant_stable : dominant A -> forall e, length e = n -> energy (mulvec A) (error_step (mulvec A) B e) <= energy (mulvec A) e.
  Proof.
    intros D e He. pose proof (lin_len HL e He) as LA. pose proof (lin_len par_linear _ LA) as LB. unfold error_step.
    rewrite vsub_as_add by congruence. rewrite (energy_add HL SA) by (auto; vlen). unfold energy at 2. rewrite (lin_scale HL) by auto.
    rewrite !dot_scale_l, !dot_scale_r. fold (energy (mulvec A) (B (mulvec A e))). apply (@fle_sub_0 K).
    assert (Q1 : energy (mulvec A) (B (mulvec A e)) <= (1 + 1) * dot (B (mulvec A e)) (mulvec A e)).
    { eapply fle_trans; [|apply fle_mul_l; [apply flt_le; apply two_pos|apply (par_below (mulvec A e) LA)]]. apply (@fle_sub_0 K).
      apply flipped_nonneg; auto. }
    rewrite (dot_comm (mulvec A e)). apply -> (@fle_sub_0 K) in Q1.
    match goal with |- 0 <= ?g => replace g with ((1 + 1) * dot (B (mulvec A e)) (mulvec A e) - energy (mulvec A) (B (mulvec A e))) by (unfold energy; ring) end. auto.
  Qed.
End Good.
